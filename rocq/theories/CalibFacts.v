(** Facts about the fitted distortion coefficients. *)
From Coq Require Import Reals ZArith List Lra Lia.
From Flocq Require Import Core.
From Verif Require Import Base Num Spec Lsq ProcSpec PolyUniq PrepImg PrepPts PrepFacts PrepFacts2 Post Proc ProcFacts ProcFacts2 ProcFacts3 ProcFacts4
  CalibSpec.
Import ListNotations.
Local Open Scope R_scope.

Definition row_of {N : Num R} (n : nat) (s : R * R) : list R * R := (powers n (fst s), snd s).

Section Calib.
  Variable st : R -> R.
  Local Instance NSt6 : Num R := Rst st.
  Variable polyfit : list R -> list R -> nat -> res (list R).
  Variable minimize : (R -> R) -> R -> R.
  Variable lstsq : list (list R) -> list R -> res (list R).
  Hypothesis LS : lstsq_oracle lstsq.
  Notation pnt := (R * R)%type.

  Lemma solve_best n l F : solve_rows lstsq (map (row_of n) l) = Ok F -> best_poly n l F.
  Proof.
    intros H. destruct l as [|s l]; [discriminate|]. set (l0 := s :: l) in *.
    destruct (LS n (map fst (map (row_of n) l0)) (map snd (map (row_of n) l0))) as [v [E [Lv M]]].
    - discriminate.
    - now rewrite !map_length.
    - intros r Hr. rewrite map_map in Hr. apply in_map_iff in Hr. destruct Hr as [a [<- _]]. apply powers_length.
    - change (lstsq (map fst (map (row_of n) l0)) (map snd (map (row_of n) l0)) = Ok F) in H. rewrite E in H. apply Ok_inj in H. subst v.
      assert (Q : forall G, length G = n -> sqerr (map fst (map (row_of n) l0)) (map snd (map (row_of n) l0)) G = fit_error G l0).
      { intros G LG. unfold sqerr, fit_error. clear -LG. induction l0 as [|t l0 IH]; [reflexivity|].
        cbn [map combine Rsum fst snd row_of]. rewrite IH. do 3 f_equal. subst n. apply dot_powers_R. }
      split; [assumption|]. intros G LG. rewrite <- !Q by assumption. now apply M.
  Qed.
  Lemma radius_dist xc yc p : radius (shiftp xc yc p) = dist p (yc, xc).
  Proof. unfold radius, dist, shiftp, py, pxc. cbn [fst snd nsqrt nadd nmul nsub NSt6 Rst]. f_equal. ring. Qed.

  (** One line; [t] the coordinate along the line, [g] the sample. *)
  Lemma forward_line n xc yc (t : pnt -> R) (g : R * R * R -> R -> pnt -> R * R) (c : R * R * R) u l :
    (forall p, g c u p = (dist p (yc, xc), u / (fst (fst c) * (t (shiftp xc yc p)) ^ 2 + snd c))) ->
    (if negb (neqb u n0) then
      concat (map (fun p : pnt =>
        let Fb := ndiv u (nadd (nmul (nmul (cf0 c) (t p)) (t p)) (cf2 c)) in
        if negb (neqb Fb n0) then [(powers n (radius p), Fb)] else []) (map (shiftp xc yc) l))
     else []) = map (row_of n) (usable (map (g c u) l)).
  Proof.
    intros G. unfold usable. change n0 with 0. cbn [neqb ndiv nadd nmul NSt6 Rst].
    destruct (Req_bool_spec u 0) as [->|Hu]; cbn [negb].
    - induction l as [|p l IH]; [reflexivity|]. cbn [map filter]. rewrite G. cbn [snd]. unfold Rdiv at 1. rewrite Rmult_0_l, Req_bool_true by reflexivity. exact IH.
    - induction l as [|p l IH]; [reflexivity|]. cbn [map filter concat]. rewrite G. cbn [snd]. rewrite IH. cbn zeta.
      replace (cf0 c * t (shiftp xc yc p) * t (shiftp xc yc p) + cf2 c) with (fst (fst c) * t (shiftp xc yc p) ^ 2 + snd c)
        by (unfold cf0, cf2; ring).
      destruct (Req_bool _ 0); cbn [negb app map]; [reflexivity|]. f_equal. unfold row_of. cbn [fst snd]. now rewrite radius_dist.
  Qed.
  Lemma backward_line n xc yc (t : pnt -> R) (g : R * R * R -> R -> pnt -> R * R) (c : R * R * R) u l :
    (forall p, g c u p = (dist p (yc, xc), u / (fst (fst c) * (t (shiftp xc yc p)) ^ 2 + snd c))) ->
    map (fun p : pnt => let Fb := ndiv (nadd (nmul (nmul (cf0 c) (t p)) (t p)) (cf2 c)) u in
        (powers n (ndiv (radius p) Fb), Fb)) (map (shiftp xc yc) l) = map (row_of n) (map inverse_sample (map (g c u) l)).
  Proof.
    intros G. rewrite !map_map. apply map_ext. intros p. rewrite G. unfold row_of, inverse_sample. cbn [fst snd]. cbn zeta. rewrite radius_dist.
    cbn [ndiv nadd nmul NSt6 Rst].
    replace (cf0 c * t (shiftp xc yc p) * t (shiftp xc yc p) + cf2 c) with (fst (fst c) * t (shiftp xc yc p) ^ 2 + snd c)
        by (unfold cf0, cf2; ring).
    unfold Rdiv. rewrite !Rinv_mult, !Rinv_inv. f_equal; [f_equal; ring|ring].
  Qed.
  Lemma samples_gen (A : R * R * R -> R -> list pnt -> list (list R * R)) (B : list (R * R) -> list (list R * R)) g (f : list pnt -> list pnt) :
    (forall a b, B (a ++ b) = B a ++ B b) -> B [] = [] -> (forall c u l, A c u (f l) = B (map (g c u) l)) ->
    forall lines cs us, concat (map (fun cul : R * R * R * R * list pnt => let '(c, u, l) := cul in A c u l) (combine (combine cs us) (map f lines))) =
    B (line_samples g cs us lines).
  Proof.
    intros Ba B0 H. unfold line_samples. induction lines as [|l lines IH]; intros [|c cs] [|u us]; try (symmetry; exact B0).
    cbn [map combine concat fst snd]. rewrite Ba, IH. f_equal. apply H.
  Qed.
  Lemma usable_app a b : usable (a ++ b) = usable a ++ usable b.
  Proof. apply filter_app. Qed.
  Lemma forward_samples_hor n xc yc lines cs us :
    forward_rows_hor n cs us (map (map (shiftp xc yc)) lines) = map (row_of n) (usable (line_samples (hor_sample xc yc) cs us lines)).
  Proof.
    unfold forward_rows_hor. apply (samples_gen _ (fun l => map (row_of n) (usable l))).
    - intros. now rewrite usable_app, map_app.
    - reflexivity.
    - intros c u l. now apply (forward_line n xc yc snd (hor_sample xc yc)).
  Qed.
  Lemma forward_samples_ver n xc yc lines cs us :
    forward_rows_ver n cs us (map (map (shiftp xc yc)) lines) = map (row_of n) (usable (line_samples (ver_sample xc yc) cs us lines)).
  Proof.
    unfold forward_rows_ver. apply (samples_gen _ (fun l => map (row_of n) (usable l))).
    - intros. now rewrite usable_app, map_app.
    - reflexivity.
    - intros c u l. now apply (forward_line n xc yc fst (ver_sample xc yc)).
  Qed.
  Lemma backward_samples_hor n xc yc lines cs us :
    backward_rows_hor n cs us (map (map (shiftp xc yc)) lines) = map (row_of n) (map inverse_sample (line_samples (hor_sample xc yc) cs us lines)).
  Proof.
    unfold backward_rows_hor. apply (samples_gen _ (fun l => map (row_of n) (map inverse_sample l))).
    - intros. now rewrite !map_app.
    - reflexivity.
    - intros c u l. now apply (backward_line n xc yc snd (hor_sample xc yc)).
  Qed.
  Lemma backward_samples_ver n xc yc lines cs us :
    backward_rows_ver n cs us (map (map (shiftp xc yc)) lines) = map (row_of n) (map inverse_sample (line_samples (ver_sample xc yc) cs us lines)).
  Proof.
    unfold backward_rows_ver. apply (samples_gen _ (fun l => map (row_of n) (map inverse_sample l))).
    - intros. now rewrite !map_app.
    - reflexivity.
    - intros c u l. now apply (backward_line n xc yc fst (ver_sample xc yc)).
  Qed.

  (** The calls, once the parabolas and the undistorted positions are known. *)
  Section Call.
    Variables (lh lv : list (list pnt)) (xc yc : R) (num_fact : Z) (opt : bool) (thr : R).
    Hypothesis NF : (num_fact <= 32767)%Z.
    Let n := Z.to_nat (Z.max 1 num_fact).
    Lemma nfac_pos : num_factors num_fact = n.
    Proof. unfold num_factors, n. rewrite wrap16_id by lia. f_equal. lia. Qed.
    Definition fwd_samples ch cv uh uv := usable (line_samples (hor_sample xc yc) ch uh lh ++ line_samples (ver_sample xc yc) cv uv lv).
    Definition bwd_samples ch cv uh uv := map inverse_sample (line_samples (hor_sample xc yc) ch uh lh ++ line_samples (ver_sample xc yc) cv uv lv).
    Lemma forward_call w uh uv ch cv sh sv : calc_undistor_intercept polyfit minimize lh lv xc yc opt thr = Ok (w, (uh, uv)) ->
      para_fit_hor polyfit lh xc yc = Ok (ch, sh) -> para_fit_ver polyfit lv xc yc = Ok (cv, sv) ->
      calc_coef_forward polyfit minimize lstsq lh lv xc yc num_fact opt thr = solve_rows lstsq (map (row_of n) (fwd_samples ch cv uh uv)).
    Proof.
      intros E Eh Ev. unfold calc_coef_forward. rewrite nfac_pos. rewrite E, Eh, Ev. cbn [bind fst snd].
      apply para_hor_lines in Eh. destruct Eh as [-> _]. apply para_ver_lines in Ev. destruct Ev as [-> _].
      rewrite forward_samples_hor, forward_samples_ver. unfold fwd_samples. now rewrite usable_app, map_app.
    Qed.
    Lemma backward_call w uh uv ch cv sh sv : calc_undistor_intercept polyfit minimize lh lv xc yc opt thr = Ok (w, (uh, uv)) ->
      para_fit_hor polyfit lh xc yc = Ok (ch, sh) -> para_fit_ver polyfit lv xc yc = Ok (cv, sv) ->
      calc_coef_backward polyfit minimize lstsq lh lv xc yc num_fact opt thr = solve_rows lstsq (map (row_of n) (bwd_samples ch cv uh uv)).
    Proof.
      intros E Eh Ev. unfold calc_coef_backward. rewrite nfac_pos. rewrite E, Eh, Ev. cbn [bind fst snd].
      apply para_hor_lines in Eh. destruct Eh as [-> _]. apply para_ver_lines in Ev. destruct Ev as [-> _].
      rewrite backward_samples_hor, backward_samples_ver. unfold bwd_samples. now rewrite !map_app.
    Qed.
    Lemma call_parts : (forall e, calc_undistor_intercept polyfit minimize lh lv xc yc opt thr <> Err e) ->
      exists w uh uv ch cv sh sv, calc_undistor_intercept polyfit minimize lh lv xc yc opt thr = Ok (w, (uh, uv)) /\
      para_fit_hor polyfit lh xc yc = Ok (ch, sh) /\ para_fit_ver polyfit lv xc yc = Ok (cv, sv).
    Proof.
      intros H. destruct (calc_undistor_intercept polyfit minimize lh lv xc yc opt thr) as [[w [uh uv]]|e] eqn:E; [|now destruct (H e)].
      unfold calc_undistor_intercept in E. destruct (para_fit_hor polyfit lh xc yc) as [[ch sh]|]; [|discriminate].
      destruct (para_fit_ver polyfit lv xc yc) as [[cv sv]|]; [|discriminate]. exists w, uh, uv, ch, cv, sh, sv. auto.
    Qed.
  End Call.
  (** *** Exact solutions *)
  Lemma fit_error_zero P l : (forall s, In s l -> poly P (fst s) = snd s) -> fit_error P l = 0.
  Proof.
    intros H. unfold fit_error. induction l as [|s l IH]; [reflexivity|]. cbn [map Rsum].
    rewrite (H s) by now left. rewrite IH by (intros; apply H; now right). ring.
  Qed.
  Lemma best_exact n l P F : best_poly n l F -> length P = n -> (forall s, In s l -> poly P (fst s) = snd s) ->
    forall s, In s l -> poly F (fst s) = snd s.
  Proof.
    intros [LF M] LP H s Hs. specialize (M P LP). rewrite (fit_error_zero P l H) in M.
    assert (Z := Rsum_nonneg_zero _ ltac:(intros x Hx; apply in_map_iff in Hx; destruct Hx as [? [<- _]]; apply pow2_ge_0) M ((poly F (fst s) - snd s) ^ 2)).
    assert (Q : (poly F (fst s) - snd s) ^ 2 = 0) by (apply Z; apply in_map_iff; eauto).
    cbn in Q. assert (Q' : (poly F (fst s) - snd s) * (poly F (fst s) - snd s) = 0) by lra. apply Rsqr_0_uniq in Q'. lra.
  Qed.
  Lemma best_is n l P F : best_poly n l F -> length P = n -> (forall s, In s l -> poly P (fst s) = snd s) ->
    distinct_values n (map fst l) -> F = P.
  Proof.
    intros B LP H D. pose proof (best_exact n l P F B LP H) as E. destruct B as [LF _].
    apply (poly_unique F P (map fst l)).
    - lia.
    - now rewrite LF.
    - intros x Hx. apply in_map_iff in Hx. destruct Hx as [s [<- Hs]]. now rewrite E, H.
  Qed.
  Lemma solve_total n l : l <> [] -> exists F, solve_rows lstsq (map (row_of n) l) = Ok F.
  Proof.
    intros Hl. destruct l as [|s l]; [easy|]. set (l0 := s :: l) in *.
    destruct (LS n (map fst (map (row_of n) l0)) (map snd (map (row_of n) l0))) as [v [E _]].
    - discriminate.
    - now rewrite !map_length.
    - intros r Hr. rewrite map_map in Hr. apply in_map_iff in Hr. destruct Hr as [a [<- _]]. apply powers_length.
    - exists v. exact E.
  Qed.
  Lemma line_samples_in g cs us lines s : In s (line_samples g cs us lines) <->
    exists i p, (i < length cs)%nat /\ (i < length us)%nat /\ (i < length lines)%nat /\
    In p (nth i lines []) /\ s = g (nth i cs (0, 0, 0)) (nth i us 0) p.
  Proof.
    unfold line_samples. revert us lines. induction cs as [|c cs IH]; intros [|u us] [|l lines]; cbn [combine map concat];
      try (split; [intros []|intros [i [p H]]; cbn [length] in H; lia]).
    rewrite in_app_iff, IH. cbn [fst snd]. split.
    - intros [H|[i [p [H1 [H2 [H3 H4]]]]]].
      + apply in_map_iff in H. destruct H as [p [<- Hp]]. exists 0%nat, p. cbn [length nth]. repeat split; auto; lia.
      + exists (S i), p. cbn [length nth]. repeat split; try lia; apply H4.
    - intros [[|i] [p [H1 [H2 [H3 [H4 H5]]]]]].
      + left. apply in_map_iff. exists p. cbn [nth] in H4, H5. subst s. auto.
      + right. exists i, p. cbn [length] in H1, H2, H3. cbn [nth] in H4, H5. repeat split; try lia; auto.
  Qed.
  Lemma usable_in l s : In s (usable l) <-> In s l /\ snd s <> 0.
  Proof.
    unfold usable. rewrite filter_In, Bool.negb_true_iff. split; intros [A B]; split; auto.
    - intros E. rewrite E, Req_bool_true in B; [discriminate|reflexivity].
    - now apply Req_bool_false.
  Qed.
  Definition triple (ac : R * R) : R * R * R := (fst ac, 0, snd ac).
  Lemma bent_on_hor xc yc cs lines : Forall2 (bent_hor xc yc) cs lines -> Forall2 (on_para_hor xc yc) (map triple cs) lines.
  Proof.
    intros F. induction F as [|c l cs ls [H D] F IH]; constructor; [|assumption]. split; [|assumption].
    intros p Hp. rewrite (H p Hp). unfold triple. cbn [fst snd]. ring.
  Qed.
  Lemma bent_on_ver xc yc cs lines : Forall2 (bent_ver xc yc) cs lines -> Forall2 (on_para_ver xc yc) (map triple cs) lines.
  Proof.
    intros F. induction F as [|c l cs ls [H D] F IH]; constructor; [|assumption]. split; [|assumption].
    intros p Hp. rewrite (H p Hp). unfold triple. cbn [fst snd]. ring.
  Qed.
  Lemma stored cs : st 0 = 0 -> (forall c, In c cs -> st (fst c) = fst c /\ st (snd c) = snd c) -> map (stc st) (map triple cs) = map triple cs.
  Proof.
    intros Z H. rewrite map_map. apply map_ext_in. intros c Hc. destruct (H c Hc) as [A B]. unfold stc, triple. cbn [fst snd]. now rewrite A, B, Z.
  Qed.
  Lemma F2_nth {A B} (P : A -> B -> Prop) l m i a b : Forall2 P l m -> (i < length l)%nat -> P (nth i l a) (nth i m b).
  Proof.
    intros F. revert i. induction F as [|x y l m H F IH]; intros i Hi; [cbn in Hi; lia|]. destruct i; cbn [nth]; [exact H|]. apply IH. cbn in Hi. lia.
  Qed.
  Lemma F2_of_nth {A B} (P : A -> B -> Prop) l m a b : length l = length m -> (forall i, (i < length l)%nat -> P (nth i l a) (nth i m b)) -> Forall2 P l m.
  Proof.
    revert m. induction l as [|x l IH]; intros [|y m] L H; try discriminate; constructor.
    - apply (H 0%nat). cbn. lia.
    - apply IH; [cbn in L; lia|]. intros i Hi. apply (H (S i)). cbn. lia.
  Qed.
  Lemma radial_py F xc yc p : py (radial_map F (yc, xc) p) = yc + poly F (dist p (yc, xc)) * (py p - yc).
  Proof. reflexivity. Qed.
  Lemma radial_px F xc yc p : pxc (radial_map F (yc, xc) p) = xc + poly F (dist p (yc, xc)) * (pxc p - xc).
  Proof. reflexivity. Qed.
End Calib.
