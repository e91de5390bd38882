(** Facts about the distortion coefficients. *)
From Coq Require Import Reals ZArith List Lra Lia.
From Flocq Require Import Core.
From Verif Require Import Base Num Spec Lsq ProcSpec PolyUniq PrepImg PrepPts PrepFacts PrepFacts2 Post Proc ProcFacts ProcFacts2 ProcFacts3.
Import ListNotations.
Local Open Scope R_scope.

Lemma poly_repeat0 n r : poly (repeat 0 n) r = 0.
Proof. induction n as [|n IH]; cbn; [reflexivity|]. rewrite IH. ring. Qed.
Lemma poly_unit n r : poly (unit_coef n) r = 1.
Proof. unfold unit_coef. cbn [poly]. rewrite poly_repeat0. ring. Qed.
Lemma unit_length n : (1 <= n)%nat -> length (unit_coef n) = n.
Proof. intros H. unfold unit_coef. cbn [length]. rewrite repeat_length. lia. Qed.
Lemma concat_map_map {A B C} (f : A -> B -> C) (la : list (A * list B)) :
  concat (map (fun x => map (f (fst x)) (snd x)) la) = map (fun y => f (fst y) (snd y)) (concat (map (fun x => map (pair (fst x)) (snd x)) la)).
Proof.
  induction la as [|[a l] la IH]; [reflexivity|]. cbn [map concat fst snd]. rewrite map_app, <- IH. f_equal. rewrite map_map. reflexivity.
Qed.

Section Coef.
  Variable st : R -> R.
  Local Instance NSt5 : Num R := Rst st.
  Variable polyfit : list R -> list R -> nat -> res (list R).
  Variable minimize : (R -> R) -> R -> R.
  Variable lstsq : list (list R) -> list R -> res (list R).
  Hypothesis LS : lstsq_oracle lstsq.
  Notation pnt := (R * R)%type.

  Lemma powers_length n r : length (powers n r) = n.
  Proof. unfold powers. now rewrite map_length, seq_length. Qed.
  Lemma dot_powers_R v r : dot (powers (length v) r) v = poly v r.
  Proof. exact (dot_powers v r). Qed.
  Lemma solve_fitted {A} (n : nat) (f g : A -> R) (xs : list A) w : xs <> [] -> length w = n ->
    (forall a, In a xs -> poly w (f a) = g a) ->
    exists v, solve_rows lstsq (map (fun a => (powers n (f a), g a)) xs) = Ok v /\ length v = n /\
    forall a, In a xs -> poly v (f a) = g a.
  Proof.
    intros Hx Hw H. set (rows := map (fun a => (powers n (f a), g a)) xs).
    assert (Rn : rows <> []) by (unfold rows; destruct xs; [easy|discriminate]).
    destruct (LS n (map fst rows) (map snd rows)) as [v [E L]].
    - destruct rows; [easy|discriminate].
    - now rewrite !map_length.
    - intros r Hr. unfold rows in Hr. rewrite map_map in Hr. apply in_map_iff in Hr. destruct Hr as [a [<- _]]. apply powers_length.
    - exists v. split; [unfold solve_rows; destruct rows; [easy|exact E]|]. split; [apply L|].
      assert (F : Forall2 (fun r y => dot r v = y) (map fst rows) (map snd rows)).
      { apply (lsq_exact n _ _ _ w); [now rewrite !map_length|assumption|assumption|].
        unfold rows. rewrite !map_map. cbn [fst snd]. clear -H Hw. subst n.
        induction xs as [|a xs IH]; cbn [map]; constructor; [rewrite dot_powers_R; apply H; now left|]. apply IH. intros; apply H; now right. }
      destruct L as [Lv _]. unfold rows in F. rewrite !map_map in F. cbn [fst snd] in F. clear -F Lv. subst n.
      induction xs as [|b xs IH]; intros a Ha; [destruct Ha|]. cbn [map] in F. inversion F as [|? ? ? ? Q1 Q2].
      destruct Ha as [->|Ha]; [rewrite <- Q1; symmetry; apply dot_powers_R|now apply IH].
  Qed.
  Lemma solve_unique {A} (n : nat) (f g : A -> R) (xs : list A) w : (1 <= n)%nat -> distinct_values n (map f xs) -> length w = n ->
    (forall a, In a xs -> poly w (f a) = g a) ->
    solve_rows lstsq (map (fun a => (powers n (f a), g a)) xs) = Ok w.
  Proof.
    intros Hn D Hw H. destruct (solve_fitted n f g xs w) as [v [E [Lv F]]]; [|assumption|assumption|].
    - intros ->. destruct n; [lia|]. now apply distinct_values_ne in D.
    - rewrite E. f_equal. apply (poly_unique v w (map f xs)).
      + lia.
      + now rewrite Lv.
      + intros x Hx. apply in_map_iff in Hx. destruct Hx as [a [<- Ha]]. now rewrite F, H.
  Qed.

  (** *** Undistorted grids *)
  Lemma fits_hor_fun x y lines cs cs' : fits_hor st polyfit x y lines cs -> fits_hor st polyfit x y lines cs' -> cs = cs'.
  Proof.
    unfold fits_hor. intros F. revert cs'. induction F as [|l c ls cs H F IH]; intros cs' F'; inversion F' as [|? c' ? cs'' Q1 Q2]; [reflexivity|].
    f_equal; [|now apply IH]. destruct H as [u [v [w [-> E]]]]. destruct Q1 as [u' [v' [w' [-> E']]]]. rewrite E in E'. congruence.
  Qed.
  Lemma fits_ver_fun x y lines cs cs' : fits_ver st polyfit x y lines cs -> fits_ver st polyfit x y lines cs' -> cs = cs'.
  Proof.
    unfold fits_ver. intros F. revert cs'. induction F as [|l c ls cs H F IH]; intros cs' F'; inversion F' as [|? c' ? cs'' Q1 Q2]; [reflexivity|].
    f_equal; [|now apply IH]. destruct H as [u [v [w [-> E]]]]. destruct Q1 as [u' [v' [w' [-> E']]]]. rewrite E in E'. congruence.
  Qed.
  Lemma undistor_intercept_total lh lv xc yc opt thr ch sh cv sv w :
    para_fit_hor polyfit lh xc yc = Ok (ch, sh) -> para_fit_ver polyfit lv xc yc = Ok (cv, sv) -> ch <> [] -> cv <> [] ->
    check_missing_lines polyfit ch cv thr = Ok w ->
    exists u, calc_undistor_intercept polyfit minimize lh lv xc yc opt thr = Ok (w, u).
  Proof.
    intros Eh Ev Nh Nv Ec. unfold calc_undistor_intercept. rewrite Eh, Ev. cbn [bind]. rewrite Ec. cbn [bind].
    assert (Am : forall cs : list (R * R * R), cs <> [] -> exists i, argmin (map (fun c => nabs (cf2 c)) cs) = Ok (Z.of_nat i) /\ (i < length cs)%nat).
    { intros cs Hc. destruct (argmin (map (fun c => nabs (cf2 c)) cs)) as [p|] eqn:E; [|destruct cs; [easy|discriminate]].
      apply argmin_map_first in E. destruct E as [i [-> [_ L]]]. eauto. }
    destruct (Am ch Nh) as [i [-> Li]]. destruct (Am cv Nv) as [j [-> Lj]]. cbn [bind].
    destruct (near_window _ _ _ (Z.of_nat i) _) as [p1 p2]. destruct (near_window _ _ _ (Z.of_nat j) _) as [q1 q2].
    unfold optimize_intercept, spread_intercepts.
    rewrite !(pyget_nth _ _ 0) by (rewrite map_length; assumption). rewrite !(pyget_nth _ _ (0, 0, 0)) by assumption.
    destruct opt; cbn [bind]; eauto.
  Qed.
  Hypothesis PF : polyfit_oracle polyfit.
  Hypothesis MO : minimize_oracle minimize.
  Variables (cs ds : list R) (lh lv : list (list pnt)) (xc yc a e b f : R).
  Hypothesis Fh : Forall2 straight_hor cs lh.
  Hypothesis Fv : Forall2 straight_ver ds lv.
  Hypothesis Eh : equidistant a e cs.
  Hypothesis Ev : equidistant b f ds.
  Hypothesis He : e <> 0.
  Hypothesis Hf : f <> 0.
  Hypothesis Nh : (4 <= length cs)%nat.
  Hypothesis Nv : (4 <= length ds)%nat.
  Hypothesis S0 : st 0 = 0.
  Hypothesis Sh : forall c, In c cs -> st (c - yc) = c - yc.
  Hypothesis Sv : forall d, In d ds -> st (d - xc) = d - xc.
  Definition flat (z : R) (c : R) : R * R * R := (0, 0, c - z).
  Lemma flat_fit_hor : para_fit_hor polyfit lh xc yc = Ok (map (flat yc) cs, map (map (shiftp xc yc)) lh).
  Proof.
    rewrite (para_hor_exact st polyfit PF xc yc (map (flat yc) cs)).
    - f_equal. f_equal. rewrite map_map. apply map_ext_in. intros c Hc. unfold stc, flat. cbn [fst snd]. now rewrite S0, Sh.
    - generalize Fh. clear. intros G. induction G as [|c l cs' ls [H D] F IH]; cbn [map]; [constructor|constructor; [|assumption]].
      split; [|assumption]. intros p Hp. rewrite (H p Hp). unfold flat. cbn [fst snd]. ring.
  Qed.
  Lemma flat_fit_ver : para_fit_ver polyfit lv xc yc = Ok (map (flat xc) ds, map (map (shiftp xc yc)) lv).
  Proof.
    rewrite (para_ver_exact st polyfit PF xc yc (map (flat xc) ds)).
    - f_equal. f_equal. rewrite map_map. apply map_ext_in. intros c Hc. unfold stc, flat. cbn [fst snd]. now rewrite S0, Sv.
    - generalize Fv. clear. intros G. induction G as [|c l cs' ls [H D] F IH]; cbn [map]; [constructor|constructor; [|assumption]].
      split; [|assumption]. intros p Hp. rewrite (H p Hp). unfold flat. cbn [fst snd]. ring.
  Qed.
  Lemma flat_equidistant z u g l : equidistant u g l -> equidistant (u - z) g (map snd (map (flat z) l)).
  Proof.
    intros H i Hi. rewrite map_map in *. rewrite map_length in Hi. cbn [flat snd].
    rewrite (nth_indep _ 0 (0 - z)) by (now rewrite map_length). rewrite (map_nth (fun x => x - z) l 0 i). rewrite H by assumption. ring.
  Qed.
  Lemma flat_intercepts opt thr : 0 <= thr ->
    calc_undistor_intercept polyfit minimize lh lv xc yc opt thr = Ok (false, (map (fun c => c - yc) cs, map (fun d => d - xc) ds)).
  Proof.
    intros Ht. assert (Lh : length lh = length cs) by (symmetry; exact (Forall2_length _ _ _ Fh)).
    assert (Lv : length lv = length ds) by (symmetry; exact (Forall2_length _ _ _ Fv)).
    assert (CE := check_equidistant st polyfit PF (map (flat yc) cs) (map (flat xc) ds) (a - yc) e (b - xc) f thr).
    rewrite !map_length in CE. specialize (CE ltac:(lia) ltac:(lia) He Hf Ht (flat_equidistant yc a e cs Eh) (flat_equidistant xc b f ds Ev)).
    destruct (undistor_intercept_total lh lv xc yc opt thr _ _ _ _ false flat_fit_hor flat_fit_ver) as [[uh uv] E].
    - destruct cs; [cbn in Nh; lia|discriminate].
    - destruct ds; [cbn in Nv; lia|discriminate].
    - exact CE.
    - rewrite E. apply undistor_intercept_ok in E; [|lia|lia]. destruct E as [ch [cv [G1 [G2 [_ [S1 S2]]]]]].
      pose proof (fits_hor_fun _ _ _ _ _ G1 (para_hor_fits _ _ _ _ _ _ _ flat_fit_hor)) as ->.
      pose proof (fits_ver_fun _ _ _ _ _ G2 (para_ver_fits _ _ _ _ _ _ _ flat_fit_ver)) as ->.
      assert (D2 : forall n, (4 <= n)%nat -> (2 <= Nat.div2 n)%nat) by (intros [|[|[|[|n]]]] H; cbn; lia).
      pose proof (D2 _ Nh). pose proof (D2 _ Nv). rewrite Lh, Lv in S1, S2.
      apply (spread_equidistant st minimize _ _ _ _ (a - yc) e MO) in S1; [|lia|rewrite map_length; lia|assumption|now apply flat_equidistant].
      apply (spread_equidistant st minimize _ _ _ _ (b - xc) f MO) in S2; [|lia|rewrite map_length; lia|assumption|now apply flat_equidistant].
      rewrite S1, S2. f_equal. f_equal. rewrite !map_map. f_equal; apply map_ext_in; intros c Hc; unfold flat; cbn [snd]; auto.
  Qed.

  (** All points, relative to the centre. *)
  Definition all_points : list pnt := map (shiftp xc yc) (concat lh ++ concat lv).
  Hypothesis Zh : forall c, In c cs -> c <> yc.
  Hypothesis Zv : forall d, In d ds -> d <> xc.
  Lemma combine_rows (row : (R * R * R) * R * list pnt -> list (list R * R)) (row' : pnt -> list R * R) z :
    forall l ls, (forall c line, In c l -> row (flat z c, c - z, line) = map row' line) -> length l = length ls ->
    concat (map row (combine (combine (map (flat z) l) (map (fun c => c - z) l)) ls)) = map row' (concat ls).
  Proof.
    induction l as [|c l IH]; intros [|x ls] H L; try discriminate; [reflexivity|]. cbn [map combine concat].
    rewrite (H c x (or_introl eq_refl)), map_app. f_equal. apply IH; [|cbn in L; lia]. intros; apply H; now right.
  Qed.
  Lemma concat_map_concat {A B} (g : A -> B) l : concat (map (map g) l) = map g (concat l).
  Proof. induction l as [|x l IH]; [reflexivity|]. cbn. now rewrite map_app, IH. Qed.
  Definition unit_row (n : nat) (p : pnt) : list R * R := (powers n (radius p), 1).
  Lemma flat_backward_rows n :
    backward_rows_hor n (map (flat yc) cs) (map (fun c => c - yc) cs) (map (map (shiftp xc yc)) lh) ++
    backward_rows_ver n (map (flat xc) ds) (map (fun d => d - xc) ds) (map (map (shiftp xc yc)) lv) = map (unit_row n) all_points.
  Proof.
    unfold backward_rows_hor, backward_rows_ver, all_points. rewrite map_app, map_app. f_equal.
    - rewrite (combine_rows _ (unit_row n)).
      + now rewrite concat_map_concat.
      + intros c line Hc. apply map_ext. intros p. unfold unit_row, flat, cf0, cf2. cbn [fst snd].
        assert (E : ndiv (nadd (nmul (nmul 0 (snd p)) (snd p)) (c - yc)) (c - yc) = 1).
        { cbn [ndiv nadd nmul NSt5 Rst]. field. specialize (Zh c Hc). lra. }
        rewrite E. f_equal. f_equal. cbn [ndiv NSt5 Rst]. field.
      + rewrite map_length. exact (Forall2_length _ _ _ Fh).
    - rewrite (combine_rows _ (unit_row n)).
      + now rewrite concat_map_concat.
      + intros c line Hc. apply map_ext. intros p. unfold unit_row, flat, cf0, cf2. cbn [fst snd].
        assert (E : ndiv (nadd (nmul (nmul 0 (fst p)) (fst p)) (c - xc)) (c - xc) = 1).
        { cbn [ndiv nadd nmul NSt5 Rst]. field. specialize (Zv c Hc). lra. }
        rewrite E. f_equal. f_equal. cbn [ndiv NSt5 Rst]. field.
      + rewrite map_length. exact (Forall2_length _ _ _ Fv).
  Qed.
  Lemma neqb_ne (x : R) : x <> 0 -> neqb x n0 = false.
  Proof. intros H. change (neqb x n0) with (Req_bool x 0). apply Req_bool_false. assumption. Qed.
  Lemma concat_single {A B} (g : A -> B) l (h : A -> list B) : (forall x, h x = [g x]) -> concat (map h l) = map g l.
  Proof. intros H. induction l as [|x l IH]; [reflexivity|]. cbn. now rewrite H, IH. Qed.
  Lemma flat_forward_rows n :
    forward_rows_hor n (map (flat yc) cs) (map (fun c => c - yc) cs) (map (map (shiftp xc yc)) lh) ++
    forward_rows_ver n (map (flat xc) ds) (map (fun d => d - xc) ds) (map (map (shiftp xc yc)) lv) = map (unit_row n) all_points.
  Proof.
    unfold forward_rows_hor, forward_rows_ver, all_points. rewrite map_app, map_app. f_equal.
    - rewrite (combine_rows _ (unit_row n)).
      + now rewrite concat_map_concat.
      + intros c line Hc. pose proof (Zh c Hc) as Hz. rewrite neqb_ne by lra. cbn [negb]. apply concat_single. intros p.
        unfold unit_row, flat, cf0, cf2. cbn [fst snd].
        assert (E : ndiv (c - yc) (nadd (nmul (nmul 0 (snd p)) (snd p)) (c - yc)) = 1).
        { cbn [ndiv nadd nmul NSt5 Rst]. field. lra. }
        rewrite E, neqb_ne by lra. reflexivity.
      + rewrite map_length. exact (Forall2_length _ _ _ Fh).
    - rewrite (combine_rows _ (unit_row n)).
      + now rewrite concat_map_concat.
      + intros c line Hc. pose proof (Zv c Hc) as Hz. rewrite neqb_ne by lra. cbn [negb]. apply concat_single. intros p.
        unfold unit_row, flat, cf0, cf2. cbn [fst snd].
        assert (E : ndiv (c - xc) (nadd (nmul (nmul 0 (fst p)) (fst p)) (c - xc)) = 1).
        { cbn [ndiv nadd nmul NSt5 Rst]. field. lra. }
        rewrite E, neqb_ne by lra. reflexivity.
      + rewrite map_length. exact (Forall2_length _ _ _ Fv).
  Qed.
  Lemma num_factors_pos k : (k <= 32767)%Z -> num_factors k = Z.to_nat (Z.max 1 k).
  Proof. intros H. unfold num_factors. rewrite wrap16_id by lia. f_equal. lia. Qed.
  Variable num_fact : Z.
  Hypothesis NF : (num_fact <= 32767)%Z.
  Notation nfac := (Z.to_nat (Z.max 1 num_fact)).
  Hypothesis Dr : distinct_values nfac (map radius all_points).
  Variable thr : R.
  Hypothesis Ht : 0 <= thr.
  Variable opt : bool.
  Lemma flat_solve : solve_rows lstsq (map (unit_row nfac) all_points) = Ok (unit_coef nfac).
  Proof.
    apply (solve_unique nfac radius (fun _ => 1)).
    - lia.
    - exact Dr.
    - apply unit_length. lia.
    - intros p _. apply poly_unit.
  Qed.
  Lemma flat_backward : calc_coef_backward polyfit minimize lstsq lh lv xc yc num_fact opt thr = Ok (unit_coef nfac).
  Proof.
    unfold calc_coef_backward. rewrite num_factors_pos by assumption. rewrite flat_intercepts by assumption. cbn [bind snd].
    rewrite flat_fit_hor, flat_fit_ver. cbn [bind fst snd]. rewrite flat_backward_rows. exact flat_solve.
  Qed.
  Lemma flat_forward k : (k <= 32767)%Z -> Z.max 1 k = Z.max 1 num_fact -> calc_coef_forward polyfit minimize lstsq lh lv xc yc k opt thr = Ok (unit_coef nfac).
  Proof.
    intros Hk Ek. unfold calc_coef_forward. rewrite num_factors_pos by assumption. rewrite Ek. rewrite flat_intercepts by assumption. cbn [bind snd].
    rewrite flat_fit_hor, flat_fit_ver. cbn [bind fst snd]. rewrite flat_forward_rows. exact flat_solve.
  Qed.
  Lemma poly_value_R v r : poly_value v r = poly v r.
  Proof.
    unfold poly_value, nsum. cbn [nadd NSt5 Rst]. rewrite fold_plus. change n0 with 0. rewrite Rplus_0_l.
    rewrite <- (dot_powers v r). unfold powers. cbn [npow NSt5 Rst nmul]. generalize (map (pow r) (seq 0 (length v))).
    clear. induction v as [|x v IH]; intros [|y l]; [reflexivity|reflexivity|reflexivity|].
    cbn [combine map Rsum dot fst snd]. rewrite IH. ring.
  Qed.
  Lemma flat_backward_from_forward : calc_coef_backward_from_forward polyfit minimize lstsq lh lv xc yc num_fact opt thr = Ok (unit_coef nfac, unit_coef nfac).
  Proof.
    unfold calc_coef_backward_from_forward. rewrite num_factors_pos by assumption. rewrite (wrap16_id (Z.max num_fact 1)) by lia.
    rewrite flat_forward by lia. cbn [bind]. rewrite unit_length, Nat.eqb_refl by lia. cbn [negb].
    rewrite flat_fit_hor, flat_fit_ver. cbn [bind snd].
    assert (IR : forall p, inverse_row nfac (unit_coef nfac) p = [unit_row nfac p]).
    { intros p. unfold inverse_row. rewrite poly_value_R, poly_unit. rewrite neqb_ne by lra. cbn [negb]. unfold unit_row.
      cbn [nmul ndiv NSt5 Rst]. rewrite Rmult_1_l. f_equal. f_equal. change n1 with 1. field. }
    assert (ER : forall ls, concat (map (fun line => concat (map (inverse_row nfac (unit_coef nfac)) line)) (map (map (shiftp xc yc)) ls)) =
       map (unit_row nfac) (map (shiftp xc yc) (concat ls))).
    { intros ls. rewrite <- !concat_map_concat. f_equal. rewrite !map_map. apply map_ext. intros l. now apply concat_single. }
    rewrite !ER. rewrite <- !map_app. fold all_points. rewrite flat_solve. reflexivity.
  Qed.
End Coef.
