(** Facts on discorpy/proc/processing.py: grids of lines, perspective points
    and coefficients. *)
From Coq Require Import Reals ZArith List Lra Lia Permutation Sorted.
From Flocq Require Import Core.
From Verif Require Import Base Num NumFacts Spec Lsq ProcSpec PersSpec PrepSpec PrepImgFacts Sorting PolyUniq Img PrepImg PrepPts PrepFacts PrepFacts2 Post PostPersp Proc ProcPers
  ProcFacts ProcFacts2 ProcFacts3.
Import ListNotations.
Local Open Scope R_scope.

(** *** Grids of crossing points, any arithmetic *)
Section Gen.
  Context {T : Type} {N : Num T}.
  Definition stp (p : T * T) : T * T := (nf32 (fst p), nf32 (snd p)).
  Lemma cross_grid_fst {A} (f : A -> A -> T * T) hs vs i j d dh dv : (i < length hs)%nat -> (j < length vs)%nat ->
    nth j (nth i (fst (cross_grid f hs vs)) []) d = stp (f (nth i hs dh) (nth j vs dv)).
  Proof.
    intros Hi Hj. change (fst (cross_grid f hs vs)) with (map (fun h => map (fun v => stp (f h v)) vs) hs).
    rewrite (nth_indep _ [] ((fun h => map (fun v => stp (f h v)) vs) dh)) by (now rewrite map_length).
    rewrite (map_nth (fun h => map (fun v => stp (f h v)) vs) hs dh i).
    rewrite (nth_indep _ d ((fun v => stp (f (nth i hs dh) v)) dv)) by (now rewrite map_length).
    now rewrite (map_nth (fun v => stp (f (nth i hs dh) v)) vs dv j).
  Qed.
  Lemma cross_grid_snd {A} (f : A -> A -> T * T) hs vs i j d dh dv : (i < length hs)%nat -> (j < length vs)%nat ->
    nth i (nth j (snd (cross_grid f hs vs)) []) d = stp (f (nth i hs dh) (nth j vs dv)).
  Proof.
    intros Hi Hj. change (snd (cross_grid f hs vs)) with (map (fun v => map (fun h => stp (f h v)) hs) vs).
    rewrite (nth_indep _ [] ((fun v => map (fun h => stp (f h v)) hs) dv)) by (now rewrite map_length).
    rewrite (map_nth (fun v => map (fun h => stp (f h v)) hs) vs dv j).
    rewrite (nth_indep _ d ((fun h => stp (f h (nth j vs dv))) dh)) by (now rewrite map_length).
    now rewrite (map_nth (fun h => stp (f h (nth j vs dv))) hs dh i).
  Qed.
  Lemma cross_grid_transposed {A} (f : A -> A -> T * T) hs vs :
    transposed (length hs) (length vs) (fst (cross_grid f hs vs)) (snd (cross_grid f hs vs)).
  Proof.
    repeat apply conj.
    - cbn [fst cross_grid]. apply map_length.
    - cbn [fst cross_grid]. intros r H. apply in_map_iff in H. destruct H as [h [<- _]]. apply map_length.
    - cbn [snd cross_grid]. apply map_length.
    - cbn [snd cross_grid]. intros r H. apply in_map_iff in H. destruct H as [h [<- _]]. apply map_length.
    - intros i j d Hi Hj. destruct hs as [|h hs]; [cbn in Hi; lia|]. destruct vs as [|v vs]; [cbn in Hj; lia|].
      rewrite (cross_grid_fst f (h :: hs) (v :: vs) i j d h v Hi Hj). now rewrite (cross_grid_snd f (h :: hs) (v :: vs) i j d h v Hi Hj).
  Qed.
End Gen.

(** *** Straight lines *)
Section Linear.
  Variable st : R -> R.
  Local Instance NS1 : Num R := Rst st.
  Variable polyfit : list R -> list R -> nat -> res (list R).
  Lemma map_minus_0 {A} (f : A -> R) l : map (fun p => nsub (f p) n0) l = map f l.
  Proof. apply map_ext. intros. cbn. ring. Qed.
  Lemma linear_coef_hor_ok line c : linear_coef_hor polyfit line = Ok c -> line_hor st polyfit line c.
  Proof.
    unfold linear_coef_hor. destruct line as [|p line]; [discriminate|]. set (l := p :: line). fold l.
    assert (l <> []) by discriminate. rewrite !map_minus_0. unfold fit1.
    destruct (polyfit (map snd l) (map fst l) 1) as [[|a [|b [|]]]|] eqn:E; try discriminate. cbn [bind]. intros H'. apply Ok_inj in H'.
    split; [assumption|]. exists a, b. split; [exact E|]. now rewrite <- H'.
  Qed.
  Lemma linear_coef_ver_ok line c : linear_coef_ver polyfit line = Ok c -> line_ver st polyfit line c.
  Proof.
    unfold linear_coef_ver. destruct line as [|p line]; [discriminate|]. set (l := p :: line). fold l.
    assert (l <> []) by discriminate. rewrite !map_minus_0. unfold fit1.
    destruct (polyfit (map fst l) (map snd l) 1) as [[|a [|b [|]]]|] eqn:E; try discriminate. cbn [bind]. intros H'. apply Ok_inj in H'.
    split; [assumption|]. exists a, b. split; [exact E|]. now rewrite <- H'.
  Qed.
  Lemma linear_coef_hor_line line c : line_hor st polyfit line c -> linear_coef_hor polyfit line = Ok c.
  Proof.
    intros [Hne [a [b [E ->]]]]. unfold linear_coef_hor. destruct line as [|p line]; [contradiction|]. set (l := p :: line) in *.
    rewrite !map_minus_0. unfold fit1. assert (E' : polyfit (map snd l) (map fst l) 1%nat = Ok [a; b]) by exact E. rewrite E'. reflexivity.
  Qed.
  Lemma linear_coef_ver_line line c : line_ver st polyfit line c -> linear_coef_ver polyfit line = Ok c.
  Proof.
    intros [Hne [a [b [E ->]]]]. unfold linear_coef_ver. destruct line as [|p line]; [contradiction|]. set (l := p :: line) in *.
    rewrite !map_minus_0. unfold fit1. assert (E' : polyfit (map fst l) (map snd l) 1%nat = Ok [a; b]) by exact E. rewrite E'. reflexivity.
  Qed.
  Lemma generate_linear_ok lh lv ch cv : generate_linear_coef polyfit lh lv = Ok (ch, cv) ->
    Forall2 (line_hor st polyfit) lh ch /\ Forall2 (line_ver st polyfit) lv cv.
  Proof.
    unfold generate_linear_coef. destruct (mapM (linear_coef_hor polyfit) lh) as [h|] eqn:Eh; [|discriminate].
    destruct (mapM (linear_coef_ver polyfit) lv) as [v|] eqn:Ev; [|discriminate]. cbn [bind]. intros H. apply Ok_inj in H.
    apply pair_equal_spec in H. destruct H as [<- <-]. apply mapM_ok in Eh. apply mapM_ok in Ev. split.
    - eapply Forall2_imp_r; [|exact Eh]. intros a b. apply linear_coef_hor_ok.
    - eapply Forall2_imp_r; [|exact Ev]. intros a b. apply linear_coef_ver_ok.
  Qed.
  Lemma mapM_Forall2 {A B} (f : A -> res B) l m : Forall2 (fun a b => f a = Ok b) l m -> mapM f l = Ok m.
  Proof. induction 1 as [|a b l m E F IH]; [reflexivity|]. cbn [mapM]. now rewrite E, IH. Qed.
  Lemma generate_linear_lines lh lv ch cv : Forall2 (line_hor st polyfit) lh ch -> Forall2 (line_ver st polyfit) lv cv ->
    generate_linear_coef polyfit lh lv = Ok (ch, cv).
  Proof.
    intros Fh Fv. unfold generate_linear_coef. rewrite (mapM_Forall2 _ lh ch), (mapM_Forall2 _ lv cv); [reflexivity| |];
    (eapply Forall2_imp_r; [|eassumption]); intros a b; [apply linear_coef_ver_line|apply linear_coef_hor_line].
  Qed.
  Lemma generate_linear_total lh lv : polyfit_oracle polyfit -> (forall l, In l (lh ++ lv) -> l <> []) ->
    exists ch cv, generate_linear_coef polyfit lh lv = Ok (ch, cv) .
  Proof.
    intros PF Hne. unfold generate_linear_coef.
    destruct (mapM_total (linear_coef_hor polyfit) lh) as [h ->].
    { intros l Hl. unfold linear_coef_hor. assert (l <> []) by (apply Hne; apply in_or_app; now left).
      destruct l as [|p l]; [contradiction|]. destruct (fit1_total polyfit PF (map (fun p : R * R => nsub (snd p) n0) (p :: l))
        (map (fun p : R * R => nsub (fst p) n0) (p :: l))) as [c ->]; [discriminate|now rewrite !map_length|]. cbn [bind]. eauto. }
    destruct (mapM_total (linear_coef_ver polyfit) lv) as [v ->].
    { intros l Hl. unfold linear_coef_ver. assert (l <> []) by (apply Hne; apply in_or_app; now right).
      destruct l as [|p l]; [contradiction|]. destruct (fit1_total polyfit PF (map (fun p : R * R => nsub (fst p) n0) (p :: l))
        (map (fun p : R * R => nsub (snd p) n0) (p :: l))) as [c ->]; [discriminate|now rewrite !map_length|]. cbn [bind]. eauto. }
    cbn [bind]. eauto.
  Qed.
  (** Points on a straight line: that line is fitted. *)
  Lemma line_hor_exact line a b : polyfit_oracle polyfit -> distinct_values 2 (map pxc line) -> (forall p, In p line -> on_hor (a, b) p) ->
    line_hor st polyfit line (st a, st b).
  Proof.
    intros PF D H. split; [intros ->; apply distinct_values_ne in D; now apply D|]. exists a, b. split; [|reflexivity].
    apply (polyfit_exact polyfit PF 1 pxc py line [a; b]); [reflexivity|assumption|]. intros p Hp. rewrite (H p Hp). unfold evh. cbn. ring.
  Qed.
  Lemma line_ver_exact line a b : polyfit_oracle polyfit -> distinct_values 2 (map py line) -> (forall p, In p line -> on_ver (a, b) p) ->
    line_ver st polyfit line (st a, st b).
  Proof.
    intros PF D H. split; [intros ->; apply distinct_values_ne in D; now apply D|]. exists a, b. split; [|reflexivity].
    apply (polyfit_exact polyfit PF 1 py pxc line [a; b]); [reflexivity|assumption|]. intros p Hp. rewrite (H p Hp). unfold evh. cbn. ring.
  Qed.

  (** The crossing point of two lines. *)
  Lemma cross_yx_on ch cv : fst ch * fst cv <> 1 ->
    on_hor ch (cross_yx ch cv) /\ on_ver cv (cross_yx ch cv).
  Proof.
    intros H. destruct ch as [a1 b1], cv as [a2 b2]. unfold cross_yx, find_cross_point_between_lines, on_hor, on_ver, py, pxc.
    cbn [fst snd] in *. cbn. split; [field; lra|ring].
  Qed.
  Lemma cross_unique ch cv p q : fst ch * fst cv <> 1 -> on_hor ch p -> on_ver cv p -> on_hor ch q -> on_ver cv q -> p = q.
  Proof.
    intros H H1 H2 H3 H4. destruct ch as [a1 b1], cv as [a2 b2], p as [y x], q as [y' x']. unfold on_hor, on_ver, py, pxc in *. cbn [fst snd] in *.
    assert (E : (y - y') * (1 - a1 * a2) = 0).
    { subst x x'. replace ((y - y') * (1 - a1 * a2)) with ((y - (a1 * (a2 * y + b2) + b1)) - (y' - (a1 * (a2 * y' + b2) + b1))) by ring. lra. }
    apply Rmult_integral in E. destruct E as [E|E]; [|lra]. assert (E' : y = y') by lra. rewrite E' in *. apply pair_equal_spec. split; [reflexivity|lra].
  Qed.
End Linear.

(** *** Undistorted perspective lines *)
Section Undistorted.
  Variable st : R -> R.
  Local Instance NS2 : Num R := Rst st.
  Variable polyfit : list R -> list R -> nat -> res (list R).
  Variable minimize : (R -> R) -> R -> R.
  Lemma scaled_distance_ok scale l (p n : nat) d : (p < length l)%nat ->
    scaled_distance scale l (Z.max 0 (Z.of_nat p - Z.of_nat n)) (Z.min (Z.of_nat (length l)) (Z.of_nat p + Z.of_nat n + 1)) = Ok d ->
    gaps (around p n l) <> [] -> distance_for scale (gaps (around p n l)) d.
  Proof.
    intros Hp. unfold scaled_distance. rewrite lslice_around by assumption. rewrite (gaps_ndiff st). set (g := gaps (around p n l)).
    intros H Hne. split; [assumption|]. destruct scale.
    - apply Ok_inj in H. rewrite <- H. apply (mean_average st).
    - apply Ok_inj in H. rewrite <- H. exact (median_spec g Hne).
    - exact (namin_spec (fun x => x) g d H).
    - exact (namax_spec (fun x => x) g d H).
    - apply Ok_inj in H. rewrite <- H. pose proof (mean_average st g) as M. unfold NSt4 in M. unfold NS2. rewrite M. reflexivity.
  Qed.
End Undistorted.

Lemma Forall2_nth {A B} (P : A -> B -> Prop) l m d d' : Forall2 P l m -> forall k, (k < length m)%nat -> P (nth k l d) (nth k m d').
Proof. induction 1 as [|a b l m E F IH]; intros [|k] Hk; cbn [length] in Hk; try lia; [exact E|]. cbn [nth]. apply IH. lia. Qed.
Lemma mapi_seq {A B} (f : nat -> A -> B) l d : mapi f l = map (fun i => f i (nth i l d)) (seq 0 (length l)).
Proof.
  destruct l as [|a0 l0]; [reflexivity|]. set (l := a0 :: l0).
  apply (nth_ext _ _ (f O a0) (f O a0)); [rewrite mapi_length, map_length, seq_length; reflexivity|].
  intros i Hi. rewrite mapi_length in Hi. rewrite (mapi_nth f l _ d i Hi).
  rewrite (nth_indep _ (f O a0) ((fun i => f i (nth i l d)) O)) by (now rewrite map_length, seq_length).
  rewrite (map_nth (fun i => f i (nth i l d))), seq_nth by assumption. reflexivity.
Qed.
Lemma div2_Z n : (Z.of_nat n / 2)%Z = Z.of_nat (Nat.div2 n).
Proof. rewrite Nat.div2_div. now rewrite (Nat2Z.inj_div n 2). Qed.
Lemma div2_lt n : (1 <= n)%nat -> (Nat.div2 n < n)%nat.
Proof. intros. apply Nat.lt_div2. lia. Qed.
Lemma used_pos nh nv : (1 <= used nh nv)%nat.
Proof. unfold used. lia. Qed.
Lemma used_Z nh nv : Z.min (Z.max (Z.of_nat (Nat.div2 nh) - 1) 1) (Z.max (Z.of_nat (Nat.div2 nv) - 1) 1) = Z.of_nat (used nh nv).
Proof. unfold used. lia. Qed.
Lemma middle_gaps l n : (2 <= length l)%nat -> (1 <= n)%nat -> gaps (around (Nat.div2 (length l)) n l) <> [].
Proof.
  intros H Hn E. apply (f_equal (@length _)) in E. rewrite gaps_length, around_length in E. cbn in E.
  pose proof (div2_lt (length l) ltac:(lia)). destruct (length l) as [|[|k]]; try lia; cbn [Nat.div2] in *; lia.
Qed.

Section Undistorted2.
  Variable st : R -> R.
  Local Instance NS3 : Num R := Rst st.
  Variable polyfit : list R -> list R -> nat -> res (list R).
  Variable minimize : (R -> R) -> R -> R.
  Lemma func_opt_pers_R l x : func_opt_pers (middle l) (Z.of_nat (Nat.div2 (length l))) l x = progression_error l x.
  Proof.
    unfold func_opt_pers, progression_error, nsum. cbn [nadd NS3 Rst]. rewrite fold_plus. change n0 with 0. rewrite Rplus_0_l. f_equal.
    rewrite (mapi_seq _ l 0). apply map_ext. intros i. cbn [nadd nsub nmul npow nofZ NS3 Rst]. now rewrite minus_IZR, <- !INR_IZR_INZ.
  Qed.
  Lemma progression_entries l d p u : p = Z.of_nat (Nat.div2 (length l)) ->
    mapM (fun i => bind (pyget l p) (fun c => Ok (nf32 (nadd (nmul (nofZ (i - p)) d) c)))) (zrange 0 (Z.of_nat (length l))) = Ok u ->
    length u = length l /\ forall i, (i < length l)%nat -> nth i u 0 = st ((INR i - INR (Nat.div2 (length l))) * d + middle l).
  Proof.
    intros -> H. apply mapM_ok in H. pose proof (Forall2_length _ _ _ H) as L. rewrite zrange_length in L. split; [lia|].
    intros i Hi. assert (Hl : (1 <= length l)%nat) by lia.
    assert (G : forall k, (k < length u)%nat -> bind (pyget l (Z.of_nat (Nat.div2 (length l))))
        (fun c => Ok (nf32 (nadd (nmul (nofZ (nth k (zrange 0 (Z.of_nat (length l))) 0%Z - Z.of_nat (Nat.div2 (length l)))) d) c))) = Ok (nth k u 0)).
    { intros k Hk. exact (Forall2_nth _ _ _ 0%Z 0 H k Hk). }
    specialize (G i ltac:(lia)). rewrite (pyget_nth l _ 0) in G by (now apply div2_lt). cbn [bind] in G. apply Ok_inj in G. rewrite <- G.
    rewrite zrange_nth by lia. cbn [nf32 nadd nmul nofZ NS3 Rst]. rewrite minus_IZR, Z.add_0_l, <- !INR_IZR_INZ. reflexivity.
  Qed.
  Lemma optimised_ok scale (opt : bool) l (n : nat) d e : (2 <= length l)%nat -> (1 <= n)%nat ->
    scaled_distance scale l (Z.max 0 (Z.of_nat (Nat.div2 (length l)) - Z.of_nat n))
      (Z.min (Z.of_nat (length l)) (Z.of_nat (Nat.div2 (length l)) + Z.of_nat n + 1)) = Ok d ->
    (if opt then optimize_intercept_perspective minimize d (Z.of_nat (Nat.div2 (length l))) l else Ok d) = Ok e ->
    line_step minimize scale opt n l e.
  Proof.
    intros H2 Hn H1 H. apply (scaled_distance_ok st) in H1; [|apply div2_lt; lia|now apply middle_gaps]. exists d. split; [assumption|].
    destruct opt; split; try discriminate; intros _.
    - unfold optimize_intercept_perspective in H. rewrite (pyget_nth l _ 0) in H by (apply div2_lt; lia). cbn [bind] in H. apply Ok_inj in H.
      eexists. split; [|symmetry; exact H]. intros x. apply func_opt_pers_R.
    - apply Ok_inj in H. now symmetry.
  Qed.
  Lemma undistor_pers_ok lh lv (eq : bool) scale (opt : bool) uh uv : (2 <= length lh)%nat -> (2 <= length lv)%nat ->
    calc_undistor_intercept_perspective polyfit minimize lh lv eq scale opt = Ok (uh, uv) ->
    exists ch cv sh sv dh dv, Forall2 (line_hor st polyfit) lh ch /\ Forall2 (line_ver st polyfit) lv cv /\
      line_step minimize scale opt (used (length lh) (length lv)) (map snd ch) sh /\
      line_step minimize scale opt (used (length lh) (length lv)) (map snd cv) sv /\
      dh = (if eq then common_step scale sh sv else sh) /\ dv = (if eq then common_step scale sh sv else sv) /\
      length uh = length lh /\ length uv = length lv /\
      (forall i, (i < length lh)%nat -> nth i uh 0 = st ((INR i - INR (Nat.div2 (length lh))) * dh + middle (map snd ch))) /\
      (forall j, (j < length lv)%nat -> nth j uv 0 = st ((INR j - INR (Nat.div2 (length lv))) * dv + middle (map snd cv))).
  Proof.
    intros Lh Lv. unfold calc_undistor_intercept_perspective. cbn zeta.
    destruct (generate_linear_coef polyfit lh lv) as [[ch cv]|] eqn:E; [|discriminate]. apply (generate_linear_ok st) in E. destruct E as [Fh Fv].
    cbn [bind fst snd]. pose proof (Forall2_length _ _ _ Fh) as LH. pose proof (Forall2_length _ _ _ Fv) as LV.
    rewrite !div2_Z, used_Z. set (n := used (length lh) (length lv)).
    assert (EH : length lh = length (map snd ch)) by (now rewrite map_length).
    assert (EV : length lv = length (map snd cv)) by (now rewrite map_length).
    assert (Hn : (1 <= n)%nat) by apply used_pos. clearbody n.
    rewrite EH, EV in *. set (ih := map snd ch) in *. set (iv := map snd cv) in *.
    destruct (scaled_distance scale ih _ _) as [d1|] eqn:E1; [|discriminate]. cbn [bind].
    destruct (scaled_distance scale iv _ _) as [d2|] eqn:E2; [|discriminate]. cbn [bind].
    match goal with |- bind ?m _ = _ -> _ => destruct m as [e1|] eqn:E3; [|discriminate] end. cbn [bind].
    match goal with |- bind ?m _ = _ -> _ => destruct m as [e2|] eqn:E4; [|discriminate] end. cbn [bind].
    match goal with |- bind ?m _ = _ -> _ => destruct m as [uh'|] eqn:E5; [|discriminate] end. cbn [bind].
    match goal with |- bind ?m _ = _ -> _ => destruct m as [uv'|] eqn:E6; [|discriminate] end. cbn [bind].
    intros H. apply Ok_inj in H. apply pair_equal_spec in H. destruct H as [-> ->].
    apply (progression_entries ih) in E5; [|reflexivity]. apply (progression_entries iv) in E6; [|reflexivity].
    apply (optimised_ok scale opt ih n d1 e1 Lh Hn E1) in E3. apply (optimised_ok scale opt iv n d2 e2 Lv Hn E2) in E4.
    destruct E5 as [L1 U1]. destruct E6 as [L2 U2].
    assert (CS : match scale with ScMax => nmax e1 e2 | ScMin => nmin e1 e2 | _ => nmul (nadd e1 e2) (nofQ 1 2) end = common_step scale e1 e2).
    { destruct scale; cbn [common_step].
      - cbn [nmul nadd nofQ NS3 Rst]. field.
      - cbn [nmul nadd nofQ NS3 Rst]. field.
      - unfold nmin. cbn [nltb nleb NS3 Rst]. unfold Rmin. destruct (Rle_dec e1 e2); destruct (Rlt_bool_spec e2 e1); try lra; reflexivity.
      - unfold nmax. cbn [nltb nleb NS3 Rst]. unfold Rmax. destruct (Rle_dec e1 e2); destruct (Rlt_bool_spec e1 e2); try lra; reflexivity.
      - cbn [nmul nadd nofQ NS3 Rst]. field. }
    exists ch, cv, e1, e2. do 2 eexists. split; [exact Fh|]. split; [exact Fv|]. split; [exact E3|]. split; [exact E4|].
    split; [reflexivity|]. split; [reflexivity|]. split; [exact L1|]. split; [exact L2|].
    rewrite <- CS. split; [exact U1|exact U2].
  Qed.
End Undistorted2.

Section Undistorted3.
  Local Instance NS4 : Num R := Rexact.
  Variable polyfit : list R -> list R -> nat -> res (list R).
  Variable minimize : (R -> R) -> R -> R.
  Lemma stp_id p : stp p = p.
  Proof. now destruct p. Qed.
  Lemma Forall2_fun {A B} (P : A -> B -> Prop) l : (forall a b b', P a b -> P a b' -> b = b') -> forall m m', Forall2 P l m -> Forall2 P l m' -> m = m'.
  Proof.
    intros D. induction l as [|a l IH]; intros m m' F F'; inversion F as [|? ? ? ? Q1 Q2]; inversion F' as [|? ? ? ? Q3 Q4]; [reflexivity|].
    f_equal; [eapply D; eassumption|now apply IH].
  Qed.
  Lemma line_hor_fun st l c c' : line_hor st polyfit l c -> line_hor st polyfit l c' -> c = c'.
  Proof. intros [_ [a [b [E ->]]]] [_ [a' [b' [E' ->]]]]. rewrite E in E'. apply Ok_inj in E'. injection E' as -> ->. reflexivity. Qed.
  Lemma line_ver_fun st l c c' : line_ver st polyfit l c -> line_ver st polyfit l c' -> c = c'.
  Proof. intros [_ [a [b [E ->]]]] [_ [a' [b' [E' ->]]]]. rewrite E in E'. apply Ok_inj in E'. injection E' as -> ->. reflexivity. Qed.
  Lemma undistorted_lines_ok lh lv (eq : bool) scale (opt : bool) gh gv : (2 <= length lh)%nat -> (2 <= length lv)%nat ->
    generate_undistorted_perspective_lines polyfit minimize lh lv eq scale opt = Ok (gh, gv) ->
    transposed (length lh) (length lv) gh gv /\
    exists a ch cv sh sv dh dv, Forall2 (line_hor (fun x => x) polyfit) lh ch /\ Forall2 (line_ver (fun x => x) polyfit) lv cv /\
      common_slope polyfit ch cv a /\
      line_step minimize scale opt (used (length lh) (length lv)) (map snd ch) sh /\
      line_step minimize scale opt (used (length lh) (length lv)) (map snd cv) sv /\
      dh = (if eq then common_step scale sh sv else sh) /\ dv = (if eq then common_step scale sh sv else sv) /\
      forall i j, (i < length lh)%nat -> (j < length lv)%nat ->
        on_hor (a, (INR i - INR (Nat.div2 (length lh))) * dh + middle (map snd ch)) (at_ gh i j) /\
        on_ver (- a, (INR j - INR (Nat.div2 (length lv))) * dv + middle (map snd cv)) (at_ gh i j).
  Proof.
    intros Lh Lv. unfold generate_undistorted_perspective_lines. cbn zeta.
    destruct (generate_linear_coef polyfit lh lv) as [[ch cv]|] eqn:E; [|discriminate]. apply (generate_linear_ok (fun x => x)) in E. destruct E as [Fh Fv].
    cbn [bind]. destruct (fit1 polyfit (map snd ch) (map fst ch)) as [[ah bh]|] eqn:E1; [|discriminate]. cbn [bind].
    destruct (fit1 polyfit (map snd cv) _) as [[av bv]|] eqn:E2; [|discriminate]. cbn [bind].
    apply fit1_ok in E1. apply fit1_ok in E2. cbn [fst snd] in E1, E2.
    match goal with |- context [calc_undistor_intercept_perspective ?a ?b ?c ?d ?e ?f ?g] => destruct (calc_undistor_intercept_perspective a b c d e f g) as [[uh uv]|] eqn:E3; [|discriminate] end.
    cbn [bind fst snd]. apply (undistor_pers_ok (fun x => x)) in E3; [|assumption|assumption].
    destruct E3 as [ch' [cv' [sh [sv [dh [dv [Fh' [Fv' [S1 [S2 [Dh [Dv [L1 [L2 [U1 U2]]]]]]]]]]]]]]].
    assert (ch' = ch) by (eapply Forall2_fun; [intros a b b'; apply (line_hor_fun (fun x => x) a b b')|eassumption|eassumption]). subst ch'.
    assert (cv' = cv) by (eapply Forall2_fun; [intros a b b'; apply (line_ver_fun (fun x => x) a b b')|eassumption|eassumption]). subst cv'.
    match goal with |- context [if ?b then ?x else ?y] => set (a0 := if b then x else y) end.
    intros H. apply Ok_inj in H.
    assert (H1 : gh = fst (gh, gv)) by reflexivity. assert (H2 : gv = snd (gh, gv)) by reflexivity. rewrite <- H in H1, H2.
    set (hs := map (fun b => (nf32 (nmul a0 n1), nf32 b)) uh) in *. set (vs := map (fun b => (nf32 (nmul (nopp a0) n1), nf32 b)) uv) in *.
    assert (LL : length hs = length lh) by (unfold hs; now rewrite map_length).
    assert (LL' : length vs = length lv) by (unfold vs; now rewrite map_length).
    pose proof (cross_grid_transposed cross_yx hs vs) as TR. rewrite LL, LL' in TR. rewrite <- H1, <- H2 in TR. split; [exact TR|].
    exists a0, ch, cv, sh, sv, dh, dv. split; [exact Fh|]. split; [exact Fv|]. split.
    { exists ah, bh, av, bv. split; [exact E1|]. split; [exact E2|]. unfold a0. cbn [nleb nofQ nabs nsub nmul ndiv nadd NS4 Rexact Rst].
      change (IZR 1 / IZR 10000) with (1 / 10000). split; intros Hc.
      - rewrite Rle_bool_true by exact Hc. assert (ah - av <> 0) by (intros Z; rewrite Z, Rabs_R0 in Hc; lra).
        exists ((bv - bh) / (ah - av)). split; field; assumption.
      - rewrite Rle_bool_false by exact Hc. lra. }
    split; [exact S1|]. split; [exact S2|]. split; [exact Dh|]. split; [exact Dv|].
    intros i j Hi Hj. unfold at_. rewrite H1.
    rewrite (cross_grid_fst cross_yx hs vs i j (0, 0) (0, 0) (0, 0)) by lia. rewrite stp_id.
    assert (Ei : nth i hs (0, 0) = (a0, (INR i - INR (Nat.div2 (length lh))) * dh + middle (map snd ch))).
    { unfold hs. rewrite (nth_indep _ (0, 0) ((fun b => (nf32 (nmul a0 n1), nf32 b)) 0)) by (rewrite map_length; lia).
      rewrite (map_nth (fun b => (nf32 (nmul a0 n1), nf32 b))). rewrite U1 by assumption. cbn. now rewrite Rmult_1_r. }
    assert (Ej : nth j vs (0, 0) = (- a0, (INR j - INR (Nat.div2 (length lv))) * dv + middle (map snd cv))).
    { unfold vs. rewrite (nth_indep _ (0, 0) ((fun b => (nf32 (nmul (nopp a0) n1), nf32 b)) 0)) by (rewrite map_length; lia).
      rewrite (map_nth (fun b => (nf32 (nmul (nopp a0) n1), nf32 b))). rewrite U2 by assumption. cbn. now rewrite Rmult_1_r. }
    rewrite Ei, Ej. apply (cross_yx_on (fun x => x)). cbn [fst]. pose proof (pow2_ge_0 a0). nra.
  Qed.
  (** Lines y = a x + b + i d and x = - a y + e + j f form a lattice. *)
  Lemma orthogonal_lattice a b d e f (n m : nat) g :
    (forall i j, (i < n)%nat -> (j < m)%nat -> on_hor (a, b + INR i * d) (at_ g i j) /\ on_ver (- a, e + INR j * f) (at_ g i j)) ->
    let v := pscale (d / (1 + a ^ 2)) (1, - a) in let w := pscale (f / (1 + a ^ 2)) (a, 1) in
    pdot v w = 0 /\ pdot v v * f ^ 2 = pdot w w * d ^ 2 /\ pdot v v * (1 + a ^ 2) = d ^ 2 /\
    exists o, forall i j, (i < n)%nat -> (j < m)%nat -> at_ g i j = lattice o v w i j.
  Proof.
    intros H v w. assert (A : 1 + a ^ 2 <> 0) by (pose proof (pow2_ge_0 a); lra).
    split; [|split; [|split]].
    - unfold v, w, pdot, pscale, py, pxc. cbn [fst snd]. field. lra.
    - unfold v, w, pdot, pscale, py, pxc. cbn [fst snd]. field. lra.
    - unfold v, w, pdot, pscale, py, pxc. cbn [fst snd]. field. lra.
    - exists ((a * e + b) / (1 + a ^ 2), (e - a * b) / (1 + a ^ 2)). intros i j Hi Hj. destruct (H i j Hi Hj) as [H1 H2].
      apply (cross_unique (a, b + INR i * d) (- a, e + INR j * f)); [cbn [fst]; pose proof (pow2_ge_0 a); nra|assumption|assumption| |];
      unfold on_hor, on_ver, lattice, v, w, padd, pscale, py, pxc; cbn [fst snd]; field; lra.
  Qed.
End Undistorted3.

Section UndistortedTotal.
  Variable st : R -> R.
  Local Instance NS5 : Num R := Rst st.
  Variable polyfit : list R -> list R -> nat -> res (list R).
  Variable minimize : (R -> R) -> R -> R.
  Hypothesis PF : polyfit_oracle polyfit.
  Lemma scaled_distance_total scale l (p n : nat) : (p < length l)%nat -> gaps (around p n l) <> [] ->
    exists d, scaled_distance scale l (Z.max 0 (Z.of_nat p - Z.of_nat n)) (Z.min (Z.of_nat (length l)) (Z.of_nat p + Z.of_nat n + 1)) = Ok d.
  Proof.
    intros Hp Hg. unfold scaled_distance. rewrite lslice_around by assumption. rewrite (gaps_ndiff st). destruct (gaps (around p n l)) as [|a g]; [contradiction|].
    destruct scale; eexists; reflexivity.
  Qed.
  Lemma progression_total l d : (1 <= length l)%nat -> exists u,
    mapM (fun i => bind (pyget l (Z.of_nat (Nat.div2 (length l)))) (fun c => Ok (nf32 (nadd (nmul (nofZ (i - Z.of_nat (Nat.div2 (length l)))) d) c)))) (zrange 0 (Z.of_nat (length l))) = Ok u.
  Proof. intros H. apply mapM_total. intros i _. rewrite (pyget_nth l _ 0) by (now apply div2_lt). cbn [bind]. eauto. Qed.
  Lemma undistor_pers_total lh lv (eq : bool) scale (opt : bool) : (2 <= length lh)%nat -> (2 <= length lv)%nat -> (forall l, In l (lh ++ lv) -> l <> []) ->
    exists u, calc_undistor_intercept_perspective polyfit minimize lh lv eq scale opt = Ok u.
  Proof.
    intros Lh Lv Hne. unfold calc_undistor_intercept_perspective. cbn zeta.
    destruct (generate_linear_total st polyfit lh lv PF Hne) as [ch [cv E]].
    pose proof (generate_linear_ok st polyfit lh lv ch cv E) as [Fh Fv]. unfold NS1 in E. unfold NS5. rewrite E. cbn [bind fst snd].
    pose proof (Forall2_length _ _ _ Fh) as LH. pose proof (Forall2_length _ _ _ Fv) as LV.
    rewrite !div2_Z, used_Z. pose proof (used_pos (length lh) (length lv)) as Hn. set (n := used (length lh) (length lv)) in *. clearbody n.
    assert (EH : length lh = length (map snd ch)) by (now rewrite map_length).
    assert (EV : length lv = length (map snd cv)) by (now rewrite map_length).
    rewrite EH, EV in *. set (ih := map snd ch) in *. set (iv := map snd cv) in *.
    destruct (scaled_distance_total scale ih (Nat.div2 (length ih)) n) as [d1 E1]; [apply div2_lt; lia|now apply middle_gaps|].
    destruct (scaled_distance_total scale iv (Nat.div2 (length iv)) n) as [d2 E2]; [apply div2_lt; lia|now apply middle_gaps|].
    unfold NS5 in E1, E2. rewrite E1, E2. cbn [bind]. unfold optimize_intercept_perspective.
    rewrite !(pyget_nth ih _ 0), !(pyget_nth iv _ 0) by (apply div2_lt; lia).
    assert (G : forall (l : list R) (c d : R), exists u, mapM (fun i : Z => ' c <- Ok c;; Ok (nf32 (nofZ (i - Z.of_nat (Nat.div2 (length l))) *! d +! c)%num)) (zrange 0 (Z.of_nat (length l))) = Ok u).
    { intros l c d. apply mapM_total. intros i _. cbn [bind]. eauto. }
    destruct opt; cbn [bind].
    - match goal with |- exists _, bind (mapM (fun i => Ok (nf32 (nadd (nmul _ ?d) ?c))) _) _ = _ => destruct (G ih c d) as [u1 G1] end.
      cbn [bind] in G1. unfold NS5 in G1. rewrite G1. cbn [bind].
      match goal with |- exists _, bind (mapM (fun i => Ok (nf32 (nadd (nmul _ ?d) ?c))) _) _ = _ => destruct (G iv c d) as [u2 G2] end.
      cbn [bind] in G2. unfold NS5 in G2. rewrite G2. cbn [bind]. eauto.
    - match goal with |- exists _, bind (mapM (fun i => Ok (nf32 (nadd (nmul _ ?d) ?c))) _) _ = _ => destruct (G ih c d) as [u1 G1] end.
      cbn [bind] in G1. unfold NS5 in G1. rewrite G1. cbn [bind].
      match goal with |- exists _, bind (mapM (fun i => Ok (nf32 (nadd (nmul _ ?d) ?c))) _) _ = _ => destruct (G iv c d) as [u2 G2] end.
      cbn [bind] in G2. unfold NS5 in G2. rewrite G2. cbn [bind]. eauto.
  Qed.
  Lemma undistorted_total lh lv (eq : bool) scale (opt : bool) : (2 <= length lh)%nat -> (2 <= length lv)%nat -> (forall l, In l (lh ++ lv) -> l <> []) ->
    exists g, generate_undistorted_perspective_lines polyfit minimize lh lv eq scale opt = Ok g.
  Proof.
    intros Lh Lv Hne. unfold generate_undistorted_perspective_lines. cbn zeta.
    destruct (undistor_pers_total lh lv eq scale opt Lh Lv Hne) as [u EU].
    destruct (generate_linear_total st polyfit lh lv PF Hne) as [ch [cv E]].
    pose proof (generate_linear_ok st polyfit lh lv ch cv E) as [Fh Fv]. unfold NS1 in E. unfold NS5. rewrite E. cbn [bind fst snd].
    pose proof (Forall2_length _ _ _ Fh) as LH. pose proof (Forall2_length _ _ _ Fv) as LV.
    destruct (fit1_total polyfit PF (map snd ch) (map fst ch)) as [[ah bh] ->].
    { destruct ch; [cbn [length] in LH; unfold pt in *; lia|discriminate]. } { now rewrite !map_length. }
    destruct (fit1_total polyfit PF (map snd cv) (map (fun c : R * R => nopp (fst c)) cv)) as [[av bv] E2].
    { destruct cv; [cbn [length] in LV; unfold pt in *; lia|discriminate]. } { now rewrite !map_length. }
    unfold NS5 in *. rewrite E2. cbn [bind]. rewrite EU. cbn [bind]. eauto.
  Qed.
End UndistortedTotal.
