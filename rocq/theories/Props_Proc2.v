(** C95: the warning about missing lines; C31: default reference points. *)
From Coq Require Import Reals ZArith List Lra Lia Bool.
From Flocq Require Import Core.
From Verif Require Import Base Num NumFacts Spec Lsq LsqEx ProcSpec ProcSpec2 PolyUniq PrepImg PrepPts PrepFacts PrepFacts2 Post Proc
  ProcFacts ProcFacts2 ProcFacts3 ProcFacts4 ProcFacts5 Props_Proc.
Import ListNotations.
Local Open Scope R_scope.

(** ** C95 missing lines *)
Lemma indices_ok n : map IZR (zrange 0 (Z.of_nat n)) = map INR (seq 0 n).
Proof. unfold zrange. rewrite map_map, Z.sub_0_r, Nat2Z.id. apply map_ext. intros k. rewrite INR_IZR_INZ. reflexivity. Qed.
Section Missing.
Variable st : R -> R.
Local Instance NSm : Num R := Rst st.
Lemma missing_error_ok polyfit cs e : polyfit_oracle polyfit -> (2 <= length cs)%nat -> @missing_error R (Rst st) polyfit cs = Ok e ->
  forall thr, thr < e <-> irregular thr (map snd cs).
Proof.
  intros PF L E thr. unfold missing_error in E. rewrite gaps_ndiff in E. unfold irregular. cbn zeta. change (map cf2 cs) with (map snd cs) in E. set (g := gaps (map snd cs)) in *.
  assert (Lg : length g = (length cs - 1)%nat) by (unfold g; now rewrite gaps_length, map_length).
  change (map (@nofZ R (Rst st)) (zrange 0 (Z.of_nat (length g)))) with (map IZR (zrange 0 (Z.of_nat (length g)))) in E. rewrite indices_ok in E.
  set (li := map INR (seq 0 (length g))) in *. assert (Li : length li = length g) by (unfold li; now rewrite map_length, seq_length).
  destruct (PF li g 2%nat) as [v [Ev P]]; [intros X; rewrite X in Li; cbn in Li; lia|assumption|].
  rewrite Ev in E. cbn [bind] in E. assert (Lv := proj1 P). destruct v as [|a [|b [|c [|]]]]; try discriminate Lv.
  set (dev := map _ (combine g _)) in E.
  assert (Hd : forall x, In x dev <-> exists i, (i < length g)%nat /\ x = Rabs ((nth i g 0 - (a * INR i ^ 2 + b * INR i + c)) / (a * INR i ^ 2 + b * INR i + c))).
  { assert (Dl : dev = map (fun i => Rabs ((nth i g 0 - (a * INR i ^ 2 + b * INR i + c)) / (a * INR i ^ 2 + b * INR i + c))) (seq 0 (length g))).
    { unfold dev, li. rewrite map_map. clear. set (F := fun x : nat => nadd (nadd (nmul a (npow (INR x) 2)) (nmul b (INR x))) c).
      assert (G : forall k, map (fun df : R * R => nabs (ndiv (nsub (fst df) (snd df)) (snd df))) (combine g (map F (seq k (length g)))) =
        map (fun i => Rabs ((nth (i - k) g 0 - (a * INR i ^ 2 + b * INR i + c)) / (a * INR i ^ 2 + b * INR i + c))) (seq k (length g))).
      { induction g as [|x g IH]; intros k; [reflexivity|]. cbn [length seq map combine]. rewrite Nat.sub_diag. cbn [nth]. f_equal.
        rewrite IH. apply map_ext_in. intros i Hi. apply in_seq in Hi. replace (i - k)%nat with (S (i - S k)) by lia. reflexivity. }
      etransitivity; [exact (G O)|]. apply map_ext. intros i. now rewrite Nat.sub_0_r. }
    intros x. rewrite Dl, in_map_iff. split; intros [i Hi]; exists i; [destruct Hi as [<- Hi]; apply in_seq in Hi; split; [lia|reflexivity]|destruct Hi as [Hi ->]; split; [reflexivity|apply in_seq; lia]]. }
  assert (Me : In e dev /\ forall x, In x dev -> x <= e) by (clearbody dev; clear - E; revert E; exact (namax_spec (fun x => x) dev e)).
  destruct Me as [M1 M2]. split.
  - intros H. exists a, b, c. split; [assumption|]. apply Hd in M1. destruct M1 as [i [Hi ->]]. exists i. split; assumption.
  - intros [a' [b' [c' [P' [i [Hi H]]]]]]. assert (Fe : forall j, (j < length g)%nat -> a' * INR j ^ 2 + b' * INR j + c' = a * INR j ^ 2 + b * INR j + c).
    { intros j Hj. assert (In (pow_row 2 (INR j)) (map (pow_row 2) li)) by (apply in_map; unfold li; apply in_map; apply in_seq; lia).
      pose proof (lsq_fitted_unique 3 (map (pow_row 2) li) g _ _ ltac:(now rewrite map_length) P' P _ H0) as Q. cbn [pow_row dot] in Q. cbn in Q |- *. lra. }
    rewrite Fe in H by assumption. eapply Rlt_le_trans; [exact H|]. apply M2. apply Hd. exists i. split; [assumption|reflexivity].
Qed.
End Missing.
(** The warning is issued exactly when the distances of the horizontal or of
    the vertical lines are irregular. *)
Theorem C95_warning : forall st polyfit minimize lh lv xc yc opt thr w uh uv, polyfit_oracle polyfit -> (2 <= length lh)%nat -> (2 <= length lv)%nat ->
  @calc_undistor_intercept R (Rst st) polyfit minimize lh lv xc yc opt thr = Ok (w, (uh, uv)) ->
  exists ch cv, fits_hor st polyfit xc yc lh ch /\ fits_ver st polyfit xc yc lv cv /\
  (w = true <-> irregular thr (map snd ch) \/ irregular thr (map snd cv)).
Proof.
  intros st polyfit minimize lh lv xc yc opt thr w uh uv PF Lh Lv E.
  destruct (undistor_intercept_ok st polyfit minimize lh lv xc yc opt thr w uh uv Lh Lv E) as (ch & cv & Fh & Fv & C & _).
  exists ch, cv. split; [assumption|]. split; [assumption|]. assert (L1 : length lh = length ch) by exact (Forall2_length _ _ _ Fh). assert (L2 : length lv = length cv) by exact (Forall2_length _ _ _ Fv).
  unfold check_missing_lines in C. destruct (missing_error polyfit ch) as [eh|] eqn:Eh; [|discriminate]. destruct (missing_error polyfit cv) as [ev|] eqn:Ev; [|discriminate].
  cbn [bind] in C. apply Ok_inj in C. subst w. assert (M1 : (2 <= length ch)%nat) by lia. assert (M2 : (2 <= length cv)%nat) by lia. rewrite <- (missing_error_ok st polyfit ch eh PF M1 Eh), <- (missing_error_ok st polyfit cv ev PF M2 Ev).
  change (@nltb R (Rst st) thr eh) with (Rlt_bool thr eh). change (@nltb R (Rst st) thr ev) with (Rlt_bool thr ev). rewrite orb_true_iff.
  assert (Rb : forall x y, Rlt_bool x y = true <-> x < y) by (intros x y; destruct (Rlt_bool_spec x y); split; intros; try reflexivity; try discriminate; lra).
  rewrite !Rb. reflexivity.
Qed.
Print Assumptions C95_warning.
(** Up to four lines are never irregular: the parabola passes through the
    three distances. *)
Lemma parabola3 x0 x1 x2 : exists a b c, a * 0 ^ 2 + b * 0 + c = x0 /\ a * 1 ^ 2 + b * 1 + c = x1 /\ a * 2 ^ 2 + b * 2 + c = x2.
Proof. exists ((x2 - 2 * x1 + x0) / 2), (x1 - x0 - (x2 - 2 * x1 + x0) / 2), x0. repeat split; field. Qed.
Theorem C95_few_lines : forall thr l, (length l <= 4)%nat -> 0 <= thr -> ~ irregular thr l.
Proof.
  intros thr l L Ht (a & b & c & P & i & Hi & H). assert (Lg : (length (gaps l) <= 3)%nat) by (rewrite gaps_length; lia). set (g := gaps l) in *.
  destruct (parabola3 (nth 0 g 0) (nth 1 g 0) (nth 2 g 0)) as (a0 & b0 & c0 & E0 & E1 & E2).
  assert (X : a * INR i ^ 2 + b * INR i + c = nth i g 0).
  { assert (F := lsq_exact 3 (map (pow_row 2) (map INR (seq 0 (length g)))) g [a; b; c] [a0; b0; c0] ltac:(now rewrite !map_length, seq_length) P eq_refl).
    assert (Q : Forall2 (fun r y => dot r [a; b; c] = y) (map (pow_row 2) (map INR (seq 0 (length g)))) g).
    { apply F. clear -E0 E1 E2 Lg. destruct g as [|x [|y [|z [|]]]]; cbn [length] in Lg; try lia; cbn [length seq map nth] in *; repeat constructor; cbn [pow_row dot INR]; cbn; lra. }
    clear -Q Hi. assert (G : forall k, Forall2 (fun r y => dot r [a; b; c] = y) (map (pow_row 2) (map INR (seq k (length g)))) g -> forall j, (j < length g)%nat -> a * INR (k + j) ^ 2 + b * INR (k + j) + c = nth j g 0).
    { clear. induction g as [|x g IH]; intros k Q j Hj; [cbn in Hj; lia|]. cbn [length seq map] in Q. inversion Q as [|? ? ? ? Q1 Q2]. destruct j as [|j].
      - rewrite Nat.add_0_r. cbn [nth]. rewrite <- Q1. cbn [pow_row dot]. cbn. ring.
      - replace (k + S j)%nat with (S k + j)%nat by lia. cbn [nth]. apply (IH (S k) Q2). cbn [length] in Hj. lia. }
    exact (G O Q i Hi). }
  cbv zeta in H. rewrite X in H. replace ((nth i g 0 - nth i g 0) / nth i g 0) with 0 in H by (unfold Rdiv; ring). rewrite Rabs_R0 in H. lra.
Qed.
Print Assumptions C95_few_lines.
Corollary C95_few_lines_no_warning : forall st polyfit minimize lh lv xc yc opt thr w uh uv, polyfit_oracle polyfit ->
  (2 <= length lh <= 4)%nat -> (2 <= length lv <= 4)%nat -> 0 <= thr ->
  @calc_undistor_intercept R (Rst st) polyfit minimize lh lv xc yc opt thr = Ok (w, (uh, uv)) -> w = false.
Proof.
  intros st polyfit minimize lh lv xc yc opt thr w uh uv PF Lh Lv Ht E.
  destruct (C95_warning st polyfit minimize lh lv xc yc opt thr w uh uv PF ltac:(lia) ltac:(lia) E) as (ch & cv & Fh & Fv & W).
  destruct w; [|reflexivity]. exfalso. assert (L1 : length lh = length ch) by exact (Forall2_length _ _ _ Fh). assert (L2 : length lv = length cv) by exact (Forall2_length _ _ _ Fv).
  destruct W as [W _]. destruct (W eq_refl) as [X|X]; revert X; apply C95_few_lines; rewrite ?map_length; lia || assumption.
Qed.
Print Assumptions C95_few_lines_no_warning.
(** Equidistant lines, any number and any distance: no warning (C29). Six of
    seven equidistant lines with the default threshold: a line missing in the
    middle is noticed, one missing next to the border is not. *)
Lemma fit_middle : polyfit_spec 2 (map INR (seq 0 5)) [1; 1; 2; 1; 1] [-1/7; 4/7; 32/35].
Proof.
  split; [reflexivity|]. intros [|a [|b [|c [|]]]] L; try discriminate. unfold sqerr. cbn [seq map combine INR pow_row dot Rsum fst snd]. cbn.
  assert (H : forall x y z, 0 <= x ^ 2 + y ^ 2 + z ^ 2) by (intros; nra).
  pose proof (pow2_ge_0 (c - 32/35)) as H0. pose proof (pow2_ge_0 ((a + 1/7) + (b - 4/7) + (c - 32/35))) as H1. pose proof (pow2_ge_0 (4 * (a + 1/7) + 2 * (b - 4/7) + (c - 32/35))) as H2.
  pose proof (pow2_ge_0 (9 * (a + 1/7) + 3 * (b - 4/7) + (c - 32/35))) as H3. pose proof (pow2_ge_0 (16 * (a + 1/7) + 4 * (b - 4/7) + (c - 32/35))) as H4. cbn in *. nra.
Qed.
Lemma fit_border : polyfit_spec 2 (map INR (seq 0 5)) [2; 1; 1; 1; 1] [1/7; -27/35; 66/35].
Proof.
  split; [reflexivity|]. intros [|a [|b [|c [|]]]] L; try discriminate. unfold sqerr. cbn [seq map combine INR pow_row dot Rsum fst snd]. cbn.
  pose proof (pow2_ge_0 (c - 66/35)) as H0. pose proof (pow2_ge_0 ((a - 1/7) + (b + 27/35) + (c - 66/35))) as H1. pose proof (pow2_ge_0 (4 * (a - 1/7) + 2 * (b + 27/35) + (c - 66/35))) as H2.
  pose proof (pow2_ge_0 (9 * (a - 1/7) + 3 * (b + 27/35) + (c - 66/35))) as H3. pose proof (pow2_ge_0 (16 * (a - 1/7) + 4 * (b + 27/35) + (c - 66/35))) as H4. cbn in *. nra.
Qed.
Theorem C95_border_line_missed : irregular (3/10) [0; 1; 2; 4; 5; 6] /\ ~ irregular (3/10) [0; 2; 3; 4; 5; 6].
Proof.
  assert (G1 : gaps [0; 1; 2; 4; 5; 6] = [1; 1; 2; 1; 1]) by (cbn [gaps]; repeat f_equal; rewrite Rabs_pos_eq; lra).
  assert (G2 : gaps [0; 2; 3; 4; 5; 6] = [2; 1; 1; 1; 1]) by (cbn [gaps]; repeat f_equal; rewrite Rabs_pos_eq; lra).
  split.
  - unfold irregular. rewrite G1. exists (-1/7), (4/7), (32/35). split; [exact fit_middle|]. exists 2%nat. split; [cbn; lia|]. cbn [nth INR].
    match goal with |- _ < Rabs ?x => replace x with (18/52) by field end. rewrite Rabs_pos_eq; lra.
  - unfold irregular. rewrite G2. intros (a & b & c & P & i & Hi & H).
    assert (X : a * INR i ^ 2 + b * INR i + c = 1/7 * INR i ^ 2 + (-27/35) * INR i + 66/35).
    { assert (In (pow_row 2 (INR i)) (map (pow_row 2) (map INR (seq 0 5)))) by (apply in_map, in_map, in_seq; cbn in Hi; lia).
      pose proof (lsq_fitted_unique 3 (map (pow_row 2) (map INR (seq 0 5))) [2; 1; 1; 1; 1] _ _ eq_refl P fit_border _ H0) as Q. cbn [pow_row dot] in Q. cbn in Q |- *. lra. }
    cbv zeta in H. rewrite X in H. clear X P. cbn [length] in Hi. revert H. apply Rle_not_lt. apply Rabs_le.
    destruct i as [|[|[|[|[|i]]]]]; [| | | | |lia]; cbn [nth INR]; match goal with |- _ <= ?x <= _ => let y := constr:(x) in idtac end.
    + match goal with |- _ <= ?x <= _ => replace x with (2/33) by field end. lra.
    + match goal with |- _ <= ?x <= _ => replace x with (-9/44) by field end. lra.
    + match goal with |- _ <= ?x <= _ => replace x with (3/32) by field end. lra.
    + match goal with |- _ <= ?x <= _ => replace x with (1/6) by field end. lra.
    + match goal with |- _ <= ?x <= _ => replace x with (-3/38) by field end. lra.
Qed.
Print Assumptions C95_border_line_missed.
(** Six horizontal lines of a regular grid of seven, the one next to the
    border missing: no warning; the middle one missing: warning. *)
Example C95_ex : forall w uh uv,
  let lv := straight_grid_ver [1; 2; 3; 4; 5] [1; 2; 3] in
  (@calc_undistor_intercept R Rexact pf_R min_R (straight_grid_hor [0; 2; 3; 4; 5; 6] [1; 2; 3]) lv 0 0 false (3/10) = Ok (w, (uh, uv)) -> w = false) /\
  (@calc_undistor_intercept R Rexact pf_R min_R (straight_grid_hor [0; 1; 2; 4; 5; 6] [1; 2; 3]) lv 0 0 false (3/10) = Ok (w, (uh, uv)) -> w = true).
Proof.
  intros w uh uv lv. assert (D3 : distinct_values 3 [1; 2; 3]) by distinct_lit.
  assert (U : forall l x y c c', fits_hor (fun x => x) pf_R x y l c -> fits_hor (fun x => x) pf_R x y l c' -> c = c').
  { intros l x y c c' F F'. revert c' F'. induction F as [|a b l c (u1 & u2 & u3 & -> & E) F IH]; intros c' F'; inversion F' as [|? b' ? c0 (v1 & v2 & v3 & -> & E') G]; [reflexivity|].
    rewrite E in E'. apply Ok_inj in E'. injection E' as -> -> ->. f_equal. now apply IH. }
  assert (Uv : forall l x y c c', fits_ver (fun x => x) pf_R x y l c -> fits_ver (fun x => x) pf_R x y l c' -> c = c').
  { intros l x y c c' F F'. revert c' F'. induction F as [|a b l c (u1 & u2 & u3 & -> & E) F IH]; intros c' F'; inversion F' as [|? b' ? c0 (v1 & v2 & v3 & -> & E') G]; [reflexivity|].
    rewrite E in E'. apply Ok_inj in E'. injection E' as -> -> ->. f_equal. now apply IH. }
  assert (Fv := straight_grid_ver_ok [1; 2; 3; 4; 5] [1; 2; 3] D3). assert (Ev := flat_fit_ver (fun x => x) pf_R pf_R_ok [1; 2; 3; 4; 5] lv 0 0 Fv eq_refl (fun _ _ => eq_refl)). apply para_ver_fits in Ev.
  assert (Nv : ~ irregular (3/10) (map snd (map (flat 0) [1; 2; 3; 4; 5]))).
  { intros (a & b & c & P & i & Hi & H). cbn zeta in H. assert (G : gaps (map snd (map (flat 0) [1; 2; 3; 4; 5])) = [1; 1; 1; 1]) by (cbn [map flat snd gaps]; repeat f_equal; rewrite Rabs_pos_eq; lra).
    rewrite G in *. cbn [length] in *.
    assert (X : a * INR i ^ 2 + b * INR i + c = 1).
    { assert (Q : Forall2 (fun r y => dot r [a; b; c] = y) (map (pow_row 2) (map INR (seq 0 4))) [1; 1; 1; 1]) by (apply (lsq_exact 3 (map (pow_row 2) (map INR (seq 0 4))) [1; 1; 1; 1] [a; b; c] [0; 0; 1] eq_refl P eq_refl); repeat constructor; cbn; ring).
      cbn [seq map] in Q. repeat match goal with Q : Forall2 _ (_ :: _) _ |- _ => inversion Q; clear Q; subst end.
      destruct i as [|[|[|[|i]]]]; [| | | |lia]; cbn in *; lra. }
    rewrite X in H. revert H. apply Rle_not_lt. assert (Y : nth i [1; 1; 1; 1] 0 = 1) by (destruct i as [|[|[|[|i]]]]; [reflexivity..|lia]). rewrite Y.
    replace ((1 - 1) / 1) with 0 by field. rewrite Rabs_R0. lra. }
  assert (M : forall cs, (2 <= length cs)%nat -> @calc_undistor_intercept R Rexact pf_R min_R (straight_grid_hor cs [1; 2; 3]) lv 0 0 false (3/10) = Ok (w, (uh, uv)) ->
    (w = true <-> irregular (3/10) cs)).
  { intros cs Lc E. assert (Fh := straight_grid_hor_ok cs [1; 2; 3] D3).
    assert (Eh := flat_fit_hor (fun x => x) pf_R pf_R_ok cs (straight_grid_hor cs [1; 2; 3]) 0 0 Fh eq_refl (fun _ _ => eq_refl)). apply para_hor_fits in Eh.
    assert (A1 : (2 <= length (straight_grid_hor cs [1%R; 2%R; 3%R]))%nat) by (unfold straight_grid_hor; now rewrite map_length).
    assert (A2 : (2 <= length lv)%nat) by (cbn; lia).
    destruct (C95_warning (fun x => x) pf_R min_R (straight_grid_hor cs [1; 2; 3]) lv 0 0 false (3/10) w uh uv pf_R_ok A1 A2 E) as (ch & cv & H1 & H2 & H3).
    rewrite (U _ _ _ _ _ H1 Eh) in H3. rewrite (Uv _ _ _ _ _ H2 Ev) in H3.
    replace (map snd (map (flat 0) cs)) with cs in H3; [tauto|]. rewrite map_map. clear. induction cs as [|x cs IH]; [reflexivity|]. cbn [map]. f_equal; [unfold flat; cbn; ring|assumption]. }
  destruct C95_border_line_missed as [B1 B2]. split; intros E; apply M in E; cbn [length]; try lia; [destruct w; tauto|tauto].
Qed.

(** ** C31: without reference points *)
(** The points (50 a, 50 b) with -20 <= a, b < 20. *)
Definition reference_grid : list (R * R) :=
  flat_map (fun a => map (fun b => (IZR (50 * a), IZR (50 * b))) (zrange (-20) 20)) (zrange (-20) 20).
Theorem C31_default_points : forall lstsq (fact : list R) fwd, (length fact <= 1600)%nat -> forall st,
  @transform_coef_backward_and_forward R (Rst st) lstsq fact fwd None = @transform_coef_backward_and_forward R (Rst st) lstsq fact fwd (Some reference_grid).
Proof.
  intros lstsq fact fwd L st. unfold transform_coef_backward_and_forward.
  assert (E : @default_refs R (Rst st) = reference_grid).
  { unfold default_refs, reference_grid. change (zrange_step (-1000) 1000 50) with (map (Z.mul 50) (zrange (-20) 20)). rewrite flat_map_concat_map, map_map, flat_map_concat_map. f_equal. }
  assert (Lr : length reference_grid = 1600%nat) by reflexivity.
  rewrite Lr. destruct (Nat.ltb_spec 1600 (length fact)); [lia|]. rewrite E. reflexivity.
Qed.
Print Assumptions C31_default_points.
