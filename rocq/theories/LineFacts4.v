(** Facts about tilted profiles in exact arithmetic. *)
From Coq Require Import Reals ZArith List Lra Lia Psatz Sorted Permutation.
From Flocq Require Import Core.
From Verif Require Import Base Num NumFacts Img Spec Post PrepImg ProcFacts2 Line LineFacts LineFacts2 LineFacts3 LineSpec ProfSpec.
Import ListNotations.
Local Open Scope R_scope.
Local Existing Instance Rex.

Lemma linspace_R stop n : (1 <= n)%Z -> linspace0 stop n = map (fun k => IZR k * stop / IZR (n - 1)) (zrange 0 n).
Proof.
  intros Hn. unfold linspace0, iota. rewrite Z2Nat.id by lia. cbn zeta.
  destruct (Z.ltb_spec 0 (n - 1)) as [h|h].
  - destruct (Z.ltb_spec 1 n) as [h1|]; [|lia].
    assert (N0 : IZR (n - 1) <> 0) by (apply not_0_IZR; lia).
    rewrite !map_map. set (f := fun k : Z => _). set (g := fun k : Z => IZR k * stop / IZR (n - 1)).
    assert (E : forall k, f k = g k).
    { intros k. unfold f, g. change (@n0 R Rex) with 0. cbn [nadd nmul ndiv nsub nofZ neqb Rex Rnum].
      destruct (Req_bool_spec ((stop - 0) / IZR (n - 1)) 0). all: unfold Rdiv; ring. }
    rewrite (map_ext f g E).
    replace (zrange 0 n) with (zrange 0 (n - 1) ++ [n - 1])%Z.
    + rewrite map_app. cbn [map]. rewrite removelast_last. do 2 f_equal. unfold g. field. assumption.
    + unfold zrange. replace (Z.to_nat (n - 0)) with (Z.to_nat (n - 1 - 0) + 1)%nat by lia. rewrite seq_app, map_app. cbn [seq map]. do 2 f_equal. lia.
  - destruct (Z.ltb_spec 1 n); [lia|]. replace n with 1%Z by lia. change (zrange 0 1) with [0%Z]. cbn [map].
    change (@n0 R Rex) with 0. cbn [nadd nmul ndiv nsub nofZ neqb Rex Rnum]. f_equal. unfold Rdiv. ring.
Qed.
Lemma cos_pos_deg d : Rabs d < 90 -> - (PI / 2) < radians d < PI / 2 /\ 0 < cos (radians d).
Proof.
  intros H. apply Rabs_def2 in H. pose proof PI_RGT_0. assert (B : - (PI / 2) < radians d < PI / 2) by (unfold radians; nra).
  split; [assumption|]. apply cos_gt_0; lra.
Qed.
Lemma rad_sign d : (0 < d <-> 0 < radians d).
Proof. pose proof PI_RGT_0. unfold radians. split; intros H1; nra. Qed.
Lemma rad_abs d : radians (Rabs d) = Rabs (radians d).
Proof. unfold radians, Rdiv. rewrite !Rabs_mult. rewrite (Rabs_pos_eq PI) by (pose proof PI_RGT_0; lra). rewrite (Rabs_pos_eq (/ 180)) by lra. reflexivity. Qed.
Section Range.
  Let RNG := @calc_index_range R Rex tan PI.
  Lemma range_hor h w d : Rabs d < 90 -> RNG h w d true =
    (let '(m, M) := if Rlt_dec 0 (radians d) then (Zceil (IZR w * tan (radians d)), h - 1)%Z else (0, h - 1 - Zfloor (IZR w * tan (- radians d)))%Z in
     if ((m <? 0) || (h <=? m) || (M <? 0) || (h <=? M))%Z then Err ValueError else Ok (m, M)).
  Proof.
    intros Hd. unfold RNG, calc_index_range. cbn zeta. change (@n0 R Rex) with 0. cbn [nabs neqb nltb nmul ndiv nofZ nceil nfloor Rex Rnum].
    rewrite Req_bool_false by (intros E; lra). fold (radians d).
    destruct (Rlt_dec 0 (radians d)) as [p|p].
    - rewrite Rlt_bool_true by now apply (proj2 (rad_sign d)). reflexivity.
    - rewrite Rlt_bool_false by (apply Rnot_lt_le; intros E; apply p; now apply (proj1 (rad_sign d))). rewrite (Rabs_left1 (radians d)) by lra. reflexivity.
  Qed.
  Lemma range_ver h w d : Rabs d < 90 -> RNG h w d false =
    (let '(m, M) := if Rlt_dec 0 (radians d) then (0, w - 1 - Zceil (IZR h * tan (radians d)))%Z else (Zfloor (IZR h * tan (- radians d)), w - 1)%Z in
     if ((m <? 0) || (w <=? m) || (M <? 0) || (w <=? M))%Z then Err ValueError else Ok (m, M)).
  Proof.
    intros Hd. unfold RNG, calc_index_range. cbn zeta. change (@n0 R Rex) with 0. cbn [nabs neqb nltb nmul ndiv nofZ nceil nfloor Rex Rnum].
    rewrite Req_bool_false by (intros E; lra). fold (radians d).
    destruct (Rlt_dec 0 (radians d)) as [p|p].
    - rewrite Rlt_bool_true by now apply (proj2 (rad_sign d)). reflexivity.
    - rewrite Rlt_bool_false by (apply Rnot_lt_le; intros E; apply p; now apply (proj1 (rad_sign d))). rewrite (Rabs_left1 (radians d)) by lra. reflexivity.
  Qed.
End Range.
Lemma tan_nonneg a : 0 <= a < PI / 2 -> 0 <= tan a.
Proof. intros H. destruct (Req_EM_T a 0) as [->|]; [rewrite tan_0; lra|]. left. apply tan_gt_0; lra. Qed.
(** Lengths of the line in both directions. *)
Lemma along_bounds n a k : (1 <= n)%Z -> - (PI / 2) < a < PI / 2 -> (0 <= k < n)%Z ->
  0 <= along n a k /\ along n a k * cos a <= IZR n /\ along n a k * Rabs (sin a) <= IZR n * tan (Rabs a).
Proof.
  intros Hn Ha Hk. assert (Hc : 0 < cos a) by (apply cos_gt_0; lra).
  pose proof (COS_bound a) as [_ C1]. assert (N1 : 1 <= IZR n) by (apply IZR_le; lia).
  set (L := IZR (Zfloor (IZR n / cos a))).
  assert (Q : 0 <= IZR n / cos a) by (apply Rmult_le_pos; [lra|]; left; now apply Rinv_0_lt_compat).
  assert (L0 : 0 <= L) by (apply IZR_le; apply Zfloor_lub; simpl; lra).
  assert (L1 : L <= IZR n / cos a) by apply Zfloor_lb.
  assert (A : 0 <= along n a k <= L).
  { unfold along. fold L. destruct (Z.eq_dec n 1) as [->|ne].
    - replace k with 0%Z by lia. unfold Rdiv. rewrite !Rmult_0_l. lra.
    - assert (D : 0 < IZR (n - 1)) by (apply IZR_lt; lia). assert (K0 : 0 <= IZR k) by (apply IZR_le; lia). assert (K1 : IZR k <= IZR (n - 1)) by (apply IZR_le; lia).
      split; [apply Rmult_le_pos; [nra|left; now apply Rinv_0_lt_compat]|]. apply Rmult_le_reg_r with (IZR (n - 1)); [assumption|].
      unfold Rdiv. rewrite Rmult_assoc, Rinv_l by lra. nra. }
  assert (A2 : along n a k * cos a <= IZR n).
  { apply Rle_trans with (IZR n / cos a * cos a); [nra|]. unfold Rdiv. rewrite Rmult_assoc, Rinv_l by lra. lra. }
  split; [lra|]. split; [assumption|].
  assert (E : Rabs (sin a) = cos a * tan (Rabs a)).
  { unfold Rabs. destruct (Rcase_abs a) as [h|h].
    - unfold tan. rewrite sin_neg, cos_neg. destruct (Rcase_abs (sin a)) as [g|g]; [field; lra|]. pose proof (sin_lt_0_var a ltac:(lra) h). lra.
    - unfold tan. destruct (Rcase_abs (sin a)) as [g|g]; [|field; lra]. pose proof (sin_ge_0 a ltac:(lra) ltac:(lra)). lra. }
  rewrite E. pose proof (tan_nonneg (Rabs a)) as T. assert (0 <= tan (Rabs a)) by (apply T; split; [apply Rabs_pos|apply Rabs_def1; lra]). nra.
Qed.
Lemma crop_ok (l : list R) n : l <> [] -> (n <= 32767)%Z -> (forall v, In v l -> 0 <= v <= IZR (n - 1)) ->
  exists lo hi, crop_range l = Ok (lo, hi) /\ (0 <= lo)%Z /\ (lo < hi <= n)%Z /\ forall v, In v l -> IZR lo <= v <= IZR (hi - 1).
Proof.
  intros Ne Hn H. unfold crop_range.
  destruct (namin l) as [mn|e] eqn:Em; [|destruct l; [contradiction|discriminate]].
  destruct (namax l) as [mx|e] eqn:EM; [|destruct l; [contradiction|discriminate]]. cbn [bind].
  unfold Rex in Em, EM. apply namin_spec in Em. apply namax_spec in EM. destruct Em as [I1 B1], EM as [I2 B2].
  cbn [nfloor nceil Rex Rnum]. pose proof (H mn I1) as P1. pose proof (H mx I2) as P2. pose proof (B1 mx I2) as P3.
  assert (F0 : (0 <= Zfloor mn)%Z) by (apply Zfloor_lub; simpl; lra).
  assert (C1 : (Zceil mx <= n - 1)%Z) by (apply Zceil_glb; lra).
  assert (FC : (Zfloor mn <= Zceil mx)%Z). { apply le_IZR. pose proof (Zfloor_lb mn). pose proof (Zceil_ub mx). lra. }
  rewrite (wrap16_id (Zfloor mn)) by lia. rewrite (wrap16_id (Zceil mx)) by lia. rewrite wrap16_id by lia.
  eexists _, _. split; [reflexivity|]. split; [assumption|]. split; [lia|]. intros v Hv. replace (Zceil mx + 1 - 1)%Z with (Zceil mx) by lia.
  pose proof (Zfloor_lb mn). pose proof (Zceil_ub mx). pose proof (B1 v Hv). pose proof (B2 v Hv). lra.
Qed.
Section Prof.
  Variable spline : image R -> list (R * R) -> list R.
  Let TP := @get_tilted_profile R Rex tan sin cos PI spline.
  Lemma ver_x_neg index a t : ver_x index a t = hor_y index (- a) t.
  Proof. unfold ver_x, hor_y. rewrite sin_neg. ring. Qed.
  Lemma hor_ok (mat : image R) index d : (1 <= ih mat)%Z -> (1 <= iw mat)%Z -> Rabs d < 90 ->
    hor_index_ok (ih mat) (iw mat) (radians d) index ->
    let a := radians d in
    let xs := map (fun k => clamp (hor_x a (along (iw mat) a k)) 0 (IZR (iw mat - 1))) (zrange 0 (iw mat)) in
    let ys := map (fun k => clamp (hor_y index a (along (iw mat) a k)) 0 (IZR (ih mat - 1))) (zrange 0 (iw mat)) in
    TP mat index d true = (c <- crop_range ys ;; let (lo, hi) := c : Z * Z in Ok (xs, ys, spline (row_slice mat lo hi) (combine (map (fun y => y - IZR lo) ys) xs))).
  Proof.
    intros Hh Hw Hd Hok a xs ys. set (h := ih mat) in *. set (w := iw mat) in *.
    destruct (cos_pos_deg d Hd) as [Ba Hc]. fold a in Ba, Hc, Hok.
    assert (W1 : 1 <= IZR w) by (apply IZR_le; lia).
    assert (R : exists m M, calc_index_range tan PI h w d true = Ok (m, M) /\ IZR m <= index <= IZR M).
    { rewrite range_hor by assumption. fold a. unfold hor_index_ok in Hok. destruct (Rlt_dec 0 a) as [p|p].
      - assert (T : 0 < tan a) by (apply tan_gt_0; lra). assert (m0 : (0 <= Zceil (IZR w * tan a))%Z) by (apply le_IZR; pose proof (Zceil_ub (IZR w * tan a)); simpl; nra).
        assert (m1 : (Zceil (IZR w * tan a) <= h - 1)%Z) by (apply le_IZR; lra).
        destruct (Z.ltb_spec (Zceil (IZR w * tan a)) 0); [lia|]. destruct (Z.leb_spec h (Zceil (IZR w * tan a))); [lia|]. destruct (Z.ltb_spec (h - 1) 0); [lia|]. destruct (Z.leb_spec h (h - 1)); [lia|].
        cbn [orb]. eexists _, _. split; [reflexivity|assumption].
      - assert (T : 0 <= tan (- a)) by (apply tan_nonneg; lra). assert (m0 : (0 <= Zfloor (IZR w * tan (- a)))%Z) by (apply Zfloor_lub; simpl; nra).
        assert (m1 : (0 <= h - 1 - Zfloor (IZR w * tan (- a)))%Z) by (apply le_IZR; lra).
        destruct (Z.leb_spec h 0); [lia|]. destruct (Z.ltb_spec (h - 1 - Zfloor (IZR w * tan (- a))) 0); [lia|]. destruct (Z.leb_spec h (h - 1 - Zfloor (IZR w * tan (- a)))); [lia|].
        cbn [orb Z.ltb Z.compare]. eexists _, _. split; [reflexivity|assumption]. }
    destruct R as [m [M [ER HI]]]. unfold TP, get_tilted_profile. fold h w. rewrite ER. cbn [bind]. cbn zeta.
    change (ndiv (nmul d PI) (nofZ 180)) with a. cbn [nltb nofZ Rex Rnum]. rewrite !Rlt_bool_false by lra. cbn [orb].
    rewrite linspace_R by assumption. rewrite !map_map.
    match goal with |- context[crop_range (map ?f (zrange 0 w))] => replace (map f (zrange 0 w)) with ys end.
    2: { unfold ys. apply map_ext. intros k. change (@n0 R Rex) with 0. unfold Rex. rewrite nclip_R by (apply IZR_le; lia). f_equal. unfold hor_y, along.
         cbn [nopp nadd nmul ndiv nfloor nofZ Rnum]. rewrite sin_neg. fold w. ring. }
    match goal with |- context[Ok (map ?f (zrange 0 w), _, _)] => replace (map f (zrange 0 w)) with xs end.
    2: { unfold xs. apply map_ext. intros k. change (@n0 R Rex) with 0. unfold Rex. rewrite nclip_R by (apply IZR_le; lia). reflexivity. }
    reflexivity.
  Qed.
  Lemma hor_error (mat : image R) index d : (1 <= ih mat)%Z -> (1 <= iw mat)%Z -> Rabs d < 90 ->
    ~ hor_index_ok (ih mat) (iw mat) (radians d) index -> TP mat index d true = Err ValueError.
  Proof.
    intros Hh Hw Hd Hok. unfold TP, get_tilted_profile. cbn zeta. rewrite range_hor by assumption. unfold hor_index_ok in Hok.
    set (a := radians d) in *. destruct (Rlt_dec 0 a) as [p|p]; destruct (_ || _)%bool; try reflexivity; cbn [bind]; cbn [nltb nofZ Rex Rnum].
    - destruct (Rlt_bool_spec index (IZR (Zceil (IZR (iw mat) * tan a)))); [reflexivity|]. destruct (Rlt_bool_spec (IZR (ih mat - 1)) index); [reflexivity|]. exfalso. apply Hok. lra.
    - destruct (Rlt_bool_spec index 0); [reflexivity|]. destruct (Rlt_bool_spec (IZR (ih mat - 1 - Zfloor (IZR (iw mat) * tan (- a)))) index); [reflexivity|]. exfalso. apply Hok. lra.
  Qed.
  Lemma ver_ok (mat : image R) index d : (1 <= ih mat)%Z -> (1 <= iw mat)%Z -> Rabs d < 90 ->
    ver_index_ok (ih mat) (iw mat) (radians d) index ->
    let a := radians d in
    let ys := map (fun k => clamp (ver_y a (along (ih mat) a k)) 0 (IZR (ih mat - 1))) (zrange 0 (ih mat)) in
    let xs := map (fun k => clamp (ver_x index a (along (ih mat) a k)) 0 (IZR (iw mat - 1))) (zrange 0 (ih mat)) in
    TP mat index d false = (c <- crop_range xs ;; let (lo, hi) := c : Z * Z in Ok (xs, ys, spline (slice2 mat 0 (ih mat) lo hi) (combine ys (map (fun x => x - IZR lo) xs)))).
  Proof.
    intros Hh Hw Hd Hok a ys xs. set (h := ih mat) in *. set (w := iw mat) in *.
    destruct (cos_pos_deg d Hd) as [Ba Hc]. fold a in Ba, Hc, Hok.
    assert (W1 : 1 <= IZR h) by (apply IZR_le; lia).
    assert (R : exists m M, calc_index_range tan PI h w d false = Ok (m, M) /\ IZR m <= index <= IZR M).
    { rewrite range_ver by assumption. fold a. unfold ver_index_ok in Hok. destruct (Rlt_dec 0 a) as [p|p].
      - assert (T : 0 < tan a) by (apply tan_gt_0; lra). assert (m0 : (0 <= Zceil (IZR h * tan a))%Z) by (apply le_IZR; pose proof (Zceil_ub (IZR h * tan a)); simpl; nra).
        assert (m1 : (0 <= w - 1 - Zceil (IZR h * tan a))%Z) by (apply le_IZR; lra).
        destruct (Z.leb_spec w 0); [lia|]. destruct (Z.ltb_spec (w - 1 - Zceil (IZR h * tan a)) 0); [lia|]. destruct (Z.leb_spec w (w - 1 - Zceil (IZR h * tan a))); [lia|].
        cbn [orb Z.ltb Z.compare]. eexists _, _. split; [reflexivity|assumption].
      - assert (T : 0 <= tan (- a)) by (apply tan_nonneg; lra). assert (m0 : (0 <= Zfloor (IZR h * tan (- a)))%Z) by (apply Zfloor_lub; simpl; nra).
        assert (m1 : (Zfloor (IZR h * tan (- a)) <= w - 1)%Z) by (apply le_IZR; lra).
        destruct (Z.ltb_spec (Zfloor (IZR h * tan (- a))) 0); [lia|]. destruct (Z.leb_spec w (Zfloor (IZR h * tan (- a)))); [lia|]. destruct (Z.ltb_spec (w - 1) 0); [lia|]. destruct (Z.leb_spec w (w - 1)); [lia|].
        cbn [orb]. eexists _, _. split; [reflexivity|assumption]. }
    destruct R as [m [M [ER HI]]]. unfold TP, get_tilted_profile. fold h w. rewrite ER. cbn [bind]. cbn zeta.
    change (ndiv (nmul d PI) (nofZ 180)) with a. cbn [nltb nofZ Rex Rnum]. rewrite !Rlt_bool_false by lra. cbn [orb].
    rewrite linspace_R by assumption. rewrite !map_map.
    match goal with |- context[crop_range (map ?f (zrange 0 h))] => replace (map f (zrange 0 h)) with xs end.
    2: { unfold xs. apply map_ext. intros k. change (@n0 R Rex) with 0. unfold Rex. rewrite nclip_R by (apply IZR_le; lia). reflexivity. }
    match goal with |- context[Ok (xs, map ?f (zrange 0 h), _)] => replace (map f (zrange 0 h)) with ys end.
    2: { unfold ys. apply map_ext. intros k. change (@n0 R Rex) with 0. unfold Rex. rewrite nclip_R by (apply IZR_le; lia). reflexivity. }
    reflexivity.
  Qed.
  Lemma ver_error (mat : image R) index d : (1 <= ih mat)%Z -> (1 <= iw mat)%Z -> Rabs d < 90 ->
    ~ ver_index_ok (ih mat) (iw mat) (radians d) index -> TP mat index d false = Err ValueError.
  Proof.
    intros Hh Hw Hd Hok. unfold TP, get_tilted_profile. cbn zeta. rewrite range_ver by assumption. unfold ver_index_ok in Hok.
    set (a := radians d) in *. destruct (Rlt_dec 0 a) as [p|p]; destruct (_ || _)%bool; try reflexivity; cbn [bind]; cbn [nltb nofZ Rex Rnum].
    - destruct (Rlt_bool_spec index 0); [reflexivity|]. destruct (Rlt_bool_spec (IZR (iw mat - 1 - Zceil (IZR (ih mat) * tan a))) index); [reflexivity|]. exfalso. apply Hok. lra.
    - destruct (Rlt_bool_spec index (IZR (Zfloor (IZR (ih mat) * tan (- a))))); [reflexivity|]. destruct (Rlt_bool_spec (IZR (iw mat - 1)) index); [reflexivity|]. exfalso. apply Hok. lra.
  Qed.
End Prof.
(** Where the unclipped points lie. *)
Lemma hor_inside h w a index k : (1 <= w)%Z -> - (PI / 2) < a < PI / 2 -> (0 <= k < w)%Z -> hor_index_ok h w a index ->
  0 <= hor_x a (along w a k) <= IZR w /\
  (0 < a -> 0 <= hor_y index a (along w a k) <= IZR (h - 1)) /\
  (a <= 0 -> 0 <= hor_y index a (along w a k) < IZR h).
Proof.
  intros Hw Ha Hk Hok. destruct (along_bounds w a k Hw Ha Hk) as (A0 & A1 & A2).
  assert (Hc : 0 < cos a) by (apply cos_gt_0; lra). unfold hor_x, hor_y. split; [nra|]. unfold hor_index_ok in Hok. split; intros p.
  - destruct (Rlt_dec 0 a); [|lra]. pose proof (sin_gt_0 a ltac:(lra) ltac:(lra)) as Sp. rewrite (Rabs_pos_eq (sin a)), (Rabs_pos_eq a) in A2 by lra.
    pose proof (Zceil_ub (IZR w * tan a)). nra.
  - destruct (Rlt_dec 0 a); [lra|]. assert (Sn : sin a <= 0). { destruct (Req_EM_T a 0) as [->|]; [rewrite sin_0; lra|]. left. apply sin_lt_0_var; lra. }
    rewrite (Rabs_left1 (sin a)), (Rabs_left1 a) in A2 by lra.
    pose proof (Zfloor_ub (IZR w * tan (- a))) as F. rewrite !minus_IZR in Hok. split; [nra|]. nra.
Qed.
Lemma ver_inside h w a index k : (1 <= h)%Z -> - (PI / 2) < a < PI / 2 -> (0 <= k < h)%Z -> ver_index_ok h w a index ->
  0 <= ver_y a (along h a k) <= IZR h /\
  (0 < a -> 0 <= ver_x index a (along h a k) <= IZR (w - 1)) /\
  (a <= 0 -> -1 < ver_x index a (along h a k) <= IZR (w - 1)).
Proof.
  intros Hw Ha Hk Hok. destruct (along_bounds h a k Hw Ha Hk) as (A0 & A1 & A2).
  assert (Hc : 0 < cos a) by (apply cos_gt_0; lra). unfold ver_x, ver_y. split; [nra|]. unfold ver_index_ok in Hok. split; intros p.
  - destruct (Rlt_dec 0 a); [|lra]. pose proof (sin_gt_0 a ltac:(lra) ltac:(lra)) as Sp. rewrite (Rabs_pos_eq (sin a)), (Rabs_pos_eq a) in A2 by lra.
    pose proof (Zceil_ub (IZR h * tan a)). rewrite !minus_IZR in *. nra.
  - destruct (Rlt_dec 0 a); [lra|]. assert (Sn : sin a <= 0). { destruct (Req_EM_T a 0) as [->|]; [rewrite sin_0; lra|]. left. apply sin_lt_0_var; lra. }
    rewrite (Rabs_left1 (sin a)), (Rabs_left1 a) in A2 by lra.
    pose proof (Zfloor_ub (IZR h * tan (- a))) as F. split; nra.
Qed.
Lemma clamp_range x lo hi : lo <= hi -> lo <= clamp x lo hi <= hi.
Proof. intros H. unfold clamp. split; [apply Rmax_l|]. apply Rmax_lub; [assumption|apply Rmin_r]. Qed.
Lemma Rle_le_dec x y z : {x <= y <= z} + {~ x <= y <= z}.
Proof. destruct (Rle_dec x y), (Rle_dec y z); [left; lra|right; lra|right; lra|right; lra]. Qed.
Lemma classic_dec_hor h w a index : {hor_index_ok h w a index} + {~ hor_index_ok h w a index}.
Proof. unfold hor_index_ok. destruct (Rlt_dec 0 a); apply Rle_le_dec. Qed.
Lemma classic_dec_ver h w a index : {ver_index_ok h w a index} + {~ ver_index_ok h w a index}.
Proof. unfold ver_index_ok. destruct (Rlt_dec 0 a); apply Rle_le_dec. Qed.
Lemma zrange_sample (f : Z -> R) n k : (0 <= k < n)%Z -> sample (map f (zrange 0 n)) k = f k.
Proof. intros H. unfold sample. rewrite nth_map_zrange by lia. f_equal. lia. Qed.
