(** Properties of discorpy/prep/preprocessing.py (C39-C56, C80-C82). *)
From Coq Require Import Reals ZArith List Lra Lia Permutation Sorted.
From Coq Require Floats.
From Flocq Require Import Core.
From Verif Require Import Base Num Img Post Spec Lsq LsqEx NumFacts Sorting PrepSpec PrepImg PrepPts PrepFacts PrepFacts2
  PrepFacts3 PrepFacts4 PrepFacts5 PrepImgFacts PrepImgFacts2 PrepImgFacts3 PrepImgFacts4 PrepImgFacts5 PrepEx.
Import ListNotations.
Local Open Scope R_scope.
Local Existing Instance Rex.

(** Computes sums over literal ranges. *)
Ltac sums := unfold sumZ;
  repeat match goal with |- context [Z.to_nat ?k] => let v := eval vm_compute in (Z.to_nat k) in change (Z.to_nat k) with v end; cbn.

(** ** C39 region of interest *)
(** In double precision (or exactly), images up to 2^40 pixels a side: the
    same number of rows is cut at the top and at the bottom, the same number
    of columns left and right, and something is left. *)
Theorem C39_roi : forall rnd m ratio, exact_or_double rnd -> (1 <= ih m <= 2 ^ 40)%Z -> (1 <= iw m <= 2 ^ 40)%Z ->
  let roi := @select_roi R (Rnum rnd) m ratio false in
  exists dy dx, (0 <= dy /\ 0 <= dx /\ 2 * dy < ih m /\ 2 * dx < iw m /\
    ih roi = ih m - 2 * dy /\ iw roi = iw m - 2 * dx)%Z /\ forall i j, px roi i j = px m (dy + i)%Z (dx + j)%Z.
Proof.
  intros rnd m ratio Hr H1 H2 roi. destruct (roi_false rnd Hr m ratio H1 H2) as [dy [dx H]]. exists dy, dx. tauto.
Qed.
Print Assumptions C39_roi.
(** How many: the part (1 - ratio)/2 rounded down, ratio limited to 5%..100%. *)
Theorem C39_roi_exact : forall m ratio, (1 <= ih m)%Z -> (1 <= iw m)%Z ->
  let roi := select_roi m ratio false in let r := clamp ratio (1 / 20) 1 in
  exists dy dx, (0 <= dy /\ 0 <= dx /\ 2 * dy < ih m /\ 2 * dx < iw m /\
    ih roi = ih m - 2 * dy /\ iw roi = iw m - 2 * dx)%Z /\ (forall i j, px roi i j = px m (dy + i)%Z (dx + j)%Z) /\
    IZR dy <= (1 - r) * IZR (ih m) / 2 < IZR dy + 1 /\ IZR dx <= (1 - r) * IZR (iw m) / 2 < IZR dx + 1.
Proof.
  intros m ratio H1 H2 roi r. destruct (roi_false_exact m ratio H1 H2) as [dy [dx H]]. exists dy, dx. tauto.
Qed.
Print Assumptions C39_roi_exact.
(** The square region: even side, centred, inside the image. *)
Theorem C39_square : forall rnd m ratio, exact_or_double rnd -> (1 <= ih m <= 2 ^ 40)%Z -> (1 <= iw m <= 2 ^ 40)%Z ->
  let roi := @select_roi R (Rnum rnd) m ratio true in
  exists k, (0 <= 2 * k <= Z.min (ih m) (iw m) /\ ih roi = 2 * k /\ iw roi = 2 * k /\
    0 <= ih m / 2 - k /\ ih m / 2 + k <= ih m /\ 0 <= iw m / 2 - k /\ iw m / 2 + k <= iw m)%Z /\
    (k = Ztrunc (rnd (clamp ratio (rnd (5 / 100)) 1 * IZR (Z.min (ih m) (iw m)))%R) / 2)%Z /\
    forall i j, px roi i j = px m (ih m / 2 - k + i)%Z (iw m / 2 - k + j)%Z.
Proof.
  intros rnd m ratio Hr H1 H2 roi. destruct (roi_true rnd Hr m ratio H1 H2) as [k H]. exists k.
  assert (E : @nclip R (Rnum rnd) ratio (@nofQ R (Rnum rnd) 5 100) (@n1 R (Rnum rnd)) = clamp ratio (rnd (5 / 100)) 1).
  { apply nclip_R. change (rnd (5 / 100) <= 1). destruct (rnd_props rnd Hr) as [Mono _].
    rewrite <- (rnd_int rnd 1 Hr) by lia. apply Mono. lra. }
  rewrite E in H. tauto.
Qed.
Print Assumptions C39_square.
Example C39_ex : ih (select_roi (row_img 9) 0 false) = 1%Z /\ (1 <= iw (select_roi (row_img 9) 0%R false))%Z.
Proof.
  destruct (C39_roi_exact (row_img 9) 0) as [dy [dx [H _]]]; try (cbn; lia). cbv zeta in H.
  destruct H as [A [B [C [D [E F]]]]]. rewrite E, F. cbn [row_img ih iw] in *. lia.
Qed.

(** ** C40 contrast *)
Theorem C40_minority : forall m, binary_image m -> (1 <= ih m)%Z -> (1 <= iw m)%Z ->
  exists b, invert_dots_contrast m = Ok b /\ binary_image b /\ ih b = ih m /\ iw b = iw m /\
    img_sum b <= IZR (ih m * iw m) / 2 /\
    ((forall i j, in_img m i j -> px b i j = px m i j) \/ (forall i j, in_img m i j -> px b i j = 1 - px m i j)).
Proof. exact invert_minority. Qed.
Print Assumptions C40_minority.
(** Binarization: above the threshold is 1, or the complement of that, and at
    most half of the pixels are 1 before borders and specks are removed. *)
Theorem C40_binarization : forall median22 otsu clear opening fill m ratio t, (1 <= ih m)%Z -> (1 <= iw m)%Z ->
  exists b, binarization median22 otsu clear opening fill m ratio (Some t) false = Ok (fill (opening (clear b))) /\
    binary_image b /\ ih b = ih m /\ iw b = iw m /\ img_sum b <= IZR (ih m * iw m) / 2 /\
    ((forall i j, in_img m i j -> (px b i j = 1 <-> t < px m i j)) \/
     (forall i j, in_img m i j -> (px b i j = 1 <-> px m i j <= t))).
Proof.
  intros median22 otsu clear opening fill m ratio t Hh Hw. unfold binarization. set (m1 := img_map _ m).
  assert (P : forall i j, px m1 i j = if Rlt_bool t (px m i j) then 1 else 0) by reflexivity.
  assert (Hb : binary_image m1) by (intros i j _; rewrite P; destruct (Rlt_bool _ _); tauto).
  destruct (invert_minority m1 Hb Hh Hw) as [b [E [B1 [B2 [B3 [B4 B5]]]]]]. exists b. rewrite E. cbn [bind].
  split; [reflexivity|]. split; [assumption|]. split; [assumption|]. split; [assumption|]. split; [assumption|].
  destruct B5 as [B5|B5]; [left|right]; intros i j Hij; rewrite (B5 i j Hij), P; destruct (Rlt_bool t (px m i j)) eqn:El.
  - apply Rlt_bool_true_iff in El. tauto.
  - apply Bool.not_true_iff_false in El. rewrite Rlt_bool_true_iff in El. split; [intros; lra|tauto].
  - apply Rlt_bool_true_iff in El. split; intros; lra.
  - apply Bool.not_true_iff_false in El. rewrite Rlt_bool_true_iff in El. split; intros; lra.
Qed.
Print Assumptions C40_binarization.
(** Without a threshold, it is computed from the region of interest; denoising
    filters the absolute values. *)
Theorem C40_automatic : forall (median22 : image R -> image R) (otsu : image R -> R) clear opening fill (m : image R) ratio thres (denoise : bool), (1 <= ih m)%Z -> (1 <= iw m)%Z ->
  (forall im, ih (median22 im) = ih im /\ iw (median22 im) = iw im) ->
  exists (src : image R) (t : R) (b : image R),
    (if denoise then exists a : image R, ih a = ih m /\ iw a = iw m /\ (forall i j, px a i j = Rabs (px m i j)) /\ src = median22 a else src = m) /\
    match thres with
    | Some t' => t = t'
    | None => exists (roi : image R) dy dx, t = otsu roi /\ (ih roi = ih m - 2 * dy /\ iw roi = iw m - 2 * dx)%Z /\
        (forall i j, px roi i j = px src (dy + i)%Z (dx + j)%Z) /\ let r := clamp ratio (1 / 20) 1 in
        IZR dy <= (1 - r) * IZR (ih m) / 2 < IZR dy + 1 /\ IZR dx <= (1 - r) * IZR (iw m) / 2 < IZR dx + 1
    end /\
    binarization median22 otsu clear opening fill m ratio thres denoise = Ok (fill (opening (clear b))) /\
    binary_image b /\ ih b = ih m /\ iw b = iw m /\ img_sum b <= IZR (ih m * iw m) / 2 /\
    ((forall i j, in_img m i j -> (px b i j = 1 <-> t < px src i j)) \/
     (forall i j, in_img m i j -> (px b i j = 1 <-> px src i j <= t))).
Proof.
  intros median22 otsu clear opening fill m ratio thres denoise Hh Hw Hm.
  set (src := if denoise then median22 (img_map nabs m) else m). set (t := match thres with Some t => t | None => otsu (select_roi src ratio false) end).
  assert (Es : ih src = ih m /\ iw src = iw m) by (unfold src; destruct denoise; [destruct (Hm (img_map nabs m)) as [E1 E2]; rewrite E1, E2|]; split; reflexivity).
  destruct Es as [Eh Ew].
  destruct (C40_binarization median22 otsu clear opening fill src ratio t) as [b [E [B1 [B2 [B3 [B4 B5]]]]]]; [lia|lia|].
  exists src, t, b. split; [|split; [|split]].
  - unfold src. destruct denoise; [|reflexivity]. exists (img_map nabs m). repeat split.
  - unfold t. destruct thres as [t'|]; [reflexivity|].
    destruct (C39_roi_exact src ratio) as [dy [dx [S [P [D1 D2]]]]]; [lia|lia|]. exists (select_roi src ratio false), dy, dx.
    split; [reflexivity|]. split; [lia|]. split; [exact P|]. cbv zeta. rewrite <- Eh, <- Ew. split; [exact D1|exact D2].
  - rewrite <- E. unfold binarization. cbv zeta. fold src. fold t. reflexivity.
  - rewrite <- Eh, <- Ew. unfold in_img in *. rewrite <- Eh, <- Ew in *. tauto.
Qed.
Print Assumptions C40_automatic.
(** A negative spot in a dark image is found after denoising. *)
Example C40_automatic_ex : let m := mkimg 1 3 (fun _ j => if (j =? 0)%Z then -3 else 0) in
  exists b, binarization (fun im => im) (fun roi => px roi 0%Z 0%Z / 2) (fun im => im) (fun im => im) (fun im => im) m 1 None true = Ok b /\
    px b 0%Z 0%Z = 1 /\ px b 0%Z 1%Z = 0.
Proof.
  intros m. destruct (C40_automatic (fun im => im) (fun roi => px roi 0%Z 0%Z / 2) (fun im => im) (fun im => im) (fun im => im) m 1 None true)
    as [src [t [b [[a [A1 [A2 [A3 A4]]]] [[roi [dy [dx [T1 [[T2 T3] [T4 [T5 T6]]]]]]] [E [B1 [B2 [B3 [B4 B5]]]]]]]]]]; [cbn; lia|cbn; lia|tauto|].
  exists b. split; [exact E|].
  assert (R1 : clamp 1 (1 / 20) 1 = 1) by (unfold clamp; rewrite Rmin_left by lra; apply Rmax_right; lra). rewrite R1 in T5, T6.
  assert (D : dy = 0%Z /\ dx = 0%Z) by (split; [clear T6|clear T5]; apply Z.le_antisymm; [apply Z.lt_succ_r|apply Z.lt_succ_r|apply Z.lt_succ_r|apply Z.lt_succ_r]; apply lt_IZR; rewrite succ_IZR; cbn [m ih iw] in *; lra).
  destruct D as [-> ->].
  assert (P : forall j, (0 <= j < 3)%Z -> px src 0%Z j = if (j =? 0)%Z then 3 else 0).
  { intros j _. rewrite A4, A3. cbn [m px]. destruct (j =? 0)%Z; [rewrite Rabs_left; lra|apply Rabs_R0]. }
  assert (Et : t = 3 / 2) by (rewrite T1, T4; cbn [Z.add]; rewrite (P 0%Z) by lia; reflexivity).
  assert (I : forall j, (0 <= j < 3)%Z -> in_img m 0 j) by (intros j Hj; unfold in_img; cbn [m ih iw]; lia).
  assert (V : forall j, (0 <= j < 3)%Z -> px b 0%Z j = 0 \/ px b 0%Z j = 1) by (intros j Hj; apply B1; unfold in_img; rewrite B2, B3; exact (I j Hj)).
  assert (I0 := I 0%Z ltac:(lia)). assert (I1 := I 1%Z ltac:(lia)). assert (I2 := I 2%Z ltac:(lia)).
  assert (V0 := V 0%Z ltac:(lia)). assert (V1 := V 1%Z ltac:(lia)).
  assert (P0 := P 0%Z ltac:(lia)). assert (P1 := P 1%Z ltac:(lia)). assert (P2 := P 2%Z ltac:(lia)). cbn [Z.eqb] in P0, P1, P2.
  destruct B5 as [B5|B5]; assert (X0 := B5 0%Z 0%Z I0); assert (X1 := B5 0%Z 1%Z I1); assert (X2 := B5 0%Z 2%Z I2); rewrite ?P0, ?P1, ?P2, Et in *.
  - split; [apply X0; lra|]. destruct V1 as [V1|V1]; [exact V1|]. apply X1 in V1. lra.
  - exfalso. assert (px b 0%Z 1%Z = 1) by (apply X1; lra). assert (px b 0%Z 2%Z = 1) by (apply X2; lra).
    revert B4. unfold img_sum. rewrite B2, B3. cbn [m ih iw]. sums. intros B4. destruct V0 as [V0|V0]; lra.
Qed.
(** Three of five pixels are set: the image is inverted. *)
Example C40_ex : exists b, invert_dots_contrast (row_img 5) = Ok b /\ px b 0%Z 0%Z = 0 /\ px b 0%Z 1%Z = 1.
Proof.
  destruct (C40_minority (row_img 5) (row_binary 5)) as [b [E [_ [_ [_ [S C]]]]]]; try (cbn; lia).
  exists b. split; [assumption|].
  destruct C as [C|C].
  - exfalso. assert (img_sum b = 3); [|cbn in S; lra]. destruct (C40_minority (row_img 5) (row_binary 5)) as [b' [E' [_ [H1 [H2 _]]]]]; try (cbn; lia).
    rewrite E in E'. injection E' as <-. unfold img_sum. rewrite H1, H2. cbn [row_img ih iw].
    rewrite (sumZ_ext 1 _ (fun i => sumZ 5 (fun j => px (row_img 5) i j))).
    + sums. lra.
    + intros i Hi. apply sumZ_ext. intros j Hj. apply C. split; cbn; lia.
  - rewrite !C by (split; cbn; lia). cbn. split; lra.
Qed.

(** ** C41 selection of dots *)
(** Size: a dot is accepted if the sum over its box is within the limits; the
    result is the input in the boxes of the accepted dots and 0 elsewhere. *)
Theorem C41_size : forall label m lab n dot_size ratio,
  int16_image m -> label (to_int16 m) = (lab, n) -> labelling m lab n ->
  let accepted k := exists a b c d, hull_box lab k a b c d /\
    Rmax 0 (dot_size - ratio * dot_size) <= img_sum (subimage m a b c d) <= dot_size + ratio * dot_size in
  let out := select_dots_based_size label m dot_size ratio in
  ih out = ih m /\ iw out = iw m /\ forall i j, in_img m i j ->
    (px out i j = px m i j /\ exists k, (1 <= k <= n)%Z /\ accepted k /\ in_hull lab k i j) \/
    (px out i j = 0 /\ ~ exists k, (1 <= k <= n)%Z /\ accepted k /\ in_hull lab k i j).
Proof. intros label m lab n ds ratio H1 H2 H3. exact (select_size label m lab n ds ratio H1 H2 H3). Qed.
Print Assumptions C41_size.
Theorem C41_ratio : forall label (axes : image R -> R * R) m lab n ratio,
  int16_image m -> label (to_int16 m) = (lab, n) -> labelling m lab n -> (forall a b, img_eq a b -> axes a = axes b) ->
  let accepted k := exists a b c d, hull_box lab k a b c d /\ (2 <= b - a)%Z /\ (2 <= d - c)%Z /\
    let (minor, major) := axes (subimage m a b c d) in Rabs (major / minor - 1) < ratio in
  let out := select_dots_based_ratio label axes m ratio in
  ih out = ih m /\ iw out = iw m /\ forall i j, in_img m i j ->
    (px out i j = px m i j /\ exists k, (1 <= k <= n)%Z /\ accepted k /\ in_hull lab k i j) \/
    (px out i j = 0 /\ ~ exists k, (1 <= k <= n)%Z /\ accepted k /\ in_hull lab k i j).
Proof. intros label axes m lab n ratio H1 H2 H3 H4. exact (select_ratio label axes m lab n ratio H1 H2 H3 H4). Qed.
Print Assumptions C41_ratio.
Lemma hook_sum1 : img_sum (subimage hook_img 0 3 0 3) = 6.
Proof. unfold img_sum. cbn [subimage ih iw px]. sums. lra. Qed.
Lemma hook_sum2 : img_sum (subimage hook_img 0 1 2 3) = 1.
Proof. unfold img_sum. cbn [subimage ih iw px]. sums. lra. Qed.
(** A rejected dot is not always removed: here the single-pixel dot is
    rejected, but lies in the box of the accepted L-shaped one. *)
Theorem C41_rejected_removed_refuted : exists label m lab n dot_size ratio k i j,
  int16_image m /\ label (to_int16 m) = (lab, n) /\ labelling m lab n /\ (1 <= k <= n)%Z /\
  (forall a b c d, hull_box lab k a b c d -> ~ (dot_size - ratio * dot_size <= img_sum (subimage m a b c d))) /\
  labelled lab k (i, j) /\ px m i j <> 0 /\ px (select_dots_based_size label m dot_size ratio) i j = px m i j.
Proof.
  exists (fun _ => (hook_lab, 2%Z)), hook_img, hook_lab, 2%Z, 6, (1 / 10), 2%Z, 0%Z, 2%Z.
  split; [apply hook_int16|]. split; [reflexivity|]. split; [apply hook_labelling|]. split; [lia|]. split.
  { intros a b c d H. destruct (hull_box_unique _ _ _ _ _ _ _ _ _ _ H hook_box2) as [-> [-> [-> ->]]]. rewrite hook_sum2. lra. }
  split; [split; [unfold in_img; cbn; lia|reflexivity]|]. split; [cbn; lra|].
  destruct (C41_size (fun _ => (hook_lab, 2%Z)) hook_img hook_lab 2 6 (1 / 10) hook_int16 eq_refl hook_labelling) as [_ [_ H]].
  destruct (H 0%Z 2%Z) as [[E _]|[_ N]]; [unfold in_img; cbn; lia|exact E|].
  exfalso. apply N. exists 1%Z. split; [lia|]. split.
  - exists 0%Z, 3%Z, 0%Z, 3%Z. split; [apply hook_box1|]. rewrite hook_sum1. unfold Rmax. destruct (Rle_dec _ _); lra.
  - apply hook_box1. lia.
Qed.
Print Assumptions C41_rejected_removed_refuted.
(** With another size only the single-pixel dot is kept. *)
Example C41_ex : let out := select_dots_based_size (fun _ => (hook_lab, 2%Z)) hook_img 1 (1 / 10) in
  px out 0%Z 2%Z = 1 /\ px out 2%Z 2%Z = 0.
Proof.
  cbv zeta. destruct (C41_size (fun _ => (hook_lab, 2%Z)) hook_img hook_lab 2 1 (1 / 10) hook_int16 eq_refl hook_labelling) as [_ [_ H]].
  split.
  - destruct (H 0%Z 2%Z) as [[E _]|[_ N]]; [unfold in_img; cbn; lia|exact E|]. exfalso. apply N. exists 2%Z.
    split; [lia|]. split; [|apply hook_box2; lia]. exists 0%Z, 1%Z, 2%Z, 3%Z. split; [apply hook_box2|].
    rewrite hook_sum2. unfold Rmax. destruct (Rle_dec _ _); lra.
  - destruct (H 2%Z 2%Z) as [[_ N]|[E _]]; [unfold in_img; cbn; lia| |exact E]. exfalso.
    destruct N as [k [Hk [[a [b [c [d [HB HS]]]]] HH]]]. assert (k = 1 \/ k = 2)%Z as [->| ->] by lia.
    + destruct (hull_box_unique _ _ _ _ _ _ _ _ _ _ HB hook_box1) as [-> [-> [-> ->]]]. rewrite hook_sum1 in HS. lra.
    + apply hook_box2 in HH. lia.
Qed.

(** ** C42 selection by distance *)
(** A dot is accepted if one of the three smallest distances to the other
    dots is at least a whole multiple of dot_dist and exceeds it by less than
    ratio * dot_dist. *)
Theorem C42_distance : forall label m lab n dot_dist ratio,
  int16_image m -> label (to_int16 m) = (lab, n) -> labelling m lab n -> 0 < dot_dist -> ratio <= 1 ->
  let accepted k := exists ds, neighbour_distances m lab n k ds /\
    exists d i, In d (firstn 3 ds) /\ IZR i * dot_dist <= d < (IZR i + ratio) * dot_dist in
  let out := select_dots_based_distance label m dot_dist ratio in
  ih out = ih m /\ iw out = iw m /\ forall i j, in_img m i j ->
    (px out i j = px m i j /\ exists k, (1 <= k <= n)%Z /\ accepted k /\ in_hull lab k i j) \/
    (px out i j = 0 /\ ~ exists k, (1 <= k <= n)%Z /\ accepted k /\ in_hull lab k i j).
Proof. intros label m lab n dd ratio H1 H2 H3 H4 H5. exact (select_distance label m lab n dd ratio H1 H2 H3 H4 H5). Qed.
Print Assumptions C42_distance.
(** One-sided: a dot whose near neighbours are all somewhat nearer than
    dot_dist is removed (unless it lies in the box of an accepted one). *)
Theorem C42_nearer_removed : forall label m lab n dot_dist ratio k i j ds,
  int16_image m -> label (to_int16 m) = (lab, n) -> labelling m lab n -> 0 < dot_dist -> 0 < ratio <= 1 ->
  (1 <= k <= n)%Z -> neighbour_distances m lab n k ds ->
  (forall d, In d (firstn 3 ds) -> ratio * dot_dist <= d < dot_dist) ->
  labelled lab k (i, j) -> (forall k', (1 <= k' <= n)%Z -> k' <> k -> ~ in_hull lab k' i j) ->
  px (select_dots_based_distance label m dot_dist ratio) i j = 0.
Proof.
  intros label m lab n dd ratio k i j ds H1 H2 H3 H4 [H5 H5'] Hk Hds Hd [Hl El] Hno.
  destruct (C42_distance label m lab n dd ratio H1 H2 H3 H4 H5') as [_ [_ H]].
  destruct (H i j) as [[_ N]|[E _]]; [|exfalso|exact E].
  - unfold in_img in *. destruct H3 as [E1 [E2 _]]. rewrite <- E1, <- E2. exact Hl.
  - destruct N as [k' [Hk' [[ds' [Hds' [d [z [Hin Hz]]]]] HH]]].
    destruct (Z.eq_dec k' k) as [->|Ne]; [|exact (Hno k' Hk' Ne HH)].
    rewrite (neighbour_distances_unique _ _ _ _ _ _ Hds' Hds) in Hin. specialize (Hd d Hin).
    assert (z < 1)%Z by (apply lt_IZR; nra). assert (-1 < z)%Z by (apply lt_IZR; nra).
    assert (z = 0%Z) by lia. subst z. lra.
Qed.
Print Assumptions C42_nearer_removed.
(** Two dots at columns 0 and 2 (distance 2). *)
Lemma row3_centroid k : (1 <= k <= 2)%Z -> centroid (row_img 3) (row_lab 3) k = (0, 2 * (IZR k - 1)).
Proof.
  intros Hk. unfold centroid, mass, moment, part. cbn [row_img ih iw]. sums.
  assert (k = 1 \/ k = 2)%Z as [->| ->] by lia; cbn; f_equal; field.
Qed.
Lemma row3_neighbours : neighbour_distances (row_img 3) (row_lab 3) 2 1 [2].
Proof.
  exists [2%Z]. split; [repeat constructor; intros []|]. split; [intros j; cbn; lia|]. split; [|repeat constructor].
  cbn [map]. rewrite !row3_centroid by lia. unfold dist, py, pxc. cbn [fst snd].
  match goal with |- context [sqrt ?e] => replace e with (2 * 2) by ring end. rewrite sqrt_square by lra. apply Permutation_refl.
Qed.
Lemma row3_label2 p : labelled (row_lab 3) 2 p -> p = (0, 2)%Z.
Proof.
  destruct p as [i j]. intros [[H1 H2] E]. cbn in H1, H2, E. destruct (Z.even j) eqn:Ev; [|discriminate].
  assert (i = 0)%Z by lia. assert (j = 0 \/ j = 1 \/ j = 2)%Z as [->|[->| ->]] by lia; cbn in E; try discriminate. now subst.
Qed.
Example C42_ex_removed : px (select_dots_based_distance (fun _ => (row_lab 3, 2%Z)) (row_img 3) (21 / 10) (1 / 10)) 0%Z 0%Z = 0.
Proof.
  apply (C42_nearer_removed _ (row_img 3) (row_lab 3) 2 (21 / 10) (1 / 10) 1 0 0 [2]); try lra; try lia.
  - apply row_int16.
  - reflexivity.
  - exact (row_labelling 3 ltac:(lia)).
  - apply row3_neighbours.
  - intros d [<-|[]]. lra.
  - split; [unfold in_img; cbn; lia|reflexivity].
  - intros k' Hk' Ne [[p [q [Hp [Hq H]]]] [p' [q' [Hp' [Hq' H']]]]]. assert (k' = 2%Z) by lia. subst.
    apply row3_label2 in Hp', Hq'. subst. cbn in H'. lia.
Qed.
Example C42_ex_kept : px (select_dots_based_distance (fun _ => (row_lab 3, 2%Z)) (row_img 3) (19 / 10) (1 / 10)) 0%Z 0%Z = 1.
Proof.
  destruct (C42_distance (fun _ => (row_lab 3, 2%Z)) (row_img 3) (row_lab 3) 2 (19 / 10) (1 / 10) (row_int16 3) eq_refl (row_labelling 3 ltac:(lia)) ltac:(lra) ltac:(lra)) as [_ [_ H]].
  destruct (H 0%Z 0%Z) as [[E _]|[_ N]]; [unfold in_img; cbn; lia|exact E|]. exfalso. apply N. exists 1%Z. split; [lia|]. split.
  - exists [2]. split; [apply row3_neighbours|]. exists 2, 1%Z. split; [now left|lra].
  - split; exists (0, 0)%Z, (0, 0)%Z; repeat split; cbn; lia || reflexivity.
Qed.

(** ** C48 parabola mask *)
Theorem C48_mask : forall rot height width hc vc hm vm left right top bot,
  ends hm left right -> ends vm top bot -> (1 <= height)%Z -> (1 <= width)%Z ->
  let result := make_parabola_mask rot height width hc vc hm vm 0 in
  ((IZR width < left + right \/ IZR height < top + bot) -> result = Err ValueError) /\
  (~ (IZR width < left + right \/ IZR height < top + bot) ->
     exists mask, result = Ok mask /\ ih mask = height /\ iw mask = width /\
       forall y x, (px mask y x = 1 /\ inside_parabolas height width hc vc left right top bot y x) \/
                   (px mask y x = 0 /\ ~ inside_parabolas height width hc vc left right top bot y x)).
Proof.
  intros rot h w hc vc hm vm l r t b E1 E2 Hh Hw result. destruct (mask_ok rot h w hc vc hm vm l r t b E1 E2 Hh Hw) as [A B].
  split; [exact A|]. intros Hn. apply B; apply Rnot_lt_le; tauto.
Qed.
Print Assumptions C48_mask.
(** With non-negative curviness the margins are empty. *)
Theorem C48_margins : forall rot height width hc vc hm vm left right top bot mask,
  ends hm left right -> ends vm top bot -> (1 <= height)%Z -> (1 <= width)%Z -> 0 <= hc -> 0 <= vc ->
  make_parabola_mask rot height width hc vc hm vm 0 = Ok mask ->
  forall y x, IZR x <= left \/ IZR width - right <= IZR x \/ IZR y <= top \/ IZR height - bot <= IZR y -> px mask y x = 0.
Proof.
  intros rot h w hc vc hm vm l r t b mask E1 E2 Hh Hw Hc Vc E y x Hm.
  destruct (C48_mask rot h w hc vc hm vm l r t b E1 E2 Hh Hw) as [A B]. cbv zeta in *.
  destruct B as [mask' [E' [_ [_ P]]]]; [intros Hb; rewrite A in E by assumption; discriminate|].
  assert (mask' = mask) by congruence. subst mask'. destruct (P y x) as [[_ I]|[I _]]; [|exact I].
  apply inside_margin in I; try assumption. lra.
Qed.
Print Assumptions C48_margins.
(** Equal margins: mirror symmetric. *)
Theorem C48_mirror : forall rot height width hc vc hmargin vmargin mask,
  (1 <= height)%Z -> (1 <= width)%Z ->
  make_parabola_mask rot height width hc vc (MOne hmargin) (MOne vmargin) 0 = Ok mask ->
  forall y x, px mask y (width - x)%Z = px mask y x /\ px mask (height - y)%Z x = px mask y x.
Proof.
  intros rot h w hc vc hm vm mask Hh Hw E y x.
  destruct (C48_mask rot h w hc vc (MOne hm) (MOne vm) hm hm vm vm (ends_one _) (ends_one _) Hh Hw) as [A B]. cbv zeta in *.
  destruct B as [mask' [E' [_ [_ P]]]]; [intros Hb; rewrite A in E by assumption; discriminate|].
  assert (mask' = mask) by congruence. subst mask'.
  pose proof (inside_mirror_x h w hc vc hm vm vm y x Hw) as MX. pose proof (inside_mirror_y h w hc vc hm hm vm y x Hh) as MY.
  split; [destruct (P y x) as [[-> ?]|[-> ?]], (P y (w - x)%Z) as [[-> ?]|[-> ?]]
         |destruct (P y x) as [[-> ?]|[-> ?]], (P (h - y)%Z x) as [[-> ?]|[-> ?]]]; tauto.
Qed.
Print Assumptions C48_mirror.
Example C48_ex : (exists mask, make_parabola_mask (fun m _ => m) 10 8 (1 / 10) (1 / 10) (MOne 1) (MSeq [2; 1]) 0 = Ok mask /\
    px mask 5%Z 4%Z = 1 /\ px mask 2%Z 4%Z = 0) /\
  make_parabola_mask (fun m _ => m) 10 8 (1 / 10) (1 / 10) (MOne 5) (MSeq [2; 1]) 0 = Err ValueError.
Proof.
  assert (E2 : ends (MSeq [2; 1]) 2 1) by now constructor. split.
  - destruct (C48_mask (fun m _ => m) 10 8 (1 / 10) (1 / 10) (MOne 1) (MSeq [2; 1]) 1 1 2 1 (ends_one _) E2 ltac:(lia) ltac:(lia)) as [_ B].
    cbv zeta in B. destruct B as [mask [E [_ [_ P]]]]; [intros [?|?]; lra|]. exists mask. split; [exact E|]. split.
    + destruct (P 5%Z 4%Z) as [[H _]|[_ H]]; [exact H|]. elim H. unfold inside_parabolas. cbv zeta. replace ((4 - 8 / 2) ^ 2) with 0 by field. replace ((5 - 10 / 2) ^ 2) with 0 by field. repeat split; lra.
    + refine (C48_margins _ _ _ _ _ _ _ _ _ _ _ _ (ends_one _) E2 _ _ _ _ E _ _ _); [lia|lia|lra|lra|]. right. right. left. lra.
  - destruct (C48_mask (fun m _ => m) 10 8 (1 / 10) (1 / 10) (MOne 5) (MSeq [2; 1]) 5 5 2 1 (ends_one _) E2 ltac:(lia) ltac:(lia)) as [A _].
    apply A. left. lra.
Qed.

(** ** C49 removing points by mask *)
Theorem C49_points : forall rot pts height width hc vc hm vm rotate mask,
  make_parabola_mask rot height width hc vc hm vm rotate = Ok mask -> ih mask = height -> iw mask = width ->
  (forall p, In p pts -> indexable height width p) ->
  exists out, remove_points_using_parabola_mask rot pts height width hc vc hm vm rotate = Ok out /\
    selects (fun p => 0 <= IZR (Ztrunc (py p)) /\ 0 <= IZR (Ztrunc (pxc p)) /\ px mask (Ztrunc (py p)) (Ztrunc (pxc p)) = 1) pts out.
Proof.
  intros rot pts h w hc vc hm vm rt mask E Eh Ew H. destruct (remove_points_spec rot pts h w hc vc hm vm rt mask E Eh Ew) as [A _].
  destruct (A H) as [out [E' S]]. exists out. split; [exact E'|].
  clear - S. induction S as [|a l s Ha S IH|a l s Ha S IH]; [constructor|constructor; [|assumption]|apply sel_no; [|assumption]].
  - destruct Ha as [H1 [H2 H3]]. split; [now apply IZR_le|]. split; [now apply IZR_le|exact H3].
  - intros [H1 [H2 H3]]. apply Ha. split; [now apply le_IZR|]. split; [now apply le_IZR|exact H3].
Qed.
Print Assumptions C49_points.
Theorem C49_index_error : forall rot pts height width hc vc hm vm rotate mask p,
  make_parabola_mask rot height width hc vc hm vm rotate = Ok mask -> ih mask = height -> iw mask = width ->
  In p pts -> ~ indexable height width p ->
  remove_points_using_parabola_mask rot pts height width hc vc hm vm rotate = Err IndexError.
Proof.
  intros rot pts h w hc vc hm vm rt mask p E Eh Ew. destruct (remove_points_spec rot pts h w hc vc hm vm rt mask E Eh Ew) as [_ A]. apply A.
Qed.
Print Assumptions C49_index_error.
Lemma trunc_lit z (x : R) : (0 <= z)%Z -> IZR z <= x < IZR z + 1 -> Ztrunc x = z.
Proof. intros Hz H. apply IZR_le in Hz. rewrite Ztrunc_floor by lra. apply Zfloor_imp. rewrite plus_IZR. exact H. Qed.
Lemma trunc_neg z (x : R) : (z <= 0)%Z -> IZR z - 1 < x <= IZR z -> Ztrunc x = z.
Proof. intros Hz H. apply IZR_le in Hz. rewrite Ztrunc_ceil by lra. apply Zceil_imp. rewrite minus_IZR. exact H. Qed.
Example C49_ex : remove_points_using_parabola_mask (fun m _ => m) [(11 / 2, 4); (1, 4); (-5, 4)] 10 8 (1 / 10) (1 / 10) (MOne 1) (MSeq [2; 1]) 0
    = Ok [(11 / 2, 4)] /\
  remove_points_using_parabola_mask (fun m _ => m) [(11 / 2, 4); (10, 4)] 10 8 (1 / 10) (1 / 10) (MOne 1) (MSeq [2; 1]) 0 = Err IndexError.
Proof.
  assert (E2 : ends (MSeq [2; 1]) 2 1) by now constructor.
  destruct (C48_mask (fun m _ => m) 10 8 (1 / 10) (1 / 10) (MOne 1) (MSeq [2; 1]) 1 1 2 1 (ends_one _) E2 ltac:(lia) ltac:(lia)) as [_ B].
  cbv zeta in B. destruct B as [mask [E [Eh [Ew P]]]]; [intros [?|?]; lra|].
  assert (T1 : Ztrunc (11 / 2) = 5%Z) by (apply trunc_lit; [lia|lra]). assert (T2 : Ztrunc 4 = 4%Z) by (apply trunc_lit; [lia|lra]).
  assert (T3 : Ztrunc 1 = 1%Z) by (apply trunc_lit; [lia|lra]). assert (T4 : Ztrunc (-5) = (-5)%Z) by (apply trunc_neg; [lia|lra]).
  assert (T5 : Ztrunc 10 = 10%Z) by (apply trunc_lit; [lia|lra]).
  split.
  - destruct (C49_points _ [(11 / 2, 4); (1, 4); (-5, 4)] _ _ _ _ _ _ _ mask E Eh Ew) as [out [Eo S]].
    { intros p [<-|[<-|[<-|[]]]]; unfold indexable; cbn [fst snd]; rewrite ?T1, ?T2, ?T3, ?T4; lia. }
    rewrite Eo. f_equal. unfold py, pxc in S.
    inversion S as [|? ? s1 _ S1|? ? s1 N1 S1]; subst; cbn [fst snd] in *.
    2: { elim N1. rewrite T1, T2. split; [lra|]. split; [lra|]. destruct (P 5%Z 4%Z) as [[H _]|[_ H]]; [exact H|]. elim H. unfold inside_parabolas. cbv zeta. replace ((4 - 8 / 2) ^ 2) with 0 by field. replace ((5 - 10 / 2) ^ 2) with 0 by field. repeat split; lra. }
    inversion S1 as [|? ? s2 Y2 S2|? ? s2 _ S2]; subst; cbn [fst snd] in *.
    1: { destruct Y2 as [_ [_ Y2]]. rewrite T3, T2 in Y2. destruct (P 1%Z 4%Z) as [[_ H]|[H _]]; [unfold inside_parabolas in H; cbv zeta in H; replace ((4 - 8 / 2) ^ 2) with 0 in H by field; lra|lra]. }
    inversion S2 as [|? ? s3 Y3 S3|? ? s3 _ S3]; subst; cbn [fst snd] in *.
    1: { destruct Y3 as [Y3 _]. rewrite T4 in Y3. lra. }
    inversion S3. reflexivity.
  - apply (C49_index_error _ _ _ _ _ _ _ _ _ mask (10, 4) E Eh Ew); [right; now left|]. unfold indexable. cbn [fst snd]. rewrite T5. lia.
Qed.

(** ** C54 threshold *)
(** [zoom l k] resamples l to k values linearly; [fit1] fits a line. *)
Theorem C54_affine : forall zoom fit1 a b m bright snr,
  (forall l k, l <> [] -> (0 < k)%Z -> length (zoom l k) = Z.to_nat k) ->
  (forall a b l k, zoom (map (fun v => a * v + b) l) k = map (fun v => a * v + b) (zoom l k)) ->
  (forall xs ys, length xs = length ys -> xs <> [] -> exists s i, fit1 xs ys = Ok (s, i) /\ polyfit_spec 1 xs ys [s; i]) ->
  0 < a -> (1 <= ih m)%Z -> (1 <= iw m)%Z -> (3 <= Z.max (ih m) (iw m))%Z -> Z.max (ih m) (iw m) <> 4%Z ->
  exists t, calculate_threshold zoom fit1 m bright snr = Ok t /\
    calculate_threshold zoom fit1 (mkimg (ih m) (iw m) (fun i j => a * px m i j + b)) bright snr = Ok (a * t + b).
Proof. intros zoom fit1 a b m bright snr H1 H2 H3. exact (threshold_affine zoom fit1 H1 H3 H2 a b m bright snr). Qed.
Print Assumptions C54_affine.
(** Only the distribution of grey values counts, in every rounding. *)
Theorem C54_distribution : forall rnd zoom fit1 m m' bright snr, Permutation (pixels m) (pixels m') ->
  ih m = ih m' -> iw m = iw m' ->
  @calculate_threshold R (Rnum rnd) zoom fit1 m bright snr = @calculate_threshold R (Rnum rnd) zoom fit1 m' bright snr.
Proof. intros rnd zoom fit1 m m' bright snr P E1 E2. apply threshold_perm; [now apply nsort_perm_eq|congruence]. Qed.
Print Assumptions C54_distribution.
(** The threshold in terms of the line fitted to the central grey levels:
    below its first value for dark dots on a bright background, above its last
    value for bright dots. *)
Theorem C54_range : forall zoom fit1 m bright snr,
  (forall l k, l <> [] -> (0 < k)%Z -> length (zoom l k) = Z.to_nat k) ->
  (forall xs ys, length xs = length ys -> xs <> [] -> exists s i, fit1 xs ys = Ok (s, i) /\ polyfit_spec 1 xs ys [s; i]) ->
  0 <= snr -> (1 <= ih m)%Z -> (1 <= iw m)%Z -> (3 <= Z.max (ih m) (iw m))%Z -> Z.max (ih m) (iw m) <> 4%Z ->
  let n := Z.max (ih m) (iw m) in
  exists sorted t s i, Permutation sorted (pixels m) /\ StronglySorted Rle sorted /\
    polyfit_spec 1 (map IZR (zrange (n / 4) (n - n / 4 - 1)))
      (map (fun k => nth (Z.to_nat k) (zoom sorted n) 0) (zrange (n / 4) (n - n / 4 - 1))) [s; i] /\
    calculate_threshold zoom fit1 m bright snr = Ok t /\
    (if bright then t = i - snr / 2 * Rabs (s * (IZR n - 1)) else t = i + s * (IZR n - 1) + snr / 2 * Rabs (s * (IZR n - 1))) /\
    (bright = true -> t <= i) /\ (bright = false -> i + s * (IZR n - 1) <= t) /\
    (0 <= s -> forall x, 0 <= x <= IZR n - 1 -> if bright then t <= i + s * x else i + s * x <= t).
Proof.
  intros zoom fit1 m bright snr Hz Hf Hs H1 H2 H3 H4 n.
  destruct (threshold_unfold zoom fit1 Hz Hf m bright snr H1 H2 H3 H4) as [L [I1 [I2 [s [i [E [P T]]]]]]].
  fold n in L, I1, I2, E, P, T. cbv zeta in *.
  exists (nsort (pixels m)). eexists. exists s, i. split; [apply sorted_perm|]. split; [apply nsort_sorted|].
  split; [|split; [exact T|]].
  - set (l := zoom (nsort (pixels m)) n) in *.
    assert (Ne : nsort (pixels m) <> []).
    { intros Ne. apply (f_equal (@length R)) in Ne. unfold nsort in Ne. rewrite (Permutation_length (sorted_perm (fun x => x) (pixels m))) in Ne.
      unfold pixels in Ne. rewrite map_length in Ne. destruct (grid (ih m) (iw m)) eqn:Eg; [|discriminate].
      assert (In (0, 0)%Z (grid (ih m) (iw m))) by (apply PostImg.in_grid; lia). rewrite Eg in H. destruct H. }
    assert (Ll : length l = Z.to_nat n) by (apply Hz; [assumption|lia]).
    assert (El : l = map (fun k => nth (Z.to_nat k) l 0) (zrange 0 n)).
    { apply (nth_ext _ _ 0 0); [rewrite map_length, zrange_length; lia|]. intros k Hk.
      rewrite (nth_indep (map _ _) 0 ((fun k => nth (Z.to_nat k) l 0) 0%Z)) by (rewrite map_length, zrange_length; lia).
      rewrite (map_nth (fun k => nth (Z.to_nat k) l 0)), zrange_nth by lia. f_equal. lia. }
    assert (Hq : (0 <= n / 4 /\ 2 * (n / 4) + 1 <= n)%Z).
    { pose proof (Z.div_mod n 4 ltac:(lia)). pose proof (Z.mod_pos_bound n 4 ltac:(lia)). lia. }
    rewrite <- (lslice_range n (n / 4)) at 2 by lia. rewrite <- lslice_map, <- El. exact P.
  - assert (A := Rabs_pos (s * (IZR n - 1))). rewrite minus_IZR.
    replace (i + s * (IZR n - 1) - i) with (s * (IZR n - 1)) by ring.
    assert (B : 0 <= snr / 2 * Rabs (s * (IZR n - 1))) by (apply Rmult_le_pos; lra).
    split; [destruct bright; field|]. split; [intros ->; lra|]. split; [intros ->; lra|].
    intros Hp x Hx. assert (0 <= s * x <= s * (IZR n - 1)) by nra. destruct bright; lra.
Qed.
Print Assumptions C54_range.
(** Nearest resampling and least squares meet the hypotheses. *)
Definition zoom_ex (l : list R) (k : Z) : list R :=
  match l with
  | [] => []
  | x :: _ => map (fun i => nth (i * length l / Z.to_nat k) l x) (seq 0 (Z.to_nat k))
  end.
Definition fit1_ex (xs ys : list R) : res (R * R) :=
  match polyfit_R 1 xs ys with [s; i] => Ok (s, i) | _ => Err ValueError end.
Example C54_ex :
  (forall l k, l <> [] -> (0 < k)%Z -> length (zoom_ex l k) = Z.to_nat k) /\
  (forall a b l k, zoom_ex (map (fun v => a * v + b) l) k = map (fun v => a * v + b) (zoom_ex l k)) /\
  (forall xs ys, length xs = length ys -> xs <> [] -> exists s i, fit1_ex xs ys = Ok (s, i) /\ polyfit_spec 1 xs ys [s; i]).
Proof.
  repeat apply conj.
  - intros [|x l] k H _; [congruence|]. unfold zoom_ex. now rewrite map_length, seq_length.
  - intros a b [|x l] k; [reflexivity|]. unfold zoom_ex. cbn [map]. rewrite map_map. apply map_ext. intros i.
    change (a * x + b :: map (fun v => a * v + b) l) with (map (fun v => a * v + b) (x :: l)).
    rewrite map_length. apply (map_nth (fun v => a * v + b)).
  - intros xs ys _ _. pose proof (polyfit_R_ok 1 xs ys) as H. unfold fit1_ex.
    destruct (polyfit_R 1 xs ys) as [|s [|i [|? ?]]]; try (destruct H as [H _]; discriminate H).
    exists s, i. split; [reflexivity|exact H].
Qed.


(** ** C55 normalisation *)
(** In every arithmetic the result is mean * pixel / background, whatever the
    background is; nothing is raised. *)
Theorem C55_formula : forall (T : Type) (N : Num T) median_filter fft_filter (mat : image T) size sigma pad,
  (exists out, normalization median_filter mat size = Ok out /\ ih out = ih mat /\ iw out = iw mat /\
     let bck := median_filter mat size in forall i j, px out i j = ndiv (nmul (mean (pixels bck)) (px mat i j)) (px bck i j)) /\
  (exists out, normalization_fft fft_filter mat sigma pad = Ok out /\ ih out = ih mat /\ iw out = iw mat /\
     let bck := fft_filter mat sigma pad in forall i j, px out i j = ndiv (nmul (mean (pixels bck)) (px mat i j)) (px bck i j)).
Proof. intros. split; apply normalize_by_px. Qed.
Print Assumptions C55_formula.
(** In double precision a zero background pixel gives NaN or an infinity. *)
Theorem C55_zero_background : forall median_filter (mat : image PrimFloat.float) size out i j,
  @normalization _ FloatNum median_filter mat size = Ok out ->
  FloatOps.Prim2SF (px (median_filter mat size) i j) = SpecFloat.S754_zero false \/
    FloatOps.Prim2SF (px (median_filter mat size) i j) = SpecFloat.S754_zero true ->
  let v := FloatOps.Prim2SF (px out i j) in
  v = SpecFloat.S754_nan \/ v = SpecFloat.S754_infinity false \/ v = SpecFloat.S754_infinity true.
Proof.
  intros mf mat size out i j E Z v. destruct (@normalize_by_px _ FloatNum mat (mf mat size)) as [out' [E' [_ [_ P]]]].
  unfold normalization in E. assert (out' = out) by congruence. subst out'. unfold v. rewrite P. now apply float_div_zero.
Qed.
Print Assumptions C55_zero_background.
Example C55_ex : exists out, @normalization _ FloatNum (fun m _ => m) (mkimg 1 2 (fun _ j => if (j =? 0)%Z then PrimFloat.zero else PrimFloat.one)) 51 = Ok out /\
  FloatOps.Prim2SF (px out 0%Z 0%Z) = SpecFloat.S754_nan.
Proof. eexists. split; [reflexivity|]. vm_compute. reflexivity. Qed.

(** ** C56 decision rules *)
Theorem C56_num_dots : forall label (m : image R) lab n, label m = (lab, n) -> labelling m lab n ->
  (check_num_dots label m = true <-> (n < 25)%Z).
Proof.
  intros label m lab n E _. unfold check_num_dots. rewrite E. cbn [snd]. change (5 * 5)%Z with 25%Z.
  destruct (Z.ltb_spec n 25); split; intros; try lia; try reflexivity; discriminate.
Qed.
Print Assumptions C56_num_dots.
Theorem C56_size : forall m dot_size ratio,
  (check_dot_size m (nmax (nsub dot_size (nmul ratio dot_size)) n0) (nadd dot_size (nmul ratio dot_size)) = true <->
   Rmax (dot_size - ratio * dot_size) 0 <= img_sum m <= dot_size + ratio * dot_size).
Proof. intros m d r. refine (iff_trans (check_size_iff (fun _ => (row_lab 0, 0%Z)) _ _ _) _). pose proof (nmax_R (fun x => x) (d - r * d) 0) as E. change (Rnum (fun x => x)) with Rex in E.
  change (@nsub R Rex d (@nmul R Rex r d)) with (d - r * d). change (@n0 R Rex) with 0. rewrite E. reflexivity. Qed.
Print Assumptions C56_size.
Example C56_ex : check_num_dots (fun _ => (row_lab 49, 25%Z)) (row_img 49) = false /\ labelling (row_img 49) (row_lab 49) 25 /\
  check_num_dots (fun _ => (row_lab 47, 24%Z)) (row_img 47) = true.
Proof. split; [reflexivity|]. split; [apply (row_labelling 49); lia|reflexivity]. Qed.

(** ** C80 typical size and spacing *)
Theorem C80_medians : forall label clear m ratio lab n,
  let roi := clear (select_roi m ratio false) in
  int16_image roi -> label (to_int16 roi) = (lab, n) -> labelling roi lab n -> (2 <= n)%Z ->
  exists size distance nearest, calc_size_distance label clear m ratio = Ok (size, distance) /\
    is_median (map (mass roi lab) (zrange 1 (n + 1))) size /\
    Forall2 (fun k v => exists ds, neighbour_distances roi lab n k (v :: ds)) (zrange 1 (n + 1)) nearest /\
    is_median nearest distance.
Proof. exact calc_size_distance_ok. Qed.
Print Assumptions C80_medians.
(** One dot is an IndexError. *)
Theorem C80_single_dot : forall label clear m ratio lab,
  let roi := clear (select_roi m ratio false) in
  label (to_int16 roi) = (lab, 1%Z) -> calc_size_distance label clear m ratio = Err IndexError.
Proof.
  intros label clear m ratio lab roi E. unfold calc_size_distance. cbv zeta. fold roi. rewrite E. reflexivity.
Qed.
Print Assumptions C80_single_dot.
Lemma median_const l c v : l <> [] -> (forall x, In x l -> x = c) -> is_median l v -> v = c.
Proof.
  intros Ne H [s [P [_ [k K]]]]. assert (L := Permutation_length P).
  assert (G : forall i, (i < length s)%nat -> nth i s 0 = c).
  { intros i Hi. apply H. apply (Permutation_in _ P). now apply nth_In. }
  destruct K as [[E ->]|[E ->]]; rewrite !G by lia; field.
Qed.
Lemma row3_neighbours2 : neighbour_distances (row_img 3) (row_lab 3) 2 2 [2].
Proof.
  exists [1%Z]. split; [repeat constructor; intros []|]. split; [intros j; cbn; lia|]. split; [|repeat constructor].
  cbn [map]. rewrite !row3_centroid by lia. unfold dist, py, pxc. cbn [fst snd].
  match goal with |- context [sqrt ?e] => replace e with (2 * 2) by ring end. rewrite sqrt_square by lra. apply Permutation_refl.
Qed.
(** Two dots are left after clearing the border. *)
Example C80_ex : calc_size_distance (fun _ => (row_lab 3, 2%Z)) (fun _ => row_img 3) (row_img 9) (3 / 10) = Ok (1, 2).
Proof.
  destruct (C80_medians (fun _ => (row_lab 3, 2%Z)) (fun _ => row_img 3) (row_img 9) (3 / 10) (row_lab 3) 2 (row_int16 3) eq_refl
    (row_labelling 3 ltac:(lia)) ltac:(lia)) as [s [d [near [E [M1 [F M2]]]]]].
  rewrite E. f_equal. change (zrange 1 (2 + 1)) with [1; 2]%Z in *. f_equal.
  - revert M1. apply median_const; [discriminate|]. intros x [<-|[<-|[]]]; unfold mass, moment, part; cbn [row_img ih iw]; sums; lra.
  - revert M2. inversion F as [|? v1 ? l1 [d1 N1] F1]; subst. inversion F1 as [|? v2 ? l2 [d2 N2] F2]; subst. inversion F2; subst.
    pose proof (neighbour_distances_unique _ _ _ _ _ _ N1 row3_neighbours) as E1. pose proof (neighbour_distances_unique _ _ _ _ _ _ N2 row3_neighbours2) as E2.
    apply median_const; [discriminate|]. intros x [<-|[<-|[]]]; congruence.
Qed.

(** ** C81 slopes of the dot grid *)
Theorem C81_hor : forall label radon_max argsort slope_fit clear m ratio lab n s c,
  let roi := clear (select_roi m ratio false) in
  let cx k := pxc (centroid roi lab k) in let cy k := py (centroid roi lab k) in
  argsort_spec argsort ->
  (forall xs ys, length xs = length ys -> xs <> [] -> exists i, polyfit_spec 1 xs ys [slope_fit xs ys; i]) ->
  (forall im l, length (radon_max im l) = length l) ->
  int16_image roi -> label (to_int16 roi) = (lab, n) -> labelling roi lab n -> (1 <= n)%Z -> (0 <= iw roi)%Z ->
  (forall k, (1 <= k <= n)%Z -> cy k = s * cx k + c) ->
  (forall k k', (1 <= k <= n)%Z -> (1 <= k' <= n)%Z -> k <> k' -> cx k <> cx k') ->
  let profile := radon_max (to_int16 roi) (map IZR (zrange 60 121)) in
  exists a v, (-30 <= a <= 30)%Z /\ calc_hor_slope label radon_max tan cos PI argsort slope_fit clear m ratio = Ok v /\
    (forall x, In x profile -> x <= nth (Z.to_nat (30 - a)) profile 0) /\
    (v = s \/ v = tan (IZR a * (PI / 180))) /\
    ((forall k, (1 <= k <= n)%Z -> exists k', (1 <= k' <= n)%Z /\ k' <> k /\
        Rabs (cx k' - cx k) * Rabs (tan (IZR a * (PI / 180)) - s) < IZR (iw roi) / 2 * tan (PI / 180)) -> v = s).
Proof.
  intros label radon_max argsort slope_fit clear m ratio lab n s c roi cx cy HA Hf Hr Hi El HL Hn Hw Hc Hd profile.
  exact (hor_slope_collinear label radon_max argsort slope_fit HA Hf Hr clear m ratio lab n Hi El HL Hn Hw s c Hc Hd).
Qed.
Print Assumptions C81_hor.
Theorem C81_ver : forall label radon_max argsort slope_fit clear m ratio lab n s c,
  let roi := clear (select_roi m ratio false) in
  let cx k := pxc (centroid roi lab k) in let cy k := py (centroid roi lab k) in
  argsort_spec argsort ->
  (forall xs ys, length xs = length ys -> xs <> [] -> exists i, polyfit_spec 1 xs ys [slope_fit xs ys; i]) ->
  (forall im l, length (radon_max im l) = length l) ->
  int16_image roi -> label (to_int16 roi) = (lab, n) -> labelling roi lab n -> (1 <= n)%Z -> (0 <= iw roi)%Z ->
  (forall k, (1 <= k <= n)%Z -> cx k = s * cy k + c) ->
  (forall k k', (1 <= k <= n)%Z -> (1 <= k' <= n)%Z -> k <> k' -> cy k <> cy k') ->
  let profile := radon_max (to_int16 roi) (map IZR (zrange (-30) 31)) in
  exists a v, (-30 <= a <= 30)%Z /\ calc_ver_slope label radon_max tan cos PI argsort slope_fit clear m ratio = Ok v /\
    (forall x, In x profile -> x <= nth (Z.to_nat (a + 30)) profile 0) /\
    (v = s \/ v = tan (IZR a * (PI / 180))) /\
    ((forall k, (1 <= k <= n)%Z -> exists k', (1 <= k' <= n)%Z /\ k' <> k /\
        Rabs (cy k' - cy k) * Rabs (tan (IZR a * (PI / 180)) - s) < IZR (iw roi) / 2 * tan (PI / 180)) -> v = s).
Proof.
  intros label radon_max argsort slope_fit clear m ratio lab n s c roi cx cy HA Hf Hr Hi El HL Hn Hw Hc Hd profile.
  exact (ver_slope_collinear label radon_max argsort slope_fit HA Hf Hr clear m ratio lab n Hi El HL Hn Hw s c Hc Hd).
Qed.
Print Assumptions C81_ver.

Example C81_ex : calc_hor_slope (fun _ => (row_lab 3, 2%Z)) (fun _ l => map (fun a => - Rabs (a - 90)) l) tan cos PI argsort_ins
    (fun xs ys => hd 0 (polyfit_R 1 xs ys)) (fun _ => row_img 3) (row_img 9) (3 / 10) = Ok 0.
Proof.
  destruct (C81_hor (fun _ => (row_lab 3, 2%Z)) (fun _ l => map (fun a => - Rabs (a - 90)) l) argsort_ins
    (fun xs ys => hd 0 (polyfit_R 1 xs ys)) (fun _ => row_img 3) (row_img 9) (3 / 10) (row_lab 3) 2 0 0) as [a [v [Ha [E [M [_ V]]]]]].
  - exact (argsort_ins_ok (fun x => x)).
  - intros xs ys _ _. pose proof (polyfit_R_ok 1 xs ys) as H.
    destruct (polyfit_R 1 xs ys) as [|s [|i [|? ?]]]; try (destruct H as [H _]; discriminate H). now exists i.
  - intros. apply map_length.
  - apply row_int16.
  - reflexivity.
  - exact (row_labelling 3 ltac:(lia)).
  - lia.
  - cbn. lia.
  - intros k Hk. rewrite row3_centroid by lia. cbn. ring.
  - intros k k' Hk Hk' Ne. rewrite !row3_centroid by lia. cbn. intros Eq. apply Ne. apply eq_IZR. lra.
  - rewrite E. f_equal. apply V.
    assert (a = 0%Z).
    { assert (M1 := M (- Rabs (90 - 90))). rewrite Rminus_diag_eq, Rabs_R0, Ropp_0 in M1 by reflexivity.
      assert (I : In 0 (map (fun a : R => - Rabs (a - 90)) (map IZR (zrange 60 121)))).
      { apply in_map_iff. exists 90. split; [rewrite Rminus_diag_eq, Rabs_R0 by reflexivity; ring|]. apply in_map_iff. exists 90%Z. split; [reflexivity|]. apply in_zrange. lia. }
      specialize (M1 I). rewrite (nth_indep _ 0 ((fun a : R => - Rabs (a - 90)) (IZR 0))) in M1 by (rewrite !map_length, zrange_length; lia).
      rewrite (map_nth (fun a : R => - Rabs (a - 90))), map_nth, zrange_nth in M1 by lia.
      pose proof (Rabs_pos (IZR (60 + Z.of_nat (Z.to_nat (30 - a))) - 90)) as P.
      assert (Z0 : Rabs (IZR (60 + Z.of_nat (Z.to_nat (30 - a))) - 90) = 0) by lra.
      apply Rabs_eq_0 in Z0 || (destruct (Req_dec (IZR (60 + Z.of_nat (Z.to_nat (30 - a))) - 90) 0) as [Z1|Z1]; [|apply Rabs_no_R0 in Z1; contradiction]).
      assert (IZR (60 + Z.of_nat (Z.to_nat (30 - a))) = 90) as Z2 by lra. apply eq_IZR in Z2. lia. }
    subst a. rewrite Rmult_0_l, tan_0. intros k Hk. exists (3 - k)%Z. split; [lia|]. split; [lia|].
    rewrite (Rminus_diag_eq 0 0), Rabs_R0, Rmult_0_r by reflexivity. cbn [row_img iw].
    assert (0 < tan (PI / 180)). { apply tan_gt_0; pose proof PI_RGT_0; lra. } lra.
Qed.

(** ** C82 dot centres of a binary image *)
Theorem C82_centres : forall label binarize m lab n, binary_image m ->
  (exists i j, in_img m i j /\ px m i j = 1) -> (exists i j, in_img m i j /\ px m i j = 0) ->
  label (to_int16 m) = (lab, n) -> labelling m lab n ->
  exists pts, get_points_dot_pattern label binarize m false = Ok pts /\ length pts = Z.to_nat n /\
    forall k, (1 <= k <= n)%Z ->
      nth (Z.to_nat (k - 1)) pts (0, 0) = centroid m lab k /\
      forall a b c d, hull_box lab k a b c d ->
        IZR a <= py (centroid m lab k) <= IZR (b - 1) /\ IZR c <= pxc (centroid m lab k) <= IZR (d - 1).
Proof.
  intros label bin m lab n Hb H1 H0 El HL. eexists. split; [now apply (get_points_ok label bin m lab n)|].
  split; [rewrite map_length, zrange_length; f_equal; lia|]. intros k Hk. split.
  - rewrite (nth_indep _ (0, 0) (centroid m lab 0)) by (rewrite map_length, zrange_length; lia).
    rewrite map_nth, zrange_nth by lia. f_equal. lia.
  - intros a b c d HB. apply (centroid_in_box m lab k a b c d); try apply HL; [|exact HB|].
    + intros i j Hij. destruct (Hb i j Hij) as [-> | ->]; lra.
    + destruct HL as [Eh [Ew [_ [Hp [Hk' _]]]]]. destruct (Hk' k Hk) as [p [Ip Ep]].
      apply (mass_pos m lab k p); try assumption.
      * intros i j Hij. destruct (Hb i j Hij) as [-> | ->]; lra.
      * split; [unfold in_img in *; rewrite Eh, Ew; exact Ip|exact Ep].
      * destruct (Hp p Ip) as [_ Q]. destruct (Hb _ _ Ip) as [Hz|Hz]; [|rewrite Hz; lra]. exfalso. apply (proj1 Q); [lia|exact Hz].
Qed.
Print Assumptions C82_centres.
Theorem C82_errors : forall label binarize m, (1 <= ih m)%Z -> (1 <= iw m)%Z ->
  let result := get_points_dot_pattern label binarize m false in
  ((exists pts, result = Ok pts) <->
   (exists i j, in_img m i j /\ px m i j = 1) /\ (exists i j, in_img m i j /\ px m i j = 0) /\
   (forall i j, in_img m i j -> 0 <= px m i j <= 1)) /\
  (forall e, result = Err e -> e = ValueError).
Proof.
  intros label bin m Hh Hw result. destruct (get_points_err label bin m Hh Hw) as [A B]. split; [exact A|].
  intros e E. fold result in B. rewrite B in E; [congruence|]. now exists e.
Qed.
Print Assumptions C82_errors.
Example C82_ex : exists pts, get_points_dot_pattern (fun _ => (row_lab 3, 2%Z)) (fun m => Ok m) (row_img 3) false = Ok pts /\
  pts = [(0, 0); (0, 2)].
Proof.
  destruct (C82_centres (fun _ => (row_lab 3, 2%Z)) (fun m => Ok m) (row_img 3) (row_lab 3) 2 (row_binary 3)) as [pts [E [L P]]].
  - exists 0%Z, 0%Z. split; [unfold in_img; cbn; lia|reflexivity].
  - exists 0%Z, 1%Z. split; [unfold in_img; cbn; lia|reflexivity].
  - reflexivity.
  - exact (row_labelling 3 ltac:(lia)).
  - exists pts. split; [exact E|]. destruct pts as [|p [|q [|? ?]]]; try discriminate L.
    destruct (P 1%Z ltac:(lia)) as [P1 _]. destruct (P 2%Z ltac:(lia)) as [P2 _]. rewrite row3_centroid in P1, P2 by lia.
    change (p = (0, 2 * (1 - 1))) in P1. change (q = (0, 2 * (2 - 1))) in P2.
    rewrite P1, P2. f_equal; [f_equal; ring|]. f_equal. f_equal. ring.
Qed.
