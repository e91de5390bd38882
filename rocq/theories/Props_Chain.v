(** The documented processing chain on a generated dot pattern (C108): size and
    distance of the dots, slopes, selection, grouping and calibration. *)
From Coq Require Import Reals ZArith List Lra Lia Permutation Sorted.
From Flocq Require Import Core.
From Verif Require Import Base Num Img Spec Post NumFacts Sorting Lsq LsqEx PrepSpec PrepImg PrepPts PrepEx PrepFacts2 PrepImgFacts PrepImgFacts2 PrepImgFacts3 PrepImgFacts4 Props_Prep
  Util UtilFacts Props_Util Proc ProcSpec ProcFacts5 Props_Proc Props_Grid DotFacts Props_Dots DotSpec ChainFacts ChainFacts2 ChainFacts3.
Import ListNotations.
Local Open Scope R_scope.
Local Existing Instance Rex.

(** ** C108 *)
(** Of the dots at a, a + d, ... before b, those from lo to hi are the [k] dots
    starting with number [k1]. *)
Definition run_along (a b d lo hi k1 : Z) (k : nat) : Prop :=
  (0 <= k1)%Z /\ forall i, (0 <= i)%Z -> ((k1 <= i < k1 + Z.of_nat k)%Z <-> (a + d * i < b /\ lo <= a + d * i <= hi)%Z).
(** The region of interest of the given ratio leaves out dz pixels on both sides of an
    axis of the given length. *)
Definition roi_offset (length : Z) (ratio : R) (dz : Z) : Prop :=
  IZR dz <= (1 - clamp ratio (1 / 20) 1) * IZR length / 2 < IZR dz + 1.

Lemma offset_unique l r a b : roi_offset l r a -> roi_offset l r b -> a = b.
Proof. unfold roi_offset. intros A B. assert (a < b + 1)%Z by (apply lt_IZR; rewrite plus_IZR; lra). assert (b < a + 1)%Z by (apply lt_IZR; rewrite plus_IZR; lra). lia. Qed.
Lemma run_levels a b d lo hi k1 k g z : (0 < d)%Z -> run_along a b d lo hi k1 k ->
  (In g (zlevels (a + d * k1 - z) d k) <-> prog a b d (g + z)%Z /\ (lo <= g + z <= hi)%Z).
Proof.
  intros Hd [H0 H]. unfold zlevels, prog. rewrite in_map_iff. split.
  - intros [i [<- Hi]]. apply in_seq in Hi. assert (K := proj1 (H (k1 + Z.of_nat i)%Z ltac:(lia)) ltac:(lia)).
    replace (a + d * k1 - z + d * Z.of_nat i + z)%Z with (a + d * (k1 + Z.of_nat i))%Z by ring.
    split; [exists (k1 + Z.of_nat i)%Z; repeat split; try lia; apply K|apply K].
  - intros [[i [I0 [I1 I2]]] B]. rewrite I1 in B, I2. assert (K := proj2 (H i I0) (conj I2 B)). exists (Z.to_nat (i - k1)). split; [|apply in_seq; lia].
    rewrite Z2Nat.id by lia. lia.
Qed.

(** What the region of interest looks like. *)
Lemma roi_pattern clear h w d s m mv mh out ratio dy dx k1 ky l1 kx : margin_is m mv mh -> (0 <= mv)%Z -> (0 <= mh)%Z ->
  let n := Z.min (Z.max s 1) (Z.min h w / 8) in (1 <= n < d)%Z -> make_dot_pattern h w d s m = Ok out ->
  let y0 := (mv + n / 2 + 1)%Z in let x0 := (mh + n / 2 + 1)%Z in
  let src := select_roi (inverted out) ratio false in let roi := clear src in cleared src roi ->
  roi_offset h ratio dy -> roi_offset w ratio dx ->
  run_along y0 (h - y0) d (dy + n / 2 + 1) (h - dy - 1 - (n - n / 2)) k1 ky ->
  run_along x0 (w - x0) d (dx + n / 2 + 1) (w - dx - 1 - (n - n / 2)) l1 kx ->
  let ys := zlevels (y0 + d * k1 - dy) d ky in let xs := zlevels (x0 + d * l1 - dx) d kx in
  let dot gy gx := In gy ys /\ In gx xs in
  (forall gy gx i j, dot gy gx -> in_window n i j gy gx -> in_img roi i j) /\
  (forall i j, in_img roi i j -> (px roi i j <> 0 <-> exists gy gx, dot gy gx /\ in_disk n i j gy gx)) /\
  (forall gy gx gy' gx', dot gy gx -> dot gy' gx' -> (gy = gy' \/ n < Z.abs (gy - gy'))%Z /\ (gx = gx' \/ n < Z.abs (gx - gx'))%Z) /\
  binary_image roi /\ iw roi = (w - 2 * dx)%Z /\ (0 < iw roi)%Z.
Proof.
  intros Hm Hv Hh n Hn E y0 x0 src roi Hc Hdy Hdx Ry Rx ys xs dot. assert (Hn1 : (1 <= n)%Z) by lia. assert (Hd : (0 < d)%Z) by lia.
  destruct (pattern_dots h w d s m mv mh out Hm Hv Hh ltac:(fold n; lia) E) as [Inside [Dark [Bin P0]]]. fold n y0 x0 in Inside, Dark.
  destruct (C17_dot_pattern h w d s m mv mh Hm Hv Hh) as [o [Eo [Eh [Ew _]]]]; [fold n; lia|]. assert (o = out) by congruence. subst o.
  assert (HW : (8 <= h /\ 8 <= w)%Z) by (assert (1 <= Z.min h w / 8)%Z by (unfold n in Hn1; lia); pose proof (Z.mul_div_le (Z.min h w) 8); lia).
  destruct (C39_roi_exact (inverted out) ratio) as [dy' [dx' [S [Q [B1 B2]]]]]; [cbn [inverted ih]; lia|cbn [inverted iw]; lia|].
  fold src in S, Q. cbn [inverted ih iw] in S, B1, B2. rewrite Eh in S, B1. rewrite Ew in S, B2. cbv zeta in S, B1, B2.
  assert (dy' = dy) by (apply (offset_unique h ratio); assumption). assert (dx' = dx) by (apply (offset_unique w ratio); assumption). subst dy' dx'.
  destruct S as [S1 [S2 [S3 [S4 [S5 S6]]]]].
  set (dot0 := fun gy gx => prog y0 (h - y0) d (gy + dy)%Z /\ prog x0 (w - x0) d (gx + dx)%Z).
  assert (Shift : forall i j gy gx, in_disk n (dy + i) (dx + j) gy gx <-> in_disk n i j (gy - dy) (gx - dx)).
  { intros i j gy gx. unfold in_disk, in_window. cbn zeta. replace (dy + i - gy)%Z with (i - (gy - dy))%Z by lia. replace (dx + j - gx)%Z with (j - (gx - dx))%Z by lia. reflexivity. }
  assert (In_ : forall i j, in_img src i j -> in_img (inverted out) (dy + i) (dx + j)) by (intros i j I; unfold in_img in *; cbn [inverted ih iw]; rewrite Eh, Ew; lia).
  assert (D0 : forall i j, in_img src i j -> (px src i j <> 0 <-> exists gy gx, dot0 gy gx /\ in_disk n i j gy gx)).
  { intros i j I. rewrite Q, (Dark _ _ (In_ i j I)). split.
    - intros [gy [gx [[A B] K]]]. exists (gy - dy)%Z, (gx - dx)%Z. split; [|now apply Shift]. unfold dot0. rewrite !Z.sub_add. now split.
    - intros [gy [gx [[A B] K]]]. exists (gy + dy)%Z, (gx + dx)%Z. split; [now split|]. apply Shift. now rewrite !Z.add_simpl_r. }
  assert (G0 : forall gy gx gy' gx', dot0 gy gx -> dot0 gy' gx' -> (gy = gy' \/ n < Z.abs (gy - gy'))%Z /\ (gx = gx' \/ n < Z.abs (gx - gx'))%Z).
  { intros gy gx gy' gx' A B. pose proof (prog_gap2 y0 (h - y0) d x0 (w - x0) n _ _ _ _ (proj2 Hn) Hd A B) as G. lia. }
  assert (Bs : binary_image src) by (intros i j I; rewrite Q; apply Bin; now apply In_).
  assert (K : forall gy gx, kept src n dot0 gy gx <-> dot gy gx).
  { intros gy gx. unfold dot, ys, xs. rewrite (run_levels _ _ _ _ _ _ _ gy dy Hd Ry), (run_levels _ _ _ _ _ _ _ gx dx Hd Rx).
    unfold kept, interior, dot0. rewrite S5, S6. split; intros H; decompose [and] H; repeat split; (assumption || lia). }
  assert (Ew' : iw roi = iw src) by apply Hc.
  split; [|split; [|split; [|split; [|split]]]].
  - intros gy gx i j Hg. apply (cleared_inside src roi n dot0 Hc). now apply K.
  - intros i j I. rewrite (cleared_dark src roi n dot0 Hn1 D0 G0 Hc i j I). split; intros [gy [gx [A B]]]; exists gy, gx; (split; [now apply K|exact B]).
  - intros gy gx gy' gx' A B. apply G0; [apply K in A; apply A|apply K in B; apply B].
  - exact (cleared_bin src roi Bs Hc).
  - congruence.
  - rewrite Ew'. lia.
Qed.

Lemma grid_far d a b ky kx gy gx gy' gx' : (0 < d)%Z -> In gy (zlevels a d ky) /\ In gx (zlevels b d kx) -> In gy' (zlevels a d ky) /\ In gx' (zlevels b d kx) ->
  (gy, gx) <> (gy', gx') -> (d * d <= (gy - gy') * (gy - gy') + (gx - gx') * (gx - gx'))%Z.
Proof.
  intros Hd [A B] [A' B'] Ne. unfold zlevels in *. apply in_map_iff in A, B, A', B'. destruct A as [i [<- _]], B as [j [<- _]], A' as [i' [<- _]], B' as [j' [<- _]].
  destruct (Nat.eq_dec i i') as [->|Ni].
  - destruct (Nat.eq_dec j j') as [->|Nj]; [congruence|].
    replace (b + d * Z.of_nat j - (b + d * Z.of_nat j'))%Z with (d * (Z.of_nat j - Z.of_nat j'))%Z by ring.
    assert (1 <= (Z.of_nat j - Z.of_nat j') * (Z.of_nat j - Z.of_nat j'))%Z by nia. nia.
  - replace (a + d * Z.of_nat i - (a + d * Z.of_nat i'))%Z with (d * (Z.of_nat i - Z.of_nat i'))%Z by ring.
    assert (1 <= (Z.of_nat i - Z.of_nat i') * (Z.of_nat i - Z.of_nat i'))%Z by nia.
    assert (0 <= (b + d * Z.of_nat j - (b + d * Z.of_nat j')) * (b + d * Z.of_nat j - (b + d * Z.of_nat j')))%Z by apply Z.square_nonneg. nia.
Qed.
Lemma level_next a d k g : In g (zlevels a d k) -> (2 <= k)%nat -> exists g', In g' (zlevels a d k) /\ (d * d = (g - g') * (g - g'))%Z.
Proof.
  intros A Hk. unfold zlevels in *. apply in_map_iff in A. destruct A as [i [<- Hi]]. apply in_seq in Hi. destruct i as [|i].
  - exists (a + d * Z.of_nat 1)%Z. split; [apply in_map_iff; exists 1%nat; split; [reflexivity|apply in_seq; lia]|]. replace (Z.of_nat 1) with 1%Z by reflexivity. replace (Z.of_nat 0) with 0%Z by reflexivity. ring.
  - exists (a + d * Z.of_nat i)%Z. split; [apply in_map_iff; exists i; split; [reflexivity|apply in_seq; lia]|]. replace (Z.of_nat (S i)) with (Z.of_nat i + 1)%Z by lia. ring.
Qed.
Lemma grid_near d a b ky kx gy gx : (2 <= ky * kx)%nat -> In gy (zlevels a d ky) /\ In gx (zlevels b d kx) ->
  exists gy' gx', (In gy' (zlevels a d ky) /\ In gx' (zlevels b d kx)) /\ (d * d = (gy - gy') * (gy - gy') + (gx - gx') * (gx - gx'))%Z.
Proof.
  intros Hk [A B]. assert (2 <= ky \/ 2 <= kx)%nat as [H|H] by nia.
  - destruct (level_next a d ky gy A H) as [g [I E]]. exists g, gx. split; [now split|]. lia.
  - destruct (level_next b d kx gx B H) as [g [I E]]. exists gy, g. split; [now split|]. lia.
Qed.
Lemma level_first a d k : (1 <= k)%nat -> In a (zlevels a d k).
Proof. intros H. unfold zlevels. apply in_map_iff. exists 0%nat. split; [cbn; lia|apply in_seq; lia]. Qed.
Lemma level_second a d k : (2 <= k)%nat -> In (a + d)%Z (zlevels a d k).
Proof. intros H. unfold zlevels. apply in_map_iff. exists 1%nat. split; [cbn; lia|apply in_seq; lia]. Qed.

(** If at least two dots lie strictly inside the region of interest,
    calc_size_distance gives the number of pixels of a dot and the distance
    passed to make_dot_pattern. *)
Theorem C108_size_distance : forall label clear h w d s m mv mh out ratio dy dx k1 ky l1 kx lab num,
  margin_is m mv mh -> (0 <= mv)%Z -> (0 <= mh)%Z ->
  let n := Z.min (Z.max s 1) (Z.min h w / 8) in (1 <= n < d)%Z -> make_dot_pattern h w d s m = Ok out ->
  let y0 := (mv + n / 2 + 1)%Z in let x0 := (mh + n / 2 + 1)%Z in
  let src := select_roi (inverted out) ratio false in let roi := clear src in
  cleared src roi -> label (to_int16 roi) = (lab, num) -> labelling roi lab num ->
  roi_offset h ratio dy -> roi_offset w ratio dx ->
  run_along y0 (h - y0) d (dy + n / 2 + 1) (h - dy - 1 - (n - n / 2)) k1 ky ->
  run_along x0 (w - x0) d (dx + n / 2 + 1) (w - dx - 1 - (n - n / 2)) l1 kx -> (2 <= ky * kx)%nat ->
  calc_size_distance label clear (inverted out) ratio = Ok (disk_area n, IZR d).
Proof.
  intros label clear h w d s m mv mh out ratio dy dx k1 ky l1 kx lab num Hm Hv Hh n Hn E y0 x0 src roi Hc El HL Hdy Hdx Ry Rx Hk.
  destruct (roi_pattern clear h w d s m mv mh out ratio dy dx k1 ky l1 kx Hm Hv Hh Hn E Hc Hdy Hdx Ry Rx) as [Inside [Dark [Gap [Bin _]]]].
  apply (size_distance label clear (inverted out) ratio n d _ lab num (y0 + d * k1 - dy) (x0 + d * l1 - dx) ltac:(lia) ltac:(lia) Inside Dark Gap Bin); [| |exact El|exact HL|].
  - intros gy gx gy' gx'. apply grid_far. lia.
  - intros gy gx. now apply grid_near.
  - split; apply level_first; nia.
Qed.
Print Assumptions C108_size_distance.

(** Both slopes are 0 if the projections of the region of interest are highest
    at the middle one of the 61 angles tried. *)
Theorem C108_slopes : forall label radon_max argsort slope_fit clear h w d s m mv mh out ratio dy dx k1 ky l1 kx lab num,
  argsort_spec argsort ->
  (forall xs ys, length xs = length ys -> xs <> [] -> exists i, polyfit_spec 1 xs ys [slope_fit xs ys; i]) ->
  (forall im l, length (radon_max im l) = length l) ->
  margin_is m mv mh -> (0 <= mv)%Z -> (0 <= mh)%Z ->
  let n := Z.min (Z.max s 1) (Z.min h w / 8) in (1 <= n < d)%Z -> make_dot_pattern h w d s m = Ok out ->
  let y0 := (mv + n / 2 + 1)%Z in let x0 := (mh + n / 2 + 1)%Z in
  let src := select_roi (inverted out) ratio false in let roi := clear src in
  cleared src roi -> label (to_int16 roi) = (lab, num) -> labelling roi lab num ->
  roi_offset h ratio dy -> roi_offset w ratio dx ->
  run_along y0 (h - y0) d (dy + n / 2 + 1) (h - dy - 1 - (n - n / 2)) k1 ky ->
  run_along x0 (w - x0) d (dx + n / 2 + 1) (w - dx - 1 - (n - n / 2)) l1 kx ->
  let highest_in_the_middle profile := forall j, (j < 61)%nat -> j <> 30%nat -> nth j profile 0 < nth 30 profile 0 in
  (highest_in_the_middle (radon_max (to_int16 roi) (map IZR (zrange 60 121))) -> (1 <= ky)%nat -> (2 <= kx)%nat ->
    calc_hor_slope label radon_max tan cos PI argsort slope_fit clear (inverted out) ratio = Ok 0) /\
  (highest_in_the_middle (radon_max (to_int16 roi) (map IZR (zrange (-30) 31))) -> (2 <= ky)%nat -> (1 <= kx)%nat ->
    calc_ver_slope label radon_max tan cos PI argsort slope_fit clear (inverted out) ratio = Ok 0).
Proof.
  intros label radon_max argsort slope_fit clear h w d s m mv mh out ratio dy dx k1 ky l1 kx lab num HA HF HR Hm Hv Hh n Hn E y0 x0 src roi Hc El HL Hdy Hdx Ry Rx highest.
  destruct (roi_pattern clear h w d s m mv mh out ratio dy dx k1 ky l1 kx Hm Hv Hh Hn E Hc Hdy Hdx Ry Rx) as [Inside [Dark [Gap [Bin [_ Hw]]]]].
  fold n in Inside, Dark, Gap. fold y0 x0 in Inside, Dark, Gap. fold src roi in Inside, Dark, Bin, Hw.
  set (ys := zlevels (y0 + d * k1 - dy) d ky) in *. set (xs := zlevels (x0 + d * l1 - dx) d kx) in *.
  set (t := dot_shift n).
  assert (P : Permutation (map (centroid roi lab) (zrange 1 (num + 1))) (grid_points (map (fun z => IZR z + t) ys) (map (fun z => IZR z + t) xs))).
  { rewrite <- prod_points. apply (centres_perm roi n (fun gy gx => In gy ys /\ In gx xs) lab num); auto; [lia| |].
    - apply NoDup_prod; apply zlevels_nodup; lia.
    - intros gy gx. apply in_prod_iff. }
  assert (Two : forall a k, (2 <= k)%nat -> In (IZR a + t) (map (fun z => IZR z + t) (zlevels a d k)) /\ In (IZR (a + d) + t) (map (fun z => IZR z + t) (zlevels a d k)) /\ IZR a + t <> IZR (a + d) + t).
  { intros a k Hk. split; [apply (in_map (fun z => IZR z + t)); apply level_first; lia|]. split; [apply (in_map (fun z => IZR z + t)); now apply level_second|].
    rewrite plus_IZR. assert (0 < IZR d) by (apply IZR_lt; lia). lra. }
  assert (One : forall a k, (1 <= k)%nat -> map (fun z => IZR z + t) (zlevels a d k) <> []).
  { intros a k Hk K. apply map_eq_nil in K. pose proof (level_first a d k Hk) as I. rewrite K in I. destruct I. }
  split; intros Hs Hy Hx.
  - destruct (Two (x0 + d * l1 - dx)%Z kx Hx) as [I1 [I2 N]].
    apply (hor_zero label radon_max argsort slope_fit HA HF HR clear (inverted out) ratio lab num Bin El HL _ _ P Hw _ _ Hs (One _ _ Hy) I1 I2 N).
  - destruct (Two (y0 + d * k1 - dy)%Z ky Hy) as [I1 [I2 N]].
    apply (ver_zero label radon_max argsort slope_fit HA HF HR clear (inverted out) ratio lab num Bin El HL _ _ P Hw _ _ Hs (One _ _ Hx) I1 I2 N).
Qed.
Print Assumptions C108_slopes.

(** Selecting by that size or by that distance keeps every dot. *)
Theorem C108_selection : forall label h w d s m mv mh out lab num ny nx,
  margin_is m mv mh -> (0 <= mv)%Z -> (0 <= mh)%Z ->
  let n := Z.min (Z.max s 1) (Z.min h w / 8) in (1 <= n < d)%Z -> make_dot_pattern h w d s m = Ok out ->
  label (to_int16 (inverted out)) = (lab, num) -> labelling (inverted out) lab num ->
  let y0 := (mv + n / 2 + 1)%Z in let x0 := (mh + n / 2 + 1)%Z in
  let unchanged im := ih im = h /\ iw im = w /\ forall i j, in_img (inverted out) i j -> px im i j = px (inverted out) i j in
  (forall ratio, 0 <= ratio -> unchanged (select_dots_based_size label (inverted out) (disk_area n) ratio)) /\
  (forall ratio, dots_along y0 (h - y0) d ny -> dots_along x0 (w - x0) d nx -> (2 <= ny * nx)%nat -> 0 < ratio <= 1 ->
    unchanged (select_dots_based_distance label (inverted out) (IZR d) ratio)).
Proof.
  intros label h w d s m mv mh out lab num ny nx Hm Hv Hh n Hn E El HL y0 x0 unchanged. assert (Hn1 : (1 <= n)%Z) by lia. assert (Hd : (0 < d)%Z) by lia.
  destruct (pattern_dots h w d s m mv mh out Hm Hv Hh ltac:(fold n; lia) E) as [Inside [Dark [Bin P0]]]. fold n y0 x0 in Inside, Dark.
  destruct (C17_dot_pattern h w d s m mv mh Hm Hv Hh) as [o [Eo [Eh [Ew _]]]]; [fold n; lia|]. assert (o = out) by congruence. subst o.
  assert (Gap := fun gy gx gy' gx' => prog_gap2 y0 (h - y0) d x0 (w - x0) n gy gx gy' gx' (proj2 Hn) Hd).
  unfold unchanged. change (ih (inverted out)) with (ih out) in *. split.
  - intros ratio Hr. destruct (size_keeps (inverted out) n _ lab num Hn1 Inside Dark Gap Bin HL label ratio El Hr) as [E1 [E2 K]]. split; [|split]; [rewrite E1; exact Eh|rewrite E2; exact Ew|exact K].
  - intros ratio Dy Dx Hk Hr.
    assert (Lv : forall gy gx, prog y0 (h - y0) d gy /\ prog x0 (w - x0) d gx <-> In gy (zlevels y0 d ny) /\ In gx (zlevels x0 d nx)).
    { intros gy gx. rewrite (zlevels_in y0 (h - y0) d ny), (zlevels_in x0 (w - x0) d nx) by assumption. reflexivity. }
    destruct (distance_keeps (inverted out) n _ lab num Hn1 Inside Dark Gap Bin HL d Hd) with (label := label) (ratio := ratio) as [E1 [E2 K]]; auto.
    + intros gy gx gy' gx' A B. apply Lv in A, B. now apply (grid_far d y0 x0 ny nx).
    + intros gy gx A. apply Lv in A. destruct (grid_near d y0 x0 ny nx gy gx Hk A) as [gy' [gx' [B Q]]]. exists gy', gx'. split; [now apply Lv|exact Q].
    + split; [|split]; [rewrite E1; exact Eh|rewrite E2; exact Ew|exact K].
Qed.
Print Assumptions C108_selection.

(** The whole chain: measured size, distance and slopes, passed on to the
    selection, the grouping of the image and the calibration, give the rows and
    columns of the pattern and the identity. *)
Lemma group_image argsort label (m : image R) lab num slope dd ratio miss acc : label (to_int16 m) = (lab, num) -> ih lab = ih m -> iw lab = iw m -> (1 <= num)%Z ->
  group_dots_hor_lines argsort label (DImg m) slope dd ratio miss acc = group_dots_hor_lines argsort label (DPts (map (centroid m lab) (zrange 1 (num + 1)))) slope dd ratio miss acc /\
  group_dots_ver_lines argsort label (DImg m) slope dd ratio miss acc = group_dots_ver_lines argsort label (DPts (map (centroid m lab) (zrange 1 (num + 1)))) slope dd ratio miss acc.
Proof.
  intros El Eh Ew Hn. assert (C : centers m lab num = map (centroid m lab) (zrange 1 (num + 1))) by (apply (centers_centroids m m lab num Eh Ew); reflexivity).
  assert (D : forall e, dots_of label e (DImg m) = dots_of label e (DPts (map (centroid m lab) (zrange 1 (num + 1))))).
  { intros e. unfold dots_of. rewrite El, C. assert (I : In 1%Z (zrange 1 (num + 1))) by (apply in_zrange; lia).
    destruct (zrange 1 (num + 1)) as [|z l]; [destruct I|]. reflexivity. }
  unfold group_dots_hor_lines, group_dots_ver_lines. now rewrite !D.
Qed.
Theorem C108_chain : forall argsort label clear radon_max slope_fit polyfit minimize lstsq
    h w d s m mv mh out ratio dy dx k1 ky l1 kx ny nx lab num lab_all num_all lab_sel num_sel ratio_size ratio_group miss accepted num_fact opt thr,
  argsort_spec argsort -> polyfit_oracle polyfit -> minimize_oracle minimize -> lstsq_oracle lstsq ->
  (forall xs ys, length xs = length ys -> xs <> [] -> exists i, polyfit_spec 1 xs ys [slope_fit xs ys; i]) ->
  (forall im l, length (radon_max im l) = length l) ->
  margin_is m mv mh -> (0 <= mv)%Z -> (0 <= mh)%Z ->
  let n := Z.min (Z.max s 1) (Z.min h w / 8) in (1 <= n < d)%Z -> make_dot_pattern h w d s m = Ok out ->
  let y0 := (mv + n / 2 + 1)%Z in let x0 := (mh + n / 2 + 1)%Z in
  let src := select_roi (inverted out) ratio false in let roi := clear src in
  let selected := select_dots_based_size label (inverted out) (disk_area n) ratio_size in
  cleared src roi -> label (to_int16 roi) = (lab, num) -> labelling roi lab num ->
  label (to_int16 (inverted out)) = (lab_all, num_all) -> labelling (inverted out) lab_all num_all ->
  label (to_int16 selected) = (lab_sel, num_sel) -> labelling selected lab_sel num_sel ->
  roi_offset h ratio dy -> roi_offset w ratio dx ->
  run_along y0 (h - y0) d (dy + n / 2 + 1) (h - dy - 1 - (n - n / 2)) k1 ky ->
  run_along x0 (w - x0) d (dx + n / 2 + 1) (w - dx - 1 - (n - n / 2)) l1 kx -> (2 <= ky)%nat -> (2 <= kx)%nat ->
  let highest_in_the_middle profile := forall j, (j < 61)%nat -> j <> 30%nat -> nth j profile 0 < nth 30 profile 0 in
  highest_in_the_middle (radon_max (to_int16 roi) (map IZR (zrange 60 121))) ->
  highest_in_the_middle (radon_max (to_int16 roi) (map IZR (zrange (-30) 31))) ->
  dots_along y0 (h - y0) d ny -> dots_along x0 (w - x0) d nx -> (4 <= ny)%nat -> (4 <= nx)%nat ->
  0 <= ratio_size -> 0 < ratio_group <= 1 -> (2 <= miss)%Z -> accepted < 1 -> (num_fact < Z.of_nat nx)%Z -> (num_fact <= 32767)%Z -> 0 <= thr ->
  exists size dist hor ver rows cols xc yc t,
    calc_size_distance label clear (inverted out) ratio = Ok (size, dist) /\
    calc_hor_slope label radon_max tan cos PI argsort slope_fit clear (inverted out) ratio = Ok hor /\
    calc_ver_slope label radon_max tan cos PI argsort slope_fit clear (inverted out) ratio = Ok ver /\
    let chosen := select_dots_based_size label (inverted out) size ratio_size in
    group_dots_hor_lines argsort label (DImg chosen) hor dist ratio_group miss accepted = Ok rows /\
    group_dots_ver_lines argsort label (DImg chosen) ver dist ratio_group miss accepted = Ok cols /\
    @find_cod_coarse R Rexact polyfit rows cols = Ok (xc, yc) /\
    let ys := levels (IZR y0 + t) (IZR d) ny in let xs := levels (IZR x0 + t) (IZR d) nx in
    (Z.odd n = true -> t = 0) /\ (Z.odd n = false -> t = - IZR (n / 2) / disk_area n) /\
    rows = map (fun y => map (fun x => (y, x)) xs) ys /\ cols = map (fun x => map (fun y => (y, x)) ys) xs /\
    xc = IZR x0 + t + IZR d / 2 /\ yc = IZR y0 + t + IZR d / 2 /\
    let unit := 1 :: repeat 0 (Z.to_nat (Z.max 1 num_fact) - 1) in
    @calc_coef_backward R Rexact polyfit minimize lstsq rows cols xc yc num_fact opt thr = Ok unit /\
    @calc_coef_forward R Rexact polyfit minimize lstsq rows cols xc yc num_fact opt thr = Ok unit.
Proof.
  intros argsort label clear radon_max slope_fit polyfit minimize lstsq h w d s m mv mh out ratio dy dx k1 ky l1 kx ny nx lab num lab_all num_all lab_sel num_sel
    ratio_size ratio_group miss accepted num_fact opt thr Ha Hp Hmi Hl HF HR Hm Hv Hh n Hn E y0 x0 src roi selected Hc El HL Ea HLa Es HLs Hdy Hdx Ry Rx Ky Kx highest H1 H2 Dy Dx Ny Nx
    Hrs Hrg Hmiss Hacc Hnf Hnf2 Ht.
  assert (S1 := C108_size_distance label clear h w d s m mv mh out ratio dy dx k1 ky l1 kx lab num Hm Hv Hh Hn E Hc El HL Hdy Hdx Ry Rx ltac:(nia)). fold n in S1.
  destruct (C108_slopes label radon_max argsort slope_fit clear h w d s m mv mh out ratio dy dx k1 ky l1 kx lab num Ha HF HR Hm Hv Hh Hn E Hc El HL Hdy Hdx Ry Rx) as [S2 S3].
  specialize (S2 H1 ltac:(lia) Kx). specialize (S3 H2 Ky ltac:(lia)).
  destruct (C108_selection label h w d s m mv mh out lab_all num_all ny nx Hm Hv Hh Hn E Ea HLa) as [Keep _]. fold n in Keep. specialize (Keep ratio_size Hrs).
  fold selected in Keep. destruct Keep as [Kh [Kw Keep]].
  assert (Hn1 : (1 <= n)%Z) by lia. assert (Hd : (0 < d)%Z) by lia.
  destruct (pattern_dots h w d s m mv mh out Hm Hv Hh ltac:(fold n; lia) E) as [Inside [Dark [Bin P0]]]. fold n y0 x0 in Inside, Dark.
  destruct (C17_dot_pattern h w d s m mv mh Hm Hv Hh) as [o [Eo [Eh [Ew _]]]]; [fold n; lia|]. assert (o = out) by congruence. subst o.
  assert (Same : forall i j, in_img selected i j <-> in_img (inverted out) i j) by (intros i j; unfold in_img; cbn [inverted ih iw]; rewrite Kh, Kw, Eh, Ew; reflexivity).
  assert (Gap := fun gy gx gy' gx' => prog_gap2 y0 (h - y0) d x0 (w - x0) n gy gx gy' gx' (proj2 Hn) Hd).
  assert (Inside' : forall gy gx i j, prog y0 (h - y0) d gy /\ prog x0 (w - x0) d gx -> in_window n i j gy gx -> in_img selected i j) by (intros; apply Same; eauto).
  assert (Dark' : forall i j, in_img selected i j -> (px selected i j <> 0 <-> exists gy gx, (prog y0 (h - y0) d gy /\ prog x0 (w - x0) d gx) /\ in_disk n i j gy gx)).
  { intros i j I. apply Same in I. rewrite (Keep i j I). now apply Dark. }
  assert (Bin' : binary_image selected) by (intros i j I; apply Same in I; rewrite (Keep i j I); now apply Bin).
  assert (P := centres_perm selected n _ lab_sel num_sel Hn1 Inside' Dark' Gap Bin' HLs (list_prod (zlevels y0 d ny) (zlevels x0 d nx))).
  specialize (P ltac:(apply NoDup_prod; apply zlevels_nodup; lia)).
  specialize (P ltac:(intros gy gx; rewrite in_prod_iff, (zlevels_in y0 (h - y0) d ny), (zlevels_in x0 (w - x0) d nx) by (auto; lia); reflexivity)).
  rewrite prod_points, !zlevels_real in P. set (t := dot_shift n) in *.
  assert (Num : (1 <= num_sel)%Z).
  { assert (D0 : prog y0 (h - y0) d y0 /\ prog x0 (w - x0) d x0) by (split; [apply first_dot with ny; auto; lia|apply first_dot with nx; auto; lia]).
    pose proof (dot_labels selected n _ lab_sel num_sel Hn1 Inside' Dark' HLs y0 x0 D0). lia. }
  assert (D : 0 < IZR d) by (apply IZR_lt; lia). assert (M : 2 <= IZR miss) by (apply (IZR_le 2); lia).
  assert (B : ratio_group * IZR d <= IZR d < IZR miss * IZR d) by (split; nra).
  destruct (C99_undistorted argsort label polyfit minimize lstsq _ (IZR y0 + t) (IZR d) ny (IZR x0 + t) (IZR d) nx (IZR d) ratio_group miss accepted num_fact opt thr
    Ha Hp Hmi Hl Ny Nx ltac:(nra) B B Hacc P Hnf Hnf2 Ht) as [G1 [G2 [G3 [G4 G5]]]].
  destruct (group_image argsort label selected lab_sel num_sel 0 (IZR d) ratio_group miss accepted Es (proj1 HLs) (proj1 (proj2 HLs)) Num) as [I1 I2].
  exists (disk_area n), (IZR d), 0, 0. do 2 eexists. exists (IZR x0 + t + IZR d / 2), (IZR y0 + t + IZR d / 2), t.
  split; [exact S1|]. split; [exact S2|]. split; [exact S3|]. cbv zeta. fold selected.
  split; [rewrite I1; exact G1|]. split; [rewrite I2; exact G2|]. split; [exact G3|].
  split; [intros Ho; unfold t, dot_shift; rewrite disk_odd by exact Ho; lra|]. split; [intros Ho; unfold t, dot_shift; rewrite disk_even by (exact Ho || lia); reflexivity|].
  split; [reflexivity|]. split; [reflexivity|]. split; [reflexivity|]. split; [reflexivity|]. split; [exact G4|exact G5].
Qed.
Print Assumptions C108_chain.

(** Dots of size 3 every 10 pixels of a 64 x 64 image with margin 5: the 20 x 20
    pixels in the middle hold four of the 25 dots; a dot has 5 pixels. *)
Lemma connected_same (m m' : image R) p q : ih m' = ih m -> iw m' = iw m -> (forall i j, in_img m i j -> px m' i j = px m i j) -> connected m p q -> connected m' p q.
Proof.
  intros Eh Ew E. assert (S : forall r, set_pixel m r -> set_pixel m' r).
  { intros r [I P]. split; [unfold in_img in *; now rewrite Eh, Ew|]. now rewrite E. }
  induction 1 as [p H|p q r H IH A Hr]; [apply conn_refl; now apply S|]. apply conn_step with q; auto.
Qed.
Lemma labelling_same (m m' : image R) lab num : ih m' = ih m -> iw m' = iw m -> (forall i j, in_img m i j -> px m' i j = px m i j) -> labelling m lab num -> labelling m' lab num.
Proof.
  intros Eh Ew E [A [B [C [D [F G]]]]]. assert (I : forall i j, in_img m' i j <-> in_img m i j) by (intros; unfold in_img; now rewrite Eh, Ew).
  assert (S : forall r, set_pixel m' r -> set_pixel m r).
  { intros r [Ir P]. apply I in Ir. split; [exact Ir|]. now rewrite <- E. }
  split; [congruence|]. split; [congruence|]. split; [exact C|]. split; [|split].
  - intros p Hp. apply I in Hp. rewrite (E _ _ Hp). now apply D.
  - intros k Hk. destruct (F k Hk) as [p [Hp V]]. exists p. split; [now apply I|exact V].
  - intros p q Hp Hq. rewrite (G p q (S p Hp) (S q Hq)). split; apply connected_same; try congruence; try exact E.
    intros i j Hij. symmetry. apply E. now apply I.
Qed.
Lemma area3 : disk_area 3 = 5.
Proof. unfold disk_area, disk_sum. sums. unfold disk. cbn [Z.sub Z.mul Z.add Z.opp Z.leb Z.compare Z.div Z.div_eucl Z.pos_div_eucl Pos.add Pos.mul Pos.compare Pos.compare_cont Pos.pred_double Pos.succ]. cbn. lra. Qed.
Example C108_case : exists out label clear, make_dot_pattern 64 64 10 3 (MScalar 5) = Ok out /\
  let radon_max := fun (_ : image R) l => map (fun k => - Rabs (INR k - 30)) (seq 0 (length l)) in
  let slope_fit := fun xs ys => hd 0 (polyfit_R 1 xs ys) in
  let rows := map (fun y => map (fun x => (y, x)) (levels 7 10 5)) (levels 7 10 5) in
  let cols := map (fun x => map (fun y => (y, x)) (levels 7 10 5)) (levels 7 10 5) in
  calc_size_distance label clear (inverted out) (3 / 10) = Ok (5, 10) /\
  calc_hor_slope label radon_max tan cos PI argsort_ins slope_fit clear (inverted out) (3 / 10) = Ok 0 /\
  calc_ver_slope label radon_max tan cos PI argsort_ins slope_fit clear (inverted out) (3 / 10) = Ok 0 /\
  group_dots_hor_lines argsort_ins label (DImg (select_dots_based_size label (inverted out) 5 (3 / 10))) 0 10 (3 / 10) 6 (65 / 100) = Ok rows /\
  group_dots_ver_lines argsort_ins label (DImg (select_dots_based_size label (inverted out) 5 (3 / 10))) 0 10 (3 / 10) 6 (65 / 100) = Ok cols /\
  @find_cod_coarse R Rexact pf_R rows cols = Ok (12, 12) /\
  @calc_coef_backward R Rexact pf_R min_R ls_R rows cols 12 12 3 true (1 / 10) = Ok [1; 0; 0].
Proof.
  destruct (C17_dot_pattern 64 64 10 3 (MScalar 5) 5 5) as [out [E [Eh [Ew _]]]]; [left; auto|lia|lia|cbn; lia|]. exists out.
  destruct (labelling_exists (inverted out)) as [lab_all [num_all HLa]].
  set (src := select_roi (inverted out) (3 / 10) false). destruct (cleared_exists src) as [roi Hc].
  destruct (labelling_exists roi) as [lab [num HL]].
  set (label := fun im : image R => if (ih im =? 64)%Z then (lab_all, num_all) else (lab, num)). set (clear := fun _ : image R => roi).
  assert (Cl : clamp (3 / 10) (1 / 20) 1 = 3 / 10) by (unfold clamp, Rmin, Rmax; repeat destruct (Rle_dec _ _); lra).
  assert (Off : roi_offset 64 (3 / 10) 22) by (unfold roi_offset; rewrite Cl; lra).
  assert (Eroi : ih roi = 20%Z).
  { destruct Hc as [Eq _]. rewrite Eq. destruct (C39_roi_exact (inverted out) (3 / 10)) as [dy' [dx' [S [_ [B1 _]]]]]; [cbn [inverted ih]; lia|cbn [inverted iw]; lia|].
    fold src in S. cbn [inverted ih iw] in S, B1. rewrite Eh in S, B1. cbv zeta in B1. assert (dy' = 22%Z) by (apply (offset_unique 64 (3 / 10)); assumption). lia. }
  exists label, clear. split; [exact E|]. cbv zeta. set (radon_max := fun (_ : image R) (l : list R) => map (fun k => - Rabs (INR k - 30)) (seq 0 (length l))).
  assert (El : label (to_int16 roi) = (lab, num)) by (unfold label; cbn [to_int16 img_map ih]; now rewrite Eroi).
  assert (Ea : label (to_int16 (inverted out)) = (lab_all, num_all)) by (unfold label; cbn [to_int16 img_map inverted ih]; now rewrite Eh).
  assert (Top : forall l, length l = 61%nat -> forall j, (j < 61)%nat -> j <> 30%nat -> nth j (radon_max (to_int16 roi) l) 0 < nth 30 (radon_max (to_int16 roi) l) 0).
  { intros l Hl j Hj Nj. unfold radon_max. rewrite Hl.
    assert (G : forall i, (i < 61)%nat -> nth i (map (fun k => - Rabs (INR k - 30)) (seq 0 61)) 0 = - Rabs (INR i - 30)).
    { intros i Hi. rewrite (nth_indep _ 0 (- Rabs (INR 0 - 30))) by (rewrite map_length, seq_length; exact Hi).
      rewrite (map_nth (fun k => - Rabs (INR k - 30))), seq_nth by exact Hi. reflexivity. }
    rewrite !G by lia. replace (INR 30) with 30 by (cbn; lra). replace (30 - 30) with 0 by ring. rewrite Rabs_R0.
    assert (INR j <> 30). { intros K. apply Nj. apply INR_eq. rewrite K. cbn. lra. } pose proof (Rabs_pos_lt (INR j - 30)). lra. }
  assert (Run : run_along 7 (64 - 7) 10 (22 + 3 / 2 + 1) (64 - 22 - 1 - (3 - 3 / 2)) 2 2).
  { split; [lia|]. intros i Hi. change (3 / 2)%Z with 1%Z. change (Z.of_nat 2) with 2%Z. lia. }
  assert (Sel := C108_selection label 64 64 10 3 (MScalar 5) 5 5 out lab_all num_all 5 5 ltac:(left; auto) ltac:(lia) ltac:(lia) ltac:(cbn; lia) E Ea HLa).
  cbv zeta in Sel. change (Z.min (Z.max 3 1) (Z.min 64 64 / 8))%Z with 3%Z in Sel. destruct Sel as [Sel _]. destruct (Sel (3 / 10) ltac:(lra)) as [Sh [Sw Sp]].
  destruct (C108_chain argsort_ins label clear radon_max (fun xs ys => hd 0 (polyfit_R 1 xs ys)) pf_R min_R ls_R 64 64 10 3 (MScalar 5) 5 5 out (3 / 10) 22 22 2 2 2 2 5 5
    lab num lab_all num_all lab_all num_all (3 / 10) (3 / 10) 6 (65 / 100) 3 true (1 / 10) (argsort_ins_ok (fun x => x)) pf_R_ok min_R_ok ls_R_ok)
    as [size [dist [hor [ver [rows [cols [xc [yc [t K]]]]]]]]];
    try (left; split; reflexivity); try lia; try lra; try exact E; try exact El; try exact Ea; try exact HL; try exact HLa; try exact Off; try exact Run; try exact Hc.
  - intros xs ys _ _. pose proof (polyfit_R_ok 1 xs ys) as H.
    destruct (polyfit_R 1 xs ys) as [|a [|i [|? ?]]]; try (destruct H as [H _]; discriminate H). now exists i.
  - intros. unfold radon_max. now rewrite map_length, seq_length.
  - cbn. lia.
  - change (Z.min (Z.max 3 1) (Z.min 64 64 / 8))%Z with 3%Z. unfold label at 1. cbn [to_int16 img_map ih]. now rewrite Sh.
  - change (Z.min (Z.max 3 1) (Z.min 64 64 / 8))%Z with 3%Z. apply (labelling_same (inverted out)); [cbn [inverted ih]; congruence|cbn [inverted iw]; congruence|exact Sp|exact HLa].
  - apply Top. now rewrite map_length, zrange_length.
  - apply Top. now rewrite map_length, zrange_length.
  - apply dots_along_c; cbn; lia.
  - apply dots_along_c; cbn; lia.
  - assert (S1 := C108_size_distance label clear 64 64 10 3 (MScalar 5) 5 5 out (3 / 10) 22 22 2 2 2 2 lab num ltac:(left; auto) ltac:(lia) ltac:(lia) ltac:(cbn; lia) E Hc El HL Off Off Run Run ltac:(lia)).
    change (Z.min (Z.max 3 1) (Z.min 64 64 / 8))%Z with 3%Z in *. rewrite area3 in S1.
    destruct (C108_slopes label radon_max argsort_ins (fun xs ys => hd 0 (polyfit_R 1 xs ys)) clear 64 64 10 3 (MScalar 5) 5 5 out (3 / 10) 22 22 2 2 2 2 lab num (argsort_ins_ok (fun x => x))) as [S2 S3];
      try (left; split; reflexivity); try lia; try exact E; try exact El; try exact HL; try exact Off; try exact Run; try exact Hc.
    + intros xs ys _ _. pose proof (polyfit_R_ok 1 xs ys) as H.
      destruct (polyfit_R 1 xs ys) as [|a [|i [|? ?]]]; try (destruct H as [H _]; discriminate H). now exists i.
    + intros. unfold radon_max. now rewrite map_length, seq_length.
    + cbn. lia.
    + specialize (S2 (Top (map IZR (zrange 60 121)) ltac:(now rewrite map_length, zrange_length)) ltac:(lia) ltac:(lia)).
      specialize (S3 (Top (map IZR (zrange (-30) 31)) ltac:(now rewrite map_length, zrange_length)) ltac:(lia) ltac:(lia)).
      destruct K as [K1 [K2 [K3 [K4 [K5 [K6 [T1 [_ [-> [-> [-> [-> [K7 _]]]]]]]]]]]]]. rewrite S1 in K1. rewrite S2 in K2. rewrite S3 in K3.
      injection K1 as <- <-. injection K2 as <-. injection K3 as <-. rewrite T1 in * by reflexivity.
      change (5 + 3 / 2 + 1)%Z with 7%Z in *. rewrite Rplus_0_r in *. replace (7 + 10 / 2) with 12 in * by lra.
      split; [exact S1|]. split; [exact S2|]. split; [exact S3|]. split; [exact K4|]. split; [exact K5|]. split; [exact K6|exact K7].
Qed.
