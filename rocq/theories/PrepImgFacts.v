(** Image functions of preprocessing.py: sums, boxes, dot selection. *)
From Coq Require Import Reals ZArith List Lra Lia Permutation Sorted.
From Flocq Require Import Core.
From Verif Require Import Base Num Img Post Spec NumFacts PostImg Sorting PrepSpec PrepImg PrepPts PrepFacts PrepFacts2 PrepFacts4.
Local Open Scope Z_scope.
Local Existing Instance Rex.

(** *** Sums over an image *)
Lemma Rsum_app a b : Rsum (a ++ b) = (Rsum a + Rsum b)%R.
Proof. induction a as [|x a IH]; cbn; [lra|]. rewrite IH. lra. Qed.
Lemma seq_snoc a n : seq a (S n) = seq a n ++ [(a + n)%nat].
Proof. revert a; induction n as [|n IH]; intros a; cbn; [now rewrite Nat.add_0_r|]. cbn in IH. rewrite IH. cbn. now rewrite Nat.add_succ_r. Qed.
Lemma Rsum_zrange n g : Rsum (map g (zrange 0 n)) = sumZ n g.
Proof.
  unfold sumZ, zrange. rewrite Z.sub_0_r. induction (Z.to_nat n) as [|k IH]; [reflexivity|].
  rewrite seq_snoc, !map_app, Rsum_app. cbn [map sum_n]. rewrite <- IH. cbn [Rsum]. rewrite !Z.add_0_l, Nat.add_0_l. lra.
Qed.
Lemma Rsum_grid (f : Z * Z -> R) h w : Rsum (map f (grid h w)) = sumZ h (fun i => sumZ w (fun j => f (i, j))).
Proof.
  rewrite <- (Rsum_zrange h). unfold grid. induction (zrange 0 h) as [|i l IH]; cbn; [reflexivity|].
  rewrite map_app, Rsum_app, IH, map_map, Rsum_zrange. reflexivity.
Qed.
Lemma Rsum_filter {A} (f : A -> R) P l : Rsum (map f (filter P l)) = Rsum (map (fun a => if P a then f a else 0%R) l).
Proof. induction l as [|a l IH]; cbn; [reflexivity|]. destruct (P a); cbn; rewrite IH; lra. Qed.
Lemma Rsum_map_ext {A} (f g : A -> R) l : (forall a, In a l -> f a = g a) -> Rsum (map f l) = Rsum (map g l).
Proof. intros H. f_equal. now apply map_ext_in. Qed.
Lemma sum_pixels m : @nsum R Rex (pixels m) = img_sum m.
Proof. rewrite nsum_Rex. unfold pixels, img_sum. apply Rsum_grid. Qed.
Lemma img_sum_ext a b : img_eq a b -> img_sum a = img_sum b.
Proof.
  intros [Eh [Ew E]]. unfold img_sum. rewrite <- Eh, <- Ew. apply sumZ_ext. intros i Hi. apply sumZ_ext. intros j Hj. apply E. split; lia.
Qed.

(** *** int16 conversion *)
Lemma to_int16_px rnd m i j : int16_image m -> in_img m i j -> px (@to_int16 R (Rnum rnd) m) i j = px m i j.
Proof.
  intros H Hi. destruct (H i j Hi) as [z [Hz E]]. unfold to_int16, img_map. cbn [px nofZ ntrunc Rnum].
  now rewrite E, Ztrunc_IZR, wrap16_id.
Qed.
Lemma binary_int16 m : binary_image m -> int16_image m.
Proof. intros H i j Hi. destruct (H i j Hi) as [E|E]; rewrite E; [exists 0|exists 1]; split; try lia; reflexivity. Qed.
Lemma to_int16_eq rnd m : int16_image m -> img_eq (@to_int16 R (Rnum rnd) m) m.
Proof. intros H. split; [reflexivity|split; [reflexivity|]]. intros i j Hi. now apply to_int16_px. Qed.

(** *** Bounding boxes *)
Lemma fold_min_le l : forall a x, In x l \/ a <= x -> fold_left Z.min l a <= x.
Proof.
  induction l as [|b l IH]; intros a x; cbn.
  - intros [[]|H]; assumption.
  - intros [[->|H]|H]; apply IH; [right; lia|now left|right; lia].
Qed.
Lemma fold_min_in l : forall a, fold_left Z.min l a = a \/ In (fold_left Z.min l a) l.
Proof.
  induction l as [|b l IH]; intros a; cbn; [now left|].
  destruct (IH (Z.min a b)) as [H|H]; [|right; now right]. rewrite H.
  destruct (Z.min_spec a b) as [[? ->]|[? ->]]; [now left|right; now left].
Qed.
Lemma zmin_list_spec l : l <> [] -> In (zmin_list l) l /\ forall x, In x l -> zmin_list l <= x.
Proof.
  destruct l as [|a l]; [congruence|]. intros _. unfold zmin_list. split.
  - destruct (fold_min_in l a) as [->|H]; [now left|now right].
  - intros x [->|H]; apply fold_min_le; [right; lia|now left].
Qed.
Lemma in_region lab k p : In p (region lab k) <-> labelled lab k p.
Proof.
  unfold region, labelled, in_img. rewrite filter_In. destruct p as [i j]. rewrite in_grid. cbn. rewrite Z.eqb_eq. tauto.
Qed.
Lemma bbox_hull lab k p0 : labelled lab k p0 ->
  hull_box lab k (r0 (bbox lab k)) (r1 (bbox lab k)) (c0 (bbox lab k)) (c1 (bbox lab k)).
Proof.
  intros H0. apply in_region in H0. unfold bbox. set (r := region lab k) in *.
  assert (Hr : forall p, In p r <-> labelled lab k p) by (intros; apply in_region). clearbody r.
  destruct r as [|q r']; [destruct H0|]. set (r := q :: r') in *. cbn [r0 r1 c0 c1].
  assert (N1 : map fst r <> []) by discriminate. assert (N2 : map snd r <> []) by discriminate.
  destruct (zmin_list_spec _ N1) as [A1 A2], (zmax_list_spec _ N1) as [B1 B2].
  destruct (zmin_list_spec _ N2) as [C1 C2], (zmax_list_spec _ N2) as [D1 D2].
  apply in_map_iff in A1, B1, C1, D1.
  destruct A1 as [pa [Ea Ia]], B1 as [pb [Eb Ib]], C1 as [pc [Ec Ic]], D1 as [pd [Ed Id]].
  pose proof (A2 _ (in_map fst _ _ Ib)) as L1. pose proof (C2 _ (in_map snd _ _ Id)) as L2.
  split; [lia|]. split; [lia|]. intros i j. split.
  - intros [[p [p' [Hp [Hp' Hi]]]] [s [s' [Hs [Hs' Hj]]]]]. apply Hr in Hp, Hp', Hs, Hs'.
    pose proof (A2 _ (in_map fst _ _ Hp)). pose proof (B2 _ (in_map fst _ _ Hp')).
    pose proof (C2 _ (in_map snd _ _ Hs)). pose proof (D2 _ (in_map snd _ _ Hs')). lia.
  - intros [Hi Hj]. split; [exists pa, pb|exists pc, pd]; repeat split; try (now apply Hr); lia.
Qed.
Lemma hull_box_unique lab k a b c d a' b' c' d' : hull_box lab k a b c d -> hull_box lab k a' b' c' d' ->
  a = a' /\ b = b' /\ c = c' /\ d = d'.
Proof.
  intros [L1 [L2 H]] [L1' [L2' H']].
  assert (E : forall i j, a <= i < b /\ c <= j < d <-> a' <= i < b' /\ c' <= j < d') by (intros; now rewrite <- H, <- H').
  pose proof (proj1 (E a c) ltac:(lia)). pose proof (proj1 (E (b-1) (d-1)) ltac:(lia)).
  pose proof (proj2 (E a' c') ltac:(lia)). pose proof (proj2 (E (b'-1) (d'-1)) ltac:(lia)). lia.
Qed.
Lemma hull_in_img lab k a b c d : hull_box lab k a b c d -> 0 <= a /\ b <= ih lab /\ 0 <= c /\ d <= iw lab.
Proof.
  intros [L1 [L2 H]].
  assert (G : forall i j, a <= i < b /\ c <= j < d -> 0 <= i < ih lab /\ 0 <= j < iw lab).
  { intros i j Hij. apply H in Hij. destruct Hij as [[p [q [[Hp _] [[Hq _] Hi]]]] [s [t [[Hs _] [[Ht _] Hj]]]]].
    unfold in_img in *. lia. }
  pose proof (G a c ltac:(lia)). pose proof (G (b-1) (d-1) ltac:(lia)). lia.
Qed.
Lemma crop_bbox m lab k p0 : labelled lab k p0 -> let b := bbox lab k in
  crop m b = subimage m (r0 b) (r1 b) (c0 b) (c1 b).
Proof.
  intros H b. destruct (bbox_hull lab k p0 H) as [L1 [L2 _]]. fold b in L1, L2. unfold crop, subimage.
  rewrite !Z.max_r by lia. reflexivity.
Qed.
Lemma in_box_hull lab k p0 i j : labelled lab k p0 -> in_box (bbox lab k) i j = true <-> in_hull lab k i j.
Proof.
  intros H. destruct (bbox_hull lab k p0 H) as [_ [_ ->]]. unfold in_box.
  rewrite !andb_true_iff, !Z.leb_le, !Z.ltb_lt. tauto.
Qed.

(** *** Pasting boxes *)
Lemma paste_fold {T} {N : Num T} (cast : T -> T) m boxes : forall z,
  let out := fold_left (paste cast m) boxes z in
  ih out = ih z /\ iw out = iw z /\
  forall i j, px out i j = if existsb (fun b => in_box b i j) boxes then cast (px m i j) else px z i j.
Proof.
  induction boxes as [|b boxes IH]; intros z; [repeat split; reflexivity|].
  cbn [fold_left existsb]. destruct (IH (paste cast m z b)) as [H1 [H2 H3]]. split; [exact H1|]. split; [exact H2|].
  intros i j. rewrite H3. cbn [paste px]. destruct (in_box b i j); cbn [orb]; [|reflexivity]. now destruct (existsb _ boxes).
Qed.
Lemma paste_if_fold {T} {N : Num T} (cast : T -> T) m (ok : box * list T -> bool) l : forall z,
  fold_left (fun z jd => if ok jd then paste cast m z (fst jd) else z) l z =
  fold_left (paste cast m) (map fst (filter ok l)) z.
Proof.
  induction l as [|a l IH]; intros z; [reflexivity|]. cbn [fold_left filter]. destruct (ok a); cbn [map fold_left]; apply IH.
Qed.

(** A dot image made of the boxes of the accepted dots. *)
Definition only_accepted (m out : image R) (lab : image Z) (n : Z) (accepted : Z -> Prop) : Prop :=
  ih out = ih m /\ iw out = iw m /\ forall i j, in_img m i j ->
    (px out i j = px m i j /\ exists k, 1 <= k <= n /\ accepted k /\ in_hull lab k i j) \/
    (px out i j = 0%R /\ ~ exists k, 1 <= k <= n /\ accepted k /\ in_hull lab k i j).
Lemma only_accepted_paste m m' lab n cast (ok : Z -> bool) (accepted : Z -> Prop) :
  (forall k, 1 <= k <= n -> exists p, labelled lab k p) ->
  (forall k, 1 <= k <= n -> ok k = true <-> accepted k) ->
  (forall i j, in_img m i j -> cast (px m' i j) = px m i j) ->
  forall z, ih z = ih m -> iw z = iw m -> (forall i j, px z i j = 0%R) ->
  only_accepted m (fold_left (paste cast m') (map (bbox lab) (filter ok (zrange 1 (n + 1)))) z) lab n accepted.
Proof.
  intros Hl Hok Hc z Ez1 Ez2 Hz. destruct (paste_fold cast m' (map (bbox lab) (filter ok (zrange 1 (n + 1)))) z) as [H1 [H2 H3]].
  split; [congruence|]. split; [congruence|]. intros i j Hij. rewrite H3.
  destruct (existsb _ _) eqn:E.
  - left. split; [now apply Hc|]. apply existsb_exists in E. destruct E as [b [Hb Eb]]. apply in_map_iff in Hb.
    destruct Hb as [k [<- Hk]]. apply filter_In in Hk. destruct Hk as [Hk Ek]. apply in_zrange in Hk.
    exists k. split; [lia|]. split; [apply Hok; [lia|assumption]|]. destruct (Hl k ltac:(lia)) as [p Hp].
    now apply (in_box_hull lab k p).
  - right. split; [apply Hz|]. intros [k [Hk [Ha Hh]]]. apply not_true_iff_false in E. apply E.
    apply existsb_exists. exists (bbox lab k). split.
    + apply in_map. apply filter_In. split; [apply in_zrange; lia|now apply Hok].
    + destruct (Hl k Hk) as [p Hp]. now apply (in_box_hull lab k p).
Qed.
Lemma filter_map_box {A B} (f : A -> B) (P : B -> bool) l : filter P (map f l) = map f (filter (fun a => P (f a)) l).
Proof. apply filter_map_comm. Qed.

Lemma labelling_labelled m lab n k : labelling m lab n -> 1 <= k <= n -> exists p, labelled lab k p.
Proof.
  intros [Eh [Ew [_ [_ [H _]]]]] Hk. destruct (H k Hk) as [p [Hp E]]. exists p. split; [|assumption].
  unfold in_img in *. now rewrite Eh, Ew.
Qed.

(** *** Selection by size *)
Section Size.
  Variable label : image R -> image Z * Z.
  Definition size_ok (m : image R) (lab : image Z) (ds ratio : R) (k : Z) : Prop :=
    exists a b c d, hull_box lab k a b c d /\
      (Rmax 0 (ds - ratio * ds) <= img_sum (subimage m a b c d) <= ds + ratio * ds)%R.
  Lemma check_size_iff m lo hi : @check_dot_size R Rex m lo hi = true <-> (lo <= img_sum m <= hi)%R.
  Proof. unfold check_dot_size. rewrite sum_pixels, andb_true_iff. unfold Rex. cbn [nleb Rnum]. rewrite !Rle_bool_true_iff. tauto. Qed.
  Lemma select_size m lab n ds ratio : int16_image m -> label (to_int16 m) = (lab, n) -> labelling m lab n ->
    only_accepted m (@select_dots_based_size R Rex label m ds ratio) lab n (size_ok m lab ds ratio).
  Proof.
    intros Hm El HL. unfold select_dots_based_size. rewrite El, filter_map_box.
    apply only_accepted_paste; try reflexivity.
    - intros k Hk. now apply (labelling_labelled m lab n).
    - intros k Hk. destruct (labelling_labelled m lab n k HL Hk) as [p Hp].
      rewrite check_size_iff, (crop_bbox m lab k p Hp). cbv zeta.
      unfold Rex. rewrite nmax_R, Rmax_comm. unfold n0. cbn [nofZ nmul nadd nsub Rnum]. set (b := bbox lab k). split.
      + intros H. exists (r0 b), (r1 b), (c0 b), (c1 b). split; [now apply (bbox_hull lab k p)|assumption].
      + intros [a' [b' [c' [d' [Hb H]]]]].
        destruct (hull_box_unique lab k _ _ _ _ _ _ _ _ Hb (bbox_hull lab k p Hp)) as [-> [-> [-> ->]]]. assumption.
    - intros i j Hij. exact (to_int16_px (fun x => x) m i j Hm Hij).
  Qed.
End Size.

(** *** Selection by axis ratio *)
Section Ratio.
  Variable label : image R -> image Z * Z.
  Variable axes : image R -> R * R.
  Definition ratio_ok (m : image R) (lab : image Z) (ratio : R) (k : Z) : Prop :=
    exists a b c d, hull_box lab k a b c d /\ (2 <= b - a)%Z /\ (2 <= d - c)%Z /\
      let (minor, major) := axes (subimage m a b c d) in (Rabs (major / minor - 1) < ratio)%R.
  Lemma check_ratio_iff m ratio : @check_axes_ratio R Rex axes m ratio = true <->
    (2 <= ih m)%Z /\ (2 <= iw m)%Z /\ let (minor, major) := axes m in (Rabs (major / minor - 1) < ratio)%R.
  Proof.
    unfold check_axes_ratio. destruct (Z.ltb_spec (ih m) 2); cbn [orb]; [split; [discriminate|lia]|].
    destruct (Z.ltb_spec (iw m) 2); [split; [discriminate|lia]|].
    destruct (axes m) as [mi ma]. destruct (Z.ltb_spec 1 (ih m)); [|lia]. destruct (Z.ltb_spec 1 (iw m)); [|lia]. cbn [andb].
    unfold Rex, n1. cbn [nltb nabs nsub ndiv nofZ Rnum]. destruct (Rlt_bool _ ratio) eqn:E.
    - apply Rlt_bool_true_iff in E. tauto.
    - split; [discriminate|]. intros [_ [_ HH]]. apply Rlt_bool_true_iff in HH. congruence.
  Qed.
  Lemma select_ratio m lab n ratio : int16_image m -> label (to_int16 m) = (lab, n) -> labelling m lab n ->
    (forall a b, img_eq a b -> axes a = axes b) ->
    only_accepted m (@select_dots_based_ratio R Rex label axes m ratio) lab n (ratio_ok m lab ratio).
  Proof.
    intros Hm El HL Hax. unfold select_dots_based_ratio. rewrite El, filter_map_box.
    assert (Hsub : forall a b c d k, hull_box lab k a b c d ->
      axes (subimage (@to_int16 R Rex m) a b c d) = axes (subimage m a b c d)).
    { intros a b c d k Hb. apply Hax. split; [reflexivity|split; [reflexivity|]]. intros i j [Hi Hj]. cbn in Hi, Hj.
      apply hull_in_img in Hb. cbn [subimage px]. apply (to_int16_px (fun x => x)); [assumption|].
      destruct HL as [Eh [Ew _]]. unfold in_img. lia. }
    apply only_accepted_paste; try reflexivity.
    - intros k Hk. now apply (labelling_labelled m lab n).
    - intros k Hk. destruct (labelling_labelled m lab n k HL Hk) as [p Hp].
      rewrite check_ratio_iff, (crop_bbox _ lab k p Hp). cbv zeta. cbn [subimage ih iw].
      pose proof (bbox_hull lab k p Hp) as Hbb. set (b := bbox lab k) in *. 
      change (mkimg (r1 b - r0 b) (c1 b - c0 b) (fun i j => px (@to_int16 R Rex m) (r0 b + i) (c0 b + j)))
        with (subimage (@to_int16 R Rex m) (r0 b) (r1 b) (c0 b) (c1 b)).
      rewrite (Hsub _ _ _ _ _ Hbb). split.
      + intros [H1 [H2 H3]]. exists (r0 b), (r1 b), (c0 b), (c1 b). tauto.
      + intros [a' [b' [c' [d' [Hb H]]]]].
        destruct (hull_box_unique lab k _ _ _ _ _ _ _ _ Hb Hbb) as [-> [-> [-> ->]]]. assumption.
    - intros i j Hij. exact (to_int16_px (fun x => x) m i j Hm Hij).
  Qed.
End Ratio.

(** *** Centroids *)
Lemma region_moment m' m lab k w : ih lab = ih m -> iw lab = iw m ->
  (forall i j, in_img m i j -> px m' i j = px m i j) ->
  Rsum (map (fun p => (px m' (fst p) (snd p) * w (fst p) (snd p))%R) (region lab k)) = moment m lab k w.
Proof.
  intros Eh Ew E. unfold region, moment. rewrite Rsum_filter, Rsum_grid, Eh, Ew.
  apply sumZ_ext. intros i Hi. apply sumZ_ext. intros j Hj. cbn [fst snd]. unfold part.
  destruct (Z.eq_dec (px lab i j) k) as [->|Ne].
  - rewrite Z.eqb_refl, E by (split; lia). reflexivity.
  - apply Z.eqb_neq in Ne. rewrite Ne. lra.
Qed.
Lemma label_sum_mass m' m lab k : ih lab = ih m -> iw lab = iw m ->
  (forall i j, in_img m i j -> px m' i j = px m i j) -> @label_sum R Rex m' lab k = mass m lab k.
Proof.
  intros Eh Ew E. unfold label_sum, mass. rewrite nsum_Rex, <- (region_moment m' m lab k _ Eh Ew E).
  apply Rsum_map_ext. intros. lra.
Qed.
Lemma center_centroid m' m lab k : ih lab = ih m -> iw lab = iw m ->
  (forall i j, in_img m i j -> px m' i j = px m i j) -> @center_of_mass R Rex m' lab k = centroid m lab k.
Proof.
  intros Eh Ew E. unfold center_of_mass, centroid. cbv zeta. rewrite (label_sum_mass m' m lab k Eh Ew E), !nsum_Rex.
  unfold Rex. cbn [nmul ndiv nofZ Rnum].
  rewrite (region_moment m' m lab k (fun i _ => IZR i) Eh Ew E), (region_moment m' m lab k (fun _ j => IZR j) Eh Ew E). reflexivity.
Qed.
Lemma centers_centroids m' m lab n : ih lab = ih m -> iw lab = iw m ->
  (forall i j, in_img m i j -> px m' i j = px m i j) -> @centers R Rex m' lab n = map (centroid m lab) (zrange 1 (n + 1)).
Proof. intros. apply map_ext. intros. now apply center_centroid. Qed.
Lemma distances_dist (a : R * R) l : @distances R Rex a l = map (dist a) l.
Proof.
  apply map_ext. intros b. unfold dist, py, pxc, Rex. cbn [nsqrt nadd nsub npow Rnum]. f_equal. ring.
Qed.
Lemma nsort_sorted l : StronglySorted Rle (@nsort R Rex l).
Proof. apply (sorted_sorted (fun x => x) (fun x => x)). Qed.
Lemma dist_self (p : pt) : dist p p = 0%R.
Proof. unfold dist. replace (_ + _)%R with 0%R by ring. apply sqrt_0. Qed.
Lemma zrange_remove n k : 1 <= k <= n -> Permutation (zrange 1 (n + 1)) (k :: filter (fun j => negb (j =? k)) (zrange 1 (n + 1))).
Proof.
  intros Hk. apply NoDup_Permutation; [apply zrange_nodup| |].
  - constructor; [|apply NoDup_filter, zrange_nodup]. rewrite filter_In, Z.eqb_refl. cbn. intuition discriminate.
  - intros x. cbn [In]. rewrite filter_In, in_zrange. destruct (Z.eqb_spec x k); cbn; intuition lia.
Qed.
(** The sorted distances to all dots start with the distance 0 to the dot
    itself. *)
Lemma sorted_distances m lab n k : 1 <= k <= n ->
  exists ds, @nsort R Rex (map (dist (centroid m lab k)) (map (centroid m lab) (zrange 1 (n + 1)))) = 0%R :: ds /\
    neighbour_distances m lab n k ds /\ (length ds = Z.to_nat n - 1)%nat.
Proof.
  intros Hk. rewrite map_map. set (f := fun x => dist (centroid m lab k) (centroid m lab x)).
  set (js := filter (fun j => negb (j =? k)) (zrange 1 (n + 1))).
  exists (@nsort R Rex (map f js)).
  assert (P : Permutation (map f (zrange 1 (n + 1))) (0%R :: map f js)).
  { rewrite (Permutation_map f (zrange_remove n k Hk)). cbn [map]. unfold f at 1. rewrite dist_self. apply Permutation_refl. }
  split; [|split].
  - apply sorted_unique; [apply nsort_sorted| |].
    + constructor; [apply nsort_sorted|]. apply Forall_forall. intros x Hx.
      apply (Permutation_in _ (sorted_perm _ _)) in Hx. apply in_map_iff in Hx. destruct Hx as [j [<- _]]. apply sqrt_pos.
    + unfold nsort. rewrite !sorted_perm. exact P.
  - exists js. split; [apply NoDup_filter, zrange_nodup|]. split.
    + intros j. unfold js. rewrite filter_In, in_zrange. destruct (Z.eqb_spec j k); cbn; intuition lia.
    + split; [apply sorted_perm|apply nsort_sorted].
  - apply Permutation_length in P. cbn [length] in P. rewrite map_length, zrange_length in P.
    unfold nsort. rewrite (Permutation_length (sorted_perm _ _)). lia.
Qed.
Lemma neighbour_distances_unique m lab n k a b : neighbour_distances m lab n k a -> neighbour_distances m lab n k b -> a = b.
Proof.
  intros [js [N1 [I1 [P1 S1]]]] [js' [N2 [I2 [P2 S2]]]]. apply sorted_unique; try assumption.
  rewrite P1, P2. apply Permutation_map. apply NoDup_Permutation; try assumption. intros. now rewrite I1, I2.
Qed.

(** *** Selection by distance *)
Definition distance_rule (m : image R) (lab : image Z) (n : Z) (dd ratio : R) (k : Z) : Prop :=
  exists ds, neighbour_distances m lab n k ds /\
    exists d i, In d (firstn 3 ds) /\ (IZR i * dd <= d < (IZR i + ratio) * dd)%R.
Lemma distance_ok_iff l dd ratio : (0 < dd)%R -> (ratio <= 1)%R ->
  @distance_ok R Rex l dd ratio = true <-> exists d i, In d l /\ (IZR i * dd <= d < (IZR i + ratio) * dd)%R.
Proof.
  intros Hd Hr. unfold distance_ok. rewrite existsb_exists. unfold Rex. cbn [nltb ndiv nsub nmul nofZ nfloor Rnum]. split.
  - intros [d [Hin H]]. apply Rlt_bool_true_iff in H. exists d, (Zfloor (d / dd)). split; [assumption|].
    pose proof (Zfloor_lb (d / dd)) as L. set (q := Zfloor (d / dd)) in *.
    assert (E : d = (d / dd * dd)%R) by (field; lra). split.
    + rewrite E. apply Rmult_le_compat_r; lra.
    + assert (H1 : ((d - IZR q * dd) / dd * dd < ratio * dd)%R) by (apply Rmult_lt_compat_r; assumption).
      replace ((d - IZR q * dd) / dd * dd)%R with (d - IZR q * dd)%R in H1 by (field; lra). lra.
  - intros [d [i [Hin [H1 H2]]]]. exists d. split; [assumption|]. apply Rlt_bool_true_iff.
    assert (Hq : Zfloor (d / dd) = i).
    { apply Zfloor_imp. rewrite plus_IZR. split.
      - apply (Rmult_le_reg_r dd); [assumption|]. replace (d / dd * dd)%R with d by (field; lra). assumption.
      - apply (Rmult_lt_reg_r dd); [assumption|]. replace (d / dd * dd)%R with d by (field; lra). nra. }
    rewrite Hq. apply (Rmult_lt_reg_r dd); [assumption|]. replace ((d - IZR i * dd) / dd * dd)%R with (d - IZR i * dd)%R by (field; lra). lra.
Qed.
Lemma combine_map {A B C} (f : A -> B) (g : A -> C) l : combine (map f l) (map g l) = map (fun a => (f a, g a)) l.
Proof. induction l as [|a l IH]; cbn; [reflexivity|]. now rewrite IH. Qed.
Lemma select_distance label m lab n dd ratio : int16_image m -> label (to_int16 m) = (lab, n) -> labelling m lab n ->
  (0 < dd)%R -> (ratio <= 1)%R ->
  only_accepted m (@select_dots_based_distance R Rex label m dd ratio) lab n (distance_rule m lab n dd ratio).
Proof.
  intros Hm El HL Hd Hr. unfold select_dots_based_distance. rewrite El.
  assert (Eh : ih lab = ih m) by apply HL. assert (Ew : iw lab = iw m) by apply HL.
  rewrite (centers_centroids _ m lab n Eh Ew) by (intros; apply (to_int16_px (fun x => x)); assumption).
  rewrite map_map, combine_map, (paste_if_fold (fun v => v)), filter_map_comm, map_map. cbn [fst snd].
  apply only_accepted_paste; try reflexivity.
  - intros k Hk. now apply (labelling_labelled m lab n).
  - intros k Hk. rewrite distances_dist. destruct (sorted_distances m lab n k Hk) as [ds [E [Hds _]]]. rewrite E. cbn [skipn].
    rewrite distance_ok_iff by assumption. split.
    + intros [d [i H]]. exists ds. split; [assumption|]. exists d, i. assumption.
    + intros [ds' [Hds' H]]. now rewrite (neighbour_distances_unique _ _ _ _ _ _ Hds Hds').
  - intros i j Hij. exact (to_int16_px (fun x => x) m i j Hm Hij).
Qed.

(** *** Median size and distance *)
Lemma median_spec l : l <> [] -> is_median l (@median R Rex l).
Proof.
  intros Hne. exists (@nsort R Rex l). split; [apply sorted_perm|]. split; [apply nsort_sorted|].
  unfold median. assert (Hl : length l <> O) by (destruct l; [congruence|discriminate]).
  set (n := length l) in *. destruct n as [|n'] eqn:En; [congruence|]. rewrite <- En in *. clear Hl.
  destruct (Nat.even n) eqn:Ev.
  - apply Nat.even_spec in Ev. destruct Ev as [q Hq]. exists (q - 1)%nat. right.
    replace (Nat.div2 n) with q by (rewrite Hq; symmetry; apply Nat.div2_double).
    split; [lia|]. replace (S (q - 1)) with q by lia. reflexivity.
  - assert (Od : Nat.odd n = true) by (unfold Nat.odd; now rewrite Ev). apply Nat.odd_spec in Od. destruct Od as [q Hq].
    exists q. left. split; [assumption|]. rewrite Hq, Nat.add_1_r, Nat.div2_succ_double. reflexivity.
Qed.
