(** Region of interest, contrast, sizes and distances, slopes, threshold and
    masks of preprocessing.py. *)
From Coq Require Import Reals ZArith List Lra Lia Permutation Sorted.
From Flocq Require Import Core.
From Verif Require Import Base Num Img Post Spec Lsq NumFacts PostImg Sorting PrepSpec PrepImg PrepPts PrepFacts PrepFacts2 PrepFacts4 PrepImgFacts.
Local Open Scope Z_scope.

(** *** Region of interest *)
Lemma f64_dyadic k e : Z.abs k < 2 ^ 53 -> 0 <= e <= 1000 -> f64 (IZR k / IZR (2 ^ e)) = (IZR k / IZR (2 ^ e))%R.
Proof.
  intros Hk He. unfold f64. apply round_generic; auto with typeclass_instances. apply generic_format_FLT.
  exists (Float radix2 k (- e)).
  - unfold F2R, Rdiv. cbn [Fnum Fexp]. f_equal. rewrite bpow_opp. f_equal. rewrite (IZR_Zpower radix2) by lia. reflexivity.
  - exact Hk.
  - cbn [Fexp]. lia.
Qed.
Lemma rnd_props rnd : exact_or_double rnd ->
  (forall x y, (x <= y)%R -> (rnd x <= rnd y)%R) /\
  (forall k e, Z.abs k < 2 ^ 53 -> 0 <= e <= 1000 -> rnd (IZR k / IZR (2 ^ e))%R = (IZR k / IZR (2 ^ e))%R).
Proof.
  intros [H|H]; split; intros; rewrite !H; try assumption; try reflexivity.
  - unfold f64. apply round_le; auto with typeclass_instances.
  - now apply f64_dyadic.
Qed.
Lemma rnd_int rnd k : exact_or_double rnd -> Z.abs k < 2 ^ 53 -> rnd (IZR k) = IZR k.
Proof. intros H Hk. destruct (rnd_props rnd H) as [_ D]. specialize (D k 0 Hk ltac:(lia)). change (IZR (2 ^ 0)) with 1%R in D. unfold Rdiv in D. now rewrite Rinv_1, Rmult_1_r in D. Qed.

Section Roi.
  Variable rnd : R -> R.
  Hypothesis Hr : exact_or_double rnd.
  Lemma clip_ratio r : (1 / 32 <= @nclip R (Rnum rnd) r (@nofQ R (Rnum rnd) 5 100) (@n1 R (Rnum rnd)) <= 1)%R.
  Proof.
    destruct (rnd_props rnd Hr) as [Mono Dy].
    assert (L : (1 / 32 <= rnd (IZR 5 / IZR 100))%R).
    { change 32%R with (IZR (2 ^ 5)). rewrite <- (Dy 1 5) by lia. apply Mono. change (IZR (2 ^ 5)) with 32%R. lra. }
    assert (U : (rnd (IZR 5 / IZR 100) <= 1)%R).
    { rewrite <- (rnd_int rnd 1 Hr) by lia. apply Mono. lra. }
    unfold n1. cbn [nofZ Rnum]. change (@nofQ R (Rnum rnd) 5 100) with (rnd (IZR 5 / IZR 100)).
    rewrite (nclip_R rnd r _ 1) by assumption.
    pose proof (clamp_range r _ 1 U). lra.
  Qed.
  Lemma depad r h : (1 / 32 <= r <= 1)%R -> 1 <= h <= 2 ^ 40 ->
    let d := Ztrunc (rnd (rnd (IZR h - rnd (r * IZR h)) / 2)) in 0 <= d /\ 2 * d < h.
  Proof.
    intros Hrr Hh. destruct (rnd_props rnd Hr) as [Mono Dy]. cbv zeta.
    assert (Hh' : (1 <= IZR h)%R) by (apply IZR_le; lia).
    assert (A1 : (IZR h / 32 <= rnd (r * IZR h))%R).
    { change 32%R with (IZR (2 ^ 5)). rewrite <- (Dy h 5) by lia. apply Mono. change (IZR (2 ^ 5)) with 32%R. nra. }
    assert (A2 : (rnd (r * IZR h) <= IZR h)%R).
    { apply Rle_trans with (rnd (IZR h)); [apply Mono; nra|]. rewrite (rnd_int rnd h Hr) by lia. lra. }
    set (x := rnd (r * IZR h)) in *.
    assert (B1 : (0 <= rnd (IZR h - x))%R).
    { rewrite <- (rnd_int rnd 0 Hr) by lia. apply Mono. lra. }
    assert (B2 : (rnd (IZR h - x) <= IZR (31 * h) / 32)%R).
    { change 32%R with (IZR (2 ^ 5)). rewrite <- (Dy (31 * h) 5) by lia. apply Mono. rewrite mult_IZR. change (IZR (2 ^ 5)) with 32%R. lra. }
    set (y := rnd (IZR h - x)) in *.
    assert (C1 : (0 <= rnd (y / 2))%R).
    { rewrite <- (rnd_int rnd 0 Hr) by lia. apply Mono. lra. }
    assert (C2 : (rnd (y / 2) <= IZR (31 * h) / 64)%R).
    { change 64%R with (IZR (2 ^ 6)). rewrite <- (Dy (31 * h) 6) by lia. apply Mono. change (IZR (2 ^ 6)) with 64%R. lra. }
    rewrite Ztrunc_floor by assumption. split; [now apply Zfloor_lub|].
    pose proof (Zfloor_lb (rnd (y / 2))) as F. set (z := Zfloor _) in *. rewrite mult_IZR in C2.
    apply lt_IZR. rewrite mult_IZR. lra.
  Qed.
  Lemma roi_false m r : 1 <= ih m <= 2 ^ 40 -> 1 <= iw m <= 2 ^ 40 ->
    let roi := @select_roi R (Rnum rnd) m r false in
    exists dy dx, 0 <= dy /\ 0 <= dx /\ 2 * dy < ih m /\ 2 * dx < iw m /\
      ih roi = ih m - 2 * dy /\ iw roi = iw m - 2 * dx /\ forall i j, px roi i j = px m (dy + i) (dx + j).
  Proof.
    intros H1 H2. cbv zeta. unfold select_roi. cbv zeta. cbn [nofZ nmul nsub ndiv ntrunc Rnum].
    pose proof (clip_ratio r) as Hc. set (r' := nclip _ _ _) in *.
    destruct (depad r' (ih m) Hc H1) as [A1 A2], (depad r' (iw m) Hc H2) as [B1 B2].
    set (dy := Ztrunc (rnd (rnd (IZR (ih m) - rnd (r' * IZR (ih m))) / 2))) in *.
    set (dx := Ztrunc (rnd (rnd (IZR (iw m) - rnd (r' * IZR (iw m))) / 2))) in *.
    exists dy, dx. do 4 (split; [assumption|]). unfold slice2, slice_bound.
    destruct (Z.ltb_spec dy 0); [lia|]. destruct (Z.ltb_spec dx 0); [lia|].
    destruct (Z.ltb_spec (ih m - dy) 0); [lia|]. destruct (Z.ltb_spec (iw m - dx) 0); [lia|].
    rewrite !Z.min_l by lia. cbn [ih iw px]. split; [lia|]. split; [lia|]. reflexivity.
  Qed.
  Lemma roi_true m r : 1 <= ih m <= 2 ^ 40 -> 1 <= iw m <= 2 ^ 40 ->
    let roi := @select_roi R (Rnum rnd) m r true in
    exists k, 0 <= 2 * k <= Z.min (ih m) (iw m) /\ ih roi = 2 * k /\ iw roi = 2 * k /\
      0 <= ih m / 2 - k /\ ih m / 2 + k <= ih m /\ 0 <= iw m / 2 - k /\ iw m / 2 + k <= iw m /\
      k = Ztrunc (rnd (@nclip R (Rnum rnd) r (@nofQ R (Rnum rnd) 5 100) (@n1 R (Rnum rnd)) * IZR (Z.min (ih m) (iw m)))) / 2 /\
      forall i j, px roi i j = px m (ih m / 2 - k + i) (iw m / 2 - k + j).
  Proof.
    intros H1 H2. cbv zeta. unfold select_roi. cbv zeta. cbn [nofZ nmul nsub ndiv ntrunc Rnum].
    pose proof (clip_ratio r) as Hc. set (r' := nclip _ _ _) in *. destruct (rnd_props rnd Hr) as [Mono Dy].
    set (s := Z.min (ih m) (iw m)). assert (Hs : 1 <= s <= 2 ^ 40) by lia.
    assert (Hs' : (1 <= IZR s)%R) by (apply IZR_le; lia).
    assert (A1 : (0 <= rnd (r' * IZR s))%R).
    { rewrite <- (rnd_int rnd 0 Hr) by lia. apply Mono. nra. }
    assert (A2 : (rnd (r' * IZR s) <= IZR s)%R).
    { apply Rle_trans with (rnd (IZR s)); [apply Mono; nra|]. rewrite (rnd_int rnd s Hr) by lia. lra. }
    set (t := Ztrunc (rnd (r' * IZR s))).
    assert (T : 0 <= t <= s).
    { unfold t. rewrite Ztrunc_floor by assumption. split; [now apply Zfloor_lub|].
      apply le_IZR. pose proof (Zfloor_lb (rnd (r' * IZR s))). lra. }
    exists (t / 2). pose proof (Z.div_mod t 2 ltac:(lia)). pose proof (Z.mod_pos_bound t 2 ltac:(lia)).
    pose proof (Z.div_mod (ih m) 2 ltac:(lia)). pose proof (Z.mod_pos_bound (ih m) 2 ltac:(lia)).
    pose proof (Z.div_mod (iw m) 2 ltac:(lia)). pose proof (Z.mod_pos_bound (iw m) 2 ltac:(lia)).
    unfold slice2, slice_bound. fold t.
    set (k := t / 2) in *. set (ch := ih m / 2) in *. set (cw := iw m / 2) in *.
    destruct (Z.ltb_spec (ch - k) 0); [lia|]. destruct (Z.ltb_spec (cw - k) 0); [lia|].
    destruct (Z.ltb_spec (ch + k) 0); [lia|]. destruct (Z.ltb_spec (cw + k) 0); [lia|].
    rewrite !Z.min_l by lia. cbn [ih iw px]. repeat apply conj; try lia; reflexivity.
  Qed.
End Roi.
Lemma roi_false_exact m r : 1 <= ih m -> 1 <= iw m ->
  let roi := @select_roi R Rex m r false in
  exists dy dx, 0 <= dy /\ 0 <= dx /\ 2 * dy < ih m /\ 2 * dx < iw m /\
    ih roi = ih m - 2 * dy /\ iw roi = iw m - 2 * dx /\ (forall i j, px roi i j = px m (dy + i) (dx + j)) /\
    (IZR dy <= (1 - clamp r (1/20) 1) * IZR (ih m) / 2 < IZR dy + 1)%R /\
    (IZR dx <= (1 - clamp r (1/20) 1) * IZR (iw m) / 2 < IZR dx + 1)%R.
Proof.
  intros H1 H2. cbv zeta. unfold select_roi. cbv zeta. unfold Rex, n1. cbn [nofZ nmul nsub ndiv ntrunc Rnum].
  change (@nofQ R (Rnum (fun x => x)) 5 100) with (5 / 100)%R. rewrite (nclip_R _ r (5/100) 1) by lra.
  replace (5 / 100)%R with (1 / 20)%R by lra.
  pose proof (clamp_range r (1/20) 1 ltac:(lra)) as Hc. set (r' := clamp r (1/20) 1) in *.
  assert (G : forall h, 1 <= h -> let d := Ztrunc ((IZR h - r' * IZR h) / 2) in
    0 <= d /\ 2 * d < h /\ (IZR d <= (1 - r') * IZR h / 2 < IZR d + 1)%R).
  { intros h Hh. assert (Hh' : (1 <= IZR h)%R) by (apply IZR_le; lia). cbv zeta.
    replace ((IZR h - r' * IZR h) / 2)%R with ((1 - r') * IZR h / 2)%R by field.
    assert (P : (0 <= (1 - r') * IZR h / 2)%R) by nra.
    rewrite Ztrunc_floor by assumption. pose proof (Zfloor_lb ((1 - r') * IZR h / 2)). pose proof (Zfloor_ub ((1 - r') * IZR h / 2)).
    split; [now apply Zfloor_lub|]. split; [|split; assumption]. apply lt_IZR. rewrite mult_IZR. nra. }
  destruct (G _ H1) as [A1 [A2 A3]], (G _ H2) as [B1 [B2 B3]].
  set (dy := Ztrunc ((IZR (ih m) - r' * IZR (ih m)) / 2)) in *. set (dx := Ztrunc ((IZR (iw m) - r' * IZR (iw m)) / 2)) in *.
  exists dy, dx. do 4 (split; [assumption|]). unfold slice2, slice_bound.
  destruct (Z.ltb_spec dy 0); [lia|]. destruct (Z.ltb_spec dx 0); [lia|].
  destruct (Z.ltb_spec (ih m - dy) 0); [lia|]. destruct (Z.ltb_spec (iw m - dx) 0); [lia|].
  rewrite !Z.min_l by lia. cbn [ih iw px]. split; [lia|]. split; [lia|]. split; [reflexivity|]. split; assumption.
Qed.

(** *** Contrast *)
Lemma in_pixels {T} (m : image T) v : In v (pixels m) <-> exists i j, in_img m i j /\ v = px m i j.
Proof.
  unfold pixels. rewrite in_map_iff. split.
  - intros [[i j] [<- H]]. apply in_grid in H. exists i, j. cbn. unfold in_img. tauto.
  - intros [i [j [H ->]]]. exists (i, j). split; [reflexivity|]. apply in_grid. unfold in_img in H. tauto.
Qed.
Lemma sumZ_const n c : 0 <= n -> sumZ n (fun _ => c) = (IZR n * c)%R.
Proof.
  intros Hn. unfold sumZ. rewrite <- (Z2Nat.id n Hn) at 2. induction (Z.to_nat n) as [|k IH]; cbn [sum_n]; [cbn; lra|].
  rewrite IH, Nat2Z.inj_succ, succ_IZR. lra.
Qed.
Lemma sumZ_nonneg n f : (forall k, 0 <= k < n -> (0 <= f k)%R) -> (0 <= sumZ n f)%R.
Proof.
  intros H. unfold sumZ. assert (G : forall k, (k <= Z.to_nat n)%nat -> (0 <= sum_n k f)%R); [|now apply G].
  induction k as [|k IH]; intros Hk; cbn [sum_n]; [lra|]. specialize (IH ltac:(lia)). specialize (H (Z.of_nat k) ltac:(lia)). lra.
Qed.
Lemma sumZ_pos n f a : 0 <= a < n -> (forall k, 0 <= k < n -> (0 <= f k)%R) -> (0 < f a)%R -> (0 < sumZ n f)%R.
Proof.
  intros Ha H Hp.
  assert (G : (0 <= sumZ n (fun k => f k - (if Z.eqb k a then f a else 0)))%R).
  { apply sumZ_nonneg. intros k Hk. destruct (Z.eqb_spec k a); [subst; lra|]. specialize (H k Hk). lra. }
  unfold Rminus in G. rewrite sumZ_plus in G.
  assert (E : sumZ n (fun k => (- (if Z.eqb k a then f a else 0))%R) = (- f a)%R).
  { rewrite (sumZ_single n _ a Ha); [now rewrite Z.eqb_refl|]. intros k Hk Ne. apply Z.eqb_neq in Ne. rewrite Ne. lra. }
  rewrite E in G. lra.
Qed.
Lemma complement_sum m : 0 <= ih m -> 0 <= iw m ->
  img_sum (img_map (fun v => (1 - v)%R) m) = (IZR (ih m * iw m) - img_sum m)%R.
Proof.
  intros Hh Hw. unfold img_sum. cbn [img_map ih iw px].
  rewrite (sumZ_ext (ih m) _ (fun i => (IZR (iw m) + (-1) * sumZ (iw m) (fun j => px m i j))%R)).
  - rewrite sumZ_plus, sumZ_scal, sumZ_const, mult_IZR by assumption. ring.
  - intros i _. rewrite <- sumZ_scal. rewrite <- (Rmult_1_r (IZR (iw m))), <- sumZ_const, <- sumZ_plus by assumption.
    apply sumZ_ext. intros. ring.
Qed.
Lemma invert_minority m : binary_image m -> 1 <= ih m -> 1 <= iw m ->
  exists b, @invert_dots_contrast R Rex m = Ok b /\ binary_image b /\ ih b = ih m /\ iw b = iw m /\
    (img_sum b <= IZR (ih m * iw m) / 2)%R /\
    ((forall i j, in_img m i j -> px b i j = px m i j) \/ (forall i j, in_img m i j -> px b i j = 1 - px m i j)%R).
Proof.
  intros Hb Hh Hw. unfold invert_dots_contrast. rewrite sum_pixels.
  assert (Hpos : (0 < IZR (ih m * iw m))%R) by (apply IZR_lt; nia).
  destruct (namax (pixels m)) as [mx|e] eqn:Emx.
  2:{ exfalso. assert (In (px m 0 0) (pixels m)) by (apply in_pixels; exists 0, 0; unfold in_img; split; [lia|reflexivity]).
      destruct (pixels m); [easy|discriminate]. }
  cbn [bind]. unfold Rex in *. change (@nofQ R (Rnum (fun x => x)) 1 2) with (1/2)%R. cbn [nltb ndiv nofZ nsub Rnum].
  apply namax_spec in Emx. destruct Emx as [Imx Lmx].
  destruct (Rlt_bool (1/2) (img_sum m / IZR (ih m * iw m))) eqn:E.
  - apply Rlt_bool_true_iff in E.
    assert (S : (IZR (ih m * iw m) / 2 < img_sum m)%R).
    { apply (Rmult_lt_compat_r (IZR (ih m * iw m))) in E; [|assumption].
      replace (img_sum m / IZR (ih m * iw m) * IZR (ih m * iw m))%R with (img_sum m) in E by (field; lra). lra. }
    assert (M1 : mx = 1%R).
    { apply in_pixels in Imx. destruct Imx as [i [j [Hij Em]]]. destruct (Hb i j Hij) as [Z0|Z1]; [|congruence].
      exfalso. assert (img_sum m = 0%R); [|lra]. unfold img_sum. rewrite (sumZ_ext _ _ (fun _ => 0%R)).
      - rewrite sumZ_const by lia. lra.
      - intros i' Hi'. rewrite (sumZ_ext _ _ (fun _ => 0%R)); [rewrite sumZ_const by lia; lra|].
        intros j' Hj'. assert (Hin : in_img m i' j') by (split; lia). destruct (Hb i' j' Hin) as [?|H1]; [assumption|].
        assert (px m i' j' <= mx)%R by (apply Lmx, in_pixels; eauto). lra. }
    subst mx. exists (img_map (fun v => (1 - v)%R) m). split; [reflexivity|]. split.
    { intros i j Hij. cbn. destruct (Hb i j Hij) as [->| ->]; [right|left]; lra. }
    split; [reflexivity|]. split; [reflexivity|]. split; [|right; reflexivity].
    rewrite complement_sum by lia. lra.
  - exists m. split; [reflexivity|]. split; [assumption|]. split; [reflexivity|]. split; [reflexivity|]. split; [|now left].
    apply not_true_iff_false in E. rewrite Rlt_bool_true_iff in E. apply Rnot_lt_le in E.
    apply (Rmult_le_compat_r (IZR (ih m * iw m))) in E; [|lra].
    replace (img_sum m / IZR (ih m * iw m) * IZR (ih m * iw m))%R with (img_sum m) in E by (field; lra). lra.
Qed.

(** *** Median size and distance of the dots *)
Lemma calc_size_distance_ok label clear m r lab n :
  let roi := clear (@select_roi R Rex m r false) in
  int16_image roi -> label (@to_int16 R Rex roi) = (lab, n) -> labelling roi lab n -> 2 <= n ->
  exists s d nearest, @calc_size_distance R Rex label clear m r = Ok (s, d) /\
    is_median (map (mass roi lab) (zrange 1 (n + 1))) s /\
    Forall2 (fun k v => exists ds, neighbour_distances roi lab n k (v :: ds)) (zrange 1 (n + 1)) nearest /\
    is_median nearest d.
Proof.
  intros roi Hi El HL Hn. unfold calc_size_distance. cbv zeta. fold roi. rewrite El.
  assert (Eh : ih lab = ih roi) by apply HL. assert (Ew : iw lab = iw roi) by apply HL.
  rewrite (centers_centroids _ roi lab n Eh Ew) by (intros; apply (to_int16_px (fun x => x)); assumption).
  rewrite (map_ext (@label_sum R Rex (@to_int16 R Rex roi) lab) (mass roi lab))
    by (intros; apply label_sum_mass; [assumption|assumption|intros; now apply (to_int16_px (fun x => x))]).
  set (near := fun k => match @nsort R Rex (map (dist (centroid roi lab k)) (map (centroid roi lab) (zrange 1 (n + 1)))) with
                        | _ :: v :: _ => v | _ => 0%R end).
  assert (Hnear : forall k, In k (zrange 1 (n + 1)) -> exists ds, neighbour_distances roi lab n k (near k :: ds) /\
     pyget (@nsort R Rex (@distances R Rex (centroid roi lab k) (map (centroid roi lab) (zrange 1 (n + 1))))) 1 = Ok (near k)).
  { intros k Hk. apply in_zrange in Hk. rewrite distances_dist.
    destruct (sorted_distances roi lab n k ltac:(lia)) as [ds [E [Hd Hl]]]. unfold near. rewrite E.
    destruct ds as [|v ds]; [cbn in Hl; lia|]. exists ds. split; [assumption|].
    unfold pyget. cbn [length]. change (1 <? 0) with false. cbv iota zeta.
    destruct (Z.leb_spec (Z.of_nat (S (S (length ds)))) 1); [lia|]. reflexivity. }
  exists (@median R Rex (map (mass roi lab) (zrange 1 (n + 1)))), (@median R Rex (map near (zrange 1 (n + 1)))), (map near (zrange 1 (n + 1))).
  assert (Hne : zrange 1 (n + 1) <> []).
  { intros E. assert (In 1 (zrange 1 (n + 1))) by (apply in_zrange; lia). rewrite E in H. destruct H. }
  assert (EM : mapM (fun dot => pyget (@nsort R Rex (@distances R Rex dot (map (centroid roi lab) (zrange 1 (n + 1))))) 1)
     (map (centroid roi lab) (zrange 1 (n + 1))) = Ok (map near (zrange 1 (n + 1)))).
  { assert (G : forall l cs, (forall k, In k l -> pyget (@nsort R Rex (@distances R Rex (centroid roi lab k) cs)) 1 = Ok (near k)) ->
      mapM (fun dot => pyget (@nsort R Rex (@distances R Rex dot cs)) 1) (map (centroid roi lab) l) = Ok (map near l)).
    { intros l cs H. apply mapM_ok. induction l as [|k l IH]; cbn [map]; constructor; [apply H; now left|].
      apply IH. intros. apply H. now right. }
    apply G. intros k Hk. now destruct (Hnear k Hk) as [ds [_ E]]. }
  split; [unfold bind; fold (@distances R Rex); now rewrite EM|].
  split; [apply median_spec; destruct (zrange 1 (n+1)); [congruence|discriminate]|].
  split; [|apply median_spec; destruct (zrange 1 (n+1)); [congruence|discriminate]].
  assert (Hn' : forall k, In k (zrange 1 (n + 1)) -> exists ds, neighbour_distances roi lab n k (near k :: ds))
    by (intros k Hk; destruct (Hnear k Hk) as [ds [H _]]; eauto).
  clearbody near. clear - Hn'. set (l := zrange 1 (n + 1)) in *. clearbody l. induction l as [|k l IH]; constructor.
  - apply Hn'. now left.
  - apply IH. intros. apply Hn'. now right.
Qed.
