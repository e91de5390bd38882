(** Theorems C61, C62, C91, C94: tilted profiles and cross points. *)
From Coq Require Import Floats.
From Coq Require Import Reals ZArith List Lra Lia Psatz Sorted Permutation.
From Flocq Require Import Core.
From Verif Require Import Base Num NumFacts Sorting Img Spec Lsq ProcSpec Post PrepImg Proc ProcFacts2 ProcFacts5 Line LineFacts LineFacts2 LineFacts3 LineFacts4 Props_Line Props_Line2 LineSpec ProfSpec.
Import ListNotations.
Local Open Scope R_scope.
Local Existing Instance Rex.

(** get_tilted_profile with the true trigonometric functions. *)
Notation tilted_profile := (@get_tilted_profile R Rex tan sin cos PI).

(** *** C61 *)
(** Accepted indices; all others give ValueError. *)
Theorem C61_accepted : forall spline mat index deg (horizontal : bool), (1 <= ih mat <= 32767)%Z -> (1 <= iw mat <= 32767)%Z -> Rabs deg < 90 ->
  ((if horizontal then hor_index_ok else ver_index_ok) (ih mat) (iw mat) (radians deg) index ->
    exists p, tilted_profile spline mat index deg horizontal = Ok p) /\
  (~ (if horizontal then hor_index_ok else ver_index_ok) (ih mat) (iw mat) (radians deg) index ->
    tilted_profile spline mat index deg horizontal = Err ValueError).
Proof.
  intros spline mat index deg hor Hh Hw Hd. split; intros Hok; destruct hor.
  - rewrite hor_ok by (assumption || lia). cbn zeta.
    match goal with |- context[crop_range ?l] => destruct (crop_ok l (ih mat)) as [lo [hi [E _]]] end.
    + intros E. apply map_eq_nil, (f_equal (@length Z)) in E. rewrite zrange_length in E. cbn in E. lia.
    + lia.
    + intros v Hv. apply in_map_iff in Hv. destruct Hv as [k [<- _]]. apply clamp_range. apply IZR_le. lia.
    + rewrite E. cbn [bind]. eexists. reflexivity.
  - rewrite ver_ok by (assumption || lia). cbn zeta.
    match goal with |- context[crop_range ?l] => destruct (crop_ok l (iw mat)) as [lo [hi [E _]]] end.
    + intros E. apply map_eq_nil, (f_equal (@length Z)) in E. rewrite zrange_length in E. cbn in E. lia.
    + lia.
    + intros v Hv. apply in_map_iff in Hv. destruct Hv as [k [<- _]]. apply clamp_range. apply IZR_le. lia.
    + rewrite E. cbn [bind]. eexists. reflexivity.
  - apply hor_error; (assumption || lia).
  - apply ver_error; (assumption || lia).
Qed.
(** A right angle, and (in any arithmetic) an index out of the range computed. *)
Theorem C61_right_angle : forall spline mat index deg horizontal, Rabs deg = 90 -> tilted_profile spline mat index deg horizontal = Err ValueError.
Proof.
  intros spline mat index deg hor H. unfold get_tilted_profile, calc_index_range. cbn zeta. cbn [nabs neqb nofZ Rex Rnum].
  rewrite Req_bool_true by assumption. reflexivity.
Qed.
Theorem C61_out_of_range : forall {T} {N : Num T} tan_ sin_ cos_ pi_ spline (mat : image T) index deg horizontal m M,
  calc_index_range tan_ pi_ (ih mat) (iw mat) deg horizontal = Ok (m, M) ->
  nltb index (nofZ m) = true \/ nltb (nofZ M) index = true ->
  get_tilted_profile tan_ sin_ cos_ pi_ spline mat index deg horizontal = Err ValueError.
Proof.
  intros T N tan_ sin_ cos_ pi_ spline mat index deg hor m M E H. unfold get_tilted_profile. cbn zeta. rewrite E. cbn [bind].
  assert (X : (nltb index (nofZ m) || nltb (nofZ M) index)%bool = true) by (apply Bool.orb_true_iff; exact H). rewrite X. reflexivity.
Qed.
(** The points: one per column (row); inside the image; in both coordinates
    within a pixel of the ideal line; the first one exact; for positive angles
    only the coordinate along the profile is ever moved. *)
Theorem C61_horizontal : forall spline mat index deg xs ys prof, (1 <= ih mat)%Z -> (1 <= iw mat)%Z -> Rabs deg < 90 ->
  tilted_profile spline mat index deg true = Ok (xs, ys, prof) ->
  let a := radians deg in let w := iw mat in let h := ih mat in
  size xs = w /\ size ys = w /\ sample xs 0 = 0 /\ sample ys 0 = index /\
  forall k, (0 <= k < w)%Z -> let t := along w a k in
  0 <= sample xs k <= IZR (w - 1) /\ 0 <= sample ys k <= IZR (h - 1) /\
  sample xs k = Rmin (hor_x a t) (IZR (w - 1)) /\ 0 <= hor_x a t - sample xs k <= 1 /\
  sample ys k = Rmin (hor_y index a t) (IZR (h - 1)) /\ 0 <= hor_y index a t - sample ys k < 1 /\
  (0 < a -> sample ys k = hor_y index a t).
Proof.
  intros spline mat index deg xs ys prof Hh Hw Hd E a w h.
  assert (Hok : hor_index_ok h w a index).
  { destruct (classic_dec_hor h w a index) as [p|p]; [assumption|]. exfalso. fold h w a in Hh, Hw. unfold a, h, w in p. rewrite hor_error in E by assumption. discriminate. }
  rewrite hor_ok in E by assumption. cbn zeta in E. fold a w h in E.
  destruct (crop_range _) as [[lo hi]|e] in E; [|discriminate]. cbn [bind] in E. apply Ok_inj in E. injection E as Ex Ey _. subst xs ys.
  destruct (cos_pos_deg deg Hd) as [Ba Hc]. fold a in Ba, Hc.
  assert (W1 : IZR (w - 1) = IZR w - 1) by apply minus_IZR. assert (H1 : IZR (h - 1) = IZR h - 1) by apply minus_IZR.
  assert (W0 : 1 <= IZR w) by (apply IZR_le; assumption). assert (H0 : 1 <= IZR h) by (apply IZR_le; assumption).
  assert (K : forall k, (0 <= k < w)%Z -> let t := along w a k in
    clamp (hor_x a t) 0 (IZR (w - 1)) = Rmin (hor_x a t) (IZR (w - 1)) /\ clamp (hor_y index a t) 0 (IZR (h - 1)) = Rmin (hor_y index a t) (IZR (h - 1)) /\
    0 <= hor_x a t <= IZR w /\ 0 <= hor_y index a t < IZR h /\ (0 < a -> hor_y index a t <= IZR (h - 1))).
  { intros k Hk t. destruct (hor_inside h w a index k Hw Ba Hk Hok) as (X & Yp & Yn). fold t in X, Yp, Yn.
    assert (Y : 0 <= hor_y index a t < IZR h) by (destruct (Rlt_dec 0 a) as [p|p]; [specialize (Yp p); lra|apply Yn; lra]).
    unfold clamp. split; [apply Rmax_right, Rmin_glb; lra|]. split; [apply Rmax_right, Rmin_glb; lra|]. split; [assumption|]. split; [assumption|]. intros p. apply Yp. assumption. }
  split; [unfold size; rewrite map_length, zrange_length; lia|]. split; [unfold size; rewrite map_length, zrange_length; lia|].
  assert (A0 : along w a 0 = 0) by (unfold along, Rdiv; ring).
  split.
  { rewrite zrange_sample by lia. rewrite A0. unfold hor_x, clamp. rewrite Rmult_0_l. rewrite Rmin_left by lra. apply Rmax_left. lra. }
  split.
  { rewrite zrange_sample by lia. destruct (K 0%Z ltac:(lia)) as (_ & Ky & _ & Y & _). rewrite A0 in *. rewrite Ky.
    assert (I : hor_y index a 0 = index) by (unfold hor_y; ring). rewrite I in *. apply Rmin_left.
    unfold hor_index_ok in Hok. destruct (Rlt_dec 0 a) as [p|p]; [lra|].
    assert (F : (0 <= Zfloor (IZR w * tan (- a)))%Z) by (apply Zfloor_lub; simpl; pose proof (tan_nonneg (- a) ltac:(lra)); nra). apply IZR_le in F. rewrite !minus_IZR in *. lra. }
  intros k Hk t. destruct (K k Hk) as (Kx & Ky & X & Y & Yp). fold t in Kx, Ky, X, Y, Yp.
  rewrite !zrange_sample by assumption. fold t. rewrite Kx, Ky.
  assert (Mx : Rmin (hor_x a t) (IZR (w - 1)) = hor_x a t /\ hor_x a t <= IZR (w - 1) \/ Rmin (hor_x a t) (IZR (w - 1)) = IZR (w - 1) /\ IZR (w - 1) <= hor_x a t).
  { destruct (Rle_dec (hor_x a t) (IZR (w - 1))); [left|right]; (split; [|lra]); [apply Rmin_left|apply Rmin_right]; lra. }
  assert (My : Rmin (hor_y index a t) (IZR (h - 1)) = hor_y index a t /\ hor_y index a t <= IZR (h - 1) \/ Rmin (hor_y index a t) (IZR (h - 1)) = IZR (h - 1) /\ IZR (h - 1) <= hor_y index a t).
  { destruct (Rle_dec (hor_y index a t) (IZR (h - 1))); [left|right]; (split; [|lra]); [apply Rmin_left|apply Rmin_right]; lra. }
  split; [destruct Mx as [[-> ?]|[-> ?]]; lra|]. split; [destruct My as [[-> ?]|[-> ?]]; lra|]. split; [reflexivity|]. split; [destruct Mx as [[-> ?]|[-> ?]]; lra|].
  split; [reflexivity|]. split; [destruct My as [[-> ?]|[-> ?]]; lra|]. intros p. apply Rmin_left. auto.
Qed.
Theorem C61_vertical : forall spline mat index deg xs ys prof, (1 <= ih mat)%Z -> (1 <= iw mat)%Z -> Rabs deg < 90 ->
  tilted_profile spline mat index deg false = Ok (xs, ys, prof) ->
  let a := radians deg in let w := iw mat in let h := ih mat in
  size xs = h /\ size ys = h /\ sample xs 0 = index /\ sample ys 0 = 0 /\
  forall k, (0 <= k < h)%Z -> let t := along h a k in
  0 <= sample xs k <= IZR (w - 1) /\ 0 <= sample ys k <= IZR (h - 1) /\
  sample ys k = Rmin (ver_y a t) (IZR (h - 1)) /\ 0 <= ver_y a t - sample ys k <= 1 /\
  sample xs k = Rmax 0 (ver_x index a t) /\ 0 <= sample xs k - ver_x index a t < 1 /\
  (0 < a -> sample xs k = ver_x index a t).
Proof.
  intros spline mat index deg xs ys prof Hh Hw Hd E a w h.
  assert (Hok : ver_index_ok h w a index).
  { destruct (classic_dec_ver h w a index) as [p|p]; [assumption|]. exfalso. unfold a, h, w in p. rewrite ver_error in E by assumption. discriminate. }
  rewrite ver_ok in E by assumption. cbn zeta in E. fold a w h in E.
  destruct (crop_range _) as [[lo hi]|e] in E; [|discriminate]. cbn [bind] in E. apply Ok_inj in E. injection E as Ex Ey _. subst xs ys.
  destruct (cos_pos_deg deg Hd) as [Ba Hc]. fold a in Ba, Hc.
  assert (W1 : IZR (w - 1) = IZR w - 1) by apply minus_IZR. assert (H1 : IZR (h - 1) = IZR h - 1) by apply minus_IZR.
  assert (W0 : 1 <= IZR w) by (apply IZR_le; assumption). assert (H0 : 1 <= IZR h) by (apply IZR_le; assumption).
  assert (K : forall k, (0 <= k < h)%Z -> let t := along h a k in
    clamp (ver_y a t) 0 (IZR (h - 1)) = Rmin (ver_y a t) (IZR (h - 1)) /\ clamp (ver_x index a t) 0 (IZR (w - 1)) = Rmax 0 (ver_x index a t) /\
    0 <= ver_y a t <= IZR h /\ -1 < ver_x index a t <= IZR (w - 1) /\ (0 < a -> 0 <= ver_x index a t)).
  { intros k Hk t. destruct (ver_inside h w a index k Hh Ba Hk Hok) as (X & Yp & Yn). fold t in X, Yp, Yn.
    assert (Y : -1 < ver_x index a t <= IZR (w - 1)) by (destruct (Rlt_dec 0 a) as [p|p]; [specialize (Yp p); lra|apply Yn; lra]).
    unfold clamp. split; [apply Rmax_right, Rmin_glb; lra|]. split; [f_equal; apply Rmin_left; lra|]. split; [assumption|]. split; [assumption|]. intros p. apply Yp. assumption. }
  split; [unfold size; rewrite map_length, zrange_length; lia|]. split; [unfold size; rewrite map_length, zrange_length; lia|].
  assert (A0 : along h a 0 = 0) by (unfold along, Rdiv; ring).
  split.
  { rewrite zrange_sample by lia. destruct (K 0%Z ltac:(lia)) as (_ & Ky & _ & Y & _). rewrite A0 in *. rewrite Ky.
    assert (I : ver_x index a 0 = index) by (unfold ver_x; ring). rewrite I in *. apply Rmax_right.
    unfold ver_index_ok in Hok. destruct (Rlt_dec 0 a) as [p|p]; [lra|].
    assert (F : (0 <= Zfloor (IZR h * tan (- a)))%Z) by (apply Zfloor_lub; simpl; pose proof (tan_nonneg (- a) ltac:(lra)); nra). apply IZR_le in F. lra. }
  split.
  { rewrite zrange_sample by lia. rewrite A0. unfold ver_y, clamp. rewrite Rmult_0_l. rewrite Rmin_left by lra. apply Rmax_left. lra. }
  intros k Hk t. destruct (K k Hk) as (Kx & Ky & X & Y & Yp). fold t in Kx, Ky, X, Y, Yp.
  rewrite !zrange_sample by assumption. fold t. rewrite Kx, Ky.
  assert (Mx : Rmin (ver_y a t) (IZR (h - 1)) = ver_y a t /\ ver_y a t <= IZR (h - 1) \/ Rmin (ver_y a t) (IZR (h - 1)) = IZR (h - 1) /\ IZR (h - 1) <= ver_y a t).
  { destruct (Rle_dec (ver_y a t) (IZR (h - 1))); [left|right]; (split; [|lra]); [apply Rmin_left|apply Rmin_right]; lra. }
  assert (My : Rmax 0 (ver_x index a t) = ver_x index a t /\ 0 <= ver_x index a t \/ Rmax 0 (ver_x index a t) = 0 /\ ver_x index a t <= 0).
  { destruct (Rle_dec 0 (ver_x index a t)); [left|right]; (split; [|lra]); [apply Rmax_right|apply Rmax_left]; lra. }
  split; [destruct My as [[-> ?]|[-> ?]]; lra|]. split; [destruct Mx as [[-> ?]|[-> ?]]; lra|]. split; [reflexivity|]. split; [destruct Mx as [[-> ?]|[-> ?]]; lra|].
  split; [reflexivity|]. split; [destruct My as [[-> ?]|[-> ?]]; lra|]. intros p. apply Rmax_right. auto.
Qed.
(** The intensities are interpolated in a band of rows (columns) of the image
    that contains all points, up to 32767 rows (columns). *)
Lemma sample_in l k : (0 <= k < size l)%Z -> In (sample l k) l.
Proof. intros H. unfold sample. apply nth_In. unfold size in H. lia. Qed.
Lemma slice_bound_id n i : (0 <= i <= n)%Z -> slice_bound n i = i.
Proof. intros H. unfold slice_bound. destruct (Z.ltb_spec i 0); lia. Qed.
Theorem C61_band_horizontal : forall spline mat index deg xs ys prof, (1 <= ih mat <= 32767)%Z -> (1 <= iw mat)%Z -> Rabs deg < 90 ->
  tilted_profile spline mat index deg true = Ok (xs, ys, prof) ->
  exists lo hi band, (0 <= lo < hi)%Z /\ (hi <= ih mat)%Z /\ (forall k, (0 <= k < iw mat)%Z -> IZR lo <= sample ys k <= IZR (hi - 1)) /\
  ih band = (hi - lo)%Z /\ iw band = iw mat /\ (forall i j, px band i j = px mat (lo + i) j) /\
  prof = spline band (combine (map (fun y => y - IZR lo) ys) xs).
Proof.
  intros spline mat index deg xs ys prof Hh Hw Hd E.
  assert (Hok : hor_index_ok (ih mat) (iw mat) (radians deg) index).
  { destruct (classic_dec_hor (ih mat) (iw mat) (radians deg) index) as [p|p]; [assumption|]. rewrite hor_error in E by (assumption || lia). discriminate. }
  pose proof (C61_horizontal spline mat index deg xs ys prof ltac:(lia) Hw Hd E) as (_ & Sy & _ & _ & K). cbn zeta in K.
  rewrite hor_ok in E by (assumption || lia). cbn zeta in E.
  match type of E with context[crop_range ?l] => assert (Ey : exists z, Ok (fst z, l, snd z) = Ok (xs, ys, prof)) end.
  { destruct (crop_range _) as [[lo hi]|e]; [|discriminate]. cbn [bind] in E. eexists (_, _). exact E. }
  destruct Ey as [z Ey]. apply Ok_inj in Ey. injection Ey as _ Ey _. rewrite Ey in E.
  destruct (crop_ok ys (ih mat)) as [lo [hi [Ec [h1 [h2 h3]]]]].
  - intros ->. cbn in Sy. lia.
  - lia.
  - intros v Hv. destruct (In_nth _ _ 0 Hv) as [n [Hn <-]]. replace n with (Z.to_nat (Z.of_nat n)) by lia. change (nth (Z.to_nat (Z.of_nat n)) ys 0) with (sample ys (Z.of_nat n)).
    apply K. unfold size in Sy. lia.
  - rewrite Ec in E. cbn [bind] in E. apply Ok_inj in E. injection E as Ex2 E.
    exists lo, hi, (row_slice mat lo hi). split; [lia|]. split; [lia|]. split; [intros k Hk; apply h3, sample_in; lia|].
    split; [unfold row_slice; cbn [ih]; rewrite !slice_bound_id by lia; lia|]. split; [reflexivity|].
    split; [intros i j; unfold row_slice; cbn [px]; rewrite !slice_bound_id by lia; reflexivity|]. rewrite <- E, <- Ex2. reflexivity.
Qed.
Theorem C61_band_vertical : forall spline mat index deg xs ys prof, (1 <= ih mat)%Z -> (1 <= iw mat <= 32767)%Z -> Rabs deg < 90 ->
  tilted_profile spline mat index deg false = Ok (xs, ys, prof) ->
  exists lo hi band, (0 <= lo < hi)%Z /\ (hi <= iw mat)%Z /\ (forall k, (0 <= k < ih mat)%Z -> IZR lo <= sample xs k <= IZR (hi - 1)) /\
  ih band = ih mat /\ iw band = (hi - lo)%Z /\ (forall i j, px band i j = px mat i (lo + j)) /\
  prof = spline band (combine ys (map (fun x => x - IZR lo) xs)).
Proof.
  intros spline mat index deg xs ys prof Hh Hw Hd E.
  assert (Hok : ver_index_ok (ih mat) (iw mat) (radians deg) index).
  { destruct (classic_dec_ver (ih mat) (iw mat) (radians deg) index) as [p|p]; [assumption|]. rewrite ver_error in E by (assumption || lia). discriminate. }
  pose proof (C61_vertical spline mat index deg xs ys prof Hh ltac:(lia) Hd E) as (Sx & _ & _ & _ & K). cbn zeta in K.
  rewrite ver_ok in E by (assumption || lia). cbn zeta in E.
  match type of E with context[crop_range ?l] => assert (Ey : exists z, Ok (l, fst z, snd z) = Ok (xs, ys, prof)) end.
  { destruct (crop_range _) as [[lo hi]|e]; [|discriminate]. cbn [bind] in E. eexists (_, _). exact E. }
  destruct Ey as [z Ey]. apply Ok_inj in Ey. injection Ey as Ey _ _. rewrite Ey in E.
  destruct (crop_ok xs (iw mat)) as [lo [hi [Ec [h1 [h2 h3]]]]].
  - intros ->. cbn in Sx. lia.
  - lia.
  - intros v Hv. destruct (In_nth _ _ 0 Hv) as [n [Hn <-]]. replace n with (Z.to_nat (Z.of_nat n)) by lia. change (nth (Z.to_nat (Z.of_nat n)) xs 0) with (sample xs (Z.of_nat n)).
    apply K. unfold size in Sx. lia.
  - rewrite Ec in E. cbn [bind] in E. apply Ok_inj in E. injection E as Ey2 E.
    exists lo, hi, (slice2 mat 0 (ih mat) lo hi). split; [lia|]. split; [lia|]. split; [intros k Hk; apply h3, sample_in; lia|].
    split; [unfold slice2; cbn [ih]; rewrite !slice_bound_id by lia; lia|]. split; [unfold slice2; cbn [iw]; rewrite !slice_bound_id by lia; lia|].
    split; [intros i j; unfold slice2; cbn [px]; rewrite !slice_bound_id by lia; f_equal; lia|]. rewrite <- E, <- Ey2. reflexivity.
Qed.
(** Where a point falls on a pixel, the intensity is the pixel's. *)
Lemma nth_error_sample (l : list R) k v : (0 <= k)%Z -> nth_error l (Z.to_nat k) = Some v -> sample l k = v.
Proof. intros Hk H. unfold sample. now apply nth_error_nth. Qed.
Lemma sample_nth_error (l : list R) k : (0 <= k < size l)%Z -> nth_error l (Z.to_nat k) = Some (sample l k).
Proof. intros H. unfold sample. apply nth_error_nth'. unfold size in H. lia. Qed.
Lemma combine_nth_error {A B} (l : list A) (l' : list B) : forall k a b, nth_error l k = Some a -> nth_error l' k = Some b -> nth_error (combine l l') k = Some (a, b).
Proof. revert l'. induction l as [|x l IH]; intros [|y l'] [|k] a b; cbn; try discriminate; [congruence|apply IH]. Qed.
Theorem C61_pixels : forall spline mat index deg (horizontal : bool) xs ys prof k i j, spline_exact spline -> (1 <= ih mat <= 32767)%Z -> (1 <= iw mat <= 32767)%Z -> Rabs deg < 90 ->
  tilted_profile spline mat index deg horizontal = Ok (xs, ys, prof) -> (0 <= k < if horizontal then iw mat else ih mat)%Z ->
  sample xs k = IZR j -> sample ys k = IZR i -> in_img mat i j /\ sample prof k = px mat i j.
Proof.
  intros spline mat index deg hor xs ys prof k i j SE Hh Hw Hd E Hk Ex Ey. destruct hor.
  - pose proof (C61_horizontal spline mat index deg xs ys prof ltac:(lia) ltac:(lia) Hd E) as (Sx & Sy & _ & _ & K). destruct (K k Hk) as (K1 & K2 & _). cbn zeta in *.
    rewrite Ex in K1. rewrite Ey in K2.
    assert (I : in_img mat i j). { destruct K1 as [h1 h2], K2 as [h3 h4]. apply le_IZR in h1, h2, h3, h4. split; lia. }
    split; [assumption|].
    destruct (C61_band_horizontal spline mat index deg xs ys prof Hh ltac:(lia) Hd E) as (lo & hi & band & h1 & h2 & h3 & Bh & Bw & Bp & ->).
    apply nth_error_sample; [lia|]. specialize (h3 k Hk). rewrite Ey in h3. destruct h3 as [h3 h4]. apply le_IZR in h3, h4.
    rewrite (SE band _ (Z.to_nat k) (i - lo)%Z j).
    + rewrite Bp. f_equal. f_equal. lia.
    + destruct I as [I1 I2]. split; rewrite ?Bh, ?Bw; lia.
    + apply combine_nth_error.
      * rewrite nth_error_map, sample_nth_error by lia. cbn [option_map]. rewrite Ey, minus_IZR. reflexivity.
      * rewrite sample_nth_error by lia. now rewrite Ex.
  - pose proof (C61_vertical spline mat index deg xs ys prof ltac:(lia) ltac:(lia) Hd E) as (Sx & Sy & _ & _ & K). destruct (K k Hk) as (K1 & K2 & _). cbn zeta in *.
    rewrite Ex in K1. rewrite Ey in K2.
    assert (I : in_img mat i j). { destruct K1 as [h1 h2], K2 as [h3 h4]. apply le_IZR in h1, h2, h3, h4. split; lia. }
    split; [assumption|].
    destruct (C61_band_vertical spline mat index deg xs ys prof ltac:(lia) Hw Hd E) as (lo & hi & band & h1 & h2 & h3 & Bh & Bw & Bp & ->).
    apply nth_error_sample; [lia|]. specialize (h3 k Hk). rewrite Ex in h3. destruct h3 as [h3 h4]. apply le_IZR in h3, h4.
    rewrite (SE band _ (Z.to_nat k) i (j - lo)%Z).
    + rewrite Bp. f_equal. f_equal. lia.
    + destruct I as [I1 I2]. split; rewrite ?Bh, ?Bw; lia.
    + apply combine_nth_error.
      * rewrite sample_nth_error by lia. now rewrite Ey.
      * rewrite nth_error_map, sample_nth_error by lia. cbn [option_map]. rewrite Ex, minus_IZR. reflexivity.
Qed.
(** Angle 0: the points are not the pixels of the row; they are stretched to
    end one pixel beyond it. *)
Lemma angle_zero w k : (1 <= w)%Z -> along w 0 k = IZR k * IZR w / IZR (w - 1) /\ cos 0 = 1.
Proof. intros Hw. rewrite cos_0. unfold along. rewrite cos_0. replace (IZR w / 1) with (IZR w) by field. rewrite Zfloor_IZR. split; reflexivity. Qed.
Theorem C61_row_not_sampled : forall spline mat (index : Z) xs ys prof, (1 <= ih mat)%Z -> (2 <= iw mat)%Z ->
  tilted_profile spline mat (IZR index) 0 true = Ok (xs, ys, prof) ->
  forall k, (0 < k < iw mat - 1)%Z -> sample ys k = IZR index /\ sample xs k = IZR k + IZR k / IZR (iw mat - 1) /\ forall j, sample xs k <> IZR j.
Proof.
  intros spline mat index xs ys prof Hh Hw E k Hk.
  assert (A : radians 0 = 0) by (unfold radians, Rdiv; ring). assert (R0 : Rabs 0 < 90) by (rewrite Rabs_R0; lra).
  pose proof (C61_horizontal spline mat (IZR index) 0 xs ys prof Hh ltac:(lia) R0 E) as (Sx & Sy & X0 & Y0 & K). cbn zeta in K. rewrite A in K.
  pose proof (K 0%Z ltac:(lia)) as (_ & Yr & _). rewrite Y0 in Yr.
  destruct (K k ltac:(lia)) as (_ & _ & Kx & _ & Ky & _). unfold hor_x, hor_y in Kx, Ky. rewrite sin_0 in Ky.
  destruct (angle_zero (iw mat) k ltac:(lia)) as [Al ->] in Kx. rewrite Al in Kx, Ky.
  set (w := iw mat) in *. assert (D : IZR (w - 1) = IZR w - 1) by apply minus_IZR. assert (W : 2 <= IZR w) by now apply IZR_le.
  assert (K0 : 1 <= IZR k) by (apply IZR_le; lia). assert (K1 : IZR k <= IZR w - 2) by (rewrite <- (minus_IZR w 2); apply IZR_le; lia).
  assert (Q : IZR k * IZR w / IZR (w - 1) = IZR k + IZR k / IZR (w - 1)) by (rewrite D; field; lra).
  assert (F : 0 < IZR k / IZR (w - 1) < 1).
  { rewrite D. split; [apply Rdiv_lt_0_compat; lra|]. apply Rmult_lt_reg_r with (IZR w - 1); [lra|]. unfold Rdiv. rewrite Rmult_assoc, Rinv_l by lra. lra. }
  rewrite Rmult_1_r, Q in Kx. rewrite Rmin_left in Kx by lra. rewrite Rmult_0_r, Rminus_0_r in Ky. rewrite Rmin_left in Ky by lra.
  split; [assumption|]. split; [assumption|]. intros j Ej. rewrite Kx in Ej. assert (k < j < k + 1)%Z; [|lia].
  split; apply lt_IZR; rewrite ?plus_IZR; lra.
Qed.
(** More than 32767 rows: the band is taken elsewhere, and the profile does not
    depend on the row asked for. *)
Theorem C61_tall_refuted : forall spline, spline_local spline -> exists mat mat' index,
  (ih mat = 40000 /\ ih mat' = 40000 /\ iw mat = 3 /\ iw mat' = 3)%Z /\ index = 35000%Z /\
  (forall j, (0 <= j < 3)%Z -> px mat index j = 0 /\ px mat' index j = 1) /\
  exists p, tilted_profile spline mat (IZR index) 0 true = Ok p /\ tilted_profile spline mat' (IZR index) 0 true = Ok p.
Proof.
  intros spline [_ SL]. set (row := fun v : R => mkimg 40000 3 (fun i _ => if (i =? 35000)%Z then v else 0)).
  exists (row 0), (row 1), 35000%Z. split; [repeat split|]. split; [reflexivity|]. split; [intros j Hj; split; reflexivity|].
  assert (A : radians 0 = 0) by (unfold radians, Rdiv; ring). assert (R0 : Rabs 0 < 90) by (rewrite Rabs_R0; lra).
  assert (OK : forall v, hor_index_ok (ih (row v)) (iw (row v)) (radians 0) (IZR 35000)).
  { intros v. rewrite A. unfold hor_index_ok. destruct (Rlt_dec 0 0); [lra|]. rewrite Ropp_0, tan_0, Rmult_0_r, Zfloor_IZR. cbn [ih row]. change (40000 - 1 - 0)%Z with 39999%Z. lra. }
  assert (Y : forall v, map (fun k => clamp (hor_y (IZR 35000) (radians 0) (along (iw (row v)) (radians 0) k)) 0 (IZR (ih (row v) - 1))) (zrange 0 (iw (row v))) = [IZR 35000; IZR 35000; IZR 35000]).
  { intros v. rewrite A. change (iw (row v)) with 3%Z. change (zrange 0 3) with [0; 1; 2]%Z. cbn [map].
    assert (G : forall k, clamp (hor_y (IZR 35000) 0 (along 3 0 k)) 0 (IZR (ih (row v) - 1)) = IZR 35000).
    { intros k. unfold hor_y. rewrite sin_0, Rmult_0_r, Rminus_0_r. cbn [ih row]. change (40000 - 1)%Z with 39999%Z. unfold clamp. rewrite Rmin_left by lra. apply Rmax_right. lra. }
    now rewrite !G. }
  assert (C : crop_range [IZR 35000; IZR 35000; IZR 35000] = Ok (-30536, -30535)%Z).
  { unfold crop_range. destruct (namin _) as [mn|e] eqn:Em; [|discriminate]. destruct (namax _) as [mx|e] eqn:EM; [|discriminate].
    unfold Rex in Em, EM. apply namin_spec in Em. apply namax_spec in EM. destruct Em as [I1 _], EM as [I2 _].
    assert (mn = IZR 35000) by (cbn [In] in I1; lra). assert (mx = IZR 35000) by (cbn [In] in I2; lra). subst mn mx.
    cbn [bind]. cbn [nfloor nceil Rex Rnum]. rewrite Zfloor_IZR, Zceil_IZR. reflexivity. }
  rewrite !hor_ok by (first [exact R0|apply OK|cbn [ih iw row]; lia]). cbn zeta. rewrite !Y, C. cbn [bind]. eexists. split; [reflexivity|].
  do 2 f_equal. apply SL. unfold row_slice. cbn [ih iw row]. change (slice_bound 40000 (-30536)) with 9464%Z. change (slice_bound 40000 (-30535)) with 9465%Z.
  split; [reflexivity|]. split; [reflexivity|]. intros i j [Hi Hj]. unfold row in *. cbn [ih iw px] in *. destruct (Z.eqb_spec (9464 + i) 35000); [lia|reflexivity].
Qed.

(** A nearest-pixel routine meets the conditions on the interpolation. *)
Definition nearest_px (m : image R) (p : R * R) : R :=
  let i := Zfloor (fst p) in let j := Zfloor (snd p) in
  if ((0 <=? i) && (i <? ih m) && ((0 <=? j) && (j <? iw m)))%Z%bool then px m i j else 0.
Definition nearest (m : image R) (ps : list (R * R)) : list R := map (nearest_px m) ps.
Lemma nearest_ok : spline_local nearest /\ spline_exact nearest.
Proof.
  split; [split|].
  - intros m ps. apply map_length.
  - intros m m' ps (E1 & E2 & E3). apply map_ext. intros p. unfold nearest_px. rewrite <- E1, <- E2.
    destruct (_ && _)%bool eqn:B; [|reflexivity]. apply Bool.andb_true_iff in B. destruct B as [B1 B2]. apply Bool.andb_true_iff in B1, B2.
    apply E3. split; lia.
  - intros m ps k i j [Hi Hj] H. unfold nearest. rewrite nth_error_map, H. cbn [option_map]. unfold nearest_px. cbn [fst snd]. rewrite !Zfloor_IZR.
    destruct (Z.leb_spec 0 i); [|lia]. destruct (Z.ltb_spec i (ih m)); [|lia]. destruct (Z.leb_spec 0 j); [|lia]. destruct (Z.ltb_spec j (iw m)); [|lia]. reflexivity.
Qed.
(** 45 degrees in an image of 6 rows and 4 columns: only index 4 and 5. *)
Example C61_ex : forall f, let mat := mkimg 6 4 f in
  (exists p, tilted_profile nearest mat 5 45 true = Ok p) /\ tilted_profile nearest mat 3 45 true = Err ValueError /\
  (exists p, tilted_profile nearest mat 1 (-45) true = Ok p) /\ tilted_profile nearest mat 2 (-45) true = Err ValueError.
Proof.
  intros f mat. assert (A : radians 45 = PI / 4) by (unfold radians; field). assert (B : radians (-45) = - (PI / 4)) by (unfold radians; field).
  assert (T : tan (PI / 4) = 1) by (unfold tan; rewrite sin_cos_PI4; apply Rinv_r; rewrite cos_PI4; apply Rgt_not_eq; apply Rdiv_lt_0_compat; [lra|apply sqrt_lt_R0; lra]).
  pose proof PI_RGT_0 as P0.
  assert (D1 : Rabs 45 < 90) by (rewrite Rabs_pos_eq; lra). assert (D2 : Rabs (-45) < 90) by (rewrite Rabs_left1; lra).
  assert (H1 : (1 <= ih mat <= 32767)%Z) by (cbn; lia). assert (H2 : (1 <= iw mat <= 32767)%Z) by (cbn; lia).
  assert (E1 : forall index, hor_index_ok 6 4 (radians 45) index <-> 4 <= index <= 5).
  { intros index. rewrite A. unfold hor_index_ok. destruct (Rlt_dec 0 (PI / 4)); [|lra]. rewrite T, Rmult_1_r, Zceil_IZR. reflexivity. }
  assert (E2 : forall index, hor_index_ok 6 4 (radians (-45)) index <-> 0 <= index <= 1).
  { intros index. rewrite B. unfold hor_index_ok. destruct (Rlt_dec 0 (- (PI / 4))); [lra|]. rewrite Ropp_involutive, T, Rmult_1_r, Zfloor_IZR. reflexivity. }
  split; [|split; [|split]].
  - apply (C61_accepted nearest mat 5 45 true H1 H2 D1). apply E1. lra.
  - apply (C61_accepted nearest mat 3 45 true H1 H2 D1). intros H. apply E1 in H. lra.
  - apply (C61_accepted nearest mat 1 (-45) true H1 H2 D2). apply E2. lra.
  - apply (C61_accepted nearest mat 2 (-45) true H1 H2 D2). intros H. apply E2 in H. lra.
Qed.
Print Assumptions C61_accepted.
Print Assumptions C61_right_angle.
Print Assumptions C61_out_of_range.
Print Assumptions C61_horizontal.
Print Assumptions C61_vertical.
Print Assumptions C61_band_horizontal.
Print Assumptions C61_band_vertical.
Print Assumptions C61_pixels.
Print Assumptions C61_row_not_sampled.
Print Assumptions C61_tall_refuted.
