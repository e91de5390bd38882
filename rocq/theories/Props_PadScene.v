(** C131: a padded photograph, gray or coloured, shows the scene in the larger
    frame.  Vocabulary: Props_Scene.v ([photograph], [steep], [seen_through],
    [on_detector]), Props_Pad.v ([in_frame]). *)
From Coq Require Import Reals ZArith List Lra Lia.
From Flocq Require Import Core.
From Verif Require Import Base Num NumFacts Spec Img Post PostImg Util UtilFacts UtilFacts2 Props_Util Props_Pad RoundFacts Props_Round Props_Scene.
From Verif Require Props_Noise Props_Slice.
Import ListNotations.
Local Open Scope R_scope.

(** Moving the centre and the point by the same amounts moves the result. *)
Lemma map_shifted fact yc xc t l y x : radial_map fact (yc + t, xc + l) (y + t, x + l) = (py (radial_map fact (yc, xc) (y, x)) + t, pxc (radial_map fact (yc, xc) (y, x)) + l).
Proof.
  unfold radial_map, padd, pscale, psub, dist, py, pxc. cbn [fst snd].
  replace (y + t - (yc + t)) with (y - yc) by ring. replace (x + l - (xc + l)) with (x - xc) by ring. apply f_equal2; ring.
Qed.
(** Interpolation inside a part of the picture only reads that part. *)
Lemma sample_local a b t l h w y x : ih a = ih b -> iw a = iw b ->
  IZR t <= y <= IZR (t + h - 1) -> IZR l <= x <= IZR (l + w - 1) ->
  (forall i j, in_img a i j -> (t <= i < t + h)%Z -> (l <= j < l + w)%Z -> px a i j = px b i j) -> lin_sample a y x = lin_sample b y x.
Proof.
  intros Eh Ew Hy Hx H. unfold lin_sample. rewrite <- Eh, <- Ew. apply sumZ_ext. intros i Hi. apply sumZ_ext. intros j Hj.
  assert (O : forall lo n z k, IZR lo <= z <= IZR (lo + n - 1) -> ~ (lo <= k < lo + n)%Z -> tent (z - IZR k) = 0).
  { intros lo n z k Hz Hk. apply tent_out. destruct (Z_lt_le_dec k lo) as [K|K].
    - assert (IZR k <= IZR lo - 1) by (rewrite <- minus_IZR; apply IZR_le; lia). rewrite Rabs_pos_eq; lra.
    - assert (IZR (lo + n - 1) + 1 <= IZR k) by (rewrite <- plus_IZR; apply IZR_le; lia). rewrite Rabs_left1; lra. }
  destruct (Z_le_dec t i) as [A1|A1]; [|rewrite (O t h y i Hy) by lia; ring]. destruct (Z_lt_dec i (t + h)) as [A2|A2]; [|rewrite (O t h y i Hy) by lia; ring].
  destruct (Z_le_dec l j) as [B1|B1]; [|rewrite (O l w x j Hx) by lia; ring]. destruct (Z_lt_dec j (l + w)) as [B2|B2]; [|rewrite (O l w x j Hx) by lia; ring].
  rewrite H; [reflexivity|split; assumption|lia|lia].
Qed.
Lemma f32_between n a x : (0 <= a)%Z -> (a + n - 1 <= 2 ^ 24 - 1)%Z -> (1 <= n)%Z -> IZR a <= x <= IZR (a + n - 1) -> IZR a <= f32 x <= IZR (a + n - 1).
Proof.
  intros Ha Hn N [H1 H2]. change (2 ^ 24)%Z with 16777216%Z in Hn. split; [rewrite <- (Props_Slice.single_int a) by lia|rewrite <- (Props_Slice.single_int (a + n - 1)) by lia]; now apply Props_Slice.f32_mono.
Qed.

(** How far the corrected picture may differ from the scene: the change of
    brightness over one pixel, and over the rounding of the stored single
    precision positions in a frame of H by W pixels. *)
Definition tolerance (L : R) (H W : Z) : R := L * (1 + (two (-24) * IZR (H + W) + 2 * two (-150))).

Lemma shown m m' light scene L xc yc fact t b l r padv :
  (0 <= t)%Z -> (0 <= b)%Z -> (0 <= l)%Z -> (0 <= r)%Z -> (0 < ih m)%Z -> (0 < iw m)%Z -> (ih m + t + b <= 2 ^ 24)%Z -> (iw m + l + r <= 2 ^ 24)%Z ->
  padded padv m (t, b, l, r) m' -> 0 <= L -> steep L light -> photograph m light -> seen_through (radial_map fact (yc, xc)) scene light ->
  forall i j, let q := (IZR (i - t), IZR (j - l)) in on_detector m (radial_map fact (yc, xc) q) ->
    Rabs (px (@unwarp_image_backward R Rex (@bilinear R Rex) m' (xc + IZR l) (yc + IZR t) fact) i j - scene q) <= tolerance L (ih m + t + b) (iw m + l + r).
Proof.
  intros Ht Hb Hl Hr Hh Hw Bh Bw (Ph & Pw & Pin & _) HL St Ph' Se i j q D. change (2 ^ 24)%Z with 16777216%Z in Bh, Bw.
  destruct (Props_Noise.backward_sampled (fun x => x) m' (xc + IZR l) (yc + IZR t) fact ltac:(change (2 ^ 24)%Z with 16777216%Z; lia) ltac:(change (2 ^ 24)%Z with 16777216%Z; lia) i j) as (E & Ry & Rx).
  change (Rnum (fun x => x)) with Rex in *. rewrite E.
  destruct (radial_map fact (yc, xc) q) as [y x] eqn:Q. unfold on_detector, py, pxc in D. cbn [fst snd] in D. destruct D as [Dy Dx].
  assert (P : radial_map fact (yc + IZR t, xc + IZR l) (zpt i j) = (y + IZR t, x + IZR l)).
  { unfold zpt. replace (IZR i) with (IZR (i - t) + IZR t) by (rewrite minus_IZR; ring). replace (IZR j) with (IZR (j - l) + IZR l) by (rewrite minus_IZR; ring). rewrite map_shifted. unfold q in Q. rewrite Q. reflexivity. }
  assert (Iy : IZR t <= y + IZR t <= IZR (t + ih m - 1)) by (replace (t + ih m - 1)%Z with (ih m - 1 + t)%Z by ring; rewrite plus_IZR; lra).
  assert (Ix : IZR l <= x + IZR l <= IZR (l + iw m - 1)) by (replace (l + iw m - 1)%Z with (iw m - 1 + l)%Z by ring; rewrite plus_IZR; lra).
  assert (Lt : 0 <= IZR t) by (apply IZR_le; lia). assert (Ll : 0 <= IZR l) by (apply IZR_le; lia).
  assert (Uy : IZR (t + ih m - 1) <= IZR (ih m' - 1)) by (apply IZR_le; lia). assert (Ux : IZR (l + iw m - 1) <= IZR (iw m' - 1)) by (apply IZR_le; lia).
  assert (Ey : @coord_y R Rex (xc + IZR l) (yc + IZR t) fact (ih m') i j = f32 (y + IZR t)).
  { unfold coord_y. rewrite map_y_R, P. change Rex with (Rnum (fun x => x)). cbn [nf32 nofZ Rnum]. rewrite nclip_R by (apply IZR_le; lia). unfold clamp, py. cbn [fst]. rewrite Rmin_left by lra. rewrite Rmax_right by lra. reflexivity. }
  assert (Ex : @coord_x R Rex (xc + IZR l) (yc + IZR t) fact (iw m') i j = f32 (x + IZR l)).
  { unfold coord_x. rewrite map_x_R, P. change Rex with (Rnum (fun x => x)). cbn [nf32 nofZ Rnum]. rewrite nclip_R by (apply IZR_le; lia). unfold clamp, pxc. cbn [snd]. rewrite Rmin_left by lra. rewrite Rmax_right by lra. reflexivity. }
  rewrite Ey, Ex in *. clear Ey Ex.
  assert (Fy : IZR t <= f32 (y + IZR t) <= IZR (t + ih m - 1)) by (apply f32_between; [exact Ht|change (2 ^ 24)%Z with 16777216%Z; lia|lia|exact Iy]).
  assert (Fx : IZR l <= f32 (x + IZR l) <= IZR (l + iw m - 1)) by (apply f32_between; [exact Hl|change (2 ^ 24)%Z with 16777216%Z; lia|lia|exact Ix]).
  set (light' := fun p : pt => light (py p - IZR t, pxc p - IZR l)).
  set (full := mkimg (ih m') (iw m') (fun i j => light' (IZR i, IZR j))).
  rewrite (sample_local m' full t l (ih m) (iw m) _ _ eq_refl eq_refl Fy Fx).
  2:{ intros i' j' I Hi Hj. specialize (Pin (i' - t)%Z (j' - l)%Z ltac:(unfold in_img; lia)). replace (i' - t + t)%Z with i' in Pin by ring. replace (j' - l + l)%Z with j' in Pin by ring. rewrite Pin.
      rewrite Ph' by (unfold in_img; lia). unfold full, light', py, pxc. cbn [px fst snd]. now rewrite !minus_IZR. }
  assert (St' : steep L light').
  { intros p p'. unfold light'. eapply Rle_trans; [apply St|]. apply Req_le. unfold py, pxc. cbn [fst snd]. f_equal. f_equal; f_equal; ring. }
  pose proof (sample_steep full light' L HL (fun i j _ => eq_refl) St' ltac:(cbn; lia) ltac:(cbn; lia) (f32 (y + IZR t)) (f32 (x + IZR l))) as S1.
  specialize (S1 ltac:(unfold on_detector, py, pxc; cbn [fst snd full ih iw]; split; lra)).
  pose proof (St' (y + IZR t, x + IZR l) (f32 (y + IZR t), f32 (x + IZR l))) as S2. unfold py, pxc in S2. cbn [fst snd] in S2.
  pose proof (single_err (y + IZR t)) as Ry'. pose proof (single_err (x + IZR l)) as Rx'. change (bpow radix2 (-24)) with (two (-24)) in *. change (bpow radix2 (-150)) with (two (-150)) in *.
  assert (T0 : 0 <= two (-24)) by (apply bpow_ge_0). assert (T1 : 0 <= two (-150)) by (apply bpow_ge_0).
  rewrite (Rabs_pos_eq (y + IZR t)) in Ry' by lra. rewrite (Rabs_pos_eq (x + IZR l)) in Rx' by lra.
  assert (Sc : light' (y + IZR t, x + IZR l) = scene q).
  { unfold light', py, pxc. cbn [fst snd]. replace (y + IZR t - IZR t) with y by ring. replace (x + IZR l - IZR l) with x by ring. rewrite <- (Se q), Q. reflexivity. }
  rewrite Sc in S2. unfold tolerance.
  replace (lin_sample full (f32 (y + IZR t)) (f32 (x + IZR l)) - scene q) with ((lin_sample full (f32 (y + IZR t)) (f32 (x + IZR l)) - light' (f32 (y + IZR t), f32 (x + IZR l))) + (light' (f32 (y + IZR t), f32 (x + IZR l)) - scene q)) by ring.
  eapply Rle_trans; [apply Rabs_triang|]. rewrite Rmult_plus_distr_l, Rmult_1_r. apply Rplus_le_compat; [exact S1|]. eapply Rle_trans; [exact S2|]. apply Rmult_le_compat_l; [exact HL|].
  assert (Hyx : y + IZR t + (x + IZR l) <= IZR (ih m + t + b + (iw m + l + r))).
  { assert (Z1 : IZR (t + ih m - 1 + (l + iw m - 1)) <= IZR (ih m + t + b + (iw m + l + r))) by (apply IZR_le; lia). rewrite plus_IZR in Z1. lra. }
  apply Rmult_le_compat_l with (r := two (-24)) in Hyx; [|exact T0]. lra.
Qed.

(** Gray photographs. *)
Theorem C131_gray : forall padv transform m light scene L xc yc fact pad t b l r,
  @calc_pad R Rex transform pad (ih m) (iw m) xc yc fact = Ok (t, b, l, r) -> (0 <= t)%Z -> (0 <= b)%Z -> (0 <= l)%Z -> (0 <= r)%Z ->
  (0 < ih m)%Z -> (0 < iw m)%Z -> (ih m + t + b <= 2 ^ 24)%Z -> (iw m + l + r <= 2 ^ 24)%Z ->
  0 <= L -> steep L light -> photograph m light -> seen_through (radial_map fact (yc, xc)) scene light ->
  exists out, @unwarp_color_image_backward R Rex (@bilinear R Rex) padv transform (Gray m) xc yc fact pad = Ok (Gray out) /\
    ih out = (ih m + t + b)%Z /\ iw out = (iw m + l + r)%Z /\
    forall i j, in_img out i j -> let q := (IZR (i - t), IZR (j - l)) in on_detector m (radial_map fact (yc, xc) q) ->
      Rabs (px out i j - scene q) <= tolerance L (ih out) (iw out).
Proof.
  intros padv transform m light scene L xc yc fact pad t b l r E Ht Hb Hl Hr Hh Hw Bh Bw HL St Ph Se.
  destruct (@color_gray R Rex (@bilinear R Rex) padv transform m xc yc fact pad t b l r E Ht Hb Hl Hr) as (m' & P & ->). eexists. split; [reflexivity|].
  pose proof P as (P1 & P2 & _). split; [exact P1|]. split; [exact P2|]. intros i j I q D. cbn [unwarp_image_backward ih iw]. rewrite P1, P2.
  exact (shown m m' light scene L xc yc fact t b l r padv Ht Hb Hl Hr Hh Hw Bh Bw P HL St Ph Se i j D).
Qed.
Print Assumptions C131_gray.
(** Colour photographs: every channel. *)
Theorem C131_colour : forall padv transform m light scene L xc yc fact pad t b l r,
  @calc_pad R Rex transform pad (ch m) (cw m) xc yc fact = Ok (t, b, l, r) -> (0 <= t)%Z -> (0 <= b)%Z -> (0 <= l)%Z -> (0 <= r)%Z -> (0 < cc m)%Z ->
  (0 < ch m)%Z -> (0 < cw m)%Z -> (ch m + t + b <= 2 ^ 24)%Z -> (cw m + l + r <= 2 ^ 24)%Z -> 0 <= L ->
  (forall k, (0 <= k < cc m)%Z -> steep L (light k) /\ photograph (channel m k) (light k) /\ seen_through (radial_map fact (yc, xc)) (scene k) (light k)) ->
  exists out, @unwarp_color_image_backward R Rex (@bilinear R Rex) padv transform (Color m) xc yc fact pad = Ok (Color out) /\
    cc out = cc m /\ ch out = (ch m + t + b)%Z /\ cw out = (cw m + l + r)%Z /\
    forall i j k, (0 <= i < ch out)%Z -> (0 <= j < cw out)%Z -> (0 <= k < cc out)%Z -> let q := (IZR (i - t), IZR (j - l)) in
      on_detector (channel m k) (radial_map fact (yc, xc) q) ->
      Rabs (px (channel out k) i j - scene k q) <= tolerance L (ch out) (cw out).
Proof.
  intros padv transform m light scene L xc yc fact pad t b l r E Ht Hb Hl Hr Hc Hh Hw Bh Bw HL H.
  destruct (@C22_channels R Rex (@bilinear R Rex) padv transform m xc yc fact pad t b l r E Ht Hb Hl Hr Hc) as (out & Eo & Ec & Eh & Ew & K).
  exists out. split; [exact Eo|]. split; [exact Ec|]. split; [exact Eh|]. split; [exact Ew|]. intros i j k Hi Hj Hk q D.
  destruct (H k ltac:(lia)) as (St & Ph & Se).
  destruct (C131_gray padv transform (channel m k) (light k) (scene k) L xc yc fact pad t b l r E Ht Hb Hl Hr Hh Hw Bh Bw HL St Ph Se) as (o & Eo' & O1 & O2 & O).
  rewrite (K k) in Eo'. injection Eo' as <-. specialize (O i j ltac:(split; assumption) D). exact O.
Qed.
Print Assumptions C131_colour.
(** Automatic padding with the exact inverse model: what every pixel of the
    photograph shows is a point of the scene whose place is in the frame. *)
Theorem C131_nothing_lost : forall transform m light scene xc yc fact tfact R0,
  transform fact = Ok tfact -> 0 <= xc <= IZR (iw m - 1) -> 0 <= yc <= IZR (ih m - 1) ->
  far_corner (ih m) (iw m) (yc, xc) R0 -> (forall r, 0 <= r <= R0 -> 0 <= poly tfact r) -> growing tfact R0 \/ shrinking tfact R0 ->
  (forall i j, in_img m i j -> radial_map fact (yc, xc) (radial_map tfact (yc, xc) (IZR i, IZR j)) = (IZR i, IZR j)) ->
  photograph m light -> seen_through (radial_map fact (yc, xc)) scene light ->
  exists t b l r, @calc_pad R Rex transform (PadBool true) (ih m) (iw m) xc yc fact = Ok (t, b, l, r) /\
    forall i j, in_img m i j -> exists q, in_frame (ih m) (iw m) t b l r q /\ radial_map fact (yc, xc) q = (IZR i, IZR j) /\ scene q = px m i j.
Proof.
  intros transform m light scene xc yc fact tfact R0 Ht Hx Hy Far HF HG Inv Ph Se.
  destruct (C116_kept transform (ih m) (iw m) xc yc fact tfact R0 Ht Hx Hy Far HF HG) as (t & b & l & r & E & K). exists t, b, l, r. split; [exact E|].
  intros i j I. exists (radial_map tfact (yc, xc) (IZR i, IZR j)). destruct I as [I1 I2]. split; [now apply K|]. split; [apply Inv; split; assumption|].
  rewrite <- (Se _), Inv by (split; assumption). symmetry. apply Ph. split; assumption.
Qed.
Print Assumptions C131_nothing_lost.

(** *** Cases *)
Lemma half_map c yc xc y x : radial_map [c] (yc, xc) (y, x) = (yc + c * (y - yc), xc + c * (x - xc)).
Proof.
  unfold radial_map, padd, pscale, psub, py, pxc. cbn [fst snd]. replace (poly [c] _) with c by (cbn [poly]; ring). reflexivity.
Qed.
(** Three by three pixels seen through a lens that halves all distances, with
    one pixel of padding on every side. *)
Definition slope_light (p : pt) : R := py p.
Definition slope_img : image R := mkimg 3 3 (fun i _ => IZR i).
Lemma slope_steep : steep 1 slope_light.
Proof. intros p q. unfold slope_light. rewrite Rmult_1_l. pose proof (Rabs_pos (pxc q - pxc p)). lra. Qed.
Example C131_gray_ex : exists out, @unwarp_color_image_backward R Rex (@bilinear R Rex) (fun _ _ _ _ => 99) (fun f => Ok f) (Gray slope_img) 1 1 [1 / 2] (PadSeq [1; 1; 1; 1]%Z) = Ok (Gray out) /\
  ih out = 5%Z /\ iw out = 5%Z /\ forall i j, in_img out i j -> Rabs (px out i j - (IZR (i - 1) + 1) / 2) <= tolerance 1 5 5.
Proof.
  destruct (C131_gray (fun _ _ _ _ => 99) (fun f => Ok f) slope_img slope_light (fun q => slope_light (radial_map [1 / 2] (1, 1) q)) 1 1 1 [1 / 2] (PadSeq [1; 1; 1; 1]%Z) 1 1 1 1) as (out & E & H & W & K); try (cbn; lia); try (cbn; lra).
  - reflexivity.
  - exact slope_steep.
  - intros i j _. reflexivity.
  - intros q. reflexivity.
  - exists out. split; [exact E|]. cbn in H, W. split; [exact H|]. split; [exact W|]. intros i j I. rewrite H, W in K.
    assert (B1 : IZR (-1) <= IZR (i - 1) <= IZR 3) by (split; apply IZR_le; unfold in_img in I; lia). assert (B2 : IZR (-1) <= IZR (j - 1) <= IZR 3) by (split; apply IZR_le; unfold in_img in I; lia).
    specialize (K i j I). cbv zeta in K. rewrite half_map in K. unfold slope_light, on_detector, py, pxc in K. cbn [fst snd slope_img ih iw] in K.
    replace ((IZR (i - 1) + 1) / 2) with (1 + 1 / 2 * (IZR (i - 1) - 1)) by field. apply K. change (3 - 1)%Z with 2%Z. split; lra.
Qed.
(** The same in colour. *)
Example C131_colour_ex : exists out, @unwarp_color_image_backward R Rex (@bilinear R Rex) (fun _ _ _ _ => 99) (fun f => Ok f) (Color (mkcimg 3 3 2 (fun i _ k => IZR k + IZR i))) 1 1 [1 / 2] (PadSeq [1; 1; 1; 1]%Z) = Ok (Color out) /\
  cc out = 2%Z /\ ch out = 5%Z /\ cw out = 5%Z /\ forall k, (0 <= k < 2)%Z -> Rabs (px (channel out k) 0 0 - IZR k) <= tolerance 1 5 5.
Proof.
  destruct (C131_colour (fun _ _ _ _ => 99) (fun f => Ok f) (mkcimg 3 3 2 (fun i _ k => IZR k + IZR i)) (fun k p => IZR k + py p) (fun k q => IZR k + py (radial_map [1 / 2] (1, 1) q)) 1 1 1 [1 / 2] (PadSeq [1; 1; 1; 1]%Z) 1 1 1 1) as (out & E & C & H & W & K); try (cbn; lia); try (cbn; lra).
  - reflexivity.
  - intros k Hk. split; [|split].
    + intros p q. rewrite Rmult_1_l. replace (IZR k + py q - (IZR k + py p)) with (py q - py p) by ring. pose proof (Rabs_pos (pxc q - pxc p)). lra.
    + intros i j _. reflexivity.
    + intros q. reflexivity.
  - exists out. split; [exact E|]. cbn in C, H, W. split; [exact C|]. split; [exact H|]. split; [exact W|]. intros k Hk. rewrite C, H, W in K.
    specialize (K 0 0 k ltac:(lia) ltac:(lia) ltac:(lia))%Z. cbv zeta in K. change (0 - 1)%Z with (-1)%Z in K. rewrite half_map in K. unfold on_detector, py, pxc in K. cbn [fst snd channel ih iw ch cw] in K.
    replace (IZR k) with (IZR k + (1 + 1 / 2 * (-1 - 1))) by field. apply K. change (3 - 1)%Z with 2%Z. split; lra.
Qed.
(** Automatic padding for the same lens. *)
Example C131_nothing_lost_ex : exists t b l r, @calc_pad R Rex (fun _ => Ok [2]) (PadBool true) 3 3 1 1 [1 / 2] = Ok (t, b, l, r) /\
  forall i j, in_img slope_img i j -> exists q, in_frame 3 3 t b l r q /\ radial_map [1 / 2] (1, 1) q = (IZR i, IZR j) /\ py (radial_map [1 / 2] (1, 1) q) = IZR i.
Proof.
  apply (C131_nothing_lost (fun _ => Ok [2]) slope_img slope_light (fun q => slope_light (radial_map [1 / 2] (1, 1) q)) 1 1 [1 / 2] [2] 2); try (cbn; lra).
  - reflexivity.
  - intros row col Hr Hc. unfold dist, py, pxc. cbn [fst snd]. replace 2 with (sqrt 4) at 1 by (replace 4 with (2 * 2) by ring; apply sqrt_square; lra). apply sqrt_le_1_alt.
    destruct Hr as [-> | ->], Hc as [-> | ->]; cbn; lra.
  - intros r _. cbn [poly]. lra.
  - left. intros r s _ _ _. cbn [poly]. lra.
  - intros i j I. rewrite !half_map. apply f_equal2; field.
  - intros i j _. reflexivity.
  - intros q. reflexivity.
Qed.
