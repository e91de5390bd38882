(** C127: A corrected slice is as good as the corrected pictures. *)
From Coq Require Import Reals ZArith List Lra Lia.
From Flocq Require Import Core.
From Verif Require Import Base Num Img Post Spec NumFacts PostImg RoundFacts Props_Post Props_Round Props_Scene Props_Noise Props_Chunk Props_HeldImage.
Import ListNotations.
Local Open Scope R_scope.

(** *** Specification *)
(** All pixels of all pictures lie between lo and hi. *)
Definition values_in (v : volume R) (lo hi : R) : Prop :=
  forall i k j, (0 <= i < vd v)%Z -> (0 <= k < vh v)%Z -> (0 <= j < vw v)%Z -> lo <= vx v i k j <= hi.
(** Neighbouring pixels of each picture differ by at most L. *)
Definition pictures_smooth (L : R) (v : volume R) : Prop := forall i, (0 <= i < vd v)%Z -> smooth L (vplane v i).
(** What single precision of stored positions and values can change. *)
Definition single_error (L M : R) (h w : Z) : R := two (-24) * M + two (-150) + L * (two (-24) * IZR (h + w - 2) + 2 * two (-150)).

(** *** Facts *)
Lemma sample_range m y x lo hi : (0 < ih m)%Z -> (0 < iw m)%Z -> 0 <= y <= IZR (ih m - 1) -> 0 <= x <= IZR (iw m - 1) ->
  (forall i j, in_img m i j -> lo <= px m i j <= hi) -> lo <= lin_sample m y x <= hi.
Proof.
  intros Hh Hw Hy Hx H.
  assert (C : forall c, lin_sample (mkimg (ih m) (iw m) (fun _ _ => c)) y x = c).
  { intros c. unfold lin_sample. cbn [ih iw px].
    transitivity (sumZ (ih m) (fun i => tent (y - IZR i) * c)).
    - apply sumZ_ext. intros i _. transitivity (sumZ (iw m) (fun j => (tent (y - IZR i) * c) * tent (x - IZR j))); [apply sumZ_ext; intros; ring|].
      rewrite sumZ_scal, tent_sum by assumption. ring.
    - transitivity (sumZ (ih m) (fun i => c * tent (y - IZR i))); [apply sumZ_ext; intros; ring|]. rewrite sumZ_scal, tent_sum by assumption. ring. }
  split.
  - rewrite <- (C lo). replace (lin_sample m y x) with (lin_sample m y x + 0) by ring. apply (sample_below (mkimg (ih m) (iw m) (fun _ _ => lo)) m); try assumption; [now split|].
    intros k l Hkl _ _. cbn [px]. rewrite Rplus_0_r. now apply H.
  - rewrite <- (C hi). replace (lin_sample (mkimg (ih m) (iw m) (fun _ _ => hi)) y x) with (lin_sample (mkimg (ih m) (iw m) (fun _ _ => hi)) y x + 0) by ring. apply (sample_below m (mkimg (ih m) (iw m) (fun _ _ => hi))); try assumption; [now split|].
    intros k l Hkl _ _. cbn [px]. rewrite Rplus_0_r. now apply H.
Qed.
Section Slice.
  Variables (rnd : R -> R) (v : volume R) (xc yc : R) (fact : list R) (index : Z).
  Hypotheses (Hr : exact_or_double rnd) (Hh : (0 < vh v <= 32767)%Z) (Hw : (0 < vw v <= 2 ^ 24 + 1)%Z) (Hd : (0 <= vd v)%Z).
  Local Definition sY j := clamp (@map_y R (Rnum rnd) xc yc fact index j) 0 (IZR (vh v - 1)).
  Local Definition sX j := clamp (@map_x R (Rnum rnd) xc yc fact index j) 0 (IZR (vw v - 1)).
  Lemma slice_sampled : exists out, @unwarp_slice_backward R (Rnum rnd) (@bilinear R Rex) v xc yc fact index = Ok out /\ ih out = vd v /\ iw out = vw v /\
    forall i j, (0 <= i < vd v)%Z -> (0 <= j < vw v)%Z ->
      px out i j = f32 (lin_sample (vplane v i) (sY j) (sX j)) /\ 0 <= sY j <= IZR (vh v - 1) /\ 0 <= sX j <= IZR (vw v - 1) /\
      px (@unwarp_image_backward R (Rnum rnd) (@bilinear R Rex) (vplane v i) xc yc fact) index j = lin_sample (vplane v i) (f32 (sY j)) (f32 (sX j)) /\
      0 <= f32 (sY j) <= IZR (vh v - 1) /\ 0 <= f32 (sX j) <= IZR (vw v - 1).
  Proof.
    destruct (C08_slice_double rnd v xc yc fact index Hr Hh ltac:(lia) Hd) as [out [E [S1 [S2 P]]]].
    exists out. split; [exact E|]. split; [exact S1|]. split; [exact S2|]. intros i j Hi Hj.
    assert (Ph : 0 <= IZR (vh v - 1)) by (apply IZR_le; lia). assert (Pw : 0 <= IZR (vw v - 1)) by (apply IZR_le; lia).
    split; [exact (P i j Hi Hj)|]. split; [now apply clamp_range|]. split; [now apply clamp_range|].
    destruct (backward_sampled rnd (vplane v i) xc yc fact ltac:(cbn; lia) ltac:(cbn; lia) index j) as [B [B1 B2]].
    change (ih (vplane v i)) with (vh v) in *. change (iw (vplane v i)) with (vw v) in *.
    assert (EY : @coord_y R (Rnum rnd) xc yc fact (vh v) index j = f32 (sY j)) by (unfold coord_y, sY; cbn [nf32 nofZ Rnum]; now rewrite nclip_R).
    assert (EX : @coord_x R (Rnum rnd) xc yc fact (vw v) index j = f32 (sX j)) by (unfold coord_x, sX; cbn [nf32 nofZ Rnum]; now rewrite nclip_R).
    rewrite EY in *. rewrite EX in *. split; [exact B|]. split; assumption.
  Qed.
End Slice.
Lemma f32_mono x y : x <= y -> f32 x <= f32 y.
Proof. intros H. apply round_le; [apply FLT_exp_valid; red; reflexivity|apply valid_rnd_N|exact H]. Qed.

(** *** C127 *)
(** A slice agrees with the row of the corrected pictures up to single
    precision. *)
Theorem C127_slice_image : forall rnd v xc yc fact index L M, exact_or_double rnd ->
  (0 < vh v <= 32767)%Z -> (0 < vw v <= 2 ^ 24 + 1)%Z -> (0 <= vd v)%Z -> 0 <= L -> pictures_smooth L v -> values_in v (- M) M ->
  exists out, @unwarp_slice_backward R (Rnum rnd) (@bilinear R Rex) v xc yc fact index = Ok out /\ ih out = vd v /\ iw out = vw v /\
    forall i j, (0 <= i < vd v)%Z -> (0 <= j < vw v)%Z ->
      Rabs (px out i j - px (@unwarp_image_backward R (Rnum rnd) (@bilinear R Rex) (vplane v i) xc yc fact) index j) <= single_error L M (vh v) (vw v).
Proof.
  intros rnd v xc yc fact index L M Hr Hh Hw Hd HL HS HM.
  destruct (slice_sampled rnd v xc yc fact index Hr Hh Hw Hd) as [out [E [S1 [S2 P]]]]. exists out. do 3 (split; [assumption|]). intros i j Hi Hj.
  destruct (P i j Hi Hj) as [Q1 [RY [RX [Q2 [FY FX]]]]]. rewrite Q1, Q2. set (Y := sY _ _ _ _ _ _ _) in *. set (X := sX _ _ _ _ _ _ _) in *.
  set (A := lin_sample (vplane v i) Y X). set (B := lin_sample (vplane v i) (f32 Y) (f32 X)).
  replace (f32 A - B) with ((f32 A - A) + (A - B)) by ring. eapply Rle_trans; [apply Rabs_triang|]. unfold single_error. apply Rplus_le_compat.
  - eapply Rle_trans; [apply single_err|]. apply Rplus_le_compat_r. apply Rmult_le_compat_l; [apply bpow_ge_0|].
    apply Rabs_le. apply (sample_range (vplane v i) Y X); cbn [vplane ih iw]; try lia; try assumption.
    intros a b [H1 H2]. cbn [vplane ih iw px] in *. apply HM; lia.
  - destruct (HS i Hi) as [Lv Lh]. eapply Rle_trans; [apply (image_lipschitz (vplane v i) L); cbn [vplane ih iw]; try lia; assumption|].
    apply Rmult_le_compat_l; [exact HL|]. pose proof (single_err Y) as EY. pose proof (single_err X) as EX. rewrite (Rabs_minus_sym Y), (Rabs_minus_sym X).
    rewrite (Rabs_pos_eq Y) in EY by lra. rewrite (Rabs_pos_eq X) in EX by lra. fold (two (-24)) in EY, EX. fold (two (-150)) in EY, EX.
    assert (T0 : 0 <= two (-24)) by apply bpow_ge_0.
    assert (two (-24) * Y <= two (-24) * IZR (vh v - 1)) by (apply Rmult_le_compat_l; lra).
    assert (two (-24) * X <= two (-24) * IZR (vw v - 1)) by (apply Rmult_le_compat_l; lra).
    replace (vh v + vw v - 2)%Z with ((vh v - 1) + (vw v - 1))%Z by lia. rewrite plus_IZR. lra.
Qed.
Print Assumptions C127_slice_image.
(** Correcting a slice alone or as a chunk of one slice. *)
Theorem C127_slice_chunk : forall rnd v xc yc fact index L M, exact_or_double rnd ->
  (0 < vh v <= 32767)%Z -> (0 < vw v <= 2 ^ 24 + 1)%Z -> (0 <= vd v)%Z -> (0 <= index < vh v)%Z -> 0 <= L -> pictures_smooth L v -> values_in v (- M) M ->
  exists out chunk, @unwarp_slice_backward R (Rnum rnd) (@bilinear R Rex) v xc yc fact index = Ok out /\
    @unwarp_chunk_slices_backward R (Rnum rnd) (@bilinear R Rex) v xc yc fact index index = Ok chunk /\
    ih out = vd chunk /\ iw out = vw chunk /\ vh chunk = 1%Z /\
    forall i j, (0 <= i < vd v)%Z -> (0 <= j < vw v)%Z -> Rabs (px out i j - vx chunk i 0 j) <= single_error L M (vh v) (vw v).
Proof.
  intros rnd v xc yc fact index L M Hr Hh Hw Hd Hi HL HS HM.
  destruct (C127_slice_image rnd v xc yc fact index L M Hr Hh Hw Hd HL HS HM) as [out [E [S1 [S2 P]]]].
  destruct (C119_one_slice rnd v xc yc fact index Hr ltac:(lia) Hw Hd Hi) as [ch [F [D1 [D2 [D3 Q]]]]].
  exists out, ch. split; [exact E|]. split; [exact F|]. split; [congruence|]. split; [congruence|]. split; [exact D2|].
  intros i j Ha Hb. rewrite Q by assumption. now apply P.
Qed.
Print Assumptions C127_slice_chunk.
(** No new extreme values appear, provided the limits exist in single
    precision. *)
Theorem C127_slice_range : forall rnd v xc yc fact index lo hi, exact_or_double rnd ->
  (0 < vh v <= 32767)%Z -> (0 < vw v <= 2 ^ 24 + 1)%Z -> (0 <= vd v)%Z -> values_in v lo hi -> f32 lo = lo -> f32 hi = hi ->
  exists out, @unwarp_slice_backward R (Rnum rnd) (@bilinear R Rex) v xc yc fact index = Ok out /\ ih out = vd v /\ iw out = vw v /\
    forall i j, (0 <= i < vd v)%Z -> (0 <= j < vw v)%Z -> lo <= px out i j <= hi.
Proof.
  intros rnd v xc yc fact index lo hi Hr Hh Hw Hd HM El Eh.
  destruct (slice_sampled rnd v xc yc fact index Hr Hh Hw Hd) as [out [E [S1 [S2 P]]]]. exists out. do 3 (split; [assumption|]). intros i j Hi Hj.
  destruct (P i j Hi Hj) as [Q1 [RY [RX _]]]. rewrite Q1, <- El, <- Eh.
  destruct (sample_range (vplane v i) (sY rnd v xc yc fact index j) (sX rnd v xc yc fact index j) lo hi) as [A B]; cbn [vplane ih iw]; try lia; try assumption.
  - intros a b [H1 H2]. cbn [vplane ih iw px] in *. apply HM; lia.
  - split; apply f32_mono; assumption.
Qed.
Print Assumptions C127_slice_range.
(** The brighter volume has the brighter slice, and volumes which differ by at
    most D have slices which differ by at most D and the rounding of the
    values. *)
Theorem C127_slice_noise : forall rnd v u xc yc fact index D M, exact_or_double rnd ->
  (0 < vh v <= 32767)%Z -> (0 < vw v <= 2 ^ 24 + 1)%Z -> (0 <= vd v)%Z -> vd u = vd v -> vh u = vh v -> vw u = vw v ->
  exists a b, @unwarp_slice_backward R (Rnum rnd) (@bilinear R Rex) v xc yc fact index = Ok a /\
    @unwarp_slice_backward R (Rnum rnd) (@bilinear R Rex) u xc yc fact index = Ok b /\
    ((forall i k j, (0 <= i < vd v)%Z -> (0 <= k < vh v)%Z -> (0 <= j < vw v)%Z -> vx v i k j <= vx u i k j) ->
     forall i j, (0 <= i < vd v)%Z -> (0 <= j < vw v)%Z -> px a i j <= px b i j) /\
    ((forall i k j, (0 <= i < vd v)%Z -> (0 <= k < vh v)%Z -> (0 <= j < vw v)%Z -> Rabs (vx v i k j - vx u i k j) <= D) ->
     values_in v (- M) M -> values_in u (- M) M ->
     forall i j, (0 <= i < vd v)%Z -> (0 <= j < vw v)%Z -> Rabs (px a i j - px b i j) <= D + 2 * (two (-24) * M + two (-150))).
Proof.
  intros rnd v u xc yc fact index D M Hr Hh Hw Hd U1 U2 U3.
  destruct (slice_sampled rnd v xc yc fact index Hr Hh Hw Hd) as [a [Ea [_ [_ P]]]].
  destruct (slice_sampled rnd u xc yc fact index Hr ltac:(lia) ltac:(lia) ltac:(lia)) as [b [Eb [_ [_ Q]]]].
  exists a, b. split; [exact Ea|]. split; [exact Eb|].
  assert (SY : forall j, sY rnd u xc yc fact index j = sY rnd v xc yc fact index j) by (intros j; unfold sY; now rewrite U2).
  assert (SX : forall j, sX rnd u xc yc fact index j = sX rnd v xc yc fact index j) by (intros j; unfold sX; now rewrite U3).
  assert (BL : forall E i j, (0 <= i < vd v)%Z -> (0 <= j < vw v)%Z -> (forall k l, (0 <= k < vh v)%Z -> (0 <= l < vw v)%Z -> vx v i k l <= vx u i k l + E) ->
    lin_sample (vplane v i) (sY rnd v xc yc fact index j) (sX rnd v xc yc fact index j) <= lin_sample (vplane u i) (sY rnd v xc yc fact index j) (sX rnd v xc yc fact index j) + E).
  { intros E i j Hi Hj H. destruct (P i j Hi Hj) as [_ [RY [RX _]]]. apply sample_below; cbn [vplane ih iw]; try lia; try assumption; [split; cbn [vplane ih iw]; congruence|].
    intros k l [H1 H2] _ _. cbn [vplane ih iw px] in *. apply H; lia. }
  assert (BR : forall E i j, (0 <= i < vd v)%Z -> (0 <= j < vw v)%Z -> (forall k l, (0 <= k < vh v)%Z -> (0 <= l < vw v)%Z -> vx u i k l <= vx v i k l + E) ->
    lin_sample (vplane u i) (sY rnd v xc yc fact index j) (sX rnd v xc yc fact index j) <= lin_sample (vplane v i) (sY rnd v xc yc fact index j) (sX rnd v xc yc fact index j) + E).
  { intros E i j Hi Hj H. destruct (P i j Hi Hj) as [_ [RY [RX _]]]. apply sample_below; cbn [vplane ih iw]; rewrite ?U2, ?U3; try lia; try assumption; [split; cbn [vplane ih iw]; congruence|].
    intros k l [H1 H2] _ _. cbn [vplane ih iw px] in *. apply H; lia. }
  split.
  - intros H i j Hi Hj. destruct (P i j Hi Hj) as [-> _]. destruct (Q i j ltac:(lia) ltac:(lia)) as [-> _]. rewrite SY, SX. apply f32_mono.
    rewrite <- (Rplus_0_r (lin_sample (vplane u i) _ _)). apply BL; try assumption. intros k l Hk Hl. rewrite Rplus_0_r. now apply H.
  - intros H Mv Mu i j Hi Hj. destruct (P i j Hi Hj) as [-> [RY [RX _]]]. destruct (Q i j ltac:(lia) ltac:(lia)) as [-> _]. rewrite SY, SX.
    specialize (BL D i j Hi Hj). specialize (BR D i j Hi Hj). set (Y := sY _ _ _ _ _ _ _) in *. set (X := sX _ _ _ _ _ _ _) in *.
    assert (B1 : lin_sample (vplane v i) Y X <= lin_sample (vplane u i) Y X + D).
    { apply BL. intros k l Hk Hl. specialize (H i k l Hi Hk Hl). apply Rabs_le_inv in H. lra. }
    assert (B2 : lin_sample (vplane u i) Y X <= lin_sample (vplane v i) Y X + D).
    { apply BR. intros k l Hk Hl. specialize (H i k l Hi Hk Hl). apply Rabs_le_inv in H. lra. }
    assert (R1 : - M <= lin_sample (vplane v i) Y X <= M).
    { apply sample_range; cbn [vplane ih iw]; try lia; try assumption. intros k l [H1 H2]. cbn [vplane ih iw px] in *. apply Mv; lia. }
    assert (R2 : - M <= lin_sample (vplane u i) Y X <= M).
    { apply sample_range; cbn [vplane ih iw]; rewrite ?U2, ?U3; try lia; try assumption. intros k l [H1 H2]. cbn [vplane ih iw px] in *. apply Mu; lia. }
    pose proof (single_err (lin_sample (vplane v i) Y X)) as E1. pose proof (single_err (lin_sample (vplane u i) Y X)) as E2.
    fold (two (-24)) in E1, E2. fold (two (-150)) in E1, E2. apply Rabs_le in R1, R2.
    assert (T0 : 0 <= two (-24)) by apply bpow_ge_0.
    assert (two (-24) * Rabs (lin_sample (vplane v i) Y X) <= two (-24) * M) by (now apply Rmult_le_compat_l).
    assert (two (-24) * Rabs (lin_sample (vplane u i) Y X) <= two (-24) * M) by (now apply Rmult_le_compat_l).
    apply Rabs_le_inv in E1. apply Rabs_le_inv in E2. apply Rabs_le. lra.
Qed.
Print Assumptions C127_slice_noise.
(** Each slice shows the scene. *)
Theorem C127_slice_scene : forall rnd v light scene xc yc fact index L M, exact_or_double rnd -> (length fact <= 1000)%nat ->
  (0 < vh v <= 32767)%Z -> (0 < vw v <= 2 ^ 24 + 1)%Z -> (0 <= vd v)%Z -> (0 <= index < vh v)%Z -> 0 <= L -> values_in v (- M) M ->
  (forall i, (0 <= i < vd v)%Z -> steep L (light i) /\ photograph (vplane v i) (light i) /\ seen_through (radial_map fact (yc, xc)) (scene i) (light i)) ->
  exists out, @unwarp_slice_backward R (Rnum rnd) (@bilinear R Rex) v xc yc fact index = Ok out /\ ih out = vd v /\ iw out = vw v /\
    forall i j, (0 <= i < vd v)%Z -> (0 <= j < vw v)%Z -> let q := (IZR index, IZR j) in let r := dist q (yc, xc) in
      on_detector (vplane v i) (radial_map fact (yc, xc) q) ->
      Rabs (px out i j - scene i q) <= single_error L M (vh v) (vw v) +
        L * (1 + (rounding_bound fact yc r + rounding_bound fact xc r + two (-24) * IZR (vh v + vw v - 2) + 2 * two (-150))).
Proof.
  intros rnd v light scene xc yc fact index L M Hr Hn Hh Hw Hd Hi HL HM HS.
  destruct (C127_slice_image rnd v xc yc fact index L M Hr Hh Hw Hd HL) as [out [E [S1 [S2 P]]]]; [|exact HM|].
  - intros i Hi'. destruct (HS i Hi') as [A [B _]]. split; intros k l H1 H2; [now apply (steps_ver _ (light i))|now apply (steps_hor _ (light i))].
  - exists out. do 3 (split; [assumption|]). intros i j Hi' Hj q r D. destruct (HS i Hi') as [A [B C]].
    pose proof (C110_scene rnd (vplane v i) (light i) (scene i) L xc yc fact Hr Hn ltac:(cbn; lia) ltac:(cbn; lia) HL A B C index j ltac:(unfold in_img; cbn; lia) D) as Q.
    cbv zeta in Q. fold q r in Q. cbn [vplane ih iw] in Q. specialize (P i j Hi' Hj).
    match goal with |- Rabs (?a - ?b) <= _ => match type of P with Rabs (_ - ?c) <= _ => replace (a - b) with ((a - c) + (c - b)) by ring end end.
    eapply Rle_trans; [apply Rabs_triang|]. apply Rplus_le_compat; assumption.
Qed.
Print Assumptions C127_slice_scene.

(** *** The hypotheses are met *)
(** Three pictures of a scene of stripes seen through a lens of half the scale;
    each picture is a little brighter than the one before. *)
Definition ex_light (i : Z) (p : pt) : R := 20 * Rabs (pxc p - 50) + 7 * IZR i.
Definition ex_scene (i : Z) (p : pt) : R := 10 * Rabs (pxc p - 50) + 7 * IZR i.
Definition ex_volume : volume R := mkvol 3 101 101 (fun i k j => ex_light i (IZR k, IZR j)).
Lemma ex_volume_values : values_in ex_volume (- 1014) 1014 /\ values_in ex_volume 0 1014.
Proof.
  assert (H : values_in ex_volume 0 1014).
  { intros i k j Hi _ Hj. cbn [ex_volume vd vw vx] in *. unfold ex_light, pxc. cbn [snd].
    assert (0 <= IZR i <= 2) by (split; apply IZR_le; lia). assert (0 <= IZR j <= 100) by (split; apply IZR_le; lia).
    assert (Rabs (IZR j - 50) <= 50) by (apply Rabs_le; lra). pose proof (Rabs_pos (IZR j - 50)). lra. }
  split; [|exact H]. intros i k j Hi Hk Hj. destruct (H i k j Hi Hk Hj). lra.
Qed.
Lemma ex_steep i : steep 20 (ex_light i).
Proof.
  intros p q. unfold ex_light. replace (20 * Rabs (pxc q - 50) + 7 * IZR i - (20 * Rabs (pxc p - 50) + 7 * IZR i)) with (20 * (Rabs (pxc q - 50) - Rabs (pxc p - 50))) by ring.
  rewrite Rabs_mult, (Rabs_pos_eq 20) by lra. apply Rmult_le_compat_l; [lra|].
  pose proof (Rabs_triang_inv2 (pxc q - 50) (pxc p - 50)) as T. replace (pxc q - 50 - (pxc p - 50)) with (pxc q - pxc p) in T by ring. pose proof (Rabs_pos (py q - py p)). lra.
Qed.
Lemma ex_map q : radial_map [1 / 2] (50, 50) q = (50 + 1 / 2 * (py q - 50), 50 + 1 / 2 * (pxc q - 50)).
Proof. unfold radial_map, padd, pscale, psub, py, pxc. cbn [poly fst snd]. f_equal; field. Qed.
Lemma ex_pictures i : (0 <= i < vd ex_volume)%Z -> steep 20 (ex_light i) /\ photograph (vplane ex_volume i) (ex_light i) /\ seen_through (radial_map [1 / 2] (50, 50)) (ex_scene i) (ex_light i).
Proof.
  intros _. split; [apply ex_steep|]. split; [intros a b _; reflexivity|]. intros q. unfold ex_light, ex_scene. rewrite ex_map. unfold py, pxc. cbn [fst snd].
  replace (50 + 1 / 2 * (snd q - 50) - 50) with (1 / 2 * (snd q - 50)) by ring. rewrite Rabs_mult, (Rabs_pos_eq (1 / 2)) by lra. lra.
Qed.
Lemma ex_volume_smooth : pictures_smooth 20 ex_volume.
Proof. intros i Hi. destruct (ex_pictures i Hi) as [A [B _]]. split; intros k l H1 H2; [now apply (steps_ver _ (ex_light i))|now apply (steps_hor _ (ex_light i))]. Qed.
Lemma two_24 : two (-24) = / 16777216.
Proof. reflexivity. Qed.
Lemma two_150 : two (-150) <= two (-24).
Proof. apply bpow_le. lia. Qed.
Example C127_slice_image_ex : exists out, @unwarp_slice_backward R (Rnum f64) (@bilinear R Rex) ex_volume 50 50 [1 / 2] 20 = Ok out /\ ih out = 3%Z /\ iw out = 101%Z /\
  forall i j, (0 <= i < 3)%Z -> (0 <= j < 101)%Z ->
    Rabs (px out i j - px (@unwarp_image_backward R (Rnum f64) (@bilinear R Rex) (vplane ex_volume i) 50 50 [1 / 2]) 20 j) <= 1 / 2000.
Proof.
  destruct (C127_slice_image f64 ex_volume 50 50 [1 / 2] 20 20 1014 (or_intror (fun x => eq_refl)) ltac:(cbn; lia) ltac:(cbn [vw ex_volume]; lia) ltac:(cbn; lia) ltac:(lra) ex_volume_smooth (proj1 ex_volume_values)) as [out [E [A [B P]]]].
  exists out. do 3 (split; [assumption|]). intros i j Hi Hj. eapply Rle_trans; [apply P; assumption|]. unfold single_error. cbn [ex_volume vh vw].
  pose proof two_150. rewrite two_24 in *. change (101 + 101 - 2)%Z with 200%Z. lra.
Qed.
Example C127_slice_chunk_ex : exists out chunk, @unwarp_slice_backward R (Rnum f64) (@bilinear R Rex) ex_volume 50 50 [1 / 2] 20 = Ok out /\
  @unwarp_chunk_slices_backward R (Rnum f64) (@bilinear R Rex) ex_volume 50 50 [1 / 2] 20 20 = Ok chunk /\
  forall i j, (0 <= i < 3)%Z -> (0 <= j < 101)%Z -> Rabs (px out i j - vx chunk i 0 j) <= 1 / 2000.
Proof.
  destruct (C127_slice_chunk f64 ex_volume 50 50 [1 / 2] 20 20 1014 (or_intror (fun x => eq_refl)) ltac:(cbn; lia) ltac:(cbn [vw ex_volume]; lia) ltac:(cbn; lia) ltac:(cbn; lia) ltac:(lra) ex_volume_smooth (proj1 ex_volume_values)) as [out [ch [E [F [_ [_ [_ P]]]]]]].
  exists out, ch. do 2 (split; [assumption|]). intros i j Hi Hj. eapply Rle_trans; [apply P; assumption|]. unfold single_error. cbn [ex_volume vh vw].
  pose proof two_150. rewrite two_24 in *. change (101 + 101 - 2)%Z with 200%Z. lra.
Qed.
Lemma single_int n : (Z.abs n < 16777216)%Z -> f32 (IZR n) = IZR n.
Proof. intros H. apply round_generic; [apply valid_rnd_N|]. apply generic_format_FLT. exists (Float radix2 n 0); [unfold F2R; cbn [Fnum Fexp bpow]; ring|exact H|cbn; lia]. Qed.
Example C127_slice_range_ex : exists out, @unwarp_slice_backward R (Rnum f64) (@bilinear R Rex) ex_volume 50 50 [1 / 2] 20 = Ok out /\ ih out = 3%Z /\ iw out = 101%Z /\
  forall i j, (0 <= i < 3)%Z -> (0 <= j < 101)%Z -> 0 <= px out i j <= 1014.
Proof.
  apply (C127_slice_range f64 ex_volume 50 50 [1 / 2] 20 0 1014 (or_intror (fun x => eq_refl))); try (cbn [ex_volume vh vw vd]; lia); [apply ex_volume_values| |apply (single_int 1014); lia].
  apply round_0. apply valid_rnd_N.
Qed.
(** Without the condition on the limits the claim fails: pixels which are not
    single-precision numbers can be rounded up beyond the brightest pixel. *)
Theorem C127_range_refuted : exists v lo hi out, vd v = 1%Z /\ vh v = 1%Z /\ vw v = 1%Z /\ values_in v lo hi /\
  @unwarp_slice_backward R (Rnum f64) (@bilinear R Rex) v 0 0 [1] 0 = Ok out /\ hi < px out 0 0.
Proof.
  assert (T : two (-26) = / 67108864) by reflexivity. set (c := 1 - / 67108864).
  assert (V : values_in (mkvol 1 1 1 (fun _ _ _ => c)) c c) by (intros i k j _ _ _; cbn [vx]; lra).
  destruct (slice_sampled f64 (mkvol 1 1 1 (fun _ _ _ => c)) 0 0 [1] 0 (or_intror (fun x => eq_refl)) ltac:(cbn; lia) ltac:(cbn [vw]; lia) ltac:(cbn; lia)) as [out [E [_ [_ P]]]].
  exists (mkvol 1 1 1 (fun _ _ _ => c)), c, c, out. do 3 (split; [reflexivity|]). split; [exact V|]. split; [exact E|].
  destruct (P 0 0 ltac:(cbn; lia) ltac:(cbn; lia))%Z as [-> [RY [RX _]]].
  match goal with |- _ < f32 (lin_sample ?m ?y ?x) => destruct (sample_range m y x c c) as [L1 L2]; [cbn; lia|cbn; lia|exact RY|exact RX|intros; cbn [px vplane vx]; lra|]; replace (lin_sample m y x) with c by lra end.
  assert (G : generic_format radix2 (FLT_exp (-149) 24) 1) by (apply (generic_format_bpow radix2 _ 0); cbn; lia).
  pose proof (round_N_pt radix2 (FLT_exp (-149) 24) (fun x => negb (Z.even x)) c) as [F N]. specialize (N 1 G). fold (f32 c) in N, F.
  change (round radix2 (FLT_exp (-149) 24) (Znearest (fun x => negb (Z.even x))) c) with (f32 c) in N, F.
  destruct (Rlt_le_dec c (f32 c)) as [H|H]; [exact H|]. exfalso.
  assert (Q : f32 c <= pred radix2 (FLT_exp (-149) 24) 1) by (apply pred_ge_gt; [apply FLT_exp_valid; red; reflexivity|exact F|exact G|unfold c in *; lra]).
  change 1 with (bpow radix2 0) in Q. rewrite (pred_bpow radix2 (FLT_exp (-149) 24) 0) in Q. change (bpow radix2 0) with 1 in Q. change (bpow radix2 (FLT_exp (-149) 24 0)) with (/ 16777216) in Q.
  rewrite (Rabs_pos_eq (1 - c)) in N by (unfold c; lra). apply Rabs_le_inv in N. unfold c in *. lra.
Qed.
Print Assumptions C127_range_refuted.
Example C127_slice_scene_ex : exists out, @unwarp_slice_backward R (Rnum f64) (@bilinear R Rex) ex_volume 50 50 [1 / 2] 20 = Ok out /\ ih out = 3%Z /\ iw out = 101%Z /\
  forall i j, (0 <= i < 3)%Z -> (0 <= j < 101)%Z ->
    Rabs (px out i j - ex_scene i (20, IZR j)) <= single_error 20 1014 101 101 + 20 * (1 + (2 * rounding_bound [1 / 2] 50 (dist (20, IZR j) (50, 50)) + two (-24) * 200 + 2 * two (-150))).
Proof.
  destruct (C127_slice_scene f64 ex_volume ex_light ex_scene 50 50 [1 / 2] 20 20 1014 (or_intror (fun x => eq_refl)) ltac:(cbn; lia) ltac:(cbn; lia) ltac:(cbn [vw ex_volume]; lia) ltac:(cbn; lia) ltac:(cbn; lia) ltac:(lra) (proj1 ex_volume_values) ex_pictures) as [out [E [A [B P]]]].
  exists out. do 3 (split; [assumption|]). intros i j Hi Hj. specialize (P i j Hi Hj). cbv zeta in P.
  assert (Rj : 0 <= IZR j <= 100) by (split; apply IZR_le; lia).
  eapply Rle_trans; [apply P|].
  - rewrite ex_map. unfold on_detector, py, pxc. cbn [fst snd vplane ih iw ex_volume vh vw]. change (101 - 1)%Z with 100%Z. lra.
  - cbn [ex_volume vh vw]. change (101 + 101 - 2)%Z with 200%Z. lra.
Qed.
Example C127_slice_noise_ex : let u := mkvol 3 101 101 (fun i k j => ex_light i (IZR k, IZR j) + 1 / 2) in
  exists a b, @unwarp_slice_backward R (Rnum f64) (@bilinear R Rex) ex_volume 50 50 [1 / 2] 20 = Ok a /\
    @unwarp_slice_backward R (Rnum f64) (@bilinear R Rex) u 50 50 [1 / 2] 20 = Ok b /\
    forall i j, (0 <= i < 3)%Z -> (0 <= j < 101)%Z -> px a i j <= px b i j /\ Rabs (px a i j - px b i j) <= 1 / 2 + 1 / 5000.
Proof.
  intros u. destruct (C127_slice_noise f64 ex_volume u 50 50 [1 / 2] 20 (1 / 2) 1015 (or_intror (fun x => eq_refl)) ltac:(cbn; lia) ltac:(cbn [vw ex_volume]; lia) ltac:(cbn; lia) eq_refl eq_refl eq_refl) as [a [b [Ea [Eb [P Q]]]]].
  exists a, b. split; [exact Ea|]. split; [exact Eb|]. intros i j Hi Hj. split.
  - apply P; try assumption. intros i' k l _ _ _. cbn [u ex_volume vx]. lra.
  - eapply Rle_trans; [apply Q; try assumption|].
    + intros i' k l _ _ _. cbn [u ex_volume vx]. replace (ex_light i' (IZR k, IZR l) - (ex_light i' (IZR k, IZR l) + 1 / 2)) with (- (1 / 2)) by ring. rewrite Rabs_Ropp, Rabs_pos_eq; lra.
    + intros i' k l H1 H2 H3. destruct (proj1 ex_volume_values i' k l H1 H2 H3). lra.
    + intros i' k l H1 H2 H3. destruct (proj1 ex_volume_values i' k l H1 H2 H3) as [A B]. cbn [u ex_volume vx] in *. lra.
    + pose proof two_150. rewrite two_24 in *. lra.
Qed.
