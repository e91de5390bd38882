(** Rounding errors of discorpy/post/postprocessing.py (C107). *)
From Coq Require Import Reals ZArith List Lra Lia.
From Flocq Require Import Core.
From Verif Require Import Base Num NumFacts Img Spec Post PostImg PostPersp PostImg2 RoundFacts.
Import ListNotations.
Local Open Scope R_scope.

(** ** C107 rounding errors of the correction are bounded *)
(** 2^k *)
Definition two (k : Z) : R := bpow radix2 k.
(** The bound for one coordinate: [c] is the coordinate of the centre and [r]
    the distance of the point from the centre.  With n coefficients a_i and
    M = max(1, r): (7n + 3) 2^-51 (|c| + M (sum |a_i| M^i + 2^-500)). *)
Definition rounding_bound (fact : list R) (c r : R) : R :=
  let M := Rmax 1 r in
  (7 * INR (length fact) + 3) * two (-51) * (Rabs c + M * (poly (map Rabs fact) M + two (-500))).

Lemma coord_bound rnd fact c dx dy : exact_or_double rnd -> (length fact <= 1000)%nat ->
  Rabs (rnd (c + rnd (@radial R (Rnum rnd) fact (frad rnd dx dy) * rnd dx)) - (c + poly fact (sqrt (dx * dx + dy * dy)) * dx))
    <= rounding_bound fact c (sqrt (dx * dx + dy * dy)).
Proof.
  intros Hr Hn.
  pose proof (coord_near (two (-52)) (two (-1075)) (two (-510)) rnd) as C.
  assert (P52 : 0 < two (-52)) by apply bpow_gt_0.
  assert (V : 0 <= two (-52) <= / 64).
  { split; [lra|]. apply Rle_trans with (two (-6)); [apply bpow_le; lia|]. unfold two. cbn. lra. }
  assert (T : 0 < two (-510) <= two (-52) / 2).
  { split; [apply bpow_gt_0|]. apply Rle_trans with (two (-53)); [apply bpow_le; lia|].
    unfold two. change (-52)%Z with (-53 + 1)%Z. rewrite bpow_plus_1. change (IZR radix2) with 2. lra. }
  assert (E : two (-1075) <= two (-52) / 2 * (two (-510) * two (-510))).
  { unfold two. rewrite <- bpow_plus. change (-52)%Z with (-53 + 1)%Z. rewrite bpow_plus_1. change (IZR radix2) with 2.
    replace (2 * bpow radix2 (-53) / 2) with (bpow radix2 (-53)) by field. rewrite <- bpow_plus. apply bpow_le. lia. }
  specialize (C V T E (double_err rnd Hr) fact c dx dy). cbv zeta in C. eapply Rle_trans; [exact C|]. unfold rounding_bound. cbv zeta.
  set (n := length fact) in *. set (M := Rmax 1 (sqrt (dx * dx + dy * dy))).
  assert (HM : 1 <= M) by apply Rmax_l. pose proof (poly_abs_pos fact M ltac:(lra)) as Pp.
  assert (Ln : INR n <= 1000) by (replace 1000 with (INR 1000) by (rewrite INR_IZR_INZ; reflexivity); now apply le_INR). pose proof (pos_INR n) as Pn.
  assert (G : gam (two (-52)) (7 * n + 3) <= (7 * INR n + 3) * two (-51)).
  { assert (EK : INR (7 * n + 3) = 7 * INR n + 3) by (rewrite plus_INR, mult_INR; replace (INR 7) with 7 by (cbn; ring); replace (INR 3) with 3 by (cbn; ring); reflexivity).
    eapply Rle_trans; [apply gam_lin|].
    - lra.
    - rewrite EK. apply Rle_trans with (8192 * two (-52)); [apply Rmult_le_compat_r; lra|].
      change 8192 with (bpow radix2 13). unfold two. rewrite <- bpow_plus. change 1 with (bpow radix2 0). apply bpow_le. lia.
    - rewrite EK. unfold two. change (-51)%Z with (-52 + 1)%Z. rewrite bpow_plus_1. change (IZR radix2) with 2. apply Req_le. ring. }
  assert (TT : INR (n + 1) * two (-510) <= two (-500)).
  { rewrite plus_INR. change (INR 1) with 1. apply Rle_trans with (1024 * two (-510)); [apply Rmult_le_compat_r; [lra|lra]|].
    change 1024 with (bpow radix2 10). unfold two. rewrite <- bpow_plus. apply bpow_le. lia. }
  apply Rmult_le_compat.
  - apply gam_pos. lra.
  - pose proof (Rabs_pos c). assert (0 <= INR (n + 1) * two (-510)) by (apply Rmult_le_pos; [apply pos_INR|lra]).
    assert (0 <= M * (poly (map Rabs fact) M + INR (n + 1) * two (-510))) by (apply Rmult_le_pos; lra). lra.
  - exact G.
  - apply Rplus_le_compat_l, Rmult_le_compat_l; lra.
Qed.

(** Points, in exact or in double arithmetic: each corrected point is that
    close to the point of the model. *)
Theorem C107_points : forall rnd lines xc yc fact, exact_or_double rnd -> (length fact <= 1000)%nat ->
  Forall (fun l => fst l = DF64) lines ->
  Forall2 (fun l u => fst u = DF64 /\
     Forall2 (fun p q => let c := (yc, xc) in let e := radial_map fact c p in
        Rabs (py q - py e) <= rounding_bound fact yc (dist p c) /\ Rabs (pxc q - pxc e) <= rounding_bound fact xc (dist p c))
       (snd l) (snd u))
    lines (@unwarp_line_forward R (Rnum rnd) lines xc yc fact).
Proof.
  intros rnd lines xc yc fact Hr Hn Hl. unfold unwarp_line_forward.
  induction lines as [|[d pts] lines IH]; cbn [map]; [constructor|]. inversion_clear Hl. cbn [fst] in H. subst d.
  constructor; [|now apply IH]. cbn [fst snd]. split; [reflexivity|]. clear - Hr Hn.
  induction pts as [|p pts IH]; cbn [map]; [constructor|]. constructor; [|exact IH]. cbv zeta.
  destruct p as [y x]. unfold unwarp_dot_forward, store. cbn [fst snd].
  unfold radial_map, padd, pscale, psub, dist, py, pxc. cbn [fst snd nadd nsub nmul nsqrt Rnum].
  set (dx := x - xc). set (dy := y - yc). split.
  - pose proof (coord_bound rnd fact yc dy dx Hr Hn) as B. unfold frad in B.
    replace (rnd (rnd (rnd dx * rnd dx) + rnd (rnd dy * rnd dy))) with (rnd (rnd (rnd dy * rnd dy) + rnd (rnd dx * rnd dx))) by (f_equal; ring).
    exact B.
  - pose proof (coord_bound rnd fact xc dx dy Hr Hn) as B. unfold frad in B.
    replace (dy * dy + dx * dx) with (dx * dx + dy * dy) by ring. exact B.
Qed.
Print Assumptions C107_points.
(** Detectors of up to 65536 pixels, ten coefficients and distortion factors
    up to 4: less than 2^-26 of a pixel. *)
Theorem C107_small : forall fact c r, (length fact <= 10)%nat -> Rabs c <= 65536 -> r <= 65536 ->
  poly (map Rabs fact) (Rmax 1 r) <= 4 -> rounding_bound fact c r <= two (-26).
Proof.
  intros fact c r Hn Hc Hr Hp. unfold rounding_bound. cbv zeta.
  assert (HM : 1 <= Rmax 1 r) by apply Rmax_l. assert (HM2 : Rmax 1 r <= 65536) by (apply Rmax_lub; lra). set (M := Rmax 1 r) in *.
  pose proof (poly_abs_pos fact M ltac:(lra)) as Pp.
  assert (Ln : INR (length fact) <= 10) by (replace 10 with (INR 10) by (rewrite INR_IZR_INZ; reflexivity); now apply le_INR).
  pose proof (pos_INR (length fact)) as Pn.
  assert (P51 : 0 < two (-51)) by apply bpow_gt_0. assert (P500 : 0 < two (-500) <= / 8).
  { split; [apply bpow_gt_0|]. change (/ 8) with (bpow radix2 (-3)). apply bpow_le. lia. }
  apply Rle_trans with (73 * two (-51) * 335872).
  - apply Rmult_le_compat.
    + apply Rmult_le_pos; lra.
    + pose proof (Rabs_pos c). assert (0 <= M * (poly (map Rabs fact) M + two (-500))) by (apply Rmult_le_pos; lra). lra.
    + apply Rmult_le_compat_r; lra.
    + assert (M * (poly (map Rabs fact) M + two (-500)) <= 65536 * (4 + / 8)) by (apply Rmult_le_compat; lra). lra.
  - apply Rle_trans with (two (-51) * two 25).
    + replace (two 25) with 33554432 by reflexivity. lra.
    + unfold two. rewrite <- bpow_plus. apply bpow_le. lia.
Qed.
Print Assumptions C107_small.

Lemma positions_bound rnd xc yc fact h w i j : exact_or_double rnd -> (length fact <= 1000)%nat -> (0 < h)%Z -> (0 < w)%Z ->
  let c := (yc, xc) in let e := radial_map fact c (IZR i, IZR j) in let r := dist (IZR i, IZR j) c in
    Rabs (@coord_y R (Rnum rnd) xc yc fact h i j - clamp (py e) 0 (IZR (h - 1))) <= rounding_bound fact yc r + two (-24) * IZR (h - 1) + two (-150) /\
    Rabs (@coord_x R (Rnum rnd) xc yc fact w i j - clamp (pxc e) 0 (IZR (w - 1))) <= rounding_bound fact xc r + two (-24) * IZR (w - 1) + two (-150).
Proof.
  intros Hr Hn Hh Hw. cbv zeta.
  assert (CL : forall a b n, 0 <= n -> Rabs (clamp a 0 n - clamp b 0 n) <= Rabs (a - b)).
  { intros a b n Pn. unfold clamp, Rmax, Rmin. repeat destruct Rle_dec; unfold Rabs; repeat destruct Rcase_abs; lra. }
  assert (K : forall n v e B, (0 < n)%Z -> Rabs (v - e) <= B ->
    Rabs (f32 (@nclip R (Rnum rnd) v 0 (IZR (n - 1))) - clamp e 0 (IZR (n - 1))) <= B + two (-24) * IZR (n - 1) + two (-150)).
  { intros n v e B Hp HB. assert (Pn : 0 <= IZR (n - 1)) by (apply IZR_le; lia).
    rewrite nclip_R by assumption. set (cv := clamp v 0 (IZR (n - 1))).
    assert (Rw : 0 <= cv <= IZR (n - 1)) by (apply clamp_range; assumption).
    pose proof (single_err cv) as S1. rewrite (Rabs_pos_eq cv) in S1 by lra. specialize (CL v e (IZR (n - 1)) Pn). fold cv in CL.
    replace (f32 cv - clamp e 0 (IZR (n - 1))) with ((f32 cv - cv) + (cv - clamp e 0 (IZR (n - 1)))) by ring.
    eapply Rle_trans; [apply Rabs_triang|]. assert (0 < bpow radix2 (-24)) by apply bpow_gt_0.
    assert (bpow radix2 (-24) * cv <= bpow radix2 (-24) * IZR (n - 1)) by (apply Rmult_le_compat_l; lra). unfold two. lra. }
  assert (P2 : forall a : R, a ^ 2 = a * a) by (intros; ring).
  split.
  - apply K; [exact Hh|]. unfold map_y. cbn [nadd nsub nmul nsqrt npow nofZ Rnum]. rewrite !P2.
    unfold radial_map, padd, pscale, psub, dist, py, pxc. cbn [fst snd].
    pose proof (coord_bound rnd fact yc (IZR i - yc) (IZR j - xc) Hr Hn) as B. unfold frad in B.
    rewrite (Rplus_comm (rnd (rnd (IZR j - xc) * rnd (IZR j - xc)))). exact B.
  - apply K; [exact Hw|]. unfold map_x. cbn [nadd nsub nmul nsqrt npow nofZ Rnum]. rewrite !P2.
    unfold radial_map, padd, pscale, psub, dist, py, pxc. cbn [fst snd].
    pose proof (coord_bound rnd fact xc (IZR j - xc) (IZR i - yc) Hr Hn) as B. unfold frad in B.
    rewrite (Rplus_comm ((IZR i - yc) * (IZR i - yc))). exact B.
Qed.
(** The positions where images are sampled, for any interpolation: the clipped
    position of the model, up to this bound and the rounding to single
    precision. *)
Theorem C107_positions : forall rnd mat xc yc fact, exact_or_double rnd -> (length fact <= 1000)%nat ->
  (0 < ih mat)%Z -> (0 < iw mat)%Z -> exists Y X : Z -> Z -> R,
  (forall interp i j, in_img mat i j -> px (@unwarp_image_backward R (Rnum rnd) interp mat xc yc fact) i j = interp mat (Y i j) (X i j)) /\
  forall i j, in_img mat i j -> let c := (yc, xc) in let e := radial_map fact c (IZR i, IZR j) in let r := dist (IZR i, IZR j) c in
    Rabs (Y i j - clamp (py e) 0 (IZR (ih mat - 1))) <= rounding_bound fact yc r + two (-24) * IZR (ih mat - 1) + two (-150) /\
    Rabs (X i j - clamp (pxc e) 0 (IZR (iw mat - 1))) <= rounding_bound fact xc r + two (-24) * IZR (iw mat - 1) + two (-150).
Proof.
  intros rnd mat xc yc fact Hr Hn Hh Hw.
  exists (@coord_y R (Rnum rnd) xc yc fact (ih mat)), (@coord_x R (Rnum rnd) xc yc fact (iw mat)).
  split; [reflexivity|]. intros i j _. now apply positions_bound.
Qed.
Print Assumptions C107_positions.

(** *** Linear interpolation does not amplify *)
Definition ramp (t : R) : R := clamp t 0 1.
Lemma tent_ramp t : tent t = ramp (t + 1) - ramp t.
Proof. unfold tent, ramp, clamp, Rmax, Rmin, Rabs. repeat destruct Rle_dec; repeat destruct Rcase_abs; lra. Qed.
Lemma abel (a : Z -> R) x n : 0 <= x -> sum_n (S n) (fun j => tent (x - IZR j) * a j) =
  a 0%Z + sum_n n (fun j => ramp (x - IZR j) * (a (j + 1)%Z - a j)) - ramp (x - IZR (Z.of_nat n)) * a (Z.of_nat n).
Proof.
  intros Hx. induction n as [|n IH].
  - cbn [sum_n Z.of_nat]. rewrite tent_ramp. replace (ramp (x - 0 + 1)) with 1; [ring|].
    unfold ramp, clamp, Rmax, Rmin. repeat destruct Rle_dec; lra.
  - change (sum_n (S (S n)) (fun j => tent (x - IZR j) * a j))
      with (sum_n (S n) (fun j => tent (x - IZR j) * a j) + tent (x - IZR (Z.of_nat (S n))) * a (Z.of_nat (S n))).
    rewrite IH. cbn [sum_n]. rewrite tent_ramp. rewrite Nat2Z.inj_succ. unfold Z.succ. rewrite plus_IZR.
    replace (x - (IZR (Z.of_nat n) + 1) + 1) with (x - IZR (Z.of_nat n)) by ring. ring.
Qed.
Lemma ramp_sum x n : 0 <= x -> sum_n n (fun j => ramp (x - IZR j)) = Rmin x (IZR (Z.of_nat n)).
Proof.
  intros Hx. induction n as [|n IH]; cbn [sum_n].
  - symmetry. apply Rmin_right. exact Hx.
  - rewrite IH, Nat2Z.inj_succ. unfold Z.succ. rewrite plus_IZR. assert (0 <= IZR (Z.of_nat n)) by (apply IZR_le; lia).
    unfold ramp, clamp, Rmax, Rmin. repeat destruct Rle_dec; lra.
Qed.
Lemma ramp_zero t : t <= 0 -> ramp t = 0.
Proof. intros H. unfold ramp, clamp, Rmax, Rmin. repeat destruct Rle_dec; lra. Qed.
Lemma ramp_mono s t : s <= t -> ramp s <= ramp t.
Proof. intros H. unfold ramp, clamp, Rmax, Rmin. repeat destruct Rle_dec; lra. Qed.
Lemma abs_sum n f g : (forall k, (0 <= k < Z.of_nat n)%Z -> Rabs (f k) <= g k) -> Rabs (sum_n n f) <= sum_n n g.
Proof.
  induction n as [|n IH]; intros H; cbn [sum_n]; [rewrite Rabs_R0; lra|].
  eapply Rle_trans; [apply Rabs_triang|]. apply Rplus_le_compat; [apply IH; intros; apply H; lia|apply H; lia].
Qed.
Lemma sum_n_minus n f g : sum_n n f - sum_n n g = sum_n n (fun k => f k - g k).
Proof. induction n as [|n IH]; cbn [sum_n]; [lra|rewrite <- IH; lra]. Qed.
(** One axis of length n: values changing by at most L between neighbours. *)
Lemma lin_lipschitz (a : Z -> R) L n x y : (0 < n)%Z -> 0 <= x <= IZR (n - 1) -> 0 <= y <= IZR (n - 1) ->
  (forall j, (0 <= j < n - 1)%Z -> Rabs (a (j + 1)%Z - a j) <= L) ->
  Rabs (sumZ n (fun j => tent (x - IZR j) * a j) - sumZ n (fun j => tent (y - IZR j) * a j)) <= L * Rabs (x - y).
Proof.
  intros Hn.
  assert (W : forall x y, 0 <= y <= x -> x <= IZR (n - 1) -> (forall j, (0 <= j < n - 1)%Z -> Rabs (a (j + 1)%Z - a j) <= L) ->
    Rabs (sumZ n (fun j => tent (x - IZR j) * a j) - sumZ n (fun j => tent (y - IZR j) * a j)) <= L * (x - y)).
  { clear x y. intros x y Hyx Hx HL. unfold sumZ. replace (Z.to_nat n) with (S (Z.to_nat (n - 1))) by lia.
    rewrite !abel by lra. set (m := Z.to_nat (n - 1)). assert (Em : Z.of_nat m = (n - 1)%Z) by (unfold m; lia).
    rewrite Em, !(ramp_zero (_ - IZR (n - 1))) by lra.
    match goal with |- Rabs (?A0 + ?A - _ - (_ + ?B - _)) <= _ => replace (A0 + A - 0 * a (n - 1)%Z - (A0 + B - 0 * a (n - 1)%Z)) with (A - B) by ring end.
    rewrite sum_n_minus.
    apply Rle_trans with (sum_n m (fun j => L * (ramp (x - IZR j) - ramp (y - IZR j)))).
    - apply abs_sum. intros k Hk.
      replace (ramp (x - IZR k) * (a (k + 1)%Z - a k) - ramp (y - IZR k) * (a (k + 1)%Z - a k))
        with ((a (k + 1)%Z - a k) * (ramp (x - IZR k) - ramp (y - IZR k))) by ring.
      assert (Q : 0 <= ramp (x - IZR k) - ramp (y - IZR k)) by (pose proof (ramp_mono (y - IZR k) (x - IZR k)); lra).
      rewrite Rabs_mult, (Rabs_pos_eq _ Q). apply Rmult_le_compat_r; [exact Q|]. apply HL. lia.
    - rewrite sum_n_scal, <- sum_n_minus, !ramp_sum by lra. rewrite Em, !Rmin_left by lra. lra. }
  intros Hx Hy HL. destruct (Rle_lt_dec y x) as [C|C].
  - rewrite (Rabs_pos_eq (x - y)) by lra. apply W; tauto || lra.
  - rewrite Rabs_minus_sym, (Rabs_left (x - y)) by lra. replace (L * - (x - y)) with (L * (y - x)) by ring. apply W; tauto || lra.
Qed.
Lemma tent_sum n x : (0 < n)%Z -> 0 <= x <= IZR (n - 1) -> sumZ n (fun j => tent (x - IZR j)) = 1.
Proof.
  intros Hn Hx. transitivity (sumZ n (fun j => tent (x - IZR j) * 1)); [apply sumZ_ext; intros; ring|].
  unfold sumZ. replace (Z.to_nat n) with (S (Z.to_nat (n - 1))) by lia. rewrite (abel (fun _ => 1)) by lra.
  rewrite Z2Nat.id by lia. rewrite ramp_zero by lra. rewrite sum_n_zero; [ring|]. intros; ring.
Qed.
(** Positions in the image that are close give values that are close, if
    neighbouring pixels differ by at most L. *)
Lemma image_lipschitz m L y x y' x' : (0 < ih m)%Z -> (0 < iw m)%Z ->
  0 <= y <= IZR (ih m - 1) -> 0 <= y' <= IZR (ih m - 1) -> 0 <= x <= IZR (iw m - 1) -> 0 <= x' <= IZR (iw m - 1) ->
  (forall i j, in_img m i j -> in_img m (i + 1) j -> Rabs (px m (i + 1) j - px m i j) <= L) ->
  (forall i j, in_img m i j -> in_img m i (j + 1) -> Rabs (px m i (j + 1) - px m i j) <= L) ->
  Rabs (lin_sample m y x - lin_sample m y' x') <= L * (Rabs (y - y') + Rabs (x - x')).
Proof.
  intros Hh Hw Hy Hy' Hx Hx' Lv Lh.
  set (row := fun x i => sumZ (iw m) (fun j => tent (x - IZR j) * px m i j)).
  assert (E : forall y x, lin_sample m y x = sumZ (ih m) (fun i => tent (y - IZR i) * row x i)).
  { intros a b. unfold lin_sample. apply sumZ_ext. intros i _. unfold row. rewrite <- sumZ_scal. apply sumZ_ext. intros j _. ring. }
  rewrite !E.
  set (s1 := sumZ (ih m) (fun i => tent (y - IZR i) * row x i)). set (s2 := sumZ (ih m) (fun i => tent (y' - IZR i) * row x' i)).
  set (s3 := sumZ (ih m) (fun i => tent (y - IZR i) * row x' i)).
  replace (s1 - s2) with ((s1 - s3) + (s3 - s2)) by ring. eapply Rle_trans; [apply Rabs_triang|].
  rewrite Rmult_plus_distr_l, (Rplus_comm (L * _)). apply Rplus_le_compat.
  - unfold s1, s3, sumZ. rewrite sum_n_minus.
    apply Rle_trans with (sum_n (Z.to_nat (ih m)) (fun i => (L * Rabs (x - x')) * tent (y - IZR i))).
    + apply abs_sum. intros k Hk. replace (tent (y - IZR k) * row x k - tent (y - IZR k) * row x' k) with ((row x k - row x' k) * tent (y - IZR k)) by ring.
      rewrite Rabs_mult, (Rabs_pos_eq (tent _)) by apply tent_pos. apply Rmult_le_compat_r; [apply tent_pos|].
      unfold row. apply lin_lipschitz; try assumption. intros j Hj. apply Lh; unfold in_img; lia.
    + rewrite sum_n_scal. change (sum_n (Z.to_nat (ih m)) (fun k => tent (y - IZR k))) with (sumZ (ih m) (fun k => tent (y - IZR k))).
      rewrite tent_sum by assumption. lra.
  - unfold s3, s2. apply lin_lipschitz; try assumption. intros i Hi. unfold row, sumZ. rewrite sum_n_minus.
    apply Rle_trans with (sum_n (Z.to_nat (iw m)) (fun j => L * tent (x' - IZR j))).
    + apply abs_sum. intros k Hk. replace (tent (x' - IZR k) * px m (i + 1) k - tent (x' - IZR k) * px m i k)
        with ((px m (i + 1) k - px m i k) * tent (x' - IZR k)) by ring.
      rewrite Rabs_mult, (Rabs_pos_eq (tent _)) by apply tent_pos. apply Rmult_le_compat_r; [apply tent_pos|].
      apply Lv; unfold in_img; lia.
    + rewrite sum_n_scal. change (sum_n (Z.to_nat (iw m)) (fun k => tent (x' - IZR k))) with (sumZ (iw m) (fun k => tent (x' - IZR k))).
      rewrite tent_sum by assumption. lra.
Qed.
(** Pixels: with positions computed in double and stored in single precision
    and order-1 interpolation (itself exact), the corrected image differs from
    the image sampled at the positions of the model by at most L times the
    error of the position, where L bounds the difference of neighbouring
    pixels. *)
Theorem C107_pixels : forall rnd mat xc yc fact L, 0 <= L -> exact_or_double rnd -> (length fact <= 1000)%nat ->
  (0 < ih mat <= 2 ^ 24 + 1)%Z -> (0 < iw mat <= 2 ^ 24 + 1)%Z ->
  (forall i j, in_img mat i j -> in_img mat (i + 1) j -> Rabs (px mat (i + 1) j - px mat i j) <= L) ->
  (forall i j, in_img mat i j -> in_img mat i (j + 1) -> Rabs (px mat i (j + 1) - px mat i j) <= L) ->
  forall i j, in_img mat i j -> let c := (yc, xc) in let e := radial_map fact c (IZR i, IZR j) in let r := dist (IZR i, IZR j) c in
    Rabs (px (@unwarp_image_backward R (Rnum rnd) (@bilinear R Rex) mat xc yc fact) i j
          - lin_sample mat (clamp (py e) 0 (IZR (ih mat - 1))) (clamp (pxc e) 0 (IZR (iw mat - 1))))
    <= L * (rounding_bound fact yc r + rounding_bound fact xc r + two (-24) * IZR (ih mat + iw mat - 2) + 2 * two (-150)).
Proof.
  intros rnd mat xc yc fact L PL Hr Hn Hh Hw Lv Lh i j Hi. cbv zeta.
  destruct (positions_bound rnd xc yc fact (ih mat) (iw mat) i j Hr Hn ltac:(lia) ltac:(lia)) as [QY QX].
  set (e := radial_map fact (yc, xc) (IZR i, IZR j)) in *. set (r := dist (IZR i, IZR j) (yc, xc)) in *.
  assert (Ph : 0 <= IZR (ih mat - 1)) by (apply IZR_le; lia). assert (Pw : 0 <= IZR (iw mat - 1)) by (apply IZR_le; lia).
  assert (RY : 0 <= @coord_y R (Rnum rnd) xc yc fact (ih mat) i j <= IZR (ih mat - 1)).
  { unfold coord_y. cbn [nf32 nofZ Rnum]. rewrite nclip_R by assumption. apply f32_clamp_range. lia. }
  assert (RX : 0 <= @coord_x R (Rnum rnd) xc yc fact (iw mat) i j <= IZR (iw mat - 1)).
  { unfold coord_x. cbn [nf32 nofZ Rnum]. rewrite nclip_R by assumption. apply f32_clamp_range. lia. }
  change (px (@unwarp_image_backward R (Rnum rnd) (@bilinear R Rex) mat xc yc fact) i j)
    with (@bilinear R Rex mat (@coord_y R (Rnum rnd) xc yc fact (ih mat) i j) (@coord_x R (Rnum rnd) xc yc fact (iw mat) i j)).
  rewrite bilinear_lin_sample by assumption.
  eapply Rle_trans; [apply (image_lipschitz mat L); try assumption; try lia; apply clamp_range; assumption|].
  apply Rmult_le_compat_l; [exact PL|]. replace (ih mat + iw mat - 2)%Z with ((ih mat - 1) + (iw mat - 1))%Z by lia. rewrite plus_IZR. lra.
Qed.
Print Assumptions C107_pixels.
(** A point 565.7 pixels from the centre in double precision. *)
Example C107_ex : forall q, @unwarp_line_forward R (Rnum f64) [(DF64, [(100, 900)])] 500 500 [1; 1 / 1000; 1 / 1000000] = [(DF64, [q])] ->
  let r := 400 * sqrt 2 in let e := 500 + (1 + r / 1000 + 32 / 100) * 400 in
  Rabs (pxc q - e) <= two (-26) /\ Rabs (py q - (1000 - e)) <= two (-26).
Proof.
  intros q H. cbv zeta. set (fact := [1; 1 / 1000; 1 / 1000000]) in *.
  pose proof (C107_points f64 [(DF64, [(100, 900)])] 500 500 fact (or_intror (fun x => eq_refl)) ltac:(cbn; lia) ltac:(repeat constructor)) as P.
  rewrite H in P. inversion_clear P. destruct H0 as [_ P]. cbn [snd] in P. inversion_clear P. destruct H0 as [A B]. clear H2.
  assert (D : dist (100, 900) (500, 500) = 400 * sqrt 2).
  { unfold dist, py, pxc. cbn [fst snd]. replace ((100 - 500) * (100 - 500) + (900 - 500) * (900 - 500)) with (400 * 400 * 2) by ring.
    rewrite sqrt_mult by lra. rewrite sqrt_square by lra. reflexivity. }
  assert (S2 : sqrt 2 * sqrt 2 = 2) by (apply sqrt_sqrt; lra). pose proof (sqrt_pos 2) as Ps.
  assert (S3 : 1 <= sqrt 2 <= 2) by nra.
  assert (B2 : rounding_bound fact 500 (dist (100, 900) (500, 500)) <= two (-26)).
  { apply C107_small.
    - cbn. lia.
    - rewrite Rabs_pos_eq; lra.
    - rewrite D. lra.
    - rewrite D. rewrite Rmax_right by lra. unfold fact. cbn [map poly]. rewrite !Rabs_pos_eq by lra. nra. }
  unfold radial_map, padd, pscale, psub in A, B. rewrite D in A, B. rewrite D in B2. unfold py, pxc in *. cbn [fst snd] in *.
  unfold fact in A at 1, B at 1. cbn [poly] in A, B.
  replace (500 + (1 + 400 * sqrt 2 * (1 / 1000 + 400 * sqrt 2 * (1 / 1000000 + 400 * sqrt 2 * 0))) * (900 - 500))
    with (500 + (1 + 400 * sqrt 2 / 1000 + 32 / 100) * 400) in B by nra.
  replace (500 + (1 + 400 * sqrt 2 * (1 / 1000 + 400 * sqrt 2 * (1 / 1000000 + 400 * sqrt 2 * 0))) * (100 - 500))
    with (1000 - (500 + (1 + 400 * sqrt 2 / 1000 + 32 / 100) * 400)) in A by nra.
  split; lra.
Qed.
(** A checkerboard of 0 and 1 (L = 1) of 4 x 5 pixels. *)
Example C107_pixels_ex : forall i j, (0 <= i < 4)%Z -> (0 <= j < 5)%Z ->
  let m := mkimg 4 5 (fun i j => if Z.even (i + j) then 1 else 0) in let e := radial_map [1; 1 / 100] (1, 2) (IZR i, IZR j) in
  Rabs (px (@unwarp_image_backward R (Rnum f64) (@bilinear R Rex) m 2 1 [1; 1 / 100]) i j
        - lin_sample m (clamp (py e) 0 3) (clamp (pxc e) 0 4)) <= two (-20).
Proof.
  intros i j Hi Hj m e.
  pose proof (C107_pixels f64 m 2 1 [1; 1 / 100] 1 ltac:(lra) (or_intror (fun x => eq_refl)) ltac:(cbn; lia) ltac:(cbn [ih m]; lia) ltac:(cbn [iw m]; lia)) as P.
  specialize (P ltac:(intros; cbn [px m]; destruct (Z.even (i0 + 1 + j0)), (Z.even (i0 + j0)); unfold Rabs; destruct Rcase_abs; lra)).
  specialize (P ltac:(intros; cbn [px m]; destruct (Z.even (i0 + (j0 + 1))), (Z.even (i0 + j0)); unfold Rabs; destruct Rcase_abs; lra)).
  specialize (P i j ltac:(split; cbn [ih iw m]; lia)). cbv zeta in P. cbn [ih iw m] in P. fold e in P. eapply Rle_trans; [exact P|].
  set (r := dist (IZR i, IZR j) (1, 2)).
  assert (Hr : r <= 10).
  { unfold r, dist, py, pxc. cbn [fst snd]. rewrite <- (sqrt_square 10) by lra. apply sqrt_le_1_alt.
    assert (0 <= IZR i <= 3) by (split; apply IZR_le; lia). assert (0 <= IZR j <= 4) by (split; apply IZR_le; lia). nra. }
  assert (S : forall c, Rabs c <= 65536 -> rounding_bound [1; 1 / 100] c r <= two (-26)).
  { intros c Hc. apply C107_small; [cbn; lia|exact Hc|lra|]. cbn [map poly]. rewrite !Rabs_pos_eq by lra.
    assert (Rmax 1 r <= 10) by (apply Rmax_lub; lra). lra. }
  pose proof (S 1 ltac:(rewrite Rabs_pos_eq; lra)). pose proof (S 2 ltac:(rewrite Rabs_pos_eq; lra)).
  assert (two (-150) <= two (-26)) by (apply bpow_le; lia).
  replace (two (-20)) with (64 * two (-26)) by (unfold two; change 64 with (bpow radix2 6); rewrite <- bpow_plus; reflexivity).
  replace (two (-24)) with (4 * two (-26)) by (unfold two; change 4 with (bpow radix2 2); rewrite <- bpow_plus; reflexivity).
  assert (0 < two (-26)) by apply bpow_gt_0. change (IZR (4 + 5 - 2)) with 7. lra.
Qed.
