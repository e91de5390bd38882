(** C110: correcting a photograph recovers the scene. *)
From Coq Require Import Reals ZArith List Lra Lia.
From Flocq Require Import Core.
From Verif Require Import Base Num Img Post Spec Lsq NumFacts PostImg PostPersp Props_Post RoundFacts Props_Round
  ProcSpec CalibSpec Proc ProcFacts ProcFacts5 LsqEx Props_Calib.
Import ListNotations.
Local Open Scope R_scope.

(** The brightness on the detector, at every real position, when a lens moves
    the image of scene point q to [lens q]. *)
Definition seen_through (lens : pt -> pt) (scene light : pt -> R) : Prop := forall q, light (lens q) = scene q.
(** The picture consists of the brightness at the pixel positions. *)
Definition photograph (mat : image R) (light : pt -> R) : Prop :=
  forall i j, in_img mat i j -> px mat i j = light (IZR i, IZR j).
(** The brightness changes by at most L from pixel to pixel... *)
Definition steep (L : R) (light : pt -> R) : Prop :=
  forall p q, Rabs (light q - light p) <= L * (Rabs (py q - py p) + Rabs (pxc q - pxc p)).
(** ... or bends by at most M. *)
Definition bent (M : R) (light : pt -> R) : Prop :=
  forall p, exists a b, forall q, let dy := py q - py p in let dx := pxc q - pxc p in
    Rabs (light q - (light p + a * dy + b * dx)) <= M / 2 * (dy * dy + dx * dx).
(** Inside the detector. *)
Definition on_detector (mat : image R) (p : pt) : Prop :=
  0 <= py p <= IZR (ih mat - 1) /\ 0 <= pxc p <= IZR (iw mat - 1).

(** *** Interpolation error *)
Lemma interp1 n a x v s K L M : (0 < n)%Z -> 0 <= x <= IZR (n - 1) -> 0 <= L -> 0 <= M ->
  (forall j, (0 <= j < n)%Z -> Rabs (a j - (v + s * (IZR j - x))) <= K + L * Rabs (IZR j - x) + M / 2 * ((IZR j - x) * (IZR j - x))) ->
  Rabs (sumZ n (fun j => tent (x - IZR j) * a j) - v) <= K + L / 2 + M / 8.
Proof.
  intros Hn Hx HL HM H. rewrite (lin1 n x a Hx).
  set (i := Zfloor x). set (t := x - IZR i).
  assert (Ht : 0 <= t < 1) by (unfold t, i; pose proof (Zfloor_lb x); pose proof (Zfloor_ub x); lra).
  assert (Hi : (0 <= i < n)%Z).
  { split; [apply Zfloor_lub; simpl; lra|]. apply Z.lt_le_trans with (n - 1 + 1)%Z; [|lia]. apply Z.lt_succ_r. apply le_IZR. pose proof (Zfloor_lb x). fold i in H0. lra. }
  assert (Ri : reflect n i = i) by (apply reflect_id; lia). rewrite Ri.
  pose proof (H i Hi) as H1. replace (IZR i - x) with (- t) in H1 by (unfold t; ring). rewrite Rabs_Ropp, (Rabs_pos_eq t) in H1 by lra.
  destruct (Req_dec t 0) as [Z|Z].
  - rewrite Z in *. replace ((1 - 0) * a i + 0 * a (reflect n (i + 1)%Z) - v) with (a i - (v + s * - 0)) by ring. nra.
  - assert (Hi1 : (0 <= i + 1 < n)%Z).
    { split; [lia|]. apply lt_IZR. rewrite plus_IZR. assert (IZR i < IZR (n - 1)) by (unfold t in *; lra). apply lt_IZR in H0.
      rewrite <- plus_IZR. apply IZR_lt. lia. }
    rewrite (reflect_id n (i + 1)) by lia. pose proof (H (i + 1)%Z Hi1) as H2. rewrite plus_IZR in H2.
    replace (IZR i + 1 - x) with (1 - t) in H2 by (unfold t; ring). rewrite (Rabs_pos_eq (1 - t)) in H2 by lra.
    set (u := a i - (v + s * - t)) in *. set (w := a (i + 1)%Z - (v + s * (1 - t))) in *.
    replace ((1 - t) * a i + t * a (i + 1)%Z - v) with ((1 - t) * u + t * w) by (unfold u, w; ring).
    eapply Rle_trans; [apply Rabs_triang|]. rewrite !Rabs_mult, (Rabs_pos_eq (1 - t)), (Rabs_pos_eq t) by lra.
    assert ((1 - t) * Rabs u <= (1 - t) * (K + L * t + M / 2 * (t * t))) by (apply Rmult_le_compat_l; [lra|]; eapply Rle_trans; [exact H1|]; apply Req_le; ring).
    assert (t * Rabs w <= t * (K + L * (1 - t) + M / 2 * ((1 - t) * (1 - t)))) by (apply Rmult_le_compat_l; lra).
    assert (Q : t * (1 - t) <= / 4) by (assert (X := Rle_0_sqr (t - / 2)); unfold Rsqr in X; lra). assert (0 <= t * (1 - t)) by (apply Rmult_le_pos; lra).
    assert (L * (t * (1 - t)) <= L * / 4) by (apply Rmult_le_compat_l; lra). assert (M * (t * (1 - t)) <= M * / 4) by (apply Rmult_le_compat_l; lra).
    apply Rle_trans with (K + 2 * (L * (t * (1 - t))) + / 2 * (M * (t * (1 - t)))); [|lra]. eapply Rle_trans; [apply Rplus_le_compat; eassumption|]. apply Req_le. field.
Qed.
Lemma interp2 mat light L M y x a b : (0 < ih mat)%Z -> (0 < iw mat)%Z -> photograph mat light -> 0 <= L -> 0 <= M -> on_detector mat (y, x) ->
  (forall q, Rabs (light q - (light (y, x) + a * (py q - y) + b * (pxc q - x))) <=
     L * (Rabs (py q - y) + Rabs (pxc q - x)) + M / 2 * ((py q - y) * (py q - y) + (pxc q - x) * (pxc q - x))) ->
  Rabs (lin_sample mat y x - light (y, x)) <= L + M / 4.
Proof.
  intros Hh Hw Hp HL HM [Hy Hx] H. unfold py, pxc in *. cbn [fst snd] in *.
  assert (E : lin_sample mat y x = sumZ (ih mat) (fun i => tent (y - IZR i) * sumZ (iw mat) (fun j => tent (x - IZR j) * px mat i j))).
  { unfold lin_sample. apply sumZ_ext. intros i _. rewrite <- sumZ_scal. apply sumZ_ext. intros j _. ring. }
  rewrite E. replace (L + M / 4) with ((L / 2 + M / 8) + L / 2 + M / 8) by field.
  apply (interp1 (ih mat) _ y _ a); try assumption. intros i Hi.
  replace (L / 2 + M / 8 + L * Rabs (IZR i - y) + M / 2 * ((IZR i - y) * (IZR i - y)))
    with ((L * Rabs (IZR i - y) + M / 2 * ((IZR i - y) * (IZR i - y))) + L / 2 + M / 8) by ring.
  apply (interp1 (iw mat) _ x _ b); try assumption. intros j Hj. rewrite (Hp i j) by (unfold in_img; lia).
  specialize (H (IZR i, IZR j)). cbn [fst snd] in H. eapply Rle_trans; [exact H|]. apply Req_le. ring.
Qed.

Section Recover.
  Variables (mat : image R) (light : pt -> R) (L : R).
  Hypothesis (HL : 0 <= L) (Hp : photograph mat light) (Hs : steep L light).
  Lemma steps_ver i j : in_img mat i j -> in_img mat (i + 1) j -> Rabs (px mat (i + 1) j - px mat i j) <= L.
  Proof.
    intros A B. rewrite !Hp by assumption. eapply Rle_trans; [apply Hs|]. unfold py, pxc. cbn [fst snd]. rewrite plus_IZR.
    replace (IZR i + 1 - IZR i) with 1 by ring. rewrite Rminus_diag_eq by reflexivity. rewrite Rabs_R0, Rabs_R1. lra.
  Qed.
  Lemma steps_hor i j : in_img mat i j -> in_img mat i (j + 1) -> Rabs (px mat i (j + 1) - px mat i j) <= L.
  Proof.
    intros A B. rewrite !Hp by assumption. eapply Rle_trans; [apply Hs|]. unfold py, pxc. cbn [fst snd]. rewrite plus_IZR.
    replace (IZR j + 1 - IZR j) with 1 by ring. rewrite Rminus_diag_eq by reflexivity. rewrite Rabs_R0, Rabs_R1. lra.
  Qed.
  Hypothesis (Hh : (0 < ih mat)%Z) (Hw : (0 < iw mat)%Z).
  Lemma sample_steep y x : on_detector mat (y, x) -> Rabs (lin_sample mat y x - light (y, x)) <= L.
  Proof.
    intros D. replace L with (L + 0 / 4) by field. apply (interp2 mat light L 0 y x 0 0); try assumption; [lra|].
    intros q. specialize (Hs (y, x) q). unfold py, pxc in *. cbn [fst snd] in *. replace (light (y, x) + 0 * (fst q - y) + 0 * (snd q - x)) with (light (y, x)) by ring.
    eapply Rle_trans; [exact Hs|]. apply Req_le. field.
  Qed.
  Lemma sample_bent M y x : 0 <= M -> bent M light -> on_detector mat (y, x) -> Rabs (lin_sample mat y x - light (y, x)) <= M / 4.
  Proof.
    intros HM Hb D. destruct (Hb (y, x)) as [a [b B]]. replace (M / 4) with (0 + M / 4) by ring. apply (interp2 mat light 0 M y x a b); try assumption; [lra|].
    intros q. specialize (B q). cbv zeta in B. unfold py, pxc in *. cbn [fst snd] in *. eapply Rle_trans; [exact B|]. apply Req_le. ring.
  Qed.
End Recover.
Lemma clamp_on mat p : on_detector mat p -> clamp (py p) 0 (IZR (ih mat - 1)) = py p /\ clamp (pxc p) 0 (IZR (iw mat - 1)) = pxc p.
Proof.
  intros [A B]. unfold clamp. split; rewrite Rmin_left by lra; apply Rmax_right; lra.
Qed.

(** *** Radial distortion *)
(** Positions in double or exact arithmetic: the corrected picture shows the
    scene, up to the change of brightness over one pixel and the rounding of
    the positions (C107), wherever the scene reached the detector. *)
Theorem C110_scene : forall rnd mat light scene L xc yc fact, exact_or_double rnd -> (length fact <= 1000)%nat ->
  (0 < ih mat <= 2 ^ 24 + 1)%Z -> (0 < iw mat <= 2 ^ 24 + 1)%Z -> 0 <= L -> steep L light -> photograph mat light ->
  seen_through (radial_map fact (yc, xc)) scene light ->
  forall i j, in_img mat i j -> let q := (IZR i, IZR j) in on_detector mat (radial_map fact (yc, xc) q) ->
    Rabs (px (@unwarp_image_backward R (Rnum rnd) (@bilinear R Rex) mat xc yc fact) i j - scene q)
    <= L * (1 + (rounding_bound fact yc (dist q (yc, xc)) + rounding_bound fact xc (dist q (yc, xc)) + two (-24) * IZR (ih mat + iw mat - 2) + 2 * two (-150))).
Proof.
  intros rnd mat light scene L xc yc fact Hr Hn Hh Hw HL Hs Hp Ht i j Hij q D.
  assert (P := C107_pixels rnd mat xc yc fact L HL Hr Hn Hh Hw (steps_ver mat light L Hp Hs) (steps_hor mat light L Hp Hs) i j Hij). cbv zeta in P. fold q in P.
  destruct (clamp_on _ _ D) as [C1 C2]. rewrite C1, C2 in P. rewrite <- (Ht q).
  set (e := radial_map fact (yc, xc) q) in *. assert (S := sample_steep mat light L HL Hp Hs ltac:(lia) ltac:(lia) (py e) (pxc e) D).
  replace (py e, pxc e) with e in S by (unfold py, pxc; now destruct e).
  replace (px (@unwarp_image_backward R (Rnum rnd) (@bilinear R Rex) mat xc yc fact) i j - light e)
    with ((px (@unwarp_image_backward R (Rnum rnd) (@bilinear R Rex) mat xc yc fact) i j - lin_sample mat (py e) (pxc e)) + (lin_sample mat (py e) (pxc e) - light e)) by ring.
  eapply Rle_trans; [apply Rabs_triang|]. lra.
Qed.
Print Assumptions C110_scene.
(** In smooth pictures the first term is the bend of the brightness only. *)
Theorem C110_smooth : forall rnd mat light scene L M xc yc fact, exact_or_double rnd -> (length fact <= 1000)%nat ->
  (0 < ih mat <= 2 ^ 24 + 1)%Z -> (0 < iw mat <= 2 ^ 24 + 1)%Z -> 0 <= L -> 0 <= M -> steep L light -> bent M light -> photograph mat light ->
  seen_through (radial_map fact (yc, xc)) scene light ->
  forall i j, in_img mat i j -> let q := (IZR i, IZR j) in on_detector mat (radial_map fact (yc, xc) q) ->
    Rabs (px (@unwarp_image_backward R (Rnum rnd) (@bilinear R Rex) mat xc yc fact) i j - scene q)
    <= M / 4 + L * (rounding_bound fact yc (dist q (yc, xc)) + rounding_bound fact xc (dist q (yc, xc)) + two (-24) * IZR (ih mat + iw mat - 2) + 2 * two (-150)).
Proof.
  intros rnd mat light scene L M xc yc fact Hr Hn Hh Hw HL HM Hs Hb Hp Ht i j Hij q D.
  assert (P := C107_pixels rnd mat xc yc fact L HL Hr Hn Hh Hw (steps_ver mat light L Hp Hs) (steps_hor mat light L Hp Hs) i j Hij). cbv zeta in P. fold q in P.
  destruct (clamp_on _ _ D) as [C1 C2]. rewrite C1, C2 in P. rewrite <- (Ht q).
  set (e := radial_map fact (yc, xc) q) in *. assert (S := sample_bent mat light Hp ltac:(lia) ltac:(lia) M (py e) (pxc e) HM Hb D).
  replace (py e, pxc e) with e in S by (unfold py, pxc; now destruct e).
  replace (px (@unwarp_image_backward R (Rnum rnd) (@bilinear R Rex) mat xc yc fact) i j - light e)
    with ((px (@unwarp_image_backward R (Rnum rnd) (@bilinear R Rex) mat xc yc fact) i j - lin_sample mat (py e) (pxc e)) + (lin_sample mat (py e) (pxc e) - light e)) by ring.
  eapply Rle_trans; [apply Rabs_triang|]. lra.
Qed.
Print Assumptions C110_smooth.

(** *** Perspective distortion *)
(** The same for the eight coefficients of a perspective, with exact positions
    stored in single precision. *)
Theorem C110_perspective : forall mat light scene L c,
  (0 < ih mat <= 2 ^ 24 + 1)%Z -> (0 < iw mat <= 2 ^ 24 + 1)%Z -> length c = 8%nat -> 0 <= L -> steep L light -> photograph mat light ->
  seen_through (proj (coef_mat c)) scene light ->
  exists out, @correct_perspective_image R Rex (@bilinear R Rex) mat c None = Ok out /\ ih out = ih mat /\ iw out = iw mat /\
  forall i j, in_img mat i j -> let q := (IZR i, IZR j) in on_detector mat (proj (coef_mat c) q) ->
    Rabs (px out i j - scene q) <= L * (1 + (two (-24) * IZR (ih mat + iw mat - 2) + 2 * two (-150))).
Proof.
  intros mat light scene L c Hh Hw Lc HL Hs Hp Ht.
  destruct (C15_perspective_image mat c) as [out [E [E1 [E2 P]]]]; [lia|lia|exact Lc|]. exists out. split; [exact E|]. split; [exact E1|]. split; [exact E2|].
  intros i j Hij q D. destruct Hij as [Hi Hj]. rewrite (P i j Hi Hj). cbv zeta. change (zpt i j) with q.
  destruct (clamp_on _ _ D) as [C1 C2]. rewrite <- (Ht q). set (e := proj (coef_mat c) q) in *.
  assert (S := sample_steep mat light L HL Hp Hs ltac:(lia) ltac:(lia) (py e) (pxc e) D). replace (py e, pxc e) with e in S by (unfold py, pxc; now destruct e).
  assert (Q1 := single_err (py e)). assert (Q2 := single_err (pxc e)). destruct D as [D1 D2].
  rewrite (Rabs_pos_eq (py e)) in Q1 by lra. rewrite (Rabs_pos_eq (pxc e)) in Q2 by lra.
  assert (R1 : 0 <= f32 (py e) <= IZR (ih mat - 1)) by (rewrite <- C1; apply f32_clamp_range; lia).
  assert (R2 : 0 <= f32 (pxc e) <= IZR (iw mat - 1)) by (rewrite <- C2; apply f32_clamp_range; lia).
  assert (LL := image_lipschitz mat L (f32 (py e)) (f32 (pxc e)) (py e) (pxc e) ltac:(lia) ltac:(lia) R1 D1 R2 D2 (steps_ver mat light L Hp Hs) (steps_hor mat light L Hp Hs)).
  rewrite C1, C2.
  replace (lin_sample mat (f32 (py e)) (f32 (pxc e)) - light e)
    with ((lin_sample mat (f32 (py e)) (f32 (pxc e)) - lin_sample mat (py e) (pxc e)) + (lin_sample mat (py e) (pxc e) - light e)) by ring.
  eapply Rle_trans; [apply Rabs_triang|].
  assert (T24 : 0 < bpow radix2 (-24)) by apply bpow_gt_0.
  assert (B1 : bpow radix2 (-24) * py e <= bpow radix2 (-24) * IZR (ih mat - 1)) by (apply Rmult_le_compat_l; lra).
  assert (B2 : bpow radix2 (-24) * pxc e <= bpow radix2 (-24) * IZR (iw mat - 1)) by (apply Rmult_le_compat_l; lra).
  assert (L * (Rabs (f32 (py e) - py e) + Rabs (f32 (pxc e) - pxc e)) <= L * (two (-24) * IZR (ih mat + iw mat - 2) + 2 * two (-150))).
  { apply Rmult_le_compat_l; [exact HL|]. replace (ih mat + iw mat - 2)%Z with ((ih mat - 1) + (iw mat - 1))%Z by lia. rewrite plus_IZR. unfold two. lra. }
  lra.
Qed.
Print Assumptions C110_perspective.

(** *** A case *)
(** A lens that halves: the scene 10 |x - 50| of 101 x 101 points is
    recovered in double precision within a little more than one step of
    brightness, at every pixel. *)
Example C110_case : let scene := fun q : pt => 10 * Rabs (pxc q - 50) in
  let light := fun p : pt => 20 * Rabs (pxc p - 50) in
  let mat := mkimg 101 101 (fun i j => light (IZR i, IZR j)) in
  forall i j, in_img mat i j ->
    Rabs (px (@unwarp_image_backward R (Rnum f64) (@bilinear R Rex) mat 50 50 [1 / 2]) i j - scene (IZR i, IZR j)) <= 20 * (1 + two (-15)).
Proof.
  intros scene light mat i j Hij.
  assert (A : Rabs (1 / 2) = 1 / 2) by (apply Rabs_pos_eq; lra).
  assert (RM : forall q, radial_map [1 / 2] (50, 50) q = (50 + 1 / 2 * (py q - 50), 50 + 1 / 2 * (pxc q - 50))).
  { intros q. unfold radial_map, padd, pscale, psub, py, pxc. cbn [poly fst snd]. f_equal; field. }
  assert (St : steep 20 light).
  { intros p q. unfold light. replace (20 * Rabs (pxc q - 50) - 20 * Rabs (pxc p - 50)) with (20 * (Rabs (pxc q - 50) - Rabs (pxc p - 50))) by ring.
    rewrite Rabs_mult, (Rabs_pos_eq 20) by lra. apply Rmult_le_compat_l; [lra|].
    pose proof (Rabs_triang_inv2 (pxc q - 50) (pxc p - 50)) as T. replace (pxc q - 50 - (pxc p - 50)) with (pxc q - pxc p) in T by ring. pose proof (Rabs_pos (py q - py p)). lra. }
  assert (Se : seen_through (radial_map [1 / 2] (50, 50)) scene light).
  { intros q. unfold light, scene. rewrite RM. unfold py, pxc. cbn [fst snd]. replace (50 + 1 / 2 * (snd q - 50) - 50) with (1 / 2 * (snd q - 50)) by ring.
    rewrite Rabs_mult, A. lra. }
  assert (Hb : in_img mat i j) by exact Hij. destruct Hb as [Hi Hj]. cbn [mat ih iw] in Hi, Hj.
  assert (Ri : 0 <= IZR i <= 100) by (split; apply IZR_le; lia). assert (Rj : 0 <= IZR j <= 100) by (split; apply IZR_le; lia).
  assert (D : on_detector mat (radial_map [1 / 2] (50, 50) (IZR i, IZR j))).
  { rewrite RM. unfold on_detector, py, pxc. cbn [fst snd mat ih iw]. change (101 - 1)%Z with 100%Z. lra. }
  pose proof (C110_scene f64 mat light scene 20 50 50 [1 / 2] (or_intror (fun x => eq_refl)) ltac:(cbn; lia) ltac:(cbn [ih mat]; lia) ltac:(cbn [iw mat]; lia) ltac:(lra) St
    ltac:(intros a b _; reflexivity) Se i j Hij D) as P.
  eapply Rle_trans; [exact P|]. apply Rmult_le_compat_l; [lra|]. apply Rplus_le_compat_l.
  assert (Dd : dist (IZR i, IZR j) (50, 50) <= 100).
  { unfold dist, py, pxc. cbn [fst snd]. rewrite <- (sqrt_square 100) by lra. apply sqrt_le_1_alt. nra. }
  assert (B : rounding_bound [1 / 2] 50 (dist (IZR i, IZR j) (50, 50)) <= two (-26)).
  { apply C107_small; [cbn; lia|rewrite Rabs_pos_eq; lra|lra|]. cbn [map poly]. rewrite A. lra. }
  cbn [ih iw mat]. change (IZR (101 + 101 - 2)) with 200.
  assert (T1 : two (-26) = two (-24) / 4) by (unfold two; cbn; lra). assert (T2 : two (-15) = 512 * two (-24)) by (unfold two; cbn; lra).
  assert (T3 : two (-150) <= two (-24)) by (apply bpow_le; lia). assert (T4 : 0 < two (-24)) by apply bpow_gt_0. lra.
Qed.

(** *** From the calibration to the corrected picture *)
(** Dots in straight rows and columns (undistorted positions u from the
    centre) seen through the lens, as in C97: correcting any other picture
    taken through the same lens with the coefficients that calc_coef_backward
    returns shows the scene. *)
Theorem C110_calibrated : forall rnd polyfit minimize lstsq cs ds qh qv lh lv xc yc num_fact opt thr w uh uv P mat light scene L,
  polyfit_oracle polyfit -> lstsq_oracle lstsq -> let n := Z.to_nat (Z.max 1 num_fact) in (n <= 1000)%nat ->
  let lens := radial_map P (yc, xc) in
  lh = map (map lens) qh -> lv = map (map lens) qv ->
  Forall2 (bent_hor xc yc) cs lh -> Forall2 (bent_ver xc yc) ds lv ->
  @calc_undistor_intercept R Rexact polyfit minimize lh lv xc yc opt thr = Ok (w, (uh, uv)) ->
  Forall2 (fun u line => forall q, In q line -> py q = yc + u) uh qh ->
  Forall2 (fun u line => forall q, In q line -> pxc q = xc + u) uv qv ->
  (forall u, In u (uh ++ uv) -> u <> 0) -> (1 <= length (uh ++ uv))%nat ->
  length P = n -> (forall q, In q (concat qh ++ concat qv) -> 0 < poly P (dist q (yc, xc))) ->
  distinct_values n (map (fun q => dist q (yc, xc)) (concat qh ++ concat qv)) ->
  exact_or_double rnd -> (0 < ih mat <= 2 ^ 24 + 1)%Z -> (0 < iw mat <= 2 ^ 24 + 1)%Z -> 0 <= L -> steep L light -> photograph mat light ->
  seen_through lens scene light ->
  exists B, @calc_coef_backward R Rexact polyfit minimize lstsq lh lv xc yc num_fact opt thr = Ok B /\
  forall i j, in_img mat i j -> let q := (IZR i, IZR j) in on_detector mat (lens q) ->
    Rabs (px (@unwarp_image_backward R (Rnum rnd) (@bilinear R Rex) mat xc yc B) i j - scene q)
    <= L * (1 + (rounding_bound P yc (dist q (yc, xc)) + rounding_bound P xc (dist q (yc, xc)) + two (-24) * IZR (ih mat + iw mat - 2) + 2 * two (-150))).
Proof.
  intros rnd polyfit minimize lstsq cs ds qh qv lh lv xc yc num_fact opt thr w uh uv P mat light scene L PF LS n Hn lens Eh Ev Bh Bv E Uh Uv Un U1 LP Pos Dist Hr Hh Hw HL Hs Hp Ht.
  destruct (C97_backward_exact (fun x => x) polyfit minimize lstsq cs ds qh qv lh lv xc yc num_fact opt thr w uh uv P PF LS) as [B [EB [_ [_ [_ U]]]]];
    try assumption; [lia|reflexivity|tauto|]. specialize (U Dist). subst B. exists P. split; [exact EB|].
  intros i j Hij q D. apply (C110_scene rnd mat light scene L xc yc P); try assumption. lia.
Qed.
Print Assumptions C110_calibrated.
(** The bent lines of C97 as the calibration target; any picture whose
    brightness is steep at most L. *)
Example C110_calibrated_case : exists P, length P = 4%nat /\ poly P 1 = 1 /\ poly P (5/4) = 4/3 /\
  forall mat light L, (0 < ih mat <= 2 ^ 24 + 1)%Z -> (0 < iw mat <= 2 ^ 24 + 1)%Z -> 0 <= L -> steep L light -> photograph mat light ->
  exists B, @calc_coef_backward R Rexact pf_R min_R ls_R ex_hor ex_ver 0 0 4 false (1/10) = Ok B /\
  forall i j, in_img mat i j -> let q := (IZR i, IZR j) in let scene := fun q => light (radial_map P (0, 0) q) in on_detector mat (radial_map P (0, 0) q) ->
    Rabs (px (@unwarp_image_backward R (Rnum f64) (@bilinear R Rex) mat 0 0 B) i j - scene q)
    <= L * (1 + (rounding_bound P 0 (dist q (0, 0)) + rounding_bound P 0 (dist q (0, 0)) + two (-24) * IZR (ih mat + iw mat - 2) + 2 * two (-150))).
Proof.
  destruct (interpolate [(1, 1); (3, 1); (5/4, 4/3); (3/4 * sqrt 17, 4/3)] ex_nodup_back) as [P [LP HP]].
  assert (P1 : poly P 1 = 1) by (apply (HP (1, 1)); cbn; auto). assert (P2 : poly P 3 = 1) by (apply (HP (3, 1)); cbn; auto).
  assert (P3 : poly P (5/4) = 4/3) by (apply (HP (5/4, 4/3)); cbn; auto). assert (P4 : poly P (3/4 * sqrt 17) = 4/3) by (apply (HP (3/4 * sqrt 17, 4/3)); cbn; auto 6).
  assert (S17 : sqrt 17 * sqrt 17 = 17) by (apply sqrt_sqrt; lra). assert (S0 : 0 <= sqrt 17) by apply sqrt_pos.
  assert (RM : forall p q k, 0 <= k -> k * k = py p * py p + pxc p * pxc p -> q = (0 + poly P k * (py p - 0), 0 + poly P k * (pxc p - 0)) -> radial_map P (0, 0) p = q).
  { intros [y x] q k Hk E ->. unfold radial_map. rewrite (ex_dist y x k Hk E). reflexivity. }
  destruct ex_bent as [Bh Bv].
  assert (DH : ex_hor = map (map (radial_map P (0, 0))) ex_straight_hor).
  { unfold ex_hor, ex_straight_hor, ex_cs. cbn [map fst snd]. symmetry. unfold pt. repeat (apply f_equal2; try reflexivity);
      first [ apply (RM _ _ 1); unfold py, pxc; cbn [fst snd]; [lra|lra|rewrite P1; f_equal; lra]
            | apply (RM _ _ 3); unfold py, pxc; cbn [fst snd]; [lra|lra|rewrite P2; f_equal; lra]
            | apply (RM _ _ (5/4)); unfold py, pxc; cbn [fst snd]; [lra|lra|rewrite P3; f_equal; lra]
            | apply (RM _ _ (3/4 * sqrt 17)); unfold py, pxc; cbn [fst snd]; [lra|lra|rewrite P4; f_equal; lra] ]. }
  assert (DV : ex_ver = map (map (radial_map P (0, 0))) ex_straight_ver).
  { unfold ex_ver, ex_hor, ex_straight_ver, ex_straight_hor, ex_cs. cbn [map fst snd]. symmetry. unfold pt. repeat (apply f_equal2; try reflexivity);
      first [ apply (RM _ _ 1); unfold py, pxc; cbn [fst snd]; [lra|lra|rewrite P1; f_equal; lra]
            | apply (RM _ _ 3); unfold py, pxc; cbn [fst snd]; [lra|lra|rewrite P2; f_equal; lra]
            | apply (RM _ _ (5/4)); unfold py, pxc; cbn [fst snd]; [lra|lra|rewrite P3; f_equal; lra]
            | apply (RM _ _ (3/4 * sqrt 17)); unfold py, pxc; cbn [fst snd]; [lra|lra|rewrite P4; f_equal; lra] ]. }
  exists P. split; [exact LP|]. split; [exact P1|]. split; [exact P3|]. intros mat light L Hh Hw HL Hs Hph.
  apply (C110_calibrated f64 pf_R min_R ls_R ex_cs ex_cs ex_straight_hor ex_straight_ver ex_hor ex_ver 0 0 4 false (1/10) false
    [-3; -1; 1; 3] [-3; -1; 1; 3] P mat light (fun q => light (radial_map P (0, 0) q)) L pf_R_ok ls_R_ok ltac:(cbn; lia) DH DV Bh Bv (ex_positions false)).
  - unfold ex_straight_hor. cbn [map]. repeat (apply Forall2_cons || apply Forall2_nil); ex_dots; unfold py; cbn [fst]; lra.
  - unfold ex_straight_ver, ex_straight_hor. cbn [map fst snd]. repeat (apply Forall2_cons || apply Forall2_nil); ex_dots; unfold pxc; cbn [snd]; lra.
  - intros u Hu. cbn [In app] in Hu. intuition lra.
  - cbn. lia.
  - exact LP.
  - unfold ex_straight_ver, ex_straight_hor. cbn [map concat app fst snd]. ex_dots;
      match goal with |- context [dist (?y, ?x) (0, 0)] =>
      first [ rewrite (ex_dist y x 1) by lra; rewrite P1 | rewrite (ex_dist y x 3) by lra; rewrite P2
            | rewrite (ex_dist y x (5/4)) by lra; rewrite P3 | rewrite (ex_dist y x (3/4 * sqrt 17)) by lra; rewrite P4 ] end; lra.
  - exists [1; 3; 5/4; 3/4 * sqrt 17]. split; [exact ex_nodup_back|]. split; [|cbn; lia].
    intros x Hx. apply in_map_iff. unfold ex_straight_ver, ex_straight_hor. cbn [map concat app fst snd].
    destruct Hx as [<-|[<-|[<-|[<-|[]]]]].
    + exists (1, 0). split; [apply ex_dist; lra|cbn; auto 30].
    + exists (3, 0). split; [apply ex_dist; lra|cbn; auto 30].
    + exists (1, 3/4). split; [apply ex_dist; lra|cbn; auto 30].
    + exists (3, 3/4). split; [apply ex_dist; lra|cbn; auto 30].
  - right. reflexivity.
  - exact Hh.
  - exact Hw.
  - exact HL.
  - exact Hs.
  - exact Hph.
  - intros q. reflexivity.
Qed.
