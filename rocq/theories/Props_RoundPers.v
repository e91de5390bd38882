(** C114: rounding errors of the perspective correction. *)
From Coq Require Import Reals ZArith List Lra Lia.
From Flocq Require Import Core Relative.
From Verif Require Import Base Num NumFacts Spec Lsq Img Post PostPersp PostLines2 PostExtra RoundFacts Props_Post Props_Round Props_Scene.
Import ListNotations.
Local Open Scope R_scope.

(** *** Specification *)
(** The size of the terms of a x + b y + c. *)
Definition terms (a b c : R) (p : pt) : R := Rabs (a * pxc p) + Rabs (b * py p) + Rabs c.
(** The error of (a x + b y + c) / (g x + h y + 1): the terms of the numerator
    and of the denominator relative to the denominator, 48 bits down. *)
Definition quotient_bound (a b c g h : R) (p : pt) : R :=
  let d := g * pxc p + h * py p + 1 in
  two (-48) * (terms a b c p + two (-1000) + Rabs ((a * pxc p + b * py p + c) / d) * terms g h 1 p) / Rabs d + two (-1074).
Definition bound_y (c : list R) (p : pt) : R :=
  let m := coef_mat c in quotient_bound (c4 m) (c5 m) (c6 m) (c7 m) (c8 m) p.
Definition bound_x (c : list R) (p : pt) : R :=
  let m := coef_mat c in quotient_bound (Spec.c1 m) (c2 m) (c3 m) (c7 m) (c8 m) p.
(** The denominator is not lost to cancellation. *)
Definition resolved (c : list R) (p : pt) : Prop :=
  let m := coef_mat c in two (-48) * terms (c7 m) (c8 m) 1 p <= Rabs (den m p).

(** *** One quotient *)
Section Quot.
  Variable rnd : R -> R.
  Hypothesis Hr : exact_or_double rnd.
  Let v := bpow radix2 (-52).
  Let u := bpow radix2 (-1022).
  Let v0 : 0 <= v. Proof. apply bpow_ge_0. Qed.
  Lemma eu : bpow radix2 (-1075) <= v / 2 * u.
  Proof.
    apply Req_le. unfold v, u. replace (bpow radix2 (-52) / 2) with (bpow radix2 (-53)).
    - now rewrite <- bpow_plus.
    - change (-52)%Z with (-53 + 1)%Z. rewrite bpow_plus_1. change (IZR radix2) with 2. field.
  Qed.
  Lemma prod_near a x : near v 1 (Rabs (a * x) + u) (rnd (a * x)) (a * x).
  Proof.
    pose proof (bpow_gt_0 radix2 (-1022)) as Pu. pose proof (Rabs_pos (a * x)). fold u in Pu.
    apply (near_rnd v v0 rnd (bpow radix2 (-1075)) (double_err rnd Hr)); [apply near_refl; lra|].
    pose proof eu. assert (v / 2 * u <= v / 2 * (Rabs (a * x) + u)) by (apply Rmult_le_compat_l; lra). lra.
  Qed.
  Lemma sum_near a b c p : near v 3 (terms a b c p + 2 * u) (rnd (rnd (rnd (a * pxc p) + rnd (b * py p)) + c)) (a * pxc p + b * py p + c).
  Proof.
    pose proof (bpow_gt_0 radix2 (-1022)) as Pu. fold u in Pu. pose proof eu as EU. unfold terms.
    pose proof (Rabs_pos (a * pxc p)) as P1. pose proof (Rabs_pos (b * py p)) as P2. pose proof (Rabs_pos c) as P3.
    set (A := Rabs (a * pxc p)) in *. set (B := Rabs (b * py p)) in *.
    assert (M : forall X, u <= X -> bpow radix2 (-1075) <= v / 2 * X).
    { intros X HX. eapply Rle_trans; [exact EU|]. apply Rmult_le_compat_l; lra. }
    assert (N1 := near_add v _ _ _ _ _ _ _ (prod_near a (pxc p)) (prod_near b (py p))). fold A B in N1.
    assert (N2 := near_rnd v v0 rnd _ (double_err rnd Hr) _ _ _ _ N1 (M (A + u + (B + u)) ltac:(lra))).
    assert (N3 : near v 2 (Rabs c) c c) by (apply (near_le v v0 0 2 (Rabs c)); [apply near_refl; lra|lia|lra]).
    assert (N4 := near_rnd v v0 rnd _ (double_err rnd Hr) _ _ _ _ (near_add v _ _ _ _ _ _ _ N2 N3) (M (A + u + (B + u) + Rabs c) ltac:(lra))).
    apply (near_le v v0 3 3 _ _ _ _ N4); [lia|lra].
  Qed.
  Lemma quot_near a b c g h p : two (-48) * terms g h 1 p <= Rabs (g * pxc p + h * py p + 1) ->
    Rabs (rnd (rnd (rnd (rnd (a * pxc p) + rnd (b * py p)) + c) / rnd (rnd (rnd (g * pxc p) + rnd (h * py p)) + 1))
          - (a * pxc p + b * py p + c) / (g * pxc p + h * py p + 1)) <= quotient_bound a b c g h p.
  Proof.
    intros HD. unfold quotient_bound. cbv zeta.
    destruct (sum_near a b c p) as [A1 A2]. destruct (sum_near g h 1 p) as [B1 B2].
    set (N := a * pxc p + b * py p + c) in *. set (D := g * pxc p + h * py p + 1) in *.
    set (N' := rnd (rnd (rnd (a * pxc p) + rnd (b * py p)) + c)) in *. set (D' := rnd (rnd (rnd (g * pxc p) + rnd (h * py p)) + 1)) in *.
    assert (Hg : terms g h 1 p >= 1). { unfold terms. rewrite Rabs_R1. pose proof (Rabs_pos (g * pxc p)). pose proof (Rabs_pos (h * py p)). lra. }
    assert (Hn : 0 <= terms a b c p). { unfold terms. pose proof (Rabs_pos (a * pxc p)). pose proof (Rabs_pos (b * py p)). pose proof (Rabs_pos c). lra. }
    set (SN := terms a b c p) in *. set (SD := terms g h 1 p) in *. clearbody N D N' D' SN SD.
    assert (V48 : two (-48) = 16 * v) by (unfold two, v; change (-48)%Z with (4 + -52)%Z; rewrite bpow_plus; reflexivity).
    assert (Vs : v <= / 1024) by (unfold v; apply Rle_trans with (bpow radix2 (-10)); [apply bpow_le; lia|cbn; lra]).
    assert (Vp : 0 < v) by apply bpow_gt_0.
    assert (Up : 0 < u) by apply bpow_gt_0.
    assert (U1 : 2 * u <= two (-1000)).
    { unfold u, two. change (2 * bpow radix2 (-1022)) with (IZR radix2 * bpow radix2 (-1022)). rewrite <- (bpow_plus_1 radix2). apply bpow_le. lia. }
    assert (U2 : 2 * u <= / 64).
    { eapply Rle_trans; [exact U1|]. unfold two. apply Rle_trans with (bpow radix2 (-6)); [apply bpow_le; lia|cbn; lra]. }
    assert (G : gam v 3 <= 25 / 4 * v).
    { unfold gam. cbn [pow]. replace ((1 + v) * ((1 + v) * ((1 + v) * 1)) - 1) with (v * (3 + 3 * v + v * v)) by ring. rewrite Rmult_comm. apply Rmult_le_compat_r; nra. }
    assert (G0 : gam v 3 <= 13 / 4 * v).
    { unfold gam. cbn [pow]. replace ((1 + v) * ((1 + v) * ((1 + v) * 1)) - 1) with (v * (3 + 3 * v + v * v)) by ring. rewrite (Rmult_comm (13 / 4)). apply Rmult_le_compat_l; nra. }
    clear G. assert (G1 := gam_pos v v0 3).
    assert (EN : Rabs (N' - N) <= 13 / 4 * v * (SN + 2 * u)) by (eapply Rle_trans; [exact A2|]; apply Rmult_le_compat_r; lra).
    assert (ED : Rabs (D' - D) <= 10 / 3 * v * SD).
    { eapply Rle_trans; [exact B2|]. apply Rle_trans with (13 / 4 * v * (SD + 2 * u)); [apply Rmult_le_compat_r; lra|]. nra. }
    rewrite V48 in HD |- *.
    assert (PD : 0 < Rabs D) by nra.
    assert (D2 : Rabs D * (3 / 4) <= Rabs D').
    { assert (Rabs D <= Rabs D' + Rabs (D' - D)). { replace D with (D' + - (D' - D)) at 1 by ring. eapply Rle_trans; [apply Rabs_triang|]. rewrite Rabs_Ropp. lra. }
      lra. }
    assert (ND : D <> 0) by (intros ->; rewrite Rabs_R0 in PD; lra).
    assert (ND' : D' <> 0) by (intros Z; rewrite Z, Rabs_R0 in D2; lra).
    set (q := N / D). set (q' := N' / D').
    assert (Q : Rabs (q' - q) <= 40 / 9 * v * (SN + 2 * u + Rabs q * SD) / Rabs D).
    { assert (E : q' - q = ((N' - N) - q * (D' - D)) / D') by (unfold q, q'; field; split; assumption).
      rewrite E. unfold Rdiv at 1. rewrite Rabs_mult, Rabs_inv.
      apply Rle_trans with ((10 / 3 * v * (SN + 2 * u + Rabs q * SD)) * (/ (Rabs D * (3 / 4)))).
      - apply Rmult_le_compat; [apply Rabs_pos|apply Rlt_le, Rinv_0_lt_compat; lra| |apply Rinv_le_contravar; lra].
        unfold Rminus at 1. eapply Rle_trans; [apply Rabs_triang|]. rewrite Rabs_Ropp, Rabs_mult.
        assert (Rabs q * Rabs (D' - D) <= Rabs q * (10 / 3 * v * SD)) by (apply Rmult_le_compat_l; [apply Rabs_pos|exact ED]). 
        assert (0 <= v * (SN + 2 * u)) by (apply Rmult_le_pos; lra). lra.
      - apply Req_le. field. lra. }
    pose proof (double_err rnd Hr q') as DE. fold v in DE.
    assert (QS : Rabs q <= Rabs q * (SD + 2 * u) / Rabs D).
    { unfold Rdiv. rewrite Rmult_assoc. rewrite <- (Rmult_1_r (Rabs q)) at 1. apply Rmult_le_compat_l; [apply Rabs_pos|].
      apply (Rmult_le_reg_r (Rabs D)); [exact PD|]. rewrite Rmult_assoc, Rinv_l by lra. lra. }
    assert (B74 : bpow radix2 (-1075) <= two (-1074)) by (unfold two; apply bpow_le; lia).
    set (W := (SN + two (-1000) + Rabs q * SD) / Rabs D).
    assert (PI : 0 < / Rabs D) by now apply Rinv_0_lt_compat.
    assert (W1 : (SN + 2 * u + Rabs q * SD) / Rabs D <= W).
    { unfold W, Rdiv. apply Rmult_le_compat_r; [lra|]. lra. }
    assert (W2 : Rabs q * (SD + 2 * u) / Rabs D <= 2 * W).
    { unfold W, Rdiv. rewrite <- (Rmult_assoc 2). apply Rmult_le_compat_r; [lra|]. pose proof (Rabs_pos q) as Pq.
      assert (Rabs q * (SD + 2 * u) <= Rabs q * (2 * SD)) by (apply Rmult_le_compat_l; lra).
      assert (0 < two (-1000)) by apply bpow_gt_0. lra. }
    assert (PW : 0 <= W). { unfold W, Rdiv. apply Rmult_le_pos; [|lra]. assert (0 < two (-1000)) by apply bpow_gt_0. pose proof (Rabs_pos q). assert (0 <= Rabs q * SD) by (apply Rmult_le_pos; lra). lra. }
    replace (16 * v * (SN + two (-1000) + Rabs q * SD) / Rabs D) with (16 * v * W) by (unfold W, Rdiv; ring).
    assert (Q1 : Rabs (q' - q) <= 40 / 9 * v * W).
    { eapply Rle_trans; [exact Q|]. unfold Rdiv at 1. rewrite Rmult_assoc. apply Rmult_le_compat_l; [lra|]. exact W1. }
    assert (Q2 : Rabs q' <= 2 * W + 40 / 9 * v * W).
    { replace q' with (q + (q' - q)) by ring. eapply Rle_trans; [apply Rabs_triang|]. lra. }
    replace (rnd q' - q) with ((rnd q' - q') + (q' - q)) by ring. eapply Rle_trans; [apply Rabs_triang|].
    assert (v / 2 * Rabs q' <= v / 2 * (2 * W + 40 / 9 * v * W)) by (apply Rmult_le_compat_l; lra).
    assert (v * (v * W) <= / 1024 * (v * W)) by (apply Rmult_le_compat_r; [apply Rmult_le_pos; lra|exact Vs]).
    assert (0 <= v * W) by (apply Rmult_le_pos; lra). lra.
  Qed.
End Quot.

(** *** Points *)
(** correct_perspective_line in double precision: every corrected point is the
    image under the projective map up to the bound. *)
Theorem C114_points : forall rnd lines c, exact_or_double rnd -> length c = 8%nat -> Forall (Forall (resolved c)) lines ->
  exists out, @correct_perspective_line R (Rnum rnd) lines c = Ok out /\
    Forall2 (Forall2 (fun p q => let e := proj (coef_mat c) p in
      Rabs (py q - py e) <= bound_y c p /\ Rabs (pxc q - pxc e) <= bound_x c p)) lines out.
Proof.
  intros rnd lines c Hr Hc F.
  do 8 (destruct c as [|? c]; [discriminate|]). destruct c; [|discriminate]. clear Hc.
  unfold correct_perspective_line. cbn [unpack8 bind]. eexists. split; [reflexivity|].
  induction F as [|l lines Hl _ IH]; cbn [map]; constructor; [clear IH|exact IH].
  induction Hl as [|p l Hp _ IH]; cbn [map]; constructor; [clear IH|exact IH]. cbv zeta.
  unfold bound_y, bound_x, resolved, coef_mat, den, proj in *. cbn in Hp |- *. split; exact (quot_near rnd Hr _ _ _ _ _ p Hp).
Qed.
Print Assumptions C114_points.
(** How small: on detectors of up to 65536 pixels, where the coefficients of
    numerator and denominator are such that the corrected point is at most
    four detectors away and the denominator is not below one half, the error is
    below 2^-26 of a pixel. *)
Theorem C114_small : forall a b c g h p, terms a b c p <= 4 * 65536 -> terms g h 1 p <= 2 -> / 2 <= Rabs (g * pxc p + h * py p + 1) ->
  quotient_bound a b c g h p <= two (-26) /\ two (-48) * terms g h 1 p <= Rabs (g * pxc p + h * py p + 1).
Proof.
  intros a b c g h p HN HS HD. unfold quotient_bound. cbv zeta.
  assert (T48 : two (-48) = / 281474976710656) by (unfold two; cbn; lra).
  assert (T26 : two (-26) = / 67108864) by (unfold two; cbn; lra).
  assert (S0 : two (-1000) <= / 1024) by (unfold two; apply Rle_trans with (bpow radix2 (-10)); [apply bpow_le; lia|cbn; lra]).
  assert (S1 : two (-1074) <= / 1073741824) by (unfold two; apply Rle_trans with (bpow radix2 (-30)); [apply bpow_le; lia|cbn; lra]).
  split; [|rewrite T48; lra].
  set (N := a * pxc p + b * py p + c) in *. set (D := g * pxc p + h * py p + 1) in *.
  assert (AN : Rabs N <= terms a b c p).
  { unfold N, terms. eapply Rle_trans; [apply Rabs_triang|]. apply Rplus_le_compat_r, Rabs_triang. }
  assert (PS : 0 <= terms g h 1 p) by (unfold terms; rewrite Rabs_R1; pose proof (Rabs_pos (g * pxc p)); pose proof (Rabs_pos (h * py p)); lra).
  assert (ID : 0 < / Rabs D <= 2). { split; [apply Rinv_0_lt_compat; lra|]. rewrite <- (Rinv_inv 2). apply Rinv_le_contravar; lra. }
  assert (Q : Rabs (N / D) <= 4 * 65536 * 2).
  { unfold Rdiv. rewrite Rabs_mult, Rabs_inv. apply Rmult_le_compat; [apply Rabs_pos|lra|lra|lra]. }
  assert (QS : Rabs (N / D) * terms g h 1 p <= 4 * 65536 * 2 * 2) by (apply Rmult_le_compat; [apply Rabs_pos|lra|lra|lra]).
  unfold Rdiv at 1.
  assert (X : two (-48) * (terms a b c p + two (-1000) + Rabs (N / D) * terms g h 1 p) * / Rabs D <= two (-48) * (4 * 65536 + 1 + 4 * 65536 * 2 * 2) * 2).
  { apply Rmult_le_compat; [|lra| |lra].
    - apply Rmult_le_pos; [rewrite T48; lra|]. assert (0 < two (-1000)) by apply bpow_gt_0. assert (0 <= Rabs (N / D) * terms g h 1 p) by (apply Rmult_le_pos; [apply Rabs_pos|lra]). pose proof (Rabs_pos N). lra.
    - apply Rmult_le_compat_l; [rewrite T48; lra|]. lra. }
  rewrite T48 in *. rewrite T26. lra.
Qed.
Print Assumptions C114_small.

(** *** Images *)
Lemma clipped_bound n v e B : (0 < n)%Z -> Rabs (v - e) <= B ->
  Rabs (f32 (clamp v 0 (IZR (n - 1))) - clamp e 0 (IZR (n - 1))) <= B + two (-24) * IZR (n - 1) + two (-150).
Proof.
  intros Hp HB. assert (Pn : 0 <= IZR (n - 1)) by (apply IZR_le; lia).
  assert (CL : forall a b n, 0 <= n -> Rabs (clamp a 0 n - clamp b 0 n) <= Rabs (a - b)).
  { intros a b m Pm. unfold clamp, Rmax, Rmin. repeat destruct Rle_dec; unfold Rabs; repeat destruct Rcase_abs; lra. }
  set (cv := clamp v 0 (IZR (n - 1))).
  assert (Rw : 0 <= cv <= IZR (n - 1)) by (apply clamp_range; assumption).
  pose proof (single_err cv) as S1. rewrite (Rabs_pos_eq cv) in S1 by lra. specialize (CL v e (IZR (n - 1)) Pn). fold cv in CL.
  replace (f32 cv - clamp e 0 (IZR (n - 1))) with ((f32 cv - cv) + (cv - clamp e 0 (IZR (n - 1)))) by ring.
  eapply Rle_trans; [apply Rabs_triang|]. assert (0 < bpow radix2 (-24)) by apply bpow_gt_0.
  assert (bpow radix2 (-24) * cv <= bpow radix2 (-24) * IZR (n - 1)) by (apply Rmult_le_compat_l; lra). unfold two. lra.
Qed.
(** Where the image is sampled, for any interpolation. *)
Theorem C114_positions : forall rnd mat c, exact_or_double rnd -> length c = 8%nat -> (0 < ih mat)%Z -> (0 < iw mat)%Z ->
  exists Y X : Z -> Z -> R,
  (forall interp, exists out, @correct_perspective_image R (Rnum rnd) interp mat c None = Ok out /\ ih out = ih mat /\ iw out = iw mat /\
     forall i j, in_img mat i j -> px out i j = interp mat (Y i j) (X i j)) /\
  (forall i j, ((ih mat <= 2 ^ 24 + 1)%Z -> 0 <= Y i j <= IZR (ih mat - 1)) /\ ((iw mat <= 2 ^ 24 + 1)%Z -> 0 <= X i j <= IZR (iw mat - 1))) /\
  forall i j, let p := (IZR i, IZR j) in let e := proj (coef_mat c) p in resolved c p ->
    Rabs (Y i j - clamp (py e) 0 (IZR (ih mat - 1))) <= bound_y c p + two (-24) * IZR (ih mat - 1) + two (-150) /\
    Rabs (X i j - clamp (pxc e) 0 (IZR (iw mat - 1))) <= bound_x c p + two (-24) * IZR (iw mat - 1) + two (-150).
Proof.
  intros rnd mat c Hr Hc Hh Hw.
  assert (Hc' := Hc). do 8 (destruct c as [|? c]; [discriminate|]). destruct c; [|discriminate].
  match goal with |- context [proj (coef_mat ?l)] => set (cl := l) in * end.
  exists (fun i j => f32 (clamp (@persp_y R (Rnum rnd) (r, r0, r1, r2, r3, r4, r5, r6) (IZR i) (IZR j)) 0 (IZR (ih mat - 1)))),
         (fun i j => f32 (clamp (@persp_x R (Rnum rnd) (r, r0, r1, r2, r3, r4, r5, r6) (IZR i) (IZR j)) 0 (IZR (iw mat - 1)))).
  split; [|split].
  - intros interp. destruct (perspective_image_gen rnd interp mat cl ltac:(lia) ltac:(lia) Hc') as [c8' [out [E8 [Eo [E1 [E2 P]]]]]].
    exists out. split; [exact Eo|]. split; [exact E1|]. split; [exact E2|]. intros i j [Hi Hj].
    unfold cl in E8. cbn [unpack8] in E8. injection E8 as <-. now apply P.
  - intros i j. split; intros H; apply f32_clamp_range; lia.
  - intros i j p e Hp. split; apply clipped_bound; try assumption.
    + exact (quot_near rnd Hr _ _ _ _ _ p Hp).
    + exact (quot_near rnd Hr _ _ _ _ _ p Hp).
Qed.
Print Assumptions C114_positions.
(** The pixels, with linear interpolation. *)
Theorem C114_pixels : forall rnd mat c L, 0 <= L -> exact_or_double rnd -> length c = 8%nat ->
  (0 < ih mat <= 2 ^ 24 + 1)%Z -> (0 < iw mat <= 2 ^ 24 + 1)%Z ->
  (forall i j, in_img mat i j -> in_img mat (i + 1) j -> Rabs (px mat (i + 1) j - px mat i j) <= L) ->
  (forall i j, in_img mat i j -> in_img mat i (j + 1) -> Rabs (px mat i (j + 1) - px mat i j) <= L) ->
  exists out, @correct_perspective_image R (Rnum rnd) (@bilinear R Rex) mat c None = Ok out /\ ih out = ih mat /\ iw out = iw mat /\
  forall i j, in_img mat i j -> let p := (IZR i, IZR j) in let e := proj (coef_mat c) p in resolved c p ->
    Rabs (px out i j - lin_sample mat (clamp (py e) 0 (IZR (ih mat - 1))) (clamp (pxc e) 0 (IZR (iw mat - 1))))
    <= L * (bound_y c p + bound_x c p + two (-24) * IZR (ih mat + iw mat - 2) + 2 * two (-150)).
Proof.
  intros rnd mat c L PL Hr Hc Hh Hw Lv Lh.
  destruct (C114_positions rnd mat c Hr Hc ltac:(lia) ltac:(lia)) as [Y [X [P [Rg B]]]].
  destruct (P (@bilinear R Rex)) as [out [E [E1 [E2 V]]]]. exists out. split; [exact E|]. split; [exact E1|]. split; [exact E2|].
  intros i j Hij p e Hp. rewrite (V i j Hij). destruct (B i j Hp) as [B1 B2]. destruct (Rg i j) as [R1 R2]. specialize (R1 ltac:(lia)). specialize (R2 ltac:(lia)).
  fold p in B1, B2. fold e in B1, B2.
  assert (Ph : 0 <= IZR (ih mat - 1)) by (apply IZR_le; lia). assert (Pw : 0 <= IZR (iw mat - 1)) by (apply IZR_le; lia).
  rewrite bilinear_lin_sample by assumption.
  eapply Rle_trans; [apply (image_lipschitz mat L); try assumption; try lia; apply clamp_range; assumption|].
  apply Rmult_le_compat_l; [exact PL|]. replace (ih mat + iw mat - 2)%Z with ((ih mat - 1) + (iw mat - 1))%Z by lia. rewrite plus_IZR. lra.
Qed.
Print Assumptions C114_pixels.
(** A photograph through a perspective, corrected in double precision. *)
Theorem C114_scene : forall rnd mat light scene L c, exact_or_double rnd ->
  (0 < ih mat <= 2 ^ 24 + 1)%Z -> (0 < iw mat <= 2 ^ 24 + 1)%Z -> length c = 8%nat -> 0 <= L -> steep L light -> photograph mat light ->
  seen_through (proj (coef_mat c)) scene light ->
  exists out, @correct_perspective_image R (Rnum rnd) (@bilinear R Rex) mat c None = Ok out /\ ih out = ih mat /\ iw out = iw mat /\
  forall i j, in_img mat i j -> let q := (IZR i, IZR j) in on_detector mat (proj (coef_mat c) q) -> resolved c q ->
    Rabs (px out i j - scene q) <= L * (1 + (bound_y c q + bound_x c q + two (-24) * IZR (ih mat + iw mat - 2) + 2 * two (-150))).
Proof.
  intros rnd mat light scene L c Hr Hh Hw Lc HL Hs Hp Ht.
  destruct (C114_pixels rnd mat c L HL Hr Lc Hh Hw (steps_ver mat light L Hp Hs) (steps_hor mat light L Hp Hs)) as [out [E [E1 [E2 B]]]].
  exists out. split; [exact E|]. split; [exact E1|]. split; [exact E2|]. intros i j Hij q D Hq. specialize (B i j Hij Hq). fold q in B. cbv zeta in B.
  destruct (clamp_on _ _ D) as [C1 C2]. rewrite <- (Ht q). set (e := proj (coef_mat c) q) in *. rewrite C1, C2 in B.
  assert (S := sample_steep mat light L HL Hp Hs ltac:(lia) ltac:(lia) (py e) (pxc e) D). replace (py e, pxc e) with e in S by (unfold py, pxc; now destruct e).
  replace (px out i j - light e) with ((px out i j - lin_sample mat (py e) (pxc e)) + (lin_sample mat (py e) (pxc e) - light e)) by ring.
  eapply Rle_trans; [apply Rabs_triang|]. lra.
Qed.
Print Assumptions C114_scene.
(** A point of a 1000 x 1000 image in double precision. *)
Example C114_case : let c := [9 / 10; 1 / 10; 5; - (1 / 20); 1; 3; 1 / 10000; 1 / 5000] in
  resolved c (500, 800) /\
  forall out, @correct_perspective_line R (Rnum f64) [[(500, 800)]] c = Ok out ->
    exists q, out = [[q]] /\ Rabs (py q - 463 / (59 / 50)) <= two (-26) /\ Rabs (pxc q - 775 / (59 / 50)) <= two (-26).
Proof.
  intros c. assert (T : terms (1 / 10000) (1 / 5000) 1 (500, 800) = 59 / 50).
  { unfold terms, py, pxc. cbn [fst snd]. rewrite !Rabs_right by lra. lra. }
  assert (TX : terms (9 / 10) (1 / 10) 5 (500, 800) = 775) by (unfold terms, py, pxc; cbn [fst snd]; rewrite !Rabs_right by lra; lra).
  assert (TY : terms (- (1 / 20)) 1 3 (500, 800) = 543) by (unfold terms, py, pxc; cbn [fst snd]; rewrite (Rabs_left (- (1 / 20) * 800)), !Rabs_right by lra; lra).
  assert (D : / 2 <= Rabs (1 / 10000 * pxc (500, 800) + 1 / 5000 * py (500, 800) + 1)) by (unfold py, pxc; cbn [fst snd]; rewrite Rabs_right by lra; lra).
  destruct (C114_small (9 / 10) (1 / 10) 5 (1 / 10000) (1 / 5000) (500, 800) ltac:(lra) ltac:(lra) D) as [BX Rs].
  destruct (C114_small (- (1 / 20)) 1 3 (1 / 10000) (1 / 5000) (500, 800) ltac:(lra) ltac:(lra) D) as [BY _].
  assert (RS : resolved c (500, 800)) by exact Rs.
  split; [exact RS|]. intros out E.
  destruct (C114_points f64 [[(500, 800)]] c ltac:(right; reflexivity) eq_refl) as [out' [E' F]]; [apply Forall_cons; [apply Forall_cons; [exact RS|apply Forall_nil]|apply Forall_nil]|].
  assert (E2 := eq_trans (eq_sym E') E). assert (out' = out) by (injection E2 as E2; exact E2). clear E2. subst out'.
  inversion_clear F as [|? l ? ? F1 F2]. inversion F2. subst. inversion_clear F1 as [|? q ? ? H F3]. inversion F3. subst. exists q. split; [reflexivity|].
  cbv zeta in H. destruct H as [H1 H2].
  replace (py (proj (coef_mat c) (500, 800))) with (463 / (59 / 50)) in H1 by (unfold proj, den, coef_mat, c, py, pxc; cbn; field).
  replace (pxc (proj (coef_mat c) (500, 800))) with (775 / (59 / 50)) in H2 by (unfold proj, den, coef_mat, c, py, pxc; cbn; field).
  split; [exact (Rle_trans _ _ _ H1 BY)|exact (Rle_trans _ _ _ H2 BX)].
Qed.
