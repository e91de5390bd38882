(** C128: Four pairs of points determine the perspective correction. *)
From Coq Require Import Reals ZArith List Lra Lia.
From Flocq Require Import Core.
From Verif Require Import Base Num Img Post Spec NumFacts ProcSpec PersSpec PostLines2 PostPersp PostExtra Proc ProcPers PersFacts3 ProcFacts5 Props_Post Props_Pers.
Import ListNotations.
Local Open Scope R_scope.

(** *** Specification *)
(** The projective map of the matrix M is defined at p and sends it to q. *)
Definition takes (M : mat3) (p q : pt) : Prop := den M p <> 0 /\ proj M p = q.
(** An invertible affine change of coordinates (origin, units, axes). *)
Definition change_of_coordinates (g : pt -> pt) : Prop := exists a b c d e f, a * e - b * d <> 0 /\
  forall p, g p = (a * py p + b * pxc p + c, d * py p + e * pxc p + f).

(** *** Facts *)
Definition hx (M : mat3) (p : pt) : R := Spec.c1 M * pxc p + c2 M * py p + c3 M.
Definition hy (M : mat3) (p : pt) : R := c4 M * pxc p + c5 M * py p + c6 M.
Lemma takes_eq M p q : takes M p q <-> den M p <> 0 /\ hx M p = den M p * pxc q /\ hy M p = den M p * py q.
Proof.
  unfold takes. split; intros [D H]; (split; [exact D|]).
  - subst q. unfold proj, hx, hy, pxc, py. cbn [fst snd]. unfold den, pxc, py in *. split; field; exact D.
  - destruct H as [Hx Hy]. destruct q as [qy qx]. unfold pxc, py in Hx, Hy. cbn [fst snd] in Hx, Hy. unfold proj. fold (hx M p) (hy M p). rewrite Hx, Hy. apply f_equal2; field; exact D.
Qed.
Lemma barycentric p1 p2 p3 p : triangle p1 p2 p3 -> let D := area p1 p2 p3 in
  let a := area p p2 p3 / D in let b := area p1 p p3 / D in let c := area p1 p2 p / D in
  pxc p = a * pxc p1 + b * pxc p2 + c * pxc p3 /\ py p = a * py p1 + b * py p2 + c * py p3 /\ a + b + c = 1.
Proof. intros T D a b c. unfold triangle in T. fold D in T. unfold a, b, c, D, area in *. repeat split; field; exact T. Qed.
Lemma combo u v w a b c p p1 p2 p3 : pxc p = a * pxc p1 + b * pxc p2 + c * pxc p3 -> py p = a * py p1 + b * py p2 + c * py p3 -> a + b + c = 1 ->
  u * pxc p + v * py p + w = a * (u * pxc p1 + v * py p1 + w) + b * (u * pxc p2 + v * py p2 + w) + c * (u * pxc p3 + v * py p3 + w).
Proof. intros -> -> H. replace w with (w * (a + b + c)) at 1 by (rewrite H; ring). ring. Qed.
Lemma area_nz p q r s : triangle p q r -> forall t, s = t / area p q r -> t <> 0 -> s <> 0.
Proof. intros T t -> H. unfold Rdiv. apply Rmult_integral_contrapositive. split; [exact H|now apply Rinv_neq_0_compat]. Qed.
Lemma map_exists p1 p2 p3 p4 q1 q2 q3 q4 : general_position p1 p2 p3 p4 -> general_position q1 q2 q3 q4 ->
  exists M, takes M p1 q1 /\ takes M p2 q2 /\ takes M p3 q3 /\ takes M p4 q4.
Proof.
  intros [P0 [P1 [P2 P3]]] [Q0 [Q1 [Q2 Q3]]].
  destruct (barycentric p1 p2 p3 p4 P0) as [BX [BY BO]]. destruct (barycentric q1 q2 q3 q4 Q0) as [CX [CY CO]].
  set (D := area p1 p2 p3) in *. set (D' := area q1 q2 q3) in *.
  set (l1 := area p4 p2 p3 / D) in *. set (l2 := area p1 p4 p3 / D) in *. set (l3 := area p1 p2 p4 / D) in *.
  set (m1 := area q4 q2 q3 / D') in *. set (m2 := area q1 q4 q3 / D') in *. set (m3 := area q1 q2 q4 / D') in *.
  assert (L1 : l1 <> 0) by (apply (area_nz p1 p2 p3 l1 P0 _ eq_refl P1)). assert (L2 : l2 <> 0) by (apply (area_nz p1 p2 p3 l2 P0 _ eq_refl P2)). assert (L3 : l3 <> 0) by (apply (area_nz p1 p2 p3 l3 P0 _ eq_refl P3)).
  assert (N1 : m1 <> 0) by (apply (area_nz q1 q2 q3 m1 Q0 _ eq_refl Q1)). assert (N2 : m2 <> 0) by (apply (area_nz q1 q2 q3 m2 Q0 _ eq_refl Q2)). assert (N3 : m3 <> 0) by (apply (area_nz q1 q2 q3 m3 Q0 _ eq_refl Q3)).
  set (k1 := m1 / l1). set (k2 := m2 / l2). set (k3 := m3 / l3).
  assert (K1 : k1 <> 0 /\ k1 * l1 = m1). { split; [|unfold k1; field; exact L1]. unfold k1, Rdiv. apply Rmult_integral_contrapositive. split; [exact N1|now apply Rinv_neq_0_compat]. }
  assert (K2 : k2 <> 0 /\ k2 * l2 = m2). { split; [|unfold k2; field; exact L2]. unfold k2, Rdiv. apply Rmult_integral_contrapositive. split; [exact N2|now apply Rinv_neq_0_compat]. }
  assert (K3 : k3 <> 0 /\ k3 * l3 = m3). { split; [|unfold k3; field; exact L3]. unfold k3, Rdiv. apply Rmult_integral_contrapositive. split; [exact N3|now apply Rinv_neq_0_compat]. }
  set (row := fun z1 z2 z3 => let s1 := k1 * z1 / D in let s2 := k2 * z2 / D in let s3 := k3 * z3 / D in
    (s1 * (py p2 - py p3) + s2 * (py p3 - py p1) + s3 * (py p1 - py p2), s1 * (pxc p3 - pxc p2) + s2 * (pxc p1 - pxc p3) + s3 * (pxc p2 - pxc p1),
     s1 * (pxc p2 * py p3 - pxc p3 * py p2) + s2 * (pxc p3 * py p1 - pxc p1 * py p3) + s3 * (pxc p1 * py p2 - pxc p2 * py p1))).
  assert (ROW : forall z1 z2 z3 p, fst (fst (row z1 z2 z3)) * pxc p + snd (fst (row z1 z2 z3)) * py p + snd (row z1 z2 z3)
    = k1 * z1 * (area p p2 p3 / D) + k2 * z2 * (area p1 p p3 / D) + k3 * z3 * (area p1 p2 p / D)).
  { intros z1 z2 z3 p. unfold row, area. cbn [fst snd]. field. exact P0. }
  set (M := M3 (fst (fst (row (pxc q1) (pxc q2) (pxc q3)))) (snd (fst (row (pxc q1) (pxc q2) (pxc q3)))) (snd (row (pxc q1) (pxc q2) (pxc q3)))
               (fst (fst (row (py q1) (py q2) (py q3)))) (snd (fst (row (py q1) (py q2) (py q3)))) (snd (row (py q1) (py q2) (py q3)))
               (fst (fst (row 1 1 1))) (snd (fst (row 1 1 1))) (snd (row 1 1 1))).
  exists M.
  assert (V : forall p a b c, area p p2 p3 / D = a -> area p1 p p3 / D = b -> area p1 p2 p / D = c -> forall q, k1 * a + k2 * b + k3 * c <> 0 ->
    k1 * pxc q1 * a + k2 * pxc q2 * b + k3 * pxc q3 * c = (k1 * a + k2 * b + k3 * c) * pxc q ->
    k1 * py q1 * a + k2 * py q2 * b + k3 * py q3 * c = (k1 * a + k2 * b + k3 * c) * py q -> takes M p q).
  { intros p a b c <- <- <- q Hd Hx Hy. apply takes_eq. unfold hx, hy, den, M. cbn [Spec.c1 c2 c3 c4 c5 c6 c7 c8 c9]. rewrite !ROW, !Rmult_1_r. repeat split; assumption. }
  assert (A1 : area p1 p1 p3 = 0 /\ area p1 p2 p1 = 0 /\ area p2 p2 p3 = 0 /\ area p1 p2 p2 = 0 /\ area p3 p2 p3 = 0 /\ area p1 p3 p3 = 0) by (unfold area; repeat split; ring).
  destruct A1 as [Z1 [Z2 [Z3 [Z4 [Z5 Z6]]]]]. assert (ZD : 0 / D = 0) by (unfold Rdiv; ring). assert (DD : D / D = 1) by (field; exact P0).
  split; [|split; [|split]].
  - apply (V p1 1 0 0); [exact DD|now rewrite Z1|now rewrite Z2| | |]; destruct K1; [replace (k1 * 1 + k2 * 0 + k3 * 0) with k1 by ring; assumption|ring|ring].
  - apply (V p2 0 1 0); [now rewrite Z3|exact DD|now rewrite Z4| | |]; destruct K2; [replace (k1 * 0 + k2 * 1 + k3 * 0) with k2 by ring; assumption|ring|ring].
  - apply (V p3 0 0 1); [now rewrite Z5|now rewrite Z6|exact DD| | |]; destruct K3; [replace (k1 * 0 + k2 * 0 + k3 * 1) with k3 by ring; assumption|ring|ring].
  - destruct K1 as [_ K1], K2 as [_ K2], K3 as [_ K3].
    apply (V p4 l1 l2 l3 eq_refl eq_refl eq_refl); rewrite K1, K2, K3, CO; [lra| |].
    + rewrite CX, <- K1, <- K2, <- K3. ring.
    + rewrite CY, <- K1, <- K2, <- K3. ring.
Qed.
Lemma map_unique M M' p1 p2 p3 p4 q1 q2 q3 q4 : general_position p1 p2 p3 p4 -> triangle q1 q2 q3 ->
  takes M p1 q1 -> takes M p2 q2 -> takes M p3 q3 -> takes M p4 q4 -> takes M' p1 q1 -> takes M' p2 q2 -> takes M' p3 q3 -> takes M' p4 q4 ->
  exists k, k <> 0 /\ M' = scale3 k M.
Proof.
  intros [P0 [P1 [P2 P3]]] TQ A1 A2 A3 A4 B1 B2 B3 B4. apply takes_eq in A1, A2, A3, A4, B1, B2, B3, B4.
  destruct A1 as [A1 [A1x A1y]], A2 as [A2 [A2x A2y]], A3 as [A3 [A3x A3y]], A4 as [A4 [A4x A4y]], B1 as [B1 [B1x B1y]], B2 as [B2 [B2x B2y]], B3 as [B3 [B3x B3y]], B4 as [B4 [B4x B4y]].
  destruct (barycentric p1 p2 p3 p4 P0) as [BX [BY BO]]. set (D := area p1 p2 p3) in *.
  set (l1 := area p4 p2 p3 / D) in *. set (l2 := area p1 p4 p3 / D) in *. set (l3 := area p1 p2 p4 / D) in *.
  assert (L1 : l1 <> 0) by (apply (area_nz p1 p2 p3 l1 P0 _ eq_refl P1)). assert (L2 : l2 <> 0) by (apply (area_nz p1 p2 p3 l2 P0 _ eq_refl P2)). assert (L3 : l3 <> 0) by (apply (area_nz p1 p2 p3 l3 P0 _ eq_refl P3)).
  assert (C : forall N, den N p4 = l1 * den N p1 + l2 * den N p2 + l3 * den N p3 /\ hx N p4 = l1 * hx N p1 + l2 * hx N p2 + l3 * hx N p3 /\ hy N p4 = l1 * hy N p1 + l2 * hy N p2 + l3 * hy N p3).
  { intros N. unfold den, hx, hy. repeat split; now apply combo. }
  destruct (C M) as [CD [CX CY]]. destruct (C M') as [CD' [CX' CY']]. rewrite A1x, A2x, A3x, A4x in CX. rewrite A1y, A2y, A3y, A4y in CY. rewrite B1x, B2x, B3x, B4x in CX'. rewrite B1y, B2y, B3y, B4y in CY'.
  destruct (corners_independent (l1 * (den M' p1 * den M p4 - den M' p4 * den M p1)) (l2 * (den M' p2 * den M p4 - den M' p4 * den M p2)) (l3 * (den M' p3 * den M p4 - den M' p4 * den M p3)) q1 q2 q3 TQ) as [K1 [K2 K3]].
  - replace (l1 * (den M' p1 * den M p4 - den M' p4 * den M p1) * pxc q1 + l2 * (den M' p2 * den M p4 - den M' p4 * den M p2) * pxc q2 + l3 * (den M' p3 * den M p4 - den M' p4 * den M p3) * pxc q3)
      with (den M p4 * (l1 * (den M' p1 * pxc q1) + l2 * (den M' p2 * pxc q2) + l3 * (den M' p3 * pxc q3)) - den M' p4 * (l1 * (den M p1 * pxc q1) + l2 * (den M p2 * pxc q2) + l3 * (den M p3 * pxc q3))) by ring.
    rewrite <- CX, <- CX'. ring.
  - replace (l1 * (den M' p1 * den M p4 - den M' p4 * den M p1) * py q1 + l2 * (den M' p2 * den M p4 - den M' p4 * den M p2) * py q2 + l3 * (den M' p3 * den M p4 - den M' p4 * den M p3) * py q3)
      with (den M p4 * (l1 * (den M' p1 * py q1) + l2 * (den M' p2 * py q2) + l3 * (den M' p3 * py q3)) - den M' p4 * (l1 * (den M p1 * py q1) + l2 * (den M p2 * py q2) + l3 * (den M p3 * py q3))) by ring.
    rewrite <- CY, <- CY'. ring.
  - rewrite CD, CD'. ring.
  - set (k := den M' p4 / den M p4). exists k.
    assert (Hk : k <> 0). { unfold k, Rdiv. apply Rmult_integral_contrapositive. split; [exact B4|now apply Rinv_neq_0_compat]. } split; [exact Hk|].
    assert (E1 : den M' p1 = k * den M p1). { apply Rmult_integral in K1. destruct K1 as [K1|K1]; [contradiction|]. unfold k. apply (Rmult_eq_reg_r (den M p4)); [|exact A4]. field_simplify; [lra|exact A4]. }
    assert (E2 : den M' p2 = k * den M p2). { apply Rmult_integral in K2. destruct K2 as [K2|K2]; [contradiction|]. unfold k. apply (Rmult_eq_reg_r (den M p4)); [|exact A4]. field_simplify; [lra|exact A4]. }
    assert (E3 : den M' p3 = k * den M p3). { apply Rmult_integral in K3. destruct K3 as [K3|K3]; [contradiction|]. unfold k. apply (Rmult_eq_reg_r (den M p4)); [|exact A4]. field_simplify; [lra|exact A4]. }
    rewrite E1 in B1x, B1y. rewrite E2 in B2x, B2y. rewrite E3 in B3x, B3y.
    assert (X1 : hx M' p1 = k * hx M p1) by (rewrite B1x, A1x; ring). assert (X2 : hx M' p2 = k * hx M p2) by (rewrite B2x, A2x; ring). assert (X3 : hx M' p3 = k * hx M p3) by (rewrite B3x, A3x; ring).
    assert (Y1 : hy M' p1 = k * hy M p1) by (rewrite B1y, A1y; ring). assert (Y2 : hy M' p2 = k * hy M p2) by (rewrite B2y, A2y; ring). assert (Y3 : hy M' p3 = k * hy M p3) by (rewrite B3y, A3y; ring).
    clear -P0 E1 E2 E3 X1 X2 X3 Y1 Y2 Y3. destruct M as [a1 a2 a3 a4 a5 a6 a7 a8 a9], M' as [b1 b2 b3 b4 b5 b6 b7 b8 b9].
    unfold hx, hy, den, scale3 in *. cbn [Spec.c1 c2 c3 c4 c5 c6 c7 c8 c9] in *.
    destruct (linear_zero (b1 - k * a1) (b2 - k * a2) (b3 - k * a3) p1 p2 p3 P0) as [F1 [F2 F3]]; [lra|lra|lra|].
    destruct (linear_zero (b4 - k * a4) (b5 - k * a5) (b6 - k * a6) p1 p2 p3 P0) as [F4 [F5 F6]]; [lra|lra|lra|].
    destruct (linear_zero (b7 - k * a7) (b8 - k * a8) (b9 - k * a9) p1 p2 p3 P0) as [F7 [F8 F9]]; [lra|lra|lra|].
    f_equal; lra.
Qed.
Lemma coefs_takes c p q : length c = 8%nat -> (sends c p q <-> takes (proj_map c) p q).
Proof. intros L. unfold sends, takes. tauto. Qed.
Lemma scaled_takes k M p q : k <> 0 -> takes M p q -> takes (scale3 k M) p q.
Proof.
  intros Hk [D E]. assert (X : den (scale3 k M) p = k * den M p) by (destruct M; unfold den, scale3; cbn [Spec.c7 Spec.c8 Spec.c9]; ring).
  split; [rewrite X; now apply Rmult_integral_contrapositive|]. now rewrite proj_scale.
Qed.
Lemma den_origin M : den M (0, 0) = Spec.c9 M.
Proof. unfold den, pxc, py. cbn [fst snd]. ring. Qed.
Lemma mat_coefs_takes M p q : den M (0, 0) <> 0 -> takes M p q -> sends (mat_coefs M) p q.
Proof.
  intros H9 H. rewrite den_origin in H9. apply coefs_takes; [reflexivity|]. change (proj_map (mat_coefs M)) with (coef_mat (mat_coefs M)). rewrite coef_mat_coefs by exact H9.
  apply scaled_takes; [now apply Rinv_neq_0_compat|exact H].
Qed.
Lemma proj_map_same c : length c = 8%nat -> mat_coefs (proj_map c) = c.
Proof. intros L. do 9 (destruct c as [|? c]; try discriminate L). unfold mat_coefs, proj_map. cbn [nth map Spec.c1 Spec.c2 Spec.c3 Spec.c4 Spec.c5 Spec.c6 Spec.c7 Spec.c8 Spec.c9]. repeat (apply f_equal2; [field|]). reflexivity. Qed.
Lemma mul_takes a b p q r : takes b p q -> takes a q r -> takes (mul3 a b) p r.
Proof.
  intros [B E] [A F]. subst q. destruct (proj_mul a b p B A) as [D G]. split; [rewrite D; now apply Rmult_integral_contrapositive|congruence].
Qed.

(** *** C128 *)
(** Between two sets of four points in general position there is a projective
    map M.  If it does not send the corner pixel (0, 0) to infinity the
    program finds it, and the found coefficients reproduce the four pairs and
    agree with M everywhere; otherwise no coefficients at all reproduce the
    four pairs. *)
Theorem C128_found : forall lstsq p1 p2 p3 p4 q1 q2 q3 q4, lstsq_oracle lstsq -> general_position p1 p2 p3 p4 -> general_position q1 q2 q3 q4 ->
  exists M, (takes M p1 q1 /\ takes M p2 q2 /\ takes M p3 q3 /\ takes M p4 q4) /\
  (den M (0, 0) <> 0 -> exists c, @calc_perspective_coefficients R Rexact lstsq [p1; p2; p3; p4] [q1; q2; q3; q4] true = Ok c /\
    (forall p, den M p <> 0 -> sends c p (proj M p)) /\
    @correct_perspective_line R Rex [[p1; p2; p3; p4]] c = Ok [[q1; q2; q3; q4]]) /\
  (den M (0, 0) = 0 -> forall c, ~ (sends c p1 q1 /\ sends c p2 q2 /\ sends c p3 q3 /\ sends c p4 q4)).
Proof.
  intros lstsq p1 p2 p3 p4 q1 q2 q3 q4 LS GP GQ. destruct (map_exists p1 p2 p3 p4 q1 q2 q3 q4 GP GQ) as [M [T1 [T2 [T3 T4]]]].
  exists M. split; [exact (conj T1 (conj T2 (conj T3 T4)))|]. split.
  - intros H9. exists (mat_coefs M).
    assert (S : forall p q, In (p, q) (combine [p1; p2; p3; p4] [q1; q2; q3; q4]) -> sends (mat_coefs M) p q).
    { intros p q Hp. cbn [combine In] in Hp. repeat destruct Hp as [Hp|Hp]; try contradiction; injection Hp as <- <-; now apply mat_coefs_takes. }
    split; [|split].
    + apply (C35_unique lstsq [p1; p2; p3; p4] [q1; q2; q3; q4] (mat_coefs M) p1 p2 p3 p4 q1 q2 q3 q4 LS eq_refl S); try (cbn; tauto). exact (proj1 GQ).
    + intros p Hp. apply mat_coefs_takes; [exact H9|]. now split.
    + apply C14_perspective_line. split; [reflexivity|]. cbn [map].
      assert (E : forall p q, sends (mat_coefs M) p q -> q = proj (coef_mat (mat_coefs M)) p) by (intros p q [_ [_ Q]]; symmetry; exact Q).
      rewrite <- (E p1 q1), <- (E p2 q2), <- (E p3 q3), <- (E p4 q4); [reflexivity| | | |]; apply S; cbn; tauto.
  - intros H0 c [S1 [S2 [S3 S4]]]. pose proof (proj1 S1) as L.
    apply (coefs_takes c) in S1, S2, S3, S4; try exact L.
    destruct (map_unique (proj_map c) M p1 p2 p3 p4 q1 q2 q3 q4 GP (proj1 GQ) S1 S2 S3 S4 T1 T2 T3 T4) as [k [Hk E]].
    rewrite den_origin, E in H0. cbn [scale3 Spec.c9 proj_map] in H0. lra.
Qed.
Print Assumptions C128_found.
(** The other direction undoes the correction: "forward" and "backward"
    coefficients of the same pairs are inverse maps wherever the first is
    defined. *)
Theorem C128_undo : forall lstsq src tgt f b p1 p2 p3 p4 q1 q2 q3 q4, lstsq_oracle lstsq -> length src = length tgt ->
  (forall p q, In (p, q) (combine src tgt) -> sends f p q /\ sends b q p) ->
  In (p1, q1) (combine src tgt) -> In (p2, q2) (combine src tgt) -> In (p3, q3) (combine src tgt) -> In (p4, q4) (combine src tgt) ->
  general_position p1 p2 p3 p4 -> general_position q1 q2 q3 q4 ->
  @calc_perspective_coefficients R Rexact lstsq src tgt true = Ok f /\ @calc_perspective_coefficients R Rexact lstsq src tgt false = Ok b /\
  forall lines, Forall (Forall (fun p => den (proj_map f) p <> 0)) lines ->
    exists flat, @correct_perspective_line R Rex lines f = Ok flat /\ @correct_perspective_line R Rex flat b = Ok lines.
Proof.
  intros lstsq src tgt f b p1 p2 p3 p4 q1 q2 q3 q4 LS L H I1 I2 I3 I4 GP GQ.
  assert (Lf : length f = 8%nat) by (apply (H p1 q1 I1)). assert (Lb : length b = 8%nat) by (apply (H p1 q1 I1)).
  split; [|split].
  - apply (C35_unique lstsq src tgt f p1 p2 p3 p4 q1 q2 q3 q4 LS L); try assumption; [intros; now apply H|exact (proj1 GQ)].
  - rewrite C35_backward.
    assert (SW : forall p q, In (q, p) (combine tgt src) <-> In (p, q) (combine src tgt)).
    { clear -L. revert tgt L. induction src as [|s src IH]; intros [|t tgt] L p q; try discriminate L; [tauto|]. cbn [combine In]. rewrite IH by (cbn in L; lia).
      split; (intros [E|E]; [left; congruence|now right]). }
    apply (C35_unique lstsq tgt src b q1 q2 q3 q4 p1 p2 p3 p4 LS (eq_sym L)); try (now apply SW); try assumption; [intros q p Hq; apply H; now apply SW|exact (proj1 GP)].
  - intros lines F. exists (map (map (proj (coef_mat f))) lines). assert (E : @correct_perspective_line R Rex lines f = Ok (map (map (proj (coef_mat f))) lines)) by (apply C14_perspective_line; now split).
    split; [exact E|].
    assert (T : forall p q, In (p, q) (combine src tgt) -> takes (mul3 (coef_mat b) (coef_mat f)) p p).
    { intros p q Hp. destruct (H p q Hp) as [[_ S1] [_ S2]]. now apply (mul_takes _ _ p q p). }
    assert (I : forall p, takes (M3 1 0 0 0 1 0 0 0 1) p p).
    { intros [y x]. unfold takes, proj, den, pxc, py. cbn [Spec.c1 Spec.c2 Spec.c3 Spec.c4 Spec.c5 Spec.c6 Spec.c7 Spec.c8 Spec.c9 fst snd]. replace (0 * x + 0 * y + 1) with 1 by ring. split; [lra|]. apply f_equal2; field. }
    destruct (map_unique _ _ p1 p2 p3 p4 p1 p2 p3 p4 GP (proj1 GP) (I p1) (I p2) (I p3) (I p4) (T p1 q1 I1) (T p2 q2 I2) (T p3 q3 I3) (T p4 q4 I4)) as [k [Hk E3]].
    unfold scale3 in E3. cbn [Spec.c1 Spec.c2 Spec.c3 Spec.c4 Spec.c5 Spec.c6 Spec.c7 Spec.c8 Spec.c9] in E3. rewrite !Rmult_0_r, !Rmult_1_r in E3.
    apply (C14_inverse b f k lines _ E3 Hk Lb); [|exact E].
    eapply Forall_impl; [|exact F]. intros l Fl. eapply Forall_impl; [|exact Fl]. intros p Hp. split; [exact Hp|]. cbn beta in Hp. change (proj_map f) with (coef_mat f) in Hp.
    assert (X : den (mul3 (coef_mat b) (coef_mat f)) p = den (coef_mat b) (proj (coef_mat f) p) * den (coef_mat f) p).
    { clear -Hp. destruct (coef_mat f) as [a1 a2 a3 a4 a5 a6 a7 a8 a9], (coef_mat b) as [b1 b2 b3 b4 b5 b6 b7 b8 b9], p as [y x]. unfold den, proj, mul3, pxc, py in *. cbn in *. unfold den, pxc, py in *. cbn in *. field. exact Hp. }
    rewrite E3 in X. unfold den at 1 in X. cbn [Spec.c7 Spec.c8 Spec.c9] in X. intros Z. rewrite Z in X. apply Hk. lra.
Qed.
Print Assumptions C128_undo.

(** *** Other coordinates *)
From Verif Require Import SymFacts PostImg Props_Round Props_RoundPers Props_HeldImage.
Definition coords (g : R * R * R * R * R * R) (p : pt) : pt := let '(a, b, c, d, e, f) := g in (a * py p + b * pxc p + c, d * py p + e * pxc p + f).
Lemma area_coords g p q r : area (coords g p) (coords g q) (coords g r) = (let '(a, b, _, d, e, _) := g in a * e - b * d) * area p q r.
Proof. destruct g as [[[[[a b] c] d] e] f]. unfold area, coords, py, pxc. cbn [fst snd]. ring. Qed.
Lemma triangle_coords g p q r : change_of_coordinates g -> triangle p q r -> triangle (g p) (g q) (g r).
Proof.
  intros [a [b [c [d [e [f [D H]]]]]]] T. unfold triangle. rewrite !H. pose proof (area_coords (a, b, c, d, e, f) p q r) as A. cbv beta iota zeta delta [coords] in A.
  rewrite A. now apply Rmult_integral_contrapositive.
Qed.
Lemma general_coords g p1 p2 p3 p4 : change_of_coordinates g -> general_position p1 p2 p3 p4 -> general_position (g p1) (g p2) (g p3) (g p4).
Proof. intros G [H1 [H2 [H3 H4]]]. unfold general_position. repeat apply conj; now apply triangle_coords. Qed.
Lemma coords_matrix g : change_of_coordinates g -> exists A B, (forall p, takes A p (g p)) /\ (forall p, takes B (g p) p) /\ (forall M p, den (mul3 A M) p = den M p).
Proof.
  intros [a [b [c [d [e [f [D H]]]]]]].
  exists (M3 e d f b a c 0 0 1), (M3 (a / (a * e - b * d)) (- d / (a * e - b * d)) ((d * c - a * f) / (a * e - b * d)) (- b / (a * e - b * d)) (e / (a * e - b * d)) ((b * f - e * c) / (a * e - b * d)) 0 0 1).
  split; [|split].
  - intros [y x]. rewrite H. unfold takes, proj, den, py, pxc. cbn [Spec.c1 Spec.c2 Spec.c3 Spec.c4 Spec.c5 Spec.c6 Spec.c7 Spec.c8 Spec.c9 fst snd]. replace (0 * x + 0 * y + 1) with 1 by ring. split; [lra|]. apply f_equal2; field.
  - intros [y x]. rewrite H. unfold takes, proj, den, py, pxc. cbn [Spec.c1 Spec.c2 Spec.c3 Spec.c4 Spec.c5 Spec.c6 Spec.c7 Spec.c8 Spec.c9 fst snd].
    match goal with |- ?u <> 0 /\ _ => replace u with 1 by ring end. split; [lra|]. apply f_equal2; field; exact D.
  - intros M p. unfold den, mul3. cbn [Spec.c7 Spec.c8 Spec.c9]. ring.
Qed.
(** Points given in other coordinates (another origin, other units, other
    axes, separately for both sides) give the same map in those coordinates,
    unless the new origin is a point which is sent to infinity. *)
Theorem C128_coordinates : forall lstsq src tgt g h f p1 p2 p3 p4 q1 q2 q3 q4, lstsq_oracle lstsq -> length src = length tgt ->
  (forall p q, In (p, q) (combine src tgt) -> sends f p q) ->
  In (p1, q1) (combine src tgt) -> In (p2, q2) (combine src tgt) -> In (p3, q3) (combine src tgt) -> In (p4, q4) (combine src tgt) ->
  general_position p1 p2 p3 p4 -> general_position q1 q2 q3 q4 -> change_of_coordinates g -> change_of_coordinates h ->
  (forall o, g o = (0, 0) -> den (proj_map f) o <> 0) ->
  exists f', @calc_perspective_coefficients R Rexact lstsq src tgt true = Ok f /\
    @calc_perspective_coefficients R Rexact lstsq (map g src) (map h tgt) true = Ok f' /\
    (forall p q, sends f p q -> sends f' (g p) (h q)) /\
    forall lines flat, Forall (Forall (fun p => den (proj_map f) p <> 0)) lines -> @correct_perspective_line R Rex lines f = Ok flat ->
      @correct_perspective_line R Rex (map (map g) lines) f' = Ok (map (map h) flat).
Proof.
  intros lstsq src tgt g h f p1 p2 p3 p4 q1 q2 q3 q4 LS L H I1 I2 I3 I4 GP GQ Cg Ch HO.
  pose proof (proj1 (H p1 q1 I1)) as Lf.
  destruct (coords_matrix g Cg) as [A [A' [TA [TA' DA]]]]. destruct (coords_matrix h Ch) as [B [B' [TB [TB' DB]]]].
  set (M := mul3 B (mul3 (proj_map f) A')).
  assert (T : forall p q, sends f p q -> takes M (g p) (h q)).
  { intros p q Hp. apply (mul_takes _ _ _ q); [|apply TB]. apply (mul_takes _ _ _ p); [apply TA'|]. exact (proj1 (coefs_takes f p q Lf) Hp). }
  assert (O : exists o, g o = (0, 0)).
  { destruct Cg as [a [b [c [d [e [k [D G]]]]]]]. exists ((b * k - e * c) / (a * e - b * d), (d * c - a * k) / (a * e - b * d)). rewrite G. unfold py, pxc. cbn [fst snd]. apply f_equal2; field; exact D. }
  destruct O as [o EO]. specialize (HO o EO).
  assert (T0 : den M (0, 0) <> 0).
  { rewrite <- EO. apply (T o (proj (proj_map f) o)). now repeat split. }
  assert (S : forall p q, sends f p q -> sends (mat_coefs M) (g p) (h q)) by (intros; now apply mat_coefs_takes, T).
  exists (mat_coefs M). split; [|split; [|split]].
  - apply (C35_unique lstsq src tgt f p1 p2 p3 p4 q1 q2 q3 q4 LS L H); try assumption. exact (proj1 GQ).
  - assert (IM : forall p q, In (p, q) (combine (map g src) (map h tgt)) <-> exists p0 q0, p = g p0 /\ q = h q0 /\ In (p0, q0) (combine src tgt)).
    { clear -L. revert tgt L. induction src as [|s src IH]; intros [|t tgt] L p q; try discriminate L; cbn [map combine In].
      - split; [tauto|]. intros [? [? [_ [_ []]]]].
      - rewrite IH by (cbn in L; lia). split.
        + intros [E|[p0 [q0 [E1 [E2 E3]]]]]; [injection E as <- <-; exists s, t; auto|exists p0, q0; auto].
        + intros [p0 [q0 [-> [-> [E|E]]]]]; [injection E as <- <-; now left|right; exists p0, q0; auto]. }
    apply (C35_unique lstsq (map g src) (map h tgt) (mat_coefs M) (g p1) (g p2) (g p3) (g p4) (h q1) (h q2) (h q3) (h q4) LS); try (apply IM; eauto).
    + now rewrite !map_length.
    + intros p q Hp. apply IM in Hp. destruct Hp as [p0 [q0 [-> [-> Hp]]]]. now apply S, H.
    + now apply general_coords.
    + apply triangle_coords; [exact Ch|exact (proj1 GQ)].
  - exact S.
  - intros lines flat F E. apply C14_perspective_line in E. destruct E as [_ ->]. apply C14_perspective_line. split; [reflexivity|].
    rewrite !map_map. clear -F S Lf. induction F as [|l lines Hl _ IH]; cbn [map]; [reflexivity|]. f_equal; [|exact IH]. rewrite !map_map. clear IH.
    induction Hl as [|p l Hp _ IH]; cbn [map]; [reflexivity|]. f_equal; [|exact IH].
    destruct (S p (proj (proj_map f) p)) as [_ [_ Q]]; [now repeat split|]. symmetry. exact Q.
Qed.
Print Assumptions C128_coordinates.

(** *** Photographs held differently *)
Definition inside (h w : Z) (e : pt) : pt := (clamp (py e) 0 (IZR (h - 1)), clamp (pxc e) 0 (IZR (w - 1))).
(** The picture resampled at the positions E, kept inside the picture. *)
Definition resampled (E : pt -> pt) (m : image R) : image R :=
  mkimg (ih m) (iw m) (fun i j => let e := inside (ih m) (iw m) (E (IZR i, IZR j)) in lin_sample m (py e) (pxc e)).
Lemma place_coords ms h w : change_of_coordinates (moves_dot ms h w).
Proof.
  destruct (affs ms h w) as [[[[sw s] t] e] f] eqn:EA. pose proof (affs_units ms h w) as U. rewrite EA in U. cbn in U. unfold SymFacts.unit in U. destruct U as [Us Ut].
  assert (N : IZR s * IZR t <> 0) by (rewrite <- mult_IZR; apply not_0_IZR; lia).
  assert (G : forall p, moves_dot ms h w p = Gmap sw s t e f p) by (intros p; rewrite <- affs_dot, EA; reflexivity).
  destruct sw.
  - exists 0, (IZR s), (IZR e), (IZR t), 0, (IZR f). split; [lra|]. intros [y x]. rewrite G. unfold Gmap, py, pxc. cbn [fst snd]. apply f_equal2; ring.
  - exists (IZR s), 0, (IZR e), 0, (IZR t), (IZR f). split; [lra|]. intros [y x]. rewrite G. unfold Gmap, py, pxc. cbn [fst snd]. apply f_equal2; ring.
Qed.
Lemma sample_move mo (m : image R) e : rigid mo -> let e' := move_dot mo (ih m) (iw m) e in lin_sample (move 0 mo m) (py e') (pxc e') = lin_sample m (py e) (pxc e).
Proof. destruct mo; intros Hr; try contradiction Hr; cbn [move_dot]; unfold py, pxc; cbn [fst snd]; [apply sample_down|apply sample_across|apply sample_turned]. Qed.
Lemma sample_moves ms : forall (m : image R) e, Forall rigid ms -> let e' := moves_dot ms (ih m) (iw m) e in lin_sample (moves 0 ms m) (py e') (pxc e') = lin_sample m (py e) (pxc e).
Proof.
  induction ms as [|mo ms IH]; intros m e F; [reflexivity|]. inversion_clear F. cbn [moves moves_dot]. destruct (move_size mo m) as [S1 S2]. rewrite <- S1, <- S2.
  cbv zeta. etransitivity; [apply IH; assumption|]. now apply sample_move.
Qed.
Lemma inside_move mo h w e : rigid mo -> (0 < h)%Z -> (0 < w)%Z -> inside (fst (size_after mo h w)) (snd (size_after mo h w)) (move_dot mo h w e) = move_dot mo h w (inside h w e).
Proof.
  intros Hr Hh Hw. assert (0 <= IZR (h - 1)) by (apply IZR_le; lia). assert (0 <= IZR (w - 1)) by (apply IZR_le; lia).
  destruct mo; try contradiction Hr; unfold inside, move_dot, py, pxc; cbn [fst snd size_after]; rewrite ?clamp_mirror by assumption; reflexivity.
Qed.
Fixpoint sizes_after (ms : list motion) (h w : Z) : Z * Z := match ms with [] => (h, w) | a :: ms => sizes_after ms (fst (size_after a h w)) (snd (size_after a h w)) end.
Lemma moves_sizes ms : forall m : image R, ih (moves 0 ms m) = fst (sizes_after ms (ih m) (iw m)) /\ iw (moves 0 ms m) = snd (sizes_after ms (ih m) (iw m)).
Proof. induction ms as [|mo ms IH]; intros m; [now split|]. cbn [moves sizes_after]. destruct (move_size mo m) as [<- <-]. apply IH. Qed.
Lemma inside_moves ms : forall h w e, Forall rigid ms -> (0 < h)%Z -> (0 < w)%Z -> inside (fst (sizes_after ms h w)) (snd (sizes_after ms h w)) (moves_dot ms h w e) = moves_dot ms h w (inside h w e).
Proof.
  induction ms as [|mo ms IH]; intros h w e F Hh Hw; [reflexivity|]. inversion_clear F. cbn [sizes_after moves_dot]. destruct (rigid_size mo h w H Hh Hw).
  rewrite IH by assumption. now rewrite inside_move.
Qed.
Lemma resampled_moves ms (m : image R) E E' : Forall rigid ms -> (0 < ih m)%Z -> (0 < iw m)%Z ->
  (forall i j, in_img m i j -> E' (moves_dot ms (ih m) (iw m) (IZR i, IZR j)) = moves_dot ms (ih m) (iw m) (E (IZR i, IZR j))) ->
  looks_like (resampled E' (moves 0 ms m)) (moves 0 ms (resampled E m)).
Proof.
  intros F Hh Hw H. destruct (moves_sizes ms m) as [S1 S2]. destruct (moves_sizes ms (resampled E m)) as [T1 T2]. cbn [resampled ih iw] in T1, T2.
  split; [cbn [resampled ih]; congruence|]. split; [cbn [resampled iw]; congruence|]. intros i j Hij.
  assert (Hij' : in_img (moves 0 ms m) i j) by (unfold in_img in *; cbn [resampled ih iw] in *; rewrite S1, S2, <- T1, <- T2; exact Hij).
  destruct (moves_source ms (ih m) (iw m) F m eq_refl eq_refl i j Hij') as [i0 [j0 [Hi [Hj [EP P]]]]]. rewrite (P (resampled E m) eq_refl eq_refl).
  cbn [resampled px]. rewrite <- EP, H by (unfold in_img; lia). rewrite S1, S2, inside_moves by assumption. now apply sample_moves.
Qed.
Lemma exact_perspective (m : image R) c : (0 < ih m)%Z -> (0 < iw m)%Z -> length c = 8%nat ->
  exists out, @correct_perspective_image R Rexact (@bilinear R Rex) m c None = Ok out /\ looks_like out (resampled (proj (proj_map c)) m) /\ looks_like (resampled (proj (proj_map c)) m) out.
Proof.
  intros Hh Hw Hc. do 9 (destruct c as [|? c]; [try discriminate|]); [|discriminate].
  unfold correct_perspective_image, generate_perspective_map. cbn [unpack8 bind].
  unfold reshape. rewrite !map_length. rewrite grid_length by lia. rewrite Z.eqb_refl. eexists. split; [reflexivity|].
  assert (Q : forall i j, in_img m i j -> nth (Z.to_nat (i * iw m + j)) (map (fun yx : R * R => @bilinear R Rex m (fst yx) (snd yx)) (map (fun ij : Z * Z =>
     (@nf32 R Rexact (@nclip R Rexact (@persp_y R Rexact (r, r0, r1, r2, r3, r4, r5, r6) (@nofZ R Rexact (fst ij)) (@nofZ R Rexact (snd ij))) (@nofZ R Rexact 0) (@nofZ R Rexact (ih m - 1))),
      @nf32 R Rexact (@nclip R Rexact (@persp_x R Rexact (r, r0, r1, r2, r3, r4, r5, r6) (@nofZ R Rexact (fst ij)) (@nofZ R Rexact (snd ij))) (@nofZ R Rexact 0) (@nofZ R Rexact (iw m - 1))))) (grid (ih m) (iw m)))) (@n0 R Rexact)
    = px (resampled (proj (proj_map [r; r0; r1; r2; r3; r4; r5; r6])) m) i j).
  { intros i j [Hi Hj].
    assert (Hl : (Z.to_nat (i * iw m + j) < length (grid (ih m) (iw m)))%nat) by (apply Nat2Z.inj_lt; rewrite grid_length by lia; nia).
    rewrite map_map. rewrite (nth_map_in _ _ _ (0%Z, 0%Z)) by assumption. rewrite grid_nth by assumption. cbn [fst snd].
    change (@nclip R Rexact) with (@nclip R Rex). change (@nf32 R Rexact) with (fun x : R => x). change (@nofZ R Rexact) with IZR. cbv beta.
    unfold Rex. rewrite !nclip_R by (apply IZR_le; lia). fold Rex.
    rewrite bilinear_lin_sample by (apply clamp_range; apply IZR_le; lia). reflexivity. }
  split; (split; [reflexivity|]; split; [reflexivity|]); intros i j Hij; [apply Q; exact Hij|symmetry; apply Q; exact Hij].
Qed.
(** The photograph and the points on it are moved together: the new
    coefficients correct the moved photograph into the moved corrected one. *)
Theorem C128_held : forall lstsq ms m src tgt c p1 p2 p3 p4 q1 q2 q3 q4, lstsq_oracle lstsq -> Forall rigid ms -> (0 < ih m)%Z -> (0 < iw m)%Z ->
  length src = length tgt -> (forall p q, In (p, q) (combine tgt src) -> sends c p q) ->
  In (p1, q1) (combine tgt src) -> In (p2, q2) (combine tgt src) -> In (p3, q3) (combine tgt src) -> In (p4, q4) (combine tgt src) ->
  general_position p1 p2 p3 p4 -> general_position q1 q2 q3 q4 ->
  (forall i j, in_img m i j -> den (proj_map c) (IZR i, IZR j) <> 0) ->
  let place := moves_dot ms (ih m) (iw m) in
  exists c' out out',
    @calc_perspective_coefficients R Rexact lstsq src tgt false = Ok c /\
    @calc_perspective_coefficients R Rexact lstsq (map place src) (map place tgt) false = Ok c' /\
    @correct_perspective_image R Rexact (@bilinear R Rex) m c None = Ok out /\
    @correct_perspective_image R Rexact (@bilinear R Rex) (moves 0 ms m) c' None = Ok out' /\
    looks_like out' (moves 0 ms out) /\ forall p q, sends c p q -> sends c' (place p) (place q).
Proof.
  intros lstsq ms m src tgt c p1 p2 p3 p4 q1 q2 q3 q4 LS F Hh Hw L H I1 I2 I3 I4 GP GQ HD place.
  pose proof (proj1 (H p1 q1 I1)) as Lc. pose proof (place_coords ms (ih m) (iw m)) as PC. fold place in PC.
  destruct (moves_sizes ms m) as [S1 S2].
  assert (P : (0 < ih (moves 0%R ms m))%Z /\ (0 < iw (moves 0%R ms m))%Z) by (destruct (moves_size ms m F) as [[-> ->]|[-> ->]]; lia).
  assert (O : forall o, place o = (0, 0) -> den (proj_map c) o <> 0).
  { intros o EO. destruct (moves_source ms (ih m) (iw m) F m eq_refl eq_refl 0%Z 0%Z ltac:(unfold in_img; lia)) as [i0 [j0 [Hi [Hj [EP _]]]]].
    assert (o = (IZR i0, IZR j0)) as ->; [|apply HD; unfold in_img; lia].
    destruct (coords_matrix place PC) as [_ [B [_ [TB _]]]]. destruct (TB o) as [_ E1]. destruct (TB (IZR i0, IZR j0)) as [_ E2]. unfold place in E1, E2. rewrite EP in E2. fold place in E1. rewrite EO in E1. congruence. }
  destruct (C128_coordinates lstsq tgt src place place c p1 p2 p3 p4 q1 q2 q3 q4 LS (eq_sym L) H I1 I2 I3 I4 GP GQ PC PC O) as [c' [E1 [E2 [SS _]]]].
  assert (Lc' : length c' = 8%nat) by (apply (SS p1 q1), H, I1).
  destruct (exact_perspective m c Hh Hw Lc) as [out [X1 [X2 X3]]]. destruct (exact_perspective (moves 0 ms m) c' (proj1 P) (proj2 P) Lc') as [out' [Y1 [Y2 _]]].
  exists c', out, out'. rewrite !C35_backward. split; [exact E1|]. split; [exact E2|]. split; [exact X1|]. split; [exact Y1|]. split; [|exact SS].
  eapply like_trans; [exact Y2|]. eapply like_trans; [|apply moves_like; [exact F|exact X3]].
  apply resampled_moves; try assumption. intros i j Hij. destruct (SS (IZR i, IZR j) (proj (proj_map c) (IZR i, IZR j))) as [_ [_ Q]]; [|exact Q].
  split; [exact Lc|]. split; [now apply HD|reflexivity].
Qed.
Print Assumptions C128_held.
(** The same in double precision with positions stored in single precision:
    the two differ by no more than the rounding errors of both (C114). *)
Definition perspective_error (L : R) (c : list R) (p : pt) (h w : Z) : R :=
  L * (bound_y c p + bound_x c p + two (-24) * IZR (h + w - 2) + 2 * two (-150)).
Theorem C128_held_rounded : forall rnd ms m c c' L, 0 <= L -> exact_or_double rnd -> Forall rigid ms -> length c = 8%nat -> length c' = 8%nat ->
  (0 < ih m <= 2 ^ 24 + 1)%Z -> (0 < iw m <= 2 ^ 24 + 1)%Z -> smooth L m ->
  let place := moves_dot ms (ih m) (iw m) in
  (forall p q, sends c p q -> sends c' (place p) (place q)) ->
  (forall i j, in_img m i j -> let p := (IZR i, IZR j) in den (proj_map c) p <> 0 /\ resolved c p /\ resolved c' (place p)) ->
  exists out out', @correct_perspective_image R (Rnum rnd) (@bilinear R Rex) m c None = Ok out /\
    @correct_perspective_image R (Rnum rnd) (@bilinear R Rex) (moves 0 ms m) c' None = Ok out' /\
    ih out' = ih (moves 0 ms out) /\ iw out' = iw (moves 0 ms out) /\
    forall i j, in_img m i j -> let p := (IZR i, IZR j) in forall i' j', (IZR i', IZR j') = place p ->
      Rabs (px out' i' j' - px out i j) <= perspective_error L c' (place p) (ih m) (iw m) + perspective_error L c p (ih m) (iw m).
Proof.
  intros rnd ms m c c' L HL Hr F Lc Lc' Hh Hw [Sv Sh] place SS HR. destruct (moves_sizes ms m) as [S1 S2].
  assert (SZ := moves_size ms m F). destruct (smooth_moves L ms m F (conj Sv Sh)) as [Sv' Sh'].
  destruct (C114_pixels rnd m c L HL Hr Lc Hh Hw Sv Sh) as [out [E [E1 [E2 P]]]].
  destruct (C114_pixels rnd (moves 0 ms m) c' L HL Hr Lc' ltac:(destruct SZ as [[-> _]|[-> _]]; lia) ltac:(destruct SZ as [[_ ->]|[_ ->]]; lia) Sv' Sh') as [out' [E' [E1' [E2' P']]]].
  exists out, out'. split; [exact E|]. split; [exact E'|]. destruct (moves_sizes ms out) as [T1 T2]. rewrite E1, E2 in T1, T2.
  split; [congruence|]. split; [congruence|]. intros i j Hij p i' j' EP. destruct (HR i j Hij) as [HD [R1 R2]]. fold p in HD, R1, R2.
  assert (Hij' : in_img (moves 0 ms m) i' j').
  { pose proof (inside_moves ms (ih m) (iw m) p F ltac:(lia) ltac:(lia)) as IN. fold place in IN. rewrite <- EP, <- S1, <- S2 in IN.
    assert (Ip : inside (ih m) (iw m) p = p).
    { destruct Hij as [Hi Hj]. unfold inside, p, py, pxc. cbn [fst snd]. assert (0 <= IZR i <= IZR (ih m - 1)) by (split; apply IZR_le; lia). assert (0 <= IZR j <= IZR (iw m - 1)) by (split; apply IZR_le; lia).
      unfold clamp, Rmin, Rmax. apply f_equal2; repeat destruct Rle_dec; lra. }
    rewrite Ip, <- EP in IN. unfold inside, py, pxc in IN. cbn [fst snd] in IN.
    assert (Y1 : (0 < ih (moves 0%R ms m))%Z /\ (0 < iw (moves 0%R ms m))%Z) by (destruct SZ as [[-> ->]|[-> ->]]; lia).
    assert (Z1 : 0 <= IZR (ih (moves 0 ms m) - 1)) by (apply IZR_le; lia). assert (Z2 : 0 <= IZR (iw (moves 0 ms m) - 1)) by (apply IZR_le; lia).
    pose proof (NumFacts.clamp_range (IZR i') 0 (IZR (ih (moves 0 ms m) - 1)) Z1) as C1. pose proof (NumFacts.clamp_range (IZR j') 0 (IZR (iw (moves 0 ms m) - 1)) Z2) as C2.
    injection IN as IN1 IN2. rewrite IN1 in C1. rewrite IN2 in C2. destruct C1 as [C1 C1'], C2 as [C2 C2']. apply le_IZR in C1, C1', C2, C2'. unfold in_img. lia. }
  specialize (P i j Hij). cbv zeta in P. fold p in P. specialize (P R1). specialize (P' i' j' Hij'). cbv zeta in P'. rewrite EP in P'. specialize (P' R2).
  assert (HS : (ih (moves 0%R ms m) + iw (moves 0%R ms m) - 2 = ih m + iw m - 2)%Z) by (destruct SZ as [[-> ->]|[-> ->]]; lia). rewrite HS in P'.
  destruct (SS p (proj (proj_map c) p)) as [_ [_ Q]]; [now repeat split|]. change (coef_mat c') with (proj_map c') in P'. rewrite Q in P'.
  assert (B : lin_sample (moves 0 ms m) (clamp (py (place (proj (proj_map c) p))) 0 (IZR (ih (moves 0 ms m) - 1))) (clamp (pxc (place (proj (proj_map c) p))) 0 (IZR (iw (moves 0 ms m) - 1)))
    = lin_sample m (clamp (py (proj (coef_mat c) p)) 0 (IZR (ih m - 1))) (clamp (pxc (proj (coef_mat c) p)) 0 (IZR (iw m - 1)))).
  { pose proof (inside_moves ms (ih m) (iw m) (proj (proj_map c) p) F ltac:(lia) ltac:(lia)) as IN. fold place in IN. rewrite <- S1, <- S2 in IN.
    pose proof (sample_moves ms m (inside (ih m) (iw m) (proj (proj_map c) p)) F) as SM. cbv zeta in SM. fold place in SM. rewrite <- IN in SM. exact SM. }
  rewrite B in P'. set (A := lin_sample m _ _) in *. unfold perspective_error.
  replace (px out' i' j' - px out i j) with ((px out' i' j' - A) + - (px out i j - A)) by ring.
  eapply Rle_trans; [apply Rabs_triang|]. rewrite Rabs_Ropp. apply Rplus_le_compat; assumption.
Qed.
Print Assumptions C128_held_rounded.

(** *** The hypotheses are met *)
(** The unit square under x' = 2 x / (x + 1), y' = (y + x) / (x + 1), and the
    inverse x = x' / (2 - x'), y = (2 y' - x') / (2 - x'). *)
Definition fp_src : list pt := [(0, 0); (0, 1); (1, 0); (1, 1)].
Definition fp_tgt : list pt := [(0, 0); (1 / 2, 1); (1, 0); (1, 1)].
Lemma fp_general : general_position (0, 0) (0, 1) (1, 0) (1, 1) /\ general_position (0, 0) (1 / 2, 1) (1, 0) (1, 1).
Proof. unfold general_position, triangle, area, py, pxc. cbn [fst snd]. repeat apply conj; lra. Qed.
Lemma fp_sends : forall p q, In (p, q) (combine fp_src fp_tgt) -> sends [2; 0; 0; 1; 1; 0; 1; 0] p q /\ sends [1 / 2; 0; 0; - (1 / 2); 1; 0; - (1 / 2); 0] q p.
Proof.
  intros p q Hp. unfold fp_src, fp_tgt in Hp. cbn [combine In] in Hp. repeat destruct Hp as [Hp|Hp]; try contradiction; injection Hp as <- <-;
    unfold sends, proj, den, proj_map, py, pxc; cbn [nth length Spec.c1 Spec.c2 Spec.c3 Spec.c4 Spec.c5 Spec.c6 Spec.c7 Spec.c8 Spec.c9 fst snd];
    (split; (split; [reflexivity|]; split; [lra|]; apply f_equal2; field; lra)).
Qed.
Example C128_found_ex : exists c, @calc_perspective_coefficients R Rexact ls_R fp_src fp_tgt true = Ok c /\ @correct_perspective_line R Rex [fp_src] c = Ok [fp_tgt].
Proof.
  destruct fp_general as [G1 G2].
  destruct (C128_found ls_R _ _ _ _ _ _ _ _ ls_R_ok G1 G2) as [M [[T1 [T2 [T3 T4]]] [A B]]]. destruct (Req_dec (den M (0, 0)) 0) as [Z|Z].
  - exfalso. apply (B Z [2; 0; 0; 1; 1; 0; 1; 0]). split; [|split; [|split]]; refine (proj1 (fp_sends _ _ _)); cbn; tauto.
  - destruct (A Z) as [c [E1 [_ E2]]]. exists c. split; [exact E1|exact E2].
Qed.
(** x' = 1 / x, y' = y / x sends the corner (0, 0) to infinity: these four
    pairs are reproduced by no coefficients. *)
Example C128_lost : general_position (1, 1) (1, 2) (2, 1) (2, 2) /\ general_position (1, 1) (1 / 2, 1 / 2) (2, 1) (1, 1 / 2) /\
  forall c, ~ (sends c (1, 1) (1, 1) /\ sends c (1, 2) (1 / 2, 1 / 2) /\ sends c (2, 1) (2, 1) /\ sends c (2, 2) (1, 1 / 2)).
Proof.
  assert (G1 : general_position (1, 1) (1, 2) (2, 1) (2, 2)) by (unfold general_position, triangle, area, py, pxc; cbn [fst snd]; repeat apply conj; lra).
  assert (G2 : general_position (1, 1) (1 / 2, 1 / 2) (2, 1) (1, 1 / 2)) by (unfold general_position, triangle, area, py, pxc; cbn [fst snd]; repeat apply conj; lra).
  split; [exact G1|]. split; [exact G2|].
  destruct (C128_found ls_R _ _ _ _ _ _ _ _ ls_R_ok G1 G2) as [M [[T1 [T2 [T3 T4]]] [_ B]]]. apply B.
  set (N := M3 0 0 1 0 1 0 1 0 0).
  assert (TN : forall y x, x <> 0 -> takes N (y, x) (y / x, 1 / x)).
  { intros y x Hx. unfold takes, proj, den, N, py, pxc. cbn [Spec.c1 Spec.c2 Spec.c3 Spec.c4 Spec.c5 Spec.c6 Spec.c7 Spec.c8 Spec.c9 fst snd].
    replace (1 * x + 0 * y + 0) with x by ring. split; [exact Hx|]. apply f_equal2; field; exact Hx. }
  assert (U1 : takes N (1, 1) (1, 1)). { replace (1, 1) with (1 / 1, 1 / 1) at 2 by (apply f_equal2; field). apply TN; lra. }
  assert (U2 : takes N (1, 2) (1 / 2, 1 / 2)) by (apply TN; lra).
  assert (U3 : takes N (2, 1) (2, 1)). { replace (2, 1) with (2 / 1, 1 / 1) at 2 by (apply f_equal2; field). apply TN; lra. }
  assert (U4 : takes N (2, 2) (1, 1 / 2)). { replace (1, 1 / 2) with (2 / 2, 1 / 2) by (apply f_equal2; field). apply TN; lra. }
  destruct (map_unique N M _ _ _ _ _ _ _ _ G1 (proj1 G2) U1 U2 U3 U4 T1 T2 T3 T4) as [k [_ ->]]. unfold den, scale3, N, py, pxc. cbn. ring.
Qed.
Example C128_undo_ex : exists f b, @calc_perspective_coefficients R Rexact ls_R fp_src fp_tgt true = Ok f /\ @calc_perspective_coefficients R Rexact ls_R fp_src fp_tgt false = Ok b /\
  exists flat, @correct_perspective_line R Rex [[(5, 3); (7, 4)]; [(0, 9)]] f = Ok flat /\ @correct_perspective_line R Rex flat b = Ok [[(5, 3); (7, 4)]; [(0, 9)]].
Proof.
  destruct fp_general as [G1 G2]. exists [2; 0; 0; 1; 1; 0; 1; 0], [1 / 2; 0; 0; - (1 / 2); 1; 0; - (1 / 2); 0].
  destruct (C128_undo ls_R fp_src fp_tgt [2; 0; 0; 1; 1; 0; 1; 0] [1 / 2; 0; 0; - (1 / 2); 1; 0; - (1 / 2); 0] _ _ _ _ _ _ _ _ ls_R_ok eq_refl fp_sends
    ltac:(left; reflexivity) ltac:(right; left; reflexivity) ltac:(right; right; left; reflexivity) ltac:(right; right; right; left; reflexivity) G1 G2) as [E1 [E2 U]].
  split; [exact E1|]. split; [exact E2|]. apply U. repeat constructor; unfold den, proj_map, py, pxc; cbn [nth Spec.c7 Spec.c8 Spec.c9 fst snd]; lra.
Qed.
(** The source in millimetres from another corner, the target transposed. *)
Example C128_coordinates_ex : let g := fun p : pt => (3 - py p / 10, pxc p / 10) in let h := fun p : pt => (pxc p, py p) in
  exists f', @calc_perspective_coefficients R Rexact ls_R (map g fp_src) (map h fp_tgt) true = Ok f' /\ sends f' (g (5, 3)) (h (2, 3 / 2)).
Proof.
  intros g h. destruct fp_general as [G1 G2].
  destruct (C128_coordinates ls_R fp_src fp_tgt g h [2; 0; 0; 1; 1; 0; 1; 0] _ _ _ _ _ _ _ _ ls_R_ok eq_refl (fun p q H => proj1 (fp_sends p q H))
    ltac:(left; reflexivity) ltac:(right; left; reflexivity) ltac:(right; right; left; reflexivity) ltac:(right; right; right; left; reflexivity) G1 G2) as [f' [_ [E [S _]]]].
  - exists (- (1 / 10)), 0, 3, 0, (1 / 10), 0. split; [lra|]. intros p. unfold g. apply f_equal2; field.
  - exists 0, 1, 0, 1, 0, 0. split; [lra|]. intros p. unfold h. apply f_equal2; ring.
  - intros o EO. unfold g in EO. injection EO as E1 E2. unfold den, proj_map. cbn [nth Spec.c7 Spec.c8 Spec.c9]. assert (pxc o = 0) by lra. rewrite H. lra.
  - exists f'. split; [exact E|]. apply S. unfold sends, proj, den, proj_map, py, pxc. cbn [nth length Spec.c1 Spec.c2 Spec.c3 Spec.c4 Spec.c5 Spec.c6 Spec.c7 Spec.c8 Spec.c9 fst snd].
    split; [reflexivity|]. split; [lra|]. apply f_equal2; field.
Qed.
(** A photograph of 30 x 40 pixels, mirrored and turned. *)
Example C128_held_ex : forall m, ih m = 30%Z -> iw m = 40%Z -> let ms := [LeftRight; Transposed; UpsideDown] in let place := moves_dot ms 30 40 in
  exists c c' out out', @calc_perspective_coefficients R Rexact ls_R fp_tgt fp_src false = Ok c /\
    @calc_perspective_coefficients R Rexact ls_R (map place fp_tgt) (map place fp_src) false = Ok c' /\
    @correct_perspective_image R Rexact (@bilinear R Rex) m c None = Ok out /\
    @correct_perspective_image R Rexact (@bilinear R Rex) (moves 0 ms m) c' None = Ok out' /\ looks_like out' (moves 0 ms out).
Proof.
  intros m Hh Hw ms place. destruct fp_general as [G1 G2].
  destruct (C128_held ls_R ms m fp_tgt fp_src [2; 0; 0; 1; 1; 0; 1; 0] _ _ _ _ _ _ _ _ ls_R_ok ltac:(repeat constructor) ltac:(lia) ltac:(lia) eq_refl (fun p q H => proj1 (fp_sends p q H))
    ltac:(left; reflexivity) ltac:(right; left; reflexivity) ltac:(right; right; left; reflexivity) ltac:(right; right; right; left; reflexivity) G1 G2) as [c' [out [out' [E1 [E2 [E3 [E4 [E5 _]]]]]]]].
  - intros i j [Hi Hj]. unfold den, proj_map, py, pxc. cbn [nth Spec.c7 Spec.c8 Spec.c9 fst snd]. assert (0 <= IZR j) by (apply IZR_le; lia). lra.
  - rewrite Hh, Hw in E2. exists [2; 0; 0; 1; 1; 0; 1; 0], c', out, out'. split; [exact E1|]. split; [exact E2|]. split; [exact E3|]. split; [exact E4|exact E5].
Qed.
(** Turning a picture of 30 x 40 pixels upside down: the coefficients c' of
    the shift x' = x, y' = y + 3 become y' = y - 3. *)
Example C128_held_rounded_ex : exists m : image R, smooth 1 m /\ px m 1 0 <> px m 0 0 /\
  let c := [1; 0; 0; 0; 1; 3; 0; 0] in let c' := [1; 0; 0; 0; 1; -3; 0; 0] in
  exists out out', @correct_perspective_image R (Rnum f64) (@bilinear R Rex) m c None = Ok out /\
    @correct_perspective_image R (Rnum f64) (@bilinear R Rex) (moves 0 [UpsideDown] m) c' None = Ok out' /\
    forall i j, in_img m i j -> Rabs (px out' (29 - i) j - px out i j) <= perspective_error 1 c' (IZR (29 - i), IZR j) 30 40 + perspective_error 1 c (IZR i, IZR j) 30 40.
Proof.
  exists (mkimg 30 40 (fun i _ => IZR i)).
  assert (Sm : smooth 1 (mkimg 30 40 (fun i _ => IZR i))).
  { split; intros i j _ _; cbn [px]; [rewrite plus_IZR; replace (IZR i + 1 - IZR i) with 1 by ring; rewrite Rabs_R1; lra|]. rewrite Rminus_diag_eq, Rabs_R0 by reflexivity. lra. }
  split; [exact Sm|]. split; [cbn; lra|]. intros c c'.
  assert (RS : forall k p, resolved [1; 0; 0; 0; 1; k; 0; 0] p).
  { intros k p. unfold resolved, terms, den, coef_mat. cbn [nth Spec.c7 Spec.c8 Spec.c9]. rewrite !Rmult_0_l, !Rabs_R0, !Rplus_0_l, !Rabs_R1. pose proof (bpow_le radix2 (-48) 0 ltac:(lia)) as B. change (bpow radix2 0) with 1 in B. fold (two (-48)) in B. lra. }
  destruct (C128_held_rounded f64 [UpsideDown] (mkimg 30 40 (fun i _ => IZR i)) c c' 1 ltac:(lra) (or_intror (fun x => eq_refl)) ltac:(repeat constructor) eq_refl eq_refl ltac:(cbn; lia) ltac:(cbn; lia) Sm) as [out [out' [E1 [E2 [_ [_ P]]]]]].
  - intros [y x] q [_ [_ <-]]. unfold sends, proj, den, proj_map, c, c', py, pxc. cbn [nth length Spec.c1 Spec.c2 Spec.c3 Spec.c4 Spec.c5 Spec.c6 Spec.c7 Spec.c8 Spec.c9 fst snd moves_dot move_dot ih iw].
    split; [reflexivity|]. split; [lra|]. apply f_equal2; field.
  - intros i j _ p. split; [unfold den, proj_map, c; cbn [nth Spec.c7 Spec.c8 Spec.c9]; lra|]. split; apply RS.
  - exists out, out'. split; [exact E1|]. split; [exact E2|]. intros i j Hij.
    assert (EP : (IZR (29 - i), IZR j) = moves_dot [UpsideDown] 30 40 (IZR i, IZR j)) by (cbn [moves_dot move_dot fst snd]; change (30 - 1)%Z with 29%Z; now rewrite minus_IZR).
    rewrite EP. apply (P i j Hij (29 - i)%Z j). exact EP.
Qed.
