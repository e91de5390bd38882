(** Error analysis of the radial correction in floating-point arithmetic. *)
From Coq Require Import Reals ZArith List Lra Lia.
From Flocq Require Import Core Relative.
From Verif Require Import Base Num NumFacts Spec Post.
Import ListNotations.
Local Open Scope R_scope.

(** [near v k A a' a]: a' deviates from a by k relative errors v of A. *)
Definition gam (v : R) (k : nat) : R := (1 + v) ^ k - 1.
Definition near (v : R) (k : nat) (A a' a : R) : Prop := Rabs a <= A /\ Rabs (a' - a) <= gam v k * A.

Section Near.
  Variable v : R.
  Hypothesis Hv : 0 <= v.
  Lemma one_le k : 1 <= (1 + v) ^ k.
  Proof. apply pow_R1_Rle. lra. Qed.
  Lemma gam_pos k : 0 <= gam v k. Proof. unfold gam. pose proof (one_le k). lra. Qed.
  Lemma gam_le k l : (k <= l)%nat -> gam v k <= gam v l.
  Proof. intros H. unfold gam. apply Rplus_le_compat_r, Rle_pow; [lra|assumption]. Qed.
  Lemma gam_add k l : gam v (k + l) = gam v k * (1 + gam v l) + gam v l.
  Proof. unfold gam. rewrite pow_add. ring. Qed.
  Lemma near_refl A a : Rabs a <= A -> near v 0 A a a.
  Proof. intros H. split; [exact H|]. unfold gam. cbn [pow]. replace (a - a) with 0 by ring. rewrite Rabs_R0. lra. Qed.
  Lemma near_nonneg k A a' a : near v k A a' a -> 0 <= A.
  Proof. intros [H _]. pose proof (Rabs_pos a). lra. Qed.
  Lemma near_le k l A B a' a : near v k A a' a -> (k <= l)%nat -> A <= B -> near v l B a' a.
  Proof.
    intros N Hl HB. pose proof (near_nonneg _ _ _ _ N). destruct N as [H1 H2]. split; [lra|]. eapply Rle_trans; [exact H2|].
    apply Rmult_le_compat; auto using gam_pos, gam_le.
  Qed.
  Lemma near_abs k A a' a : near v k A a' a -> Rabs a' <= (1 + gam v k) * A.
  Proof. intros [H1 H2]. replace a' with (a + (a' - a)) by ring. eapply Rle_trans; [apply Rabs_triang|]. lra. Qed.
  Lemma near_mul k l A B a' a b' b : near v k A a' a -> near v l B b' b -> near v (k + l) (A * B) (a' * b') (a * b).
  Proof.
    intros Na Nb. pose proof (near_nonneg _ _ _ _ Na) as PA. pose proof (near_nonneg _ _ _ _ Nb) as PB.
    pose proof (near_abs _ _ _ _ Nb) as Hb. destruct Na as [A1 A2], Nb as [B1 B2]. split.
    - rewrite Rabs_mult. apply Rmult_le_compat; auto using Rabs_pos.
    - replace (a' * b' - a * b) with ((a' - a) * b' + a * (b' - b)) by ring.
      eapply Rle_trans; [apply Rabs_triang|]. rewrite !Rabs_mult.
      assert (X : Rabs (a' - a) * Rabs b' <= (gam v k * A) * ((1 + gam v l) * B)) by (apply Rmult_le_compat; auto using Rabs_pos).
      assert (Y : Rabs a * Rabs (b' - b) <= A * (gam v l * B)) by (apply Rmult_le_compat; auto using Rabs_pos).
      rewrite gam_add. nra.
  Qed.
  Lemma near_add k A B a' a b' b : near v k A a' a -> near v k B b' b -> near v k (A + B) (a' + b') (a + b).
  Proof.
    intros [A1 A2] [B1 B2]. split.
    - eapply Rle_trans; [apply Rabs_triang|]. lra.
    - replace (a' + b' - (a + b)) with ((a' - a) + (b' - b)) by ring. eapply Rle_trans; [apply Rabs_triang|]. lra.
  Qed.
  Lemma near_pow k A a' a i : near v k A a' a -> near v (k * i) (A ^ i) (a' ^ i) (a ^ i).
  Proof.
    intros N. induction i as [|i IH].
    - rewrite Nat.mul_0_r. cbn [pow]. apply near_refl. rewrite Rabs_R1. lra.
    - replace (k * S i)%nat with (k + k * i)%nat by lia. cbn [pow]. now apply near_mul.
  Qed.
  (** One rounding. *)
  Variables (rnd : R -> R) (e : R).
  Hypothesis Hrnd : forall x, Rabs (rnd x - x) <= v / 2 * Rabs x + e.
  Lemma near_rnd k A a' a : near v k A a' a -> e <= v / 2 * A -> near v (S k) A (rnd a') a.
  Proof.
    intros N He. pose proof (near_nonneg _ _ _ _ N) as PA. pose proof (near_abs _ _ _ _ N) as Ha. destruct N as [A1 A2]. split; [exact A1|].
    replace (rnd a' - a) with ((rnd a' - a') + (a' - a)) by ring. eapply Rle_trans; [apply Rabs_triang|].
    specialize (Hrnd a'). change (S k) with (1 + k)%nat. rewrite gam_add. pose proof (gam_pos k) as G.
    replace (gam v 1) with v by (unfold gam; ring).
    assert (X : v / 2 * Rabs a' <= v / 2 * ((1 + gam v k) * A)) by (apply Rmult_le_compat_l; [lra|assumption]).
    assert (v * A * gam v k >= 0) by (apply Rle_ge; repeat apply Rmult_le_pos; assumption). nra.
  Qed.
End Near.

(** A bound for the accumulated factor. *)
Lemma gam_lin v k : 0 <= v -> INR k * v <= 1 -> gam v k <= 2 * INR k * v.
Proof.
  intros Hv Hk.
  assert (H : forall j, (j <= k)%nat -> (1 + v) ^ j <= 1 + INR j * v + (INR j * v) * (INR j * v)).
  { induction j as [|j IHj]; intros Hj; [cbn; lra|]. specialize (IHj ltac:(lia)). rewrite S_INR. cbn [pow].
    assert (L : INR j <= INR k) by (apply le_INR; lia). pose proof (pos_INR j) as P.
    assert (A1 : 0 <= INR j * v) by (apply Rmult_le_pos; lra).
    assert (A2 : INR j * v <= 1) by (apply Rle_trans with (INR k * v); [now apply Rmult_le_compat_r|exact Hk]).
    set (a := INR j * v) in *. replace ((INR j + 1) * v) with (a + v) by (unfold a; ring).
    apply Rle_trans with ((1 + v) * (1 + a + a * a)); [apply Rmult_le_compat_l; lra|].
    assert (0 <= v * a * (1 - a)) by (repeat apply Rmult_le_pos; lra).
    assert (0 <= v * v) by (apply Rmult_le_pos; lra). assert (0 <= a * v) by (apply Rmult_le_pos; lra). nra. }
  specialize (H k (le_n _)). unfold gam. assert (0 <= INR k * v) by (apply Rmult_le_pos; [apply pos_INR|lra]). nra.
Qed.

Section Radial.
  Variables (v e t : R) (rnd : R -> R).
  Hypothesis Hv : 0 <= v <= / 64.
  Hypothesis Ht : 0 < t <= v / 2.
  Hypothesis He : e <= v / 2 * (t * t).
  Hypothesis Hrnd : forall x, Rabs (rnd x - x) <= v / 2 * Rabs x + e.
  Let v0 : 0 <= v. Proof. apply Hv. Qed.
  Lemma e_le A : t * t <= A -> e <= v / 2 * A.
  Proof. intros H. eapply Rle_trans; [exact He|]. apply Rmult_le_compat_l; lra. Qed.
  Lemma tt_le : t * t <= t. Proof. nra. Qed.

  Lemma sqrt_near S' S : 0 <= S -> Rabs (S' - S) <= gam v 4 * (S + 2 * (t * t)) ->
    near v 5 (Rmax 1 (sqrt S)) (sqrt S') (sqrt S).
  Proof.
    intros HS HD. pose proof (sqrt_pos S) as Pr. set (r := sqrt S) in *.
    assert (Er : r * r = S) by now apply sqrt_sqrt.
    assert (G4 : gam v 4 <= / 8).
    { eapply Rle_trans; [apply gam_lin; [lra|]|]; cbn [INR]; lra. }
    pose proof (gam_pos v v0 4) as P4.
    assert (G5 : gam v 4 + v <= gam v 5).
    { change 5%nat with (4 + 1)%nat. rewrite gam_add. replace (gam v 1) with v by (unfold gam; ring). nra. }
    pose proof (Rmax_l 1 r) as M1. pose proof (Rmax_r 1 r) as M2. set (M := Rmax 1 r) in *.
    assert (X : forall x', 0 <= x' -> Rabs (x' - S) <= gam v 4 * (S + 2 * (t * t)) -> Rabs (sqrt x' - r) <= gam v 5 * M).
    { intros x' Px HX. pose proof (sqrt_pos x') as Pq. set (q := sqrt x') in *. assert (Eq : q * q = x') by now apply sqrt_sqrt.
      rewrite <- Er, <- Eq in HX. replace (q * q - r * r) with ((q - r) * (q + r)) in HX by ring. rewrite Rabs_mult, (Rabs_pos_eq (q + r)) in HX by lra.
      destruct (Rle_lt_dec t r) as [C|C].
      - assert (Y : Rabs (q - r) * r <= (gam v 4 * (r + 2 * t)) * r).
        { apply Rle_trans with (Rabs (q - r) * (q + r)); [apply Rmult_le_compat_l; [apply Rabs_pos|lra]|].
          eapply Rle_trans; [exact HX|]. rewrite Rmult_assoc. apply Rmult_le_compat_l; [exact P4|]. nra. }
        apply Rmult_le_reg_r in Y; [|lra]. eapply Rle_trans; [exact Y|].
        apply Rle_trans with ((gam v 4 + v) * M); [|apply Rmult_le_compat_r; lra].
        assert (gam v 4 * r <= gam v 4 * M) by (apply Rmult_le_compat_l; assumption).
        assert (gam v 4 * (2 * t) <= / 8 * (2 * t)) by (apply Rmult_le_compat_r; lra).
        assert (v * 1 <= v * M) by (apply Rmult_le_compat_l; lra). nra.
      - assert (Q : q <= 2 * t).
        { destruct (Rle_lt_dec q (2 * t)) as [K|K]; [exact K|exfalso].
          assert (R1 : Rabs (q - r) = q - r) by (apply Rabs_pos_eq; lra). rewrite R1 in HX.
          assert (R2 : gam v 4 * (r * r + 2 * (t * t)) <= / 8 * (3 * (t * t))).
          { apply Rmult_le_compat; [exact P4|nra|exact G4|nra]. }
          nra. }
        apply Rle_trans with (2 * t).
        + apply Rabs_le. lra.
        + apply Rle_trans with (v * 1); [lra|]. apply Rmult_le_compat; lra. }
    split; [rewrite Rabs_pos_eq by assumption; exact M2|].
    destruct (Rle_lt_dec 0 S') as [C|C]; [now apply X|].
    rewrite (sqrt_neg_0 S') by lra. rewrite <- sqrt_0. apply X; [lra|]. eapply Rle_trans; [|exact HD].
    rewrite (Rabs_left1 (S' - S)), (Rabs_left1 (0 - S)) by lra. lra.
  Qed.

  (** The computed distance from the centre. *)
  Definition frad (dx dy : R) : R := rnd (sqrt (rnd (rnd (rnd dx * rnd dx) + rnd (rnd dy * rnd dy)))).
  Lemma frad_near dx dy : near v 6 (Rmax 1 (sqrt (dx * dx + dy * dy))) (frad dx dy) (sqrt (dx * dx + dy * dy)).
  Proof.
    assert (SQ : forall d, near v 3 (d * d + t * t) (rnd (rnd d * rnd d)) (d * d)).
    { intros d. set (A := Rmax (Rabs d) t). assert (A1 : Rabs d <= A) by apply Rmax_l. assert (A2 : t <= A) by apply Rmax_r.
      assert (AA : A * A <= d * d + t * t).
      { unfold A, Rmax. destruct (Rle_dec (Rabs d) t); [nra|]. rewrite <- Rabs_mult, Rabs_pos_eq; nra. }
      assert (N1 : near v 1 A (rnd d) d).
      { apply (near_rnd v v0 rnd e Hrnd); [now apply near_refl|]. apply e_le. pose proof tt_le. lra. }
      pose proof (near_mul v _ _ _ _ _ _ _ _ N1 N1) as N2. cbn [Nat.add] in N2.
      pose proof (near_rnd v v0 rnd e Hrnd _ _ _ _ N2 ltac:(apply e_le; nra)) as N3.
      eapply (near_le v v0); [exact N3|lia|exact AA]. }
    unfold frad. set (S := dx * dx + dy * dy).
    assert (NS : near v 4 (S + 2 * (t * t)) (rnd (rnd (rnd dx * rnd dx) + rnd (rnd dy * rnd dy))) S).
    { pose proof (near_add v _ _ _ _ _ _ _ (SQ dx) (SQ dy)) as N. fold S in N.
      replace (dx * dx + t * t + (dy * dy + t * t)) with (S + 2 * (t * t)) in N by (unfold S; ring).
      apply (near_rnd v v0 rnd e Hrnd); [exact N|]. apply e_le. assert (0 <= S) by (unfold S; nra). nra. }
    assert (PS : 0 <= S) by (unfold S; nra).
    pose proof (sqrt_near _ S PS (proj2 NS)) as N5.
    apply (near_rnd v v0 rnd e Hrnd); [exact N5|]. apply e_le. pose proof (Rmax_l 1 (sqrt S)). pose proof tt_le. lra.
  Qed.

  (** The polynomial. *)
  Lemma sum_near M r' r K : 1 <= M -> near v 6 M r' r -> forall fact i acc' acc A j,
    near v (K + j) A acc' acc -> (6 * (i + length fact) <= K)%nat ->
    near v (K + j + length fact) (A + M ^ i * poly (map Rabs fact) M + INR (length fact) * t)
      (fold_left (fun a b => rnd (a + b)) (mapi_from (fun i f => rnd (f * rnd (r' ^ i))) i fact) acc')
      (acc + r ^ i * poly fact r).
  Proof.
    intros HM Nr. induction fact as [|f fact IH]; intros i acc' acc A j Na HK.
    - cbn [mapi_from fold_left length map poly INR]. rewrite !Rmult_0_r, Rmult_0_l, !Rplus_0_r, Nat.add_0_r. exact Na.
    - cbn [mapi_from fold_left length map poly] in *.
      assert (P1 : 1 <= M ^ i) by now apply pow_R1_Rle.
      pose proof (near_pow v _ _ _ _ i Nr) as N1.
      pose proof (near_rnd v v0 rnd e Hrnd _ _ _ _ N1 ltac:(apply e_le; pose proof tt_le; lra)) as N2.
      pose proof (near_mul v _ _ _ _ _ _ _ _ (near_refl v (Rabs f) f (Rle_refl _)) N2) as N3.
      assert (N4 : near v (S (0 + S (6 * i))) (Rabs f * M ^ i + t) (rnd (f * rnd (r' ^ i))) (f * r ^ i)).
      { apply (near_rnd v v0 rnd e Hrnd).
        - eapply (near_le v v0); [exact N3|lia|lra].
        - apply e_le. pose proof tt_le. pose proof (Rabs_pos f). nra. }
      assert (N5 : near v (K + j) (Rabs f * M ^ i + t) (rnd (f * rnd (r' ^ i))) (f * r ^ i)).
      { eapply (near_le v v0); [exact N4|lia|lra]. }
      assert (N6 : near v (K + S j) (A + (Rabs f * M ^ i + t)) (rnd (acc' + rnd (f * rnd (r' ^ i)))) (acc + f * r ^ i)).
      { replace (K + S j)%nat with (S (K + j)) by lia. apply (near_rnd v v0 rnd e Hrnd); [now apply near_add|].
        apply e_le. pose proof tt_le. pose proof (near_nonneg v _ _ _ _ Na). pose proof (Rabs_pos f). nra. }
      specialize (IH (S i) _ _ _ (S j) N6 ltac:(lia)).
      replace (K + j + S (length fact))%nat with (K + S j + length fact)%nat by lia.
      replace (acc + r ^ i * (f + r * poly fact r)) with (acc + f * r ^ i + r ^ S i * poly fact r) by (cbn [pow]; ring).
      rewrite S_INR. replace (A + M ^ i * (Rabs f + M * poly (map Rabs fact) M) + (INR (length fact) + 1) * t)
        with (A + (Rabs f * M ^ i + t) + M ^ S i * poly (map Rabs fact) M + INR (length fact) * t) by (cbn [pow]; ring).
      exact IH.
  Qed.

  Lemma poly_abs_pos fact M : 0 <= M -> 0 <= poly (map Rabs fact) M.
  Proof. intros H. induction fact as [|f fact IH]; cbn [map poly]; [lra|]. pose proof (Rabs_pos f). nra. Qed.

  (** One coordinate of the result. *)
  Lemma coord_near fact c dx dy : let r := sqrt (dx * dx + dy * dy) in let M := Rmax 1 r in let n := length fact in
    Rabs (rnd (c + rnd (@radial R (Rnum rnd) fact (frad dx dy) * rnd dx)) - (c + poly fact r * dx))
      <= gam v (7 * n + 3) * (Rabs c + M * (poly (map Rabs fact) M + INR (n + 1) * t)).
  Proof.
    intros r M n. pose proof (frad_near dx dy) as Nr. fold r in Nr. fold M in Nr.
    assert (HM : 1 <= M) by apply Rmax_l. assert (Hr : r <= M) by apply Rmax_r.
    assert (Hd : Rabs dx <= M).
    { eapply Rle_trans; [|exact Hr]. unfold r. rewrite <- sqrt_Rsqr_abs. apply sqrt_le_1; unfold Rsqr; nra. }
    pose proof (sum_near M _ _ (6 * n) HM Nr fact 0 0 0 0 0%nat) as Ns.
    assert (N0 : near v (6 * n + 0) 0 0 0).
    { eapply (near_le v v0); [apply (near_refl v 0 0); rewrite Rabs_R0; lra|lia|lra]. }
    specialize (Ns N0 ltac:(unfold n; lia)). cbn [pow] in Ns. rewrite !Rmult_1_l, !Rplus_0_l in Ns.
    change (fold_left (fun a b => rnd (a + b)) (mapi_from (fun i f => rnd (f * rnd (frad dx dy ^ i))) 0 fact) 0)
      with (@radial R (Rnum rnd) fact (frad dx dy)) in Ns.
    replace (6 * n + 0 + length fact)%nat with (7 * n)%nat in Ns by (unfold n; lia). fold n in Ns.
    pose proof (poly_abs_pos fact M ltac:(lra)) as Pp. set (G := poly (map Rabs fact) M) in *.
    pose proof (pos_INR n) as Pn. assert (En : INR (n + 1) = INR n + 1) by (rewrite plus_INR; reflexivity).
    assert (Nd : near v 1 M (rnd dx) dx).
    { apply (near_rnd v v0 rnd e Hrnd); [now apply near_refl|]. apply e_le. pose proof tt_le. lra. }
    pose proof (near_mul v _ _ _ _ _ _ _ _ Ns Nd) as Np.
    assert (PT : 0 <= INR n * t) by (apply Rmult_le_pos; lra).
    assert (LB : (G + INR n * t) * M <= M * (G + INR (n + 1) * t)) by (rewrite En; nra).
    assert (TB : t <= M * (G + INR (n + 1) * t)).
    { apply Rle_trans with (1 * (0 + 1 * t)); [lra|]. apply Rmult_le_compat; try lra. rewrite En. nra. }
    assert (Nq : near v (S (7 * n + 1)) (M * (G + INR (n + 1) * t)) (rnd (@radial R (Rnum rnd) fact (frad dx dy) * rnd dx)) (poly fact r * dx)).
    { apply (near_rnd v v0 rnd e Hrnd).
      - eapply (near_le v v0); [exact Np|lia|exact LB].
      - apply e_le. pose proof tt_le. lra. }
    assert (Nc : near v (S (7 * n + 1)) (Rabs c) c c) by (eapply (near_le v v0); [apply (near_refl v (Rabs c) c); lra|lia|lra]).
    pose proof (near_add v _ _ _ _ _ _ _ Nc Nq) as Ns2.
    pose proof (near_rnd v v0 rnd e Hrnd _ _ _ _ Ns2 ltac:(apply e_le; pose proof tt_le; pose proof (Rabs_pos c); lra)) as Nf.
    replace (7 * n + 3)%nat with (S (S (7 * n + 1))) by lia. exact (proj2 Nf).
  Qed.
End Radial.

(** Double precision. *)
Lemma double_err rnd : exact_or_double rnd -> forall x, Rabs (rnd x - x) <= bpow radix2 (-52) / 2 * Rabs x + bpow radix2 (-1075).
Proof.
  intros H x. pose proof (bpow_gt_0 radix2 (-52)) as B1. pose proof (bpow_gt_0 radix2 (-1075)) as B2. pose proof (Rabs_pos x) as Px.
  destruct H as [H|H]; rewrite H.
  - replace (x - x) with 0 by ring. rewrite Rabs_R0. nra.
  - unfold f64. destruct (error_N_FLT radix2 (-1074) 53 ltac:(lia) (fun n => negb (Z.even n)) x) as [d [h [D1 [D2 [_ ->]]]]].
    replace (x * (1 + d) + h - x) with (d * x + h) by ring. eapply Rle_trans; [apply Rabs_triang|]. rewrite Rabs_mult.
    apply Rplus_le_compat.
    + apply Rmult_le_compat_r; [exact Px|]. change (- (53) + 1)%Z with (-52)%Z in D1. lra.
    + eapply Rle_trans; [exact D2|]. change (-1074)%Z with (-1075 + 1)%Z. rewrite bpow_plus_1. change (IZR radix2) with 2. lra.
Qed.
Lemma single_err x : Rabs (f32 x - x) <= bpow radix2 (-24) * Rabs x + bpow radix2 (-150).
Proof.
  unfold f32. destruct (error_N_FLT radix2 (-149) 24 ltac:(lia) (fun n => negb (Z.even n)) x) as [d [h [D1 [D2 [_ ->]]]]].
  replace (x * (1 + d) + h - x) with (d * x + h) by ring. eapply Rle_trans; [apply Rabs_triang|]. rewrite Rabs_mult.
  apply Rplus_le_compat.
  - apply Rmult_le_compat_r; [apply Rabs_pos|]. change (- (24) + 1)%Z with (-24 + 1)%Z in D1. rewrite bpow_plus_1 in D1. change (IZR radix2) with 2 in D1. lra.
  - eapply Rle_trans; [exact D2|]. change (-149)%Z with (-150 + 1)%Z. rewrite bpow_plus_1. change (IZR radix2) with 2. lra.
Qed.
