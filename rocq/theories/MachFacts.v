(** Machine arithmetic: the operations of the kernel's binary64 numbers are the
    rounded real operations as long as nothing overflows. *)
From Coq Require Import ZArith Floats SpecFloat Reals Lra Lia.
From Flocq Require Import Core.
From Flocq Require IEEE754.BinarySingleNaN IEEE754.PrimFloat.
From Verif Require Import Base Num.
Import IEEE754.BinarySingleNaN IEEE754.PrimFloat.
Local Open Scope R_scope.

(** The number that a float stands for (0 for infinities and NaN). *)
Definition FR (x : PrimFloat.float) : R := B2R (Prim2B x).
Definition finite (x : PrimFloat.float) : Prop := PrimFloat.is_finite x = true.
(** x is a finite float that stands for v, and |v| <= 2^k. *)
Definition rep (k : Z) (x : PrimFloat.float) (v : R) : Prop := finite x /\ FR x = v /\ Rabs v <= bpow radix2 k.

(** Machine numbers with a given power function. *)
Definition Mach (pw : PrimFloat.float -> nat -> PrimFloat.float) : Num PrimFloat.float := {|
  nadd := PrimFloat.add; nsub := PrimFloat.sub; nmul := PrimFloat.mul; ndiv := PrimFloat.div;
  nopp := PrimFloat.opp; nabs := PrimFloat.abs; nsqrt := PrimFloat.sqrt; npow := pw;
  nleb := PrimFloat.leb; nltb := PrimFloat.ltb; neqb := PrimFloat.eqb;
  nofZ := @nofZ _ FloatNum; nofQ := @nofQ _ FloatNum; nfloor := @nfloor _ FloatNum; nceil := @nceil _ FloatNum;
  ntrunc := @ntrunc _ FloatNum; nrint := @nrint _ FloatNum; nf32 := @nf32 _ FloatNum |}.
(** The power of two finite numbers is rounded correctly unless it overflows. *)
Definition pow_ok (pw : PrimFloat.float -> nat -> PrimFloat.float) : Prop := forall x n, finite x ->
  Rabs (f64 (FR x ^ n)) < bpow radix2 1024 -> finite (pw x n) /\ FR (pw x n) = f64 (FR x ^ n).

Lemma finite_B x : finite x <-> is_finite (Prim2B x) = true.
Proof. unfold finite. rewrite is_finite_equiv. reflexivity. Qed.
Lemma f64_round x : f64 x = round radix2 (fexp prec emax) (round_mode mode_NE) x.
Proof. reflexivity. Qed.
Lemma f64_le k x : (-1074 <= k)%Z -> Rabs x <= bpow radix2 k -> Rabs (f64 x) <= bpow radix2 k.
Proof.
  intros Hk H. unfold f64. apply abs_round_le_generic; [apply FLT_exp_valid; reflexivity|apply valid_rnd_N| |exact H].
  apply generic_format_FLT_bpow; [reflexivity|exact Hk].
Qed.
Lemma f32_le k x : (-149 <= k)%Z -> Rabs x <= bpow radix2 k -> Rabs (f32 x) <= bpow radix2 k.
Proof.
  intros Hk H. unfold f32. apply abs_round_le_generic; [apply FLT_exp_valid; reflexivity|apply valid_rnd_N| |exact H].
  apply generic_format_FLT_bpow; [reflexivity|exact Hk].
Qed.
Lemma f64_lt k x : (-1074 <= k <= 1023)%Z -> Rabs x <= bpow radix2 k -> Rabs (f64 x) < bpow radix2 1024.
Proof. intros Hk H. eapply Rle_lt_trans; [apply (f64_le k); [lia|exact H]|]. apply bpow_lt. lia. Qed.
Lemma rep_finite k x v : rep k x v -> finite x /\ FR x = v. Proof. intros [H1 [H2 _]]. now split. Qed.
Lemma rep_le k l x v : (k <= l)%Z -> rep k x v -> rep l x v.
Proof. intros H [H1 [H2 H3]]. split; [exact H1|]. split; [exact H2|]. eapply Rle_trans; [exact H3|]. now apply bpow_le. Qed.
Lemma rep_FR k x : finite x -> Rabs (FR x) <= bpow radix2 k -> rep k x (FR x).
Proof. intros H1 H2. split; [exact H1|]. now split. Qed.
(** Floats are fixed by rounding. *)
Lemma FR_format x : f64 (FR x) = FR x.
Proof. unfold f64, FR. apply round_generic; [apply valid_rnd_N|]. exact (generic_format_B2R prec emax (Prim2B x)). Qed.

Lemma rep_add k x y v w : (-1000 <= k <= 1022)%Z -> rep k x v -> rep k y w -> rep (k + 1) (PrimFloat.add x y) (f64 (v + w)).
Proof.
  intros Hk [X1 [<- X3]] [Y1 [<- Y3]].
  assert (B : Rabs (FR x + FR y) <= bpow radix2 (k + 1)).
  { rewrite bpow_plus_1. change (IZR radix2) with 2. eapply Rle_trans; [apply Rabs_triang|lra]. }
  apply finite_B in X1, Y1. pose proof (Bplus_correct prec emax Hprec Hmax mode_NE _ _ X1 Y1) as C.
  rewrite Rlt_bool_true in C by (apply (f64_lt (k + 1)); [lia|exact B]). destruct C as [C1 [C2 _]].
  split; [apply finite_B; rewrite add_equiv; exact C2|]. split; [unfold FR; rewrite add_equiv; exact C1|]. apply f64_le; [lia|exact B].
Qed.
Lemma rep_sub k x y v w : (-1000 <= k <= 1022)%Z -> rep k x v -> rep k y w -> rep (k + 1) (PrimFloat.sub x y) (f64 (v - w)).
Proof.
  intros Hk [X1 [<- X3]] [Y1 [<- Y3]].
  assert (B : Rabs (FR x - FR y) <= bpow radix2 (k + 1)).
  { rewrite bpow_plus_1. change (IZR radix2) with 2. unfold Rminus. eapply Rle_trans; [apply Rabs_triang|]. rewrite Rabs_Ropp. lra. }
  apply finite_B in X1, Y1. pose proof (Bminus_correct prec emax Hprec Hmax mode_NE _ _ X1 Y1) as C.
  rewrite Rlt_bool_true in C by (apply (f64_lt (k + 1)); [lia|exact B]). destruct C as [C1 [C2 _]].
  split; [apply finite_B; rewrite sub_equiv; exact C2|]. split; [unfold FR; rewrite sub_equiv; exact C1|]. apply f64_le; [lia|exact B].
Qed.
Lemma rep_mul k l x y v w : (-1000 <= k + l <= 1023)%Z -> rep k x v -> rep l y w -> rep (k + l) (PrimFloat.mul x y) (f64 (v * w)).
Proof.
  intros Hk [X1 [<- X3]] [Y1 [<- Y3]].
  assert (B : Rabs (FR x * FR y) <= bpow radix2 (k + l)).
  { rewrite bpow_plus, Rabs_mult. apply Rmult_le_compat; auto using Rabs_pos. }
  apply finite_B in X1, Y1. pose proof (Bmult_correct prec emax Hprec Hmax mode_NE (Prim2B x) (Prim2B y)) as C.
  rewrite Rlt_bool_true in C by (apply (f64_lt (k + l)); [lia|exact B]). rewrite X1, Y1 in C. destruct C as [C1 [C2 _]].
  split; [apply finite_B; rewrite mul_equiv; exact C2|]. split; [unfold FR; rewrite mul_equiv; exact C1|]. apply f64_le; [lia|exact B].
Qed.
Lemma rep_div k l x y v w : (-1000 <= k - l <= 1023)%Z -> rep k x v -> finite y -> FR y = w -> bpow radix2 l <= Rabs w ->
  rep (k - l) (PrimFloat.div x y) (f64 (v / w)).
Proof.
  intros Hk [X1 [<- X3]] Y1 <- Y3. pose proof (bpow_gt_0 radix2 l) as Pl.
  assert (Nz : FR y <> 0). { intros Z. rewrite Z, Rabs_R0 in Y3. lra. }
  assert (B : Rabs (FR x / FR y) <= bpow radix2 (k - l)).
  { unfold Rdiv, Z.sub. rewrite bpow_plus, Rabs_mult. apply Rmult_le_compat; auto using Rabs_pos.
    rewrite Rabs_inv, bpow_opp. apply Rinv_le; assumption. }
  apply finite_B in X1. pose proof (Bdiv_correct prec emax Hprec Hmax mode_NE (Prim2B x) (Prim2B y) Nz) as C.
  rewrite Rlt_bool_true in C by (apply (f64_lt (k - l)); [lia|exact B]). rewrite X1 in C. destruct C as [C1 [C2 _]].
  split; [apply finite_B; rewrite div_equiv; exact C2|]. split; [unfold FR; rewrite div_equiv; exact C1|]. apply f64_le; [lia|exact B].
Qed.
Lemma rep_sqrt k x v : (-500 <= k)%Z -> 0 <= v -> rep (k + k) x v -> rep k (PrimFloat.sqrt x) (f64 (sqrt v)).
Proof.
  intros Hk Pv [X1 [<- X3]].
  pose proof (Bsqrt_correct prec emax Hprec Hmax mode_NE (Prim2B x)) as [C1 [C2 _]].
  assert (B : Rabs (R_sqrt.sqrt (FR x)) <= bpow radix2 k).
  { rewrite Rabs_pos_eq by apply sqrt_pos. rewrite bpow_plus in X3. rewrite Rabs_pos_eq in X3 by exact Pv. pose proof (bpow_ge_0 radix2 k) as P.
    rewrite <- (sqrt_square (bpow radix2 k)) by exact P. now apply sqrt_le_1_alt. }
  split; [|split; [unfold FR; rewrite sqrt_equiv; exact C1|apply f64_le; [lia|exact B]]].
  apply finite_B. rewrite sqrt_equiv, C2. apply finite_B in X1. unfold FR in Pv. destruct (Prim2B x) as [s|s| |s m e H]; try discriminate; [reflexivity|].
  destruct s; [|reflexivity]. exfalso. cbn in Pv. assert (F2R (Float radix2 (Zneg m) e) < 0) by (apply F2R_lt_0; reflexivity). unfold F2R in *. cbn in *. lra.
Qed.
Lemma rep_pow pw k x v n : pow_ok pw -> (0 <= k)%Z -> (k * Z.of_nat n <= 1023)%Z -> rep k x v -> rep (k * Z.of_nat n) (pw x n) (f64 (v ^ n)).
Proof.
  intros HP Hk Hn [X1 [<- X3]].
  assert (B : Rabs (FR x ^ n) <= bpow radix2 (k * Z.of_nat n)).
  { clear Hn. induction n as [|n IH]; [rewrite Z.mul_0_r; cbn; rewrite Rabs_R1; lra|].
    rewrite Nat2Z.inj_succ, Z.mul_succ_r, bpow_plus. cbn [pow]. rewrite Rabs_mult, Rmult_comm. apply Rmult_le_compat; auto using Rabs_pos. }
  destruct (HP x n X1) as [P1 P2]; [apply (f64_lt (k * Z.of_nat n)); [lia|exact B]|].
  split; [exact P1|]. split; [exact P2|]. apply f64_le; [lia|exact B].
Qed.
Lemma ltb_rep k l x y v w : rep k x v -> rep l y w -> PrimFloat.ltb x y = Rlt_bool v w.
Proof. intros [X1 [<- _]] [Y1 [<- _]]. rewrite ltb_equiv. apply Bltb_correct; now apply finite_B. Qed.

(** Conversions of integers. *)
Lemma normal_rep m e s v : v = F2R (Float radix2 m e) -> Rabs (f64 v) < bpow radix2 1024 ->
  finite (SF2Prim (SpecFloat.binary_normalize 53 1024 m e s)) /\ FR (SF2Prim (SpecFloat.binary_normalize 53 1024 m e s)) = f64 v.
Proof.
  intros -> H. change (SF2Prim (SpecFloat.binary_normalize 53 1024 m e s)) with (SF2Prim (SpecFloat.binary_normalize prec emax m e s)).
  rewrite binary_normalize_equiv. fold (B2Prim (binary_normalize prec emax Hprec Hmax mode_NE m e s)).
  pose proof (binary_normalize_correct prec emax Hprec Hmax mode_NE m e s) as C. cbv zeta in C. rewrite Rlt_bool_true in C by exact H. destruct C as [C1 [C2 _]].
  split; [apply finite_B|unfold FR]; rewrite Prim2B_B2Prim; assumption.
Qed.
Lemma int_rep z k : (0 <= k <= 53)%Z -> (Z.abs z <= 2 ^ k)%Z -> rep k (f_ofZ z) (IZR z).
Proof.
  intros Hk Hz.
  assert (B : Rabs (IZR z) <= bpow radix2 k).
  { rewrite <- abs_IZR. rewrite <- IZR_Zpower by lia. now apply IZR_le. }
  assert (E : f64 (IZR z) = IZR z).
  { unfold f64. apply round_generic; [apply valid_rnd_N|]. replace (IZR z) with (F2R (Float radix2 z 0)) by (unfold F2R; cbn; ring).
    destruct (Z.eq_dec (Z.abs z) (2 ^ 53)) as [C|C].
    - assert (D : z = (2 ^ 53)%Z \/ z = (- 2 ^ 53)%Z) by lia. destruct D as [-> | ->].
      + replace (F2R (Float radix2 (2 ^ 53) 0)) with (bpow radix2 53) by (unfold F2R; cbn; lra). apply generic_format_FLT_bpow; [reflexivity|lia].
      + replace (F2R (Float radix2 (- 2 ^ 53) 0)) with (- bpow radix2 53) by (unfold F2R; cbn; lra). apply generic_format_opp, generic_format_FLT_bpow; [reflexivity|lia].
    - apply generic_format_FLT. exists (Float radix2 z 0); [reflexivity| |cbn; lia]. cbn [Fnum]. change (radix_val radix2) with 2%Z.
      assert (2 ^ k <= 2 ^ 53)%Z by (apply Z.pow_le_mono_r; lia). lia. }
  destruct (normal_rep z 0 false (IZR z)) as [P1 P2].
  - unfold F2R. cbn. ring.
  - apply (f64_lt k); [lia|exact B].
  - split; [exact P1|]. split; [rewrite <- E; exact P2|exact B].
Qed.

(** A correctly rounded power. *)
Definition exact_pow (x : PrimFloat.float) (n : nat) : PrimFloat.float :=
  match Prim2SF x with
  | S754_zero _ => SF2Prim (SpecFloat.binary_normalize 53 1024 (0 ^ Z.of_nat n) 0 false)
  | S754_finite s m e => SF2Prim (SpecFloat.binary_normalize 53 1024 ((if s then Zneg m else Zpos m) ^ Z.of_nat n) (e * Z.of_nat n) false)
  | _ => PrimFloat.nan
  end.
Lemma F2R_pow m e n : F2R (Float radix2 (m ^ Z.of_nat n) (e * Z.of_nat n)) = F2R (Float radix2 m e) ^ n.
Proof.
  induction n as [|n IH].
  - rewrite Z.mul_0_r. cbn. unfold F2R. cbn. ring.
  - cbn [pow]. rewrite <- IH. unfold F2R. cbn [Fnum Fexp]. rewrite Nat2Z.inj_succ, Z.pow_succ_r, Z.mul_succ_r, bpow_plus, mult_IZR by lia. ring.
Qed.
Lemma exact_pow_ok : pow_ok exact_pow.
Proof.
  intros x n Hx B. apply finite_B in Hx. unfold exact_pow. rewrite <- B2SF_Prim2B. unfold FR in B |- *. fold (FR (exact_pow x n)).
  destruct (Prim2B x) as [s|s| |s m e H]; try discriminate; cbn [B2SF B2R] in *.
  - apply (normal_rep (0 ^ Z.of_nat n) 0 false (0 ^ n)); [|exact B].
    pose proof (F2R_pow 0 0 n) as Q. rewrite Z.mul_0_l in Q. rewrite Q. f_equal. unfold F2R. cbn. ring.
  - apply (normal_rep _ _ false (F2R (Float radix2 (cond_Zopp s (Zpos m)) e) ^ n)); [|exact B]. rewrite F2R_pow. destruct s; reflexivity.
Qed.

(** Rounding to single precision. *)
Lemma Hprec24 : Prec_gt_0 24. Proof. reflexivity. Qed.
Lemma Hmax128 : Prec_lt_emax 24 128. Proof. reflexivity. Qed.
Lemma normalize24 m e s : SpecFloat.binary_normalize 24 128 m e s = B2SF (binary_normalize 24 128 Hprec24 Hmax128 mode_NE m e s).
Proof.
  assert (A : forall sx mx ex lx, SpecFloat.binary_round_aux 24 128 sx mx ex lx = binary_round_aux 24 128 mode_NE sx mx ex lx).
  { intros sx mx ex lx. unfold SpecFloat.binary_round_aux, binary_round_aux. set (mrse' := SpecFloat.shr_fexp _ _ _ _ _). destruct mrse' as [mrs' e']. cbn zeta.
    now rewrite (round_nearest_even_equiv sx). }
  assert (B : forall s m e, SpecFloat.binary_round 24 128 s m e = binary_round 24 128 mode_NE s m e).
  { intros s0 m0 e0. unfold SpecFloat.binary_round, binary_round, shl_align_fexp. set (mez := shl_align _ _ _). destruct mez as [mz ez]. apply A. }
  destruct m as [|p|p]; [reflexivity| |]; cbn [SpecFloat.binary_normalize binary_normalize]; rewrite B2SF_SF2B; apply B.
Qed.
(** A number with few digits. *)
Lemma uint_value m : (Zpos m < 2 ^ 53)%Z -> Uint63.to_Z (Uint63.of_Z (Zpos m)) = Zpos m.
Proof.
  intros Hm. rewrite Uint63.of_Z_spec. apply Z.mod_small. split; [lia|]. eapply Z.lt_trans; [exact Hm|]. vm_compute. reflexivity.
Qed.
Lemma ofZ_SF z : Prim2SF (f_ofZ z) = B2SF (binary_normalize prec emax Hprec Hmax mode_NE z 0 false).
Proof.
  unfold f_ofZ. change (SF2Prim (SpecFloat.binary_normalize 53 1024 z 0 false)) with (SF2Prim (SpecFloat.binary_normalize prec emax z 0 false)).
  rewrite binary_normalize_equiv. exact (Prim2SF_B2Prim _).
Qed.
Lemma uint_ofZ m : (Zpos m < 2 ^ 53)%Z -> PrimFloat.of_uint63 (Uint63.of_Z (Zpos m)) = f_ofZ (Zpos m).
Proof.
  intros Hm. apply Prim2SF_inj. rewrite (ofZ_SF (Zpos m)), FloatAxioms.of_uint63_spec, (uint_value m Hm). apply binary_normalize_equiv.
Qed.
Lemma ldexp_rep pm v e : rep 53 pm v -> (e <= 900)%Z -> f64 (v * bpow radix2 e) = v * bpow radix2 e -> finite (Z.ldexp pm e) /\ FR (Z.ldexp pm e) = v * bpow radix2 e.
Proof.
  intros [P1 [P2 P3]] He G.
  pose proof (Bldexp_correct prec emax Hprec Hmax mode_NE (Prim2B pm) e) as C. unfold FR in P2. rewrite P2 in C.
  rewrite <- f64_round, G in C.
  assert (L : Rabs (v * bpow radix2 e) < bpow radix2 emax).
  { rewrite Rabs_mult, (Rabs_pos_eq (bpow radix2 e)) by apply bpow_ge_0. apply Rle_lt_trans with (bpow radix2 53 * bpow radix2 e).
    - apply Rmult_le_compat_r; [apply bpow_ge_0|exact P3].
    - rewrite <- bpow_plus. apply bpow_lt. unfold emax. lia. }
  rewrite Rlt_bool_true in C by exact L. destruct C as [C1 [C2 _]].
  split; [apply finite_B; rewrite ldexp_equiv, C2; now apply finite_B|]. unfold FR. rewrite ldexp_equiv. exact C1.
Qed.
Lemma SF2Prim_finite s m e : SF2Prim (S754_finite s m e) = if s then PrimFloat.opp (Z.ldexp (PrimFloat.of_uint63 (Uint63.of_Z (Zpos m))) e) else Z.ldexp (PrimFloat.of_uint63 (Uint63.of_Z (Zpos m))) e.
Proof. reflexivity. Qed.
Lemma SF2Prim_value s m e : (Zpos m < 2 ^ 53)%Z -> (-1074 <= e)%Z -> (e <= 900)%Z ->
  finite (SF2Prim (S754_finite s m e)) /\ FR (SF2Prim (S754_finite s m e)) = F2R (Float radix2 (cond_Zopp s (Zpos m)) e).
Proof.
  intros Hm He He2. rewrite SF2Prim_finite, (uint_ofZ m Hm). pose proof (int_rep (Zpos m) 53 ltac:(lia) ltac:(lia)) as P.
  assert (G : f64 (IZR (Zpos m) * bpow radix2 e) = IZR (Zpos m) * bpow radix2 e).
  { unfold f64. apply round_generic; [apply valid_rnd_N|]. apply generic_format_FLT. exists (Float radix2 (Zpos m) e); [reflexivity|exact Hm|exact He]. }
  generalize dependent (f_ofZ (Zpos m)). intros pm P.
  destruct (ldexp_rep pm _ e P He2 G) as [F V]. destruct s; cbn [cond_Zopp].
  - split; [apply finite_B; rewrite opp_equiv, is_finite_Bopp; now apply finite_B|].
    unfold FR in *. rewrite opp_equiv, B2R_Bopp, V. unfold F2R. cbn [Fnum Fexp]. rewrite opp_IZR. ring.
  - split; [exact F|exact V].
Qed.
Lemma rep_f32 k x v : (-149 <= k <= 120)%Z -> rep k x v -> rep k (f_f32 x) (f32 v).
Proof.
  intros Hk [X1 [<- X3]]. unfold f_f32. apply finite_B in X1. rewrite <- B2SF_Prim2B. unfold FR in X3 |- *. fold (FR (f_f32 x)).
  pose proof (f32_le k _ ltac:(lia) X3) as LB.
  assert (LT : Rabs (f32 (B2R (Prim2B x))) < bpow radix2 128) by (eapply Rle_lt_trans; [exact LB|apply bpow_lt; lia]).
  destruct (Prim2B x) as [s|s| |s m e H]; try discriminate; cbn [B2SF B2R] in *.
  - replace (f32 0) with 0 by (symmetry; apply round_0; apply valid_rnd_N). 
    split; [destruct s; reflexivity|]. split; [destruct s; reflexivity|]. rewrite Rabs_R0. apply bpow_ge_0.
  - rewrite normalize24.
    pose proof (binary_normalize_correct 24 128 Hprec24 Hmax128 mode_NE (if s then Zneg m else Zpos m) e s) as C. cbv zeta in C.
    replace (F2R (Float radix2 (if s then Zneg m else Zpos m) e)) with (F2R (Float radix2 (cond_Zopp s (Zpos m)) e)) in C by (destruct s; reflexivity).
    change (round radix2 (fexp 24 128) (round_mode mode_NE)) with f32 in C.
    rewrite Rlt_bool_true in C by exact LT. destruct C as [C1 [C2 _]].
    destruct (binary_normalize 24 128 Hprec24 Hmax128 mode_NE (if s then Zneg m else Zpos m) e s) as [s'|s'| |s' m' e' H']; try discriminate; cbn [B2SF B2R] in *.
    + rewrite <- C1. split; [destruct s'; reflexivity|]. split; [destruct s'; reflexivity|]. rewrite Rabs_R0. apply bpow_ge_0.
    + rewrite <- C1 in *. 
      pose proof H' as H2. unfold SpecFloat.bounded in H2. apply andb_prop in H2. destruct H2 as [V1 V2]. apply Zle_bool_imp_le in V2.
      assert (D : (Zpos m' < 2 ^ 24)%Z /\ (-149 <= e')%Z).
      { unfold canonical_mantissa in V1. apply Zeq_bool_eq in V1. unfold fexp, emin in V1. rewrite Digits.Zpos_digits2_pos in V1.
        split; [|lia]. apply (Zpower_gt_Zdigits radix2 24 (Zpos m')). lia. }
      destruct (SF2Prim_value s' m' e') as [W1 W2]; [lia|lia|lia|]. split; [exact W1|]. split; [exact W2|exact LB].
Qed.
