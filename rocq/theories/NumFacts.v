(** Facts about the real instances, float32/float64 rounding, sums. *)
From Coq Require Import Reals ZArith List Lra Lia.
From Flocq Require Import Core.
From Verif Require Import Base Num Img Spec.
Local Open Scope R_scope.

Ltac unnum := unfold n0, n1, nmax, nmin, nclip, ngtb, ngeb in *;
  cbn [nadd nsub nmul ndiv nopp nabs nsqrt npow nleb nltb neqb nofZ nofQ
       nfloor nceil ntrunc nrint nf32 Rnum Rex] in *.

Lemma nmax_R rnd a b : @nmax R (Rnum rnd) a b = Rmax a b.
Proof.
  unfold nmax; cbn. destruct (Rlt_bool_spec a b);
  [rewrite Rmax_right|rewrite Rmax_left]; lra.
Qed.
Lemma nmin_R rnd a b : @nmin R (Rnum rnd) a b = Rmin a b.
Proof.
  unfold nmin; cbn. destruct (Rlt_bool_spec b a);
  [rewrite Rmin_right|rewrite Rmin_left]; lra.
Qed.
Lemma nclip_R rnd x lo hi : lo <= hi -> @nclip R (Rnum rnd) x lo hi = clamp x lo hi.
Proof.
  intros H. unfold nclip, clamp. rewrite nmax_R, nmin_R.
  unfold Rmin, Rmax. repeat destruct (Rle_dec _ _); lra.
Qed.
Lemma clamp_range x lo hi : lo <= hi -> lo <= clamp x lo hi <= hi.
Proof. intros H. unfold clamp, Rmin, Rmax. repeat destruct (Rle_dec _ _); lra. Qed.
Lemma clamp_id x lo hi : lo <= x <= hi -> clamp x lo hi = x.
Proof. intros H. unfold clamp, Rmin, Rmax. repeat destruct (Rle_dec _ _); lra. Qed.
Lemma clamp_mono x y lo hi : x <= y -> clamp x lo hi <= clamp y lo hi.
Proof. intros H. unfold clamp, Rmin, Rmax. repeat destruct (Rle_dec _ _); lra. Qed.

Lemma fold_nmin_R rnd l a :
  fold_left (@nmin R (Rnum rnd)) l a <= a /\
  (forall x, In x l -> fold_left (@nmin R (Rnum rnd)) l a <= x) /\
  (fold_left (@nmin R (Rnum rnd)) l a = a \/ In (fold_left (@nmin R (Rnum rnd)) l a) l).
Proof.
  revert a. induction l as [|b l IH]; intros a; cbn [fold_left].
  - repeat split; [lra|intros x []|now left].
  - destruct (IH (@nmin R (Rnum rnd) a b)) as (H1 & H2 & H3). rewrite nmin_R in *.
    pose proof (Rmin_l a b). pose proof (Rmin_r a b).
    split; [lra|]. split.
    + intros x [->|Hx]; [lra|]. now apply H2.
    + destruct H3 as [H3|H3]; [|right; now right].
      rewrite H3. unfold Rmin. destruct (Rle_dec a b); [now left|right; now left].
Qed.
Lemma fold_nmax_R rnd l a :
  a <= fold_left (@nmax R (Rnum rnd)) l a /\
  (forall x, In x l -> x <= fold_left (@nmax R (Rnum rnd)) l a) /\
  (fold_left (@nmax R (Rnum rnd)) l a = a \/ In (fold_left (@nmax R (Rnum rnd)) l a) l).
Proof.
  revert a. induction l as [|b l IH]; intros a; cbn [fold_left].
  - repeat split; [lra|intros x []|now left].
  - destruct (IH (@nmax R (Rnum rnd) a b)) as (H1 & H2 & H3). rewrite nmax_R in *.
    pose proof (Rmax_l a b). pose proof (Rmax_r a b).
    split; [lra|]. split.
    + intros x [->|Hx]; [lra|]. now apply H2.
    + destruct H3 as [H3|H3]; [|right; now right].
      rewrite H3. unfold Rmax. destruct (Rle_dec a b); [right; now left|now left].
Qed.
Lemma namin_spec rnd l m : @namin R (Rnum rnd) l = Ok m ->
  In m l /\ forall x, In x l -> m <= x.
Proof.
  destruct l as [|a l]; cbn [namin]; [discriminate|]. intros [= <-].
  destruct (fold_nmin_R rnd l a) as (H1 & H2 & H3). split.
  - destruct H3 as [->|H3]; [now left|now right].
  - intros x [->|Hx]; auto.
Qed.
Lemma namax_spec rnd l m : @namax R (Rnum rnd) l = Ok m ->
  In m l /\ forall x, In x l -> x <= m.
Proof.
  destruct l as [|a l]; cbn [namax]; [discriminate|]. intros [= <-].
  destruct (fold_nmax_R rnd l a) as (H1 & H2 & H3). split.
  - destruct H3 as [->|H3]; [now left|now right].
  - intros x [->|Hx]; auto.
Qed.

Lemma nsum_Rex l : @nsum R Rex l = Rsum l.
Proof.
  unfold nsum, n0. cbn.
  assert (H : forall a, fold_left (fun x y => x + y) l a = a + Rsum l).
  { induction l as [|b l IH]; intros a; cbn; [lra|rewrite IH; lra]. }
  rewrite H. lra.
Qed.

(** *** float32 / float64 *)
#[global] Instance f32_valid : Valid_exp (FLT_exp (-149) 24).
Proof. apply FLT_exp_valid. unfold Prec_gt_0. lia. Qed.
#[global] Instance f64_valid : Valid_exp (FLT_exp (-1074) 53).
Proof. apply FLT_exp_valid. unfold Prec_gt_0. lia. Qed.

Lemma f32_mono x y : x <= y -> f32 x <= f32 y.
Proof. intros H. unfold f32. apply round_le; auto with typeclass_instances. Qed.

Lemma gen_int (emin prec k : Z) : (0 < prec)%Z -> (emin <= 0)%Z ->
  (Z.abs k <= 2 ^ prec)%Z -> generic_format radix2 (FLT_exp emin prec) (IZR k).
Proof.
  intros Hp He Hk.
  destruct (Z.eq_dec (Z.abs k) (2 ^ prec)) as [E|E].
  - assert (Hb : generic_format radix2 (FLT_exp emin prec) (bpow radix2 prec)).
    { apply generic_format_bpow. unfold FLT_exp. lia. }
    assert (IZR (2 ^ prec) = bpow radix2 prec) as E2.
    { rewrite (IZR_Zpower radix2) by lia. reflexivity. }
    destruct (Z.abs_spec k) as [[_ E3]|[_ E3]].
    + replace k with (2 ^ prec)%Z by lia. now rewrite E2.
    + replace k with (- 2 ^ prec)%Z by lia. rewrite opp_IZR, E2.
      now apply generic_format_opp.
  - apply generic_format_FLT.
    exists (Float radix2 k 0).
    + unfold F2R; cbn. lra.
    + cbn. lia.
    + cbn. lia.
Qed.

Lemma f32_int k : (Z.abs k <= 2 ^ 24)%Z -> f32 (IZR k) = IZR k.
Proof.
  intros H. unfold f32. apply round_generic; auto with typeclass_instances.
  apply gen_int; lia.
Qed.
Lemma f64_int k : (Z.abs k <= 2 ^ 53)%Z -> f64 (IZR k) = IZR k.
Proof.
  intros H. unfold f64. apply round_generic; auto with typeclass_instances.
  apply gen_int; lia.
Qed.

Lemma f32_range x (n : Z) : 0 <= x <= IZR n -> (n <= 2 ^ 24)%Z -> 0 <= f32 x <= IZR n.
Proof.
  intros [H1 H2] Hn.
  assert (0 <= n)%Z by (apply le_IZR; lra).
  split.
  - rewrite <- (f32_int 0) by lia. now apply f32_mono.
  - rewrite <- (f32_int n) by lia. now apply f32_mono.
Qed.

Lemma f32_idem x : f32 (f32 x) = f32 x.
Proof.
  unfold f32 at 1. apply round_generic; auto with typeclass_instances.
  unfold f32. apply generic_format_round; auto with typeclass_instances.
Qed.
Lemma f64_idem x : f64 (f64 x) = f64 x.
Proof.
  unfold f64 at 1. apply round_generic; auto with typeclass_instances.
  unfold f64. apply generic_format_round; auto with typeclass_instances.
Qed.

(** Subtracting an integer 0 <= k <= x from a number of the format is exact. *)
Lemma gen_sub_int emin prec x (k : Z) : (0 < prec)%Z -> (emin <= 0)%Z ->
  generic_format radix2 (FLT_exp emin prec) x -> 0 <= IZR k <= x ->
  x < bpow radix2 prec ->
  generic_format radix2 (FLT_exp emin prec) (x - IZR k).
Proof.
  intros Hp He Hx Hk Hlt.
  assert (Hv : Valid_exp (FLT_exp emin prec)) by now apply FLT_exp_valid.
  destruct (Req_dec (x - IZR k) 0) as [E|NE].
  { rewrite E. apply generic_format_0. }
  assert (Hx0 : x <> 0) by lra.
  assert (Hc : (cexp radix2 (FLT_exp emin prec) x <= 0)%Z).
  { unfold cexp, FLT_exp.
    assert (mag radix2 x <= prec)%Z.
    { apply mag_le_bpow; [assumption|]. rewrite Rabs_pos_eq; lra. }
    lia. }
  set (e := cexp radix2 (FLT_exp emin prec) x) in *.
  set (mx := Ztrunc (scaled_mantissa radix2 (FLT_exp emin prec) x)).
  assert (Ex : x = F2R (Float radix2 mx e)).
  { unfold mx, e. exact Hx. }
  assert (Ek : IZR k = F2R (Float radix2 (k * 2 ^ (- e)) e)).
  { unfold F2R; cbn [Fnum Fexp]. rewrite mult_IZR.
    rewrite (IZR_Zpower radix2) by lia. rewrite Rmult_assoc, <- bpow_plus.
    replace (- e + e)%Z with 0%Z by lia. cbn. lra. }
  assert (Ed : x - IZR k = F2R (Float radix2 (mx - k * 2 ^ (- e)) e)).
  { rewrite Ek, Ex at 1. unfold F2R; cbn [Fnum Fexp]. rewrite minus_IZR. ring. }
  rewrite Ed. apply generic_format_F2R. intros _.
  rewrite <- Ed. unfold e, cexp.
  assert (Hm : (mag radix2 (x - IZR k) <= mag radix2 x)%Z).
  { apply mag_le_abs; [assumption|]. rewrite !Rabs_pos_eq; lra. }
  unfold FLT_exp. lia.
Qed.

Lemma f32_sub_int x k : f32 x = x -> 0 <= IZR k <= x -> x < 16777216 ->
  f32 (x - IZR k) = x - IZR k.
Proof.
  intros Hx Hk Hl. unfold f32. apply round_generic; auto with typeclass_instances.
  apply gen_sub_int; [lia|lia| |assumption|cbn; lra].
  rewrite <- Hx. unfold f32. apply generic_format_round; auto with typeclass_instances.
Qed.
Lemma f64_sub_int x k : f64 x = x -> 0 <= IZR k <= x -> x < 16777216 ->
  f64 (x - IZR k) = x - IZR k.
Proof.
  intros Hx Hk Hl. unfold f64. apply round_generic; auto with typeclass_instances.
  apply gen_sub_int; [lia|lia| |assumption|cbn; lra].
  rewrite <- Hx. unfold f64. apply generic_format_round; auto with typeclass_instances.
Qed.

(** Every float32 number is a float64 number. *)
Lemma f64_of_f32 x : f32 x = x -> f64 x = x.
Proof.
  intros Hx. unfold f64. apply round_generic; auto with typeclass_instances.
  assert (Hf : generic_format radix2 (FLT_exp (-149) 24) x).
  { rewrite <- Hx. apply generic_format_round; auto with typeclass_instances. }
  revert Hf. apply generic_inclusion_mag. intros _. unfold FLT_exp. lia.
Qed.

(** *** Radial polynomial *)
From Verif Require Import Post.
Lemma Rsum_radial fact r k :
  Rsum (mapi_from (fun i f => f * r ^ i) k fact) = r ^ k * poly fact r.
Proof.
  revert k. induction fact as [|a fact IH]; intros k; cbn [mapi_from Rsum poly]; [ring|].
  rewrite IH. cbn [pow]. ring.
Qed.
Lemma radial_R fact r : @radial R Rex fact r = poly fact r.
Proof.
  unfold radial. rewrite nsum_Rex. unfold mapi. cbn [nmul npow Rex Rnum].
  rewrite Rsum_radial. cbn. ring.
Qed.

(** *** Finite sums over 0..n-1 *)
Lemma sum_n_ext n f g : (forall k, (0 <= k < Z.of_nat n)%Z -> f k = g k) ->
  sum_n n f = sum_n n g.
Proof.
  induction n as [|n IH]; intros H; [reflexivity|]. cbn [sum_n].
  rewrite IH by (intros; apply H; lia). rewrite H by lia. reflexivity.
Qed.
Lemma sumZ_ext n f g : (forall k, (0 <= k < n)%Z -> f k = g k) -> sumZ n f = sumZ n g.
Proof. intros H. unfold sumZ. apply sum_n_ext. intros k Hk. apply H. lia. Qed.
Lemma sum_n_zero n f : (forall k, (0 <= k < Z.of_nat n)%Z -> f k = 0) -> sum_n n f = 0.
Proof.
  induction n as [|n IH]; intros H; [reflexivity|]. cbn [sum_n].
  rewrite IH by (intros; apply H; lia). rewrite H by lia. lra.
Qed.
Lemma sum_n_scal n c f : sum_n n (fun k => c * f k) = c * sum_n n f.
Proof. induction n as [|n IH]; cbn [sum_n]; [lra|rewrite IH; lra]. Qed.
Lemma sum_n_plus n f g : sum_n n (fun k => f k + g k) = sum_n n f + sum_n n g.
Proof. induction n as [|n IH]; cbn [sum_n]; [lra|rewrite IH; lra]. Qed.
Lemma sumZ_scal n c f : sumZ n (fun k => c * f k) = c * sumZ n f.
Proof. apply sum_n_scal. Qed.
Lemma sumZ_plus n f g : sumZ n (fun k => f k + g k) = sumZ n f + sumZ n g.
Proof. apply sum_n_plus. Qed.
(** A sum with a single non-zero term. *)
Lemma sum_n_single n f a : (0 <= a < Z.of_nat n)%Z ->
  (forall k, (0 <= k < Z.of_nat n)%Z -> k <> a -> f k = 0) -> sum_n n f = f a.
Proof.
  induction n as [|n IH]; intros Ha H; [lia|]. cbn [sum_n].
  destruct (Z.eq_dec a (Z.of_nat n)) as [->|Hne].
  - rewrite sum_n_zero; [lra|]. intros k Hk. apply H; lia.
  - rewrite IH; [|lia|intros; apply H; lia]. rewrite (H (Z.of_nat n)) by lia. lra.
Qed.
Lemma sumZ_single n f a : (0 <= a < n)%Z ->
  (forall k, (0 <= k < n)%Z -> k <> a -> f k = 0) -> sumZ n f = f a.
Proof. intros Ha H. unfold sumZ. apply sum_n_single; [lia|]. intros; apply H; lia. Qed.
(** A sum with at most two non-zero terms. *)
Lemma sumZ_two n f a b : (0 <= a < n)%Z -> (0 <= b < n)%Z -> a <> b ->
  (forall k, (0 <= k < n)%Z -> k <> a -> k <> b -> f k = 0) -> sumZ n f = f a + f b.
Proof.
  intros Ha Hb Hab H.
  assert (E : sumZ n f = sumZ n (fun k => (if Z.eqb k a then f k else 0) +
                                     (if Z.eqb k a then 0 else f k))).
  { apply sumZ_ext. intros k _. destruct (Z.eqb k a); lra. }
  rewrite E, sumZ_plus. f_equal.
  - rewrite (sumZ_single n _ a Ha).
    + now rewrite Z.eqb_refl.
    + intros k _ Hk. now rewrite (proj2 (Z.eqb_neq k a) Hk).
  - rewrite (sumZ_single n _ b Hb).
    + now rewrite (proj2 (Z.eqb_neq b a)) by congruence.
    + intros k Hk Hkb. destruct (Z.eqb_spec k a); [reflexivity|]. now apply H.
Qed.

Lemma tent_pos t : 0 <= tent t.
Proof. unfold tent. apply Rmax_l. Qed.
Lemma tent_out t : 1 <= Rabs t -> tent t = 0.
Proof. intros H. unfold tent. apply Rmax_left. lra. Qed.
Lemma tent_in t : Rabs t <= 1 -> tent t = 1 - Rabs t.
Proof. intros H. unfold tent. apply Rmax_right. lra. Qed.

(** One-dimensional linear interpolation with reflecting right edge equals the
    kernel sum. *)
Lemma lin1 n x f : 0 <= x <= IZR (n - 1) ->
  sumZ n (fun j => tent (x - IZR j) * f j) =
  (1 - (x - IZR (Zfloor x))) * f (reflect n (Zfloor x))
  + (x - IZR (Zfloor x)) * f (reflect n (Zfloor x + 1)).
Proof.
  intros [H0 H1].
  set (i := Zfloor x).
  assert (Hi : IZR i <= x < IZR i + 1).
  { unfold i. split; [apply Zfloor_lb|apply Zfloor_ub]. }
  assert (Hi0 : (0 <= i)%Z).
  { unfold i. apply Zfloor_lub. lra. }
  assert (Hin : (i <= n - 1)%Z).
  { apply le_IZR. lra. }
  rewrite (reflect_id n i) by lia.
  assert (Hti : tent (x - IZR i) = 1 - (x - IZR i)).
  { rewrite tent_in; rewrite Rabs_pos_eq; lra. }
  assert (Hz : forall k, k <> i -> k <> (i + 1)%Z -> tent (x - IZR k) = 0).
  { intros k Hk1 Hk2. apply tent_out.
    destruct (Z_lt_le_dec k i) as [L|L].
    - assert (IZR k <= IZR i - 1) by (rewrite <- minus_IZR; apply IZR_le; lia).
      rewrite Rabs_pos_eq; lra.
    - assert (IZR i + 2 <= IZR k) by (rewrite <- plus_IZR; apply IZR_le; lia).
      rewrite Rabs_left1; lra. }
  destruct (Z.eq_dec i (n - 1)) as [E|NE].
  - assert (Ex : x = IZR i) by (rewrite E in *; lra).
    rewrite (sumZ_single n _ i) by
      (try lia; intros k Hk Hne; rewrite Hz by lia; lra).
    rewrite Hti. rewrite Ex. ring.
  - rewrite (reflect_id n (i + 1)) by lia.
    rewrite (sumZ_two n _ i (i + 1)) by
      (try lia; intros k Hk Hne1 Hne2; rewrite Hz by lia; lra).
    rewrite Hti. rewrite plus_IZR.
    replace (tent (x - (IZR i + 1))) with (x - IZR i); [reflexivity|].
    rewrite tent_in; rewrite Rabs_left1; lra.
Qed.

Theorem bilinear_lin_sample m y x :
  0 <= y <= IZR (ih m - 1) -> 0 <= x <= IZR (iw m - 1) ->
  @bilinear R Rex m y x = lin_sample m y x.
Proof.
  intros Hy Hx. unfold lin_sample.
  transitivity (sumZ (ih m) (fun i => tent (y - IZR i) *
     (sumZ (iw m) (fun j => tent (x - IZR j) * px m i j)))).
  2:{ apply sumZ_ext. intros i _. rewrite <- sumZ_scal. apply sumZ_ext.
      intros j _. ring. }
  rewrite (lin1 (ih m) y _ Hy).
  rewrite !(lin1 (iw m) x _ Hx).
  unfold bilinear. unnum. ring.
Qed.
