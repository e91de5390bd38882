(** C111: corrections whose radius increases do not fold. *)
From Coq Require Import Reals ZArith List Lra Lia.
From Flocq Require Import Core.
From Verif Require Import Base Num Img Post Spec NumFacts PostLines PostImg ProcFacts Props_Post.
Import ListNotations.
Local Open Scope R_scope.

(** The corrected radius r F(r) increases with r, up to radius M. *)
Definition increasing_radius (fact : list R) (M : R) : Prop :=
  forall r s, 0 <= r -> r < s -> s <= M -> r * poly fact r < s * poly fact s.

(** *** When it does *)
(** Sum of (k+1) |a| M^k over the coefficients a of order k, k+1, ... *)
Fixpoint slope_bound (k : nat) (a : list R) (M : R) : R :=
  match a with [] => 0 | b :: a' => INR (k + 1) * Rabs b * M ^ k + slope_bound (S k) a' M end.
Lemma pow_diff k r s M : 0 <= r -> r <= s -> s <= M -> 0 <= s ^ (k + 1) - r ^ (k + 1) <= INR (k + 1) * M ^ k * (s - r).
Proof.
  intros Hr Hs HM. induction k as [|k IH].
  - cbn. lra.
  - assert (Pr : r ^ (k + 1) <= M ^ (k + 1)) by (apply pow_incr; lra). assert (P0 : 0 <= r ^ (k + 1)) by (apply pow_le; lra).
    assert (P1 : 0 <= M ^ k) by (apply pow_le; lra). assert (PI := pos_INR (k + 1)).
    replace (S k + 1)%nat with (S (k + 1)) by lia. rewrite S_INR. cbn [pow].
    replace (s * s ^ (k + 1) - r * r ^ (k + 1)) with (s * (s ^ (k + 1) - r ^ (k + 1)) + (s - r) * r ^ (k + 1)) by ring. split.
    + apply Rplus_le_le_0_compat; apply Rmult_le_pos; lra.
    + replace (k + 1)%nat with (S k) in Pr by lia. cbn [pow] in Pr.
      assert (A : s * (s ^ (k + 1) - r ^ (k + 1)) <= M * (INR (k + 1) * M ^ k * (s - r))) by (apply Rmult_le_compat; lra).
      assert (B : (s - r) * r ^ (k + 1) <= (s - r) * (M * M ^ k)) by (apply Rmult_le_compat_l; [lra|]; replace (k + 1)%nat with (S k) by lia; exact Pr).
      lra.
Qed.
Lemma poly_diff a : forall k r s M, 0 <= r -> r <= s -> s <= M ->
  Rabs (s ^ (k + 1) * poly a s - r ^ (k + 1) * poly a r) <= slope_bound k a M * (s - r).
Proof.
  induction a as [|b a IH]; intros k r s M Hr Hs HM; cbn [poly slope_bound].
  - rewrite !Rmult_0_r, Rminus_0_r, Rabs_R0. lra.
  - specialize (IH (S k) r s M Hr Hs HM). replace (S k + 1)%nat with (S (k + 1)) in IH by lia. cbn [pow] in IH.
    replace (s ^ (k + 1) * (b + s * poly a s) - r ^ (k + 1) * (b + r * poly a r))
      with (b * (s ^ (k + 1) - r ^ (k + 1)) + (s * s ^ (k + 1) * poly a s - r * r ^ (k + 1) * poly a r)) by ring.
    eapply Rle_trans; [apply Rabs_triang|]. rewrite Rmult_plus_distr_r. apply Rplus_le_compat; [|exact IH].
    destruct (pow_diff k r s M Hr Hs HM) as [D1 D2]. rewrite Rabs_mult, (Rabs_pos_eq _ D1).
    replace (INR (k + 1) * Rabs b * M ^ k * (s - r)) with (Rabs b * (INR (k + 1) * M ^ k * (s - r))) by ring.
    apply Rmult_le_compat_l; [apply Rabs_pos|exact D2].
Qed.
(** Weak distortion: a_0 > 2 |a_1| M + 3 |a_2| M^2 + ... *)
Theorem C111_weak : forall a0 a M, slope_bound 1 a M < a0 -> increasing_radius (a0 :: a) M.
Proof.
  intros a0 a M H r s Hr Hs HM. pose proof (poly_diff a 1 r s M Hr ltac:(lra) HM) as D. cbn [Nat.add pow] in D. rewrite !Rmult_1_r in D.
  assert (B : slope_bound 1 a M * (s - r) < a0 * (s - r)) by (apply Rmult_lt_compat_r; lra).
  pose proof (Rle_abs (-(s * s * poly a s - r * r * poly a r))) as A. rewrite Rabs_Ropp in A. cbn [poly]. nra.
Qed.
Print Assumptions C111_weak.
(** Pincushion distortion of any strength. *)
Theorem C111_positive : forall a0 a M, 0 < a0 -> (forall x, In x a -> 0 <= x) -> increasing_radius (a0 :: a) M.
Proof.
  intros a0 a M H0 Ha r s Hr Hs _.
  assert (P : forall l, (forall x, In x l -> 0 <= x) -> 0 <= poly l r <= poly l s).
  { induction l as [|b l IH]; intros Hl; cbn [poly]; [lra|]. specialize (IH (fun x Hx => Hl x (or_intror Hx))). pose proof (Hl b (or_introl eq_refl)).
    assert (0 <= r * poly l r) by (apply Rmult_le_pos; lra). assert (r * poly l r <= s * poly l s) by (apply Rmult_le_compat; lra). lra. }
  specialize (P a Ha). cbn [poly]. assert (r * poly a r <= s * poly a s) by (apply Rmult_le_compat; lra).
  assert (0 <= r * poly a r) by (apply Rmult_le_pos; lra).
  apply Rle_lt_trans with (r * (a0 + s * poly a s)); [apply Rmult_le_compat_l; lra|apply Rmult_lt_compat_r; lra].
Qed.
Print Assumptions C111_positive.

(** *** What follows *)
Section Mono.
  Variables (fact : list R) (M : R).
  Hypothesis Hm : increasing_radius fact M.
  Lemma fact_pos r : 0 < r <= M -> 0 < poly fact r.
  Proof. intros H. pose proof (Hm 0 r ltac:(lra) ltac:(lra) ltac:(lra)) as P. rewrite Rmult_0_l in P. nra. Qed.
  (** One coordinate grows with itself. *)
  Lemma coord_mono y1 y2 x : y1 < y2 -> sqrt (y1 * y1 + x * x) <= M -> sqrt (y2 * y2 + x * x) <= M ->
    y1 * poly fact (sqrt (y1 * y1 + x * x)) < y2 * poly fact (sqrt (y2 * y2 + x * x)).
  Proof.
    assert (Pos : forall y1 y2, 0 <= y1 -> y1 < y2 -> sqrt (y2 * y2 + x * x) <= M ->
      y1 * poly fact (sqrt (y1 * y1 + x * x)) < y2 * poly fact (sqrt (y2 * y2 + x * x))).
    { clear y1 y2. intros y1 y2 H1 H2 HM. set (r1 := sqrt (y1 * y1 + x * x)). set (r2 := sqrt (y2 * y2 + x * x)) in *.
      assert (Q1 : r1 * r1 = y1 * y1 + x * x) by (apply sqrt_sqrt; nra). assert (Q2 : r2 * r2 = y2 * y2 + x * x) by (apply sqrt_sqrt; nra).
      assert (P1 : 0 <= r1) by apply sqrt_pos. assert (P2 : 0 <= r2) by apply sqrt_pos.
      assert (L : r1 < r2) by (apply sqrt_lt_1_alt; nra).
      assert (F2 : 0 < poly fact r2) by (apply fact_pos; lra). pose proof (Hm r1 r2 P1 L HM) as G.
      destruct (Req_dec r1 0) as [Z|Z].
      - assert (y1 = 0) by nra. subst y1. rewrite Rmult_0_l. apply Rmult_lt_0_compat; lra.
      - assert (F1 : 0 < poly fact r1) by (apply fact_pos; lra).
        (* y1 r2 <= y2 r1 *)
        assert (C : y1 * r2 <= y2 * r1).
        { apply Rsqr_incr_0_var; [|apply Rmult_le_pos; lra]. unfold Rsqr. replace (y1 * r2 * (y1 * r2)) with (y1 * y1 * (r2 * r2)) by ring.
          replace (y2 * r1 * (y2 * r1)) with (y2 * y2 * (r1 * r1)) by ring. rewrite Q1, Q2.
          assert (y1 * y1 <= y2 * y2) by nra. assert (0 <= x * x) by nra. nra. }
        apply Rmult_lt_reg_l with (r1 * r2); [apply Rmult_lt_0_compat; lra|].
        replace (r1 * r2 * (y1 * poly fact r1)) with ((y1 * r2) * (r1 * poly fact r1)) by ring.
        replace (r1 * r2 * (y2 * poly fact r2)) with ((y2 * r1) * (r2 * poly fact r2)) by ring.
        apply Rle_lt_trans with (y2 * r1 * (r1 * poly fact r1)); [apply Rmult_le_compat_r; [apply Rmult_le_pos; lra|exact C]|].
        apply Rmult_lt_compat_l; [apply Rmult_lt_0_compat; lra|exact G]. }
    intros H H1 H2. destruct (Rle_lt_dec 0 y1) as [S1|S1]; [now apply Pos|]. destruct (Rle_lt_dec y2 0) as [S2|S2].
    - assert (P := Pos (- y2) (- y1) ltac:(lra) ltac:(lra)).
      replace (- y1 * - y1) with (y1 * y1) in P by ring. replace (- y2 * - y2) with (y2 * y2) in P by ring. specialize (P H1). lra.
    - assert (A : forall y, y <> 0 -> sqrt (y * y + x * x) <= M -> 0 < poly fact (sqrt (y * y + x * x))).
      { intros y Hy HyM. apply fact_pos. split; [apply sqrt_lt_R0; nra|exact HyM]. }
      specialize (A y1 ltac:(lra) H1) as A1. specialize (A y2 ltac:(lra) H2) as A2.
      apply Rlt_trans with 0; [|apply Rmult_lt_0_compat; lra]. rewrite <- (Rmult_0_l (poly fact (sqrt (y1 * y1 + x * x)))). apply Rmult_lt_compat_r; lra.
  Qed.
End Mono.

(** Points are moved along their rays, never to or beyond the centre; nearer
    points stay nearer; distinct points stay distinct. *)
Theorem C111_rays : forall fact M c p q, increasing_radius fact M -> dist p c <= M -> dist q c <= M ->
  let f := radial_map fact c in
  (p <> c -> exists k, 0 < k /\ psub (f p) c = pscale k (psub p c)) /\ f c = c /\
  (dist p c < dist q c <-> dist (f p) c < dist (f q) c) /\ (f p = f q -> p = q).
Proof.
  intros fact M c p q Hm Hp Hq f.
  assert (G : forall u, dist u c <= M -> dist (f u) c = dist u c * poly fact (dist u c)).
  { intros u Hu. destruct (C01_radial_geometry fact c u) as [_ [E _]]. unfold f. rewrite E. assert (D : 0 <= dist u c) by apply sqrt_pos.
    destruct (Req_dec (dist u c) 0) as [Z|Z]; [rewrite Z; ring|]. rewrite Rabs_pos_eq; [ring|]. apply Rlt_le, (fact_pos fact M Hm). lra. }
  assert (Zero : forall u, dist u c = 0 -> u = c).
  { intros [y x] Hu. destruct c as [cy cx]. unfold dist, py, pxc in Hu. cbn [fst snd] in Hu. apply sqrt_eq_0 in Hu; [|apply Rplus_le_le_0_compat; apply Rle_0_sqr].
    pose proof (Rplus_sqr_eq_0 (y - cy) (x - cx) Hu) as [A B]. f_equal; lra. }
  assert (Dp : 0 <= dist p c) by apply sqrt_pos. assert (Dq : 0 <= dist q c) by apply sqrt_pos.
  assert (Iff : forall u v, dist u c <= M -> dist v c <= M -> dist u c < dist v c -> dist (f u) c < dist (f v) c).
  { intros u v Hu Hv L. rewrite !G by assumption. apply Hm; [apply sqrt_pos|exact L|exact Hv]. }
  split; [|split; [apply C01_radial_geometry; exact c|split]].
  - intros N. exists (poly fact (dist p c)). split.
    + apply (fact_pos fact M Hm). destruct (Req_dec (dist p c) 0) as [Z|Z]; [apply Zero in Z; contradiction|lra].
    + unfold f, radial_map, padd, psub, pscale, py, pxc. destruct c, p. cbn [fst snd]. f_equal; ring.
  - split; [now apply Iff|]. intros L. destruct (Rlt_le_dec (dist p c) (dist q c)) as [C|C]; [exact C|exfalso].
    destruct (Rle_lt_or_eq_dec _ _ C) as [C'|C']; [pose proof (Iff q p Hq Hp C'); lra|]. rewrite !G, C' in L by assumption. lra.
  - intros E. assert (Ed : dist p c = dist q c).
    { destruct (Rtotal_order (dist p c) (dist q c)) as [C|[C|C]]; [|exact C|]; [pose proof (Iff p q Hp Hq C)|pose proof (Iff q p Hq Hp C)]; rewrite E in *; lra. }
    destruct (Req_dec (dist q c) 0) as [Z|Z]; [rewrite (Zero q Z), (Zero p (eq_trans Ed Z)); reflexivity|].
    assert (F : 0 < poly fact (dist q c)) by (apply (fact_pos fact M Hm); lra).
    unfold f, radial_map in E. rewrite Ed in E. unfold padd, pscale, psub, py, pxc in E. destruct p as [y x], q as [y' x'], c as [cy cx]. cbn [fst snd] in *.
    injection E as E1 E2. f_equal.
    + apply Rmult_eq_reg_l with (poly fact (dist (y', x') (cy, cx))); lra.
    + apply Rmult_eq_reg_l with (poly fact (dist (y', x') (cy, cx))); lra.
Qed.
Print Assumptions C111_rays.
(** Up stays up and left stays left. *)
Theorem C111_order : forall fact M c p q, increasing_radius fact M -> dist p c <= M -> dist q c <= M ->
  let f := radial_map fact c in
  (pxc p = pxc q -> py p < py q -> py (f p) < py (f q)) /\ (py p = py q -> pxc p < pxc q -> pxc (f p) < pxc (f q)).
Proof.
  intros fact M [cy cx] [y x] [y' x'] Hm Hp Hq f. unfold f, radial_map, padd, pscale, psub, dist, py, pxc in *. cbn [fst snd] in *. split; intros -> L; apply Rplus_lt_compat_l.
  - rewrite !(Rmult_comm (poly _ _)). apply (coord_mono fact M Hm); [lra|exact Hp|exact Hq].
  - rewrite (Rplus_comm ((y' - cy) * _) ((x - cx) * _)) in *. rewrite (Rplus_comm ((y' - cy) * _) ((x' - cx) * _)) in *.
    rewrite !(Rmult_comm (poly _ _)). apply (coord_mono fact M Hm); [lra|exact Hp|exact Hq].
Qed.
Print Assumptions C111_order.
(** Distinct points of a line stay distinct. *)
Theorem C111_points : forall fact M lines xc yc, increasing_radius fact M -> Forall (fun l => fst l = DF64) lines ->
  (forall l p, In l lines -> In p (snd l) -> dist p (yc, xc) <= M) ->
  Forall2 (fun l u => NoDup (snd l) -> NoDup (snd u)) lines (@unwarp_line_forward R Rex lines xc yc fact).
Proof.
  intros fact M lines xc yc Hm Hd Hb. pose proof (C01_forward_points lines xc yc fact Hd) as F. revert F.
  generalize (@unwarp_line_forward R Rex lines xc yc fact) as us. intros us F. clear Hd. induction F as [|l u lines us [_ H] F IH]; constructor.
  - assert (Hl : forall p, In p (snd l) -> dist p (yc, xc) <= M) by (intros p; apply Hb; now left). destruct l as [d ps], u as [d' us']. cbn [fst snd] in *. clear - H Hl Hm.
    assert (E : us' = map (radial_map fact (yc, xc)) ps) by (clear Hl; induction H as [|a b la lb Hab Hl IH]; cbn [map]; [reflexivity|]; rewrite Hab, IH; reflexivity).
    rewrite E. clear E H us'. induction ps as [|p ps IH]; intros N; [constructor|]. apply NoDup_cons_iff in N as [N1 N2]. cbn [map]. constructor.
    + intros I. apply in_map_iff in I as [q [Eq Iq]]. apply N1.
      destruct (C111_rays fact M (yc, xc) q p Hm (Hl q (or_intror Iq)) (Hl p (or_introl eq_refl))) as [_ [_ [_ X]]]. rewrite <- (X Eq). exact Iq.
    + apply IH; [intros q Hq; apply Hl; now right|exact N2].
  - apply IH. intros l' p Hl'. apply Hb. now right.
Qed.
Print Assumptions C111_points.
Lemma Forall2_cons_iff' {A B} (Q : A -> B -> Prop) a b la lb : Forall2 Q (a :: la) (b :: lb) -> Q a b /\ Forall2 Q la lb.
Proof. intros H. inversion H. tauto. Qed.
(** Where it does not increase, two points become one. *)
Theorem C111_fold : forall fact r s xc yc, 0 <= r < s -> r * poly fact r = s * poly fact s ->
  exists q, @unwarp_line_forward R Rex [(DF64, [(yc, xc + r); (yc, xc + s)])] xc yc fact = [(DF64, [q; q])].
Proof.
  intros fact r s xc yc H E. exists (yc, xc + s * poly fact s).
  pose proof (C01_forward_points [(DF64, [(yc, xc + r); (yc, xc + s)])] xc yc fact ltac:(repeat constructor)) as F.
  assert (D : forall t, 0 <= t -> radial_map fact (yc, xc) (yc, xc + t) = (yc, xc + t * poly fact t)).
  { intros t Ht. unfold radial_map, dist, padd, pscale, psub, py, pxc. cbn [fst snd]. replace ((yc - yc) * (yc - yc) + (xc + t - xc) * (xc + t - xc)) with (t * t) by ring.
    rewrite sqrt_square by exact Ht. f_equal; ring. }
  destruct (unwarp_line_forward _ xc yc fact) as [|[d ps] [|? ?]]; [inversion F| |inversion F; subst; match goal with K : Forall2 _ [] _ |- _ => inversion K end].
  apply Forall2_cons_iff' in F as [[E1 P] _]. cbn [fst snd] in *. subst d.
  destruct ps as [|a [|b [|? ?]]]; try (exfalso; assert (LL := Forall2_length _ _ _ P); discriminate LL).
  apply Forall2_cons_iff' in P as [-> P]. apply Forall2_cons_iff' in P as [-> _]. rewrite !D by lra. rewrite E. reflexivity.
Qed.
Print Assumptions C111_fold.

(** *** Images *)
(** The corrected image reads the rows of each column of the picture from top
    to bottom and its columns from left to right. *)
Theorem C111_image : forall fact M mat xc yc, increasing_radius fact M -> (0 < ih mat)%Z -> (0 < iw mat)%Z ->
  (forall i j, in_img mat i j -> dist (IZR i, IZR j) (yc, xc) <= M) ->
  exists Y X, (forall interp i j, in_img mat i j -> px (@unwarp_image_backward R Rex interp mat xc yc fact) i j = interp mat (Y i j) (X i j)) /\
  (forall i i' j, in_img mat i j -> in_img mat i' j -> (i <= i')%Z -> Y i j <= Y i' j) /\
  (forall i j j', in_img mat i j -> in_img mat i j' -> (j <= j')%Z -> X i j <= X i j').
Proof.
  intros fact M mat xc yc Hm Hh Hw Hb.
  exists (fun i j => f32 (clamp (py (radial_map fact (yc, xc) (zpt i j))) 0 (IZR (ih mat - 1)))),
         (fun i j => f32 (clamp (pxc (radial_map fact (yc, xc) (zpt i j))) 0 (IZR (iw mat - 1)))).
  split; [|split].
  - intros interp i j Hij. destruct (C04_sampling interp mat xc yc fact Hh Hw) as [_ [_ P]]. exact (P i j Hij).
  - intros i i' j H1 H2 L. apply f32_mono. apply clamp_mono. destruct (Z.eq_dec i i') as [->|N]; [lra|]. apply Rlt_le.
    destruct (C111_order fact M (yc, xc) (zpt i j) (zpt i' j) Hm (Hb i j H1) (Hb i' j H2)) as [O _]. apply O; [reflexivity|]. unfold zpt, py. cbn [fst]. apply IZR_lt. lia.
  - intros i j j' H1 H2 L. apply f32_mono. apply clamp_mono. destruct (Z.eq_dec j j') as [->|N]; [lra|]. apply Rlt_le.
    destruct (C111_order fact M (yc, xc) (zpt i j) (zpt i j') Hm (Hb i j H1) (Hb i j' H2)) as [_ O]. apply O; [reflexivity|]. unfold zpt, pxc. cbn [snd]. apply IZR_lt. lia.
Qed.
Print Assumptions C111_image.
(** So chunks of slices are the rows of the corrected projections (C09). *)
Theorem C111_chunk : forall fact M v xc yc start stop, increasing_radius fact M ->
  (vh v <= 32767)%Z -> (0 < vw v <= 2 ^ 24 + 1)%Z -> (0 <= vd v)%Z -> (0 <= start <= stop)%Z -> (stop < vh v)%Z ->
  (forall i j, (0 <= i < vh v)%Z -> (0 <= j < vw v)%Z -> dist (IZR i, IZR j) (yc, xc) <= M) ->
  exists out, @unwarp_chunk_slices_backward R Rex (@bilinear R Rex) v xc yc fact start stop = Ok out /\
    vd out = vd v /\ vh out = (stop - start + 1)%Z /\ vw out = vw v /\
    forall i k j, (0 <= i < vd v)%Z -> (0 <= k <= stop - start)%Z -> (0 <= j < vw v)%Z ->
      vx out i k j = px (@unwarp_image_backward R Rex (@bilinear R Rex) (vplane v i) xc yc fact) (start + k) j.
Proof.
  intros fact M v xc yc start stop Hm Hh Hw Hd Hs He Hb. apply C09_chunk_rows; try assumption; [now left|].
  assert (O : forall k k' j, (0 <= k <= k')%Z -> (k' < vh v)%Z -> (0 <= j < vw v)%Z -> @map_y R Rex xc yc fact k j <= @map_y R Rex xc yc fact k' j).
  { intros k k' j H1 H2 H3. rewrite !map_y_R. destruct (Z.eq_dec k k') as [->|N]; [lra|]. apply Rlt_le.
    destruct (C111_order fact M (yc, xc) (zpt k j) (zpt k' j) Hm (Hb k j ltac:(lia) H3) (Hb k' j ltac:(lia) H3)) as [O _]. apply O; [reflexivity|]. unfold zpt, py. cbn [fst]. apply IZR_lt. lia. }
  intros k j Hk Hj. split; apply O; lia.
Qed.
Print Assumptions C111_chunk.
(** Barrel distortion 1 - r/4000 on a detector of 1000 x 1000 pixels. *)
Example C111_case : increasing_radius [1; - (1 / 4000)] 1500 /\
  (forall i j, (0 <= i < 1000)%Z -> (0 <= j < 1000)%Z -> dist (IZR i, IZR j) (500, 500) <= 1500) /\
  ~ increasing_radius [1; - (1 / 4000)] 4000.
Proof.
  split; [|split].
  - apply C111_weak. cbn [slope_bound Nat.add pow]. rewrite Rabs_Ropp, Rabs_pos_eq by lra. cbn [INR]. lra.
  - intros i j Hi Hj. unfold dist, py, pxc. cbn [fst snd]. rewrite <- (sqrt_square 1500) by lra. apply sqrt_le_1_alt.
    assert (0 <= IZR i <= 1000) by (split; apply IZR_le; lia). assert (0 <= IZR j <= 1000) by (split; apply IZR_le; lia). nra.
  - intros H. specialize (H 2000 3000 ltac:(lra) ltac:(lra) ltac:(lra)). cbn [poly] in H. lra.
Qed.
Example C111_fold_case : exists q, @unwarp_line_forward R Rex [(DF64, [(500, 500 + 1000); (500, 500 + 3000)])] 500 500 [1; - (1 / 4000)] = [(DF64, [q; q])].
Proof. apply C111_fold; [lra|]. cbn [poly]. lra. Qed.
