(** Rescaling of images to 8 bits in exact, float32 and float64 arithmetic. *)
From Coq Require Import Reals ZArith List Lra Lia ZifyBool.
From Flocq Require Import Core. From Flocq.Prop Require Import Relative.
From Verif Require Import Base Num NumFacts Hdf Losa.
Local Open Scope R_scope.

Section Flt.
  Variables emin prec : Z.
  Hypothesis Hp : (11 <= prec)%Z.
  Hypothesis He : (emin <= -1)%Z.
  Notation fmt := (generic_format radix2 (FLT_exp emin prec)).
  Notation rd := (round radix2 (FLT_exp emin prec) ZnearestE).
  Local Instance prec_pos : Prec_gt_0 prec. Proof. unfold Prec_gt_0. lia. Qed.

  Lemma half_int k : (Z.abs k < 2 ^ 11)%Z -> fmt (IZR k / 2).
  Proof.
    intros Hk. apply generic_format_FLT. exists (Float radix2 k (-1)).
    - unfold F2R. cbn. lra.
    - cbn. apply Z.lt_le_trans with (1 := Hk). apply Z.pow_le_mono_r; lia.
    - cbn. lia.
  Qed.
  Lemma rd_le x y : x <= y -> rd x <= rd y.
  Proof. intros H. apply round_le; auto with typeclass_instances. Qed.
  Lemma rd_half k : (Z.abs k < 2 ^ 11)%Z -> rd (IZR k / 2) = IZR k / 2.
  Proof. intros Hk. apply round_generic; auto with typeclass_instances. now apply half_int. Qed.

  (** 255 D is rounded with a small relative error, or not at all. *)
  Lemma times255 D : 0 < D -> fmt D -> Rabs (rd (255 * D) - 255 * D) <= 255 * D * / 1024.
  Proof.
    intros HD HF. pose proof HF as HF0.
    apply FLT_format_generic in HF; [|exact prec_pos]. destruct HF as [[m e] E1 E2 E3]. cbn [Fnum Fexp] in E2, E3.
    destruct (Rle_or_lt (bpow radix2 (emin + prec - 1)) (Rabs (255 * D))) as [Hb|Hb].
    - eapply Rle_trans; [apply relative_error_N_FLT; [lia|exact Hb]|].
      rewrite (Rabs_pos_eq (255 * D)) by lra. rewrite (Rmult_comm (255 * D)). apply Rmult_le_compat_r; [lra|].
      assert (B : bpow radix2 (- prec + 1) <= bpow radix2 (-10)) by (apply bpow_le; lia).
      change (bpow radix2 (-10)) with (/ 1024) in B. lra.
    - assert (F : fmt (255 * D)).
      { apply generic_format_FLT. exists (Float radix2 (255 * m * 2 ^ (e - emin)) emin).
        - rewrite E1. unfold F2R. cbn [Fnum Fexp]. rewrite !mult_IZR.
          rewrite (IZR_Zpower radix2) by lia. rewrite !Rmult_assoc, <- bpow_plus.
          do 3 f_equal. lia.
        - cbn [Fnum]. rewrite E1 in Hb. unfold F2R in Hb. cbn [Fnum Fexp] in Hb.
          assert (X : Rabs (IZR (255 * m * 2 ^ (e - emin))) < bpow radix2 (prec - 1)).
          { apply Rmult_lt_reg_r with (bpow radix2 emin); [apply bpow_gt_0|]. rewrite <- bpow_plus.
            replace (prec - 1 + emin)%Z with (emin + prec - 1)%Z by lia.
            rewrite <- (Rabs_pos_eq (bpow radix2 emin)) by apply bpow_ge_0. rewrite <- Rabs_mult.
            rewrite !mult_IZR. rewrite (IZR_Zpower radix2) by lia.
            replace (255 * IZR m * bpow radix2 (e - emin) * bpow radix2 emin) with (255 * (IZR m * bpow radix2 e)); [exact Hb|].
            rewrite (Rmult_assoc (255 * IZR m)), <- bpow_plus. replace (e - emin + emin)%Z with e by lia. ring. }
          rewrite <- abs_IZR in X.
          rewrite <- (IZR_Zpower radix2) in X by lia. apply lt_IZR in X. apply Z.lt_le_trans with (1 := X).
          apply Z.pow_le_mono_r; cbn; lia.
        - cbn [Fexp]. lia. }
      rewrite round_generic; [|auto with typeclass_instances|exact F]. rewrite Rminus_eq_0, Rabs_R0. lra.
  Qed.
  Lemma quotient_max D : 0 < D -> fmt D -> 509 / 2 <= rd (rd (255 * D) / D) <= 511 / 2.
  Proof.
    intros HD HF. pose proof (times255 D HD HF) as H. apply Rabs_le_inv in H.
    rewrite <- (rd_half 509) by lia. rewrite <- (rd_half 511) at 1 by lia.
    split; apply rd_le.
    - apply Rmult_le_reg_r with D; [lra|]. unfold Rdiv. rewrite (Rmult_assoc _ (/ D)), Rinv_l by lra. lra.
    - apply Rmult_le_reg_r with D; [lra|]. unfold Rdiv. rewrite (Rmult_assoc _ (/ D)), Rinv_l by lra. lra.
  Qed.
  (** The difference of distinct numbers of the format is not rounded to 0. *)
  Lemma minus_pos a b : fmt a -> fmt b -> a < b -> 0 < rd (b - a).
  Proof.
    intros Ha Hb Hl. apply FLT_format_generic in Ha; [|exact prec_pos]. apply FLT_format_generic in Hb; [|exact prec_pos].
    destruct Ha as [[m1 e1] A1 _ A3]. destruct Hb as [[m2 e2] B1 _ B3]. cbn [Fexp] in A3, B3.
    assert (X : bpow radix2 emin <= b - a).
    { set (k := (m2 * 2 ^ (e2 - emin) - m1 * 2 ^ (e1 - emin))%Z).
      assert (E : b - a = IZR k * bpow radix2 emin).
      { unfold k. rewrite minus_IZR, !mult_IZR. rewrite !(IZR_Zpower radix2) by lia. rewrite A1, B1. unfold F2R. cbn [Fnum Fexp].
        rewrite Rmult_minus_distr_r, !Rmult_assoc, <- !bpow_plus. do 3 f_equal; f_equal; lia. }
      rewrite E. assert (1 <= k)%Z.
      { apply Z.lt_pred_le. cbn. apply lt_IZR. apply Rmult_lt_reg_r with (bpow radix2 emin); [apply bpow_gt_0|].
        rewrite <- E. lra. }
      apply IZR_le in H. pose proof (bpow_gt_0 radix2 emin). nra. }
    apply Rlt_le_trans with (rd (bpow radix2 emin)); [|now apply rd_le].
    rewrite round_generic; [apply bpow_gt_0|auto with typeclass_instances|].
    apply generic_format_bpow. unfold FLT_exp. lia.
  Qed.
End Flt.

(** Exact, float32 or float64 arithmetic. *)
Definition image_arith (rnd : R -> R) : Prop :=
  (forall x, rnd x = x) \/ (forall x, rnd x = f32 x) \/ (forall x, rnd x = f64 x).

Section Core.
  Variable rnd : R -> R.
  Hypothesis Ha : image_arith rnd.

  Lemma arith_le x y : x <= y -> rnd x <= rnd y.
  Proof.
    intros H. destruct Ha as [E|[E|E]]; rewrite !E; [exact H|now apply f32_mono|].
    unfold f64. apply round_le; auto with typeclass_instances.
  Qed.
  Lemma arith_0 : rnd 0 = 0.
  Proof.
    destruct Ha as [E|[E|E]]; rewrite E; [reflexivity| |]; unfold f32, f64; apply round_0; auto with typeclass_instances.
  Qed.
  Lemma fmt_of_f32 x : f32 x = x -> generic_format radix2 (FLT_exp (-149) 24) x.
  Proof. intros <-. unfold f32. apply generic_format_round; auto with typeclass_instances. Qed.
  Lemma fmt_of_f64 x : f64 x = x -> generic_format radix2 (FLT_exp (-1074) 53) x.
  Proof. intros <-. unfold f64. apply generic_format_round; auto with typeclass_instances. Qed.

  Lemma arith_minus_pos a b : rnd a = a -> rnd b = b -> a < b -> 0 < rnd (b - a).
  Proof.
    destruct Ha as [E|[E|E]]; rewrite !E; intros A B H; [lra| |].
    - apply (minus_pos (-149) 24); try lia; try assumption; now apply fmt_of_f32.
    - apply (minus_pos (-1074) 53); try lia; try assumption; now apply fmt_of_f64.
  Qed.
  Lemma arith_idem x : rnd (rnd x) = rnd x.
  Proof. destruct Ha as [E|[E|E]]; rewrite !E; [reflexivity|apply f32_idem|apply f64_idem]. Qed.

  (** The scaled value of the difference d with maximal difference D. *)
  Definition scaled (D d : R) : Z := Ztrunc (rnd (rnd (255 * d) / D)).
  Lemma scaled_max D : 0 < D -> rnd D = D ->
    (254 <= scaled D D <= 255)%Z /\ ((forall x, rnd x = x) -> scaled D D = 255%Z).
  Proof.
    intros HD HF. assert (X : (forall x, rnd x = x) -> scaled D D = 255%Z).
    { intros E. unfold scaled. rewrite !E. replace (255 * D / D) with (IZR 255) by (field; lra). apply Ztrunc_IZR. }
    split; [|exact X]. destruct Ha as [E|E]; [rewrite X by exact E; lia|].
    assert (Q : 509 / 2 <= rnd (rnd (255 * D) / D) <= 511 / 2).
    { destruct E as [E|E]; rewrite !E in *.
      - apply (quotient_max (-149) 24); try lia; try assumption. now apply fmt_of_f32.
      - apply (quotient_max (-1074) 53); try lia; try assumption. now apply fmt_of_f64. }
    unfold scaled. rewrite Ztrunc_floor by lra. split.
    - apply Zfloor_lub. lra.
    - assert (Zfloor (rnd (rnd (255 * D) / D)) < 256)%Z; [|lia]. apply lt_IZR.
      eapply Rle_lt_trans; [apply Zfloor_lb|]. lra.
  Qed.
  Lemma scaled_0 D : scaled D 0 = 0%Z.
  Proof. unfold scaled. rewrite Rmult_0_r, arith_0. unfold Rdiv. rewrite Rmult_0_l, arith_0. now rewrite Ztrunc_IZR. Qed.
  Lemma scaled_mono D d d' : 0 < D -> d <= d' -> (scaled D d <= scaled D d')%Z.
  Proof.
    intros HD H. unfold scaled. apply Ztrunc_le, arith_le. unfold Rdiv.
    apply Rmult_le_compat_r; [left; now apply Rinv_0_lt_compat|]. apply arith_le. lra.
  Qed.
  Lemma scaled_range D d : 0 < D -> rnd D = D -> 0 <= d <= D -> (0 <= scaled D d <= 255)%Z.
  Proof.
    intros HD HF H. pose proof (scaled_mono D 0 d HD (proj1 H)). pose proof (scaled_mono D d D HD (proj2 H)).
    rewrite scaled_0 in *. destruct (scaled_max D HD HF). lia.
  Qed.

  (** *** The whole image *)
  Definition values (a : ndarr R) : list R := map (nval a) (indices (nshape a)).
  Lemma scale8_ok im mn mx : ikind_of im <> KU8 -> @namin R (Rnum rnd) (values (iarr im)) = Ok mn ->
    @namax R (Rnum rnd) (values (iarr im)) = Ok mx ->
    exists out, @scale8 R (Rnum rnd) im = Ok out /\ ikind_of out = KU8 /\ nshape (iarr out) = nshape (iarr im) /\
    forall idx, nval (iarr out) idx =
      if Req_bool mx mn then IZR (wrap_u8 (Ztrunc (nval (iarr im) idx)))
      else IZR (wrap_u8 (Ztrunc (rnd (rnd (255 * @elem_sub R (Rnum rnd) (ikind_of im) (nval (iarr im) idx) mn)
                                      / @elem_sub R (Rnum rnd) (ikind_of im) mx mn)))).
  Proof.
    intros Hk Hmn Hmx. unfold scale8. destruct (ikind_of im) eqn:Ek; [congruence| |];
    unfold values in *; rewrite Hmn, Hmx; cbn [bind];
    (eexists; split; [reflexivity|split; [reflexivity|]]); cbn [neqb Rnum];
    (destruct (Req_bool mx mn); cbn [negb]; split; reflexivity).
  Qed.
  Lemma namin_min a mn idx0 : In idx0 (indices (nshape a)) -> nval a idx0 = mn ->
    (forall idx, In idx (indices (nshape a)) -> mn <= nval a idx) -> @namin R (Rnum rnd) (values a) = Ok mn.
  Proof.
    intros H0 E H. destruct (@namin R (Rnum rnd) (values a)) as [m|e] eqn:Em.
    - apply namin_spec in Em. destruct Em as [Hi Hm]. f_equal. apply Rle_antisym.
      + rewrite <- E. apply Hm. unfold values. now apply in_map.
      + unfold values in Hi. apply in_map_iff in Hi. destruct Hi as [i [<- Hi]]. now apply H.
    - exfalso. unfold namin in Em. destruct (values a) eqn:Ev; [|discriminate].
      assert (In (nval a idx0) (values a)) by (unfold values; now apply in_map). rewrite Ev in H1. destruct H1.
  Qed.
  Lemma namax_max a mx idx0 : In idx0 (indices (nshape a)) -> nval a idx0 = mx ->
    (forall idx, In idx (indices (nshape a)) -> nval a idx <= mx) -> @namax R (Rnum rnd) (values a) = Ok mx.
  Proof.
    intros H0 E H. destruct (@namax R (Rnum rnd) (values a)) as [m|e] eqn:Em.
    - apply namax_spec in Em. destruct Em as [Hi Hm]. f_equal. apply Rle_antisym.
      + unfold values in Hi. apply in_map_iff in Hi. destruct Hi as [i [<- Hi]]. now apply H.
      + rewrite <- E. apply Hm. unfold values. now apply in_map.
    - exfalso. unfold namax in Em. destruct (values a) eqn:Ev; [|discriminate].
      assert (In (nval a idx0) (values a)) by (unfold values; now apply in_map). rewrite Ev in H1. destruct H1.
  Qed.

  Definition inside (a : ndarr R) idx : Prop := In idx (indices (nshape a)).
  (** Well-behaved 8-bit result of an image: integers between 0 and 255, the
      minimum at 0, the maximum at 254 or 255, monotone. *)
  Definition spread (a out : ndarr R) : Prop := exists v : list Z -> Z,
    (forall idx, inside a idx -> nval out idx = IZR (v idx) /\ (0 <= v idx <= 255)%Z) /\
    (forall idx, inside a idx -> (forall j, inside a j -> nval a idx <= nval a j) -> v idx = 0%Z) /\
    (forall idx, inside a idx -> (forall j, inside a j -> nval a j <= nval a idx) ->
       (254 <= v idx)%Z /\ ((forall x, rnd x = x) -> v idx = 255%Z)) /\
    (forall i j, inside a i -> inside a j -> nval a i <= nval a j -> (v i <= v j)%Z).

  Lemma spread_core im imn imx (sub : R -> R) D : 
    let a := iarr im in ikind_of im <> KU8 ->
    inside a imn -> inside a imx -> (forall j, inside a j -> nval a imn <= nval a j <= nval a imx) ->
    nval a imn < nval a imx ->
    (forall j, inside a j -> @elem_sub R (Rnum rnd) (ikind_of im) (nval a j) (nval a imn) = sub (nval a j)) ->
    sub (nval a imn) = 0 -> sub (nval a imx) = D ->
    (forall i j, inside a i -> inside a j -> nval a i <= nval a j -> sub (nval a i) <= sub (nval a j)) ->
    0 < D -> rnd D = D ->
    exists out, @scale8 R (Rnum rnd) im = Ok out /\ ikind_of out = KU8 /\ nshape (iarr out) = nshape a /\ spread a (iarr out).
  Proof.
    intros a Hk H1 H2 Hb Hlt Hsub Hs0 HsD Hmono HD HF.
    destruct (scale8_ok im (nval a imn) (nval a imx)) as [out [E [K [S V]]]]; auto.
    - apply (namin_min a _ imn); auto. intros idx Hi. now apply Hb.
    - apply (namax_max a _ imx); auto. intros idx Hi. now apply Hb.
    - exists out. repeat split; auto. exists (fun idx => scaled D (sub (nval a idx))).
      assert (Hr : forall idx, inside a idx -> 0 <= sub (nval a idx) <= D).
      { intros idx Hi. rewrite <- Hs0, <- HsD at 1. split; apply Hmono; auto; now apply Hb. }
      repeat split.
      + rewrite V. destruct (Req_bool_spec (nval a imx) (nval a imn)) as [X|_]; [lra|].
        fold a. rewrite Hsub by assumption. rewrite (Hsub imx) by assumption. rewrite HsD.
        fold (scaled D (sub (nval a idx))). unfold wrap_u8. f_equal. apply Z.mod_small.
        pose proof (scaled_range D _ HD HF (Hr idx H)). lia.
      + apply scaled_range; auto.
      + apply scaled_range; auto.
      + intros idx Hi Hm. replace (nval a idx) with (nval a imn); [rewrite Hs0; apply scaled_0|].
        apply Rle_antisym; [now apply Hb|now apply Hm].
      + replace (nval a idx) with (nval a imx); [rewrite HsD; now apply scaled_max|].
        apply Rle_antisym; [now apply H0|now apply Hb].
      + replace (nval a idx) with (nval a imx); [rewrite HsD; now apply scaled_max|].
        apply Rle_antisym; [now apply H0|now apply Hb].
      + intros i j Hi Hj Hl. apply scaled_mono; [exact HD|]. now apply Hmono.
  Qed.

  Lemma scale8_float im imn imx : let a := iarr im in ikind_of im = KFloat ->
    inside a imn -> inside a imx -> (forall j, inside a j -> nval a imn <= nval a j <= nval a imx) ->
    nval a imn < nval a imx -> (forall j, inside a j -> rnd (nval a j) = nval a j) ->
    exists out, @scale8 R (Rnum rnd) im = Ok out /\ ikind_of out = KU8 /\ nshape (iarr out) = nshape a /\ spread a (iarr out).
  Proof.
    intros a Hk H1 H2 Hb Hlt Hf.
    apply (spread_core im imn imx (fun x => rnd (x - nval a imn)) (rnd (nval a imx - nval a imn))); auto.
    - congruence.
    - intros j Hj. rewrite Hk. reflexivity.
    - fold a. rewrite Rminus_eq_0. apply arith_0.
    - intros i j Hi Hj Hl. fold a in Hl |- *. apply arith_le. lra.
    - apply arith_minus_pos; auto.
    - apply arith_idem.
  Qed.

  Lemma scale8_int im w imn imx (z : list Z -> Z) : let a := iarr im in ikind_of im = KInt w ->
    (forall idx, inside a idx -> nval a idx = IZR (z idx)) ->
    inside a imn -> inside a imx -> (forall j, inside a j -> z imn <= z j <= z imx)%Z ->
    (z imn < z imx)%Z -> (z imx - z imn <= 2 ^ 24)%Z \/ ((forall x, rnd x = f64 x) /\ (z imx - z imn <= 2 ^ 53)%Z) \/ (forall x, rnd x = x) ->
    (forall k, 0 <= k <= z imx - z imn -> w k = k)%Z ->
    exists out, @scale8 R (Rnum rnd) im = Ok out /\ ikind_of out = KU8 /\ nshape (iarr out) = nshape a /\ spread a (iarr out).
  Proof.
    intros a Hk Hz H1 H2 Hb Hlt Hprec Hw.
    assert (Hle : forall i j, inside a i -> inside a j -> (nval a i <= nval a j <-> (z i <= z j)%Z)).
    { intros i j Hi Hj. rewrite (Hz i Hi), (Hz j Hj). split; [apply le_IZR|apply IZR_le]. }
    apply (spread_core im imn imx (fun x => IZR (Ztrunc x - z imn)) (IZR (z imx - z imn))); auto.
    - congruence.
    - intros j Hj. fold a in Hj |- *. split; apply Hle; auto; now apply Hb.
    - fold a. rewrite (Hz imn H1), (Hz imx H2). now apply IZR_lt.
    - intros j Hj. fold a in Hj |- *. rewrite Hk. cbn [elem_sub nofZ ntrunc Rnum]. rewrite (Hz imn H1), (Hz j Hj), !Ztrunc_IZR.
      rewrite Hw; [reflexivity|]. specialize (Hb j Hj). lia.
    - fold a. rewrite (Hz imn H1), Ztrunc_IZR. now rewrite Z.sub_diag.
    - fold a. now rewrite (Hz imx H2), Ztrunc_IZR.
    - intros i j Hi Hj Hl. fold a in Hi, Hj, Hl |- *. apply IZR_le. apply Hle in Hl; auto. rewrite (Hz i Hi), (Hz j Hj), !Ztrunc_IZR. lia.
    - apply IZR_lt. lia.
    - destruct Hprec as [Hp|[[E Hp]|E]].
      + destruct Ha as [E|[E|E]]; rewrite E; [reflexivity|apply f32_int|apply f64_int]; lia.
      + rewrite E. apply f64_int. lia.
      + apply E.
  Qed.
  Lemma scale8_const im c : let a := iarr im in ikind_of im <> KU8 -> indices (nshape a) <> [] ->
    (forall idx, inside a idx -> nval a idx = c) ->
    exists out, @scale8 R (Rnum rnd) im = Ok out /\ ikind_of out = KU8 /\ nshape (iarr out) = nshape a /\
      forall idx, inside a idx -> nval (iarr out) idx = IZR (Ztrunc c mod 256).
  Proof.
    intros a Hk Hne Hc. destruct (indices (nshape a)) as [|i0 l] eqn:E0; [congruence|].
    assert (Hi : inside a i0) by (unfold inside; rewrite E0; now left).
    destruct (scale8_ok im c c) as [out [E [K [S V]]]]; auto.
    - apply (namin_min a _ i0); auto. intros j Hj. rewrite (Hc j Hj). lra.
    - apply (namax_max a _ i0); auto. intros j Hj. rewrite (Hc j Hj). lra.
    - exists out. repeat split; auto. intros idx Hx. rewrite V. destruct (Req_bool_spec c c); [|congruence].
      fold a. now rewrite (Hc idx Hx).
  Qed.
End Core.
