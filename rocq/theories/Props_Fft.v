(** Theorems C96: the Fourier filter used for normalisation. *)
From Coq Require Import Reals ZArith List Lra Lia Psatz Permutation.
From Flocq Require Import Core.
From Verif Require Import Base Num NumFacts Img Spec Post PostImg PrepImg PrepImgFacts PrepImgFacts2 PrepFacts4 Props_Prep Proc ProcFacts2 LineSpec Props_Line4 Props_Line6 Fft FftSpec.
Import ListNotations.
Local Open Scope R_scope.
Local Existing Instance Rex.

(** The filter with the true exponential. *)
Notation fft_filter F G ext := (@apply_fft_filter R Rex exp F G ext).

Lemma sum2_ext h w f g : (forall i j, (0 <= i < h)%Z -> (0 <= j < w)%Z -> f i j = g i j) -> sum2 h w f = sum2 h w g.
Proof. intros H. apply sumZ_ext. intros i Hi. apply sumZ_ext. intros j Hj. now apply H. Qed.
Lemma sum2_scal h w c f : sum2 h w (fun i j => c * f i j) = c * sum2 h w f.
Proof. unfold sum2. rewrite <- sumZ_scal. apply sumZ_ext. intros i _. apply sumZ_scal. Qed.
Lemma sum2_plus h w f g : sum2 h w (fun i j => f i j + g i j) = sum2 h w f + sum2 h w g.
Proof. unfold sum2. rewrite <- sumZ_plus. apply sumZ_ext. intros i _. apply sumZ_plus. Qed.
Lemma sumZ_swap n m f : sumZ n (fun i => sumZ m (fun j => f i j)) = sumZ m (fun j => sumZ n (fun i => f i j)).
Proof.
  unfold sumZ. generalize (Z.to_nat n) as k. intros k. induction k as [|k IH]; cbn [sum_n].
  - symmetry. apply sum_n_zero. reflexivity.
  - rewrite IH, <- sum_n_plus. reflexivity.
Qed.
Lemma sum2_swap h w h' w' f : sum2 h w (fun i j => sum2 h' w' (fun a b => f i j a b)) = sum2 h' w' (fun a b => sum2 h w (fun i j => f i j a b)).
Proof.
  unfold sum2.
  transitivity (sumZ h (fun i => sumZ h' (fun a => sumZ w (fun j => sumZ w' (fun b => f i j a b))))).
  { apply sumZ_ext. intros i _. apply sumZ_swap. }
  rewrite sumZ_swap. apply sumZ_ext. intros a _.
  transitivity (sumZ h (fun i => sumZ w' (fun b => sumZ w (fun j => f i j a b)))).
  { apply sumZ_ext. intros i _. apply sumZ_swap. }
  apply sumZ_swap.
Qed.
Lemma sign_matsign i j : @matsign R Rex i j = sign (i + j).
Proof. unfold matsign, sign. rewrite Z.add_comm. destruct (Z.even (i + j)); reflexivity. Qed.
Lemma sign_mul i j : sign i * sign j = sign (i + j).
Proof. unfold sign. rewrite Z.even_add. destruct (Z.even i), (Z.even j); cbn; ring. Qed.
Lemma sign_opp i : sign (- i) = sign i.
Proof. unfold sign. now rewrite Z.even_opp. Qed.
Lemma sign_sub i j : sign i * sign j = sign (i - j).
Proof. rewrite <- (sign_opp j), sign_mul. f_equal. Qed.
Lemma phase_sub h w u v a b a' b' : (1 <= h)%Z -> (1 <= w)%Z -> phase h w u v a b - phase h w u v a' b' = phase h w u v (a - a') (b - b').
Proof. intros Hh Hw. unfold phase. rewrite !Z.mul_sub_distr_l, !minus_IZR. field. split; apply not_0_IZR; lia. Qed.
Lemma window_gauss h w sigma u v : @px R (make_window exp h w sigma) u v = gauss h w sigma u v.
Proof.
  unfold make_window, gauss, n1. cbn [px nopp nadd nsub nmul ndiv nofZ Rex Rnum]. f_equal.
  unfold Rdiv. rewrite <- Rmult_plus_distr_r. replace (2 * sigma * sigma) with (2 * sigma ^ 2) by ring. ring.
Qed.
Definition shape_ok (F : image (R * R) -> image (R * R)) : Prop := forall m, ih (F m) = ih m /\ iw (F m) = iw m.

Lemma filter_px F G ext mat sigma pad i j : is_dft F -> is_idft G -> (1 <= ih mat)%Z -> (1 <= iw mat)%Z -> (0 <= pad)%Z -> in_img mat i j ->
  let H := (ih mat + 2 * pad)%Z in let W := (iw mat + 2 * pad)%Z in
  px (fft_filter F G ext mat sigma pad) i j =
  sum2 H W (fun a b => kernel H W sigma (i + pad - a) (j + pad - b) * px (pad_image ext mat pad) a b).
Proof.
  intros HF HG Hh Hw Hp [Hi Hj] H W. unfold apply_fft_filter. change (ih (pad_image ext mat pad)) with H. change (iw (pad_image ext mat pad)) with W.
  set (P := pad_image ext mat pad). assert (H1 : (1 <= H)%Z) by (unfold H; lia). assert (W1 : (1 <= W)%Z) by (unfold W; lia). unfold slice2. cbn [ih iw px].
  assert (S1 : slice_bound H pad = pad) by (unfold slice_bound, H; destruct (Z.ltb_spec pad 0); lia).
  assert (S2 : slice_bound W pad = pad) by (unfold slice_bound, W; destruct (Z.ltb_spec pad 0); lia).
  rewrite S1, S2. set (I := (pad + i)%Z). set (J := (pad + j)%Z). replace (i + pad)%Z with I by (unfold I; lia). replace (j + pad)%Z with J by (unfold J; lia).
  assert (HI : (0 <= I < H)%Z) by (unfold I, H; lia). assert (HJ : (0 <= J < W)%Z) by (unfold J, W; lia).
  set (m0 := mkimg H W (fun i j => (nmul (px P i j) (matsign i j), n0))).
  set (g := mkimg H W (fun i j => (nmul (fst (px (F m0) i j)) (px (make_window exp H W sigma) i j), nmul (snd (px (F m0) i j)) (px (make_window exp H W sigma) i j)))).
  destruct (HG g) as (_ & _ & EG). rewrite EG by (split; assumption). clear EG. cbn [g ih iw px fst snd].
  assert (EF : forall u v, (0 <= u < H)%Z -> (0 <= v < W)%Z -> px (F m0) u v =
    (sum2 H W (fun a b => px P a b * sign (a + b) * cos (phase H W u v a b) + 0 * sin (phase H W u v a b)), sum2 H W (fun a b => 0 * cos (phase H W u v a b) - px P a b * sign (a + b) * sin (phase H W u v a b)))).
  { intros u v Hu Hv. destruct (HF m0) as (_ & _ & EF). rewrite EF by (split; assumption). f_equal; apply sum2_ext; intros a b _ _; cbn [m0 px fst snd]; rewrite sign_matsign; reflexivity. }
  rewrite sign_matsign. cbn [nmul Rex Rnum]. unfold kernel.
  assert (X : sum2 H W (fun u v => fst (px (F m0) u v) * px (make_window exp H W sigma) u v * cos (phase H W u v I J) - snd (px (F m0) u v) * px (make_window exp H W sigma) u v * sin (phase H W u v I J)) =
    sum2 H W (fun a b => sign (a + b) * px P a b * sum2 H W (fun u v => gauss H W sigma u v * cos (phase H W u v (I - a) (J - b))))).
  { transitivity (sum2 H W (fun u v => sum2 H W (fun a b => sign (a + b) * px P a b * (gauss H W sigma u v * cos (phase H W u v (I - a) (J - b)))))).
    - apply sum2_ext. intros u v Hu Hv. rewrite EF by assumption. cbn [fst snd]. rewrite window_gauss.
      set (cp := cos (phase H W u v I J)). set (sp := sin (phase H W u v I J)). set (ga := gauss H W sigma u v).
      transitivity (sum2 H W (fun a b => ga * cp * (px P a b * sign (a + b) * cos (phase H W u v a b) + 0 * sin (phase H W u v a b)) + - (ga * sp) * (0 * cos (phase H W u v a b) - px P a b * sign (a + b) * sin (phase H W u v a b)))).
      + set (T1 := sum2 H W (fun a b => px P a b * sign (a + b) * cos (phase H W u v a b) + 0 * sin (phase H W u v a b))). set (T2 := sum2 H W (fun a b => 0 * cos (phase H W u v a b) - px P a b * sign (a + b) * sin (phase H W u v a b))).
        rewrite sum2_plus, !sum2_scal. fold T1 T2. ring.
      + apply sum2_ext. intros a b _ _. rewrite <- phase_sub by assumption. rewrite cos_minus. fold cp sp. ring.
    - rewrite sum2_swap. apply sum2_ext. intros a b _ _. rewrite sum2_scal. reflexivity. }
  cbn [nmul Rex Rnum] in X. rewrite X. clear X.
  unfold Rdiv. rewrite Rmult_assoc, Rmult_comm, <- sum2_scal. apply sum2_ext. intros a b _ _.
  replace (I - a + (J - b))%Z with (I + J - (a + b))%Z by lia. rewrite <- sign_sub. ring.
Qed.
Lemma filter_shape F G ext mat sigma pad : (0 <= ih mat)%Z -> (0 <= iw mat)%Z -> (0 <= pad)%Z ->
  ih (fft_filter F G ext mat sigma pad) = ih mat /\ iw (fft_filter F G ext mat sigma pad) = iw mat.
Proof.
  intros Hh Hw Hp. unfold apply_fft_filter, slice2, pad_image. cbn [ih iw]. unfold slice_bound.
  repeat match goal with |- context[Z.ltb ?a ?b] => destruct (Z.ltb_spec a b) end; split; lia.
Qed.
(** *** C96 *)
(** The filter replaces every pixel by a fixed weighted sum of the pixels of
    the extended image; the weights are the transform of a Gaussian. *)
Theorem C96_weighted_sum : forall F G ext mat sigma pad, is_dft F -> is_idft G -> (1 <= ih mat)%Z -> (1 <= iw mat)%Z -> (0 <= pad)%Z ->
  let out := fft_filter F G ext mat sigma pad in
  let H := (ih mat + 2 * pad)%Z in let W := (iw mat + 2 * pad)%Z in
  ih out = ih mat /\ iw out = iw mat /\ forall i j, in_img mat i j -> px out i j =
    sum2 H W (fun a b => kernel H W sigma (i + pad - a) (j + pad - b) * px mat (ext (ih mat) (a - pad)%Z) (ext (iw mat) (b - pad)%Z)).
Proof.
  intros F G ext mat sigma pad HF HG Hh Hw Hp out H W. destruct (filter_shape F G ext mat sigma pad ltac:(lia) ltac:(lia) Hp) as [S1 S2].
  split; [exact S1|]. split; [exact S2|]. intros i j Hij. apply filter_px; assumption.
Qed.
(** It is linear; rows and columns play the same role. *)
Theorem C96_linear : forall F G ext m1 m2 k1 k2 mat sigma pad, is_dft F -> is_idft G -> pad_ok ext -> (1 <= ih mat)%Z -> (1 <= iw mat)%Z -> (0 <= pad)%Z ->
  ih m1 = ih mat -> iw m1 = iw mat -> ih m2 = ih mat -> iw m2 = iw mat ->
  (forall i j, in_img mat i j -> px mat i j = k1 * px m1 i j + k2 * px m2 i j) ->
  forall i j, in_img mat i j -> px (fft_filter F G ext mat sigma pad) i j =
    k1 * px (fft_filter F G ext m1 sigma pad) i j + k2 * px (fft_filter F G ext m2 sigma pad) i j.
Proof.
  intros F G ext m1 m2 k1 k2 mat sigma pad HF HG PO Hh Hw Hp A1 A2 B1 B2 E i j Hij.
  rewrite !filter_px by (try assumption; try lia; unfold in_img in *; lia). rewrite A1, A2, B1, B2, <- !sum2_scal, <- sum2_plus. apply sum2_ext. intros a b Ha Hb.
  unfold pad_image. cbn [px]. rewrite A1, A2, B1, B2. rewrite E by (split; apply PO; lia). ring.
Qed.
Lemma sum2_tr h w f : sum2 h w f = sum2 w h (fun j i => f i j).
Proof. apply sumZ_swap. Qed.
Lemma kernel_tr h w sigma s t : kernel w h sigma t s = kernel h w sigma s t.
Proof.
  unfold kernel. rewrite (Z.add_comm t s), (Z.mul_comm w h). f_equal. rewrite sum2_tr. apply sum2_ext. intros u v _ _. unfold gauss, phase. f_equal.
  - do 3 f_equal. apply Rplus_comm.
  - do 2 f_equal. apply Rplus_comm.
Qed.
Theorem C96_alike : forall F G ext sigma pad, is_dft F -> is_idft G -> pad_ok ext -> (0 <= pad)%Z ->
  alike (fun m => fft_filter F G ext m sigma pad).
Proof.
  intros F G ext sigma pad HF HG PO Hp m m' Hh Hw (E1 & E2 & E3). cbn [transpose ih iw px] in E1, E2, E3.
  destruct (filter_shape F G ext m sigma pad ltac:(lia) ltac:(lia) Hp) as [S1 S2]. destruct (filter_shape F G ext m' sigma pad ltac:(lia) ltac:(lia) Hp) as [S1' S2'].
  split; [|split]; [change (ih (fft_filter F G ext m' sigma pad) = iw (fft_filter F G ext m sigma pad)); lia|change (iw (fft_filter F G ext m' sigma pad) = ih (fft_filter F G ext m sigma pad)); lia|].
  intros i j Hij. change (px (fft_filter F G ext m' sigma pad) i j = px (fft_filter F G ext m sigma pad) j i). unfold in_img in Hij. rewrite S1', S2' in Hij.
  rewrite !filter_px by (try assumption; try lia; unfold in_img; lia). rewrite E1, E2, sum2_tr. apply sum2_ext. intros b a Hb Ha. rewrite kernel_tr. f_equal.
  unfold pad_image. cbn [px]. rewrite E1, E2. apply E3. unfold in_img. rewrite E1, E2. split; apply PO; lia.
Qed.
(** Geometric sums. *)
Lemma cos_sum n phi th : 2 * sin (th / 2) * sum_n n (fun k => cos (phi + IZR k * th)) = sin (phi + (INR n - 1 / 2) * th) - sin (phi - th / 2).
Proof.
  induction n as [|n IH]; cbn [sum_n].
  - simpl INR. replace (phi + (0 - 1 / 2) * th) with (phi - th / 2) by field. ring.
  - rewrite Rmult_plus_distr_l, IH, <- INR_IZR_INZ, S_INR.
    replace (phi + (INR n + 1 - 1 / 2) * th) with ((phi + INR n * th) + th / 2) by field. replace (phi + (INR n - 1 / 2) * th) with ((phi + INR n * th) - th / 2) by field.
    rewrite sin_plus, sin_minus. ring.
Qed.
Lemma trig_period x z : cos (x + IZR z * PI) = sign z * cos x /\ sin (x + IZR z * PI) = sign z * sin x.
Proof.
  revert z. assert (N : forall n : nat, (forall z, (Z.abs z = Z.of_nat n)%Z -> cos (x + IZR z * PI) = sign z * cos x /\ sin (x + IZR z * PI) = sign z * sin x)).
  { induction n as [|n IH]; intros z Hz.
    - assert (z = 0)%Z by lia. subst z. unfold sign. cbn. rewrite Rmult_0_l, Rplus_0_r. lra.
    - destruct (Z.eq_dec z (Z.of_nat n + 1)) as [->|Hne].
      + destruct (IH (Z.of_nat n) ltac:(lia)) as [I1 I2]. rewrite plus_IZR, Rmult_plus_distr_r, Rmult_1_l, <- Rplus_assoc, neg_cos, neg_sin, I1, I2.
        replace (sign (Z.of_nat n + 1)) with (- sign (Z.of_nat n)) by (rewrite <- sign_mul; change (sign 1) with (-1); ring). lra.
      + assert (z = - Z.of_nat n - 1)%Z by lia. subst z. destruct (IH (- Z.of_nat n)%Z ltac:(lia)) as [I1 I2].
        set (y := x + IZR (- Z.of_nat n - 1) * PI). assert (Y : x + IZR (- Z.of_nat n) * PI = y + PI) by (unfold y; rewrite minus_IZR; ring).
        rewrite Y in I1, I2. rewrite neg_cos in I1. rewrite neg_sin in I2. replace (sign (- Z.of_nat n - 1)) with (- sign (- Z.of_nat n)); [lra|].
        rewrite <- sign_sub. change (sign 1) with (-1). ring. }
  intros z. apply (N (Z.to_nat (Z.abs z))). lia.
Qed.
Lemma cos_geo n phi th m : (0 <= n)%Z -> sin (th / 2) <> 0 -> IZR n * th = 2 * IZR m * PI -> sumZ n (fun k => cos (phi + IZR k * th)) = 0.
Proof.
  intros Hn Hs Hm. pose proof (cos_sum (Z.to_nat n) phi th) as C. rewrite INR_IZR_INZ, Z2Nat.id in C by lia.
  replace (phi + (IZR n - 1 / 2) * th) with ((phi - th / 2) + IZR (2 * m) * PI) in C by (rewrite mult_IZR; lra). rewrite (proj2 (trig_period _ _)) in C.
  assert (S : sign (2 * m) = 1) by (unfold sign; now rewrite Z.even_mul). rewrite S in C.
  unfold sumZ. apply (Rmult_eq_reg_l (2 * sin (th / 2))); [|lra]. lra.
Qed.
(** Sums over one axis of even length. *)
Definition arg (n k x a : Z) : R := 2 * PI * (IZR (k * (x - a)) / IZR n).
Lemma axis_sum n k x : (1 <= n)%Z -> Z.even n = true -> (0 <= k < n)%Z ->
  sumZ n (fun a => sign (x - a) * cos (arg n k x a)) = (if (2 * k =? n)%Z then IZR n else 0) /\ sumZ n (fun a => sign (x - a) * sin (arg n k x a)) = 0.
Proof.
  intros Hn He Hk. assert (N0 : IZR n <> 0) by (apply not_0_IZR; lia). apply Z.even_spec in He. destruct He as [h Hh].
  destruct (Z.eqb_spec (2 * k) n) as [E|E].
  - assert (k = h) by lia. subst k.
    assert (A : forall a, arg n h x a = 0 + IZR (x - a) * PI) by (intros a; unfold arg; rewrite mult_IZR, Hh, mult_IZR; assert (IZR h <> 0) by (apply not_0_IZR; lia); field; assumption).
    split.
    + rewrite (sumZ_ext n _ (fun _ => 1)).
      * rewrite sumZ_const by lia. ring.
      * intros a _. rewrite A, (proj1 (trig_period _ _)), cos_0. unfold sign. destruct (Z.even (x - a)); ring.
    + rewrite (sumZ_ext n _ (fun _ => 0)).
      * rewrite sumZ_const by lia. ring.
      * intros a _. rewrite A, (proj2 (trig_period _ _)), sin_0. ring.
  - set (th := - (2 * PI * (IZR k / IZR n) + PI)).
    assert (Hs : sin (th / 2) <> 0).
    { intros S. pose proof PI_RGT_0 as P0. set (r := IZR k / IZR n). assert (R0 : 0 <= r < 1).
      { unfold r. split; [apply Rmult_le_pos; [apply IZR_le; lia|left; apply Rinv_0_lt_compat, IZR_lt; lia]|]. apply (Rmult_lt_reg_r (IZR n)); [apply IZR_lt; lia|]. unfold Rdiv. rewrite Rmult_assoc, Rinv_l, Rmult_1_l, Rmult_1_r by assumption. apply IZR_lt; lia. }
      replace (th / 2) with (- (r * PI + PI / 2)) in S by (unfold th, r; field; assumption). rewrite sin_neg in S. replace (r * PI + PI / 2) with (PI / 2 + r * PI) in S by ring.
      rewrite <- cos_sin in S. destruct (Rtotal_order r (1 / 2)) as [L|[L|L]].
      - assert (0 < cos (r * PI)) by (apply cos_gt_0; nra). lra.
      - unfold r in L. apply E. apply eq_IZR. rewrite mult_IZR. apply (f_equal (fun z => z * IZR n * 2)) in L. unfold Rdiv in L. rewrite Rmult_assoc in L. replace (IZR k * / IZR n * (IZR n * 2)) with (2 * IZR k) in L by (field; assumption). lra.
      - assert (cos (r * PI) < 0) by (apply cos_lt_0; nra). lra. }
    assert (Hm : IZR n * th = 2 * IZR (- (k + h)) * PI) by (unfold th; rewrite opp_IZR, plus_IZR, Hh, mult_IZR; assert (IZR h <> 0) by (apply not_0_IZR; lia); field; assumption).
    assert (A : forall a, arg n k x a + IZR (x - a) * PI = - (IZR x * th) + IZR a * th) by (intros a; unfold arg, th; rewrite mult_IZR, minus_IZR; field; assumption).
    split.
    + rewrite <- (cos_geo n (- (IZR x * th)) th (- (k + h)) ltac:(lia) Hs Hm). apply sumZ_ext. intros a _. rewrite <- A. symmetry. apply trig_period.
    + rewrite <- (cos_geo n (- (IZR x * th) - PI / 2) th (- (k + h)) ltac:(lia) Hs Hm). apply sumZ_ext. intros a _.
      replace (- (IZR x * th) - PI / 2 + IZR a * th) with (- (PI / 2 - (- (IZR x * th) + IZR a * th))) by ring. rewrite cos_neg, cos_shift, <- A. symmetry. apply trig_period.
Qed.
Lemma sumZ_mul n m f g : sum2 n m (fun i j => f i * g j) = sumZ n f * sumZ m g.
Proof.
  unfold sum2. transitivity (sumZ n (fun i => sumZ m g * f i)).
  - apply sumZ_ext. intros i _. rewrite sumZ_scal. ring.
  - rewrite sumZ_scal. ring.
Qed.
Lemma cos_phase h w u v I J a b : (1 <= h)%Z -> (1 <= w)%Z ->
  cos (phase h w u v (I - a) (J - b)) = cos (arg h u I a) * cos (arg w v J b) - sin (arg h u I a) * sin (arg w v J b).
Proof. intros Hh Hw. rewrite <- cos_plus. f_equal. unfold phase, arg. ring. Qed.
Lemma sum2_minus h w f g : sum2 h w (fun i j => f i j - g i j) = sum2 h w f - sum2 h w g.
Proof.
  rewrite (sum2_ext h w _ (fun i j => f i j + -1 * g i j)) by (intros; ring). rewrite sum2_plus, sum2_scal. ring.
Qed.
Lemma signed_sum h w u v I J : (1 <= h)%Z -> (1 <= w)%Z ->
  sum2 h w (fun a b => sign (I - a + (J - b)) * cos (phase h w u v (I - a) (J - b))) =
  sumZ h (fun a => sign (I - a) * cos (arg h u I a)) * sumZ w (fun b => sign (J - b) * cos (arg w v J b)) -
  sumZ h (fun a => sign (I - a) * sin (arg h u I a)) * sumZ w (fun b => sign (J - b) * sin (arg w v J b)).
Proof.
  intros Hh Hw. rewrite <- !sumZ_mul, <- sum2_minus. apply sum2_ext. intros a b _ _. rewrite cos_phase, <- sign_mul by assumption. ring.
Qed.
(** The sum of all weights of a pixel. *)
Lemma kernel_total h w sigma I J : (1 <= h)%Z -> (1 <= w)%Z ->
  sum2 h w (fun a b => kernel h w sigma (I - a) (J - b)) = / IZR (h * w) *
  sum2 h w (fun u v => gauss h w sigma u v *
    (sumZ h (fun a => sign (I - a) * cos (arg h u I a)) * sumZ w (fun b => sign (J - b) * cos (arg w v J b)) -
     sumZ h (fun a => sign (I - a) * sin (arg h u I a)) * sumZ w (fun b => sign (J - b) * sin (arg w v J b)))).
Proof.
  intros Hh Hw. transitivity (sum2 h w (fun a b => sum2 h w (fun u v => / IZR (h * w) * (gauss h w sigma u v * (sign (I - a + (J - b)) * cos (phase h w u v (I - a) (J - b))))))).
  - apply sum2_ext. intros a b _ _. unfold kernel. rewrite <- sum2_scal. apply sum2_ext. intros u v _ _. unfold Rdiv. ring.
  - rewrite sum2_swap, <- sum2_scal. apply sum2_ext. intros u v _ _. rewrite !sum2_scal, signed_sum by assumption. reflexivity.
Qed.
Lemma kernel_total_even h w sigma I J : (1 <= h)%Z -> (1 <= w)%Z -> Z.even h = true -> Z.even w = true -> sigma <> 0 ->
  sum2 h w (fun a b => kernel h w sigma (I - a) (J - b)) = exp (- 1 / (4 * sigma ^ 2)).
Proof.
  intros Hh Hw Eh Ew Hs. rewrite kernel_total by assumption.
  assert (H0 : IZR h <> 0) by (apply not_0_IZR; lia). assert (W0 : IZR w <> 0) by (apply not_0_IZR; lia).
  pose proof Eh as Eh'. pose proof Ew as Ew'. apply Z.even_spec in Eh'. apply Z.even_spec in Ew'. destruct Eh' as [h2 Eh2], Ew' as [w2 Ew2].
  unfold sum2. rewrite (sumZ_single h _ h2), (sumZ_single w _ w2); [|lia| |lia|].
  - destruct (axis_sum h h2 I Hh Eh ltac:(lia)) as [-> ->]. destruct (axis_sum w w2 J Hw Ew ltac:(lia)) as [-> ->].
    destruct (Z.eqb_spec (2 * h2) h); [|lia]. destruct (Z.eqb_spec (2 * w2) w); [|lia]. rewrite mult_IZR. unfold gauss.
    replace (IZR h2 - (IZR h - 1) / 2) with (1 / 2) by (rewrite Eh2, mult_IZR; field). replace (IZR w2 - (IZR w - 1) / 2) with (1 / 2) by (rewrite Ew2, mult_IZR; field).
    replace (- ((1 / 2) ^ 2 + (1 / 2) ^ 2) / (2 * sigma ^ 2)) with (- 1 / (4 * sigma ^ 2)) by (field; assumption). field. split; assumption.
  - intros v Hv Hne. destruct (axis_sum h h2 I Hh Eh ltac:(lia)) as [_ ->]. destruct (axis_sum w v J Hw Ew ltac:(lia)) as [-> _]. destruct (Z.eqb_spec (2 * v) w); [lia|]. ring.
  - intros u Hu Hne. destruct (axis_sum h u I Hh Eh ltac:(lia)) as [-> ->]. destruct (Z.eqb_spec (2 * u) h); [lia|].
    rewrite (sumZ_ext w _ (fun _ => 0)) by (intros; ring). rewrite sumZ_const by lia. ring.
Qed.
(** A uniform image with an even number of rows and of columns stays uniform,
    whatever the padding, and normalisation leaves it as it is. *)
Theorem C96_uniform : forall F G ext mat sigma pad c, is_dft F -> is_idft G -> pad_ok ext -> (1 <= ih mat)%Z -> (1 <= iw mat)%Z -> (0 <= pad)%Z -> sigma <> 0 ->
  Z.even (ih mat) = true -> Z.even (iw mat) = true -> (forall i j, in_img mat i j -> px mat i j = c) ->
  forall i j, in_img mat i j -> px (fft_filter F G ext mat sigma pad) i j = c * exp (- 1 / (4 * sigma ^ 2)).
Proof.
  intros F G ext mat sigma pad c HF HG PO Hh Hw Hp Hs Eh Ew Hc i j Hij. rewrite filter_px by assumption.
  rewrite (sum2_ext _ _ _ (fun a b => c * kernel (ih mat + 2 * pad) (iw mat + 2 * pad) sigma (i + pad - a) (j + pad - b))).
  - rewrite sum2_scal, kernel_total_even by (try assumption; try lia; rewrite Z.even_add, Z.even_mul, ?Eh, ?Ew; reflexivity). reflexivity.
  - intros a b Ha Hb. unfold pad_image. cbn [px]. rewrite Hc; [ring|]. split; apply PO; lia.
Qed.
Lemma mean_const (m : image R) c : (1 <= ih m)%Z -> (1 <= iw m)%Z -> (forall i j, in_img m i j -> px m i j = c) -> mean (pixels m) = c.
Proof.
  intros Hh Hw H. unfold mean. rewrite nsum_Rex. unfold pixels.
  assert (E : Rsum (map (fun p => px m (fst p) (snd p)) (grid (ih m) (iw m))) = IZR (Z.of_nat (length (map (fun p => px m (fst p) (snd p)) (grid (ih m) (iw m))))) * c).
  { assert (G : forall p, In p (grid (ih m) (iw m)) -> px m (fst p) (snd p) = c) by (intros [a b] Hp; apply in_grid in Hp; now apply H).
    induction (grid (ih m) (iw m)) as [|p l IH]; cbn [map Rsum length]; [cbn; ring|]. rewrite IH, Nat2Z.inj_succ, <- Z.add_1_l, plus_IZR, (G p) by (first [now left|intros q Hq; apply G; now right]). ring. }
  rewrite E. cbn [ndiv nofZ Rex Rnum]. field. apply not_0_IZR. intros Z0. assert (L : length (grid (ih m) (iw m)) = 0%nat) by (rewrite map_length in Z0; lia).
  apply length_zero_iff_nil in L. apply (in_nil (a := (0, 0)%Z)). rewrite <- L. apply in_grid. lia.
Qed.
Theorem C96_uniform_normalised : forall F G ext mat sigma pad c, is_dft F -> is_idft G -> pad_ok ext -> (1 <= ih mat)%Z -> (1 <= iw mat)%Z -> (0 <= pad)%Z -> sigma <> 0 -> c <> 0 ->
  Z.even (ih mat) = true -> Z.even (iw mat) = true -> (forall i j, in_img mat i j -> px mat i j = c) ->
  exists out, normalization_fft (fft_filter F G ext) mat sigma pad = Ok out /\ img_eq out mat.
Proof.
  intros F G ext mat sigma pad c HF HG PO Hh Hw Hp Hs C0 Eh Ew Hc. unfold normalization_fft, normalize_by, arr_muldiv. eexists. split; [reflexivity|].
  split; [reflexivity|]. split; [reflexivity|]. intros i j Hij. cbn [px]. unfold in_img in Hij. cbn [ih iw] in Hij.
  pose proof (C96_uniform F G ext mat sigma pad c HF HG PO Hh Hw Hp Hs Eh Ew Hc) as U. destruct (filter_shape F G ext mat sigma pad ltac:(lia) ltac:(lia) Hp) as [S1 S2].
  rewrite (mean_const _ (c * exp (- 1 / (4 * sigma ^ 2)))) by (try (unfold in_img; rewrite S1, S2; exact U); lia). rewrite U by exact Hij. cbn [nmul ndiv Rex Rnum].
  field. split; [|assumption]. apply Rgt_not_eq, exp_pos.
Qed.
(** Scaling the brightness of the image scales the result. *)
Theorem C96_scale : forall F G ext mat mat' sigma pad k out out', is_dft F -> is_idft G -> pad_ok ext -> (1 <= ih mat)%Z -> (1 <= iw mat)%Z -> (0 <= pad)%Z -> k <> 0 ->
  ih mat' = ih mat -> iw mat' = iw mat -> (forall i j, in_img mat i j -> px mat' i j = k * px mat i j) ->
  (forall i j, in_img mat i j -> px (fft_filter F G ext mat sigma pad) i j <> 0) ->
  normalization_fft (fft_filter F G ext) mat sigma pad = Ok out -> normalization_fft (fft_filter F G ext) mat' sigma pad = Ok out' ->
  ih out' = ih out /\ iw out' = iw out /\ forall i j, in_img mat i j -> px out' i j = k * px out i j.
Proof.
  intros F G ext mat mat' sigma pad k out out' HF HG PO Hh Hw Hp K0 E1 E2 E3 NZ Ho Ho'.
  unfold normalization_fft, normalize_by, arr_muldiv in Ho, Ho'. apply Ok_inj in Ho, Ho'. subst out out'. cbn [ih iw]. split; [assumption|]. split; [assumption|].
  destruct (filter_shape F G ext mat sigma pad ltac:(lia) ltac:(lia) Hp) as [S1 S2]. destruct (filter_shape F G ext mat' sigma pad ltac:(lia) ltac:(lia) Hp) as [S1' S2'].
  assert (B : forall i j, in_img mat i j -> px (fft_filter F G ext mat' sigma pad) i j = k * px (fft_filter F G ext mat sigma pad) i j).
  { intros i j Hij. assert (Hij' : in_img mat' i j) by (unfold in_img in *; lia).
    assert (E4 : forall a b, in_img mat' a b -> px mat' a b = k * px mat a b + 0 * px mat a b) by (intros a b Hab; rewrite E3; [ring|unfold in_img in *; lia]).
    pose proof (C96_linear F G ext mat mat k 0 mat' sigma pad HF HG PO ltac:(lia) ltac:(lia) Hp (eq_sym E1) (eq_sym E2) (eq_sym E1) (eq_sym E2) E4 i j Hij') as L. rewrite L. ring. }
  assert (M : mean (pixels (fft_filter F G ext mat' sigma pad)) = k * mean (pixels (fft_filter F G ext mat sigma pad))).
  { unfold mean. rewrite !nsum_Rex. unfold pixels. rewrite S1, S2, S1', S2', E1, E2. rewrite !map_length. cbn [ndiv nofZ Rex Rnum].
    rewrite (map_ext_in (fun p => px (fft_filter F G ext mat' sigma pad) (fst p) (snd p)) (fun p => k * px (fft_filter F G ext mat sigma pad) (fst p) (snd p))) by (intros [a b] Hab; apply in_grid in Hab; now apply B).
    assert (X : forall l : list (Z * Z), Rsum (map (fun p => k * px (fft_filter F G ext mat sigma pad) (fst p) (snd p)) l) = k * Rsum (map (fun p => px (fft_filter F G ext mat sigma pad) (fst p) (snd p)) l)).
    { induction l as [|p l IH]; cbn [map Rsum]; [ring|]. rewrite IH. ring. }
    rewrite X. unfold Rdiv. ring. }
  intros i j Hij. cbn [px]. rewrite M, E3, B by assumption. cbn [nmul ndiv Rex Rnum]. field. split; [now apply NZ|assumption].
Qed.
(** Not so with an odd number of columns: without padding a uniform image of 2
    rows and 3 columns comes out non-uniform. *)
Lemma cos3 : cos (2 * PI * (1 / 3)) = - (1 / 2) /\ cos (2 * PI * (2 / 3)) = - (1 / 2) /\ cos (2 * PI * (4 / 3)) = - (1 / 2).
Proof.
  assert (A : cos (2 * PI * (1 / 3)) = - (1 / 2)) by (replace (2 * PI * (1 / 3)) with (2 * (PI / 3)) by field; rewrite cos_2PI3; field).
  assert (B : cos (2 * PI * (2 / 3)) = - (1 / 2)) by (replace (2 * PI * (2 / 3)) with (2 * (2 * PI * (1 / 3))) by field; rewrite cos_2a_cos, A; field).
  split; [assumption|]. split; [assumption|]. replace (2 * PI * (4 / 3)) with (2 * (2 * PI * (2 / 3))) by field. rewrite cos_2a_cos, B. field.
Qed.
Lemma sumZ3 f : sumZ 3 f = f 0%Z + f 1%Z + f 2%Z.
Proof. change (sumZ 3 f) with (0 + f 0%Z + f 1%Z + f 2%Z). ring. Qed.
Lemma axis3 v J : (0 <= v < 3)%Z -> (0 <= J < 3)%Z ->
  sumZ 3 (fun b => sign (J - b) * cos (arg 3 v J b)) = if (J =? 1)%Z then (if (v =? 0)%Z then -1 else 2) else 1.
Proof.
  intros Hv HJ. rewrite sumZ3. unfold arg. destruct cos3 as (C1 & C2 & C4).
  assert (M1 : cos (2 * PI * (-1 / 3)) = - (1 / 2)) by (rewrite <- C1, <- cos_neg; f_equal; field).
  assert (M2 : cos (2 * PI * (-2 / 3)) = - (1 / 2)) by (rewrite <- C2, <- cos_neg; f_equal; field).
  assert (M4 : cos (2 * PI * (-4 / 3)) = - (1 / 2)) by (rewrite <- C4, <- cos_neg; f_equal; field).
  assert (Z0 : cos (2 * PI * (0 / 3)) = 1) by (replace (2 * PI * (0 / 3)) with 0 by field; apply cos_0).
  assert (Dv : v = 0%Z \/ v = 1%Z \/ v = 2%Z) by lia. assert (DJ : J = 0%Z \/ J = 1%Z \/ J = 2%Z) by lia.
  destruct Dv as [->|[->| ->]], DJ as [->|[->| ->]]; cbn [Z.mul Z.sub Z.add Z.opp Z.pos_sub Pos.mul Pos.add Pos.pred_double Z.eqb Pos.eqb Z.double Z.succ_double Z.pred_double];
    change (sign 0) with 1; change (sign 1) with (-1); change (sign (-1)) with (-1); change (sign 2) with 1; change (sign (-2)) with 1;
    rewrite ?C1, ?C2, ?C4, ?M1, ?M2, ?M4, ?Z0; lra.
Qed.
Lemma total_odd sigma I J : sigma <> 0 -> (0 <= J < 3)%Z -> let g := exp (- (1 / 8) / sigma ^ 2) in let e := exp (- (1 / 2) / sigma ^ 2) in
  sum2 2 3 (fun a b => kernel 2 3 sigma (I - a) (J - b)) = g * (if (J =? 1)%Z then (2 + e) / 3 else (1 + 2 * e) / 3).
Proof.
  intros Hs HJ g e. rewrite kernel_total by lia. unfold sum2. rewrite (sumZ_single 2 _ 1); [|lia|].
  - destruct (axis_sum 2 1 I ltac:(lia) eq_refl ltac:(lia)) as [-> ->]. change (2 * 1 =? 2)%Z with true. cbv iota.
    rewrite (sumZ3 (fun j => gauss 2 3 sigma 1 j * _)). rewrite !axis3 by lia.
    assert (G0 : gauss 2 3 sigma 1 0 = g * e) by (unfold gauss, g, e; rewrite <- exp_plus; f_equal; field; assumption).
    assert (G1 : gauss 2 3 sigma 1 1 = g) by (unfold gauss, g; f_equal; field; assumption).
    assert (G2 : gauss 2 3 sigma 1 2 = g * e) by (unfold gauss, g, e; rewrite <- exp_plus; f_equal; field; assumption).
    rewrite G0, G1, G2. change (2 * 3)%Z with 6%Z. change (0 =? 0)%Z with true. change (1 =? 0)%Z with false. change (2 =? 0)%Z with false. cbv iota. destruct (J =? 1)%Z; field.
  - intros u Hu Hne. destruct (axis_sum 2 u I ltac:(lia) eq_refl ltac:(lia)) as [-> ->]. destruct (Z.eqb_spec (2 * u) 2); [lia|].
    rewrite (sumZ_ext 3 _ (fun _ => 0)) by (intros; ring). rewrite sumZ_const by lia. ring.
Qed.
Theorem C96_odd_refuted : forall F G ext sigma c, is_dft F -> is_idft G -> pad_ok ext -> sigma <> 0 -> c <> 0 ->
  let mat := mkimg 2 3 (fun _ _ => c) in
  exists out, normalization_fft (fft_filter F G ext) mat sigma 0 = Ok out /\ px out 0 0 <> px out 0 1.
Proof.
  intros F G ext sigma c HF HG PO Hs C0 mat. unfold normalization_fft, normalize_by, arr_muldiv. eexists. split; [reflexivity|]. cbn [px].
  set (g := exp (- (1 / 8) / sigma ^ 2)). set (e := exp (- (1 / 2) / sigma ^ 2)).
  assert (U : forall i j, (0 <= i < 2)%Z -> (0 <= j < 3)%Z -> px (fft_filter F G ext mat sigma 0) i j = c * (g * (if (j =? 1)%Z then (2 + e) / 3 else (1 + 2 * e) / 3))).
  { intros i j Hi Hj. rewrite filter_px by (try assumption; cbn; try lia; split; cbn; assumption). cbn [mat ih iw]. change (2 + 2 * 0)%Z with 2%Z. change (3 + 2 * 0)%Z with 3%Z.
    rewrite (sum2_ext 2 3 _ (fun a b => c * kernel 2 3 sigma (i - a) (j - b))).
    - rewrite sum2_scal, total_odd by assumption. reflexivity.
    - intros a b Ha Hb. rewrite !Z.add_0_r. unfold pad_image. cbn [px mat]. ring. }
  destruct (filter_shape F G ext mat sigma 0 ltac:(cbn; lia) ltac:(cbn; lia) ltac:(lia)) as [S1 S2]. cbn [mat ih iw] in S1, S2.
  assert (g0 : 0 < g) by apply exp_pos. assert (e0 : 0 < e) by apply exp_pos. assert (e1 : e < 1).
  { unfold e. apply Rlt_le_trans with (exp 0); [|rewrite exp_0; lra]. apply exp_increasing. assert (0 < sigma ^ 2) by (rewrite <- Rsqr_pow2; now apply Rsqr_pos_lt). assert (0 < / sigma ^ 2) by now apply Rinv_0_lt_compat. change (- (1 / 2) * / sigma ^ 2 < 0). lra. }
  assert (M : exists m, mean (pixels (fft_filter F G ext mat sigma 0)) = c * m /\ 0 < m).
  { exists (g * (2 * ((2 + e) / 3) + 4 * ((1 + 2 * e) / 3)) / 6). split; [|apply Rmult_lt_0_compat; [nra|lra]].
    unfold mean. rewrite nsum_Rex. unfold pixels. rewrite S1, S2. change (grid 2 3) with [(0, 0); (0, 1); (0, 2); (1, 0); (1, 1); (1, 2)]%Z. cbn [map fst snd length Rsum].
    rewrite !U by lia. cbn [Z.eqb Pos.eqb ndiv nofZ Rex Rnum Z.of_nat Pos.of_succ_nat Pos.succ]. field. }
  destruct M as [m [-> m0]]. rewrite !U by lia. cbn [Z.eqb Pos.eqb px mat nmul ndiv Rex Rnum]. intros E.
  assert (A1 : 0 < g * ((1 + 2 * e) / 3)) by (apply Rmult_lt_0_compat; lra). assert (A2 : 0 < g * ((2 + e) / 3)) by (apply Rmult_lt_0_compat; lra).
  assert (X : forall y, 0 < y -> c * m * c / (c * y) = m * c * / y) by (intros y Hy; field; split; lra).
  rewrite !X in E by assumption. apply Rmult_eq_reg_l in E; [|apply Rmult_integral_contrapositive_currified; [lra|assumption]].
  apply (f_equal Rinv) in E. rewrite !Rinv_inv in E. apply Rmult_eq_reg_l in E; lra.
Qed.
(** The transforms exist, and the padding modes qualify. *)
Definition dft (m : image (R * R)) : image (R * R) := mkimg (ih m) (iw m) (fun u v =>
  (sum2 (ih m) (iw m) (fun a b => fst (px m a b) * cos (phase (ih m) (iw m) u v a b) + snd (px m a b) * sin (phase (ih m) (iw m) u v a b)),
   sum2 (ih m) (iw m) (fun a b => snd (px m a b) * cos (phase (ih m) (iw m) u v a b) - fst (px m a b) * sin (phase (ih m) (iw m) u v a b)))).
Definition idft (m : image (R * R)) : image (R * R) := mkimg (ih m) (iw m) (fun a b =>
  (sum2 (ih m) (iw m) (fun u v => fst (px m u v) * cos (phase (ih m) (iw m) u v a b) - snd (px m u v) * sin (phase (ih m) (iw m) u v a b)) / IZR (ih m * iw m),
   sum2 (ih m) (iw m) (fun u v => snd (px m u v) * cos (phase (ih m) (iw m) u v a b) + fst (px m u v) * sin (phase (ih m) (iw m) u v a b)) / IZR (ih m * iw m))).
Lemma dft_ok : is_dft dft /\ is_idft idft.
Proof. split; intros m; repeat split. Qed.
Lemma pad_reflect_ok : pad_ok pad_reflect.
Proof.
  intros n i Hn. unfold pad_reflect. destruct (Z.leb_spec n 1); [lia|]. pose proof (Z.mod_pos_bound i (2 * (n - 1)) ltac:(lia)) as B.
  split; [destruct (Z.ltb_spec (i mod (2 * (n - 1))) n); lia|]. intros Hi. destruct (Z.eq_dec n 2) as [->|].
  - change (2 * (2 - 1))%Z with 2%Z. rewrite Z.mod_small by lia. destruct (Z.ltb_spec i 2); lia.
  - rewrite Z.mod_small by lia. destruct (Z.ltb_spec i n); lia.
Qed.
Lemma pad_edge_ok : pad_ok pad_edge.
Proof. intros n i Hn. unfold pad_edge. lia. Qed.
Example C96_ex : forall c, c <> 0 -> let mat := mkimg 480 640 (fun _ _ => c) in
  (exists out, normalization_fft (fft_filter dft idft pad_reflect) mat 10 100 = Ok out /\ img_eq out mat) /\
  (exists out, normalization_fft (fft_filter dft idft pad_reflect) (mkimg 2 3 (fun _ _ => c)) 10 0 = Ok out /\ px out 0 0 <> px out 0 1) /\
  alike (fun m => fft_filter dft idft pad_reflect m 5 100) /\
  px (fft_filter dft idft pad_reflect mat 10 100) 7 9 = c * exp (- 1 / (4 * 10 ^ 2)).
Proof.
  intros c C0 mat. destruct dft_ok as [D1 D2]. split; [|split; [|split]].
  - apply (C96_uniform_normalised dft idft pad_reflect mat 10 100 c D1 D2 pad_reflect_ok); [cbn; lia|cbn; lia|lia|lra|assumption|reflexivity|reflexivity|reflexivity].
  - apply (C96_odd_refuted dft idft pad_reflect 10 c D1 D2 pad_reflect_ok); [lra|assumption].
  - apply C96_alike; [assumption|assumption|apply pad_reflect_ok|lia].
  - apply (C96_uniform dft idft pad_reflect mat 10 100 c D1 D2 pad_reflect_ok); [cbn; lia|cbn; lia|lia|lra|reflexivity|reflexivity|reflexivity|split; cbn; lia].
Qed.
Print Assumptions C96_weighted_sum.
Print Assumptions C96_linear.
Print Assumptions C96_alike.
Print Assumptions C96_uniform.
Print Assumptions C96_uniform_normalised.
Print Assumptions C96_scale.
Print Assumptions C96_odd_refuted.
(** Both padding modes qualify. *)
Example C96_modes : pad_ok pad_reflect /\ pad_ok pad_edge.
Proof. split; [exact pad_reflect_ok|exact pad_edge_ok]. Qed.
(** The window has the shape of the image it multiplies, is the centred
    Gaussian there and looks the same from both ends. *)
Theorem C96_window : forall h w sigma, let win := @make_window R Rex exp h w sigma in
  ih win = h /\ iw win = w /\
  (forall u v, px win u v = gauss h w sigma u v) /\
  (forall u v, px win (h - 1 - u) (w - 1 - v) = px win u v) /\
  (forall u v, 0 < px win u v <= 1).
Proof.
  intros h w sigma win. split; [reflexivity|]. split; [reflexivity|]. split; [intros u v; apply window_gauss|]. split.
  - intros u v. unfold win. rewrite !window_gauss. unfold gauss. rewrite !minus_IZR. f_equal. unfold Rdiv. f_equal. field.
  - intros u v. unfold win. rewrite window_gauss. unfold gauss. split; [apply exp_pos|]. rewrite <- exp_0. set (a := (_ ^ 2 + _ ^ 2)).
    assert (Ha : 0 <= a) by (unfold a; apply Rplus_le_le_0_compat; apply pow2_ge_0). destruct (Req_dec sigma 0) as [-> | Hs].
    + assert (Z0 : 2 * 0 ^ 2 = 0) by (cbn; lra). unfold Rdiv. rewrite Z0, Rinv_0, Rmult_0_r. apply Rle_refl.
    + assert (B : - a / (2 * sigma ^ 2) <= 0).
      { assert (0 < 2 * sigma ^ 2) by nra. unfold Rdiv. assert (0 < / (2 * sigma ^ 2)) by now apply Rinv_0_lt_compat. nra. }
      destruct B as [B | ->]; [left; now apply exp_increasing|lra].
Qed.
Print Assumptions C96_window.
Example C96_window_ex : px (@make_window R Rex exp 3 5 2) 1 2 = 1 /\ px (@make_window R Rex exp 3 5 2) 1 0 = exp (- (1 / 2)).
Proof.
  destruct (C96_window 3 5 2) as [_ [_ [G _]]]. rewrite !G. unfold gauss. split; [transitivity (exp 0); [|exact exp_0]|]; apply f_equal; field.
Qed.
