(** Proofs about residuals, the distortion check and perspective lines. *)
From Coq Require Import Reals ZArith List Lra Lia Permutation Sorted.
From Flocq Require Import Core Relative.
From Verif Require Import Base Num Img Spec Lsq Sorting Post NumFacts PostLines.
Local Open Scope R_scope.

(** What np.polyfit(xs, ys, 1) guarantees. *)
Definition polyfit1_spec (polyfit1 : list R -> list R -> R * R) : Prop :=
  forall xs ys, length xs = length ys -> xs <> [] ->
    polyfit_spec 1 xs ys [fst (polyfit1 xs ys); snd (polyfit1 xs ys)].

Lemma dot_row1 x a b : dot (pow_row 1 x) [a; b] = a * x + b.
Proof. cbn. ring. Qed.

Lemma sqerr1 xs ys a b :
  sqerr (map (pow_row 1) xs) ys [a; b] =
  Rsum (map (fun xy => (a * fst xy + b - snd xy) ^ 2) (combine xs ys)).
Proof.
  unfold sqerr. f_equal. revert ys. induction xs as [|x xs IH]; intros [|y ys]; try reflexivity.
  cbn [map combine fst snd]. f_equal; [rewrite dot_row1; reflexivity|apply IH].
Qed.

(** Translation of the data translates the fit. *)
Lemma polyfit1_shift ln xc yc a b :
  polyfit_spec 1 (map (fun p : pt => snd p - xc) ln) (map (fun p : pt => fst p - yc) ln) [a; b] ->
  polyfit_spec 1 (map pxc ln) (map py ln) [a; b + yc - a * xc].
Proof.
  intros [_ H]. split; [reflexivity|]. intros v' Hv'.
  destruct v' as [|a' [|b' [|? ?]]]; cbn in Hv'; try lia.
  specialize (H [a'; b' - yc + a' * xc] eq_refl).
  rewrite !sqerr1 in *.
  assert (E : forall a b, Rsum (map (fun xy => (a * fst xy + b - snd xy) ^ 2)
             (combine (map (fun p : pt => snd p - xc) ln) (map (fun p : pt => fst p - yc) ln))) =
           Rsum (map (fun xy => (a * fst xy + (b + yc - a * xc) - snd xy) ^ 2)
             (combine (map pxc ln) (map py ln)))).
  { clear. intros a b. induction ln as [|[y x] ln IH]; [reflexivity|].
    cbn [map combine Rsum fst snd]. rewrite IH. unfold pxc, py. cbn [fst snd]. f_equal. ring. }
  rewrite !E in H. replace (b' - yc + a' * xc + yc - a' * xc) with b' in H by ring. exact H.
Qed.

Definition line_resid (yc xc : R) (lab : list pt * (R * R)) : list (R * R) :=
  map (fun p => (dist p (yc, xc), line_dist (fst (snd lab)) (snd (snd lab)) (pxc p) (py p)))
      (fst lab).

Lemma residual_line_hor_ok polyfit1 xc yc ln : polyfit1_spec polyfit1 -> ln <> [] ->
  exists ab, polyfit_spec 1 (map pxc ln) (map py ln) [fst ab; snd ab] /\
    @residual_line_hor R Rex polyfit1 xc yc ln = Ok (line_resid yc xc (ln, ab)).
Proof.
  intros Hp Hne.
  pose proof (Hp (map (fun p : pt => snd p - xc) ln) (map (fun p : pt => fst p - yc) ln)
                ltac:(now rewrite !map_length) ltac:(destruct ln; [congruence|discriminate])) as Hfit.
  assert (E : @residual_line_hor R Rex polyfit1 xc yc ln =
    let '(a, b) := polyfit1 (map (fun p : pt => snd p - xc) ln) (map (fun p : pt => fst p - yc) ln) in
    Ok (line_resid yc xc (ln, (a, b + yc - a * xc)))).
  { unfold residual_line_hor. destruct ln as [|p0 ln0]; [congruence|].
    unnum. destruct (polyfit1 _ _) as [a b]. f_equal. clear.
    unfold line_resid. cbn [fst snd]. generalize (p0 :: ln0). intros ln.
    induction ln as [|[y x] ln IH]; [reflexivity|].
    cbn [map combine fst snd] in *. rewrite IH. f_equal. f_equal.
    - unpt. f_equal. ring.
    - unfold line_dist. unpt. f_equal; [f_equal; ring|f_equal; ring]. }
  destruct (polyfit1 _ _) as [a b].
  cbn [fst snd] in Hfit. apply polyfit1_shift in Hfit.
  exists (a, b + yc - a * xc). split; [exact Hfit|exact E].
Qed.

Lemma mapM_Ok_Forall2 {A B} (f : A -> res B) l bs :
  mapM f l = Ok bs <-> Forall2 (fun a b => f a = Ok b) l bs.
Proof.
  revert bs. induction l as [|a l IH]; intros bs; cbn.
  - split; [intros [= <-]; constructor|now inversion 1].
  - split.
    + destruct (f a) as [b|e] eqn:E; [|discriminate]. cbn.
      destruct (mapM f l) as [bs'|e] eqn:E'; [|discriminate]. cbn. intros [= <-].
      constructor; [assumption|]. now apply IH.
    + inversion 1 as [|? b ? bs' Hb HF]; subst. rewrite Hb. cbn.
      apply IH in HF. rewrite HF. reflexivity.
Qed.

Lemma map_nth_seq {A} (l : list A) d : map (fun k => nth k l d) (seq 0 (length l)) = l.
Proof.
  induction l as [|a l IH]; [reflexivity|]. cbn [length seq map nth]. f_equal.
  rewrite <- seq_shift, map_map. exact IH.
Qed.

Lemma sort_residuals_ok argsort data out : argsort_spec argsort ->
  @sort_residuals R Rex argsort data = Ok out ->
  Permutation out data /\ StronglySorted (fun a b => fst a <= fst b) out.
Proof.
  intros Ha H.
  assert (H' : out = map (fun k => nth k data (0, 0)) (argsort (map fst data))).
  { destruct data; cbn in H; [discriminate|]. injection H as <-. reflexivity. }
  clear H. subst out.
  destruct (Ha (map fst data)) as [Hperm Hs]. rewrite map_length in Hperm. split.
  - eapply Permutation_trans; [apply Permutation_map; exact Hperm|].
    rewrite (map_nth_seq data). apply Permutation_refl.
  - apply StronglySorted_map.
    assert (E : forall k, fst (nth k data (0, 0)) = nth k (map fst data) 0).
    { intros k. now rewrite <- (map_nth fst). }
    revert Hs. generalize (argsort (map fst data)). intros ks.
    induction ks as [|k ks IH]; intros Hs; [constructor|].
    cbn [map] in Hs. inversion Hs as [|? ? Hs' HF]; subst. constructor; [auto|].
    rewrite Forall_forall in *. intros j Hj. rewrite !E. apply HF.
    apply in_map_iff. eauto.
Qed.

Lemma residual_hor_spec polyfit1 argsort lines xc yc data :
  polyfit1_spec polyfit1 -> argsort_spec argsort ->
  @calc_residual_hor R Rex polyfit1 argsort lines xc yc = Ok data ->
  exists fits,
    Forall2 (fun ln ab => ln <> [] /\ polyfit_spec 1 (map pxc ln) (map py ln) [fst ab; snd ab])
      lines fits /\
    Permutation data (concat (map (line_resid yc xc) (combine lines fits))) /\
    StronglySorted (fun a b => fst a <= fst b) data.
Proof.
  intros Hp Ha. unfold calc_residual_hor.
  destruct (mapM _ lines) as [ll|e] eqn:E; [|discriminate]. cbn [bind]. intros Hs.
  apply mapM_Ok_Forall2 in E.
  apply (sort_residuals_ok argsort) in Hs; [|assumption]. destruct Hs as [Hperm Hsort].
  assert (Hfits : exists fits,
    Forall2 (fun ln ab => ln <> [] /\ polyfit_spec 1 (map pxc ln) (map py ln) [fst ab; snd ab])
      lines fits /\ ll = map (line_resid yc xc) (combine lines fits)).
  { clear -E Hp. induction E as [|ln r lines ll Hr E IH].
    - exists []. split; constructor.
    - destruct IH as [fits [HF ->]].
      assert (Hne : ln <> []) by (intros ->; discriminate).
      destruct (residual_line_hor_ok polyfit1 xc yc ln Hp Hne) as [ab [Hab Eab]].
      rewrite Eab in Hr. injection Hr as <-.
      exists (ab :: fits). split; [constructor; auto|reflexivity]. }
  destruct Hfits as [fits [HF ->]]. exists fits. auto.
Qed.

Lemma residual_hor_total polyfit1 argsort lines xc yc rnd :
  (lines <> [] /\ Forall (fun ln => ln <> []) lines <->
   exists data, @calc_residual_hor R (Rnum rnd) polyfit1 argsort lines xc yc = Ok data).
Proof.
  unfold calc_residual_hor. split.
  - intros [Hne HF].
    assert (E : exists ll, mapM (@residual_line_hor R (Rnum rnd) polyfit1 xc yc) lines = Ok ll /\
       Forall (fun r => r <> []) ll /\ length ll = length lines).
    { clear Hne. induction HF as [|ln lines Hl HF IH]; [exists []; repeat split; constructor|].
      destruct IH as [ll [E [Hll Hlen]]].
      assert (Er : exists r, @residual_line_hor R (Rnum rnd) polyfit1 xc yc ln = Ok r /\ r <> []).
      { unfold residual_line_hor. destruct ln as [|p ln]; [congruence|].
        destruct (polyfit1 _ _) as [a b]. eexists. split; [reflexivity|].
        cbn. discriminate. }
      destruct Er as [r [Er Hr]]. exists (r :: ll). cbn. rewrite Er. cbn. rewrite E. cbn.
      repeat split; [constructor; assumption|lia]. }
    destruct E as [ll [E [Hll Hlen]]]. rewrite E. cbn [bind].
    destruct ll as [|r ll]; [destruct lines; [congruence|discriminate]|].
    inversion Hll as [|? ? Hr _]; subst. destruct r as [|d r]; [congruence|].
    cbn. eexists. reflexivity.
  - intros [data H]. destruct (mapM _ lines) as [ll|e] eqn:E; [|discriminate].
    apply mapM_Ok_Forall2 in E. split.
    + intros ->. inversion E; subst. discriminate H.
    + clear H. induction E as [|ln r lines ll Hr E IH]; constructor; [|assumption].
      intros ->. discriminate.
Qed.

Lemma line_dist_pos a b u v : 0 <= line_dist a b u v.
Proof.
  unfold line_dist. apply Rmult_le_pos; [apply Rabs_pos|].
  left. apply Rinv_0_lt_compat. apply sqrt_lt_R0. nra.
Qed.

(** line_dist is the Euclidean distance from (u, v) to the line. *)
Lemma line_dist_is_distance a b u v :
  (forall s, line_dist a b u v <= sqrt ((u - s) * (u - s) + (v - (a * s + b)) * (v - (a * s + b)))) /\
  (exists s, line_dist a b u v = sqrt ((u - s) * (u - s) + (v - (a * s + b)) * (v - (a * s + b)))).
Proof.
  assert (Ha : 0 < a * a + 1) by nra.
  assert (E : line_dist a b u v = sqrt ((a * u - v + b) * (a * u - v + b) / (a * a + 1))).
  { unfold line_dist. rewrite sqrt_div_alt by assumption.
    f_equal. symmetry. apply sqrt_Rsqr_abs. }
  split.
  - intros s. rewrite E. apply sqrt_le_1_alt.
    apply Rmult_le_reg_r with (a * a + 1); [assumption|].
    replace ((a * u - v + b) * (a * u - v + b) / (a * a + 1) * (a * a + 1))
      with ((a * u - v + b) * (a * u - v + b)) by (field; lra).
    set (h := v - (a * s + b)). set (k := u - s).
    replace (a * u - v + b) with (a * k - h) by (unfold h, k; ring).
    pose proof (Rle_0_sqr (a * h + k)) as Hs. unfold Rsqr in Hs. nra.
  - exists ((u + a * (v - b)) / (a * a + 1)). rewrite E. f_equal. field. lra.
Qed.

Lemma in_combine_line_resid yc xc lines fits d :
  In d (concat (map (line_resid yc xc) (combine lines fits))) ->
  exists ln ab p, In (ln, ab) (combine lines fits) /\ In p ln /\
    d = (dist p (yc, xc), line_dist (fst ab) (snd ab) (pxc p) (py p)).
Proof.
  intros H. apply in_concat in H. destruct H as [l [Hl Hd]].
  apply in_map_iff in Hl. destruct Hl as [[ln ab] [<- Hin]].
  unfold line_resid in Hd. cbn [fst snd] in Hd. apply in_map_iff in Hd.
  destruct Hd as [p [<- Hp]]. exists ln, ab, p. auto.
Qed.

Lemma Forall2_combine_in {A B} (P : A -> B -> Prop) l1 l2 a b :
  Forall2 P l1 l2 -> In (a, b) (combine l1 l2) -> P a b /\ In a l1.
Proof.
  induction 1 as [|x y l1 l2 Hxy H IH]; cbn; [tauto|].
  intros [[= <- <-]|Hin]; [auto|]. apply IH in Hin. tauto.
Qed.

Lemma residual_hor_nonneg polyfit1 argsort lines xc yc data :
  polyfit1_spec polyfit1 -> argsort_spec argsort ->
  @calc_residual_hor R Rex polyfit1 argsort lines xc yc = Ok data ->
  Forall (fun d => 0 <= fst d /\ 0 <= snd d) data /\ length data = length (concat lines).
Proof.
  intros Hp Ha H. destruct (residual_hor_spec _ _ _ _ _ _ Hp Ha H) as [fits [HF [Hperm _]]].
  split.
  - rewrite Forall_forall. intros d Hd. apply (Permutation_in _ Hperm) in Hd.
    apply in_combine_line_resid in Hd. destruct Hd as [ln [ab [p [_ [_ ->]]]]].
    split; [apply dist_pos|apply line_dist_pos].
  - rewrite (Permutation_length Hperm). clear -HF.
    induction HF as [|ln ab lines fits _ HF IH]; [reflexivity|].
    cbn [combine map concat]. rewrite !app_length, IH. unfold line_resid at 1.
    now rewrite map_length.
Qed.

Lemma residual_hor_collinear polyfit1 argsort lines xc yc data :
  polyfit1_spec polyfit1 -> argsort_spec argsort ->
  @calc_residual_hor R Rex polyfit1 argsort lines xc yc = Ok data ->
  Forall (fun ln => exists al be, Forall (fun p => py p = al * pxc p + be) ln) lines ->
  Forall (fun d => snd d = 0) data.
Proof.
  intros Hp Ha H Hc. destruct (residual_hor_spec _ _ _ _ _ _ Hp Ha H) as [fits [HF [Hperm _]]].
  rewrite Forall_forall. intros d Hd. apply (Permutation_in _ Hperm) in Hd.
  apply in_combine_line_resid in Hd. destruct Hd as [ln [ab [p [Hin [Hpin ->]]]]].
  destruct (Forall2_combine_in _ _ _ _ _ HF Hin) as [[Hne Hfit] Hl].
  rewrite Forall_forall in Hc. destruct (Hc ln Hl) as [al [be Hln]].
  cbn [snd]. unfold line_dist.
  assert (Hex : Forall2 (fun r y => dot r [fst ab; snd ab] = y) (map (pow_row 1) (map pxc ln)) (map py ln)).
  { apply (lsq_exact 2 _ _ _ [al; be]); [now rewrite !map_length|assumption|reflexivity|].
    clear -Hln. induction Hln as [|q ln Hq Hln IH]; cbn [map]; constructor; [|assumption].
    rewrite dot_row1. lra. }
  assert (Hpt : fst ab * pxc p + snd ab = py p).
  { clear -Hex Hpin. induction ln as [|q ln IH]; [destruct Hpin|].
    cbn [map] in Hex. inversion Hex as [|? ? ? ? Hq Hr]. clear Hex.
    destruct Hpin as [->|Hpin]; [|now apply IH].
    rewrite <- Hq. symmetry. apply dot_row1. }
  replace (fst ab * pxc p - py p + snd ab) with 0 by lra.
  rewrite Rabs_R0. unfold Rdiv. ring.
Qed.

Lemma polyfit1_unique xs ys a b a' b' : length xs = length ys ->
  polyfit_spec 1 xs ys [a; b] -> polyfit_spec 1 xs ys [a'; b'] ->
  (exists u v, In u xs /\ In v xs /\ u <> v) -> a = a' /\ b = b'.
Proof.
  intros Hl H H' [u [v [Hu [Hv Huv]]]].
  assert (Hq : forall x, In x xs -> a * x + b = a' * x + b').
  { intros x Hx. rewrite <- !dot_row1.
    apply (lsq_fitted_unique 2 (map (pow_row 1) xs) ys); try assumption.
    - now rewrite map_length.
    - now apply in_map. }
  pose proof (Hq u Hu) as E1. pose proof (Hq v Hv) as E2.
  assert ((a - a') * (u - v) = 0) by lra.
  apply Rmult_integral in H0. destruct H0 as [H0|H0]; [|lra].
  split; [lra|]. assert (a = a') by lra. subst a'. lra.
Qed.

Lemma residual_hor_center polyfit1 argsort lines xc yc xc' yc' data data' :
  polyfit1_spec polyfit1 -> argsort_spec argsort ->
  Forall (fun ln => exists p q, In p ln /\ In q ln /\ pxc p <> pxc q) lines ->
  @calc_residual_hor R Rex polyfit1 argsort lines xc yc = Ok data ->
  @calc_residual_hor R Rex polyfit1 argsort lines xc' yc' = Ok data' ->
  Permutation (map snd data) (map snd data').
Proof.
  intros Hp Ha Hd H H'.
  destruct (residual_hor_spec _ _ _ _ _ _ Hp Ha H) as [fits [HF [Hperm _]]].
  destruct (residual_hor_spec _ _ _ _ _ _ Hp Ha H') as [fits' [HF' [Hperm' _]]].
  eapply Permutation_trans; [apply Permutation_map, Hperm|].
  eapply Permutation_trans; [|apply Permutation_sym, Permutation_map, Hperm'].
  enough (E : map snd (concat (map (line_resid yc xc) (combine lines fits))) =
              map snd (concat (map (line_resid yc' xc') (combine lines fits'))))
    by exact (eq_ind _ (fun l => Permutation _ l) (Permutation_refl _) _ E).
  clear -HF HF' Hd. revert fits' HF'.
  induction HF as [|ln ab lines fits [Hne Hab] HF IH]; intros fits' HF'.
  - inversion HF'; subst. reflexivity.
  - inversion HF' as [|? ab' ? fits'' [_ Hab'] HF'']; subst.
    inversion Hd as [|? ? Hln Hd']; subst.
    cbn [combine map concat]. rewrite !map_app. f_equal; [|now apply IH].
    assert (E : fst ab = fst ab' /\ snd ab = snd ab').
    { apply (polyfit1_unique (map pxc ln) (map py ln)); try assumption.
      - now rewrite !map_length.
      - destruct Hln as [p [q [Hpi [Hqi Hpq]]]]. exists (pxc p), (pxc q).
        repeat split; try assumption; now apply in_map. }
    destruct E as [E1 E2]. unfold line_resid. cbn [fst snd]. rewrite !map_map. cbn [snd].
    now rewrite E1, E2.
Qed.

Lemma combine_swap {A B} (xs : list A) (ys : list B) :
  combine xs ys = map (fun p => (snd p, fst p)) (combine ys xs).
Proof.
  revert ys; induction xs as [|x xs IH]; intros [|y ys]; try reflexivity.
  cbn. now rewrite IH.
Qed.

(** ver = hor with x and y exchanged, for every rounding. *)
Lemma residual_line_ver_hor rnd polyfit1 xc yc (ln : list pt) :
  @residual_line_ver R (Rnum rnd) polyfit1 xc yc ln =
  @residual_line_hor R (Rnum rnd) polyfit1 yc xc (map swap ln).
Proof.
  set (X := map (fun p : pt => rnd (snd p - xc)) ln).
  set (Y := map (fun p : pt => rnd (fst p - yc)) ln).
  set (rad := fun xy : R * R => rnd (sqrt (rnd (rnd (fst xy ^ 2) + rnd (snd xy ^ 2))))).
  set (dst := fun a b (uv : R * R) =>
     rnd (Rabs (rnd (rnd (rnd (a * fst uv) - snd uv) + b)) / rnd (sqrt (rnd (rnd (a ^ 2) + 1))))).
  assert (E1 : @residual_line_ver R (Rnum rnd) polyfit1 xc yc ln =
    match ln with [] => Err TypeError | _ =>
      let '(a, b) := polyfit1 Y X in
      Ok (combine (map rad (combine X Y)) (map (fun xy => dst a b (snd xy, fst xy)) (combine X Y))) end)
    by (destruct ln; reflexivity).
  assert (E2 : @residual_line_hor R (Rnum rnd) polyfit1 yc xc (map swap ln) =
    match ln with [] => Err TypeError | _ =>
      let '(a, b) := polyfit1 Y X in
      Ok (combine (map rad (combine Y X)) (map (dst a b) (combine Y X))) end).
  { assert (EX : map (fun p : pt => rnd (fst p - xc)) (map swap ln) = X) by (now rewrite map_map).
    assert (EY : map (fun p : pt => rnd (snd p - yc)) (map swap ln) = Y) by (now rewrite map_map).
    rewrite <- EX, <- EY. destruct ln; reflexivity. }
  rewrite E1, E2. destruct ln as [|p ln]; [reflexivity|].
  destruct (polyfit1 Y X) as [a b]. f_equal.
  rewrite !(combine_swap X Y), !map_map. f_equal.
  apply map_ext. intros [y x]. unfold rad. cbn [fst snd]. f_equal. f_equal. f_equal. apply Rplus_comm.
Qed.
Lemma residual_ver_hor rnd polyfit1 argsort lines xc yc :
  @calc_residual_ver R (Rnum rnd) polyfit1 argsort lines xc yc =
  @calc_residual_hor R (Rnum rnd) polyfit1 argsort (map (map swap) lines) yc xc.
Proof.
  unfold calc_residual_ver, calc_residual_hor.
  assert (E : mapM (@residual_line_ver R (Rnum rnd) polyfit1 xc yc) lines =
              mapM (@residual_line_hor R (Rnum rnd) polyfit1 yc xc) (map (map swap) lines)).
  { induction lines as [|ln lines IH]; [reflexivity|]. cbn [map mapM]. rewrite IH.
    now rewrite residual_line_ver_hor. }
  rewrite E. reflexivity.
Qed.

(** ** C13 *)
Lemma filter_count {A} (f : A -> bool) (P : A -> Prop) l :
  (forall a, f a = true <-> P a) -> count_occ_pred P l (length (filter f l)).
Proof.
  intros H. induction l as [|a l IH]; cbn; [constructor|].
  destruct (f a) eqn:E; cbn.
  - constructor; [now apply H|assumption].
  - constructor; [|assumption]. intros HP. apply H in HP. congruence.
Qed.
Lemma count_occ_pred_fun {A} (P : A -> Prop) l n m :
  count_occ_pred P l n -> count_occ_pred P l m -> n = m.
Proof.
  intros H. revert m. induction H; intros m Hm; inversion Hm; subst; auto; try contradiction.
Qed.

Lemma f64_rel x : bpow radix2 (-1022) <= Rabs x -> Rabs (f64 x - x) <= / 2 ^ 53 * Rabs x.
Proof.
  intros H. unfold f64.
  pose proof (relative_error_N_FLT radix2 (-1074) 53 ltac:(lia) (fun z => negb (Z.even z)) x) as E.
  cbn [Z.add] in E. specialize (E H).
  eapply Rle_trans; [exact E|]. apply Rmult_le_compat_r; [apply Rabs_pos|].
  assert (Hb : bpow radix2 (-52) = / 2 ^ 52).
  { change (-52)%Z with (- (52))%Z. rewrite bpow_opp. f_equal.
    rewrite (pow_IZR 2 52). reflexivity. }
  change (- (53) + 1)%Z with (-52)%Z. rewrite Hb. apply Req_le. field.
Qed.

Lemma f64_mono x y : x <= y -> f64 x <= f64 y.
Proof. intros H. unfold f64. apply round_le; auto with typeclass_instances. Qed.

Lemma f64_gt_015 k n : (0 <= k)%Z -> (0 < n <= 2 ^ 50)%Z ->
  (f64 (15 / 100) < f64 (IZR k / IZR n) <-> (3 * n < 20 * k)%Z).
Proof.
  intros Hk [Hn Hn2].
  assert (Hn0 : 0 < IZR n) by (apply IZR_lt; lia).
  split.
  - intros H. destruct (Z_lt_le_dec (3 * n) (20 * k)) as [L|L]; [assumption|].
    exfalso. assert (IZR k / IZR n <= 15 / 100).
    { apply Rmult_le_reg_r with (IZR n); [assumption|].
      replace (IZR k / IZR n * IZR n) with (IZR k) by (field; lra).
      assert (IZR (20 * k) <= IZR (3 * n)) by (apply IZR_le; lia).
      rewrite !mult_IZR in *. lra. }
    apply f64_mono in H0. lra.
  - intros H.
    assert (HK : 3 / 20 * IZR n + 1 / 20 <= IZR k).
    { assert (IZR (3 * n + 1) <= IZR (20 * k)) by (apply IZR_le; lia).
      rewrite plus_IZR, !mult_IZR in *. lra. }
    set (q := IZR k / IZR n).
    assert (Hq : 3 / 20 + / 20 * / IZR n <= q).
    { unfold q. apply Rmult_le_reg_r with (IZR n); [assumption|].
      replace (IZR k / IZR n * IZR n) with (IZR k) by (field; lra).
      replace ((3 / 20 + / 20 * / IZR n) * IZR n) with (3 / 20 * IZR n + 1 / 20) by (field; lra).
      assumption. }
    assert (Hinv : / 2 ^ 50 <= / IZR n).
    { apply Rinv_le; [assumption|].
      replace (2 ^ 50) with (IZR (2 ^ 50)) by (rewrite (pow_IZR 2 50); reflexivity).
      apply IZR_le. lia. }
    assert (Hsmall : bpow radix2 (-1022) <= 3 / 20).
    { apply Rle_trans with (bpow radix2 (-3)); [apply bpow_le; lia|]. cbn. lra. }
    assert (Hi0 : 0 < / 2 ^ 50) by (apply Rinv_0_lt_compat; apply pow_lt; lra).
    assert (E1 := f64_rel q). assert (E2 := f64_rel (15 / 100)).
    rewrite (Rabs_pos_eq q) in E1 by lra. rewrite (Rabs_pos_eq (15/100)) in E2 by lra.
    specialize (E1 ltac:(lra)). specialize (E2 ltac:(lra)).
    apply Rabs_le_inv in E1. apply Rabs_le_inv in E2.
    assert (Hd : / 2 ^ 53 = / 2 ^ 50 / 8) by (field).
    rewrite Hd in *. set (e := / 2 ^ 50) in *.
    assert (He : e < 1 / 1000).
    { unfold e. apply Rlt_le_trans with (/ 2 ^ 10); [|lra].
      apply Rinv_lt; [lra|]. apply Rlt_pow; [lra|lia]. }
    assert (f64 (15/100) <= 15 / 100 + e / 8 * (15 / 100)) by lra.
    assert (q - e / 8 * q <= f64 q) by lra.
    assert ((3 / 20 + / 20 * e) * (1 - e / 8) <= q * (1 - e / 8)).
    { apply Rmult_le_compat_r; lra. }
    nra.
Qed.

Lemma check_distortion_spec rnd data k : exact_or_double rnd ->
  (Z.of_nat (length data) <= 2 ^ 50)%Z -> data <> [] ->
  count_occ_pred (fun d => 1 < snd d) data k ->
  exists b, @check_distortion R (Rnum rnd) data = Ok b /\
    (b = true <-> (20 * k > 3 * length data)%nat).
Proof.
  intros Hr Hn Hne Hk. unfold check_distortion.
  rewrite map_length.
  assert (Ek : length (filter (fun r => @nltb R (Rnum rnd) (@nofZ R (Rnum rnd) 1) r) (map snd data)) = k).
  { eapply (count_occ_pred_fun (fun r => 1 < r) (map snd data)).
    - apply filter_count. intros a. cbn. destruct (Rlt_bool_spec 1 a); split; intros; try lra; try discriminate; auto.
    - clear -Hk. induction Hk; cbn; constructor; auto. }
  rewrite Ek.
  assert (Hl : (0 < Z.of_nat (length data))%Z) by (destruct data; [congruence|cbn; lia]).
  destruct (Z.eqb_spec (Z.of_nat (length data)) 0) as [E|_]; [lia|].
  eexists. split; [reflexivity|]. unnum.
  assert (Hmul : forall x, rnd x = x \/ rnd x = f64 x) by (intros x; destruct Hr; auto).
  assert (E1 : rnd (1 * IZR (Z.of_nat k)) = IZR (Z.of_nat k)).
  { rewrite Rmult_1_l. destruct Hr as [Hr|Hr]; rewrite Hr; [reflexivity|].
    apply f64_int.
    assert (k <= length data)%nat.
    { clear -Hk. induction Hk; cbn; lia. }
    lia. }
  rewrite E1.
  assert (Hlt : forall a b, Rlt_bool a b = true <-> a < b).
  { intros a b. destruct (Rlt_bool_spec a b); split; intros; try lra; try discriminate; auto. }
  rewrite Hlt.
  destruct Hr as [Hr|Hr]; rewrite !Hr.
  - set (n := Z.of_nat (length data)) in *.
    assert (Hn0 : 0 < IZR n) by (apply IZR_lt; lia).
    assert (Hiff : 15 / 100 < IZR (Z.of_nat k) / IZR n <-> (3 * n < 20 * Z.of_nat k)%Z).
    { split.
      - intros H. apply lt_IZR. rewrite !mult_IZR.
        apply (Rmult_lt_compat_r (IZR n)) in H; [|assumption].
        replace (IZR (Z.of_nat k) / IZR n * IZR n) with (IZR (Z.of_nat k)) in H by (field; lra). lra.
      - intros H. apply IZR_lt in H. rewrite !mult_IZR in H.
        apply Rmult_lt_reg_r with (IZR n); [assumption|].
        replace (IZR (Z.of_nat k) / IZR n * IZR n) with (IZR (Z.of_nat k)) by (field; lra). lra. }
    rewrite Hiff. lia.
  - rewrite f64_gt_015 by lia. lia.
Qed.

Lemma check_distortion_empty rnd : @check_distortion R (Rnum rnd) [] = Err ZeroDivisionError.
Proof. reflexivity. Qed.

(** ** C14 *)
Lemma persp_proj a1 a2 a3 a4 a5 a6 a7 a8 p :
  (@persp_y R Rex (a1,a2,a3,a4,a5,a6,a7,a8) (fst p) (snd p),
   @persp_x R Rex (a1,a2,a3,a4,a5,a6,a7,a8) (fst p) (snd p)) =
  proj (M3 a1 a2 a3 a4 a5 a6 a7 a8 1) p.
Proof. reflexivity. Qed.

Lemma perspective_line_map a1 a2 a3 a4 a5 a6 a7 a8 lines :
  @correct_perspective_line R Rex lines [a1;a2;a3;a4;a5;a6;a7;a8] =
  Ok (map (map (proj (M3 a1 a2 a3 a4 a5 a6 a7 a8 1))) lines).
Proof. reflexivity. Qed.

Lemma perspective_line_arity rnd lines coefs :
  length coefs <> 8%nat <-> @correct_perspective_line R (Rnum rnd) lines coefs = Err ValueError.
Proof.
  unfold correct_perspective_line, unpack8. split.
  - intros H. do 8 (destruct coefs as [|? coefs]; [reflexivity|]).
    destruct coefs as [|? coefs]; [|reflexivity]. cbn in H. lia.
  - intros H E. do 8 (destruct coefs as [|? coefs]; [discriminate E|]).
    destruct coefs as [|? coefs]; discriminate.
Qed.

Definition scale3 (k : R) (m : mat3) : mat3 :=
  M3 (k * c1 m) (k * c2 m) (k * c3 m) (k * c4 m) (k * c5 m) (k * c6 m)
     (k * c7 m) (k * c8 m) (k * c9 m).

Lemma proj_scale k m p : k <> 0 -> den m p <> 0 -> proj (scale3 k m) p = proj m p.
Proof.
  intros Hk Hd. destruct p as [y x], m as [a1 a2 a3 a4 a5 a6 a7 a8 a9].
  unfold proj, den in *. cbn in *. unfold pxc, py in *. cbn in *.
  assert (k * a7 * x + k * a8 * y + k * a9 <> 0).
  { replace (k * a7 * x + k * a8 * y + k * a9) with (k * (a7 * x + a8 * y + a9)) by ring.
    now apply Rmult_integral_contrapositive_currified. }
  f_equal; field; auto.
Qed.

Lemma proj_mul a b p : den b p <> 0 -> den a (proj b p) <> 0 ->
  den (mul3 a b) p = den a (proj b p) * den b p /\
  proj (mul3 a b) p = proj a (proj b p).
Proof.
  intros Hb Ha. destruct p as [y x], a as [a1 a2 a3 a4 a5 a6 a7 a8 a9],
    b as [b1 b2 b3 b4 b5 b6 b7 b8 b9].
  assert (E : den (mul3 (M3 a1 a2 a3 a4 a5 a6 a7 a8 a9) (M3 b1 b2 b3 b4 b5 b6 b7 b8 b9)) (y, x) =
     den (M3 a1 a2 a3 a4 a5 a6 a7 a8 a9) (proj (M3 b1 b2 b3 b4 b5 b6 b7 b8 b9) (y, x)) *
     den (M3 b1 b2 b3 b4 b5 b6 b7 b8 b9) (y, x)).
  { unfold proj, den, mul3, pxc, py in *; cbn in *. field. assumption. }
  split; [exact E|].
  set (A := M3 a1 a2 a3 a4 a5 a6 a7 a8 a9) in *.
  set (B := M3 b1 b2 b3 b4 b5 b6 b7 b8 b9) in *.
  set (q := proj B (y, x)) in *.
  assert (Ey : c4 (mul3 A B) * x + c5 (mul3 A B) * y + c6 (mul3 A B) =
     (c4 A * pxc q + c5 A * py q + c6 A) * den B (y, x)).
  { unfold q, A, B, proj, den, mul3, pxc, py in *; cbn in *. field. assumption. }
  assert (Ex : c1 (mul3 A B) * x + c2 (mul3 A B) * y + c3 (mul3 A B) =
     (c1 A * pxc q + c2 A * py q + c3 A) * den B (y, x)).
  { unfold q, A, B, proj, den, mul3, pxc, py in *; cbn in *. field. assumption. }
  unfold proj. rewrite E. change (pxc (y, x)) with x. change (py (y, x)) with y.
  rewrite Ey, Ex. f_equal; field; auto.
Qed.

Lemma proj_collinear m p q r : den m p <> 0 -> den m q <> 0 -> den m r <> 0 ->
  collinear p q r -> collinear (proj m p) (proj m q) (proj m r).
Proof.
  intros Hp Hq Hr. destruct p as [y1 x1], q as [y2 x2], r as [y3 x3],
    m as [a1 a2 a3 a4 a5 a6 a7 a8 a9].
  unfold collinear, proj, den, pxc, py in *; cbn in *. intros H.
  apply Rminus_diag_uniq.
  match goal with |- ?L = 0 => replace L with
   ((a1 * (a5 * a9 - a6 * a8) - a2 * (a4 * a9 - a6 * a7) + a3 * (a4 * a8 - a5 * a7))
    * ((x2 - x1) * (y3 - y1) - (x3 - x1) * (y2 - y1))
    / ((a7 * x1 + a8 * y1 + a9) * (a7 * x2 + a8 * y2 + a9) * (a7 * x3 + a8 * y3 + a9)))
  end.
  - rewrite H. unfold Rdiv. ring.
  - field. auto.
Qed.

Lemma mul3_id_proj k p :
  k <> 0 -> proj (M3 k 0 0 0 k 0 0 0 k) p = p.
Proof.
  intros Hk. destruct p as [y x]. unfold proj, den, pxc, py; cbn. f_equal; field; lra.
Qed.
