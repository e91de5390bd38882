(** Lemmas about peak selection and local extrema. *)
From Coq Require Import Reals ZArith List Lra Lia Psatz Sorted Permutation.
From Flocq Require Import Core.
From Verif Require Import Base Num NumFacts Img Spec Lsq LsqEx PolyUniq ProcSpec Post PrepImg PrepFacts PrepFacts4 PrepImgFacts PrepImgFacts4 Proc ProcFacts ProcFacts2 Line LineFacts LineSpec.
Import ListNotations.
Local Open Scope R_scope.

(** *** Peak selection in any arithmetic *)
Lemma filterM_filter {A} (f : A -> res bool) (g : A -> bool) l : (forall a, In a l -> f a = Ok (g a)) -> filterM f l = Ok (filter g l).
Proof.
  induction l as [|a l IH]; intros H; [reflexivity|]. cbn [filterM filter]. rewrite (H a) by now left. cbn [bind].
  rewrite IH by (intros; apply H; now right). reflexivity.
Qed.
Section AnyPeak.
  Context {T : Type} {N : Num T}.
  Variable exp_ : T -> T.
  Variable curve_fit : list T -> list T -> option (T * T * T * T).
  Lemma good_peak_total (l : list T) tol r uo p : exists b, good_peak exp_ curve_fit l tol r uo p = Ok b.
  Proof.
    unfold good_peak. destruct (Z.ltb_spec 3 (Z.min (Z.of_nat (length l)) (p + r + 1) - Z.max 0 (p - r))) as [h|h]; [|eexists; reflexivity].
    destruct (negb _); [|eexists; reflexivity].
    set (w := lslice l _ _). assert (L : (3 < Z.of_nat (length w))%Z) by (unfold w; rewrite lslice_len; lia).
    destruct w as [|x w]; [cbn in L; lia|]. cbn [namin bind]. destruct (get_gauss_peak_fit _ _ _) as [[[? ?] ?] ?]. eexists; reflexivity.
  Qed.
  Definition peak_test (l : list T) tol r uo p : bool := match good_peak exp_ curve_fit l tol r uo p with Ok b => b | Err _ => false end.
  Lemma select_filter gf (l : list T) peaks tol r sigma uo :
    select_good_peaks exp_ curve_fit gf l peaks tol r sigma uo =
    Ok (filter (peak_test (if nltb n0 sigma then gf l sigma else l) tol r uo) peaks).
  Proof.
    unfold select_good_peaks. apply filterM_filter. intros p _. unfold peak_test.
    destruct (good_peak_total (if nltb n0 sigma then gf l sigma else l) tol r uo p) as [b E]. now rewrite E.
  Qed.
  Lemma peak_test_offset (l : list T) tol r p : peak_test l tol r true p = true -> peak_test l tol r false p = true.
  Proof.
    unfold peak_test, good_peak. destruct (Z.ltb _ _); [|auto]. destruct (negb _); [|auto]. destruct (namin _) as [mn|e]; cbn [bind]; [|auto].
    destruct (get_gauss_peak_fit _ _ _) as [[[? ?] ?] ?]. destruct (_ && _); auto.
  Qed.
End AnyPeak.

(** *** Peak selection over the reals *)
Section RealPeak.
  Local Existing Instance Rex.
  Variable exp_ : R -> R.
  Variable curve_fit : list R -> list R -> option (R * R * R * R).
  Lemma lslice_zrange (l : list R) a b : (0 <= a)%Z -> (a <= b)%Z -> (b <= size l)%Z -> lslice l a b = map (sample l) (zrange a b).
  Proof.
    intros Ha Hb Hab. unfold size in Hab. apply (nth_ext _ _ 0 0).
    - rewrite lslice_len by lia. now rewrite map_length, zrange_length.
    - intros k Hk. rewrite lslice_len in Hk by lia. rewrite lslice_nth by lia. rewrite nth_map_zrange by lia.
      unfold sample. f_equal. lia.
  Qed.
  Lemma std_deviation (w : list R) : std w = deviation w.
  Proof.
    unfold std, deviation. rewrite mean_average. cbn [nsqrt npow nabs nsub Rex Rnum]. f_equal. rewrite mean_average. f_equal.
    apply map_ext. intros v. rewrite <- Rsqr_pow2, <- Rsqr_pow2. symmetry. apply Rsqr_abs.
  Qed.
  Lemma average_const w c : w <> [] -> (forall v, In v w -> v = c) -> average w = c.
  Proof.
    intros Ne H. unfold average. assert (S : Rsum w = INR (length w) * c).
    { clear Ne. induction w as [|x w IH]; [cbn; ring|]. cbn [Rsum]. change (length (x :: w)) with (S (length w)). rewrite S_INR, IH by (intros; apply H; now right). rewrite (H x) by now left. ring. }
    rewrite S. field. apply not_0_INR. destruct w; [congruence|cbn; lia].
  Qed.
  Lemma deviation_zero w : w <> [] -> deviation w = 0 <-> ~ (exists u v, In u w /\ In v w /\ u <> v).
  Proof.
    intros Ne. unfold deviation. set (q := map _ w).
    assert (Q : forall x, In x q -> 0 <= x) by (unfold q; intros x Hx; apply in_map_iff in Hx; destruct Hx as [y [<- _]]; apply pow2_ge_0).
    split.
    - intros H [u [v [Hu [Hv D]]]]. apply D. pose proof (average_nonneg q Q) as P. apply sqrt_eq_0 in H; [|exact P].
      assert (G : forall x, In x w -> x = average w).
      { intros x Hx. assert (I : In ((x - average w) ^ 2) q) by (unfold q; apply (in_map (fun v => (v - average w) ^ 2)); exact Hx).
        apply (average_zero q Q H) in I. assert (x - average w = 0) by nra. lra. }
      rewrite (G u Hu), (G v Hv). reflexivity.
    - intros H. destruct w as [|c w]; [congruence|]. assert (C : forall v, In v (c :: w) -> v = c).
      { intros v Hv. destruct (Req_EM_T v c) as [e|e]; [assumption|]. exfalso. apply H. exists v, c. split; [assumption|]. split; [now left|assumption]. }
      rewrite (average_const q 0); [apply sqrt_0|unfold q; discriminate|]. unfold q. intros x Hx. apply in_map_iff in Hx. destruct Hx as [y [<- Hy]].
      rewrite (average_const (c :: w) c) by (auto; discriminate). rewrite (C y Hy). ring.
  Qed.
  Lemma nsort_perm (l : list R) : Permutation (nsort l) l.
  Proof. apply sorted_perm. Qed.
  Lemma percentile_ok l : l <> [] -> percentile_80 l (percentile80 l).
  Proof.
    intros Ne. exists (nsort l). split; [apply nsort_perm|]. split; [apply nsort_sorted|]. cbn zeta.
    assert (Hn : (1 <= size l)%Z) by (unfold size; destruct l; [congruence|cbn; lia]).
    set (x := 8 / 10 * IZR (size l - 1)). unfold percentile80. fold (size l). cbn [nofZ nmul ndiv nleb nsub nadd nfloor nofQ Rex Rnum].
    replace (IZR (size l - 1) * (80 / 100)) with x by (unfold x; field).
    assert (Hx : 0 <= IZR (size l - 1)) by (apply IZR_le; lia).
    change (@n1 R Rex) with 1. change (@n0 R Rex) with 0.
    destruct (Rle_bool_spec (IZR (size l - 1)) x) as [h|h].
    - assert (E : size l = 1%Z). { assert (IZR (size l - 1) <= 0) by (unfold x in h; lra). apply le_IZR in H. lia. }
      assert (X0 : x = 0) by (unfold x; rewrite E; cbn; ring). rewrite X0.
      assert (F0 : Zfloor 0 = 0%Z) by (apply Zfloor_imp; cbn; lra). rewrite F0. rewrite E. unfold sample. cbn [Z.sub Z.add Z.opp Z.pos_sub Z.to_nat]. ring.
    - assert (F0 : (0 <= Zfloor x)%Z) by (apply Zfloor_lub; unfold x; cbn; lra).
      unfold sample. set (i := Zfloor x). set (a := nth (Z.to_nat i) (nsort l) 0). set (b := nth (Z.to_nat (i + 1)) (nsort l) 0).
      destruct (Rle_bool_spec (1 / 2) (x - IZR i)); ring.
  Qed.
  Lemma sorted_nth (s : list R) i j : StronglySorted Rle s -> (i <= j < length s)%nat -> nth i s 0 <= nth j s 0.
  Proof.
    intros S. revert i j. induction S as [|x s S IH F]; intros i j H; [cbn in H; lia|].
    destruct i as [|i], j as [|j]; cbn [nth length] in *; try lia; [lra| |apply IH; lia].
    rewrite Forall_forall in F. apply F. apply nth_In. lia.
  Qed.
  Lemma sorted_perm_unique (s t : list R) : StronglySorted Rle s -> StronglySorted Rle t -> Permutation s t -> s = t.
  Proof. intros. now apply sorted_unique. Qed.
  Lemma percentile_unique l q q' : percentile_80 l q -> percentile_80 l q' -> q = q'.
  Proof.
    intros [s [P [S E]]] [t [P' [S' E']]]. assert (s = t). { apply sorted_perm_unique; auto. rewrite P, P'. reflexivity. }
    subst t. cbn zeta in *. congruence.
  Qed.
  (** Fewer than 20 per cent of the values may reach a bound above the percentile. *)
  Lemma percentile_count l q t : l <> [] -> percentile_80 l q -> q < t -> 8 / 10 * IZR (size l - 1) < INR (count_below t l).
  Proof.
    intros Ne [s [P [S E]]] Ht. cbn zeta in E. set (x := 8 / 10 * IZR (size l - 1)) in *.
    assert (Hn : (1 <= size l)%Z) by (unfold size; destruct l; [congruence|cbn; lia]).
    assert (Hx : 0 <= IZR (size l - 1)) by (apply IZR_le; lia).
    pose proof (Zfloor_lb x) as B1. pose proof (Zfloor_ub x) as B2. set (i := Zfloor x) in *.
    assert (F0 : (0 <= i)%Z) by (apply Zfloor_lub; unfold x; cbn; lra).
    assert (F1 : (i < size l)%Z). { apply lt_IZR. unfold x in B1. rewrite minus_IZR in *. lra. }
    assert (L : length s = length l) by now apply Permutation_length.
    assert (Q : sample s i <= q).
    { destruct (Z.eq_dec (i + 1) (size l)) as [e|e].
      - assert (size l = 1)%Z. { assert (IZR (size l - 1) <= 0). { replace (size l - 1)%Z with i by lia. unfold x in B1. replace (size l - 1)%Z with i in B1 by lia. replace (size l - 1)%Z with i in Hx by lia. lra. } apply le_IZR in H. lia. }
        assert (x = 0) by (unfold x; rewrite H; cbn; ring). assert (i = 0%Z) by lia. rewrite E, H0, H1. cbn. lra.
      - assert (D : sample s i <= sample s (i + 1)) by (apply sorted_nth; [assumption|unfold size in *; lia]). rewrite E. nra. }
    assert (C : (Z.to_nat i + 1 <= count_below t l)%nat).
    { unfold count_below. set (f := fun v : R => if Rlt_dec v t then true else false).
      assert (PL : length (filter f l) = length (filter f s)).
      { clear -P. induction P; cbn [filter]; try destruct (f x); try destruct (f y); cbn [length]; congruence. }
      rewrite PL. assert (LS : (Z.to_nat i + 1 <= length s)%nat) by (unfold size in *; lia).
      rewrite <- (firstn_skipn (Z.to_nat i + 1) s), filter_app, app_length.
      assert (FA : filter f (firstn (Z.to_nat i + 1) s) = firstn (Z.to_nat i + 1) s).
      { assert (A : forall v, In v (firstn (Z.to_nat i + 1) s) -> f v = true).
        { intros v Hv. apply (In_nth _ _ 0) in Hv. destruct Hv as [k [Hk <-]]. rewrite firstn_length in Hk. rewrite nth_firstn_lt by lia.
          unfold f. destruct (Rlt_dec _ t) as [g|g]; [reflexivity|]. exfalso. apply g. apply Rle_lt_trans with (2 := Ht). apply Rle_trans with (2 := Q). apply sorted_nth; [assumption|lia]. }
        revert A. generalize (firstn (Z.to_nat i + 1) s). induction l0 as [|v l0 IH]; intros A; [reflexivity|]. cbn [filter]. rewrite (A v) by now left. f_equal. apply IH. intros; apply A; now right. }
      rewrite FA, firstn_length. lia. }
    apply le_INR in C. rewrite plus_INR, INR_IZR_INZ, Z2Nat.id in C by assumption. cbn in C. lra.
  Qed.
  Lemma near_window_slice (l : list R) p r : (Z.max 0 (p - r) <= Z.min (size l) (p + r + 1))%Z ->
    lslice l (Z.max 0 (p - r)) (Z.min (size l) (p + r + 1)) = near_window l p r.
  Proof. intros H. unfold near_window. apply lslice_zrange; lia. Qed.
  Lemma near_window_size l p r : size (near_window l p r) = Z.max 0 (Z.min (size l) (p + r + 1) - Z.max 0 (p - r)).
  Proof. unfold near_window, size. rewrite map_length, zrange_length. unfold size. lia. Qed.
  Lemma rescaled_unique w ws wt : rescaled w ws -> rescaled w wt -> ws = wt.
  Proof.
    intros [m [Hm [Lm ->]]] [n [Hn [Ln ->]]]. assert (m = n) by (apply Rle_antisym; auto). now subst.
  Qed.
  Lemma gauss_eq x a b c d : gauss_function exp_ x a b c d = gauss exp_ a b c d x.
  Proof. unfold gauss_function, gauss. reflexivity. Qed.
  Lemma peak_test_spec (l : list R) tol r uo p : peak_test exp_ curve_fit l tol r uo p = true <-> good_peak_spec exp_ curve_fit l tol r uo p.
  Proof.
    unfold peak_test, good_peak, good_peak_spec. cbn zeta. rewrite near_window_size. fold (size l).
    destruct (Z.ltb_spec 3 (Z.min (size l) (p + r + 1) - Z.max 0 (p - r))) as [h|h];
      [|split; [discriminate|intros [h' _]; lia]].
    rewrite near_window_slice by lia. set (w := near_window l p r). assert (Sw : (3 < size w)%Z) by (unfold w; rewrite near_window_size; lia).
    replace (Z.max 0 (Z.min (size l) (p + r + 1) - Z.max 0 (p - r))) with (size w) by (unfold w; apply near_window_size).
    assert (Ne : w <> []) by (intros E; rewrite E in Sw; cbn in Sw; lia).
    rewrite std_deviation. cbn [neqb Rex Rnum]. change (@n0 R Rex) with 0.
    destruct (Req_bool_spec (deviation w) 0) as [D|D].
    { cbn [negb]. split; [discriminate|]. intros [_ [V _]]. apply deviation_zero in D; [contradiction|assumption]. }
    cbn [negb]. destruct (namin w) as [mn|e] eqn:Em; [|destruct w; [congruence|discriminate]]. cbn [bind].
    pose proof Em as Em'. unfold Rex in Em'. apply namin_spec in Em'. destruct Em' as [Im Lm].
    set (ws := map _ w). assert (Rs : rescaled w ws) by (exists mn; repeat split; assumption).
    assert (Lw : length ws = length w) by (unfold ws; apply map_length).
    unfold get_gauss_peak_fit. rewrite Lw. fold (size w). change (map (fun i => nofZ (i - size w / 2)) (zrange 0 (size w))) with (centred_abscissae (size w)).
    assert (LC : length (centred_abscissae (size w)) = length w) by (unfold centred_abscissae; rewrite map_length, zrange_length; unfold size; lia).
    assert (V : exists u v, In u w /\ In v w /\ u <> v).
    { destruct (Classical_Prop.classic (exists u v, In u w /\ In v w /\ u <> v)) as [V|V]; [assumption|]. apply deviation_zero in V; [contradiction|assumption]. }
    destruct (curve_fit (centred_abscissae (size w)) ws) as [[[[a b] c] d]|] eqn:Ec.
    2:{ cbn [andb]. split; [discriminate|]. intros (_ & _ & ws' & a & b & c & d & q & R' & C' & _). rewrite (rescaled_unique _ _ _ R' Rs), Ec in C'. discriminate. }
    set (res := map (fun fd : R * R => nabs (nsub (fst fd) (snd fd))) (combine (map (fun x => gauss_function exp_ x a b c d) (centred_abscissae (size w))) ws)).
    assert (Er : res = map (fun xv : R * R => Rabs (gauss exp_ a b c d (fst xv) - snd xv)) (combine (centred_abscissae (size w)) ws)).
    { unfold res. clear. generalize (centred_abscissae (size w)). intros xs. generalize ws. intros vs. revert vs. induction xs as [|x xs IH]; intros [|v vs]; try reflexivity. cbn [map combine]. f_equal. apply IH. }
    assert (Nr : res <> []).
    { intros E. apply (f_equal (@length R)) in E. rewrite Er, map_length, combine_length, LC, Lw in E. unfold size in Sw. cbn in E. lia. }
    cbn [nabs nltb nofZ Rex Rnum andb]. pose proof (percentile_ok res Nr) as P.
    destruct (Rlt_bool_spec (Rabs c) (IZR (r / 2))) as [h1|h1].
    2:{ cbn [andb]. split; [discriminate|]. intros (_ & _ & ws' & a' & b' & c' & d' & q & R' & C' & H1 & _). rewrite (rescaled_unique _ _ _ R' Rs), Ec in C'. injection C' as <- <- <- <-. lra. }
    destruct (Rlt_bool_spec (percentile80 res) tol) as [h2|h2].
    2:{ cbn [andb]. split; [discriminate|]. intros (_ & _ & ws' & a' & b' & c' & d' & q & R' & C' & H1 & H2 & H3 & _). pose proof (rescaled_unique _ _ _ R' Rs). subst ws'. rewrite Ec in C'. injection C' as <- <- <- <-.
      rewrite <- Er in H2. rewrite (percentile_unique _ _ _ P H2) in h2. lra. }
    cbn [andb]. split.
    - intros U. split; [assumption|]. split; [assumption|]. exists ws, a, b, c, d, (percentile80 res). rewrite <- Er.
      repeat (split; [assumption|]). intros ->. destruct (Rlt_bool_spec (Rabs d) tol); [assumption|discriminate].
    - intros (_ & _ & ws' & a' & b' & c' & d' & q & R' & C' & H1 & H2 & H3 & H4). pose proof (rescaled_unique _ _ _ R' Rs). subst ws'. rewrite Ec in C'. injection C' as <- <- <- <-.
      destruct uo; [|reflexivity]. apply Rlt_bool_true. now apply H4.
  Qed.
End RealPeak.

Lemma percentile_below l q t : l <> [] -> percentile_80 l q -> (forall v, In v l -> v < t) -> q < t.
Proof.
  intros Ne [s [P [S E]]] H. cbn zeta in E. set (x := 8 / 10 * IZR (size l - 1)) in *.
  assert (Hn : (1 <= size l)%Z) by (unfold size; destruct l; [congruence|cbn; lia]).
  assert (Hx : 0 <= IZR (size l - 1)) by (apply IZR_le; lia).
  pose proof (Zfloor_lb x) as B1. pose proof (Zfloor_ub x) as B2. set (i := Zfloor x) in *.
  assert (F0 : (0 <= i)%Z) by (apply Zfloor_lub; unfold x; cbn; lra).
  assert (L : length s = length l) by now apply Permutation_length.
  assert (M : forall k, (0 <= k < size l)%Z -> sample s k < t).
  { intros k Hk. apply H. apply (Permutation_in _ P). unfold sample. apply nth_In. unfold size in Hk. lia. }
  destruct (Z.eq_dec (size l) 1) as [e|e].
  - assert (X0 : x = 0) by (unfold x; rewrite e; cbn; ring). assert (i = 0%Z).
    { unfold i. rewrite X0. apply Zfloor_imp. cbn. lra. }
    rewrite E, H0, X0. pose proof (M 0%Z ltac:(lia)). cbn [Z.add]. lra.
  - assert (I : (i + 1 < size l)%Z).
    { assert (Hs : IZR (size l - 1) >= 1) by (apply Rle_ge, IZR_le; lia). assert (IZR i < IZR (size l - 1)) by (unfold x in B1; lra). apply lt_IZR in H0. lia. }
    rewrite E. pose proof (M i ltac:(lia)). pose proof (M (i + 1)%Z ltac:(lia)). set (f := x - IZR i). assert (0 <= f < 1) by (unfold f; lra). nra.
Qed.

(** *** Local extrema *)
Section Extrema.
  Local Existing Instance Rex.
  Lemma lslice_last {A} (l : list A) r : (1 <= r)%Z -> lslice l (- r) (Z.of_nat (length l)) = skipn (length l - Z.to_nat r) l.
  Proof.
    intros Hr. unfold lslice, slice_bound. destruct (Z.ltb_spec (- r) 0); [|lia]. destruct (Z.ltb_spec (Z.of_nat (length l)) 0); [lia|].
    rewrite firstn_all2; [f_equal; lia|]. rewrite skipn_length. lia.
  Qed.
  Lemma hd_sorted_min (s : list R) x : StronglySorted Rle s -> In x s -> hd 0 s <= x.
  Proof. intros S Hx. destruct S as [|y s S F]; [destruct Hx|]. cbn. destruct Hx as [->|Hx]; [lra|]. rewrite Forall_forall in F. now apply F. Qed.
  Lemma is_extremum_spec (l : list R) r sens i : (1 <= r)%Z -> (r <= i)%Z -> (i + r < size l)%Z ->
    is_extremum l r sens i = true <-> local_minimum l r sens i.
  Proof.
    intros Hr Hi Hn. unfold is_extremum, local_minimum. cbn zeta. change (nth (Z.to_nat i) l n0) with (sample l i).
    replace (lslice l (i - r) (i + r + 1)) with (near_window l i r).
    2:{ rewrite <- near_window_slice by lia. f_equal; lia. }
    set (w := near_window l i r). assert (Sw : size w = (2 * r + 1)%Z) by (unfold w; rewrite near_window_size; lia).
    set (s := nsort w). assert (Ps : Permutation s w) by apply nsort_perm. assert (Ss : StronglySorted Rle s) by apply nsort_sorted.
    assert (Ls : length s = length w) by now apply Permutation_length.
    rewrite lslice_last by assumption. rewrite mean_average. rewrite Ls.
    set (m := average (skipn (length w - Z.to_nat r) s)).
    assert (W : forall x, In x w <-> exists j, (i - r <= j <= i + r)%Z /\ x = sample l j).
    { intros x. unfold w, near_window. rewrite in_map_iff. split.
      - intros [j [<- Hj]]. apply in_zrange in Hj. exists j. split; [lia|reflexivity].
      - intros [j [Hj ->]]. exists j. split; [reflexivity|]. apply in_zrange. lia. }
    assert (Vi : In (sample l i) s). { apply (Permutation_in _ (Permutation_sym Ps)), W. exists i. split; [lia|reflexivity]. }
    change (@n0 R Rex) with 0. cbn [nsub neqb nltb nabs ndiv Rex Rnum].
    assert (D : (if negb (Req_bool m 0) then Rabs ((sample l i - m) / m) else 0) = relative_depth (sample l i) m).
    { unfold relative_depth. destruct (Req_EM_T m 0) as [h|h]; [rewrite Req_bool_true by exact h|rewrite Req_bool_false by exact h]; reflexivity. }
    fold (sample l i). rewrite D. rewrite andb_true_iff. split.
    - intros [H1 H2]. split.
      + destruct (Req_bool_spec (hd 0 s - sample l i) 0) as [h|h]; [|discriminate]. intros j Hj.
        assert (hd 0 s <= sample l j). { apply hd_sorted_min; [assumption|]. apply (Permutation_in _ (Permutation_sym Ps)), W. now exists j. } lra.
      + exists m. split; [exists s; repeat split; assumption|]. destruct (Rlt_bool_spec sens (relative_depth (sample l i) m)); [assumption|discriminate].
    - intros [H1 [m' [[s' [P' [S' E']]] H2]]]. assert (s' = s). { apply sorted_unique; auto. rewrite P', Ps. reflexivity. } subst s'.
      assert (Em : m' = m) by exact E'. rewrite Em in H2. clear E' Em. split; [|now apply Rlt_bool_true]. apply Req_bool_true.
      assert (hd 0 s <= sample l i) by now apply hd_sorted_min.
      assert (In (hd 0 s) w). { apply (Permutation_in _ Ps). destruct s; [destruct Vi|now left]. }
      apply W in H0. destruct H0 as [j [Hj E]]. specialize (H1 j Hj). lra.
  Qed.
  (** Short profiles: radius 0. *)
  Lemma is_extremum_zero (l : list R) sens i : 0 <= sens -> (0 <= i < size l)%Z -> is_extremum l 0 sens i = false.
  Proof.
    intros Hs Hi. unfold is_extremum. cbn zeta. change (nth (Z.to_nat i) l n0) with (sample l i).
    replace (lslice l (i - 0) (i + 0 + 1)) with [sample l i].
    2:{ rewrite lslice_zrange by lia. replace (i + 0 + 1)%Z with (i + 1)%Z by lia. rewrite Z.sub_0_r. unfold zrange. replace (i + 1 - i)%Z with 1%Z by lia. change (Z.to_nat 1) with 1%nat. cbn [seq map]. do 2 f_equal. lia. }
    cbn [nsort sorted fold_left insert_key]. change (@nsort R Rex [sample l i]) with [sample l i]. cbn [hd length].
    change (lslice [sample l i] (- 0) (Z.of_nat 1)) with [sample l i]. rewrite mean_average.
    assert (A : average [sample l i] = sample l i) by (unfold average; cbn; field). rewrite A.
    cbn [nsub neqb nltb nabs ndiv Rex Rnum]. change (@n0 R Rex) with 0. rewrite andb_false_iff. right. apply Rlt_bool_false.
    destruct (negb _); [|assumption]. replace ((sample l i - sample l i) / sample l i) with 0 by (unfold Rdiv; ring). rewrite Rabs_R0. assumption.
  Qed.
End Extrema.
