(** Lemmas about background normalisation and the search for local extrema. *)
From Coq Require Import Reals ZArith List Lra Lia Psatz Sorted Permutation.
From Flocq Require Import Core.
From Verif Require Import Base Num NumFacts Sorting Img Spec Lsq LsqEx PolyUniq ProcSpec Post PrepImg PrepPts PrepFacts PrepFacts4 PrepImgFacts PrepImgFacts4 Proc ProcFacts ProcFacts2 Line LineFacts LineFacts2 LineSpec.
Import ListNotations.
Local Open Scope R_scope.

(** *** A line fitted to sorted values does not fall *)
Section Cheb.
  Definition SX (ps : list (R * R)) := Rsum (map fst ps).
  Definition SY (ps : list (R * R)) := Rsum (map snd ps).
  Definition SXX (ps : list (R * R)) := Rsum (map (fun p => fst p ^ 2) ps).
  Definition SXY (ps : list (R * R)) := Rsum (map (fun p => fst p * snd p) ps).
  Lemma sum_diff x y ps : Rsum (map (fun p : R * R => (fst p - x) * (snd p - y)) ps) = SXY ps - x * SY ps - y * SX ps + INR (length ps) * (x * y).
  Proof.
    unfold SXY, SX, SY. induction ps as [|p ps IH]; [cbn; ring|]. cbn [map Rsum]. rewrite IH. change (length (p :: ps)) with (S (length ps)). rewrite S_INR. ring.
  Qed.
  Lemma cheb ps : StronglySorted (fun p q => fst p < fst q /\ snd p <= snd q) ps -> 0 <= INR (length ps) * SXY ps - SX ps * SY ps.
  Proof.
    induction 1 as [|p ps So IH F]; [cbn; lra|].
    assert (D : 0 <= Rsum (map (fun q : R * R => (fst q - fst p) * (snd q - snd p)) ps)).
    { apply Rsum_nonneg. intros x Hx. apply in_map_iff in Hx. destruct Hx as [q [<- Hq]]. rewrite Forall_forall in F. destruct (F q Hq). apply Rmult_le_pos; lra. }
    rewrite sum_diff in D. change (length (p :: ps)) with (S (length ps)). rewrite S_INR. unfold SXY, SX, SY in *. cbn [map Rsum]. lra.
  Qed.
  Lemma sum_sq x ps : Rsum (map (fun p : R * R => (fst p - x) ^ 2) ps) = SXX ps - 2 * x * SX ps + INR (length ps) * x ^ 2.
  Proof.
    unfold SXX, SX. induction ps as [|p ps IH]; [cbn; ring|]. cbn [map Rsum]. rewrite IH. change (length (p :: ps)) with (S (length ps)). rewrite S_INR. ring.
  Qed.
  Lemma spread ps : StronglySorted (fun p q => fst p < fst q /\ snd p <= snd q) ps ->
    0 <= INR (length ps) * SXX ps - SX ps ^ 2 /\ ((2 <= length ps)%nat -> 0 < INR (length ps) * SXX ps - SX ps ^ 2).
  Proof.
    induction 1 as [|p ps So [IH IH2] F]; [cbn; split; [lra|lia]|].
    assert (D : 0 <= Rsum (map (fun q : R * R => (fst q - fst p) ^ 2) ps)).
    { apply Rsum_nonneg. intros x Hx. apply in_map_iff in Hx. destruct Hx as [q [<- Hq]]. apply pow2_ge_0. }
    assert (D2 : (1 <= length ps)%nat -> 0 < Rsum (map (fun q : R * R => (fst q - fst p) ^ 2) ps)).
    { intros L. destruct ps as [|q ps]; [cbn in L; lia|]. cbn [map Rsum]. rewrite Forall_forall in F. destruct (F q (or_introl eq_refl)) as [A _].
      assert (0 <= Rsum (map (fun q : R * R => (fst q - fst p) ^ 2) ps)).
      { apply Rsum_nonneg. intros x Hx. apply in_map_iff in Hx. destruct Hx as [q' [<- Hq]]. apply pow2_ge_0. }
      assert (0 < (fst q - fst p) ^ 2) by (apply pow_lt; lra). lra. }
    rewrite sum_sq in D, D2. change (length (p :: ps)) with (S (length ps)). rewrite S_INR. unfold SXX, SX in *. cbn [map Rsum].
    split; [nra|]. intros L. specialize (D2 ltac:(lia)). nra.
  Qed.
  Lemma sqerr_pairs s b ps : sqerr (map (pow_row 1) (map fst ps)) (map snd ps) [s; b] =
    s ^ 2 * SXX ps + INR (length ps) * b ^ 2 + Rsum (map (fun p => snd p ^ 2) ps) + 2 * s * b * SX ps - 2 * s * SXY ps - 2 * b * SY ps.
  Proof.
    unfold sqerr, SXX, SXY, SX, SY. induction ps as [|p ps IH]; [cbn; ring|]. cbn [map combine Rsum fst snd]. rewrite IH.
    change (length (p :: ps)) with (S (length ps)). rewrite S_INR. cbn [pow_row dot]. ring.
  Qed.
  Lemma slope_nonneg ps s b : StronglySorted (fun p q => fst p < fst q /\ snd p <= snd q) ps -> (2 <= length ps)%nat ->
    polyfit_spec 1 (map fst ps) (map snd ps) [s; b] -> 0 <= s.
  Proof.
    intros S L [_ H]. destruct (Rle_lt_dec 0 s) as [h|h]; [assumption|]. exfalso.
    set (n := INR (length ps)). assert (Hn : 0 < n) by (apply lt_0_INR; lia).
    specialize (H [0; s * (SX ps / n) + b] eq_refl). rewrite !sqerr_pairs in H. fold n in H.
    pose proof (cheb ps S) as C. destruct (spread ps S) as [_ Q]. specialize (Q L). fold n in C, Q.
    set (xx := SXX ps) in *. set (x := SX ps) in *. set (y := SY ps) in *. set (xy := SXY ps) in *.
    assert (E : n * (s ^ 2 * xx + n * b ^ 2 + 2 * s * b * x - 2 * s * xy - 2 * b * y) - n * (0 ^ 2 * xx + n * (s * (x / n) + b) ^ 2 + 2 * 0 * (s * (x / n) + b) * x - 2 * 0 * xy - 2 * (s * (x / n) + b) * y)
              = s ^ 2 * (n * xx - x ^ 2) - 2 * s * (n * xy - x * y)) by (field; lra).
    assert (0 < s ^ 2 * (n * xx - x ^ 2)) by (apply Rmult_lt_0_compat; [nra|assumption]).
    assert (0 <= - s * (n * xy - x * y)) by (apply Rmult_le_pos; lra).
    nra.
  Qed.
End Cheb.
Lemma zrange_cons a b : (a < b)%Z -> zrange a b = a :: zrange (a + 1) b.
Proof.
  intros H. unfold zrange. replace (Z.to_nat (b - a)) with (S (Z.to_nat (b - (a + 1)))) by lia. cbn [seq map]. f_equal; [lia|].
  rewrite <- seq_shift, map_map. apply map_ext. intros k. lia.
Qed.
Lemma zrange_nil a b : (b <= a)%Z -> zrange a b = [].
Proof. intros H. unfold zrange. replace (Z.to_nat (b - a)) with 0%nat by lia. reflexivity. Qed.
Lemma pairs_sorted (s : list R) : StronglySorted Rle s -> forall b k a, (0 <= a)%Z -> (b <= size s)%Z -> (b - a = Z.of_nat k)%Z ->
  StronglySorted (fun p q => fst p < fst q /\ snd p <= snd q) (map (fun k => (IZR k, sample s k)) (zrange a b)).
Proof.
  intros S b. induction k as [|k IH]; intros a Ha Hb E; [rewrite zrange_nil by lia; constructor|].
  rewrite zrange_cons by lia. cbn [map]. constructor; [apply IH; lia|]. apply Forall_forall. intros p Hp. apply in_map_iff in Hp.
  destruct Hp as [j [<- Hj]]. apply in_zrange in Hj. cbn [fst snd]. split; [apply IZR_lt; lia|]. unfold sample. apply sorted_nth; [assumption|unfold size in Hb; lia].
Qed.
Lemma sorted_slope_nonneg (s : list R) a b u v : StronglySorted Rle s -> (0 <= a)%Z -> (b <= size s)%Z -> (a + 2 <= b)%Z ->
  polyfit_spec 1 (map IZR (zrange a b)) (map (sample s) (zrange a b)) [u; v] -> 0 <= u.
Proof.
  intros S Ha Hb Hab P. apply (slope_nonneg (map (fun k => (IZR k, sample s k)) (zrange a b)) u v).
  - apply (pairs_sorted s S b (Z.to_nat (b - a))); lia.
  - rewrite map_length, zrange_length. lia.
  - rewrite !map_map. exact P.
Qed.

Lemma nth_map_lt {A B} (f : A -> B) l k d d' : (k < length l)%nat -> nth k (map f l) d = f (nth k l d').
Proof. intros H. rewrite (nth_indep _ d (f d')) by now rewrite map_length. apply map_nth. Qed.
Section Normal.
  Local Existing Instance Rex.
  Variable polyfit : list R -> list R -> nat -> res (list R).
  Hypothesis PF : polyfit_oracle polyfit.
  Variable argsort : list R -> list nat.
  Hypothesis AS : argsort_spec argsort.
  Lemma argsort_in l k : In k (argsort l) -> (k < length l)%nat.
  Proof. intros H. destruct (AS l) as [P _]. apply (Permutation_in _ P) in H. apply in_seq in H. lia. Qed.
  Lemma argsort_len l : length (argsort l) = length l.
  Proof. destruct (AS l) as [P _]. apply Permutation_length in P. now rewrite seq_length in P. Qed.
  Lemma gather_sorted (l : list R) : Permutation (gather l (argsort l)) l /\ StronglySorted Rle (gather l (argsort l)).
  Proof.
    destruct (AS l) as [P S]. split; [now apply gather_perm|]. rewrite (gather_in_range 0); [exact S|]. intros k. apply argsort_in.
  Qed.
  Lemma gather_nth {A} (l : list A) idx k d d' : (forall j, In j idx -> (j < length l)%nat) -> (k < length idx)%nat -> nth k (gather l idx) d = nth (nth k idx d') l d.
  Proof.
    intros H Hk. rewrite (gather_in_range d) by assumption. rewrite (nth_indep _ d (nth d' l d)) by now rewrite map_length.
    rewrite (map_nth (fun k => nth k l d)). reflexivity.
  Qed.
  Lemma seq_sorted n : forall a, StronglySorted Rle (map INR (seq a n)).
  Proof.
    induction n as [|n IH]; intros a; cbn [seq map]; [constructor|]. constructor; [apply IH|].
    apply Forall_forall. intros x Hx. apply in_map_iff in Hx. destruct Hx as [k [<- Hk]]. apply in_seq in Hk. apply le_INR. lia.
  Qed.
  (** Sorting the sorted positions again inverts the permutation. *)
  Lemma argsort_inverse (l : list R) i : (i < length l)%nat ->
    let sigma := argsort l in let tau := argsort (map INR sigma) in
    (nth i tau 0%nat < length l)%nat /\ nth (nth i tau 0%nat) sigma 0%nat = i.
  Proof.
    intros Hi sigma tau. assert (Ls : length sigma = length l) by apply argsort_len.
    assert (Lt : length tau = length l) by (unfold tau; rewrite argsort_len, map_length; exact Ls).
    assert (It : (nth i tau 0 < length l)%nat).
    { assert (I : In (nth i tau 0%nat) tau) by (apply nth_In; lia). unfold tau at 2 in I. apply argsort_in in I. rewrite map_length in I. lia. }
    split; [assumption|]. destruct (gather_sorted (map INR sigma)) as [P S]. fold tau in P, S.
    assert (E : gather (map INR sigma) tau = map INR (seq 0 (length l))).
    { apply sorted_unique; [assumption| |].
      - apply seq_sorted.
      - rewrite P. apply Permutation_map. unfold sigma. apply (proj1 (AS l)). }
    assert (N : nth i (gather (map INR sigma) tau) 0 = INR i).
    { rewrite E. rewrite (nth_indep _ 0 (INR 0)) by (rewrite map_length, seq_length; lia). rewrite map_nth, seq_nth by assumption. reflexivity. }
    rewrite (gather_nth _ _ _ _ 0%nat) in N; [|unfold tau; apply argsort_in|lia].
    rewrite (nth_indep _ 0 (INR 0)) in N by (rewrite map_length; lia). rewrite map_nth in N. now apply INR_eq.
  Qed.
  Lemma iota_gather n idx : (forall j, In j idx -> (j < n)%nat) -> gather (iota n) idx = map INR idx.
  Proof.
    intros H. assert (L : length (iota n) = n) by (unfold iota; rewrite map_length, zrange_length; lia).
    rewrite (gather_in_range 0) by (rewrite L; exact H). apply map_ext_in. intros k Hk. specialize (H k Hk).
    unfold iota. rewrite nth_map_zrange by lia. cbn [nofZ Rex Rnum]. rewrite INR_IZR_INZ. reflexivity.
  Qed.
  Lemma normalize_spec (l : list R) : (3 <= size l)%Z -> size l <> 4%Z ->
    exists l', normalize_profile polyfit argsort l = Ok l' /\ background_normalised l l'.
  Proof.
    intros Hn H4. set (n := size l) in *. set (d := (n / 4)%Z).
    assert (Hd : (0 <= d)%Z) by (apply Z.div_pos; lia).
    assert (Hd2 : (2 * d + 3 <= n)%Z). { unfold d. pose proof (Z.div_mod n 4 ltac:(lia)). pose proof (Z.mod_pos_bound n 4 ltac:(lia)). lia. }
    set (s := gather l (argsort l)). destruct (gather_sorted l) as [Ps Ss]. fold s in Ps, Ss.
    assert (Ls : length s = length l) by now apply Permutation_length. assert (Sn : size s = n) by (unfold n, size; lia).
    unfold normalize_profile. fold (size l). fold n. fold s.
    rewrite quarter by lia. fold d.
    set (mid := zrange d (n - d - 1)).
    assert (E1 : lslice (iota (length l)) d (- d - 1) = map IZR mid).
    { unfold iota. fold (size l). fold n. rewrite lslice_map, lslice_range by lia. reflexivity. }
    assert (E2 : lslice s d (- d - 1) = map (sample s) mid).
    { rewrite (list_zmap s) at 1. rewrite Sn, lslice_map, lslice_range by lia. reflexivity. }
    rewrite E1, E2. assert (Lm : length mid = Z.to_nat (n - 2 * d - 1)) by (unfold mid; rewrite zrange_length; lia).
    destruct (PF (map IZR mid) (map (sample s) mid) 1%nat) as [v [Ev Pv]].
    { intros E. apply map_eq_nil in E. rewrite E in Lm. change (length (@nil Z)) with 0%nat in Lm. lia. }
    { now rewrite !map_length. }
    rewrite Ev. cbn [bind]. pose proof Pv as [Lv _]. destruct v as [|a1 [|a0 [|]]]; try discriminate.
    assert (A1 : 0 <= a1) by (apply (sorted_slope_nonneg s d (n - d - 1) a1 a0); [assumption|lia|lia|lia|exact Pv]).
    assert (Xl : pyget (iota (length l)) (-1) = Ok (IZR (n - 1))).
    { unfold pyget. assert (L : length (iota (length l)) = length l) by (unfold iota; rewrite map_length, zrange_length; lia). rewrite L.
      change (-1 <? 0)%Z with true. cbv beta iota zeta. fold (size l). fold n.
      destruct (Z.ltb_spec (-1 + n) 0) as [|_]; [lia|]. destruct (Z.leb_spec n (-1 + n)) as [|_]; [lia|]. cbn [orb].
      assert (Q : nth_error (iota (length l)) (Z.to_nat (-1 + n)) = Some (nth (Z.to_nat (-1 + n)) (iota (length l)) 0)).
      { apply nth_error_nth'. rewrite L. unfold n, size in *. lia. }
      rewrite Q. unfold iota. rewrite nth_map_zrange by (unfold n, size in *; lia). cbn [nofZ Rex Rnum]. do 2 f_equal. unfold n, size in *. lia. }
    rewrite Xl. cbn [bind].
    set (fit := map (fun x => nadd (nmul a1 x) a0) (iota (length l))).
    assert (Ef : fit = map (fun k => a1 * IZR k + a0) (zrange 0 n)).
    { unfold fit, iota. rewrite map_map. reflexivity. }
    assert (Lf : length fit = length l) by (rewrite Ef, map_length, zrange_length; unfold n, size; lia).
    match goal with |- context [gather (map ?f (combine fit s)) _] => assert (Er : map f (combine fit s) = fit) end.
    { apply (nth_ext _ _ 0 0); [rewrite map_length, combine_length; lia|]. intros k Hk.
      rewrite map_length, combine_length in Hk.
      rewrite (nth_map_lt _ _ _ _ (0, 0)) by (rewrite combine_length; lia).
      rewrite combine_nth by lia. cbn [fst snd].
      assert (Fk : nth k fit 0 = a1 * INR k + a0).
      { rewrite Ef. rewrite nth_map_zrange by (unfold n, size; lia). rewrite INR_IZR_INZ. reflexivity. }
      rewrite Fk. cbn [nleb nadd nmul Rex Rnum].
      assert (K0 : 0 <= INR k) by apply pos_INR.
      assert (K1 : INR k <= IZR (n - 1)) by (rewrite INR_IZR_INZ; apply IZR_le; unfold n, size; lia).
      rewrite !Rle_bool_true by nra. reflexivity. }
    rewrite Er.
    eexists. split; [reflexivity|]. set (tau := argsort (gather (iota (length l)) (argsort l))).
    assert (Et : tau = argsort (map INR (argsort l))) by (unfold tau; rewrite iota_gather; [reflexivity|apply argsort_in]).
    assert (Lt : length tau = length l) by (rewrite Et, argsort_len, map_length; apply argsort_len).
    assert (INV : forall i, (0 <= i < n)%Z -> (nth (Z.to_nat i) tau 0 < length l)%nat /\ nth (nth (Z.to_nat i) tau 0%nat) (argsort l) 0%nat = Z.to_nat i).
    { intros i Hi. rewrite Et. apply (argsort_inverse l). unfold n, size in *. lia. }
    assert (Tl : forall j, In j tau -> (j < length fit)%nat).
    { intros j Hj. rewrite Et in Hj. apply argsort_in in Hj. rewrite map_length, argsort_len in Hj. lia. }
    exists s, (fun i => Z.of_nat (nth (Z.to_nat i) tau 0%nat)), a1, a0. split; [assumption|]. split; [assumption|].
    split; [|split; [|split; [exact Pv|split]]].
    - intros i Hi. destruct (INV i Hi) as [h1 h2]. split; [unfold size; lia|]. unfold sample. rewrite Nat2Z.id. unfold s.
      rewrite (gather_nth l (argsort l) _ 0 0%nat); [now rewrite h2|apply argsort_in|rewrite argsort_len; exact h1].
    - intros i j Hi Hj E. apply Nat2Z.inj in E. destruct (INV i Hi) as [_ h]. destruct (INV j Hj) as [_ h']. rewrite E in h. rewrite h' in h. unfold n in *. lia.
    - unfold size. rewrite map_length, combine_length. rewrite (gather_in_range 0) by exact Tl. rewrite map_length, Lt. lia.
    - cbv zeta. intros i Hi. destruct (INV i Hi) as [h1 _]. set (k := nth (Z.to_nat i) tau 0%nat) in *.
      assert (Lg : length (gather fit tau) = length l) by (rewrite (gather_in_range 0) by exact Tl; now rewrite map_length).
      unfold sample at 1. rewrite (nth_map_lt _ _ _ _ (0, 0)) by (rewrite combine_length; unfold n, size in *; lia).
      rewrite combine_nth by lia. cbn [fst snd]. change (nth (Z.to_nat i) l 0) with (sample l i).
      rewrite (gather_nth fit tau _ 0 0%nat Tl) by (unfold n, size in *; lia). fold k.
      assert (Fk : nth k fit 0 = a1 * IZR (Z.of_nat k) + a0).
      { rewrite Ef. rewrite nth_map_zrange by (unfold n, size in *; lia). reflexivity. }
      rewrite Fk. cbn [neqb ndiv nmul nadd n1 nofZ Rex Rnum]. change (@n0 R Rex) with 0.
      destruct (Req_EM_T (a1 * IZR (Z.of_nat k) + a0) 0) as [e|e].
      + rewrite e, Req_bool_true by reflexivity. cbn [negb]. rewrite mean_average, Ef, map_map. change (@n1 R Rex) with 1. ring_simplify. reflexivity.
      + rewrite Req_bool_false by assumption. reflexivity.
  Qed.
End Normal.
