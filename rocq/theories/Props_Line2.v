(** Theorems C60, C92, C93: local extrema of profiles. *)
From Coq Require Import Reals ZArith List Lra Lia Psatz Sorted Permutation.
From Flocq Require Import Core.
From Verif Require Import Base Num NumFacts Sorting Img Spec Lsq LsqEx PolyUniq ProcSpec Post PrepImg PrepPts PrepFacts PrepFacts4 PrepImgFacts4 Proc ProcFacts ProcFacts2 ProcFacts5 LosaFacts4 Sorting Line LineFacts LineFacts2 LineFacts3 Props_Line LineSpec.
Import ListNotations.
Local Open Scope R_scope.
Local Existing Instance Rex.

Lemma StronglySorted_filter {A} (P : A -> A -> Prop) f l : StronglySorted P l -> StronglySorted P (filter f l).
Proof.
  induction l as [|a l IH]; intros H; [constructor|]. inversion_clear H. cbn [filter]. destruct (f a); [|auto].
  constructor; [auto|]. rewrite Forall_forall in H1 |- *. intros x Hx. apply filter_In in Hx. apply H1, Hx.
Qed.

(** *** C60 *)
(** Without pre-processing, the positions reported are in increasing order, and
    they are the local minima whose window lies in the profile, save the last
    such window. *)
Theorem C60_reported : forall polyfit exp_ cf gf argsort g3 l requested sensitive, (4 <= size l)%Z ->
  let r := search_radius (size l) requested in
  exists ps, get_local_extrema_points polyfit exp_ cf gf argsort g3 l false requested sensitive false false false None = Ok (map IZR ps) /\
  StronglySorted Z.lt ps /\
  forall i, In i ps <-> (r <= i <= size l - r - 2)%Z /\ local_minimum l r sensitive i.
Proof.
  intros polyfit exp_ cf gf argsort g3 l rq sens Hn r.
  assert (Hr : (1 <= r)%Z). { unfold r, search_radius. assert (1 <= size l / 4)%Z by (apply Z.div_le_lower_bound; lia). lia. }
  exists (filter (is_extremum l r sens) (zrange r (size l - r - 1))). split; [reflexivity|]. split.
  - apply StronglySorted_filter. apply zrange_sorted.
  - intros i. rewrite filter_In, in_zrange. split.
    + intros [h1 h2]. apply is_extremum_spec in h2; [split; [lia|assumption]|lia|lia|lia].
    + intros [h1 h2]. split; [lia|]. apply is_extremum_spec; [lia|lia|lia|assumption].
Qed.
(** Profiles of fewer than four samples. *)
Theorem C60_short : forall polyfit exp_ cf gf argsort g3 l requested sensitive subpixel, (size l < 4)%Z -> 0 <= sensitive ->
  get_local_extrema_points polyfit exp_ cf gf argsort g3 l false requested sensitive false false subpixel None = Ok [].
Proof.
  intros polyfit exp_ cf gf argsort g3 l rq sens sp Hn Hs. unfold get_local_extrema_points, extrema_data, extrema_points. cbn [bind].
  fold (size l). assert (E : extrema_radius (size l) rq = 0%Z).
  { unfold extrema_radius. assert (0 <= size l)%Z by (unfold size; lia). rewrite (Z.div_small (size l) 4) by lia. lia. }
  rewrite E.
  assert (F : filter (is_extremum l 0 sens) (zrange 0 (size l - 0 - 1)) = []).
  { assert (G : forall ps, (forall i, In i ps -> (0 <= i < size l)%Z) -> filter (is_extremum l 0 sens) ps = []).
    { induction ps as [|p ps IH]; intros H; [reflexivity|]. cbn [filter]. rewrite is_extremum_zero by (auto with datatypes). apply IH. auto with datatypes. }
    apply G. intros i Hi. apply in_zrange in Hi. lia. }
  rewrite F. now destruct sp.
Qed.
(** The other options replace the profile before the search. *)
Definition upside_down (l l' : list R) : Prop := exists m, In m l /\ (forall v, In v l -> v <= m) /\ l' = map (fun v => m - v) l.
Theorem C60_maximum : forall polyfit exp_ cf gf argsort g3 l requested sensitive norm subpixel select, l <> [] ->
  exists l', upside_down l l' /\
  get_local_extrema_points polyfit exp_ cf gf argsort g3 l true requested sensitive false norm subpixel select =
  get_local_extrema_points polyfit exp_ cf gf argsort g3 l' false requested sensitive false norm subpixel select.
Proof.
  intros polyfit exp_ cf gf argsort g3 l rq sens nm sp sel Hl.
  destruct (namax l) as [m|e] eqn:E; [|destruct l; [contradiction|discriminate]].
  exists (map (fun v => m - v) l). split.
  - exists m. pose proof E as E'. unfold Rex in E'. apply namax_spec in E'. destruct E' as [h1 h2]. split; [assumption|]. split; [|reflexivity].
    intros v Hv. now apply h2.
  - unfold get_local_extrema_points, extrema_data. rewrite E. reflexivity.
Qed.
Theorem C60_denoise : forall polyfit exp_ cf gf argsort g3 (l : list R) find_max requested sensitive norm subpixel select,
  get_local_extrema_points polyfit exp_ cf gf argsort g3 l find_max requested sensitive true norm subpixel select =
  get_local_extrema_points polyfit exp_ cf gf argsort g3 (g3 l) find_max requested sensitive false norm subpixel select.
Proof. reflexivity. Qed.
Theorem C60_normalised : forall polyfit exp_ cf gf argsort g3 l requested sensitive subpixel select,
  polyfit_oracle polyfit -> argsort_spec argsort -> (3 <= size l)%Z -> size l <> 4%Z ->
  exists l', background_normalised l l' /\
  get_local_extrema_points polyfit exp_ cf gf argsort g3 l false requested sensitive false true subpixel select =
  get_local_extrema_points polyfit exp_ cf gf argsort g3 l' false requested sensitive false false subpixel select.
Proof.
  intros polyfit exp_ cf gf argsort g3 l rq sens sp sel PF AS H3 H4.
  destruct (normalize_spec polyfit PF argsort AS l H3 H4) as [l' [E B]]. exists l'. split; [assumption|].
  unfold get_local_extrema_points, extrema_data. cbn [bind]. rewrite E. reflexivity.
Qed.
(** Two reported positions no further apart than the radius have equal values. *)
Theorem C60_spacing : forall polyfit exp_ cf gf argsort g3 l requested sensitive ps i j, (4 <= size l)%Z ->
  get_local_extrema_points polyfit exp_ cf gf argsort g3 l false requested sensitive false false false None = Ok (map IZR ps) ->
  In i ps -> In j ps -> (Z.abs (i - j) <= search_radius (size l) requested)%Z -> sample l i = sample l j.
Proof.
  intros polyfit exp_ cf gf argsort g3 l rq sens ps i j Hn E Hi Hj D.
  destruct (C60_reported polyfit exp_ cf gf argsort g3 l rq sens Hn) as [qs [E' [_ Q]]]. rewrite E in E'. apply Ok_inj in E'.
  assert (X : ps = qs). { revert E'. clear. revert qs. induction ps as [|p ps IH]; intros [|q qs] E; try discriminate; [reflexivity|]. injection E as e1 e2. apply eq_IZR in e1. f_equal; auto. }
  subst qs. apply Q in Hi. apply Q in Hj. destruct Hi as [_ [Hi _]], Hj as [_ [Hj _]].
  apply Rle_antisym; [apply Hi; lia|apply Hj; lia].
Qed.
(** Sub-pixel positions: the vertex of the parabola through the three samples
    around the minimum, at most half a sample away; on a flat bottom of three
    equal samples the sample to the left. *)
Definition refined (l : list R) (i : Z) : R :=
  let a := sample l (i - 1) in let b := sample l i in let c := sample l (i + 1) in
  if Req_EM_T (a - 2 * b + c) 0 then IZR (i - 1) else IZR i + (a - c) / (2 * (a - 2 * b + c)).
Theorem C60_subpixel : forall polyfit exp_ cf gf argsort g3 l requested sensitive, polyfit_oracle polyfit -> (4 <= size l)%Z ->
  exists ps, get_local_extrema_points polyfit exp_ cf gf argsort g3 l false requested sensitive false false false None = Ok (map IZR ps) /\
  get_local_extrema_points polyfit exp_ cf gf argsort g3 l false requested sensitive false false true None = Ok (map (refined l) ps) /\
  forall i, In i ps -> (Rabs (refined l i - IZR i) <= 1/2) \/
    (sample l (i - 1) = sample l i /\ sample l (i + 1) = sample l i /\ refined l i = IZR i - 1).
Proof.
  intros polyfit exp_ cf gf argsort g3 l rq sens PF Hn.
  assert (Hr : (1 <= search_radius (size l) rq)%Z). { unfold search_radius. assert (1 <= size l / 4)%Z by (apply Z.div_le_lower_bound; lia). lia. }
  destruct (C60_reported polyfit exp_ cf gf argsort g3 l rq sens Hn) as [ps [E [_ Q]]]. exists ps. split; [assumption|].
  assert (K : forall i, In i ps -> (1 <= i)%Z /\ (i + 1 < size l)%Z /\ sample l i <= sample l (i - 1) /\ sample l i <= sample l (i + 1)).
  { intros i Hi. apply Q in Hi. destruct Hi as [h1 [h2 _]]. split; [lia|]. split; [lia|]. split; apply h2; lia. }
  split.
  - change (mapM (fun i => s <- locate_subpixel_point polyfit (lslice l (i - 1) (i + 2)) true ;; Ok (nadd (nofZ (i - 1)) s))
      (filter (is_extremum l (search_radius (size l) rq) sens) (zrange (search_radius (size l) rq) (size l - search_radius (size l) rq - 1))) = Ok (map (refined l) ps)).
    assert (X : filter (is_extremum l (search_radius (size l) rq) sens) (zrange (search_radius (size l) rq) (size l - search_radius (size l) rq - 1)) = ps).
    { change (Ok (map IZR (filter (is_extremum l (search_radius (size l) rq) sens) (zrange (search_radius (size l) rq) (size l - search_radius (size l) rq - 1)))) = Ok (map IZR ps)) in E.
      apply Ok_inj in E. revert E. generalize (filter (is_extremum l (search_radius (size l) rq) sens) (zrange (search_radius (size l) rq) (size l - search_radius (size l) rq - 1))).
      clear. induction ps as [|p ps IH]; intros [|q qs] E; try discriminate; [reflexivity|]. injection E as e1 e2. apply eq_IZR in e1. f_equal; auto. }
    rewrite X. clear X E Q. induction ps as [|i ps IH]; [reflexivity|]. cbn [mapM map].
    destruct (K i (or_introl eq_refl)) as (h1 & h2 & h3 & h4).
    assert (W : lslice l (i - 1) (i + 2) = [sample l (i - 1); sample l i; sample l (i + 1)]).
    { rewrite lslice_zrange by lia. rewrite !zrange_cons by lia. rewrite zrange_nil by lia. cbn [map].
      replace (i - 1 + 1)%Z with i by lia. reflexivity. }
    rewrite W. rewrite IH by auto with datatypes.
    set (a := sample l (i - 1)) in *. set (b := sample l i) in *. set (c := sample l (i + 1)) in *.
    assert (V : forall k, (0 <= k < 3)%Z -> sample [a; b; c] k = (a - 2 * b + c) / 2 * IZR k ^ 2 + (- (3 * a) / 2 + 2 * b - c / 2) * IZR k + a).
    { intros k Hk. assert (C : k = 0%Z \/ k = 1%Z \/ k = 2%Z) by lia. destruct C as [->|[->| ->]]; smp; field. }
    unfold refined. fold a b c. destruct (Req_EM_T (a - 2 * b + c) 0) as [e|e].
    + assert (U0 : (a - 2 * b + c) / 2 = 0) by lra. destruct (C57_fallback polyfit [a; b; c] true _ _ _ PF ltac:(cbn; lia) V (or_introl U0)) as [k [[h5 h6] ->]]. cbn [bind].
      destruct k as [|k].
      * f_equal. f_equal. cbn [nadd nofZ Rex Rnum INR]. ring.
      * exfalso. destruct h6 as [_ h6]. specialize (h6 0%nat ltac:(lia)). cbn [nth] in h6. destruct k as [|[|k]]; cbn [nth length] in *; [lra|lra|lia].
    + assert (Y : - (- (3 * a) / 2 + 2 * b - c / 2) / (2 * ((a - 2 * b + c) / 2)) = 1 + (a - c) / (2 * (a - 2 * b + c))) by (field; lra).
      assert (Bd : - (1/2) <= (a - c) / (2 * (a - 2 * b + c)) <= 1/2).
      { assert (0 < a - 2 * b + c) by lra. split; [apply Rmult_le_reg_r with (2 * (a - 2 * b + c))|apply Rmult_le_reg_r with (2 * (a - 2 * b + c))]; try lra;
        unfold Rdiv; rewrite Rmult_assoc, Rinv_l by lra; lra. }
      assert (U0 : (a - 2 * b + c) / 2 <> 0) by lra. rewrite (C57_vertex polyfit [a; b; c] true _ _ _ PF ltac:(cbn; lia) U0 V).
      * cbn [bind]. rewrite Y. f_equal. f_equal. cbn [nadd nofZ Rex Rnum]. rewrite minus_IZR. ring.
      * rewrite Y. change (size [a; b; c]) with 3%Z. lra.
  - intros i Hi. destruct (K i Hi) as (h1 & h2 & h3 & h4). unfold refined.
    set (a := sample l (i - 1)) in *. set (b := sample l i) in *. set (c := sample l (i + 1)) in *.
    destruct (Req_EM_T (a - 2 * b + c) 0) as [e|e].
    + right. split; [lra|]. split; [lra|]. rewrite minus_IZR. reflexivity.
    + left. replace (IZR i + (a - c) / (2 * (a - 2 * b + c)) - IZR i) with ((a - c) / (2 * (a - 2 * b + c))) by ring.
      assert (0 < a - 2 * b + c) by lra. apply Rabs_le. split; [apply Rmult_le_reg_r with (2 * (a - 2 * b + c))|apply Rmult_le_reg_r with (2 * (a - 2 * b + c))]; try lra;
        unfold Rdiv; rewrite Rmult_assoc, Rinv_l by lra; lra.
Qed.

(** In any arithmetic, with every option: the positions are a selection of
    those searched. *)
Section Range.
  Context {T} {N : Num T}.
  Variable argsort : list T -> list nat.
  Hypothesis AP : forall l, Permutation (argsort l) (seq 0 (length l)).
  Lemma gather_len {A} (l : list A) idx : (forall k, In k idx -> (k < length l)%nat) -> length (gather l idx) = length idx.
  Proof.
    intros H. unfold gather. induction idx as [|k idx IH]; [reflexivity|]. cbn [flat_map]. rewrite app_length, IH by auto with datatypes.
    destruct (nth_error l k) eqn:E; [reflexivity|]. apply nth_error_None in E. specialize (H k (or_introl eq_refl)). lia.
  Qed.
  Lemma normalize_length polyfit (l l' : list T) : normalize_profile polyfit argsort l = Ok l' -> length l' = length l.
  Proof.
    assert (AI : forall l k, In k (argsort l) -> (k < length l)%nat) by (intros l0 k H; apply (Permutation_in _ (AP l0)), in_seq in H; lia).
    assert (AL : forall l, length (argsort l) = length l) by (intros l0; rewrite (Permutation_length (AP l0)); apply seq_length).
    unfold normalize_profile. destruct (polyfit _ _ _) as [f|e]; [|discriminate]. cbn [bind].
    destruct f as [|a1 [|a0 [|]]]; try discriminate. destruct (pyget _ _) as [x|e]; [|discriminate]. cbn [bind]. intros E. apply Ok_inj in E. subst l'.
    assert (Li : length (iota (T := T) (length l)) = length l) by (unfold iota; rewrite map_length, zrange_length; lia).
    assert (Lg : forall A (q : list A), length q = length l -> length (gather q (argsort l)) = length l).
    { intros A q Hq. rewrite gather_len; [apply AL|]. intros k Hk. apply AI in Hk. lia. }
    set (sx := gather (iota (length l)) (argsort l)). set (ss := gather l (argsort l)).
    assert (Lx : length sx = length l) by (apply Lg; exact Li). assert (Ls : length ss = length l) by (apply Lg; reflexivity).
    set (q := map _ (combine (map _ _) ss)). assert (Lq : length q = length l) by (unfold q; rewrite map_length, combine_length, map_length; lia).
    rewrite map_length, combine_length, gather_len, AL; [lia|]. intros k Hk. apply AI in Hk. lia.
  Qed.
  Theorem C60_searched : forall polyfit exp_ cf gf g3 (l : list T) find_max requested sensitive denoise norm select v,
    (forall q, length (g3 q) = length q) ->
    get_local_extrema_points polyfit exp_ cf gf argsort g3 l find_max requested sensitive denoise norm false select = Ok v ->
    let r := search_radius (size l) requested in
    exists keep, v = map nofZ (filter keep (zrange r (size l - r - 1))).
  Proof.
    intros polyfit exp_ cf gf g3 l fm rq sens dn nm sel v G H. unfold get_local_extrema_points in H.
    destruct (extrema_data polyfit argsort g3 l fm dn nm) as [d|e] eqn:E; [|discriminate]. cbn [bind] in H.
    assert (Ld : length d = length l).
    { unfold extrema_data in E. cbn zeta in E. set (l1 := if dn then g3 l else l) in E. assert (L1 : length l1 = length l) by (unfold l1; destruct dn; auto).
      destruct fm.
      - destruct (namax l1) as [m|e]; [|discriminate]. cbn [bind] in E. destruct nm.
        + apply normalize_length in E. rewrite map_length in E. lia.
        + apply Ok_inj in E. subst d. now rewrite map_length.
      - cbn [bind] in E. destruct nm; [apply normalize_length in E; lia|]. apply Ok_inj in E. now subst d. }
    unfold extrema_points in H. rewrite Ld in H. fold (size l) in H. intros r.
    change (extrema_radius (size l) rq) with r in H.
    destruct sel as [[[tol sigma] uo]|].
    - destruct (namax d) as [m|e]; [|discriminate]. cbn [bind] in H.
      match goal with H : context[select_good_peaks ?a ?b ?c ?d ?e ?f ?g ?h ?i] |- _ => destruct (C58_ordered_sublist a b c d e f g h i) as [k Ek]; rewrite Ek in H end.
      cbn [bind] in H. apply Ok_inj in H. subst v. exists (fun i => is_extremum d r sens i && k i)%bool. f_equal.
      generalize (zrange r (size l - r - 1)). intros q. induction q as [|x q IH]; [reflexivity|]. cbn [filter].
      destruct (is_extremum d r sens x); cbn [andb]; [|exact IH]. cbn [filter]. destruct (k x); [f_equal|]; exact IH.
    - cbn [bind] in H. apply Ok_inj in H. subst v. eexists. reflexivity.
  Qed.
(** select_peaks=True: the positions found without it are handed to
      select_good_peaks, with the same radius and the keyword arguments. *)
  Theorem C60_selected : forall polyfit exp_ cf gf g3 (l : list T) requested sensitive tol sigma use_offset m,
    namax l = Ok m ->
    exists ps, get_local_extrema_points polyfit exp_ cf gf argsort g3 l false requested sensitive false false false None = Ok (map nofZ ps) /\
    get_local_extrema_points polyfit exp_ cf gf argsort g3 l false requested sensitive false false false (Some (tol, sigma, use_offset)) =
    res_map (map nofZ) (select_good_peaks exp_ cf gf (map (fun v => nsub m v) l) ps tol (search_radius (size l) requested) sigma use_offset).
  Proof.
    intros polyfit exp_ cf gf g3 l rq sens tol sigma uo m Hm. unfold get_local_extrema_points, extrema_data, extrema_points. cbn [bind].
    rewrite Hm. cbn [bind]. eexists. split; [reflexivity|]. fold (size l). change (extrema_radius (size l) rq) with (search_radius (size l) rq).
    match goal with |- bind ?x _ = res_map _ ?y => change y with x; destruct x; reflexivity end.
  Qed.
End Range.
Theorem C60_searched_range : forall {T} {N : Num T} argsort polyfit exp_ cf gf g3 (l : list T) find_max requested sensitive denoise norm select v,
  (forall q, Permutation (argsort q) (seq 0 (length q))) -> (forall q, length (g3 q) = length q) ->
  get_local_extrema_points polyfit exp_ cf gf argsort g3 l find_max requested sensitive denoise norm false select = Ok v ->
  let r := search_radius (size l) requested in
  forall x, In x v -> exists i, (r <= i <= size l - r - 2)%Z /\ x = nofZ i.
Proof.
  intros T N argsort polyfit exp_ cf gf g3 l fm rq sens dn nm sel v AP G H r x Hx.
  destruct (C60_searched argsort AP _ _ _ _ _ _ _ _ _ _ _ _ _ G H) as [k ->]. apply in_map_iff in Hx. destruct Hx as [i [<- Hi]].
  apply filter_In in Hi. destruct Hi as [Hi _]. apply in_zrange in Hi. fold r in Hi. exists i. split; [lia|reflexivity].
Qed.

(** Deciding concrete windows. *)
Lemma upper_level_unique w r m s : StronglySorted Rle s -> Permutation s w -> upper_level w r m -> m = average (skipn (length w - r) s).
Proof. intros S P [s' (P' & S' & ->)]. rewrite (PrepFacts4.sorted_unique s' s); [reflexivity|assumption|assumption|]. now rewrite P', P. Qed.
Lemma upper_level_const w r c : (forall v, In v w -> v = c) -> forall m, upper_level w r m -> (1 <= r <= length w)%nat -> m = c.
Proof.
  intros H m [s (P & S & ->)] Hr. apply average_const.
  - intros E. apply (f_equal (@length R)) in E. rewrite skipn_length, (Permutation_length P) in E. cbn in E. lia.
  - intros v Hv. apply H. apply (Permutation_in _ P). rewrite <- (firstn_skipn (length w - r) s). apply in_or_app. now right.
Qed.
Lemma reported_list polyfit exp_ cf gf argsort g3 l requested sensitive qs : (4 <= size l)%Z ->
  let r := search_radius (size l) requested in StronglySorted Z.lt qs ->
  (forall i, (r <= i <= size l - r - 2)%Z -> In i qs <-> local_minimum l r sensitive i) ->
  (forall i, In i qs -> (r <= i <= size l - r - 2)%Z) ->
  get_local_extrema_points polyfit exp_ cf gf argsort g3 l false requested sensitive false false false None = Ok (map IZR qs).
Proof.
  intros Hn r S H R. destruct (C60_reported polyfit exp_ cf gf argsort g3 l requested sensitive Hn) as [ps [E [Sp Q]]]. fold r in Q.
  rewrite E. do 2 f_equal. apply (LosaFacts4.sorted_unique ps qs Sp S). intros i. rewrite Q. split.
  - intros [h1 h2]. now apply H.
  - intros h. split; [auto|]. apply H; auto.
Qed.
(** Evaluating a window of a literal profile. *)
Lemma minimum_if l r sens i s : (forall j, (i - r <= j <= i + r)%Z -> sample l i <= sample l j) ->
  Permutation s (near_window l i r) -> StronglySorted Rle s ->
  sens < relative_depth (sample l i) (average (skipn (length (near_window l i r) - Z.to_nat r) s)) -> local_minimum l r sens i.
Proof. intros H P S D. split; [assumption|]. eexists. split; [|exact D]. exists s. auto. Qed.
Lemma not_minimum_flat l r sens i c : (0 <= sens) -> (1 <= r)%Z -> (r <= i)%Z -> (i + r < size l)%Z ->
  (forall v, In v (near_window l i r) -> v = c) -> ~ local_minimum l r sens i.
Proof.
  intros Hs Hr Hi Hn H [_ [m [U D]]].
  pose proof (near_window_size l i r) as L. unfold size in L, Hn.
  apply (upper_level_const _ _ c H) in U; [|unfold size in *; lia]. subst m.
  assert (E : sample l i = c). { apply H. unfold near_window. apply in_map_iff. exists i. split; [reflexivity|]. apply in_zrange. unfold size. lia. }
  unfold relative_depth in D. rewrite E in D. destruct (Req_EM_T c 0); [lra|]. replace ((c - c) / c) with 0 in D by (field; assumption). rewrite Rabs_R0 in D. lra.
Qed.
Definition two_dips : list R := [3; 1; 3; 3; 3; 3; 1; 3].
Ltac win := cbv [near_window size two_dips]; cbn [length Z.of_nat Pos.of_succ_nat Pos.succ];
  repeat match goal with |- context[zrange ?a ?b] => let z := eval vm_compute in (zrange a b) in change (zrange a b) with z end;
  cbn [map]; unfold sample; repeat match goal with |- context[Z.to_nat ?z] => let n := eval vm_compute in (Z.to_nat z) in change (Z.to_nat z) with n end; cbn [nth].
Lemma two_dips_6 : local_minimum two_dips 1 (1/10) 6.
Proof.
  apply (minimum_if _ _ _ _ [1; 3; 3]).
  - intros j Hj. assert (C : j = 5%Z \/ j = 6%Z \/ j = 7%Z) by lia. destruct C as [->|[->| ->]]; win; lra.
  - win. apply perm_swap.
  - repeat constructor; lra.
  - win. cbn [length Nat.sub skipn]. unfold average. cbn [Rsum length INR]. unfold relative_depth. destruct (Req_EM_T _ 0); [lra|].
    replace ((1 - (3 + 0) / 1) / ((3 + 0) / 1)) with (-(2/3)) by field. rewrite Rabs_Ropp, Rabs_pos_eq; lra.
Qed.
Lemma two_dips_1 : local_minimum two_dips 1 (1/10) 1.
Proof.
  apply (minimum_if _ _ _ _ [1; 3; 3]).
  - intros j Hj. assert (C : j = 0%Z \/ j = 1%Z \/ j = 2%Z) by lia. destruct C as [->|[->| ->]]; win; lra.
  - win. apply perm_swap.
  - repeat constructor; lra.
  - win. cbn [length Nat.sub skipn]. unfold average. cbn [Rsum length INR]. unfold relative_depth. destruct (Req_EM_T _ 0); [lra|].
    replace ((1 - (3 + 0) / 1) / ((3 + 0) / 1)) with (-(2/3)) by field. rewrite Rabs_Ropp, Rabs_pos_eq; lra.
Qed.
Example C60_two_dips : forall polyfit exp_ cf gf argsort g3,
  get_local_extrema_points polyfit exp_ cf gf argsort g3 two_dips false 1 (1/10) false false false None = Ok [1].
Proof.
  intros polyfit exp_ cf gf argsort g3. apply (reported_list polyfit exp_ cf gf argsort g3 two_dips 1 (1/10) [1]%Z).
  - change (4 <= 8)%Z. lia.
  - repeat constructor.
  - change (size two_dips) with 8%Z. change (search_radius 8 1) with 1%Z. intros i Hi.
    assert (C : i = 1%Z \/ i = 2%Z \/ i = 3%Z \/ i = 4%Z \/ i = 5%Z) by lia. destruct C as [->|[->|[->|[->| ->]]]].
    + split; [intros _; exact two_dips_1|intros _; now left].
    + split; [cbn; lia|]. intros [H _]. specialize (H 1%Z ltac:(lia)). revert H. win. lra.
    + split; [cbn; lia|]. intros H. exfalso. revert H. apply (not_minimum_flat _ _ _ _ 3); [lra|lia|lia|change (size two_dips) with 8%Z; lia|].
      win. intros v Hv. cbn [In] in Hv. tauto || (destruct Hv as [<-|[<-|[<-|[]]]]; reflexivity).
    + split; [cbn; lia|]. intros H. exfalso. revert H. apply (not_minimum_flat _ _ _ _ 3); [lra|lia|lia|change (size two_dips) with 8%Z; lia|].
      win. intros v Hv. cbn [In] in Hv. tauto || (destruct Hv as [<-|[<-|[<-|[]]]]; reflexivity).
    + split; [cbn; lia|]. intros [H _]. specialize (H 6%Z ltac:(lia)). revert H. win. lra.
  - change (size two_dips) with 8%Z. change (search_radius 8 1) with 1%Z. intros i [<-|[]]. lia.
Qed.
(** The last position with a full window is not searched: the second of two
    equal dips is missed. *)
Theorem C60_all_minima_refuted : exists l requested sensitive i, let r := search_radius (size l) requested in
  (r <= i)%Z /\ (i + r < size l)%Z /\ local_minimum l r sensitive i /\
  forall polyfit exp_ cf gf argsort g3, exists v,
  get_local_extrema_points polyfit exp_ cf gf argsort g3 l false requested sensitive false false false None = Ok v /\ ~ In (IZR i) v.
Proof.
  exists two_dips, 1%Z, (1/10), 6%Z. change (size two_dips) with 8%Z. change (search_radius 8 1) with 1%Z. cbv zeta.
  split; [lia|]. split; [lia|]. split; [exact two_dips_6|]. intros. eexists. split; [apply C60_two_dips|].
  intros [H|[]]. lra.
Qed.
(** A flat bottom of three samples: positions 2, 3, 4 become 5/2, 2, 7/2, and
    the sub-pixel positions are not in increasing order. *)
Definition flat_dip : list R := [3; 3; 1; 1; 1; 3; 3; 3].
Theorem C60_subpixel_order_refuted : exists l requested sensitive, forall polyfit exp_ cf gf argsort g3, polyfit_oracle polyfit ->
  get_local_extrema_points polyfit exp_ cf gf argsort g3 l false requested sensitive false false false None = Ok [2; 3; 4] /\
  get_local_extrema_points polyfit exp_ cf gf argsort g3 l false requested sensitive false false true None = Ok [5/2; 2; 7/2].
Proof.
  exists flat_dip, 2%Z, (1/10). intros polyfit exp_ cf gf argsort g3 PF.
  assert (E : get_local_extrema_points polyfit exp_ cf gf argsort g3 flat_dip false 2 (1/10) false false false None = Ok (map IZR [2; 3; 4]%Z)).
  { apply reported_list.
    - change (4 <= 8)%Z. lia.
    - repeat constructor; lia.
    - change (size flat_dip) with 8%Z. change (search_radius 8 2) with 2%Z. intros i Hi.
      assert (C : i = 2%Z \/ i = 3%Z \/ i = 4%Z) by lia. split; [intros _|intros _; cbn; lia].
      destruct C as [->|[->| ->]]; apply (minimum_if _ _ _ _ [1; 1; 1; 3; 3]).
      all: try (repeat constructor; lra).
      + intros j Hj. assert (C : j = 0%Z \/ j = 1%Z \/ j = 2%Z \/ j = 3%Z \/ j = 4%Z) by lia. destruct C as [->|[->|[->|[->| ->]]]]; unfold flat_dip; win; lra.
      + unfold flat_dip; win. change [1; 1; 1; 3; 3] with ([1; 1; 1] ++ [3; 3]). change [3; 3; 1; 1; 1] with ([3; 3] ++ [1; 1; 1]). apply Permutation_app_comm.
      + unfold flat_dip; win. cbn [length Nat.sub skipn]. unfold average. cbn [Rsum length INR]. unfold relative_depth. destruct (Req_EM_T _ 0); [lra|].
        match goal with |- _ < Rabs ?x => replace x with (-(2/3)) by field end. rewrite Rabs_Ropp, Rabs_pos_eq; lra.
      + intros j Hj. assert (C : j = 1%Z \/ j = 2%Z \/ j = 3%Z \/ j = 4%Z \/ j = 5%Z) by lia. destruct C as [->|[->|[->|[->| ->]]]]; unfold flat_dip; win; lra.
      + unfold flat_dip; win. change [1; 1; 1; 3; 3] with ([1; 1; 1; 3] ++ [3]). change [3; 1; 1; 1; 3] with ([3] ++ [1; 1; 1; 3]). apply Permutation_app_comm.
      + unfold flat_dip; win. cbn [length Nat.sub skipn]. unfold average. cbn [Rsum length INR]. unfold relative_depth. destruct (Req_EM_T _ 0); [lra|].
        match goal with |- _ < Rabs ?x => replace x with (-(2/3)) by field end. rewrite Rabs_Ropp, Rabs_pos_eq; lra.
      + intros j Hj. assert (C : j = 2%Z \/ j = 3%Z \/ j = 4%Z \/ j = 5%Z \/ j = 6%Z) by lia. destruct C as [->|[->|[->|[->| ->]]]]; unfold flat_dip; win; lra.
      + unfold flat_dip; win. cbn [length Nat.sub skipn]. unfold average. cbn [Rsum length INR]. unfold relative_depth. destruct (Req_EM_T _ 0); [lra|].
        match goal with |- _ < Rabs ?x => replace x with (-(2/3)) by field end. rewrite Rabs_Ropp, Rabs_pos_eq; lra.
    - change (size flat_dip) with 8%Z. change (search_radius 8 2) with 2%Z. intros i Hi. cbn in Hi. lia. }
  split; [exact E|].
  destruct (C60_subpixel polyfit exp_ cf gf argsort g3 flat_dip 2 (1/10) PF ltac:(change (4 <= 8)%Z; lia)) as [ps [E1 [E2 _]]].
  rewrite E in E1. apply Ok_inj in E1. assert (X : [2; 3; 4]%Z = ps).
  { destruct ps as [|p1 [|p2 [|p3 [|]]]]; try discriminate. cbn [map] in E1. injection E1 as h1 h2 h3. apply eq_IZR in h1, h2, h3. now subst. }
  subst ps. rewrite E2. f_equal. cbn [map]. unfold refined, flat_dip. win.
  repeat (destruct (Req_EM_T _ 0); try lra). match goal with |- [?a; ?b; ?c] = [?d; ?e; ?f] => replace a with d by (cbn; field); replace c with f by (cbn; field) end. reflexivity.
Qed.
Print Assumptions C60_reported.
Print Assumptions C60_short.
Print Assumptions C60_maximum.
Print Assumptions C60_normalised.
Print Assumptions C60_spacing.
Print Assumptions C60_subpixel.
Print Assumptions C60_searched.
Print Assumptions C60_searched_range.
Print Assumptions C60_selected.
Print Assumptions C60_all_minima_refuted.
Print Assumptions C60_subpixel_order_refuted.

(** *** C92: the brightness scale does not matter *)
Lemma near_window_scale c l i r : near_window (map (fun v => c * v) l) i r = map (fun v => c * v) (near_window l i r).
Proof.
  unfold near_window. rewrite size_map, map_map. apply map_ext_in. intros k Hk. apply in_zrange in Hk. apply sample_map. lia.
Qed.
Lemma sorted_scale c l : 0 < c -> StronglySorted Rle l -> StronglySorted Rle (map (fun v => c * v) l).
Proof.
  intros Hc H. induction H as [|x l H IH F]; [constructor|]. cbn [map]. constructor; [exact IH|].
  apply Forall_forall. intros y Hy. apply in_map_iff in Hy. destruct Hy as [z [<- Hz]]. rewrite Forall_forall in F. apply Rmult_le_compat_l; [lra|auto].
Qed.
Lemma minimum_scale_1 c l r sens i : 0 < c -> (r <= i)%Z -> (i + r < size l)%Z -> (0 <= r)%Z -> local_minimum l r sens i -> local_minimum (map (fun v => c * v) l) r sens i.
Proof.
  intros Hc H1 H2 H3 [H [m [[s (P & S & ->)] D]]]. split.
  - intros j Hj. rewrite !sample_map by lia. apply Rmult_le_compat_l; [lra|auto].
  - exists (c * average (skipn (length (near_window l i r) - Z.to_nat r) s)). split.
    + exists (map (fun v => c * v) s). split; [rewrite near_window_scale; now apply Permutation_map|]. split; [now apply sorted_scale|].
      rewrite near_window_scale, map_length, skipn_map. symmetry. apply average_mul.
    + set (a := average _) in *. rewrite sample_map by lia. unfold relative_depth in *. destruct (Req_EM_T a 0) as [e|e], (Req_EM_T (c * a) 0) as [e'|e'].
      * assumption.
      * rewrite e in e'. lra.
      * apply Rmult_integral in e'. lra.
      * replace ((c * sample l i - c * a) / (c * a)) with ((sample l i - a) / a) by (field; lra). assumption.
Qed.
Lemma scale_back c l : 0 < c -> map (fun v => / c * v) (map (fun v => c * v) l) = l.
Proof. intros Hc. rewrite map_map. rewrite <- (map_id l) at 2. apply map_ext. intros v. field. lra. Qed.
Lemma minimum_scale c l r sens i : 0 < c -> (r <= i)%Z -> (i + r < size l)%Z -> (0 <= r)%Z -> local_minimum (map (fun v => c * v) l) r sens i <-> local_minimum l r sens i.
Proof.
  intros Hc H1 H2 H3. split; [|now apply minimum_scale_1]. intros H. rewrite <- (scale_back c l Hc).
  apply minimum_scale_1; try assumption; [now apply Rinv_0_lt_compat|now rewrite size_map].
Qed.
Lemma refined_scale c l i : c <> 0 -> (1 <= i)%Z -> (i + 1 < size l)%Z -> refined (map (fun v => c * v) l) i = refined l i.
Proof.
  intros Hc H1 H2. unfold refined. rewrite !sample_map by lia. set (x := sample l (i - 1)). set (y := sample l i). set (z := sample l (i + 1)).
  destruct (Req_EM_T (x - 2 * y + z) 0) as [e|e].
  - destruct (Req_EM_T (c * x - 2 * (c * y) + c * z) 0) as [e'|e']; [reflexivity|]. exfalso. apply e'. replace (c * x - 2 * (c * y) + c * z) with (c * (x - 2 * y + z)) by ring. rewrite e. ring.
  - destruct (Req_EM_T (c * x - 2 * (c * y) + c * z) 0) as [e'|e'].
    + exfalso. replace (c * x - 2 * (c * y) + c * z) with (c * (x - 2 * y + z)) in e' by ring. apply Rmult_integral in e'. tauto.
    + f_equal. replace (c * x - 2 * (c * y) + c * z) with (c * (x - 2 * y + z)) in * by ring. field. tauto.
Qed.
Theorem C92_scale : forall polyfit exp_ cf gf argsort g3 l requested sensitive find_max subpixel c,
  polyfit_oracle polyfit -> (4 <= size l)%Z -> 0 < c ->
  get_local_extrema_points polyfit exp_ cf gf argsort g3 (map (fun v => c * v) l) find_max requested sensitive false false subpixel None =
  get_local_extrema_points polyfit exp_ cf gf argsort g3 l find_max requested sensitive false false subpixel None.
Proof.
  assert (M : forall polyfit exp_ cf gf argsort g3 l rq sens subpixel c, polyfit_oracle polyfit -> (4 <= size l)%Z -> 0 < c ->
    get_local_extrema_points polyfit exp_ cf gf argsort g3 (map (fun v => c * v) l) false rq sens false false subpixel None =
    get_local_extrema_points polyfit exp_ cf gf argsort g3 l false rq sens false false subpixel None).
  { intros polyfit exp_ cf gf argsort g3 l rq sens sp c PF Hn Hc.
    destruct (C60_subpixel polyfit exp_ cf gf argsort g3 l rq sens PF Hn) as [ps [E [Es _]]].
    destruct (C60_subpixel polyfit exp_ cf gf argsort g3 (map (fun v => c * v) l) rq sens PF ltac:(now rewrite size_map)) as [qs [F [Fs _]]].
    destruct (C60_reported polyfit exp_ cf gf argsort g3 l rq sens Hn) as [ps' [E' [Sp P]]].
    destruct (C60_reported polyfit exp_ cf gf argsort g3 (map (fun v => c * v) l) rq sens ltac:(now rewrite size_map)) as [qs' [F' [Sq Q]]].
    rewrite size_map in Q. set (r := search_radius (size l) rq) in *.
    assert (Hr : (1 <= r)%Z). { unfold r, search_radius. assert (1 <= size l / 4)%Z by (apply Z.div_le_lower_bound; lia). lia. }
    assert (INJ : forall a b : list Z, map IZR a = map IZR b -> a = b).
    { induction a as [|p a IH]; intros [|q b] X; try discriminate; [reflexivity|]. injection X as e1 e2. apply eq_IZR in e1. f_equal; auto. }
    assert (ps' = ps) by (apply INJ, Ok_inj; congruence). assert (qs' = qs) by (apply INJ, Ok_inj; congruence). subst ps' qs'.
    assert (qs = ps).
    { apply (LosaFacts4.sorted_unique _ _ Sq Sp). intros i. rewrite P, Q. split; intros [h1 h2]; (split; [assumption|]); apply (minimum_scale c l r sens i); (assumption || lia). }
    subst qs. destruct sp; [|congruence]. rewrite Es, Fs. f_equal. apply map_ext_in. intros i Hi. apply P in Hi. apply refined_scale; [lra|lia|lia]. }
  intros polyfit exp_ cf gf argsort g3 l rq sens fm sp c PF Hn Hc. destruct fm; [|now apply M].
  assert (Ne : l <> []) by (intros ->; cbn in Hn; lia).
  destruct (C60_maximum polyfit exp_ cf gf argsort g3 l rq sens false sp None Ne) as [l1 [[m (I & B & ->)] ->]].
  destruct (C60_maximum polyfit exp_ cf gf argsort g3 (map (fun v => c * v) l) rq sens false sp None) as [l2 [[m' (I' & B' & ->)] ->]].
  { intros E. apply map_eq_nil in E. contradiction. }
  assert (m' = c * m).
  { apply Rle_antisym.
    - apply in_map_iff in I'. destruct I' as [v [<- Hv]]. apply Rmult_le_compat_l; [lra|auto].
    - apply B'. apply in_map_iff. eauto. }
  subst m'. rewrite <- (M polyfit exp_ cf gf argsort g3 (map (fun v => m - v) l) rq sens sp c PF); [|now rewrite size_map|assumption].
  rewrite !map_map. f_equal. apply map_ext. intros v. ring.
Qed.
(** An offset does matter: the same two dips on a bright background are not
    reported. *)
Theorem C92_offset_refuted : exists l requested sensitive c, 0 < c /\ forall polyfit exp_ cf gf argsort g3,
  get_local_extrema_points polyfit exp_ cf gf argsort g3 l false requested sensitive false false false None = Ok [1] /\
  get_local_extrema_points polyfit exp_ cf gf argsort g3 (map (fun v => c + v) l) false requested sensitive false false false None = Ok [].
Proof.
  exists two_dips, 1%Z, (1/10), 97. split; [lra|]. intros polyfit exp_ cf gf argsort g3. split; [apply C60_two_dips|].
  apply (reported_list polyfit exp_ cf gf argsort g3 _ 1 (1/10) []).
  - rewrite size_map. change (4 <= 8)%Z. lia.
  - constructor.
  - rewrite size_map. change (size two_dips) with 8%Z. change (search_radius 8 1) with 1%Z. intros i Hi. split; [intros []|]. intros [H [m [U D]]]. exfalso.
    destruct U as [s (P & Ss & ->)].
    assert (L : length s = length (near_window (map (fun v => 97 + v) two_dips) i 1)) by now apply Permutation_length.
    assert (B : forall v, In v s -> 98 <= v <= 100).
    { intros v Hv. apply (Permutation_in _ P) in Hv. unfold near_window in Hv. rewrite size_map in Hv. apply in_map_iff in Hv. destruct Hv as [k [<- Hk]]. apply in_zrange in Hk.
      rewrite sample_map by lia. change (size two_dips) with 8%Z in Hk.
      assert (C : k = 0%Z \/ k = 1%Z \/ k = 2%Z \/ k = 3%Z \/ k = 4%Z \/ k = 5%Z \/ k = 6%Z \/ k = 7%Z) by lia.
      destruct C as [->|[->|[->|[->|[->|[->|[->| ->]]]]]]]; win; lra. }
    assert (B2 : 98 <= sample (map (fun v => 97 + v) two_dips) i <= 100).
    { rewrite sample_map by (change (size two_dips) with 8%Z; lia).
      assert (C : i = 1%Z \/ i = 2%Z \/ i = 3%Z \/ i = 4%Z \/ i = 5%Z) by lia. destruct C as [->|[->|[->|[->| ->]]]]; win; lra. }
    pose proof (near_window_size (map (fun v => 97 + v) two_dips) i 1) as W. rewrite size_map in W. change (size two_dips) with 8%Z in W.
    assert (W3 : length (near_window (map (fun v => 97 + v) two_dips) i 1) = 3%nat) by (unfold size in W; lia).
    rewrite W3 in *. destruct s as [|s1 [|s2 [|s3 [|]]]]; try discriminate.
    change (Z.to_nat 1) with 1%nat in D. cbn [Nat.sub skipn] in D. unfold average in D. cbn [Rsum length INR] in D.
    pose proof (B s3 ltac:(cbn; tauto)) as B3. replace ((s3 + 0) / 1) with s3 in D by field.
    unfold relative_depth in D. destruct (Req_EM_T s3 0); [lra|]. set (x := sample _ i) in *.
    assert (Rabs ((x - s3) / s3) <= 1/10); [|lra].
    apply Rabs_le. split; [apply Rmult_le_reg_r with s3|apply Rmult_le_reg_r with s3]; try lra; unfold Rdiv; rewrite (Rmult_assoc (x - s3)), Rinv_l by assumption; lra.
  - intros i [].
Qed.
Example C92_ex : forall exp_ cf gf argsort g3,
  get_local_extrema_points pf_R exp_ cf gf argsort g3 (map (fun v => 7 * v) two_dips) false 1 (1/10) false false false None = Ok [1].
Proof. intros. rewrite C92_scale; [apply C60_two_dips|exact pf_R_ok|change (4 <= 8)%Z; lia|lra]. Qed.
Print Assumptions C92_scale.
Print Assumptions C92_offset_refuted.

(** *** C93: background normalisation *)
Definition middle (n : Z) : list Z := zrange (n / 4) (n - n / 4 - 1).
Lemma middle_distinct n : (3 <= n)%Z -> n <> 4%Z -> distinct_values 2 (map IZR (middle n)).
Proof.
  intros H1 H2. set (d := (n / 4)%Z).
  assert (Hd2 : (0 <= d)%Z /\ (2 * d + 3 <= n)%Z). { unfold d. pose proof (Z.div_mod n 4 ltac:(lia)). pose proof (Z.mod_pos_bound n 4 ltac:(lia)). split; [apply Z.div_pos; lia|lia]. }
  exists [IZR d; IZR (d + 1)]. split; [|split].
  - constructor; [|constructor; [intros []|constructor]]. intros [E|[]]. apply eq_IZR in E. lia.
  - intros x Hx. destruct Hx as [<-|[<-|[]]]; apply in_map; apply in_zrange; fold d; lia.
  - reflexivity.
Qed.
Lemma middle_fit s n a c v : (3 <= n)%Z -> n <> 4%Z -> (forall k, (0 <= k < n)%Z -> sample s k = a * IZR k + c) ->
  polyfit_spec 1 (map IZR (middle n)) (map (sample s) (middle n)) v -> v = [a; c].
Proof.
  intros H1 H2 H P. apply (polyfit_unique 1 _ _ _ [a; c] P eq_refl); [now rewrite !map_length|now apply middle_distinct|].
  assert (K : forall m, (forall i, In i m -> (0 <= i < n)%Z) -> Forall2 (fun x y => y = evh [a; c] x) (map IZR m) (map (sample s) m)).
  { induction m as [|i m IH]; intros Hm; cbn [map]; constructor; [rewrite H by (apply Hm; now left); cbn; ring|]. apply IH. intros; apply Hm; now right. }
  apply K. intros i Hi. apply in_zrange in Hi. assert (0 <= n / 4)%Z by (apply Z.div_pos; lia). lia.
Qed.
Lemma zrange_map_sample (f : Z -> R) n k : (0 <= k < n)%Z -> sample (map f (zrange 0 n)) k = f k.
Proof. intros H. unfold sample. rewrite nth_map_zrange by lia. f_equal. lia. Qed.
Lemma line_sorted c d : 0 <= d -> forall m a, StronglySorted Rle (map (fun k => c + d * IZR k) (zrange a (a + Z.of_nat m))).
Proof.
  intros Hd m. induction m as [|m IH]; intros a.
  - rewrite zrange_nil by lia. constructor.
  - rewrite zrange_cons by lia. cbn [map]. specialize (IH (a + 1)%Z). replace (a + 1 + Z.of_nat m)%Z with (a + Z.of_nat (S m))%Z in IH by lia. constructor; [exact IH|].
    apply Forall_forall. intros x Hx. apply in_map_iff in Hx. destruct Hx as [k [<- Hk]]. apply in_zrange in Hk.
    assert (IZR a <= IZR k) by (apply IZR_le; lia). nra.
Qed.
(** Samples which in some order are evenly spaced, and none of them zero: the
    normalised profile is 1 everywhere. *)
Definition evenly_spaced (l : list R) (c d : R) : Prop :=
  Permutation l (map (fun k => c + d * IZR k) (zrange 0 (size l))) /\ 0 <= d /\ forall v, In v l -> v <> 0.
Lemma even_sorted l c d s : evenly_spaced l c d -> Permutation s l -> StronglySorted Rle s -> forall k, (0 <= k < size l)%Z -> sample s k = d * IZR k + c.
Proof.
  intros (P & Hd & _) Ps Ss k Hk.
  assert (E : s = map (fun k => c + d * IZR k) (zrange 0 (size l))).
  { apply PrepFacts4.sorted_unique; [assumption| |now rewrite Ps]. exact (line_sorted c d Hd (length l) 0). }
  rewrite E, zrange_map_sample by assumption. ring.
Qed.
Lemma even_normalised l c d l' : evenly_spaced l c d -> (3 <= size l)%Z -> size l <> 4%Z -> background_normalised l l' ->
  forall i, (0 <= i < size l)%Z -> sample l' i = 1.
Proof.
  intros Ev H3 H4 (s & rank & a1 & a0 & Ps & Ss & Rk & _ & Pf & _ & Q) i Hi.
  pose proof (even_sorted l c d s Ev Ps Ss) as V. cbv zeta in Pf.
  pose proof (middle_fit s (size l) d c [a1; a0] H3 H4 V Pf) as W. injection W as -> ->.
  rewrite Q by assumption. destruct (Rk i Hi) as [h1 h2]. rewrite V in h2 by assumption.
  assert (N0 : sample l i <> 0). { destruct Ev as (_ & _ & N0). apply N0. unfold sample. apply nth_In. unfold size in Hi. lia. }
  rewrite h2. destruct (Req_EM_T (sample l i) 0); [contradiction|]. field. assumption.
Qed.
Lemma ones_nothing polyfit exp_ cf gf argsort g3 l rq sens sp : polyfit_oracle polyfit -> 0 <= sens ->
  (forall i, (0 <= i < size l)%Z -> sample l i = 1) ->
  get_local_extrema_points polyfit exp_ cf gf argsort g3 l false rq sens false false sp None = Ok [].
Proof.
  intros PF Hs H. destruct (Z.ltb_spec (size l) 4) as [h|h]; [now apply C60_short|].
  assert (E : get_local_extrema_points polyfit exp_ cf gf argsort g3 l false rq sens false false false None = Ok (map IZR [])).
  { apply reported_list; [assumption|constructor| |intros i []].
    intros i Hi. split; [intros []|]. intros M. exfalso. revert M.
    assert (1 <= search_radius (size l) rq)%Z. { unfold search_radius. assert (1 <= size l / 4)%Z by (apply Z.div_le_lower_bound; lia). lia. }
    apply (not_minimum_flat _ _ _ _ 1); [assumption|lia|lia|lia|]. intros v Hv. unfold near_window in Hv. apply in_map_iff in Hv. destruct Hv as [k [<- Hk]].
    apply in_zrange in Hk. apply H. lia. }
  destruct sp; [|exact E]. destruct (C60_subpixel polyfit exp_ cf gf argsort g3 l rq sens PF h) as [ps [E1 [E2 _]]]. rewrite E in E1. apply Ok_inj in E1.
  destruct ps; [|discriminate]. exact E2.
Qed.
(** Constant profiles, ramps and all rearrangements of a ramp: with
    background normalisation nothing is reported, however deep the dips. *)
Theorem C93_even : forall polyfit exp_ cf gf argsort g3 l c d requested sensitive subpixel,
  polyfit_oracle polyfit -> argsort_spec argsort -> (3 <= size l)%Z -> size l <> 4%Z -> 0 <= sensitive -> evenly_spaced l c d ->
  get_local_extrema_points polyfit exp_ cf gf argsort g3 l false requested sensitive false true subpixel None = Ok [].
Proof.
  intros polyfit exp_ cf gf argsort g3 l c d rq sens sp PF AS H3 H4 Hs Ev.
  destruct (C60_normalised polyfit exp_ cf gf argsort g3 l rq sens sp None PF AS H3 H4) as [l' [B ->]].
  assert (Sz : size l' = size l) by (destruct B as (? & ? & ? & ? & _ & _ & _ & _ & _ & e & _); exact e).
  apply ones_nothing; [assumption|assumption|]. rewrite Sz. now apply (even_normalised l c d).
Qed.
(** Distinct samples: the result does not depend on the scale, provided the
    background line has no zero at a sample. *)
Definition background_nonzero (l : list R) : Prop :=
  forall s a1 a0, Permutation s l -> StronglySorted Rle s ->
  polyfit_spec 1 (map IZR (middle (size l))) (map (sample s) (middle (size l))) [a1; a0] ->
  forall k, (0 <= k < size l)%Z -> a1 * IZR k + a0 <> 0.
Lemma nodup_sample l i j : NoDup l -> (0 <= i < size l)%Z -> (0 <= j < size l)%Z -> sample l i = sample l j -> i = j.
Proof.
  intros Nd Hi Hj E. unfold sample, size in *. apply (proj1 (NoDup_nth l 0) Nd) in E; lia.
Qed.
Lemma normalised_scale l c l1 l2 : 0 < c -> (3 <= size l)%Z -> size l <> 4%Z -> NoDup l -> background_nonzero l ->
  background_normalised l l1 -> background_normalised (map (fun v => c * v) l) l2 -> l1 = l2.
Proof.
  intros Hc H3 H4 Nd Nz (s & rk & a1 & a0 & Ps & Ss & Rk & _ & Pf & Sz & Q) (s2 & rk2 & b1 & b0 & Ps2 & Ss2 & Rk2 & _ & Pf2 & Sz2 & Q2).
  rewrite size_map in *. cbv zeta in Pf, Pf2. fold (middle (size l)) in Pf, Pf2.
  assert (Es : s2 = map (fun v => c * v) s).
  { apply PrepFacts4.sorted_unique; [assumption|now apply sorted_scale|]. rewrite Ps2. now apply Permutation_map. }
  assert (Sn : size s = size l) by (unfold size; now rewrite (Permutation_length Ps)).
  assert (Em : map (sample s2) (middle (size l)) = map (fun v => c * v) (map (sample s) (middle (size l)))).
  { rewrite map_map. apply map_ext_in. intros k Hk. apply in_zrange in Hk. rewrite Es. apply sample_map.
    assert (0 <= size l / 4)%Z by (apply Z.div_pos; lia). lia. }
  rewrite Em in Pf2.
  assert (B : b1 = c * a1 /\ b0 = c * a0).
  { pose proof (polyfit_affine 1 c 0 _ _ _ ltac:(lra) Pf) as P'.
    assert (Z0 : map (fun y => c * y + 0) (map (sample s) (middle (size l))) = map (fun v => c * v) (map (sample s) (middle (size l)))) by (apply map_ext; intros; ring).
    rewrite Z0 in P'. pose proof (lsq_unique 1 _ _ _ _ Pf2 P' ltac:(now rewrite !map_length) (middle_distinct _ H3 H4)) as U.
    unfold vlin in U. cbn in U. injection U as -> ->. split; ring. }
  destruct B as [-> ->].
  rewrite (list_zmap l1), (list_zmap l2), Sz, Sz2. apply map_ext_in. intros i Hi. apply in_zrange in Hi.
  rewrite Q, Q2 by lia. destruct (Rk i ltac:(lia)) as [h1 h2]. destruct (Rk2 i ltac:(lia)) as [h3 h4].
  rewrite Es, !sample_map in h4 by lia.
  assert (Er : rk2 i = rk i).
  { apply (nodup_sample s); [|lia|lia|].
    - apply (Permutation_NoDup (Permutation_sym Ps)). assumption.
    - rewrite h2. apply Rmult_eq_reg_l with c; [assumption|lra]. }
  rewrite Er, sample_map by lia. pose proof (Nz s a1 a0 Ps Ss Pf (rk i) ltac:(lia)) as NZ.
  destruct (Req_EM_T (a1 * IZR (rk i) + a0) 0); [contradiction|].
  assert (NZ2 : c * a1 * IZR (rk i) + c * a0 <> 0). { replace (c * a1 * IZR (rk i) + c * a0) with (c * (a1 * IZR (rk i) + a0)) by ring. apply Rmult_integral_contrapositive_currified; [lra|assumption]. }
  destruct (Req_EM_T (c * a1 * IZR (rk i) + c * a0) 0); [contradiction|]. field. tauto.
Qed.
Theorem C93_scale : forall polyfit exp_ cf gf argsort g3 l requested sensitive subpixel select c,
  polyfit_oracle polyfit -> argsort_spec argsort -> (3 <= size l)%Z -> size l <> 4%Z -> 0 < c -> NoDup l -> background_nonzero l ->
  get_local_extrema_points polyfit exp_ cf gf argsort g3 (map (fun v => c * v) l) false requested sensitive false true subpixel select =
  get_local_extrema_points polyfit exp_ cf gf argsort g3 l false requested sensitive false true subpixel select.
Proof.
  intros polyfit exp_ cf gf argsort g3 l rq sens sp sel c PF AS H3 H4 Hc Nd Nz.
  destruct (C60_normalised polyfit exp_ cf gf argsort g3 l rq sens sp sel PF AS H3 H4) as [l1 [B1 ->]].
  destruct (C60_normalised polyfit exp_ cf gf argsort g3 (map (fun v => c * v) l) rq sens sp sel PF AS) as [l2 [B2 ->]]; [now rewrite size_map|now rewrite size_map|].
  now rewrite (normalised_scale l c l1 l2).
Qed.
(** A profile with dips of 60 % and more: all reported without normalisation,
    none with it. *)
Definition shuffled : list R := [6; 1; 5; 2; 7; 3; 8; 4].
Lemma shuffled_even : evenly_spaced shuffled 1 1.
Proof.
  split; [|split; [lra|]].
  - change (size shuffled) with 8%Z. change (zrange 0 8) with [0; 1; 2; 3; 4; 5; 6; 7]%Z. cbn [map].
    replace [1 + 1 * 0; 1 + 1 * 1; 1 + 1 * 2; 1 + 1 * 3; 1 + 1 * 4; 1 + 1 * 5; 1 + 1 * 6; 1 + 1 * 7] with [1; 2; 3; 4; 5; 6; 7; 8]; [|repeat (apply f_equal2; [ring|]); reflexivity].
    unfold shuffled.
    apply NoDup_Permutation.
    + repeat (constructor; [cbn [In]; lra|]). constructor.
    + repeat (constructor; [cbn [In]; lra|]). constructor.
    + intros x. cbn [In]. tauto.
  - intros v Hv. unfold shuffled in Hv. cbn [In] in Hv. lra.
Qed.
Lemma shuffled_nonzero : background_nonzero shuffled.
Proof.
  intros s a1 a0 Ps Ss P k Hk.
  pose proof (middle_fit s (size shuffled) 1 1 [a1; a0] ltac:(change (3 <= 8)%Z; lia) ltac:(change (8 <> 4)%Z; lia) (even_sorted shuffled 1 1 s shuffled_even Ps Ss) P) as E.
  injection E as -> ->. assert (0 <= IZR k) by (apply IZR_le; lia). lra.
Qed.
Theorem C93_dips_erased : forall exp_ cf gf g3, exists polyfit argsort, polyfit_oracle polyfit /\ argsort_spec argsort /\
  get_local_extrema_points polyfit exp_ cf gf argsort g3 shuffled false 1 (1/10) false false false None = Ok [1; 3; 5] /\
  get_local_extrema_points polyfit exp_ cf gf argsort g3 shuffled false 1 (1/10) false true false None = Ok [].
Proof.
  intros exp_ cf gf g3. exists pf_R, (@argsort_ins R Rexact). split; [exact pf_R_ok|]. split; [exact (argsort_ins_ok (fun x => x))|]. split.
  - apply (reported_list _ _ _ _ _ _ shuffled 1 (1/10) [1; 3; 5]%Z).
    + change (4 <= 8)%Z. lia.
    + repeat constructor.
    + change (size shuffled) with 8%Z. change (search_radius 8 1) with 1%Z. intros i Hi.
      assert (C : i = 1%Z \/ i = 2%Z \/ i = 3%Z \/ i = 4%Z \/ i = 5%Z) by lia. destruct C as [->|[->|[->|[->| ->]]]].
      * split; [intros _|cbn; tauto]. apply (minimum_if _ _ _ _ [1; 5; 6]).
        -- intros j Hj. assert (C : j = 0%Z \/ j = 1%Z \/ j = 2%Z) by lia. destruct C as [->|[->| ->]]; unfold shuffled; win; lra.
        -- unfold shuffled; win. change [1; 5; 6] with ([1; 5] ++ [6]). change [6; 1; 5] with ([6] ++ [1; 5]). apply Permutation_app_comm.
        -- repeat constructor; lra.
        -- unfold shuffled; win. cbn [length Nat.sub skipn]. unfold average. cbn [Rsum length INR]. unfold relative_depth. destruct (Req_EM_T _ 0); [lra|].
           match goal with |- _ < Rabs ?x => replace x with (-(5/6)) by field end. rewrite Rabs_Ropp, Rabs_pos_eq; lra.
      * split; [cbn; lia|]. intros [H _]. specialize (H 1%Z ltac:(lia)). revert H. unfold shuffled; win. lra.
      * split; [intros _|cbn; tauto]. apply (minimum_if _ _ _ _ [2; 5; 7]).
        -- intros j Hj. assert (C : j = 2%Z \/ j = 3%Z \/ j = 4%Z) by lia. destruct C as [->|[->| ->]]; unfold shuffled; win; lra.
        -- unfold shuffled; win. apply perm_swap.
        -- repeat constructor; lra.
        -- unfold shuffled; win. cbn [length Nat.sub skipn]. unfold average. cbn [Rsum length INR]. unfold relative_depth. destruct (Req_EM_T _ 0); [lra|].
           match goal with |- _ < Rabs ?x => replace x with (-(5/7)) by field end. rewrite Rabs_Ropp, Rabs_pos_eq; lra.
      * split; [cbn; lia|]. intros [H _]. specialize (H 3%Z ltac:(lia)). revert H. unfold shuffled; win. lra.
      * split; [intros _|cbn; tauto]. apply (minimum_if _ _ _ _ [3; 7; 8]).
        -- intros j Hj. assert (C : j = 4%Z \/ j = 5%Z \/ j = 6%Z) by lia. destruct C as [->|[->| ->]]; unfold shuffled; win; lra.
        -- unfold shuffled; win. apply perm_swap.
        -- repeat constructor; lra.
        -- unfold shuffled; win. cbn [length Nat.sub skipn]. unfold average. cbn [Rsum length INR]. unfold relative_depth. destruct (Req_EM_T _ 0); [lra|].
           match goal with |- _ < Rabs ?x => replace x with (-(5/8)) by field end. rewrite Rabs_Ropp, Rabs_pos_eq; lra.
    + change (size shuffled) with 8%Z. change (search_radius 8 1) with 1%Z. intros i Hi. cbn in Hi. lia.
  - apply (C93_even _ _ _ _ _ _ shuffled 1 1); [exact pf_R_ok|exact (argsort_ins_ok (fun x => x))|change (3 <= 8)%Z; lia|change (8 <> 4)%Z; lia|lra|exact shuffled_even].
Qed.
Example C93_ex : NoDup shuffled /\ background_nonzero shuffled /\ (3 <= size shuffled)%Z /\ size shuffled <> 4%Z.
Proof.
  split; [unfold shuffled; repeat (constructor; [cbn [In]; lra|]); constructor|]. split; [exact shuffled_nonzero|].
  change (size shuffled) with 8%Z. lia.
Qed.
Print Assumptions C93_even.
Print Assumptions C93_scale.
Print Assumptions C93_dips_erased.

(** No error: profiles of at least five samples, every combination of options. *)
Theorem C60_total : forall polyfit exp_ cf gf argsort g3 l find_max requested sensitive denoise norm subpixel select,
  polyfit_oracle polyfit -> argsort_spec argsort -> (forall q, length (g3 q) = length q) -> (5 <= size l)%Z ->
  exists v, get_local_extrema_points polyfit exp_ cf gf argsort g3 l find_max requested sensitive denoise norm subpixel select = Ok v /\
  let r := search_radius (size l) requested in forall x, In x v -> IZR (r - 1) <= x < IZR (size l - r).
Proof.
  intros polyfit exp_ cf gf argsort g3 l fm rq sens dn nm sp sel PF AS G Hn.
  assert (D : exists d, extrema_data polyfit argsort g3 l fm dn nm = Ok d /\ size d = size l).
  { unfold extrema_data. cbn zeta. set (l1 := if dn then g3 l else l). assert (L1 : size l1 = size l) by (unfold size, l1; destruct dn; rewrite ?G; reflexivity).
    assert (X : exists l2, (if fm then mx <- namax l1 ;; Ok (map (fun v => nsub mx v) l1) else Ok l1) = Ok l2 /\ size l2 = size l).
    { destruct fm; [|exists l1; auto]. destruct l1 as [|x l1]; [cbn in L1; lia|]. cbn [namax bind]. eexists. split; [reflexivity|]. now rewrite size_map. }
    destruct X as [l2 [-> L2]]. cbn [bind]. destruct nm; [|exists l2; auto].
    destruct (normalize_spec polyfit PF argsort AS l2 ltac:(lia) ltac:(lia)) as [l3 [E B]]. exists l3. split; [exact E|].
    destruct B as (? & ? & ? & ? & _ & _ & _ & _ & _ & e & _). lia. }
  destruct D as [d [E Sd]]. unfold get_local_extrema_points. rewrite E. cbn [bind]. fold (size d). rewrite Sd.
  set (r := extrema_radius (size l) rq). assert (Hr : (1 <= r)%Z) by (unfold r, extrema_radius; assert (1 <= size l / 4)%Z by (apply Z.div_le_lower_bound; lia); lia).
  assert (P : exists ps, extrema_points exp_ cf gf d r sens sel = Ok ps /\ forall i, In i ps -> (r <= i < size l - r - 1)%Z).
  { unfold extrema_points. fold (size d). rewrite Sd. destruct sel as [[[tol sigma] uo]|].
    - destruct (namax d) as [m|e] eqn:Em; [|destruct d; [cbn in Sd; lia|discriminate]]. cbn [bind].
      match goal with |- context[select_good_peaks ?a ?b ?c ?d ?e ?f ?g ?h ?i] => destruct (C58_ordered_sublist a b c d e f g h i) as [k ->] end.
      eexists. split; [reflexivity|]. intros i Hi. apply filter_In in Hi. destruct Hi as [Hi _]. apply filter_In in Hi. destruct Hi as [Hi _]. now apply in_zrange in Hi.
    - eexists. split; [reflexivity|]. intros i Hi. apply filter_In in Hi. destruct Hi as [Hi _]. now apply in_zrange in Hi. }
  destruct P as [ps [-> Hp]]. cbn [bind]. cbn zeta. change (search_radius (size l) rq) with r. destruct sp.
  2: { eexists. split; [reflexivity|]. intros x Hx. apply in_map_iff in Hx. destruct Hx as [i [<- Hi]]. specialize (Hp i Hi). cbn [nofZ Rex Rnum]. split; [apply IZR_le|apply IZR_lt]; lia. }
  match goal with |- exists v, mapM ?f ps = Ok v /\ _ => destruct (mapM_spec f (fun _ x => IZR (r - 1) <= x < IZR (size l - r)) ps) as [v [Ev Fv]] end.
  2: { exists v. split; [exact Ev|]. intros x Hx. clear - Fv Hx. induction Fv as [|i y ps v Hy F IH]; [destruct Hx|]. destruct Hx as [->|Hx]; [assumption|now apply IH]. }
  intros i Hi. specialize (Hp i Hi). 
  assert (W : size (lslice d (i - 1) (i + 2)) = 3%Z). { rewrite lslice_zrange by lia. unfold size. rewrite map_length, zrange_length. lia. }
  destruct (locate_fit polyfit PF (lslice d (i - 1) (i + 2)) true ltac:(lia)) as (u & v & w & p & _ & _ & El).
  match type of El with _ = Ok ?z => set (zz := z) in *; clearbody zz end. pose proof El as Lr. apply C57_in_range_exact in Lr. rewrite W in Lr. rewrite El. cbn [bind]. eexists. split; [reflexivity|].
  cbn [nadd nofZ Rex Rnum]. assert (IZR (r - 1) <= IZR (i - 1)) by (apply IZR_le; lia). assert (IZR (i - 1) + 3 <= IZR (size l - r)) by (rewrite <- plus_IZR; apply IZR_le; clear - Hp; lia). lra.
Qed.
Print Assumptions C60_total.
