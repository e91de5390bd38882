(** Theorems C57-C60: profiles of line patterns. *)
From Coq Require Import Reals ZArith List Lra Lia Psatz Sorted Permutation.
From Flocq Require Import Core.
From Verif Require Import Base Num NumFacts Img Spec Lsq LsqEx PolyUniq ProcSpec Post PrepImg PrepImgFacts4 Proc ProcFacts ProcFacts2 ProcFacts5 Line LineFacts LineFacts2 LineSpec.
Import ListNotations.
Local Open Scope R_scope.
Local Existing Instance Rex.

Ltac smp := unfold sample; repeat match goal with |- context[Z.to_nat ?z] =>
  let n := eval vm_compute in (Z.to_nat z) in change (Z.to_nat z) with n end; cbn [nth].

(** *** C57 *)
(** In any arithmetic: a sample index, or a number the code found to be in [0, n). *)
Theorem C57_in_range : forall {T} {N : Num T} polyfit (l : list T) b v,
  locate_subpixel_point polyfit l b = Ok v ->
  (exists k, (0 <= k < Z.of_nat (length l))%Z /\ v = nofZ k) \/ (nleb n0 v = true /\ nltb v (nofZ (Z.of_nat (length l))) = true).
Proof. intros T N polyfit l b v. apply locate_range. Qed.
Theorem C57_in_range_exact : forall polyfit l b v, locate_subpixel_point polyfit l b = Ok v -> 0 <= v < IZR (size l).
Proof.
  intros polyfit l b v H. apply locate_range in H. destruct H as [[k [[h1 h2] ->]]|[h1 h2]].
  - cbn [nofZ Rex Rnum]. split; [now apply IZR_le|]. now apply IZR_lt.
  - change (@n0 R Rex) with 0 in h1. cbn [nleb nltb nofZ Rex Rnum] in h1, h2. split.
    + destruct (Rle_bool_spec 0 v); [assumption|discriminate].
    + destruct (Rlt_bool_spec v (IZR (Z.of_nat (length l)))); [assumption|discriminate].
Qed.
(** Samples on a parabola with its vertex in range: the vertex. *)
Theorem C57_vertex : forall polyfit l b u v w, polyfit_oracle polyfit -> (3 <= size l)%Z -> u <> 0 ->
  (forall i, (0 <= i < size l)%Z -> sample l i = u * IZR i ^ 2 + v * IZR i + w) ->
  0 <= - v / (2 * u) < IZR (size l) -> locate_subpixel_point polyfit l b = Ok (- v / (2 * u)).
Proof.
  intros polyfit l b u v w PF Hl Hu H Hv.
  destruct (locate_fit polyfit PF l b Hl) as (u' & v' & w' & p & P & _ & E).
  assert (W : [u'; v'; w'] = [u; v; w]).
  { apply (fit_is 2 l [u; v; w]); [reflexivity|cbn; lia| |exact P]. intros i Hi. rewrite H by assumption. cbn. ring. }
  injection W as -> -> ->. rewrite E. f_equal.
  destruct (Req_EM_T u 0); [contradiction|]. destruct (Rle_dec 0 (- v / (2 * u))); [|lra]. destruct (Rlt_dec (- v / (2 * u)) (IZR (size l))); [reflexivity|lra].
Qed.
(** Vertex out of range, or samples on a straight line: the position of the
    (first) smallest or largest sample. *)
Theorem C57_fallback : forall polyfit l (find_min : bool) u v w, polyfit_oracle polyfit -> (3 <= size l)%Z ->
  (forall i, (0 <= i < size l)%Z -> sample l i = u * IZR i ^ 2 + v * IZR i + w) ->
  (u = 0 \/ - v / (2 * u) < 0 \/ IZR (size l) <= - v / (2 * u)) ->
  exists k, (if find_min then first_min l k else first_largest l k) /\ locate_subpixel_point polyfit l find_min = Ok (INR k).
Proof.
  intros polyfit l b u v w PF Hl H Hv.
  destruct (locate_fit polyfit PF l b Hl) as (u' & v' & w' & p & P & Ep & E).
  assert (W : [u'; v'; w'] = [u; v; w]).
  { apply (fit_is 2 l [u; v; w]); [reflexivity|cbn; lia| |exact P]. intros i Hi. rewrite H by assumption. cbn. ring. }
  injection W as -> -> ->. 
  assert (X : exists k, p = Z.of_nat k /\ if b then first_min l k else first_largest l k).
  { destruct b; [exact (argmin_first f32 l p Ep)|exact (argmax_first f32 l p Ep)]. }
  destruct X as [k [-> Hk]]. exists k. split; [exact Hk|]. rewrite E, INR_IZR_INZ. f_equal.
  destruct (Req_EM_T u 0); [reflexivity|]. destruct (Rle_dec 0 (- v / (2 * u))); [|reflexivity].
  destruct (Rlt_dec (- v / (2 * u)) (IZR (size l))); [lra|reflexivity].
Qed.
(** The option is ignored when the fitted parabola has its vertex in range:
    asked for the minimum of a concave profile, the function returns the
    maximum. *)
Theorem C57_option_ignored : forall polyfit l u v w, polyfit_oracle polyfit -> (3 <= size l)%Z -> u < 0 ->
  (forall i, (0 <= i < size l)%Z -> sample l i = u * IZR i ^ 2 + v * IZR i + w) ->
  0 <= - v / (2 * u) < IZR (size l) ->
  exists x, locate_subpixel_point polyfit l true = Ok x /\ forall i, (0 <= i < size l)%Z -> sample l i <= u * x ^ 2 + v * x + w.
Proof.
  intros polyfit l u v w PF Hl Hu H Hv. exists (- v / (2 * u)). split; [apply (C57_vertex polyfit l true u v w); auto; lra|].
  intros i Hi. rewrite H by assumption.
  assert (E : u * (- v / (2 * u)) ^ 2 + v * (- v / (2 * u)) + w - (u * IZR i ^ 2 + v * IZR i + w) = - u * (IZR i - - v / (2 * u)) ^ 2) by (field; lra).
  pose proof (pow2_ge_0 (IZR i - - v / (2 * u))). nra.
Qed.
Theorem C57_minimum_refuted : exists polyfit l, polyfit_oracle polyfit /\
  locate_subpixel_point polyfit l true = Ok 1 /\ forall i, (0 <= i < size l)%Z -> i <> 1%Z -> sample l i < sample l 1.
Proof.
  exists pf_R, [0; 1; 0]. split; [exact pf_R_ok|]. split.
  - replace (Ok 1) with (Ok (- 2 / (2 * -1))) by (f_equal; field). apply (C57_vertex pf_R _ true (-1) 2 0 pf_R_ok).
    + cbn. lia.
    + lra.
    + intros i Hi. change (size [0; 1; 0]) with 3%Z in Hi. assert (C : i = 0%Z \/ i = 1%Z \/ i = 2%Z) by lia.
      destruct C as [->|[->| ->]]; smp; ring.
    + change (size [0; 1; 0]) with 3%Z. lra.
  - intros i Hi Hn. change (size [0; 1; 0]) with 3%Z in Hi. assert (C : i = 0%Z \/ i = 2%Z) by lia.
    destruct C as [->| ->]; smp; lra.
Qed.
(** A convex profile with vertex 5/4; one with its vertex outside. *)
Example C57_ex : locate_subpixel_point pf_R [25/16; 1/16; 9/16; 49/16] true = Ok (5/4) /\
  exists k, first_min [1; 4; 9] k /\ locate_subpixel_point pf_R [1; 4; 9] true = Ok (INR k).
Proof.
  split.
  - replace (Ok (5 / 4)) with (Ok (- (-(5/2)) / (2 * 1))) by (f_equal; field). apply (C57_vertex pf_R _ true 1 (-(5/2)) (25/16) pf_R_ok).
    + cbn. lia.
    + lra.
    + intros i Hi. change (size _) with 4%Z in Hi. assert (C : i = 0%Z \/ i = 1%Z \/ i = 2%Z \/ i = 3%Z) by lia.
      destruct C as [->|[->|[->| ->]]]; smp; field.
    + change (size _) with 4%Z. lra.
  - apply (C57_fallback pf_R _ true 1 2 1 pf_R_ok).
    + cbn. lia.
    + intros i Hi. change (size _) with 3%Z in Hi. assert (C : i = 0%Z \/ i = 1%Z \/ i = 2%Z) by lia.
      destruct C as [->|[->| ->]]; smp; ring.
    + right. left. lra.
Qed.
Print Assumptions C57_in_range.
Print Assumptions C57_vertex.
Print Assumptions C57_fallback.
Print Assumptions C57_minimum_refuted.

(** *** C59 *)
(** Floating-point data are stored as they are; an integer array keeps the
    integer part. *)
Definition as_float (v : R) : R := v.
Definition as_integer (v : R) : R := IZR (Ztrunc v).
(** ValueError exactly for fewer than three samples. *)
Theorem C59_error : forall polyfit l s norm, polyfit_oracle polyfit ->
  ((size l < 3)%Z -> sliding_window_slope polyfit as_float l s norm = Err ValueError) /\
  ((3 <= size l)%Z -> exists out, sliding_window_slope polyfit as_float l s norm = Ok out).
Proof.
  intros polyfit l s norm PF. split; intros H.
  - unfold sliding_window_slope. fold (size l). destruct (Z.ltb_spec (size l) 3); [reflexivity|lia].
  - destruct (sliding_spec polyfit PF as_float l s norm H) as (ss & _ & _ & E). rewrite E. eexists; reflexivity.
Qed.
(** One value per sample: the absolute slope of the least-squares line of its
    window, divided by the mean of these values if norm is set and the mean is
    not zero. *)
Theorem C59_slopes : forall polyfit l s norm out, polyfit_oracle polyfit -> sliding_window_slope polyfit as_float l s norm = Ok out ->
  exists ss, length ss = length l /\ length out = length l /\
    (forall i, (0 <= i < size l)%Z -> window_slope l i (window_radius (size l) s) (sample ss i)) /\
    let m := average (map Rabs ss) in
    forall i, (0 <= i < size l)%Z -> sample out i =
      if norm then if Req_EM_T m 0 then 0 else Rabs (sample ss i) / m else Rabs (sample ss i).
Proof.
  intros polyfit l s norm out PF H.
  assert (Hl : (3 <= size l)%Z).
  { destruct (Z.lt_ge_cases (size l) 3) as [h|h]; [|lia]. apply (C59_error polyfit l s norm PF) in h. congruence. }
  destruct (sliding_spec polyfit PF as_float l s norm Hl) as (ss & L & W & E). rewrite E in H. apply Ok_inj in H. subst out.
  change (map (fun v => Rabs (as_float v)) ss) with (map Rabs ss).
  exists ss. split; [assumption|]. split.
  { unfold scaled_by_mean. destruct norm; [destruct (Req_EM_T _ 0)|]; rewrite ?map_length; assumption. }
  split; [assumption|]. cbn zeta. intros i Hi.
  assert (Si : (0 <= i < size ss)%Z) by (unfold size in *; lia). assert (Si' : (0 <= i < size (map Rabs ss))%Z) by (rewrite size_map; assumption).
  unfold scaled_by_mean. destruct norm; [|now apply sample_map].
  destruct (Req_EM_T _ 0) as [h|h].
  - apply (average_zero (map Rabs ss)); [intros x Hx; apply in_map_iff in Hx; destruct Hx as [y [<- _]]; apply Rabs_pos|assumption|].
    unfold sample. apply nth_In. unfold size in Si'. lia.
  - rewrite (sample_map (fun v => v / average (map Rabs ss))) by assumption. now rewrite sample_map.
Qed.
Theorem C59_nonnegative : forall polyfit l s norm out, polyfit_oracle polyfit -> sliding_window_slope polyfit as_float l s norm = Ok out ->
  length out = length l /\ forall i, (0 <= i < size l)%Z -> 0 <= sample out i.
Proof.
  intros polyfit l s norm out PF H. destruct (C59_slopes _ _ _ _ _ PF H) as (ss & L & Lo & W & V). split; [assumption|].
  cbn zeta in V. intros i Hi. rewrite V by assumption.
  assert (M : 0 <= average (map Rabs ss)) by (apply average_nonneg; intros x Hx; apply in_map_iff in Hx; destruct Hx as [y [<- _]]; apply Rabs_pos).
  pose proof (Rabs_pos (sample ss i)). destruct norm; [destruct (Req_EM_T _ 0)|]; try lra.
  apply Rmult_le_pos; [lra|]. left. apply Rinv_0_lt_compat. lra.
Qed.
Theorem C59_constant : forall polyfit l s norm out c, polyfit_oracle polyfit -> sliding_window_slope polyfit as_float l s norm = Ok out ->
  (forall i, (0 <= i < size l)%Z -> sample l i = c) -> forall i, (0 <= i < size l)%Z -> sample out i = 0.
Proof.
  intros polyfit l s norm out c PF H C i Hi.
  assert (Hl : (3 <= size l)%Z).
  { destruct (Z.lt_ge_cases (size l) 3) as [h|h]; [|lia]. apply (C59_error polyfit l s norm PF) in h. congruence. }
  destruct (C59_slopes _ _ _ _ _ PF H) as (ss & L & Lo & W & V). cbn zeta in V. rewrite V by assumption.
  destruct (radius_bounds (size l) s Hl) as [Hr _].
  rewrite (window_slope_unique _ _ _ _ _ Hr (W i Hi) (window_slope_const l i _ c Hr ltac:(lia) C)). rewrite Rabs_R0.
  destruct norm; [destruct (Req_EM_T _ 0)|]; unfold Rdiv; lra.
Qed.
(** Normalised slopes have mean 1 unless they are all zero. *)
Theorem C59_mean_one : forall polyfit l s out, polyfit_oracle polyfit -> sliding_window_slope polyfit as_float l s true = Ok out ->
  (exists i, (0 <= i < size l)%Z /\ sample out i <> 0) -> average out = 1.
Proof.
  intros polyfit l s out PF H [i [Hi N]].
  assert (Hl : (3 <= size l)%Z).
  { destruct (Z.lt_ge_cases (size l) 3) as [h|h]; [|lia]. apply (C59_error polyfit l s true PF) in h. congruence. }
  destruct (sliding_spec polyfit PF as_float l s true Hl) as (ss & L & W & E). rewrite E in H. apply Ok_inj in H. subst out.
  unfold scaled_by_mean in *. destruct (Req_EM_T _ 0) as [h|h]; [|rewrite average_div; now field].
  exfalso. apply N. apply (average_zero _ ltac:(intros x Hx; apply in_map_iff in Hx; destruct Hx as [y [<- _]]; apply Rabs_pos) h).
  unfold sample. apply nth_In. rewrite map_length. unfold size in Hi. lia.
Qed.
(** Contrast and brightness do not matter. *)
Theorem C59_affine : forall polyfit l s a c, polyfit_oracle polyfit -> a <> 0 ->
  sliding_window_slope polyfit as_float (map (fun v => a * v + c) l) s true = sliding_window_slope polyfit as_float l s true /\
  (forall out, sliding_window_slope polyfit as_float l s false = Ok out ->
   sliding_window_slope polyfit as_float (map (fun v => a * v + c) l) s false = Ok (map (fun v => Rabs a * v) out)).
Proof.
  intros polyfit l s a c PF Ha. set (f := fun v => a * v + c).
  destruct (Z.lt_ge_cases (size l) 3) as [h|h].
  { pose proof h as h'. rewrite <- (size_map f l) in h'. split.
    - rewrite (proj1 (C59_error polyfit l s true PF) h), (proj1 (C59_error polyfit _ s true PF) h'). reflexivity.
    - intros out H. rewrite (proj1 (C59_error polyfit l s false PF) h) in H. discriminate. }
  assert (G : forall norm, exists ss, sliding_window_slope polyfit as_float l s norm = Ok (scaled_by_mean norm (map Rabs ss)) /\
     sliding_window_slope polyfit as_float (map f l) s norm = Ok (scaled_by_mean norm (map (fun v => Rabs a * v) (map Rabs ss)))).
  { intros norm. destruct (sliding_spec polyfit PF as_float l s norm ltac:(lia)) as (ss & L & W & E).
    destruct (sliding_spec polyfit PF as_float (map f l) s norm ltac:(rewrite size_map; lia)) as (st & L' & W' & E').
    exists ss. split; [exact E|]. rewrite E'. do 2 f_equal. rewrite size_map in W'. rewrite map_length in L'.
    destruct (radius_bounds (size l) s h) as [Hr _].
    rewrite (list_zmap st), (list_zmap ss), !map_map. replace (size st) with (size l) by (unfold size; lia). replace (size ss) with (size l) by (unfold size; lia).
    apply map_ext_in. intros i Hi. apply in_zrange in Hi.
    assert (P0 : (0 < size l)%Z) by lia.
    rewrite (window_slope_unique _ _ _ _ _ Hr (W' i Hi) (window_slope_affine _ _ _ _ a c Ha P0 (W i Hi))).
    unfold as_float. apply Rabs_mult. }
  pose proof (Rabs_pos_lt a Ha) as Pa. split.
  - destruct (G true) as (ss & E & E'). rewrite E, E'. f_equal.
    destruct (Req_EM_T (average (map Rabs ss)) 0) as [z|z]; [|now apply scaled_scale].
    unfold scaled_by_mean. rewrite average_mul, z, Rmult_0_r. destruct (Req_EM_T 0 0); [|lra].
    assert (Hz : forall x, In x (map Rabs ss) -> x = 0).
    { apply average_zero; [intros x Hx; apply in_map_iff in Hx; destruct Hx as [y [<- _]]; apply Rabs_pos|assumption]. }
    rewrite <- (map_id (map Rabs ss)) at 2. apply map_ext_in. intros x Hx. rewrite (Hz x Hx). ring.
  - intros out H. destruct (G false) as (ss & E & E'). rewrite E in H. apply Ok_inj in H. subst out. exact E'.
Qed.
(** Where the samples of a window lie on a straight line, its slope. *)
Theorem C59_line : forall polyfit l s out a c i, polyfit_oracle polyfit -> sliding_window_slope polyfit as_float l s false = Ok out ->
  let r := window_radius (size l) s in (r <= i < size l - r)%Z ->
  (forall k, (i - r <= k <= i + r)%Z -> sample l k = a * IZR k + c) -> sample out i = Rabs a.
Proof.
  intros polyfit l s out a c i PF H r Hi C.
  assert (Hl : (3 <= size l)%Z).
  { destruct (Z.lt_ge_cases (size l) 3) as [h|h]; [|lia]. apply (C59_error polyfit l s false PF) in h. congruence. }
  destruct (radius_bounds (size l) s Hl) as [Hr _]. fold r in Hr.
  destruct (C59_slopes _ _ _ _ _ PF H) as (ss & L & Lo & W & V). cbn zeta in V. rewrite V by lia. f_equal.
  apply (window_slope_unique l i r); [assumption|apply W; lia|]. now apply (window_slope_line l i r a c).
Qed.
(** With the default window of three samples: half the difference of the
    neighbours. *)
Theorem C59_three : forall polyfit l out i, polyfit_oracle polyfit -> sliding_window_slope polyfit as_float l 3 false = Ok out ->
  (0 < i < size l - 1)%Z -> sample out i = Rabs (sample l (i + 1) - sample l (i - 1)) / 2.
Proof.
  intros polyfit l out i PF H Hi.
  assert (Hl : (3 <= size l)%Z) by lia.
  destruct (C59_slopes _ _ _ _ _ PF H) as (ss & L & Lo & W & V). cbn zeta in V. rewrite V by lia.
  assert (R1 : window_radius (size l) 3 = 1%Z) by (unfold window_radius; rewrite Z.min_l by lia; reflexivity). rewrite R1 in W.
  rewrite (window_slope_unique l i 1 _ _ ltac:(lia) (W i ltac:(lia)) (window_slope_three l i Hl ltac:(lia))).
  rewrite Z.min_l, Z.max_r by lia. unfold Rdiv. rewrite Rabs_mult, (Rabs_pos_eq (/ 2)) by lra. reflexivity.
Qed.
(** Integer input: the slopes are stored in an array of the input's type, so
    their fractional parts are lost.  Steps of one unit disappear. *)
Theorem C59_integers_lost : forall polyfit l norm, polyfit_oracle polyfit -> (3 <= size l)%Z ->
  (forall i j, (0 <= i < size l)%Z -> (0 <= j < size l)%Z -> (Z.abs (i - j) <= 2)%Z -> Rabs (sample l i - sample l j) <= 1) ->
  sliding_window_slope polyfit as_integer l 3 norm = Ok (repeat 0 (length l)).
Proof.
  intros polyfit l norm PF Hl H. destruct (sliding_spec polyfit PF as_integer l 3 norm Hl) as (ss & L & W & E). rewrite E. f_equal.
  assert (R1 : window_radius (size l) 3 = 1%Z) by (unfold window_radius; rewrite Z.min_l by lia; reflexivity). rewrite R1 in W.
  assert (Z0 : map (fun v => Rabs (as_integer v)) ss = repeat 0 (length l)).
  { apply (nth_ext _ _ 0 0); [now rewrite map_length, repeat_length|]. intros k Hk. rewrite map_length in Hk. rewrite nth_repeat_lt by lia.
    rewrite (nth_indep _ 0 (Rabs (as_integer 0))) by now rewrite map_length. rewrite (map_nth (fun v => Rabs (as_integer v))).
    assert (Hi : (0 <= Z.of_nat k < size l)%Z) by (unfold size; lia).
    pose proof (window_slope_unique l _ 1 _ _ ltac:(lia) (W _ Hi) (window_slope_three l _ Hl Hi)) as S.
    unfold sample at 1 in S. rewrite Nat2Z.id in S. rewrite S. set (d := sample l _ - sample l _).
    assert (Hd : Rabs d <= 1) by (apply H; lia). unfold as_integer.
    replace (Ztrunc (d / 2)) with 0%Z; [apply Rabs_R0|]. symmetry. apply Rabs_le_inv in Hd.
    destruct (Rle_lt_dec 0 d) as [p|p].
    - rewrite Ztrunc_floor by lra. apply Zfloor_imp. cbn. lra.
    - rewrite Ztrunc_ceil by lra. apply Zceil_imp. cbn. lra. }
  rewrite Z0. unfold scaled_by_mean. destruct norm; [|reflexivity]. destruct (Req_EM_T _ 0) as [z|z]; [reflexivity|].
  exfalso. apply z. unfold average. assert (S0 : forall n, Rsum (repeat 0 n) = 0) by (induction n as [|n IH]; cbn [repeat Rsum]; lra). rewrite S0. unfold Rdiv. ring.
Qed.
(** Non-vacuity, and the loss for integers: the edge profile 0 0 0 1 1 1. *)
Theorem C59_integers_refuted : exists l out, (forall v, In v l -> exists z, v = IZR z) /\
  sliding_window_slope pf_R as_float l 3 false = Ok out /\ sample out 2 = 1 / 2 /\
  sliding_window_slope pf_R as_integer l 3 false = Ok (repeat 0 6).
Proof.
  set (l := [0; 0; 0; 1; 1; 1]). destruct (proj2 (C59_error pf_R l 3 false pf_R_ok)) as [out E]; [cbn; lia|].
  exists l, out. split; [|split; [exact E|split]].
  - intros v Hv. unfold l in Hv. cbn [In] in Hv. destruct Hv as [<-|[<-|[<-|[<-|[<-|[<-|[]]]]]]]; [exists 0%Z|exists 0%Z|exists 0%Z|exists 1%Z|exists 1%Z|exists 1%Z]; reflexivity.
  - rewrite (C59_three pf_R l out 2 pf_R_ok E) by (cbn; lia). unfold l. smp. rewrite Rabs_pos_eq by lra. field.
  - apply (C59_integers_lost pf_R l false pf_R_ok); [cbn; lia|]. 
    assert (B : forall i, 0 <= sample l i <= 1).
    { intros i. unfold sample. destruct (Nat.lt_ge_cases (Z.to_nat i) 6) as [h|h].
      - assert (I : In (nth (Z.to_nat i) l 0) l) by (apply nth_In; exact h). revert I. generalize (nth (Z.to_nat i) l 0). intros v Hv.
        unfold l in Hv. cbn [In] in Hv. destruct Hv as [<-|[<-|[<-|[<-|[<-|[<-|[]]]]]]]; lra.
      - rewrite nth_overflow by exact h. lra. }
    intros i j _ _ _. pose proof (B i). pose proof (B j). apply Rabs_le. lra.
Qed.
Print Assumptions C59_slopes.
Print Assumptions C59_affine.
Print Assumptions C59_integers_refuted.

(** *** C58 *)
(** In any arithmetic the result is the given list with some members left out,
    and no error occurs; with use_offset, members of the result without it. *)
Theorem C58_ordered_sublist : forall {T} {N : Num T} exp_ curve_fit gf (l : list T) peaks tol r sigma use_offset,
  exists f, select_good_peaks exp_ curve_fit gf l peaks tol r sigma use_offset = Ok (filter f peaks).
Proof. intros. eexists. apply select_filter. Qed.
Theorem C58_offset_subset : forall {T} {N : Num T} exp_ curve_fit gf (l : list T) peaks tol r sigma,
  exists f g, select_good_peaks exp_ curve_fit gf l peaks tol r sigma false = Ok (filter f peaks) /\
    select_good_peaks exp_ curve_fit gf l peaks tol r sigma true = Ok (filter g (filter f peaks)).
Proof.
  intros. rewrite !select_filter. set (d := if nltb n0 sigma then gf l sigma else l).
  exists (peak_test exp_ curve_fit d tol r false), (peak_test exp_ curve_fit d tol r true). split; [reflexivity|]. f_equal.
  induction peaks as [|p ps IH]; [reflexivity|]. cbn [filter].
  destruct (peak_test exp_ curve_fit d tol r true p) eqn:E1, (peak_test exp_ curve_fit d tol r false p) eqn:E2; cbn [filter]; rewrite ?E1, ?IH; try reflexivity.
  apply peak_test_offset in E1. congruence.
Qed.
(** Over the reals: exactly the peaks that pass the tests, in order.  With
    sigma > 0 the tests are made on the smoothed data. *)
Theorem C58_selected : forall exp_ curve_fit gf (l : list R) peaks tol r sigma use_offset,
  exists f, select_good_peaks exp_ curve_fit gf l peaks tol r sigma use_offset = Ok (filter f peaks) /\
    forall p, f p = true <-> good_peak_spec exp_ curve_fit (if Rlt_dec 0 sigma then gf l sigma else l) tol r use_offset p.
Proof.
  intros. rewrite select_filter. eexists. split; [reflexivity|]. intros p. change (@n0 R Rex) with 0. cbn [nltb Rex Rnum].
  destruct (Rlt_dec 0 sigma) as [h|h]; [rewrite Rlt_bool_true by exact h|rewrite Rlt_bool_false by lra]; apply peak_test_spec.
Qed.
(** More than 80 per cent of n - 1 residuals of a selected peak are below tol. *)
Theorem C58_residuals : forall exp_ curve_fit (l : list R) tol r use_offset p, good_peak_spec exp_ curve_fit l tol r use_offset p ->
  exists ws a b c d, rescaled (near_window l p r) ws /\ curve_fit (centred_abscissae (size ws)) ws = Some (a, b, c, d) /\
  8 / 10 * IZR (size ws - 1) <
    INR (count_below tol (map (fun xv => Rabs (gauss exp_ a b c d (fst xv) - snd xv)) (combine (centred_abscissae (size ws)) ws))).
Proof.
  intros exp_ curve_fit l tol r uo p (Hs & _ & ws & a & b & c & d & q & R1 & C & _ & Q & Ht & _). exists ws, a, b, c, d.
  assert (S : size ws = size (near_window l p r)) by (destruct R1 as [m [_ [_ ->]]]; apply size_map). rewrite S. split; [assumption|]. split; [assumption|].
  set (res := map _ _) in *. assert (Sr : size res = size (near_window l p r)).
  { unfold res. rewrite size_map. unfold size at 1. rewrite combine_length. unfold centred_abscissae. rewrite map_length, zrange_length. unfold size in *. lia. }
  rewrite <- Sr. apply (percentile_count res q tol); [|assumption|assumption]. intros E. rewrite E in Sr. change (size (@nil R)) with 0%Z in Sr. lia.
Qed.
(** A larger tolerance never loses a peak. *)
Theorem C58_tolerance : forall exp_ curve_fit gf (l : list R) peaks tol tol' r sigma use_offset, tol <= tol' ->
  exists f g, select_good_peaks exp_ curve_fit gf l peaks tol r sigma use_offset = Ok (filter f peaks) /\
    select_good_peaks exp_ curve_fit gf l peaks tol' r sigma use_offset = Ok (filter g peaks) /\ forall p, f p = true -> g p = true.
Proof.
  intros exp_ curve_fit gf l peaks tol tol' r sigma uo H.
  destruct (C58_selected exp_ curve_fit gf l peaks tol r sigma uo) as [f [Ef Hf]].
  destruct (C58_selected exp_ curve_fit gf l peaks tol' r sigma uo) as [g [Eg Hg]].
  exists f, g. split; [assumption|]. split; [assumption|]. intros p Hp. apply Hg. apply Hf in Hp.
  destruct Hp as (Hs & V & ws & a & b & c & d & q & R1 & C & Hc & Q & Ht & Ho). split; [assumption|]. split; [assumption|].
  exists ws, a, b, c, d, q. repeat (split; [assumption|]). split; [lra|]. intros U. specialize (Ho U). lra.
Qed.
(** A radius below 2 selects nothing, and neither does a constant profile. *)
Theorem C58_small_radius : forall exp_ curve_fit gf (l : list R) peaks tol r sigma use_offset, (r <= 1)%Z ->
  select_good_peaks exp_ curve_fit gf l peaks tol r sigma use_offset = Ok [].
Proof.
  intros exp_ curve_fit gf l peaks tol r sigma uo Hr. destruct (C58_selected exp_ curve_fit gf l peaks tol r sigma uo) as [f [Ef Hf]].
  rewrite Ef. f_equal. clear Ef. induction peaks as [|p ps IH]; [reflexivity|]. cbn [filter]. destruct (f p) eqn:E; [|exact IH].
  exfalso. apply Hf in E. destruct E as (_ & _ & ws & a & b & c & d & q & _ & _ & Hc & _).
  assert (r / 2 <= 0)%Z by (pose proof (Z.div_le_mono r 1 2 ltac:(lia) Hr); exact H).
  apply IZR_le in H. pose proof (Rabs_pos c). lra.
Qed.
Theorem C58_constant : forall exp_ curve_fit gf (l : list R) peaks tol r sigma use_offset c, sigma <= 0 -> (forall v, In v l -> v = c) ->
  select_good_peaks exp_ curve_fit gf l peaks tol r sigma use_offset = Ok [].
Proof.
  intros exp_ curve_fit gf l peaks tol r sigma uo c Hs Hc. destruct (C58_selected exp_ curve_fit gf l peaks tol r sigma uo) as [f [Ef Hf]].
  rewrite Ef. f_equal. clear Ef. induction peaks as [|p ps IH]; [reflexivity|]. cbn [filter]. destruct (f p) eqn:E; [|exact IH].
  exfalso. apply Hf in E. destruct (Rlt_dec 0 sigma) as [h|h]; [lra|]. destruct E as (_ & (u & v & Hu & Hv & D) & _). apply D.
  assert (G : forall x, In x (near_window l p r) -> x = c).
  { intros x Hx. unfold near_window in Hx. apply in_map_iff in Hx. destruct Hx as [i [<- Hi]]. apply in_zrange in Hi. apply Hc. unfold sample. apply nth_In. unfold size in Hi. lia. }
  rewrite (G u Hu), (G v Hv). reflexivity.
Qed.
(** A clean peak is kept, one with too short a window is not. *)
Example C58_ex : select_good_peaks exp (fun _ _ => Some (5/2, 1/10, 0, 0)) (fun l _ => l) [0; 0; 1; 0; 0] [2; 0]%Z (2/10) 2 0 true = Ok [2%Z].
Proof.
  destruct (C58_selected exp (fun _ _ => Some (5/2, 1/10, 0, 0)) (fun l _ => l) [0; 0; 1; 0; 0] [2; 0]%Z (2/10) 2 0 true) as [f [Ef Hf]].
  rewrite Ef. f_equal. cbn [filter].
  destruct (Rlt_dec 0 0); [lra|].
  assert (W : near_window [0; 0; 1; 0; 0] 2 2 = [0; 0; 1; 0; 0]) by reflexivity.
  assert (F2 : f 2%Z = true).
  { apply Hf. unfold good_peak_spec. cbn zeta. rewrite W. change (size [0; 0; 1; 0; 0]) with 5%Z.
    split; [lia|]. split; [exists 0, 1; cbn; repeat split; [tauto|tauto|lra]|].
    assert (A : average [0; 0; 1; 0; 0] = 1/5) by (unfold average; cbn; field).
    assert (D : deviation [0; 0; 1; 0; 0] = 2/5).
    { unfold deviation. rewrite A. unfold average. cbn [map Rsum length]. replace (_ / _) with ((2/5) ^ 2); [apply sqrt_pow2; lra|]. cbn [INR]. field. }
    set (ws := map (fun v => (v - 0) / (2/5)) [0; 0; 1; 0; 0]).
    set (res := map (fun xv : R * R => Rabs (gauss exp (5 / 2) (1 / 10) 0 0 (fst xv) - snd xv)) (combine (centred_abscissae 5) ws)).
    assert (Nr : res <> []) by discriminate.
    exists ws, (5/2), (1/10), 0, 0, (percentile80 res).
    pose proof (percentile_ok res Nr) as P.
    split; [exists 0; split; [now left|]; split; [intros v Hv; cbn [In] in Hv; destruct Hv as [<-|[<-|[<-|[<-|[<-|[]]]]]]; lra|rewrite D; reflexivity]|].
    split; [reflexivity|]. split; [rewrite Rabs_R0; change (IZR (2 / 2)) with 1; lra|]. split; [exact P|]. split; [|intros _; rewrite Rabs_R0; lra].
    apply (percentile_below res _ _ Nr P). intros v Hv.
    assert (EB : forall x, 1 <= x ^ 2 -> 0 <= 5 / 2 * exp (- ((x - 0) / (2 * (1 / 10) ^ 2)) ^ 2) < 2 / 10).
    { intros x Hx. set (y := ((x - 0) / (2 * (1 / 10) ^ 2)) ^ 2). assert (Hy : 2500 <= y).
      { unfold y. replace ((x - 0) / (2 * (1 / 10) ^ 2)) with (50 * x) by field. nra. }
      pose proof (exp_pos (- y)). rewrite exp_Ropp. pose proof (exp_ineq1_le y) as I. split.
      - rewrite exp_Ropp in H. lra.
      - assert (/ exp y <= / 2501) by (apply Rinv_le_contravar; lra). lra. }
    unfold res, ws, centred_abscissae in Hv. change (zrange 0 5) with [0; 1; 2; 3; 4]%Z in Hv. change (5 / 2)%Z with 2%Z in Hv.
    cbn [map combine In fst snd Z.sub Z.opp Z.add Z.pos_sub Pos.pred_double Z.succ_double Z.pred_double Z.double] in Hv. unfold gauss in Hv.
    assert (E0 : exp (- ((0 - 0) / (2 * (1 / 10) ^ 2)) ^ 2) = 1).
    { replace (- ((0 - 0) / (2 * (1 / 10) ^ 2)) ^ 2) with 0 by field. apply exp_0. }
    destruct Hv as [<-|[<-|[<-|[<-|[<-|[]]]]]]; [pose proof (EB (-2) ltac:(lra))|pose proof (EB (-1) ltac:(lra))|rewrite E0|pose proof (EB 1 ltac:(lra))|pose proof (EB 2 ltac:(lra))];
      apply Rabs_def1; lra. }
  assert (F0 : f 0%Z = false).
  { destruct (f 0%Z) eqn:E; [|reflexivity]. exfalso. apply Hf in E. destruct E as [E _]. rewrite near_window_size in E. change (size [0; 0; 1; 0; 0]) with 5%Z in E. lia. }
  rewrite F2, F0. reflexivity.
Qed.
Print Assumptions C58_ordered_sublist.
Print Assumptions C58_offset_subset.
Print Assumptions C58_selected.
Print Assumptions C58_residuals.
Print Assumptions C58_tolerance.
