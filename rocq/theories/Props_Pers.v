(** Properties of discorpy/proc/processing.py, perspective (C32-C38, C84-). *)
From Coq Require Import Reals ZArith List Lra Lia Permutation Sorted.
From Flocq Require Import Core.
From Verif Require Import Base Num NumFacts Spec Lsq LsqEx ProcSpec PersSpec PrepSpec Sorting Img PrepImg PrepPts PrepFacts PrepFacts2 Post PostPersp PostLines2 PostExtra
  Proc ProcPers ProcFacts ProcFacts2 ProcFacts3 ProcFacts4 ProcFacts5 PersFacts PersFacts2 PersFacts3 Props_Proc PersSpec.
Import ListNotations.
Local Open Scope R_scope.

(** ** C32 linear grids *)
(** In any arithmetic: num_hor lines of num_ver points, and the transpose. *)
Theorem C32_transpose : forall T (N : Num T) hs vs gh gv, regenerate_from_coef hs vs = (gh, gv) ->
  transposed (length hs) (length vs) gh gv.
Proof. intros T N hs vs gh gv H. pose proof (cross_grid_transposed cross_yx hs vs) as G. unfold regenerate_from_coef in H. now rewrite H in G. Qed.
Print Assumptions C32_transpose.
Theorem C32_on_both_lines : forall st hs vs gh gv i j, @regenerate_from_coef R (Rst st) hs vs = (gh, gv) ->
  (i < length hs)%nat -> (j < length vs)%nat -> fst (nth i hs (0, 0)) * fst (nth j vs (0, 0)) <> 1 ->
  exists p, on_hor (nth i hs (0, 0)) p /\ on_ver (nth j vs (0, 0)) p /\ at_ gh i j = (st (py p), st (pxc p)).
Proof.
  intros st hs vs gh gv i j H Hi Hj Hd. unfold regenerate_from_coef in H.
  exists (@cross_yx R (Rst st) (nth i hs (0, 0)) (nth j vs (0, 0))). destruct (cross_yx_on st _ _ Hd) as [H1 H2].
  split; [exact H1|]. split; [exact H2|]. unfold at_.
  pose proof (@cross_grid_fst R (Rst st) _ (@cross_yx R (Rst st)) hs vs i j (0, 0) (0, 0) (0, 0) Hi Hj) as G. rewrite H in G. exact G.
Qed.
Print Assumptions C32_on_both_lines.
(** The same for lines given by points: straight lines are fitted first. *)
Theorem C32_from_points : forall st polyfit lh lv gh gv, @regenerate_grid_points_linear R (Rst st) polyfit lh lv = Ok (gh, gv) ->
  transposed (length lh) (length lv) gh gv /\
  exists ch cv, Forall2 (line_hor st polyfit) lh ch /\ Forall2 (line_ver st polyfit) lv cv /\
  forall i j, (i < length lh)%nat -> (j < length lv)%nat -> fst (nth i ch (0, 0)) * fst (nth j cv (0, 0)) <> 1 ->
  exists p, on_hor (nth i ch (0, 0)) p /\ on_ver (nth j cv (0, 0)) p /\ at_ gh i j = (st (py p), st (pxc p)).
Proof.
  intros st polyfit lh lv gh gv. unfold regenerate_grid_points_linear.
  destruct (generate_linear_coef polyfit lh lv) as [[ch cv]|] eqn:E; [|discriminate]. cbn [bind fst snd]. intros H. apply Ok_inj in H.
  apply (generate_linear_ok st) in E. destruct E as [Fh Fv].
  pose proof (Forall2_length _ _ _ Fh) as Lh. pose proof (Forall2_length _ _ _ Fv) as Lv. unfold pt in *. rewrite Lh, Lv.
  split; [exact (C32_transpose R (Rst st) ch cv gh gv H)|]. exists ch, cv. split; [exact Fh|]. split; [exact Fv|].
  intros i j Hi Hj Hd. exact (C32_on_both_lines st ch cv gh gv i j H Hi Hj Hd).
Qed.
Print Assumptions C32_from_points.
(** Points on straight lines: the crossing points of those lines, for every
    least-squares fit. *)
Theorem C32_straight : forall polyfit lh lv ch cv, polyfit_oracle polyfit ->
  Forall2 (fun c line => (forall p, In p line -> on_hor c p) /\ distinct_values 2 (map pxc line)) ch lh ->
  Forall2 (fun c line => (forall p, In p line -> on_ver c p) /\ distinct_values 2 (map py line)) cv lv ->
  (forall c d, In c ch -> In d cv -> fst c * fst d <> 1) ->
  exists gh gv, @regenerate_grid_points_linear R Rexact polyfit lh lv = Ok (gh, gv) /\ transposed (length lh) (length lv) gh gv /\
  forall i j, (i < length lh)%nat -> (j < length lv)%nat -> on_hor (nth i ch (0, 0)) (at_ gh i j) /\ on_ver (nth j cv (0, 0)) (at_ gh i j).
Proof.
  intros polyfit lh lv ch cv PF Fh Fv Hd.
  assert (Gh : Forall2 (line_hor (fun x => x) polyfit) lh ch).
  { clear -Fh PF. induction Fh as [|c line ch lh [H D] F IH]; constructor; [|assumption]. destruct c as [a b]. exact (line_hor_exact (fun x => x) polyfit line a b PF D H). }
  assert (Gv : Forall2 (line_ver (fun x => x) polyfit) lv cv).
  { clear -Fv PF. induction Fv as [|c line ch lh [H D] F IH]; constructor; [|assumption]. destruct c as [a b]. exact (line_ver_exact (fun x => x) polyfit line a b PF D H). }
  pose proof (Forall2_length _ _ _ Gh) as Lh. pose proof (Forall2_length _ _ _ Gv) as Lv.
  destruct (@regenerate_from_coef R Rexact ch cv) as [gh gv] eqn:E. exists gh, gv.
  assert (E0 : @regenerate_grid_points_linear R Rexact polyfit lh lv = Ok (gh, gv)).
  { unfold regenerate_grid_points_linear. assert (G : @generate_linear_coef R Rexact polyfit lh lv = Ok (ch, cv))
      by exact (generate_linear_lines (fun x => x) polyfit lh lv ch cv Gh Gv).
    unfold pt in *. rewrite G. cbn [bind fst snd]. now rewrite E. }
  split; [exact E0|]. rewrite Lh, Lv. split; [exact (C32_transpose R Rexact ch cv gh gv E)|]. intros i j Hi Hj.
  destruct (C32_on_both_lines (fun x => x) ch cv gh gv i j E Hi Hj) as [p [H1 [H2 H3]]].
  - apply Hd; apply nth_In; assumption.
  - rewrite H3. now destruct p.
Qed.
Print Assumptions C32_straight.
(** y = x, y = x + 4 and x = 2, x = - y + 4 *)
Example C32_ex : exists gh gv, @regenerate_grid_points_linear R Rexact pf_R
    [[(0, 0); (1, 1); (5, 5)]; [(4, 0); (6, 2)]] [[(0, 2); (7, 2)]; [(4, 0); (3, 1); (1, 3)]] = Ok (gh, gv) /\
  gh = [[(2, 2); (2, 2)]; [(6, 2); (4, 0)]] /\ gv = [[(2, 2); (6, 2)]; [(2, 2); (4, 0)]].
Proof.
  destruct (C32_straight pf_R [[(0, 0); (1, 1); (5, 5)]; [(4, 0); (6, 2)]] [[(0, 2); (7, 2)]; [(4, 0); (3, 1); (1, 3)]]
    [(1, 0); (1, 4)] [(0, 2); (-1, 4)] pf_R_ok) as [gh [gv [E [T H]]]].
  - repeat constructor; try (intros p Hp; cbn [In] in Hp; repeat destruct Hp as [<-|Hp]; try contradiction; unfold on_hor, py, pxc; cbn; lra).
    + exists [0; 1]. split; [repeat constructor; cbn [In]; intuition lra|]. split; [cbn; intuition|cbn; lia].
    + exists [0; 2]. split; [repeat constructor; cbn [In]; intuition lra|]. split; [cbn; intuition|cbn; lia].
  - repeat constructor; try (intros p Hp; cbn [In] in Hp; repeat destruct Hp as [<-|Hp]; try contradiction; unfold on_ver, py, pxc; cbn; lra).
    + exists [0; 7]. split; [repeat constructor; cbn [In]; intuition lra|]. split; [cbn; intuition|cbn; lia].
    + exists [4; 3]. split; [repeat constructor; cbn [In]; intuition lra|]. split; [cbn; intuition|cbn; lia].
  - intros c d Hc Hd. cbn [In] in Hc, Hd. destruct Hc as [<-|[<-|[]]], Hd as [<-|[<-|[]]]; cbn [fst]; lra.
  - exists gh, gv. split; [exact E|].
    assert (P : forall i j p, (i < 2)%nat -> (j < 2)%nat -> on_hor (nth i [(1, 0); (1, 4)] (0, 0)) p -> on_ver (nth j [(0, 2); (-1, 4)] (0, 0)) p -> at_ gh i j = p).
    { intros i j p Hi Hj H1 H2. destruct (H i j Hi Hj) as [H3 H4].
      apply (cross_unique (nth i [(1, 0); (1, 4)] (0, 0)) (nth j [(0, 2); (-1, 4)] (0, 0))); try assumption.
      destruct i as [|[|]], j as [|[|]]; try lia; cbn [nth fst]; lra. }
    pose proof (P O O (2, 2)) as P00. pose proof (P O 1%nat (2, 2)) as P01. pose proof (P 1%nat O (6, 2)) as P10. pose proof (P 1%nat 1%nat (4, 0)) as P11.
    unfold on_hor, on_ver, py, pxc in *. cbn [nth fst snd] in *.
    specialize (P00 ltac:(lia) ltac:(lia) ltac:(lra) ltac:(lra)). specialize (P01 ltac:(lia) ltac:(lia) ltac:(lra) ltac:(lra)).
    specialize (P10 ltac:(lia) ltac:(lia) ltac:(lra) ltac:(lra)). specialize (P11 ltac:(lia) ltac:(lia) ltac:(lra) ltac:(lra)).
    destruct T as [T1 [T2 [T3 [T4 T5]]]].
    pose proof (T5 O O (0, 0)) as U00. pose proof (T5 O 1%nat (0, 0)) as U01. pose proof (T5 1%nat O (0, 0)) as U10. pose proof (T5 1%nat 1%nat (0, 0)) as U11.
    specialize (U00 ltac:(cbn; lia) ltac:(cbn; lia)). specialize (U01 ltac:(cbn; lia) ltac:(cbn; lia)).
    specialize (U10 ltac:(cbn; lia) ltac:(cbn; lia)). specialize (U11 ltac:(cbn; lia) ltac:(cbn; lia)).
    unfold at_ in *. destruct gh as [|g0 [|g1 [|]]]; try discriminate T1. destruct gv as [|h0 [|h1 [|]]]; try discriminate T3.
    pose proof (T2 g0 (or_introl eq_refl)) as L0. pose proof (T2 g1 (or_intror (or_introl eq_refl))) as L1.
    pose proof (T4 h0 (or_introl eq_refl)) as L2. pose proof (T4 h1 (or_intror (or_introl eq_refl))) as L3.
    destruct g0 as [|a [|b [|]]]; try discriminate L0. destruct g1 as [|c [|d [|]]]; try discriminate L1.
    destruct h0 as [|a' [|b' [|]]]; try discriminate L2. destruct h1 as [|c' [|d' [|]]]; try discriminate L3.
    cbn [nth] in *. subst. split; reflexivity.
Qed.

(** ** C33 undistorted perspective lines *)
(** Exact arithmetic, at least two lines in each direction, any fit and any
    optimiser: a lattice with perpendicular directions, square if equal
    distances are asked for. *)
Theorem C33_lattice : forall polyfit minimize lh lv eq scale opt gh gv, (2 <= length lh)%nat -> (2 <= length lv)%nat ->
  @generate_undistorted_perspective_lines R Rexact polyfit minimize lh lv eq scale opt = Ok (gh, gv) ->
  transposed (length lh) (length lv) gh gv /\
  exists o v w, pdot v w = 0 /\ (eq = true -> pdot v v = pdot w w) /\
  forall i j, (i < length lh)%nat -> (j < length lv)%nat -> at_ gh i j = lattice o v w i j.
Proof.
  intros polyfit minimize lh lv eq scale opt gh gv Lh Lv H.
  destruct (undistorted_lines_ok polyfit minimize lh lv eq scale opt gh gv Lh Lv H) as [T [a [ch [cv [sh [sv [dh [dv [_ [_ [_ [_ [_ [Dh [Dv G]]]]]]]]]]]]]]].
  split; [exact T|].
  destruct (orthogonal_lattice a (middle (map snd ch) - INR (Nat.div2 (length lh)) * dh) dh (middle (map snd cv) - INR (Nat.div2 (length lv)) * dv) dv
    (length lh) (length lv) gh) as [O [_ [_ [o L]]]].
  { intros i j Hi Hj. destruct (G i j Hi Hj) as [G1 G2]. split.
    - replace (middle (map snd ch) - INR (Nat.div2 (length lh)) * dh + INR i * dh) with ((INR i - INR (Nat.div2 (length lh))) * dh + middle (map snd ch)) by ring. exact G1.
    - replace (middle (map snd cv) - INR (Nat.div2 (length lv)) * dv + INR j * dv) with ((INR j - INR (Nat.div2 (length lv))) * dv + middle (map snd cv)) by ring. exact G2. }
  exists o. eexists. eexists. split; [exact O|]. split; [|exact L].
  intros ->. rewrite Dh, Dv. unfold pdot, pscale, py, pxc. cbn [fst snd]. ring.
Qed.
Print Assumptions C33_lattice.
(** Which lattice: the middle lines keep their fitted intercepts, the common
    slope comes from all the lines, the distances from the scale option (and
    the optimiser). *)
Theorem C33_lines : forall polyfit minimize lh lv eq scale opt gh gv, (2 <= length lh)%nat -> (2 <= length lv)%nat ->
  @generate_undistorted_perspective_lines R Rexact polyfit minimize lh lv eq scale opt = Ok (gh, gv) ->
  exists a ch cv sh sv dh dv, Forall2 (line_hor (fun x => x) polyfit) lh ch /\ Forall2 (line_ver (fun x => x) polyfit) lv cv /\
    common_slope polyfit ch cv a /\
    line_step minimize scale opt (used (length lh) (length lv)) (map snd ch) sh /\
    line_step minimize scale opt (used (length lh) (length lv)) (map snd cv) sv /\
    dh = (if eq then common_step scale sh sv else sh) /\ dv = (if eq then common_step scale sh sv else sv) /\
    forall i j, (i < length lh)%nat -> (j < length lv)%nat ->
      on_hor (a, (INR i - INR (Nat.div2 (length lh))) * dh + middle (map snd ch)) (at_ gh i j) /\
      on_ver (- a, (INR j - INR (Nat.div2 (length lv))) * dv + middle (map snd cv)) (at_ gh i j).
Proof. intros polyfit minimize lh lv eq scale opt gh gv Lh Lv H. exact (proj2 (undistorted_lines_ok polyfit minimize lh lv eq scale opt gh gv Lh Lv H)). Qed.
Print Assumptions C33_lines.
(** The routine succeeds on any lines with points. *)
Theorem C33_total : forall polyfit minimize lh lv eq scale opt, polyfit_oracle polyfit -> (2 <= length lh)%nat -> (2 <= length lv)%nat ->
  (forall l, In l (lh ++ lv) -> l <> []) ->
  exists g, @generate_undistorted_perspective_lines R Rexact polyfit minimize lh lv eq scale opt = Ok g.
Proof. intros polyfit minimize lh lv eq scale opt PF. exact (undistorted_total (fun x => x) polyfit minimize PF lh lv eq scale opt). Qed.
Print Assumptions C33_total.
(** A trapezium x >= 0, x <= 2 - y / 2, 0 <= y <= 1 becomes a rectangle. *)
Example C33_ex : exists gh gv, @generate_undistorted_perspective_lines R Rexact pf_R min_R
    [[(0, 0); (0, 1)]; [(1, 0); (1, 1)]] [[(0, 0); (1, 0)]; [(0, 2); (1, 3 / 2)]] false ScMean false = Ok (gh, gv) /\
  at_ gh 0 0 = (0, 0) /\ at_ gh 0 1 = (0, 2) /\ at_ gh 1 0 = (1, 0) /\ at_ gh 1 1 = (1, 2).
Proof.
  set (lh := [[(0, 0); (0, 1)]; [(1, 0); (1, 1)]]). set (lv := [[(0, 0); (1, 0)]; [(0, 2); (1, 3 / 2)]]).
  destruct (C33_total pf_R min_R lh lv false ScMean false pf_R_ok) as [[gh gv] E]; [cbn; lia|cbn; lia| |].
  { intros l Hl. cbn in Hl. intuition (subst; discriminate). }
  exists gh, gv. split; [exact E|].
  destruct (C33_lines pf_R min_R lh lv false ScMean false gh gv) as [a [ch [cv [sh [sv [dh [dv [Fh [Fv [CS [S1 [S2 [Dh [Dv G]]]]]]]]]]]]]];
    [cbn; lia|cbn; lia|exact E|].
  assert (D2 : forall x y : R, x <> y -> forall l, In x l -> In y l -> distinct_values 2 l).
  { intros x y Hxy l Hx Hy. exists [x; y]. split; [repeat constructor; cbn [In]; intuition|]. split; [cbn; intuition (subst; assumption)|cbn; lia]. }
  assert (ch = [(0, 0); (0, 1)]).
  { refine (Forall2_fun (line_hor (fun x => x) pf_R) lh (fun a b b' => line_hor_fun pf_R (fun x => x) a b b') _ _ Fh _).
    unfold lh; apply Forall2_cons; [|apply Forall2_cons; [|apply Forall2_nil]]; (apply (line_hor_exact (fun x => x)); [exact pf_R_ok|apply (D2 0 1); [lra|cbn; tauto|cbn; tauto]|]);
      intros p Hp; cbn [In] in Hp; repeat destruct Hp as [<-|Hp]; try contradiction; unfold on_hor, py, pxc; cbn; lra. }
  assert (cv = [(0, 0); (- (1 / 2), 2)]).
  { refine (Forall2_fun (line_ver (fun x => x) pf_R) lv (fun a b b' => line_ver_fun pf_R (fun x => x) a b b') _ _ Fv _).
    unfold lv; apply Forall2_cons; [|apply Forall2_cons; [|apply Forall2_nil]]; (apply (line_ver_exact (fun x => x)); [exact pf_R_ok|apply (D2 0 1); [lra|cbn; tauto|cbn; tauto]|]);
      intros p Hp; cbn [In] in Hp; repeat destruct Hp as [<-|Hp]; try contradiction; unfold on_ver, py, pxc; cbn; lra. }
  subst ch cv.
  cbn [map fst snd] in S1, S2, G, CS. destruct CS as [ah [bh [av [bv [E1 [E2 [A1 A2]]]]]]].
  pose proof (@ProcFacts.fit1_exact pf_R pf_R_ok (R * R) snd fst [(0, 0); (0, 1)] 0 0) as F1.
  pose proof (@ProcFacts.fit1_exact pf_R pf_R_ok (R * R) fst snd [(0, 0); (2, - - (1 / 2))] (1 / 4) 0) as F2.
  cbn [map fst snd] in F1, F2, E1, E2.
  specialize (F1 ltac:(apply (D2 0 1); [lra|cbn; intuition|cbn; intuition]) ltac:(intros p Hp; cbn [In] in Hp; repeat destruct Hp as [<-|Hp]; try contradiction; cbn; lra)).
  specialize (F2 ltac:(apply (D2 0 2); [lra|cbn; intuition|cbn; intuition]) ltac:(intros p Hp; cbn [In] in Hp; repeat destruct Hp as [<-|Hp]; try contradiction; cbn; lra)).
  apply ProcFacts2.fit1_ok in F1. apply ProcFacts2.fit1_ok in F2. cbn [fst snd] in F1, F2.
  rewrite F1 in E1. replace (- 0) with 0 in E2 by ring. rewrite F2 in E2. apply Ok_inj in E1. apply Ok_inj in E2. injection E1 as <- <-. injection E2 as <- <-.
  destruct (A1 ltac:(rewrite Rabs_left; lra)) as [x [Hx _]]. assert (a = 0) by lra. subst a.
  destruct S1 as [d1 [[_ M1] [S1 _]]]. destruct S2 as [d2 [[_ M2] [S2 _]]]. cbn in M1, M2.
  specialize (S1 eq_refl). specialize (S2 eq_refl). unfold average in M1, M2. cbn [map length INR Rsum fold_right] in M1, M2.
  assert (dh = 1). { rewrite Dh, S1, M1. rewrite (Rabs_right (1 - 0)) by lra. unfold Rsum; cbn; lra. }
  assert (dv = 2). { rewrite Dv, S2, M2. rewrite (Rabs_right (2 - 0)) by lra. unfold Rsum; cbn; lra. }
  subst dh dv. cbn [length lh lv Nat.div2] in G. unfold middle in G; cbn [length Nat.div2 nth] in G.
  pose proof (G O O ltac:(lia) ltac:(lia)) as G00. pose proof (G O 1%nat ltac:(lia) ltac:(lia)) as G01.
  pose proof (G 1%nat O ltac:(lia) ltac:(lia)) as G10. pose proof (G 1%nat 1%nat ltac:(lia) ltac:(lia)) as G11.
  unfold on_hor, on_ver, py, pxc in *. cbn [fst snd INR] in *.
  repeat apply conj; apply injective_projections; cbn [fst snd]; lra.
Qed.

(** A sorting routine, for examples and existence. *)
Definition AI : list R -> list nat := @argsort_ins R Rexact.
Lemma AI_ok : argsort_spec AI.
Proof. exact (argsort_ins_ok (fun x => x)). Qed.

(** ** C34 four points *)
Theorem C34_four_only : forall T (N : Num T) argsort cos_ arctan_ pts xy eq scale, length pts <> 4%nat ->
  @generate_4_source_target_perspective_points T N argsort cos_ arctan_ pts xy eq scale = Err ValueError.
Proof.
  intros T N argsort cos_ arctan_ pts xy eq scale H. unfold generate_4_source_target_perspective_points. cbn zeta.
  assert (E : length (if xy then fliplr (map (fun p : T * T => (nf32 (fst p), nf32 (snd p))) pts) else map (fun p : T * T => (nf32 (fst p), nf32 (snd p))) pts) = length pts).
  { destruct xy; unfold fliplr; now rewrite !map_length. }
  rewrite E. apply Nat.eqb_neq in H. now rewrite H.
Qed.
Print Assumptions C34_four_only.
Theorem C34_xy_order : forall T (N : Num T) argsort cos_ arctan_ pts eq scale,
  @generate_4_source_target_perspective_points T N argsort cos_ arctan_ pts true eq scale =
  @generate_4_source_target_perspective_points T N argsort cos_ arctan_ (map (fun p : T * T => (snd p, fst p)) pts) false eq scale.
Proof.
  intros T N argsort cos_ arctan_ pts eq scale. unfold generate_4_source_target_perspective_points. cbn zeta.
  assert (E : fliplr (map (fun p : T * T => (nf32 (fst p), nf32 (snd p))) pts) = map (fun p : T * T => (nf32 (fst p), nf32 (snd p))) (map (fun p : T * T => (snd p, fst p)) pts)).
  { unfold fliplr. rewrite !map_map. apply map_ext. intros [y x]. reflexivity. }
  now rewrite E.
Qed.
Print Assumptions C34_xy_order.
(** Four points with different ordinates and abscissae have corner positions. *)
Lemma corner_positions pts : length pts = 4%nat -> NoDup (map py pts) -> NoDup (map pxc pts) ->
  exists q1 q2 q3 q4, Permutation pts [q1; q2; q3; q4] /\ corners q1 q2 q3 q4.
Proof.
  intros L Dy Dx. destruct (gather_argsort AI py pts AI_ok) as [P S].
  set (s := gather pts (AI (map py pts))) in *. clearbody s.
  pose proof (Permutation_length P) as L'. rewrite L in L'.
  assert (Dy' : NoDup (map py s)) by (apply (Permutation_NoDup (l := map py pts)); [now apply Permutation_map, Permutation_sym|assumption]).
  assert (Dx' : NoDup (map pxc s)) by (apply (Permutation_NoDup (l := map pxc pts)); [now apply Permutation_map, Permutation_sym|assumption]).
  destruct s as [|a [|b [|c [|d [|]]]]]; try discriminate L'. cbn [map] in Dy', Dx'.
  inversion S as [|? ? S1 F1]; subst. inversion S1 as [|? ? S2 F2]; subst. inversion S2 as [|? ? S3 F3]; subst.
  inversion F1 as [|? ? A1 A2]; subst. inversion A2 as [|? ? A3 A4]; subst. inversion A4 as [|? ? A5 _]; subst.
  inversion F2 as [|? ? B1 B2]; subst. inversion B2 as [|? ? B3 _]; subst. inversion F3 as [|? ? C1 _]; subst.
  inversion Dy' as [|? ? N1 D1]; subst. inversion D1 as [|? ? N2 D2]; subst. inversion D2 as [|? ? N3 _]; subst.
  inversion Dx' as [|? ? M1 E1]; subst. inversion E1 as [|? ? M2 E2]; subst. inversion E2 as [|? ? M3 _]; subst.
  cbn [In] in *.
  assert (LT : forall x y : R, x <= y -> y <> x -> x < y) by (intros; lra).
  assert (py a < py c) by (apply LT; [assumption|tauto]). assert (py a < py d) by (apply LT; [assumption|tauto]).
  assert (py b < py c) by (apply LT; [assumption|tauto]). assert (py b < py d) by (apply LT; [assumption|tauto]).
  assert (X : pxc a <> pxc b) by (apply not_eq_sym; tauto). assert (Y : pxc c <> pxc d) by (apply not_eq_sym; tauto).
  apply Permutation_sym in P.
  destruct (Rlt_dec (pxc a) (pxc b)), (Rlt_dec (pxc c) (pxc d)).
  - exists a, b, c, d. split; [exact P|]. unfold corners. repeat apply conj; assumption.
  - exists a, b, d, c. split; [rewrite P; do 2 apply perm_skip; apply perm_swap|]. unfold corners. repeat apply conj; try assumption; lra.
  - exists b, a, c, d. split; [rewrite P; apply perm_swap|]. unfold corners. repeat apply conj; try assumption; lra.
  - exists b, a, d, c. split; [rewrite P; rewrite perm_swap; do 2 apply perm_skip; apply perm_swap|]. unfold corners. repeat apply conj; try assumption; lra.
Qed.
Lemma swap_py pts : map py (map swap pts) = map pxc pts.
Proof. rewrite map_map. apply map_ext. now intros [y x]. Qed.
Lemma swap_pxc pts : map pxc (map swap pts) = map py pts.
Proof. rewrite map_map. apply map_ext. now intros [y x]. Qed.
(** Source: the input in the order top-left, top-right, bottom-left,
    bottom-right.  Target: a rectangle with the selected side lengths whose
    centre lies on the average of the horizontal lines. *)
Theorem C34_rectangle : forall argsort (pts : list (R * R)) xy eq scale, argsort_spec argsort -> length pts = 4%nat ->
  NoDup (map fst pts) -> NoDup (map snd pts) ->
  exists q1 q2 q3 q4 p1 p2 p3 p4,
  @generate_4_source_target_perspective_points R Rexact argsort cos atan pts xy eq scale = Ok ([q1; q2; q3; q4], [p1; p2; p3; p4]) /\
  Permutation (if (xy : bool) then map swap pts else pts) [q1; q2; q3; q4] /\ corners q1 q2 q3 q4 /\
  rectangle p1 p2 p3 p4 /\ (dist p1 p2, dist p1 p3) = sides scale eq q1 q2 q3 q4 /\ (eq = true -> dist p1 p2 = dist p1 p3) /\
  on_hor (slope0 q1 q2 q3 q4, (hor_inter q1 q2 + hor_inter q3 q4) / 2) (mid p1 p4) /\
  on_ver (- slope0 q1 q2 q3 q4, (ver_inter q1 q3 + ver_inter q2 q4) / 2) (mid p1 p4) /\
  psub p2 p1 = pscale (dist p1 p2 / sqrt (1 + slope0 q1 q2 q3 q4 ^ 2)) (slope0 q1 q2 q3 q4, 1).
Proof.
  intros argsort pts xy eq scale AS L Dy Dx.
  destruct (corner_positions (if (xy : bool) then map swap pts else pts)) as [q1 [q2 [q3 [q4 [P C]]]]].
  - destruct xy; [rewrite map_length|]; exact L.
  - destruct xy; [|exact Dy]. rewrite swap_py. exact Dx.
  - destruct xy; [|exact Dx]. rewrite swap_pxc. exact Dy.
  - destruct (four_points argsort AS pts xy eq scale q1 q2 q3 q4 P C) as [p1 [p2 [p3 [p4 [c [E [O1 [O2 TG]]]]]]]].
    exists q1, q2, q3, q4, p1, p2, p3, p4. split; [exact E|]. split; [exact P|]. split; [exact C|].
    destruct (sides_nonneg scale eq q1 q2 q3 q4) as [Z1 Z2]. 
    assert (ES : eq = true -> fst (sides scale eq q1 q2 q3 q4) = snd (sides scale eq q1 q2 q3 q4)) by (intros ->; reflexivity).
    destruct (sides scale eq q1 q2 q3 q4) as [h v]. cbn [fst snd] in *.
    destruct (target_rectangle _ c h v p1 p2 p3 p4 Z1 Z2 TG) as [T1 [T2 [T3 [T4 T5]]]]. rewrite T2, T3, T4.
    split; [exact T1|]. split; [reflexivity|]. split; [exact ES|]. split; [exact O1|]. split; [exact O2|exact T5].
Qed.
Print Assumptions C34_rectangle.
(** The order of the input does not matter; the sorting routine neither. *)
Theorem C34_order_irrelevant : forall as1 as2 (pts pts' : list (R * R)) xy eq scale, argsort_spec as1 -> argsort_spec as2 ->
  length pts = 4%nat -> NoDup (map fst pts) -> NoDup (map snd pts) -> Permutation pts pts' ->
  @generate_4_source_target_perspective_points R Rexact as1 cos atan pts xy eq scale =
  @generate_4_source_target_perspective_points R Rexact as2 cos atan pts' xy eq scale.
Proof.
  intros as1 as2 pts pts' xy eq scale A1 A2 L Dy Dx PP.
  destruct (corner_positions (if (xy : bool) then map swap pts else pts)) as [q1 [q2 [q3 [q4 [P C]]]]].
  - destruct xy; [rewrite map_length|]; exact L.
  - destruct xy; [|exact Dy]. rewrite swap_py. exact Dx.
  - destruct xy; [|exact Dx]. rewrite swap_pxc. exact Dy.
  - assert (P' : Permutation (if (xy : bool) then map swap pts' else pts') [q1; q2; q3; q4]).
    { rewrite <- P. destruct xy; [apply Permutation_map|]; now apply Permutation_sym. }
    destruct (four_points as1 A1 pts xy eq scale q1 q2 q3 q4 P C) as [p1 [p2 [p3 [p4 [c [E [O1 [O2 TG]]]]]]]].
    destruct (four_points as2 A2 pts' xy eq scale q1 q2 q3 q4 P' C) as [p1' [p2' [p3' [p4' [c' [E' [O1' [O2' TG']]]]]]]].
    assert (c' = c). { apply (cross_unique (slope0 q1 q2 q3 q4, (hor_inter q1 q2 + hor_inter q3 q4) / 2) (- slope0 q1 q2 q3 q4, (ver_inter q1 q3 + ver_inter q2 q4) / 2)); try assumption.
      cbn [fst]. pose proof (pow2_ge_0 (slope0 q1 q2 q3 q4)). nra. }
    subst c'. assert (G : ([q1; q2; q3; q4], [p1; p2; p3; p4]) = ([q1; q2; q3; q4], [p1'; p2'; p3'; p4'])).
    { destruct TG as [-> [-> [-> ->]]], TG' as [-> [-> [-> ->]]]. reflexivity. }
    etransitivity; [exact E|]. etransitivity; [|symmetry; exact E']. exact (f_equal (@Ok (list (R * R) * list (R * R))) G).
Qed.
Print Assumptions C34_order_irrelevant.
(** A rectangle (a square, if equal sides are asked for) in corner position is
    left alone, unless scaled by a number. *)
Theorem C34_rectangle_kept : forall argsort (pts : list (R * R)) eq scale q1 q2 q3 q4, argsort_spec argsort -> Permutation pts [q1; q2; q3; q4] -> corners q1 q2 q3 q4 ->
  rectangle q1 q2 q3 q4 -> (forall s, scale = ScVal s -> s = 1) -> (eq = true -> dist q1 q2 = dist q1 q3) ->
  @generate_4_source_target_perspective_points R Rexact argsort cos atan pts false eq scale = Ok ([q1; q2; q3; q4], [q1; q2; q3; q4]).
Proof.
  intros argsort pts eq scale q1 q2 q3 q4 AS P C Rc Sc He.
  destruct (four_points argsort AS pts false eq scale q1 q2 q3 q4 P C) as [p1 [p2 [p3 [p4 [c [E [O1 [O2 TG]]]]]]]].
  destruct (rectangle_fixed scale eq q1 q2 q3 q4 p1 p2 p3 p4 c C Rc Sc He O1 O2 TG) as [-> [-> [-> ->]]]. exact E.
Qed.
Print Assumptions C34_rectangle_kept.
(** (y, x) points (3, 0), (0, 1), (4, 3), (1, 4): a tilted square. *)
Example C34_ex : argsort_spec AI /\ NoDup (map fst [(3, 0); (0, 1); (4, 3); (1, 4)]) /\ NoDup (map snd [(3, 0); (0, 1); (4, 3); (1, 4)]) /\
  @generate_4_source_target_perspective_points R Rexact AI cos atan [(3, 0); (0, 1); (4, 3); (1, 4)] false true ScMax =
  Ok ([(0, 1); (1, 4); (3, 0); (4, 3)], [(0, 1); (1, 4); (3, 0); (4, 3)]).
Proof.
  split; [exact AI_ok|]. split; [repeat constructor; cbn [In map fst]; intuition lra|]. split; [repeat constructor; cbn [In map snd]; intuition lra|].
  apply C34_rectangle_kept.
  - exact AI_ok.
  - apply (perm_trans (l' := [(0, 1); (3, 0); (4, 3); (1, 4)])); [apply perm_swap|]. apply perm_skip.
    apply (perm_trans (l' := [(3, 0); (1, 4); (4, 3)])); [apply perm_skip, perm_swap|apply perm_swap].
  - unfold corners, py, pxc. cbn. repeat apply conj; lra.
  - unfold rectangle, psub, pdot, py, pxc. cbn. split; [f_equal; lra|lra].
  - discriminate.
  - intros _. unfold dist, py, pxc. cbn. f_equal. lra.
Qed.

(** ** C35 perspective coefficients *)
Theorem C35_backward : forall T (N : Num T) lstsq src tgt,
  @calc_perspective_coefficients T N lstsq src tgt false = @calc_perspective_coefficients T N lstsq tgt src true.
Proof. reflexivity. Qed.
Print Assumptions C35_backward.
(** Without points: ValueError; more targets than sources: LinAlgError; the
    sources beyond the number of targets are ignored. *)
Theorem C35_counts : forall T (N : Num T) lstsq src tgt,
  (src = [] \/ tgt = [] -> @calc_perspective_coefficients T N lstsq src tgt true = Err ValueError) /\
  (src <> [] -> (length src < length tgt)%nat -> @calc_perspective_coefficients T N lstsq src tgt true = Err LinAlgError) /\
  (src <> [] -> length src = length tgt -> forall extra,
    @calc_perspective_coefficients T N lstsq (src ++ extra) tgt true = @calc_perspective_coefficients T N lstsq src tgt true).
Proof.
  intros T N lstsq src tgt. repeat apply conj.
  - intros [->| ->]; [reflexivity|]. unfold calc_perspective_coefficients. destruct src; reflexivity.
  - intros Hs L. unfold calc_perspective_coefficients. destruct src as [|p src]; [contradiction|]. destruct tgt as [|q tgt]; [cbn in L; lia|].
    cbn zeta. change (fliplr (p :: src)) with ((snd p, fst p) :: fliplr src). change (fliplr (q :: tgt)) with ((snd q, fst q) :: fliplr tgt).
    cbn iota. cbn [length] in *. unfold fliplr at 1 2. rewrite !map_length. apply Nat.ltb_lt in L. now rewrite L.
  - intros Hs L extra. unfold calc_perspective_coefficients. destruct src as [|p src]; [contradiction|]. destruct tgt as [|q tgt]; [discriminate L|].
    cbn [app]. cbn zeta. change (fliplr (p :: src)) with ((snd p, fst p) :: fliplr src). change (fliplr (q :: tgt)) with ((snd q, fst q) :: fliplr tgt).
    change (fliplr (p :: src ++ extra)) with ((snd p, fst p) :: fliplr (src ++ extra)).
    cbn iota. cbn [length combine map concat] in *. injection L as L. unfold fliplr. rewrite !map_length, app_length.
    replace (S (length src + length extra) <? S (length tgt))%nat with false by (symmetry; apply Nat.ltb_ge; lia).
    replace (S (length src) <? S (length tgt))%nat with false by (symmetry; apply Nat.ltb_ge; lia).
    assert (C : combine (map (fun p0 : T * T => (snd p0, fst p0)) (src ++ extra)) (map (fun p0 : T * T => (snd p0, fst p0)) tgt) =
      combine (map (fun p0 : T * T => (snd p0, fst p0)) src) (map (fun p0 : T * T => (snd p0, fst p0)) tgt)).
    { clear -L. revert tgt L. induction src as [|a src IH]; intros [|b tgt] L; try discriminate L; [now destruct extra|]. cbn. f_equal. apply IH. now injection L. }
    now rewrite C.
Qed.
Print Assumptions C35_counts.
(** If some map sends every source to its target, the result does so wherever
    it is defined, for every least-squares solver. *)
Theorem C35_reproduces : forall lstsq src tgt c0, lstsq_oracle lstsq -> src <> [] -> length src = length tgt ->
  (forall p q, In (p, q) (combine src tgt) -> sends c0 p q) ->
  exists c, @calc_perspective_coefficients R Rexact lstsq src tgt true = Ok c /\ length c = 8%nat /\
  (forall p q, In (p, q) (combine src tgt) -> den (proj_map c) p <> 0 -> proj (proj_map c) p = q) /\
  ((forall p, In p src -> den (proj_map c) p <> 0) -> @correct_perspective_line R Rexact [src] c = Ok [tgt]).
Proof.
  intros lstsq src tgt c0 LS Hs L H. destruct (pers_coef_lsq lstsq LS src tgt Hs L) as [c [E [L8 S]]]. exists c. split; [exact E|]. split; [exact L8|].
  assert (G : forall p q, In (p, q) (combine src tgt) -> den (proj_map c) p <> 0 -> proj (proj_map c) p = q).
  { intros p q Hp Hd. apply (satisfies_sends c p q L8 Hd). apply (S c0); [|intros p' q' Hp'; now apply sends_satisfies, H|exact Hp]. exact (proj1 (H p q Hp)). }
  split; [exact G|]. intros Hd. apply perspective_line_coefs. split; [exact L8|]. change (coef_mat c) with (proj_map c). cbn [map]. f_equal.
  clear -L G Hd. revert tgt L G. induction src as [|p src IH]; intros [|q tgt] L G; try discriminate L; [reflexivity|]. cbn [map]. f_equal.
  - symmetry. apply G; [now left|]. apply Hd. now left.
  - apply IH; [intros; apply Hd; now right|now injection L|]. intros a b Hab. apply G. now right.
Qed.
Print Assumptions C35_reproduces.
(** With four pairs in general position it is that map. *)
Theorem C35_unique : forall lstsq src tgt c0 p1 p2 p3 p4 q1 q2 q3 q4, lstsq_oracle lstsq -> length src = length tgt ->
  (forall p q, In (p, q) (combine src tgt) -> sends c0 p q) ->
  In (p1, q1) (combine src tgt) -> In (p2, q2) (combine src tgt) -> In (p3, q3) (combine src tgt) -> In (p4, q4) (combine src tgt) ->
  general_position p1 p2 p3 p4 -> triangle q1 q2 q3 ->
  @calc_perspective_coefficients R Rexact lstsq src tgt true = Ok c0.
Proof.
  intros lstsq src tgt c0 p1 p2 p3 p4 q1 q2 q3 q4 LS L H I1 I2 I3 I4 G TQ.
  assert (Hs : src <> []) by (intros ->; destruct I1).
  destruct (pers_coef_lsq lstsq LS src tgt Hs L) as [c [E [L8 S]]]. etransitivity; [exact E|]. f_equal.
  assert (S' : forall p q, In (p, q) (combine src tgt) -> satisfies c p q).
  { intros p q Hp. apply (S c0); [exact (proj1 (H p q Hp))| |exact Hp]. intros a b Hab. now apply sends_satisfies, H. }
  apply (coefs_unique c c0 p1 p2 p3 p4 q1 q2 q3 q4); auto.
Qed.
Print Assumptions C35_unique.
(** The unit square under x' = 2 x / (x + 1), y' = (y + x) / (x + 1). *)
Example C35_ex : lstsq_oracle ls_R /\
  @calc_perspective_coefficients R Rexact ls_R [(0, 0); (0, 1); (1, 0); (1, 1)] [(0, 0); (1 / 2, 1); (1, 0); (1, 1)] true = Ok [2; 0; 0; 1; 1; 0; 1; 0].
Proof.
  split; [exact ls_R_ok|].
  apply (C35_unique ls_R [(0, 0); (0, 1); (1, 0); (1, 1)] [(0, 0); (1 / 2, 1); (1, 0); (1, 1)] _ (0, 0) (0, 1) (1, 0) (1, 1) (0, 0) (1 / 2, 1) (1, 0) (1, 1)).
  - exact ls_R_ok.
  - reflexivity.
  - intros p q Hp. cbn [combine In] in Hp. repeat destruct Hp as [Hp|Hp]; try contradiction; apply pair_equal_spec in Hp; destruct Hp as [<- <-];
      unfold sends, proj, den, proj_map, py, pxc; cbn; (split; [reflexivity|split; [lra|apply pair_equal_spec; split; field]]).
  - cbn; tauto.
  - cbn; tauto.
  - cbn; tauto.
  - cbn; tauto.
  - unfold general_position, triangle, area, py, pxc. cbn. repeat apply conj; lra.
  - unfold triangle, area, py, pxc. cbn. lra.
Qed.
