(** C113: calibrating the perspective of a tilted grid. *)
From Coq Require Import Reals ZArith List Lra Lia Permutation Sorted.
From Flocq Require Import Core.
From Verif Require Import Base Num NumFacts Spec Lsq LsqEx ProcSpec PersSpec PrepSpec Sorting Img PrepImg PrepPts PrepFacts PrepFacts2 Post PostPersp PostLines2 PostExtra
  Proc ProcPers ProcFacts ProcFacts2 ProcFacts3 ProcFacts4 ProcFacts5 PersFacts PersFacts2 PersFacts3 Props_Proc Props_Post Props_Pers RoundFacts Props_Round Props_Scene.
Import ListNotations.
Local Open Scope R_scope.

(** *** A camera looking at a plane *)
Definition det3 (m : mat3) : R :=
  Spec.c1 m * (c5 m * c9 m - c6 m * c8 m) - c2 m * (c4 m * c9 m - c6 m * c7 m) + c3 m * (c4 m * c8 m - c5 m * c7 m).
(** The camera m shows the point p of the plane at q. *)
Definition shows (m : mat3) (p q : pt) : Prop := den m p <> 0 /\ proj m p = q.
(** Dots seen on row i (column j) of the grid of points (i, j), in any order,
    with dots missing; at least two, not above (beside) each other. *)
Definition seen_row (m : mat3) (i : nat) (line : list pt) : Prop :=
  (forall q, In q line -> exists t, shows m (INR i, t) q) /\ exists q q', In q line /\ In q' line /\ pxc q <> pxc q'.
Definition seen_col (m : mat3) (j : nat) (line : list pt) : Prop :=
  (forall q, In q line -> exists t, shows m (t, INR j) q) /\ exists q q', In q line /\ In q' line /\ py q <> py q'.
(** The plane laid out flat: (y, x) at o + y v + x w. *)
Definition place (o v w p : pt) : pt := padd o (padd (pscale (py p) v) (pscale (pxc p) w)).
(** All points of an n x k grid, row by row. *)
Definition grid_points (n k : nat) : list pt := concat (map (fun i => map (fun j => (INR i, INR j)) (seq 0 k)) (seq 0 n)).

(** *** Algebra *)
Definition adj3 (m : mat3) : mat3 :=
  M3 (c5 m * c9 m - c6 m * c8 m) (c3 m * c8 m - c2 m * c9 m) (c2 m * c6 m - c3 m * c5 m)
     (c6 m * c7 m - c4 m * c9 m) (Spec.c1 m * c9 m - c3 m * c7 m) (c3 m * c4 m - Spec.c1 m * c6 m)
     (c4 m * c8 m - c5 m * c7 m) (c2 m * c7 m - Spec.c1 m * c8 m) (Spec.c1 m * c5 m - c2 m * c4 m).
Definition flat (o v w : pt) : mat3 := M3 (pxc w) (pxc v) (pxc o) (py w) (py v) (py o) 0 0 1.
Lemma place_flat o v w p : proj (flat o v w) p = place o v w p.
Proof. unfold proj, den, flat, place, padd, pscale, py, pxc. cbn. apply pair_equal_spec; split; field. Qed.
Lemma area_proj m p q r : den m p <> 0 -> den m q <> 0 -> den m r <> 0 ->
  area (proj m p) (proj m q) (proj m r) = det3 m * area p q r / (den m p * den m q * den m r).
Proof.
  intros Hp Hq Hr. destruct p as [py px], q as [qy qx], r as [ry rx]. unfold area, proj, den, det3, Spec.py, Spec.pxc in *. cbn [fst snd] in *.
  field. repeat split; assumption.
Qed.
Lemma sends_mat M q r : c9 M <> 0 -> den M q <> 0 -> Spec.c1 M * pxc q + c2 M * py q + c3 M = den M q * pxc r ->
  c4 M * pxc q + c5 M * py q + c6 M = den M q * py r -> sends (mat_coefs M) q r.
Proof.
  intros H9 Hd Hx Hy. unfold sends. split; [reflexivity|]. change (proj_map (mat_coefs M)) with (coef_mat (mat_coefs M)). rewrite coef_mat_coefs by assumption.
  assert (E : den (scale3 (/ c9 M) M) q = / c9 M * den M q) by (unfold den, scale3; cbn; ring).
  assert (Z : / c9 M * den M q <> 0) by (apply Rmult_integral_contrapositive; split; [now apply Rinv_neq_0_compat|assumption]).
  split; [now rewrite E|]. rewrite proj_scale; [|now apply Rinv_neq_0_compat|assumption].
  unfold proj. rewrite Hx, Hy. destruct r as [ry rx]. cbn. apply pair_equal_spec. split; field; assumption.
Qed.
(** Photograph to plan, and plan to photograph. *)
Lemma forward_sends m o v w p : det3 m <> 0 -> Spec.c1 m * c5 m - c2 m * c4 m <> 0 -> den m p <> 0 ->
  sends (mat_coefs (mul3 (flat o v w) (adj3 m))) (proj m p) (place o v w p).
Proof.
  intros Hd H9 Hp.
  assert (E : den (mul3 (flat o v w) (adj3 m)) (proj m p) = det3 m / den m p).
  { unfold den at 1, proj, mul3, flat, adj3, det3, py, pxc. cbn [Spec.c1 c2 c3 c4 c5 c6 c7 c8 c9 fst snd]. unfold den, py, pxc in *. field. assumption. }
  apply sends_mat.
  - unfold mul3, flat, adj3. cbn [Spec.c1 c2 c3 c4 c5 c6 c7 c8 c9]. intros Z. apply H9. lra.
  - rewrite E. unfold Rdiv. apply Rmult_integral_contrapositive. split; [assumption|now apply Rinv_neq_0_compat].
  - rewrite E. unfold proj, mul3, flat, adj3, det3, place, padd, pscale, py, pxc. cbn [Spec.c1 c2 c3 c4 c5 c6 c7 c8 c9 fst snd]. unfold den, py, pxc in *. field. assumption.
  - rewrite E. unfold proj, mul3, flat, adj3, det3, place, padd, pscale, py, pxc. cbn [Spec.c1 c2 c3 c4 c5 c6 c7 c8 c9 fst snd]. unfold den, py, pxc in *. field. assumption.
Qed.
Definition cross2 (v w : pt) : R := py v * pxc w - pxc v * py w.
Lemma backward_sends m o v w p : cross2 v w <> 0 -> c9 (mul3 m (adj3 (flat o v w))) <> 0 -> den m p <> 0 ->
  sends (mat_coefs (mul3 m (adj3 (flat o v w)))) (place o v w p) (proj m p).
Proof.
  intros Hc H9 Hp.
  assert (E : den (mul3 m (adj3 (flat o v w))) (place o v w p) = cross2 v w * den m p).
  { unfold den, mul3, flat, adj3, place, padd, pscale, cross2, py, pxc. cbn [Spec.c1 c2 c3 c4 c5 c6 c7 c8 c9 fst snd]. ring. }
  apply sends_mat; [assumption| | |].
  - rewrite E. now apply Rmult_integral_contrapositive.
  - rewrite E. unfold proj, mul3, flat, adj3, place, padd, pscale, cross2, py, pxc. cbn [Spec.c1 c2 c3 c4 c5 c6 c7 c8 c9 fst snd]. field. assumption.
  - rewrite E. unfold proj, mul3, flat, adj3, place, padd, pscale, cross2, py, pxc. cbn [Spec.c1 c2 c3 c4 c5 c6 c7 c8 c9 fst snd]. field. assumption.
Qed.

(** *** Lines stay lines *)
Lemma row_line m i line : seen_row m i line -> exists c, (forall q t, shows m (INR i, t) q -> on_hor c q) /\ distinct_values 2 (map pxc line).
Proof.
  intros [H [q0 [q1 [I0 [I1 Hx]]]]]. destruct (H q0 I0) as [t0 [D0 E0]]. destruct (H q1 I1) as [t1 [D1 E1]].
  exists ((py q1 - py q0) / (pxc q1 - pxc q0), py q0 - (py q1 - py q0) / (pxc q1 - pxc q0) * pxc q0). split.
  - intros q t [D E]. pose proof (area_proj m _ _ _ D0 D1 D) as A. rewrite E0, E1, E in A.
    replace (area (INR i, t0) (INR i, t1) (INR i, t)) with 0 in A by (unfold area, py, pxc; cbn; ring).
    replace (det3 m * 0 / (den m (INR i, t0) * den m (INR i, t1) * den m (INR i, t))) with 0 in A by (unfold Rdiv; ring).
    unfold area in A. unfold on_hor. cbn [fst snd]. apply (Rmult_eq_reg_l (pxc q1 - pxc q0)); [|lra].
    field_simplify; [|lra]. nra.
  - exists [pxc q0; pxc q1]. split; [repeat constructor; cbn; intuition congruence|]. split; [|cbn; lia].
    intros x [<-|[<-|[]]]; now apply in_map.
Qed.
Lemma col_line m j line : seen_col m j line -> exists c, (forall q t, shows m (t, INR j) q -> on_ver c q) /\ distinct_values 2 (map py line).
Proof.
  intros [H [q0 [q1 [I0 [I1 Hx]]]]]. destruct (H q0 I0) as [t0 [D0 E0]]. destruct (H q1 I1) as [t1 [D1 E1]].
  exists ((pxc q1 - pxc q0) / (py q1 - py q0), pxc q0 - (pxc q1 - pxc q0) / (py q1 - py q0) * py q0). split.
  - intros q t [D E]. pose proof (area_proj m _ _ _ D0 D1 D) as A. rewrite E0, E1, E in A.
    replace (area (t0, INR j) (t1, INR j) (t, INR j)) with 0 in A by (unfold area, py, pxc; cbn; ring).
    replace (det3 m * 0 / (den m (t0, INR j) * den m (t1, INR j) * den m (t, INR j))) with 0 in A by (unfold Rdiv; ring).
    unfold area in A. unfold on_ver. cbn [fst snd]. apply (Rmult_eq_reg_l (py q1 - py q0)); [|lra].
    field_simplify; [|lra]. nra.
  - exists [py q0; py q1]. split; [repeat constructor; cbn; intuition congruence|]. split; [|cbn; lia].
    intros x [<-|[<-|[]]]; now apply in_map.
Qed.
(** A row and a column are different lines. *)
Lemma row_col_cross m i j row col ch cv : det3 m <> 0 -> den m (INR i, INR j) <> 0 -> seen_row m i row -> seen_col m j col ->
  (forall q t, shows m (INR i, t) q -> on_hor ch q) -> (forall q t, shows m (t, INR j) q -> on_ver cv q) -> fst ch * fst cv <> 1.
Proof.
  intros Hd Hij [Hr [q0 [q1 [I0 [I1 Hx]]]]] [Hc [r0 [r1 [J0 [J1 Hy]]]]] Lh Lv E.
  set (P := proj m (INR i, INR j)).
  assert (Q : exists q t, shows m (INR i, t) q /\ pxc q <> pxc P).
  { destruct (Req_dec (pxc q0) (pxc P)) as [Z|Z]; [|destruct (Hr q0 I0) as [t S]; eauto].
    destruct (Hr q1 I1) as [t S]. exists q1, t. split; [exact S|]. congruence. }
  assert (S : exists r t, shows m (t, INR j) r /\ py r <> py P).
  { destruct (Req_dec (py r0) (py P)) as [Z|Z]; [|destruct (Hc r0 J0) as [t S]; eauto].
    destruct (Hc r1 J1) as [t S]. exists r1, t. split; [exact S|]. congruence. }
  destruct Q as [q [t [Sq Nq]]]. destruct S as [r [s [Sr Nr]]].
  assert (SP : shows m (INR i, INR j) P) by (split; [exact Hij|reflexivity]).
  pose proof (Lh _ _ Sq) as O1. pose proof (Lh _ _ SP) as O2. pose proof (Lv _ _ Sr) as O3. pose proof (Lv _ _ SP) as O4.
  destruct Sq as [Dq Eq]. destruct Sr as [Dr Er].
  pose proof (area_proj m _ _ _ Hij Dq Dr) as A. fold P in A. rewrite Eq, Er in A.
  unfold on_hor, on_ver in *.
  assert (Z : area P q r = 0).
  { unfold area. replace (py q) with (py P + fst ch * (pxc q - pxc P)) by lra. replace (pxc r) with (pxc P + fst cv * (py r - py P)) by lra.
    transitivity ((pxc q - pxc P) * (py r - py P) * (1 - fst ch * fst cv)); [ring|]. rewrite E. ring. }
  rewrite Z in A. symmetry in A. unfold Rdiv in A. apply Rmult_integral in A. destruct A as [A|A].
  2: { revert A. apply Rinv_neq_0_compat. repeat (apply Rmult_integral_contrapositive; split); assumption. }
  apply Rmult_integral in A. destruct A as [A|A]; [contradiction|].
  unfold area, py, pxc in A. cbn [fst snd] in A.
  assert (B : (t - INR j) * (s - INR i) = 0) by lra. apply Rmult_integral in B. destruct B as [B|B].
  - apply Nq. rewrite <- Eq. unfold P. replace t with (INR j) by lra. reflexivity.
  - apply Nr. rewrite <- Er. unfold P. replace s with (INR i) by lra. reflexivity.
Qed.

Lemma choose_list (P : nat -> R * R -> Prop) n : (forall i, (i < n)%nat -> exists c, P i c) ->
  exists l, length l = n /\ forall i, (i < n)%nat -> P i (nth i l (0, 0)).
Proof.
  revert P. induction n as [|n IH]; intros P H; [exists []; split; [reflexivity|lia]|].
  destruct (H O ltac:(lia)) as [c Hc]. destruct (IH (fun i => P (S i))) as [l [L Hl]]; [intros i Hi; apply H; lia|].
  exists (c :: l). split; [cbn; lia|]. intros [|i] Hi; [exact Hc|]. apply Hl. lia.
Qed.
Lemma Forall2_of_nth {A B} (P : A -> B -> Prop) l m a b : length l = length m ->
  (forall i, (i < length l)%nat -> P (nth i l a) (nth i m b)) -> Forall2 P l m.
Proof.
  revert m. induction l as [|x l IH]; intros [|y m] L H; try discriminate; constructor.
  - apply (H O). cbn. lia.
  - apply IH; [now injection L|]. intros i Hi. apply (H (S i)). cbn. lia.
Qed.
(** Lines as lists of lists with known entries. *)
Lemma lines_of_at g n k f : length g = n -> (forall r, In r g -> length r = k) ->
  (forall i j, (i < n)%nat -> (j < k)%nat -> at_ g i j = f (INR i, INR j)) ->
  g = map (fun i => map (fun j => f (INR i, INR j)) (seq 0 k)) (seq 0 n).
Proof.
  intros L Lr H. apply (nth_ext _ _ [] []); [now rewrite map_length, seq_length|].
  intros i Hi. rewrite L in Hi. rewrite (nth_map_in _ _ i O []) by now rewrite seq_length. rewrite seq_nth by assumption.
  assert (Li : length (nth i g []) = k) by (apply Lr, nth_In; lia).
  apply (nth_ext _ _ (0, 0) (0, 0)); [rewrite map_length, seq_length; exact Li|].
  intros j Hj0. assert (Hj : (j < k)%nat) by (rewrite <- Li; exact Hj0). rewrite (nth_map_in _ _ j O (0, 0)) by now rewrite seq_length. rewrite seq_nth by assumption.
  exact (H i j Hi Hj).
Qed.
Lemma concat_grid (f : pt -> pt) n k : concat (map (fun i => map (fun j => f (INR i, INR j)) (seq 0 k)) (seq 0 n)) = map f (grid_points n k).
Proof.
  unfold grid_points. rewrite concat_map, map_map. f_equal. apply map_ext. intros i. rewrite map_map. reflexivity.
Qed.

(** A camera that sees an n x k grid of points. *)
Definition camera (m : mat3) (n k : nat) : Prop :=
  det3 m <> 0 /\ forall i j, (i < n)%nat -> (j < k)%nat -> den m (INR i, INR j) <> 0.

(** *** Main results *)
(** The rows and columns seen by a tilted camera, any dots missing, are
    regenerated as the images of all grid points, and the source and target
    points are these and the points of a rectangular grid (a square one, if
    equal distances are asked for). *)
Theorem C113_points : forall polyfit minimize m lh lv eq scale opt, polyfit_oracle polyfit ->
  (2 <= length lh)%nat -> (2 <= length lv)%nat -> camera m (length lh) (length lv) ->
  (forall i, (i < length lh)%nat -> seen_row m i (nth i lh [])) ->
  (forall j, (j < length lv)%nat -> seen_col m j (nth j lv [])) ->
  exists o v w, pdot v w = 0 /\ (eq = true -> pdot v v = pdot w w) /\
    @generate_source_target_perspective_points R Rexact polyfit minimize lh lv eq scale opt
    = Ok (map (proj m) (grid_points (length lh) (length lv)), map (place o v w) (grid_points (length lh) (length lv))).
Proof.
  intros polyfit minimize m lh lv eq scale opt PF Lh Lv [Hd Hc] Hr Hk.
  destruct (choose_list (fun i c => (forall q t, shows m (INR i, t) q -> on_hor c q) /\ distinct_values 2 (map pxc (nth i lh []))) (length lh)) as [ch [Lch Hch]].
  { intros i Hi. apply row_line. now apply Hr. }
  destruct (choose_list (fun j c => (forall q t, shows m (t, INR j) q -> on_ver c q) /\ distinct_values 2 (map py (nth j lv []))) (length lv)) as [cv [Lcv Hcv]].
  { intros j Hj. apply col_line. now apply Hk. }
  assert (X : forall i j, (i < length lh)%nat -> (j < length lv)%nat -> fst (nth i ch (0, 0)) * fst (nth j cv (0, 0)) <> 1).
  { intros i j Hi Hj. apply (row_col_cross m i j (nth i lh []) (nth j lv [])); try assumption; [now apply Hc|now apply Hr|now apply Hk|now apply Hch|now apply Hcv]. }
  destruct (C32_straight polyfit lh lv ch cv PF) as [gh [gv [E [T G]]]].
  - apply (Forall2_of_nth _ _ _ (0, 0) []); [exact Lch|]. rewrite Lch. intros i Hi. destruct (Hch i Hi) as [A B]. split; [|exact B].
    intros p Hp. destruct (proj1 (Hr i Hi) p Hp) as [t S]. exact (A p t S).
  - apply (Forall2_of_nth _ _ _ (0, 0) []); [exact Lcv|]. rewrite Lcv. intros j Hj. destruct (Hcv j Hj) as [A B]. split; [|exact B].
    intros p Hp. destruct (proj1 (Hk j Hj) p Hp) as [t S]. exact (A p t S).
  - intros c d Ic Id. apply (In_nth _ _ (0, 0)) in Ic, Id. destruct Ic as [i [Hi <-]]. destruct Id as [j [Hj <-]]. apply X; lia.
  - assert (AT : forall i j, (i < length lh)%nat -> (j < length lv)%nat -> at_ gh i j = proj m (INR i, INR j)).
    { intros i j Hi Hj. destruct (G i j Hi Hj) as [G1 G2]. assert (S : shows m (INR i, INR j) (proj m (INR i, INR j))) by (split; [now apply Hc|reflexivity]).
      apply (cross_unique (nth i ch (0, 0)) (nth j cv (0, 0))); [now apply X|exact G1|exact G2|exact (proj1 (Hch i Hi) _ _ S)|exact (proj1 (Hcv j Hj) _ _ S)]. }
    destruct T as [T1 [T2 [T3 [T4 T5]]]].
    destruct (C33_total polyfit minimize gh gv eq scale opt PF) as [[uh uv] U]; [lia|lia| |].
    { intros l Hl Z. apply in_app_or in Hl. destruct Hl as [Hl|Hl]; [apply T2 in Hl|apply T4 in Hl]; rewrite Z in Hl; cbn in Hl; lia. }
    destruct (C33_lattice polyfit minimize gh gv eq scale opt uh uv ltac:(lia) ltac:(lia) U) as [[U1 [U2 _]] [o [v [w [O [Q L]]]]]].
    exists o, v, w. split; [exact O|]. split; [exact Q|].
    unfold generate_source_target_perspective_points. rewrite E. cbn [bind fst snd]. rewrite U. cbn [bind fst snd]. do 2 f_equal.
    + rewrite (lines_of_at gh (length lh) (length lv) (proj m) T1 T2 AT). apply concat_grid.
    + rewrite (lines_of_at uh (length lh) (length lv) (place o v w)); [apply concat_grid|exact (eq_trans U1 T1)|intros r I; exact (eq_trans (U2 r I) T3)|].
      intros i j Hi Hj. rewrite L by lia. reflexivity.
Qed.
Print Assumptions C113_points.

Lemma grid_in n k i j : (i < n)%nat -> (j < k)%nat -> In (INR i, INR j) (grid_points n k).
Proof.
  intros Hi Hj. unfold grid_points. apply in_concat. exists (map (fun j => (INR i, INR j)) (seq 0 k)). split.
  - apply in_map_iff. exists i. split; [reflexivity|]. apply in_seq. lia.
  - apply in_map_iff. exists j. split; [reflexivity|]. apply in_seq. lia.
Qed.
Lemma grid_inv n k p : In p (grid_points n k) -> exists i j, p = (INR i, INR j) /\ (i < n)%nat /\ (j < k)%nat.
Proof.
  intros H. unfold grid_points in H. apply in_concat in H. destruct H as [l [Hl Hp]]. apply in_map_iff in Hl. destruct Hl as [i [<- Hi]].
  apply in_map_iff in Hp. destruct Hp as [j [<- Hj]]. apply in_seq in Hi, Hj. exists i, j. split; [reflexivity|]. lia.
Qed.
Lemma combine_maps {A B C} (f : A -> B) (g : A -> C) l b c : In (b, c) (combine (map f l) (map g l)) <-> exists a, In a l /\ b = f a /\ c = g a.
Proof.
  induction l as [|x l IH]; cbn [map combine In].
  - split; [intros []|intros [a [[] _]]].
  - rewrite IH. split.
    + intros [E|[a [I H]]]; [injection E as <- <-; exists x; tauto|exists a; tauto].
    + intros [a [[<-|I] [-> ->]]]; [now left|right; exists a; tauto].
Qed.
Lemma place_area o v w p q r : area (place o v w p) (place o v w q) (place o v w r) = cross2 v w * area p q r.
Proof. unfold area, place, padd, pscale, cross2, py, pxc. cbn [fst snd]. ring. Qed.
Lemma square_general f n k : (2 <= n)%nat -> (2 <= k)%nat -> 
  (forall p q r, In p (grid_points n k) -> In q (grid_points n k) -> In r (grid_points n k) -> area p q r <> 0 -> area (f p) (f q) (f r) <> 0) ->
  general_position (f (INR 0, INR 0)) (f (INR 0, INR 1)) (f (INR 1, INR 0)) (f (INR 1, INR 1)).
Proof.
  intros Hn Hk H. unfold general_position, triangle. repeat split; apply H; try (apply grid_in; lia); unfold area, py, pxc; cbn; lra.
Qed.
Lemma camera_area m n k : camera m n k -> forall p q r, In p (grid_points n k) -> In q (grid_points n k) -> In r (grid_points n k) -> area p q r <> 0 ->
  area (proj m p) (proj m q) (proj m r) <> 0.
Proof.
  intros [Hd Hc] p q r Ip Iq Ir H.
  assert (D : forall p, In p (grid_points n k) -> den m p <> 0) by (intros x Ix; destruct (grid_inv _ _ _ Ix) as [i [j [-> [Hi Hj]]]]; now apply Hc).
  rewrite area_proj by (now apply D). unfold Rdiv. apply Rmult_integral_contrapositive. split.
  - now apply Rmult_integral_contrapositive.
  - apply Rinv_neq_0_compat. repeat (apply Rmult_integral_contrapositive; split); now apply D.
Qed.
Lemma calibrated_map lstsq f g c0 n k : lstsq_oracle lstsq -> (2 <= n)%nat -> (2 <= k)%nat ->
  (forall p q r, In p (grid_points n k) -> In q (grid_points n k) -> In r (grid_points n k) -> area p q r <> 0 -> area (f p) (f q) (f r) <> 0) ->
  (forall p q r, In p (grid_points n k) -> In q (grid_points n k) -> In r (grid_points n k) -> area p q r <> 0 -> area (g p) (g q) (g r) <> 0) ->
  (forall p, In p (grid_points n k) -> sends c0 (f p) (g p)) ->
  @calc_perspective_coefficients R Rexact lstsq (map f (grid_points n k)) (map g (grid_points n k)) true = Ok c0.
Proof.
  intros LS Hn Hk Hf Hg Hs.
  assert (I : forall i j, (i < 2)%nat -> (j < 2)%nat -> In (f (INR i, INR j), g (INR i, INR j)) (combine (map f (grid_points n k)) (map g (grid_points n k)))).
  { intros i j Hi Hj. apply combine_maps. exists (INR i, INR j). split; [apply grid_in; lia|tauto]. }
  apply (C35_unique lstsq _ _ c0 (f (INR 0, INR 0)) (f (INR 0, INR 1)) (f (INR 1, INR 0)) (f (INR 1, INR 1))
    (g (INR 0, INR 0)) (g (INR 0, INR 1)) (g (INR 1, INR 0)) (g (INR 1, INR 1)) LS).
  - now rewrite !map_length.
  - intros p q H. apply combine_maps in H. destruct H as [a [Ia [-> ->]]]. now apply Hs.
  - apply I; lia.
  - apply I; lia.
  - apply I; lia.
  - apply I; lia.
  - now apply (square_general f n k).
  - exact (proj1 (square_general g n k Hn Hk Hg)).
Qed.

(** The calibrated coefficients map the whole photograph, not only the dots,
    to the plan: every point p of the plane is sent from where the camera shows
    it to o + y v + x w.  (The pixel (0, 0) of the photograph must show some
    point of the plane: the eight coefficients divide by the ninth.) *)
Theorem C113_forward : forall lstsq m n k o v w, lstsq_oracle lstsq -> (2 <= n)%nat -> (2 <= k)%nat -> camera m n k ->
  cross2 v w <> 0 -> (exists p, shows m p (0, 0)) ->
  exists c, @calc_perspective_coefficients R Rexact lstsq (map (proj m) (grid_points n k)) (map (place o v w) (grid_points n k)) true = Ok c /\
    (forall p, den m p <> 0 -> sends c (proj m p) (place o v w p)) /\
    forall lines, Forall (Forall (fun p => den m p <> 0)) lines ->
      @correct_perspective_line R Rex (map (map (proj m)) lines) c = Ok (map (map (place o v w)) lines).
Proof.
  intros lstsq m n k o v w LS Hn Hk C X [p0 [D0 E0]].
  assert (H9 : Spec.c1 m * c5 m - c2 m * c4 m <> 0).
  { intros Z. apply (proj1 C). unfold proj in E0. apply pair_equal_spec in E0. destruct E0 as [E1 E2].
    assert (A1 : c4 m * pxc p0 + c5 m * py p0 + c6 m = 0) by (apply (Rmult_eq_reg_r (/ den m p0)); [|now apply Rinv_neq_0_compat]; rewrite Rmult_0_l; exact E1).
    assert (A2 : Spec.c1 m * pxc p0 + c2 m * py p0 + c3 m = 0) by (apply (Rmult_eq_reg_r (/ den m p0)); [|now apply Rinv_neq_0_compat]; rewrite Rmult_0_l; exact E2).
    transitivity ((Spec.c1 m * c5 m - c2 m * c4 m) * den m p0); [|rewrite Z; ring].
    unfold det3, den. replace (c6 m) with (- (c4 m * pxc p0 + c5 m * py p0)) by lra. replace (c3 m) with (- (Spec.c1 m * pxc p0 + c2 m * py p0)) by lra. ring. }
  exists (mat_coefs (mul3 (flat o v w) (adj3 m))).
  assert (S : forall p, den m p <> 0 -> sends (mat_coefs (mul3 (flat o v w) (adj3 m))) (proj m p) (place o v w p)).
  { intros p Hp. apply forward_sends; [exact (proj1 C)|exact H9|exact Hp]. }
  split; [|split; [exact S|]].
  - apply calibrated_map; try assumption; [now apply camera_area| |].
    + intros p q r _ _ _ H. rewrite place_area. now apply Rmult_integral_contrapositive.
    + intros p Ip. apply S. destruct (grid_inv _ _ _ Ip) as [i [j [-> [Hi Hj]]]]. now apply (proj2 C).
  - intros lines F. apply C14_perspective_line. split; [reflexivity|]. rewrite map_map. clear -F S. induction F as [|l lines Hl _ IH]; [reflexivity|].
    cbn [map]. rewrite IH. f_equal. rewrite map_map. induction Hl as [|p l Hp _ IHl]; [reflexivity|]. cbn [map]. rewrite IHl. f_equal. symmetry. apply (S p Hp).
Qed.
Print Assumptions C113_forward.
(** The other way round, for correcting images: the pixel o + y v + x w of the
    corrected image takes its value from where the camera shows (y, x). *)
Theorem C113_backward : forall lstsq m n k o v w, lstsq_oracle lstsq -> (2 <= n)%nat -> (2 <= k)%nat -> camera m n k ->
  cross2 v w <> 0 -> (exists p, den m p <> 0 /\ place o v w p = (0, 0)) ->
  exists c, @calc_perspective_coefficients R Rexact lstsq (map (proj m) (grid_points n k)) (map (place o v w) (grid_points n k)) false = Ok c /\
    forall p, den m p <> 0 -> sends c (place o v w p) (proj m p).
Proof.
  intros lstsq m n k o v w LS Hn Hk C X [p0 [D0 E0]].
  assert (H9 : c9 (mul3 m (adj3 (flat o v w))) <> 0).
  { replace (c9 (mul3 m (adj3 (flat o v w)))) with (den (mul3 m (adj3 (flat o v w))) (0, 0)) by (unfold den, py, pxc; cbn [fst snd]; ring).
    rewrite <- E0. replace (den (mul3 m (adj3 (flat o v w))) (place o v w p0)) with (cross2 v w * den m p0); [now apply Rmult_integral_contrapositive|].
    unfold den, mul3, flat, adj3, place, padd, pscale, cross2, py, pxc. cbn [Spec.c1 c2 c3 c4 c5 c6 c7 c8 c9 fst snd]. ring. }
  exists (mat_coefs (mul3 m (adj3 (flat o v w)))).
  assert (S : forall p, den m p <> 0 -> sends (mat_coefs (mul3 m (adj3 (flat o v w)))) (place o v w p) (proj m p)) by (intros p Hp; now apply backward_sends).
  split; [|exact S]. rewrite C35_backward.
  apply calibrated_map; try assumption; [|now apply camera_area|].
  - intros p q r _ _ _ H. rewrite place_area. now apply Rmult_integral_contrapositive.
  - intros p Ip. apply S. destruct (grid_inv _ _ _ Ip) as [i [j [-> [Hi Hj]]]]. now apply (proj2 C).
Qed.
Print Assumptions C113_backward.

(** From the dots to the corrected picture: a plane with brightness [plane]
    at (y, x), photographed by the camera m; calibrating on the rows and
    columns of dots and correcting the photograph shows the plane flat. *)
Theorem C113_image : forall polyfit minimize lstsq m lh lv eq scale opt, polyfit_oracle polyfit -> lstsq_oracle lstsq ->
  (2 <= length lh)%nat -> (2 <= length lv)%nat -> camera m (length lh) (length lv) ->
  (forall i, (i < length lh)%nat -> seen_row m i (nth i lh [])) ->
  (forall j, (j < length lv)%nat -> seen_col m j (nth j lv [])) ->
  exists src tgt o v w, @generate_source_target_perspective_points R Rexact polyfit minimize lh lv eq scale opt = Ok (src, tgt) /\
    tgt = map (place o v w) (grid_points (length lh) (length lv)) /\ pdot v w = 0 /\ (eq = true -> pdot v v = pdot w w) /\
    (v <> (0, 0) -> w <> (0, 0) -> (exists p, den m p <> 0 /\ place o v w p = (0, 0)) ->
     exists c, @calc_perspective_coefficients R Rexact lstsq src tgt false = Ok c /\
     forall mat light plane L, (0 < ih mat <= 2 ^ 24 + 1)%Z -> (0 < iw mat <= 2 ^ 24 + 1)%Z -> 0 <= L -> steep L light -> photograph mat light ->
       (forall p, den m p <> 0 -> light (proj m p) = plane p) ->
       exists out, @correct_perspective_image R Rex (@bilinear R Rex) mat c None = Ok out /\ ih out = ih mat /\ iw out = iw mat /\
       forall i j p, in_img mat i j -> (IZR i, IZR j) = place o v w p -> den m p <> 0 -> on_detector mat (proj m p) ->
         Rabs (px out i j - plane p) <= L * (1 + (two (-24) * IZR (ih mat + iw mat - 2) + 2 * two (-150)))).
Proof.
  intros polyfit minimize lstsq m lh lv eq scale opt PF LS Lh Lv C Hr Hc.
  destruct (C113_points polyfit minimize m lh lv eq scale opt PF Lh Lv C Hr Hc) as [o [v [w [O [Q E]]]]].
  do 2 eexists. exists o, v, w. split; [exact E|]. split; [reflexivity|]. split; [exact O|]. split; [exact Q|].
  intros Nv Nw P0.
    assert (X : cross2 v w <> 0).
    { intros Z. assert (S : pdot v v * pdot w w = 0).
      { transitivity (pdot v w * pdot v w + cross2 v w * cross2 v w); [unfold pdot, cross2; ring|rewrite O, Z; ring]. }
      assert (N : forall u : pt, pdot u u = 0 -> u = (0, 0)).
      { intros [a b] H. unfold pdot, py, pxc in H. cbn [fst snd] in H. pose proof (Rle_0_sqr a). pose proof (Rle_0_sqr b). unfold Rsqr in *.
        f_equal; apply Rsqr_0_uniq; unfold Rsqr; lra. }
      apply Rmult_integral in S. destruct S as [S|S]; apply N in S; contradiction. }
    destruct (C113_backward lstsq m (length lh) (length lv) o v w LS Lh Lv C X P0) as [c [Ec S]]. exists c. split; [exact Ec|].
    intros mat light plane L Hh Hw HL St Ph Li. 
    assert (L8 : length c = 8%nat) by (destruct P0 as [p [D _]]; exact (proj1 (S p D))).
    destruct (C110_perspective mat light (fun q => light (proj (coef_mat c) q)) L c Hh Hw L8 HL St Ph (fun q => eq_refl)) as [out [Eo [E1 [E2 B]]]].
    exists out. split; [exact Eo|]. split; [exact E1|]. split; [exact E2|]. intros i j p Hij Ep D On. specialize (B i j Hij). cbv zeta in B. rewrite Ep in B.
    destruct (S p D) as [_ [_ Ps]]. change (proj_map c) with (coef_mat c) in Ps. rewrite Ps in B. specialize (B On). rewrite (Li p D) in B. exact B.
Qed.
Print Assumptions C113_image.

(** *** A case *)
(** A camera that shows far rows narrower: the grid (0, 0), (0, 1), (1, 0),
    (1, 1) appears as a trapezium. *)
Definition tilted : mat3 := M3 2 0 0 0 (4 / 3) 0 0 (1 / 3) 1.
Lemma trapezium_lines polyfit minimize (lh lv : list (list pt)) gh gv : polyfit_oracle polyfit ->
  Forall2 (line_hor (fun x => x) polyfit) lh [(0, 0); (0, 1)] -> Forall2 (line_ver (fun x => x) polyfit) lv [(0, 0); (- (1 / 2), 2)] ->
  @generate_undistorted_perspective_lines R Rexact polyfit minimize lh lv false ScMean false = Ok (gh, gv) ->
  at_ gh 0 0 = (0, 0) /\ at_ gh 0 1 = (0, 2) /\ at_ gh 1 0 = (1, 0) /\ at_ gh 1 1 = (1, 2).
Proof.
  intros PF Gh Gv E.
  assert (Lh : length lh = 2%nat) by (rewrite (Forall2_length _ _ _ Gh); reflexivity).  assert (Lv : length lv = 2%nat) by (rewrite (Forall2_length _ _ _ Gv); reflexivity).
  destruct (C33_lines polyfit minimize lh lv false ScMean false gh gv) as [a [ch [cv [sh [sv [dh [dv [Fh [Fv [CS [S1 [S2 [Dh [Dv G]]]]]]]]]]]]]];
    [exact (Nat.eq_le_incl _ _ (eq_sym Lh))|exact (Nat.eq_le_incl _ _ (eq_sym Lv))|exact E|].
  assert (D2 : forall x y : R, x <> y -> forall l, In x l -> In y l -> distinct_values 2 l).
  { intros x y Hxy l Hx Hy. exists [x; y]. split; [repeat constructor; cbn [In]; intuition|]. split; [cbn; intuition (subst; assumption)|cbn; lia]. }
  assert (ch = [(0, 0); (0, 1)]).
  { exact (Forall2_fun (line_hor (fun x => x) polyfit) lh (fun a b b' => line_hor_fun polyfit (fun x => x) a b b') _ _ Fh Gh). }
  assert (cv = [(0, 0); (- (1 / 2), 2)]).
  { exact (Forall2_fun (line_ver (fun x => x) polyfit) lv (fun a b b' => line_ver_fun polyfit (fun x => x) a b b') _ _ Fv Gv). }
  subst ch cv.
  unfold pt in *. rewrite Lh, Lv in S1, S2. cbn [map fst snd] in S1, S2, G, CS. destruct CS as [ah [bh [av [bv [E1 [E2 [A1 A2]]]]]]].
  pose proof (@ProcFacts.fit1_exact polyfit PF (R * R) snd fst [(0, 0); (0, 1)] 0 0) as F1.
  pose proof (@ProcFacts.fit1_exact polyfit PF (R * R) fst snd [(0, 0); (2, - - (1 / 2))] (1 / 4) 0) as F2.
  cbn [map fst snd] in F1, F2, E1, E2.
  specialize (F1 ltac:(apply (D2 0 1); [lra|cbn; intuition|cbn; intuition]) ltac:(intros p Hp; cbn [In] in Hp; repeat destruct Hp as [<-|Hp]; try contradiction; cbn; lra)).
  specialize (F2 ltac:(apply (D2 0 2); [lra|cbn; intuition|cbn; intuition]) ltac:(intros p Hp; cbn [In] in Hp; repeat destruct Hp as [<-|Hp]; try contradiction; cbn; lra)).
  apply ProcFacts2.fit1_ok in F1. apply ProcFacts2.fit1_ok in F2. cbn [fst snd] in F1, F2.
  rewrite F1 in E1. replace (- 0) with 0 in E2 by ring. rewrite F2 in E2. apply Ok_inj in E1. apply Ok_inj in E2. injection E1 as <- <-. injection E2 as <- <-.
  destruct (A1 ltac:(rewrite Rabs_left; lra)) as [x [Hx _]]. assert (a = 0) by lra. subst a.
  destruct S1 as [d1 [[_ M1] [S1 _]]]. destruct S2 as [d2 [[_ M2] [S2 _]]]. cbn in M1, M2.
  specialize (S1 eq_refl). specialize (S2 eq_refl). unfold average in M1, M2. cbn [map length INR Rsum fold_right] in M1, M2.
  assert (dh = 1). { rewrite Dh, S1, M1. rewrite (Rabs_right (1 - 0)) by lra. unfold Rsum; cbn; lra. }
  assert (dv = 2). { rewrite Dv, S2, M2. rewrite (Rabs_right (2 - 0)) by lra. unfold Rsum; cbn; lra. }
  subst dh dv. rewrite Lh, Lv in G. cbn [Nat.div2] in G. unfold middle in G; cbn [length Nat.div2 nth] in G.
  pose proof (G O O ltac:(lia) ltac:(lia)) as G00. pose proof (G O 1%nat ltac:(lia) ltac:(lia)) as G01.
  pose proof (G 1%nat O ltac:(lia) ltac:(lia)) as G10. pose proof (G 1%nat 1%nat ltac:(lia) ltac:(lia)) as G11.
  unfold on_hor, on_ver, py, pxc in *. cbn [fst snd INR] in *.
  repeat apply conj; apply injective_projections; cbn [fst snd]; lra.
Qed.
Example C113_case : let lh := [[(0, 2); (0, 0); (0, 1)]; [(1, 3 / 2); (1, 0)]] in let lv := [[(0, 0); (1, 0)]; [(1, 3 / 2); (0, 2)]] in
  camera tilted 2 2 /\ (forall i, (i < 2)%nat -> seen_row tilted i (nth i lh [])) /\ (forall j, (j < 2)%nat -> seen_col tilted j (nth j lv [])) /\
  @generate_source_target_perspective_points R Rexact pf_R min_R lh lv false ScMean false
    = Ok ([(0, 0); (0, 2); (1, 0); (1, 3 / 2)], [(0, 0); (0, 2); (1, 0); (1, 2)]) /\
  shows tilted (0, 0) (0, 0) /\ place (0, 0) (1, 0) (0, 2) (0, 0) = (0, 0) /\ cross2 (1, 0) (0, 2) <> 0.
Proof.
  intros lh lv.
  assert (C : camera tilted 2 2).
  { split; [unfold det3, tilted; cbn; lra|]. intros [|[|i]] [|[|j]] Hi Hj; try lia; unfold den, tilted, py, pxc; cbn; lra. }
  assert (SH : forall y x q, 1 + y / 3 <> 0 -> q = (4 / 3 * y / (1 + y / 3), 2 * x / (1 + y / 3)) -> shows tilted (y, x) q).
  { intros y x q D ->. unfold shows, den, proj, den, tilted, py, pxc. cbn. split; [lra|]. apply pair_equal_spec. split; field; lra. }
  assert (SR : forall i, (i < 2)%nat -> seen_row tilted i (nth i lh [])).
  { intros [|[|i]] Hi; [| |lia]; (split; [intros q Hq|]).
    - exists (pxc q / 2). cbn in Hq. apply SH; [cbn; lra|]. cbn [INR]. repeat destruct Hq as [<-|Hq]; try contradiction; unfold pxc; cbn; apply pair_equal_spec; split; field.
    - exists (0, 2), (0, 0). cbn. intuition (try lra). 
    - exists (pxc q * 2 / 3). cbn in Hq. apply SH; [cbn; lra|]. cbn [INR]. repeat destruct Hq as [<-|Hq]; try contradiction; unfold pxc; cbn; apply pair_equal_spec; split; field.
    - exists (1, 3 / 2), (1, 0). cbn. intuition (try lra). }
  assert (SC : forall j, (j < 2)%nat -> seen_col tilted j (nth j lv [])).
  { intros [|[|j]] Hj; [| |lia]; (split; [intros q Hq|]).
    - exists (py q). cbn in Hq. repeat destruct Hq as [<-|Hq]; try contradiction; apply SH; unfold py; cbn; try lra; apply pair_equal_spec; split; field.
    - exists (0, 0), (1, 0). cbn. intuition (try lra).
    - exists (py q). cbn in Hq. repeat destruct Hq as [<-|Hq]; try contradiction; apply SH; unfold py; cbn; try lra; apply pair_equal_spec; split; field.
    - exists (1, 3 / 2), (0, 2). cbn. intuition (try lra). }
  split; [exact C|]. split; [exact SR|]. split; [exact SC|]. split.
  2: { split; [apply SH; [lra|apply pair_equal_spec; split; field]|]. split; [unfold place, padd, pscale, py, pxc; cbn; apply pair_equal_spec; split; ring|].
       unfold cross2, py, pxc. cbn. lra. }
  assert (D2 : forall x y : R, x <> y -> forall l, In x l -> In y l -> distinct_values 2 l).
  { intros x y Hxy l Hx Hy. exists [x; y]. split; [repeat constructor; cbn [In]; intuition|]. split; [cbn; intuition (subst; assumption)|cbn; lia]. }
  set (gh := [[(0, 0); (0, 2)]; [(1, 0); (1, 3 / 2)]]). set (gv := [[(0, 0); (1, 0)]; [(0, 2); (1, 3 / 2)]]).
  assert (H1 : Forall2 (line_hor (fun x => x) pf_R) lh [(0, 0); (0, 1)]).
  { unfold lh; apply Forall2_cons; [|apply Forall2_cons; [|apply Forall2_nil]]; (apply (line_hor_exact (fun x => x)); [exact pf_R_ok| |]);
      try (intros p Hp; cbn [In] in Hp; repeat destruct Hp as [<-|Hp]; try contradiction; unfold on_hor, py, pxc; cbn; lra).
    - apply (D2 0 1); [lra|cbn; tauto|cbn; tauto].
    - apply (D2 0 (3 / 2)); [lra|cbn; tauto|cbn; tauto]. }
  assert (H2 : Forall2 (line_ver (fun x => x) pf_R) lv [(0, 0); (- (1 / 2), 2)]).
  { unfold lv; apply Forall2_cons; [|apply Forall2_cons; [|apply Forall2_nil]]; (apply (line_ver_exact (fun x => x)); [exact pf_R_ok|apply (D2 0 1); [lra|cbn; tauto|cbn; tauto]|]);
      intros p Hp; cbn [In] in Hp; repeat destruct Hp as [<-|Hp]; try contradiction; unfold on_ver, py, pxc; cbn; lra. }
  assert (H3 : Forall2 (line_hor (fun x => x) pf_R) gh [(0, 0); (0, 1)]).
  { unfold gh; apply Forall2_cons; [|apply Forall2_cons; [|apply Forall2_nil]]; (apply (line_hor_exact (fun x => x)); [exact pf_R_ok| |]);
      try (intros p Hp; cbn [In] in Hp; repeat destruct Hp as [<-|Hp]; try contradiction; unfold on_hor, py, pxc; cbn; lra).
    - apply (D2 0 2); [lra|cbn; tauto|cbn; tauto].
    - apply (D2 0 (3 / 2)); [lra|cbn; tauto|cbn; tauto]. }
  assert (H4 : Forall2 (line_ver (fun x => x) pf_R) gv [(0, 0); (- (1 / 2), 2)]).
  { unfold gv; apply Forall2_cons; [|apply Forall2_cons; [|apply Forall2_nil]]; (apply (line_ver_exact (fun x => x)); [exact pf_R_ok|apply (D2 0 1); [lra|cbn; tauto|cbn; tauto]|]);
      intros p Hp; cbn [In] in Hp; repeat destruct Hp as [<-|Hp]; try contradiction; unfold on_ver, py, pxc; cbn; lra. }
  assert (G : @generate_linear_coef R Rexact pf_R lh lv = Ok ([(0, 0); (0, 1)], [(0, 0); (- (1 / 2), 2)])) by exact (generate_linear_lines (fun x => x) pf_R lh lv _ _ H1 H2).
  assert (K : @regenerate_from_coef R Rexact [(0, 0); (0, 1)] [(0, 0); (- (1 / 2), 2)] = (gh, gv)).
  { unfold regenerate_from_coef, cross_grid, cross_yx, find_cross_point_between_lines, gh, gv. cbn.
    repeat (match goal with |- (_, _) = (_, _) => apply pair_equal_spec; split | |- _ :: _ = _ :: _ => apply f_equal2 end); try reflexivity; try field; try lra. }
  destruct (C33_total pf_R min_R gh gv false ScMean false pf_R_ok) as [[uh uv] U]; [cbn; lia|cbn; lia| |].
  { intros l Hl. cbn in Hl. intuition (subst; discriminate). }
  destruct (trapezium_lines pf_R min_R gh gv uh uv pf_R_ok H3 H4 U) as [U1 [U2 [U3 U4]]].
  destruct (C33_lattice pf_R min_R gh gv false ScMean false uh uv ltac:(cbn; lia) ltac:(cbn; lia) U) as [[L1 [L2 _]] _].
  unfold generate_source_target_perspective_points, regenerate_grid_points_linear. unfold pt in *. rewrite G. cbn [bind fst snd]. rewrite K. cbn [bind fst snd]. rewrite U. cbn [bind fst snd].
  do 2 f_equal.
  destruct uh as [|r0 [|r1 [|r2 uh]]]; try discriminate L1.
  assert (A0 := L2 r0 ltac:(now left)). assert (A1 := L2 r1 ltac:(right; now left)).
  destruct r0 as [|a0 [|a1 [|a2 r0]]]; try discriminate A0. destruct r1 as [|b0 [|b1 [|b2 r1]]]; try discriminate A1.
  unfold at_ in U1, U2, U3, U4. cbn in U1, U2, U3, U4. subst. reflexivity.
Qed.

(** *** Four points *)
(** A photographed rectangle, its corners given in any order and as (x, y) or
    (y, x), serves as well. *)
Lemma dist_pos p q : py p <> py q \/ pxc p <> pxc q -> 0 < dist p q.
Proof.
  intros H. unfold dist. apply sqrt_lt_R0.
  assert (A : forall x : R, 0 <= x * x) by (intros x; exact (Rle_0_sqr x)).
  destruct H as [H|H].
  - pose proof (Rlt_0_sqr (py p - py q) ltac:(lra)). unfold Rsqr in *. pose proof (A (pxc p - pxc q)). lra.
  - pose proof (Rlt_0_sqr (pxc p - pxc q) ltac:(lra)). unfold Rsqr in *. pose proof (A (py p - py q)). lra.
Qed.
Lemma sides_nz (scale : @scale_opt R) eq q1 q2 q3 q4 : scale <> ScVal 0 -> corners q1 q2 q3 q4 ->
  fst (sides scale eq q1 q2 q3 q4) <> 0 /\ snd (sides scale eq q1 q2 q3 q4) <> 0.
Proof.
  intros H [C1 [C2 [C3 [C4 [C5 C6]]]]].
  pose proof (dist_pos q1 q2 ltac:(right; lra)) as D1. pose proof (dist_pos q3 q4 ltac:(right; lra)) as D2.
  pose proof (dist_pos q1 q3 ltac:(left; lra)) as D3. pose proof (dist_pos q2 q4 ltac:(left; lra)) as D4.
  unfold sides. set (a := dist q1 q2) in *. set (b := dist q3 q4) in *. set (c := dist q1 q3) in *. set (d := dist q2 q4) in *. clearbody a b c d.
  assert (N : forall s, scale = ScVal s -> s <> 0) by (intros s -> ->; now apply H).
  destruct scale, eq; cbn [pick common_step fst snd]; split; apply Rabs_no_R0;
    unfold Rmax, Rmin; repeat (match goal with |- context [Rle_dec ?x ?y] => destruct (Rle_dec x y) end); intros Z; try lra;
    apply (N _ eq_refl); nra.
Qed.
Theorem C113_four : forall argsort m (pts : list pt) (xy : bool) eq scale, argsort_spec argsort -> camera m 2 2 -> scale <> ScVal 0 ->
  Permutation (if xy then map swap pts else pts) (map (proj m) (grid_points 2 2)) ->
  corners (proj m (0, 0)) (proj m (0, 1)) (proj m (1, 0)) (proj m (1, 1)) ->
  exists o v w, pdot v w = 0 /\ cross2 v w <> 0 /\ (eq = true -> pdot v v = pdot w w) /\
    @generate_4_source_target_perspective_points R Rexact argsort cos atan pts xy eq scale
    = Ok (map (proj m) (grid_points 2 2), map (place o v w) (grid_points 2 2)).
Proof.
  intros argsort m pts xy eq scale AS C NZ P K.
  assert (G : map (proj m) (grid_points 2 2) = [proj m (0, 0); proj m (0, 1); proj m (1, 0); proj m (1, 1)]) by (unfold grid_points; cbn; reflexivity).
  rewrite G in *. destruct (four_points argsort AS pts xy eq scale _ _ _ _ P K) as [p1 [p2 [p3 [p4 [c [E [_ [_ TG]]]]]]]].
  destruct (sides_nz scale eq _ _ _ _ NZ K) as [S1 S2].
  assert (SE : eq = true -> fst (sides scale eq (proj m (0, 0)) (proj m (0, 1)) (proj m (1, 0)) (proj m (1, 1))) = snd (sides scale eq (proj m (0, 0)) (proj m (0, 1)) (proj m (1, 0)) (proj m (1, 1)))) by (intros ->; reflexivity).
  set (hv := sides scale eq _ _ _ _) in *. set (a := slope0 _ _ _ _) in *. clearbody hv a.
  unfold target_of in TG. set (s := sqrt (1 + a ^ 2)) in TG. cbv zeta in TG.
  assert (Hs : 0 < s) by (apply sqrt_lt_R0; pose proof (pow2_ge_0 a); lra).
  assert (Hs2 : s * s = 1 + a * a) by (unfold s; rewrite sqrt_sqrt; [ring|pose proof (pow2_ge_0 a); lra]).
  clearbody s. destruct TG as [-> [-> [-> ->]]].
  exists (psub (psub c (pscale (fst hv / 2 / s) (a, 1))) (pscale (snd hv / 2 / s) (1, - a))), (pscale (snd hv / s) (1, - a)), (pscale (fst hv / s) (a, 1)).
  split; [|split; [|split]].
  - unfold pdot, pscale, py, pxc. cbn [fst snd]. field. lra.
  - replace (cross2 (pscale (snd hv / s) (1, - a)) (pscale (fst hv / s) (a, 1))) with (snd hv * fst hv).
    + now apply Rmult_integral_contrapositive.
    + unfold cross2, pscale, py, pxc. cbn [fst snd]. transitivity (snd hv * fst hv * (1 + a * a) / (s * s)); [rewrite Hs2; field; nra|field; lra].
  - intros ->. specialize (SE eq_refl). rewrite SE. unfold pdot, pscale, py, pxc. cbn [fst snd]. ring.
  - refine (eq_trans E _). f_equal. apply pair_equal_spec. split; [reflexivity|]. unfold grid_points. cbn [seq map concat app INR].
    unfold place, padd, psub, pscale, py, pxc. cbn [fst snd].
    repeat (match goal with |- (_, _) = (_, _) => apply pair_equal_spec; split | |- _ :: _ = _ :: _ => apply f_equal2 end); try reflexivity; field; lra.
Qed.
Print Assumptions C113_four.
Example C113_four_case : camera tilted 2 2 /\ corners (proj tilted (0, 0)) (proj tilted (0, 1)) (proj tilted (1, 0)) (proj tilted (1, 1)) /\
  Permutation (map swap [(2, 0); (0, 1); (0, 0); (3 / 2, 1)]) (map (proj tilted) (grid_points 2 2)).
Proof.
  split; [|split].
  - split; [unfold det3, tilted; cbn; lra|]. intros [|[|i]] [|[|j]] Hi Hj; try lia; unfold den, tilted, py, pxc; cbn; lra.
  - unfold corners, proj, den, tilted, py, pxc. cbn. repeat split; lra.
  - assert (G : map (proj tilted) (grid_points 2 2) = [(0, 0); (0, 2); (1, 0); (1, 3 / 2)]).
    { unfold grid_points, proj, den, tilted, py, pxc. cbn.
      repeat (match goal with |- (_, _) = (_, _) => apply pair_equal_spec; split | |- _ :: _ = _ :: _ => apply f_equal2 end); try reflexivity; field; lra. }
    rewrite G. cbn. unfold swap, py, pxc. cbn. transitivity [(0, 2); (0, 0); (1, 0); (1, 3 / 2)]; [apply perm_skip, perm_swap|apply perm_swap].
Qed.
