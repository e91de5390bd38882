(** Properties of discorpy/proc/processing.py, calibration (C25-C31, C83). *)
From Coq Require Import Floats.
From Coq Require Import Reals ZArith List Lra Lia.
From Flocq Require Import Core.
From Verif Require Import Base Num NumFacts Spec Lsq LsqEx ProcSpec PolyUniq PrepImg PrepPts PrepFacts PrepFacts2 Post Proc
  ProcFacts ProcFacts2 ProcFacts3 ProcFacts4 ProcFacts5.
Import ListNotations.
Local Open Scope R_scope.

(** Distinct real literals. *)
Ltac distinct_lit := match goal with |- distinct_values _ ?l => exists l; split;
  [repeat constructor; cbn [In]; intuition lra|split; [auto|cbn; lia]] end.

(** ** C25 moving the origin *)
Theorem C25_adds_center : forall st lines xc yc,
  @update_center R (Rst st) lines xc yc = map (map (fun p => padd p (yc, xc))) lines.
Proof. reflexivity. Qed.
Print Assumptions C25_adds_center.
(** In any arithmetic: same number of lines, same number of points per line. *)
Theorem C25_counts : forall T (N : Num T) lines xc yc,
  map (@length (T * T)) (update_center lines xc yc) = map (@length _) lines.
Proof. intros. unfold update_center. rewrite map_map. apply map_ext. intros l. apply map_length. Qed.
Print Assumptions C25_counts.
(** The lines returned by the fits are relative to the centre; updating the
    centre restores the original points (exact arithmetic). *)
Theorem C25_restores : forall st polyfit lines xc yc cs sl,
  @para_fit_hor R (Rst st) polyfit lines xc yc = Ok (cs, sl) \/ @para_fit_ver R (Rst st) polyfit lines xc yc = Ok (cs, sl) ->
  @update_center R (Rst st) sl xc yc = lines.
Proof.
  intros st polyfit lines xc yc cs sl H.
  assert (E : sl = map (map (@shiftp R (Rst st) xc yc)) lines).
  { destruct H as [H|H]; [apply (@para_hor_lines R (Rst st)) in H|apply (@para_ver_lines R (Rst st)) in H]; apply H. }
  rewrite E. unfold update_center. rewrite map_map. rewrite <- (map_id lines) at 2. apply map_ext. intros l.
  rewrite map_map. rewrite <- (map_id l) at 2. apply map_ext. intros [y x]. cbn. f_equal; ring.
Qed.
Print Assumptions C25_restores.
Example C25_ex : exists cs sl, @para_fit_hor R Rexact pf_R [[(1, 2); (3, 4)]; [(5, 6)]] 1 2 = Ok (cs, sl) /\
  @update_center R Rexact sl 1 2 = [[(1, 2); (3, 4)]; [(5, 6)]] /\ sl = [[(1 - 2, 2 - 1); (3 - 2, 4 - 1)]; [(5 - 2, 6 - 1)]].
Proof.
  assert (A : forall xs ys, exists c, @fit2 R Rexact pf_R xs ys = Ok c).
  { intros xs ys. unfold fit2, pf_R. cbn [bind]. pose proof (proj1 (polyfit_R_ok 2 xs ys)) as L.
    destruct (polyfit_R 2 xs ys) as [|a [|b [|c [|]]]]; try discriminate L. eauto. }
  assert (exists cs sl, @para_fit_hor R Rexact pf_R [[(1, 2); (3, 4)]; [(5, 6)]] 1 2 = Ok (cs, sl)) as [cs [sl E]].
  { unfold para_fit_hor. cbn [mapM]. destruct (A (map (fun p : R * R => @nsub R Rexact (snd p) 1) [(1, 2); (3, 4)])
      (map (fun p : R * R => @nsub R Rexact (fst p) 2) [(1, 2); (3, 4)])) as [c1 E1]. rewrite E1. cbn [bind].
    destruct (A (map (fun p : R * R => @nsub R Rexact (snd p) 1) [(5, 6)])
      (map (fun p : R * R => @nsub R Rexact (fst p) 2) [(5, 6)])) as [c2 E2]. rewrite E2. cbn [bind]. eauto. }
  exists cs, sl. split; [exact E|]. split; [apply (C25_restores (fun x => x) pf_R _ 1 2 cs); now left|].
  apply (@para_hor_lines R Rexact) in E. exact (proj1 E).
Qed.

(** ** C26 coarse centre *)
(** [ch], [cv]: least-squares parabolas of the lines.  Between parabolas i and
    i+1 (j and j+1) the curvature sign changes most for the first time; the
    centre (X, Y) is on both averaged middle lines. *)
Theorem C26_crossing : forall st polyfit lh lv, polyfit_oracle polyfit ->
  (2 <= length lh)%nat -> (2 <= length lv)%nat -> (forall l, In l (lh ++ lv) -> l <> []) ->
  exists ch cv i j, Forall2 (fitted_hor st) lh ch /\ Forall2 (fitted_ver st) lv cv /\ main_change ch i /\ main_change cv j /\
  let mh := (slope ch i + slope ch (S i)) / 2 in let mv := (slope cv j + slope cv (S j)) / 2 in
  let y0 := (inter ch i + inter ch (S i)) / 2 in let x0 := (inter cv j + inter cv (S j)) / 2 in
  exists X Y, @find_cod_coarse R (Rst st) polyfit lh lv = Ok (X, Y) /\
  (mh * mv <> 1 -> Y = mh * X + y0 /\ X = mv * Y + x0).
Proof.
  intros st polyfit lh lv PF Lh Lv Hne.
  destruct (para_hor_fitted st polyfit PF lh) as [ch [sh [Eh Fh]]]; [intros; apply Hne; apply in_or_app; now left|].
  destruct (para_ver_fitted st polyfit PF lv) as [cv [sv [Ev Fv]]]; [intros; apply Hne; apply in_or_app; now right|].
  pose proof (Forall2_length _ _ _ Fh). pose proof (Forall2_length _ _ _ Fv).
  destruct (coarse_spec st polyfit lh lv ch sh cv sv Eh Ev) as [i [j [Mi [Mj E]]]]; [lia|lia|].
  exists ch, cv, i, j. split; [assumption|]. split; [assumption|]. split; [assumption|]. split; [assumption|].
  cbn zeta in *. do 2 eexists. split; [exact E|]. intros D. split; field; lra.
Qed.
Print Assumptions C26_crossing.
(** When no curvature vanishes this is the first change of sign. *)
Theorem C26_first_change : forall cs i, (forall k, (k < length cs)%nat -> curv cs k <> 0) ->
  (exists k, (S k < length cs)%nat /\ curv cs k * curv cs (S k) < 0) -> main_change cs i ->
  curv cs i * curv cs (S i) < 0 /\ forall k, (k < i)%nat -> 0 < curv cs k * curv cs (S k).
Proof.
  intros cs i Hc [k [Hk Sk]] [Hi [M1 M2]].
  assert (J : forall m, (S m < length cs)%nat -> curv cs m * curv cs (S m) < 0 /\ sign_jump cs m = 2 \/ 0 < curv cs m * curv cs (S m) /\ sign_jump cs m = 0).
  { intros m Hm. pose proof (Hc m ltac:(lia)) as A. pose proof (Hc (S m) Hm) as B. unfold sign_jump.
    destruct (Rlt_or_le 0 (curv cs m)); destruct (Rlt_or_le 0 (curv cs (S m))).
    - right. split; [nra|]. rewrite !sgn_pos by assumption. replace (1 - 1) with 0 by ring. apply Rabs_R0.
    - left. split; [nra|]. rewrite sgn_neg, sgn_pos by lra. rewrite Rabs_left; lra.
    - left. split; [nra|]. rewrite sgn_pos, sgn_neg by lra. rewrite Rabs_right; lra.
    - right. split; [nra|]. rewrite !sgn_neg by lra. replace (-1 - -1) with 0 by ring. apply Rabs_R0. }
  assert (Ji : sign_jump cs i = 2).
  { specialize (M1 k Hk). destruct (J k Hk) as [[_ E]|[E _]]; [|lra]. destruct (J i Hi) as [[_ E']|[_ E']]; lra. }
  split; [destruct (J i Hi) as [[E _]|[_ E]]; [assumption|lra]|].
  intros m Hm. specialize (M2 m Hm). destruct (J m ltac:(lia)) as [[_ E]|[E _]]; [lra|assumption].
Qed.
Print Assumptions C26_first_change.
(** Exchanging the roles of x and y exchanges the coordinates of the centre,
    whatever the rounding. *)
Lemma coarse_swap T (N : Num T) polyfit lh lv x y : (forall a b, nmul a b = nmul b a) ->
  find_cod_coarse polyfit lh lv = Ok (x, y) -> find_cod_coarse polyfit (map (map swp) lv) (map (map swp) lh) = Ok (y, x).
Proof.
  intros C. rewrite !coarse_unfold. rewrite !para_ver_hor, swp_lines.
  destruct (para_fit_hor polyfit lh n0 n0) as [[ch sh]|]; [|discriminate].
  destruct (para_fit_hor polyfit (map (map swp) lv) n0 n0) as [[cv sv]|]; [|discriminate]. cbn [bind res_map fst].
  destruct (sign_change ch) as [i|]; [|discriminate]. destruct (sign_change cv) as [j|]; [|discriminate]. cbn [bind].
  destruct (pyget ch (i - 1)) as [h1|]; [|discriminate]. cbn [bind]. destruct (pyget ch i) as [h2|]; [|discriminate]. cbn [bind].
  destruct (pyget cv (j - 1)) as [v1|]; [|discriminate]. cbn [bind]. destruct (pyget cv j) as [v2|]; [|discriminate]. cbn [bind].
  cbn zeta. intros H. apply Ok_inj in H. apply pair_equal_spec in H. destruct H as [<- <-].
  rewrite (C (nmul (nadd (cf1 v1) (cf1 v2)) (nofQ 1 2)) (nmul (nadd (cf1 h1) (cf1 h2)) (nofQ 1 2))). reflexivity.
Qed.
Theorem C26_swap : forall rnd polyfit lh lv x y,
  @find_cod_coarse R (Rnum rnd) polyfit lh lv = Ok (x, y) <->
  @find_cod_coarse R (Rnum rnd) polyfit (map (map swap) lv) (map (map swap) lh) = Ok (y, x).
Proof.
  intros rnd polyfit lh lv x y. change swap with (@swp R).
  assert (C : forall a b, @nmul R (Rnum rnd) a b = @nmul R (Rnum rnd) b a) by (intros a b; cbn; f_equal; ring).
  split; [now apply coarse_swap|]. intros H. apply coarse_swap in H; [|assumption]. unfold pt in *. now rewrite !swp_lines in H.
Qed.
Print Assumptions C26_swap.
(** Fewer than two lines in a direction: never a result; ValueError if the
    lines are not empty. *)
Theorem C26_few_lines : forall T (N : Num T) polyfit lh lv, (length lh <= 1)%nat \/ (length lv <= 1)%nat ->
  is_ok (find_cod_coarse polyfit lh lv) = false.
Proof.
  intros T N polyfit lh lv H. rewrite coarse_unfold.
  destruct (para_fit_hor polyfit lh n0 n0) as [[ch sh]|] eqn:Eh; [|reflexivity].
  destruct (para_fit_ver polyfit lv n0 n0) as [[cv sv]|] eqn:Ev; [|reflexivity]. cbn [bind fst].
  apply para_hor_lines in Eh. apply para_ver_lines in Ev. destruct Eh as [_ Eh]. destruct Ev as [_ Ev].
  assert (SE : forall cs : list (T * T * T), (length cs <= 1)%nat -> sign_change cs = Err ValueError).
  { intros cs L. destruct cs as [|a [|b cs]]; cbn [length] in L; try lia; reflexivity. }
  destruct H as [H|H].
  - rewrite (SE ch) by lia. reflexivity.
  - rewrite (SE cv) by lia. destruct (sign_change ch); reflexivity.
Qed.
Print Assumptions C26_few_lines.
Theorem C26_few_lines_error : forall st polyfit lh lv, polyfit_oracle polyfit -> (forall l, In l (lh ++ lv) -> l <> []) ->
  (length lh <= 1)%nat \/ (length lv <= 1)%nat -> @find_cod_coarse R (Rst st) polyfit lh lv = Err ValueError.
Proof.
  intros st polyfit lh lv PF Hne H. rewrite (@coarse_unfold R (Rst st)).
  destruct (para_hor_fitted st polyfit PF lh) as [ch [sh [Eh Fh]]]; [intros; apply Hne; apply in_or_app; now left|].
  destruct (para_ver_fitted st polyfit PF lv) as [cv [sv [Ev Fv]]]; [intros; apply Hne; apply in_or_app; now right|].
  pose proof (Forall2_length _ _ _ Fh). pose proof (Forall2_length _ _ _ Fv). unfold NSt2 in *.
  rewrite Eh, Ev. cbn [bind fst].
  destruct (sign_change ch) as [i|e] eqn:E1.
  - destruct H as [H|H]; [rewrite sign_change_err in E1 by lia; discriminate|]. cbn [bind]. pose proof (sign_change_err st cv) as E2; unfold NSt2 in E2; rewrite E2 by lia. reflexivity.
  - destruct (Nat.le_gt_cases (length ch) 1) as [L|L].
    + rewrite sign_change_err in E1 by lia. injection E1 as <-. reflexivity.
    + destruct (sign_change_ok st ch L) as [p E2]. unfold NSt2 in *. rewrite E2 in E1. discriminate.
Qed.
Print Assumptions C26_few_lines_error.

(** An ideal grid as used in the examples. *)
Definition grid_hor (k xc yc : R) (cs xs : list R) : list (list (R * R)) :=
  map (fun c => map (fun x => (k * (c - yc) * (x - xc) ^ 2 + c, x)) xs) cs.
Definition grid_ver (k xc yc : R) (ds ys : list R) : list (list (R * R)) :=
  map (fun d => map (fun y => (y, k * (d - xc) * (y - yc) ^ 2 + d)) ys) ds.
Lemma grid_hor_ideal k xc yc cs xs : distinct_values 3 xs -> Forall2 (ideal_hor k xc yc) cs (grid_hor k xc yc cs xs).
Proof.
  intros D. unfold grid_hor. induction cs as [|c cs IH]; cbn [map]; [constructor|constructor; [|assumption]]. split.
  - intros p Hp. apply in_map_iff in Hp. destruct Hp as [x [<- _]]. reflexivity.
  - rewrite map_map. unfold pxc. cbn [snd]. now rewrite map_id.
Qed.
Lemma grid_ver_ideal k xc yc ds ys : distinct_values 3 ys -> Forall2 (ideal_ver k xc yc) ds (grid_ver k xc yc ds ys).
Proof.
  intros D. unfold grid_ver. induction ds as [|c ds IH]; cbn [map]; [constructor|constructor; [|assumption]]. split.
  - intros p Hp. apply in_map_iff in Hp. destruct Hp as [x [<- _]]. reflexivity.
  - rewrite map_map. unfold py. cbn [fst]. now rewrite map_id.
Qed.
Example C26_ex : exists X Y, @find_cod_coarse R (Rst f32) pf_R (grid_hor 1 1 2 [1; 3] [0; 1; 5]) (grid_ver 1 1 2 [0; 2] [0; 1; 5]) = Ok (X, Y).
Proof.
  destruct (C26_crossing f32 pf_R (grid_hor 1 1 2 [1; 3] [0; 1; 5]) (grid_ver 1 1 2 [0; 2] [0; 1; 5]) pf_R_ok)
    as [_ [_ [_ [_ [_ [_ [_ [_ [X [Y [E _]]]]]]]]]]]; eauto; try (cbn; lia).
  intros l Hl. cbn in Hl. intuition (subst; discriminate).
Qed.
Example C26_first_ex : main_change [(-1, 0, 0); (-2, 0, 0); (3, 0, 0); (4, 0, 0)] 1.
Proof.
  assert (P : forall j, (j < 3)%nat -> sign_jump [(-1, 0, 0); (-2, 0, 0); (3, 0, 0); (4, 0, 0)] j = if Nat.eqb j 1 then 2 else 0).
  { intros [|[|[|j]]] Hj; try lia; unfold sign_jump, curv; cbn [nth fst Nat.eqb]; rewrite ?sgn_pos, ?sgn_neg by lra.
    - replace (-1 - -1) with 0 by ring. apply Rabs_R0.
    - rewrite Rabs_right; lra.
    - replace (1 - 1) with 0 by ring. apply Rabs_R0. }
  split; [cbn; lia|]. split.
  - intros j Hj. cbn [length] in Hj. rewrite !P by lia. cbn [Nat.eqb]. destruct (Nat.eqb j 1); lra.
  - intros j Hj. rewrite !P by lia. assert (j = 0%nat) by lia. subst j. cbn [Nat.eqb]. lra.
Qed.

(** ** C27 Bailey's method *)
(** The condition on neighbouring lines says that the middle lines of the
    coarse step are not parallel; the conditions on the coarse centre hold by
    themselves for k > 0 (next theorem). *)
Theorem C27_exact : forall polyfit k xc yc cs ds lh lv iteration, polyfit_oracle polyfit -> k <> 0 ->
  Forall2 (ideal_hor k xc yc) cs lh -> Forall2 (ideal_ver k xc yc) ds lv -> distinct_values 2 cs -> distinct_values 2 ds ->
  (forall c c' d d', adjacent cs c c' -> adjacent ds d d' -> k ^ 2 * xc * yc * (c + c' - 2 * yc) * (d + d' - 2 * xc) <> 1) ->
  (forall X Y, @find_cod_coarse R Rexact polyfit lh lv = Ok (X, Y) -> 1 + k * (X - xc) ^ 2 <> 0 /\ 1 + k * (Y - yc) ^ 2 <> 0) ->
  @find_cod_bailey R Rexact polyfit lh lv iteration = Ok (xc, yc).
Proof.
  intros polyfit k xc yc cs ds lh lv iteration PF K0 Fh Fv Dh Dv _ HC.
  destruct (coarse_ideal polyfit PF k xc yc cs ds lh lv Fh Fv Dh Dv) as [i [j [_ [_ [x0 [y0 E]]]]]].
  destruct (HC _ _ E) as [H1 H2]. exact (bailey_ideal polyfit PF k xc yc cs ds lh lv Fh Fv K0 Dh Dv _ _ iteration E H1 H2).
Qed.
Print Assumptions C27_exact.
Theorem C27_positive : forall polyfit k xc yc cs ds lh lv iteration, polyfit_oracle polyfit -> 0 < k ->
  Forall2 (ideal_hor k xc yc) cs lh -> Forall2 (ideal_ver k xc yc) ds lv -> distinct_values 2 cs -> distinct_values 2 ds ->
  (forall c c' d d', adjacent cs c c' -> adjacent ds d d' -> k ^ 2 * xc * yc * (c + c' - 2 * yc) * (d + d' - 2 * xc) <> 1) ->
  @find_cod_bailey R Rexact polyfit lh lv iteration = Ok (xc, yc).
Proof.
  intros polyfit k xc yc cs ds lh lv iteration PF K0 Fh Fv Dh Dv HA.
  apply (C27_exact polyfit k xc yc cs ds lh lv); try assumption; [lra|].
  intros X Y _. pose proof (pow2_ge_0 (X - xc)). pose proof (pow2_ge_0 (Y - yc)). split; nra.
Qed.
Print Assumptions C27_positive.
Lemma adjacent2 {A} (a b c d : A) : adjacent [a; b] c d -> c = a /\ d = b.
Proof.
  intros [l1 [l2 E]]. destruct l1 as [|x [|y [|]]]; try discriminate. injection E as <- <-. now split.
Qed.
Example C27_ex : @find_cod_bailey R Rexact pf_R (grid_hor 1 1 2 [3; 5] [0; 1; 5]) (grid_ver 1 1 2 [2; 4] [0; 1; 5]) 2 = Ok (1, 2).
Proof.
  apply (C27_positive pf_R 1 1 2 [3; 5] [2; 4]).
  - exact pf_R_ok.
  - lra.
  - apply grid_hor_ideal. distinct_lit.
  - apply grid_ver_ideal. distinct_lit.
  - distinct_lit.
  - distinct_lit.
  - intros c c' d d' H1 H2. apply adjacent2 in H1. apply adjacent2 in H2. destruct H1, H2. subst. lra.
Qed.

(** ** C28 fine search *)
Theorem C28_minimises : forall st polyfit minimize lh lv x y pd x2 y2, (2 <= length lh)%nat -> (2 <= length lv)%nat ->
  @find_cod_fine R (Rst st) polyfit minimize lh lv x y pd = Ok (x2, y2) ->
  exists x1 y1, best_centre st polyfit (nearest_by minimize) (grid_of (- pd) (pd + 2) 2) lh lv x y x1 y1 /\
    best_centre st polyfit (nearest_by minimize) (grid_of (-2) (2 + 1 / 2) (1 / 2)) lh lv x1 y1 x2 y2.
Proof. exact fine_best. Qed.
Print Assumptions C28_minimises.
Theorem C28_window : forall st polyfit minimize lh lv x y pd x2 y2, (2 <= length lh)%nat -> (2 <= length lv)%nat ->
  @find_cod_fine R (Rst st) polyfit minimize lh lv x y pd = Ok (x2, y2) ->
  (- pd - 2 <= x2 - x < pd + 4) /\ (- pd - 2 <= y2 - y < pd + 4).
Proof.
  intros st polyfit minimize lh lv x y pd x2 y2 Lh Lv H.
  destruct (fine_best st polyfit minimize lh lv x y pd x2 y2 Lh Lv H) as [x1 [y1 [[c1 [c2 [_ [G1 [G2 _]]]]] [c3 [c4 [_ [G3 [G4 _]]]]]]]].
  assert (A : forall s, grid_of (- pd) (pd + 2) 2 s -> - pd <= s < pd + 2).
  { intros s [i [Hi [-> L]]]. apply IZR_le in Hi. lra. }
  assert (B : forall s, grid_of (-2) (2 + 1 / 2) (1 / 2) s -> -2 <= s <= 2).
  { intros s [i [Hi [-> L]]]. assert (i < 9)%Z by (apply lt_IZR; lra). assert (i <= 8)%Z by lia. apply IZR_le in Hi. apply IZR_le in H1. lra. }
  apply A in G1. apply A in G2. apply B in G3. apply B in G4. lra.
Qed.
Print Assumptions C28_window.
(** There is a result for all non-empty lines, at least two per direction. *)
Theorem C28_total : forall st polyfit minimize lh lv x y pd, polyfit_oracle polyfit ->
  (2 <= length lh)%nat -> (2 <= length lv)%nat -> (forall l, In l (lh ++ lv) -> l <> []) -> 0 <= pd ->
  exists c, @find_cod_fine R (Rst st) polyfit minimize lh lv x y pd = Ok c.
Proof. intros. now apply fine_total. Qed.
Print Assumptions C28_total.
Example C28_ex : exists x y, @find_cod_fine R (Rst f32) pf_R min_R (grid_hor 1 1 2 [1; 3] [0; 1; 5]) (grid_ver 1 1 2 [0; 2] [0; 1; 5]) 1 2 10 = Ok (x, y) /\
  -12 <= x - 1 < 14.
Proof.
  destruct (C28_total f32 pf_R min_R (grid_hor 1 1 2 [1; 3] [0; 1; 5]) (grid_ver 1 1 2 [0; 2] [0; 1; 5]) 1 2 10 pf_R_ok) as [[x y] E];
    try (cbn; lia); [|lra|].
  - intros l Hl. cbn in Hl. intuition (subst; discriminate).
  - exists x, y. split; [exact E|]. apply C28_window in E; [lra|cbn; lia|cbn; lia].
Qed.

(** ** C29 undistorted intercepts *)
(** [ch], [cv]: fitted parabolas relative to the centre.  If their intercepts
    are strictly monotone the undistorted ones are in arithmetic progression
    through the intercept nearest to the centre (apart from the float32
    store); without optimisation the distance is the average distance of the
    central lines. *)
Theorem C29_progression : forall st polyfit minimize lh lv xc yc opt thr w uh uv, (2 <= length lh)%nat -> (2 <= length lv)%nat ->
  @calc_undistor_intercept R (Rst st) polyfit minimize lh lv xc yc opt thr = Ok (w, (uh, uv)) ->
  exists ch cv, fits_hor st polyfit xc yc lh ch /\ fits_ver st polyfit xc yc lv cv /\
  length uh = length lh /\ length uv = length lv /\
  let n := Nat.min 3 (Nat.min (Nat.div2 (length lh) - 1) (Nat.div2 (length lv) - 1)) in
  let equal_steps cs us := strictly_monotone (map snd cs) ->
    exists i d, first_min (map Rabs (map snd cs)) i /\
    (forall m, (m < length us)%nat -> nth m us 0 = st (inter cs i + (INR m - INR i) * d)) /\
    (opt = false -> Rabs d = average (gaps (around i n (map snd cs)))) in
  equal_steps ch uh /\ equal_steps cv uv.
Proof.
  intros st polyfit minimize lh lv xc yc opt thr w uh uv Lh Lv H.
  destruct (undistor_intercept_ok st polyfit minimize lh lv xc yc opt thr w uh uv Lh Lv H) as [ch [cv [Fh [Fv [_ [Sh Sv]]]]]].
  pose proof (Forall2_length _ _ _ Fh) as L1. pose proof (Forall2_length _ _ _ Fv) as L2.
  exists ch, cv. split; [assumption|]. split; [assumption|].
  split; [destruct Sh as [? [? [_ [L _]]]]; rewrite L; symmetry; exact L1|].
  split; [destruct Sv as [? [? [_ [L _]]]]; rewrite L; symmetry; exact L2|].
  cbn zeta. set (n := Nat.min 3 _) in *.
  assert (G : forall cs us, spread_ok st minimize opt n cs us -> strictly_monotone (map snd cs) ->
    exists i d, first_min (map Rabs (map snd cs)) i /\
    (forall m, (m < length us)%nat -> nth m us 0 = st (inter cs i + (INR m - INR i) * d)) /\
    (opt = false -> Rabs d = average (gaps (around i n (map snd cs))))).
  { intros cs us [pos [d [F [L [U [D _]]]]]] M. destruct (monotone_signs _ _ M F) as [s [Hs Q]]. exists pos, (s * d). split; [assumption|]. split.
    - intros m Hm. rewrite L in Hm. rewrite U by assumption. f_equal. rewrite map_length in Q. specialize (Q m Hm).
      pose proof (cf2_inter cs m Hm) as CI. change (nth m (map snd cs) 0 = inter cs m) in CI. rewrite CI in Q. rewrite <- Rmult_assoc, Q. ring.
    - intros O. specialize (D O). rewrite Rabs_mult. replace (Rabs s) with 1 by (destruct Hs; subst s; [rewrite Rabs_right|rewrite Rabs_left]; lra).
      rewrite Rmult_1_l, Rabs_right; [exact D|]. rewrite D. unfold average. apply Rle_ge.
      assert (S : 0 <= Rsum (gaps (around pos n (map snd cs)))).
      { apply Rsum_nonneg. intros x Hx. apply (In_nth _ _ 0) in Hx. destruct Hx as [i [Hi <-]]. rewrite gaps_length in Hi. rewrite gaps_nth by lia. apply Rabs_pos. }
      destruct (gaps (around pos n (map snd cs))) as [|g gs]; [cbn; unfold Rdiv; rewrite Rmult_0_l; lra|].
      apply Rmult_le_pos; [exact S|]. apply Rlt_le, Rinv_0_lt_compat, lt_0_INR. cbn. lia. }
  split; now apply G.
Qed.
Print Assumptions C29_progression.
(** Equidistant intercepts of at least four lines a direction are returned
    unchanged (stored values are already float32: st (st x) = st x), without
    a warning. *)
Theorem C29_unchanged : forall st polyfit minimize lh lv ch cv xc yc opt thr a e b f, polyfit_oracle polyfit -> minimize_oracle minimize ->
  (forall x, st (st x) = st x) -> (forall l, In l (lh ++ lv) -> l <> []) ->
  fits_hor st polyfit xc yc lh ch -> fits_ver st polyfit xc yc lv cv -> (4 <= length lh)%nat -> (4 <= length lv)%nat -> e <> 0 -> f <> 0 ->
  equidistant a e (map snd ch) -> equidistant b f (map snd cv) -> 0 <= thr ->
  @calc_undistor_intercept R (Rst st) polyfit minimize lh lv xc yc opt thr = Ok (false, (map snd ch, map snd cv)).
Proof.
  intros st polyfit minimize lh lv ch cv xc yc opt thr a e b f PF MO SS Hne Fh Fv Lh Lv He Hf Eh Ev Ht.
  assert (L1 : length lh = length ch) by exact (Forall2_length _ _ _ Fh). assert (L2 : length lv = length cv) by exact (Forall2_length _ _ _ Fv).
  destruct (para_hor_total st polyfit PF lh xc yc) as [ch' [sh PH]]; [intros; apply Hne; apply in_or_app; now left|].
  destruct (para_ver_total st polyfit PF lv xc yc) as [cv' [sv PV]]; [intros; apply Hne; apply in_or_app; now right|].
  pose proof (fits_hor_fun st polyfit _ _ _ _ _ Fh (para_hor_fits _ _ _ _ _ _ _ PH)) as <-.
  pose proof (fits_ver_fun st polyfit _ _ _ _ _ Fv (para_ver_fits _ _ _ _ _ _ _ PV)) as <-.
  pose proof (check_equidistant st polyfit PF ch cv a e b f thr ltac:(lia) ltac:(lia) He Hf Ht Eh Ev) as CE.
  destruct (undistor_intercept_total st polyfit minimize lh lv xc yc opt thr ch sh cv sv false PH PV) as [[uh uv] E].
  - intros ->. cbn in L1. lia.
  - intros ->. cbn in L2. lia.
  - exact CE.
  - unfold NSt5 in E. rewrite E. destruct (undistor_intercept_ok st polyfit minimize lh lv xc yc opt thr false uh uv ltac:(lia) ltac:(lia) E) as [ch' [cv' [G1 [G2 [_ [S1 S2]]]]]].
    pose proof (fits_hor_fun _ _ _ _ _ _ _ G1 Fh) as ->. pose proof (fits_ver_fun _ _ _ _ _ _ _ G2 Fv) as ->.
    assert (D2 : forall n, (4 <= n)%nat -> (2 <= Nat.div2 n)%nat) by (intros [|[|[|[|n]]]] H; cbn; lia).
    pose proof (D2 _ Lh). pose proof (D2 _ Lv).
    apply (spread_equidistant st minimize _ _ _ _ a e MO) in S1; [|lia|lia|assumption|assumption].
    apply (spread_equidistant st minimize _ _ _ _ b f MO) in S2; [|lia|lia|assumption|assumption].
    assert (K : forall x y ls cs, fits_hor st polyfit x y ls cs -> map (fun c => st (snd c)) cs = map snd cs).
    { intros x y ls cs F. induction F as [|l c ls cs [u [v [w [-> _]]]] F IH]; [reflexivity|]. cbn [map snd]. now rewrite SS, IH. }
    assert (K' : forall x y ls cs, fits_ver st polyfit x y ls cs -> map (fun c => st (snd c)) cs = map snd cs).
    { intros x y ls cs F. induction F as [|l c ls cs [u [v [w [-> _]]]] F IH]; [reflexivity|]. cbn [map snd]. now rewrite SS, IH. }
    rewrite S1, S2, (K _ _ _ _ Fh), (K' _ _ _ _ Fv). reflexivity.
Qed.
Print Assumptions C29_unchanged.

(** ** C30 calibration of an undistorted grid *)
(** [st] only has to be exact on 0 and on the distances of the lines from the
    centre (in float32: when these are binary32 numbers). *)
Theorem C30_identity : forall st polyfit minimize lstsq cs ds lh lv xc yc a e b f num_fact opt thr,
  polyfit_oracle polyfit -> minimize_oracle minimize -> lstsq_oracle lstsq ->
  Forall2 straight_hor cs lh -> Forall2 straight_ver ds lv -> equidistant a e cs -> equidistant b f ds -> e <> 0 -> f <> 0 ->
  (4 <= length cs)%nat -> (4 <= length ds)%nat -> (forall c, In c cs -> c <> yc) -> (forall d, In d ds -> d <> xc) ->
  st 0 = 0 -> (forall c, In c cs -> st (c - yc) = c - yc) -> (forall d, In d ds -> st (d - xc) = d - xc) ->
  (num_fact <= 32767)%Z -> let n := Z.to_nat (Z.max 1 num_fact) in
  distinct_values n (map (fun p => dist p (yc, xc)) (concat lh ++ concat lv)) -> 0 <= thr ->
  @calc_coef_backward R (Rst st) polyfit minimize lstsq lh lv xc yc num_fact opt thr = Ok (unit_coef n) /\
  @calc_coef_forward R (Rst st) polyfit minimize lstsq lh lv xc yc num_fact opt thr = Ok (unit_coef n) /\
  @calc_coef_backward_from_forward R (Rst st) polyfit minimize lstsq lh lv xc yc num_fact opt thr = Ok (unit_coef n, unit_coef n).
Proof.
  intros st polyfit minimize lstsq cs ds lh lv xc yc a e b f num_fact opt thr PF MO LS Fh Fv Eh Ev He Hf Nh Nv Zh Zv S0 Sh Sv NF n Dr Ht.
  assert (D : distinct_values n (map (@radius R (Rst st)) (all_points st lh lv xc yc))).
  { unfold all_points. rewrite map_map.
    rewrite (map_ext (fun x => radius (shiftp xc yc x)) (fun p => dist p (yc, xc))); [exact Dr|].
    intros p. unfold radius, dist, shiftp, py, pxc. cbn [fst snd nsqrt nadd nmul nsub NSt5 Rst]. f_equal. ring. }
  split; [|split].
  - eapply flat_backward; eauto.
  - eapply flat_forward with (k := num_fact); eauto.
  - eapply flat_backward_from_forward; eauto.
Qed.
Print Assumptions C30_identity.

(** ** C31 backward and forward coefficients *)
Theorem C31_same_for_both_mappings : forall T (N : Num T) lstsq fact refs,
  transform_coef_backward_and_forward lstsq fact true refs = transform_coef_backward_and_forward lstsq fact false refs.
Proof. reflexivity. Qed.
Print Assumptions C31_same_for_both_mappings.
Theorem C31_few_points : forall T (N : Num T) lstsq fact fwd refs, (length refs < length fact)%nat ->
  transform_coef_backward_and_forward lstsq fact fwd (Some refs) = Err ValueError.
Proof.
  intros T N lstsq fact fwd refs H. unfold transform_coef_backward_and_forward. destruct (Nat.ltb_spec (length refs) (length fact)); [reflexivity|lia].
Qed.
Print Assumptions C31_few_points.
(** If some polynomial G with as many coefficients inverts F on the reference
    points, so does the returned polynomial g: G(F(r) r) F(r) = 1. *)
Theorem C31_inverts : forall st lstsq fact fwd refs G, lstsq_oracle lstsq -> (length fact <= length refs)%nat -> length G = length fact ->
  (exists p, In p refs /\ poly fact (dist p (0, 0)) <> 0) ->
  (forall p, In p refs -> let r := dist p (0, 0) in poly fact r <> 0 -> poly G (poly fact r * r) * poly fact r = 1) ->
  exists g, @transform_coef_backward_and_forward R (Rst st) lstsq fact fwd (Some refs) = Ok g /\ length g = length fact /\
  forall p, In p refs -> let r := dist p (0, 0) in poly fact r <> 0 -> poly g (poly fact r * r) * poly fact r = 1.
Proof. intros st lstsq fact fwd refs G LS H1 H2 H3 H4. exact (transform_exact st lstsq LS fact fwd (Some refs) G H1 H2 H3 H4). Qed.
Print Assumptions C31_inverts.
(** Then distorting with one model and correcting with the other returns every
    reference point (relative to the centre c) with F(r) > 0. *)
Theorem C31_roundtrip : forall fact g c p, let r := dist p (0, 0) in
  0 < poly fact r -> poly g (poly fact r * r) * poly fact r = 1 ->
  radial_map g c (radial_map fact c (padd c p)) = padd c p.
Proof.
  intros fact g [cy cx] [y x] r Fr E. unfold radial_map.
  assert (D : dist (padd (cy, cx) (y, x)) (cy, cx) = r).
  { unfold r, dist, padd, py, pxc. cbn [fst snd]. f_equal. ring. }
  rewrite D. set (k := poly fact r) in *.
  assert (D2 : dist (padd (cy, cx) (pscale k (psub (padd (cy, cx) (y, x)) (cy, cx)))) (cy, cx) = k * r).
  { unfold r, dist, padd, pscale, psub, py, pxc. cbn [fst snd]. rewrite <- (sqrt_square k) at 5 by lra. rewrite <- sqrt_mult_alt by nra. f_equal. ring. }
  rewrite D2. unfold padd, pscale, psub, py, pxc. cbn [fst snd]. 
  f_equal; [replace (cy + _) with (cy + poly g (k * r) * k * y) by ring|replace (cx + _) with (cx + poly g (k * r) * k * x) by ring]; rewrite E; ring.
Qed.
Print Assumptions C31_roundtrip.
Theorem C31_constant : forall st lstsq k fwd refs, lstsq_oracle lstsq -> k <> 0 -> refs <> Some [] ->
  @transform_coef_backward_and_forward R (Rst st) lstsq [k] fwd refs = Ok [1 / k].
Proof. intros st lstsq k fwd refs LS. exact (transform_constant st lstsq LS k fwd refs). Qed.
Print Assumptions C31_constant.

(** *** Examples for C29 - C31 *)
Definition straight_grid_hor (cs xs : list R) : list (list (R * R)) := map (fun c => map (fun x => (c, x)) xs) cs.
Definition straight_grid_ver (ds ys : list R) : list (list (R * R)) := map (fun d => map (fun y => (y, d)) ys) ds.
Lemma straight_grid_hor_ok cs xs : distinct_values 3 xs -> Forall2 straight_hor cs (straight_grid_hor cs xs).
Proof.
  intros D. unfold straight_grid_hor. induction cs as [|c cs IH]; cbn [map]; [constructor|constructor; [|assumption]]. split.
  - intros p Hp. apply in_map_iff in Hp. destruct Hp as [x [<- _]]. reflexivity.
  - rewrite map_map. unfold pxc. cbn [snd]. now rewrite map_id.
Qed.
Lemma straight_grid_ver_ok ds ys : distinct_values 3 ys -> Forall2 straight_ver ds (straight_grid_ver ds ys).
Proof.
  intros D. unfold straight_grid_ver. induction ds as [|c ds IH]; cbn [map]; [constructor|constructor; [|assumption]]. split.
  - intros p Hp. apply in_map_iff in Hp. destruct Hp as [x [<- _]]. reflexivity.
  - rewrite map_map. unfold py. cbn [fst]. now rewrite map_id.
Qed.
Lemma f32_small z c : c = IZR z -> (Z.abs z <= 1000)%Z -> f32 c = c.
Proof. intros -> H. apply f32_int. lia. Qed.
Lemma equi1234 : equidistant 1 1 [1; 2; 3; 4].
Proof. intros [|[|[|[|i]]]] H; cbn in H; try lia; cbn; ring. Qed.
(** Four lines in each direction, centre (0, 0), two coefficients, float32. *)
Example C30_ex : let lh := straight_grid_hor [1; 2; 3; 4] [1; 2; 3; 4] in let lv := straight_grid_ver [1; 2; 3; 4] [1; 2; 3; 4] in
  @calc_coef_backward R (Rst f32) pf_R min_R ls_R lh lv 0 0 2 true (1 / 10) = Ok [1; 0].
Proof.
  intros lh lv. assert (D3 : distinct_values 3 [1; 2; 3; 4]) by distinct_lit.
  assert (S : forall c, In c [1; 2; 3; 4] -> f32 (c - 0) = c - 0).
  { intros c H. cbn in H. destruct H as [<-|[<-|[<-|[<-|[]]]]]; [apply (f32_small 1)|apply (f32_small 2)|apply (f32_small 3)|apply (f32_small 4)]; lra || lia. }
  apply (C30_identity f32 pf_R min_R ls_R [1; 2; 3; 4] [1; 2; 3; 4] lh lv 0 0 1 1 1 1 2 true (1 / 10) pf_R_ok min_R_ok ls_R_ok).
  - now apply straight_grid_hor_ok.
  - now apply straight_grid_ver_ok.
  - exact equi1234.
  - exact equi1234.
  - lra.
  - lra.
  - cbn; lia.
  - cbn; lia.
  - intros c H. cbn in H. intuition lra.
  - intros c H. cbn in H. intuition lra.
  - apply (f32_small 0); [reflexivity|lia].
  - exact S.
  - exact S.
  - lia.
  - exists [dist (1, 1) (0, 0); dist (1, 2) (0, 0)]. split; [|split].
    + assert (N : dist (1, 1) (0, 0) <> dist (1, 2) (0, 0)).
      { apply Rlt_not_eq. unfold dist, py, pxc. cbn [fst snd]. apply sqrt_lt_1; lra. }
      repeat constructor; cbn [In]; intuition.
    + intros x H. cbn in H. destruct H as [<-|[<-|[]]].
      * apply (in_map (fun p => dist p (0, 0)) _ (1, 1)). cbn. tauto.
      * apply (in_map (fun p => dist p (0, 0)) _ (1, 2)). cbn. tauto.
    + cbn. lia.
  - lra.
Qed.
(** The hypotheses of C29 are those of this grid; C29_unchanged applies. *)
Example C29_ex : let lh := straight_grid_hor [1; 2; 3; 4] [1; 2; 3] in let lv := straight_grid_ver [1; 2; 3; 4] [1; 2; 3] in
  @calc_undistor_intercept R Rexact pf_R min_R lh lv 0 0 false (1 / 10) = Ok (false, ([1 - 0; 2 - 0; 3 - 0; 4 - 0], [1 - 0; 2 - 0; 3 - 0; 4 - 0])).
Proof.
  intros lh lv. assert (D3 : distinct_values 3 [1; 2; 3]) by distinct_lit.
  assert (Fh := straight_grid_hor_ok [1; 2; 3; 4] [1; 2; 3] D3). assert (Fv := straight_grid_ver_ok [1; 2; 3; 4] [1; 2; 3] D3).
  assert (Eh := flat_fit_hor (fun x => x) pf_R pf_R_ok [1; 2; 3; 4] lh 0 0 Fh eq_refl (fun _ _ => eq_refl)).
  assert (Ev := flat_fit_ver (fun x => x) pf_R pf_R_ok [1; 2; 3; 4] lv 0 0 Fv eq_refl (fun _ _ => eq_refl)).
  apply (C29_unchanged (fun x => x) pf_R min_R lh lv (map (flat 0) [1; 2; 3; 4]) (map (flat 0) [1; 2; 3; 4]) 0 0 false (1 / 10) (1 - 0) 1 (1 - 0) 1);
    try assumption; try lra; try (cbn; lia).
  - exact pf_R_ok.
  - exact min_R_ok.
  - reflexivity.
  - intros l H. cbn in H. intuition (subst; discriminate).
  - exact (para_hor_fits _ _ _ _ _ _ _ Eh).
  - exact (para_ver_fits _ _ _ _ _ _ _ Ev).
  - apply flat_equidistant. exact equi1234.
  - apply flat_equidistant. exact equi1234.
Qed.
(** F(r) = 1 + r on radii 1 and 2 is inverted by 7/12 - R/24. *)
Example C31_ex : exists g, @transform_coef_backward_and_forward R Rexact ls_R [1; 1] true (Some [(0, 1); (2, 0)]) = Ok g /\
  radial_map g (5, 5) (radial_map [1; 1] (5, 5) (5 + 2, 5 + 0)) = (5 + 2, 5 + 0).
Proof.
  assert (D1 : dist (0, 1) (0, 0) = 1).
  { unfold dist, py, pxc. cbn [fst snd]. replace ((0 - 0) * (0 - 0) + (1 - 0) * (1 - 0)) with (1 * 1) by ring. apply sqrt_square. lra. }
  assert (D2 : dist (2, 0) (0, 0) = 2).
  { unfold dist, py, pxc. cbn [fst snd]. replace ((2 - 0) * (2 - 0) + (0 - 0) * (0 - 0)) with (2 * 2) by ring. apply sqrt_square. lra. }
  destruct (C31_inverts (fun x => x) ls_R [1; 1] true [(0, 1); (2, 0)] [7 / 12; - (1 / 24)] ls_R_ok) as [g [E [_ H]]].
  - cbn; lia.
  - reflexivity.
  - exists (0, 1). split; [now left|]. rewrite D1. cbn. lra.
  - intros p [<-|[<-|[]]]; cbn zeta; rewrite ?D1, ?D2; intros _; cbn; lra.
  - exists g. split; [exact E|]. apply (C31_roundtrip [1; 1] g (5, 5) (2, 0)).
    + rewrite D2. cbn. lra.
    + apply H; [now right; left|]. rewrite D2. cbn. lra.
Qed.

(** ** C83 two or three lines in a direction *)
(** The distance between the lines is the mean of an empty array: every
    undistorted intercept is NaN in floating point, in both directions. *)
Lemma fnan_unique x : Prim2SF x = S754_nan -> x = nan.
Proof. intros H. rewrite <- (SF2Prim_Prim2SF x), H. reflexivity. Qed.
Lemma fmul_nan_r x : (x * nan = nan)%float.
Proof. apply fnan_unique. rewrite mul_spec. change (Prim2SF nan) with S754_nan. destruct (Prim2SF x); reflexivity. Qed.
Lemma fadd_nan_l x : (nan + x = nan)%float.
Proof. apply fnan_unique. rewrite add_spec. change (Prim2SF nan) with S754_nan. destruct (Prim2SF x); reflexivity. Qed.
Local Existing Instance FloatNum.
Theorem C83_few_lines_nan : forall polyfit minimize lh lv xc yc thr w uh uv, (2 <= length lh)%nat -> (2 <= length lv)%nat ->
  (length lh <= 3)%nat \/ (length lv <= 3)%nat ->
  @calc_undistor_intercept _ FloatNum polyfit minimize lh lv xc yc false thr = Ok (w, (uh, uv)) ->
  Forall (fun u => u = nan) uh /\ Forall (fun u => u = nan) uv /\ length uh = length lh /\ length uv = length lv.
Proof.
  intros polyfit minimize lh lv xc yc thr w uh uv Lh Lv Few. unfold calc_undistor_intercept.
  destruct (para_fit_hor polyfit lh xc yc) as [[ch sh]|] eqn:Eh; [|discriminate].
  destruct (para_fit_ver polyfit lv xc yc) as [[cv sv]|] eqn:Ev; [|discriminate]. cbn [bind].
  destruct (check_missing_lines polyfit ch cv thr) as [w'|]; [|discriminate]. cbn [bind].
  assert (AM : forall l p, @argmin _ FloatNum l = Ok p -> (0 <= p)%Z).
  { intros [|x l] p H; [discriminate|]. cbn [argmin] in H. injection H as <-. lia. }
  destruct (argmin (map (fun c => nabs (cf2 c)) ch)) as [ph|] eqn:Ph; [|discriminate]. apply AM in Ph.
  destruct (argmin (map (fun c => nabs (cf2 c)) cv)) as [pv|] eqn:Pv; [|discriminate]. apply AM in Pv. cbn [bind].
  apply para_hor_lines in Eh. destruct Eh as [-> Nh]. apply para_ver_lines in Ev. destruct Ev as [-> Nv]. rewrite !map_length.
  assert (Use : (Z.min 3 (Z.min (Z.of_nat (length lh) / 2 - 1) (Z.of_nat (length lv) / 2 - 1)) = 0)%Z).
  { assert (1 <= Z.of_nat (length lh) / 2)%Z by (apply Z.div_le_lower_bound; lia).
    assert (1 <= Z.of_nat (length lv) / 2)%Z by (apply Z.div_le_lower_bound; lia).
    destruct Few as [F|F].
    - assert (Z.of_nat (length lh) / 2 < 2)%Z by (apply Z.div_lt_upper_bound; lia). lia.
    - assert (Z.of_nat (length lv) / 2 < 2)%Z by (apply Z.div_lt_upper_bound; lia). lia. }
  unfold near_window. rewrite !Use. 
  assert (E : forall (l : list PrimFloat.float) p n, (0 <= p)%Z -> (0 <= n)%Z -> mean (map nabs (ndiff (lslice l (Z.max 0 (p - 0)) (Z.min n (p + 0 + 1))))) = nan).
  { intros l p n Hp Hn. assert (L : (length (lslice l (Z.max 0 (p - 0)) (Z.min n (p + 0 + 1))) <= 1)%nat).
    { unfold lslice. rewrite firstn_length. unfold slice_bound. destruct (Z.ltb_spec (Z.min n (p + 0 + 1)) 0); destruct (Z.ltb_spec (Z.max 0 (p - 0)) 0); rewrite skipn_length; lia. }
    destruct (lslice _ _ _) as [|a [|b m]]; cbn [length] in L; try lia; vm_compute; reflexivity. }
  rewrite !E by (assumption || lia). cbn [bind].
  assert (SP : forall (cs : list (PrimFloat.float * PrimFloat.float * PrimFloat.float)) p u, spread_intercepts cs p nan = Ok u -> Forall (fun x => x = nan) u /\ length u = length cs).
  { intros cs p u H. unfold spread_intercepts in H. destruct (pyget cs p) as [c|]; [|discriminate]. cbn [bind] in H. apply Ok_inj in H. subst u.
    split; [|apply mapi_length]. apply Forall_forall. intros x Hx. apply (in_mapi _ _ (nan, nan, nan)) in Hx. destruct Hx as [i [_ ->]].
    cbn [nmul nadd FloatNum]. rewrite fmul_nan_r, fmul_nan_r, fadd_nan_l. reflexivity. }
  destruct (spread_intercepts ch ph nan) as [uh'|] eqn:Sh; [|discriminate]. cbn [bind].
  destruct (spread_intercepts cv pv nan) as [uv'|] eqn:Sv; [|discriminate]. cbn [bind].
  intros H. apply Ok_inj in H. apply pair_equal_spec in H. destruct H as [_ H]. apply pair_equal_spec in H. destruct H as [<- <-].
  apply SP in Sh. apply SP in Sv. destruct Sh as [A B], Sv as [C D]. repeat apply conj; [assumption|assumption|congruence|congruence].
Qed.
Print Assumptions C83_few_lines_nan.
(** Two horizontal and four vertical lines; the fit reads off the constant. *)
Example C83_ex : exists w uh uv,
  calc_undistor_intercept (fun _ ys deg => Ok (match deg with 2%nat => [0; 0; hd 0 ys]%float | _ => [0; hd 0 ys]%float end)) (fun _ x => x)
    [[(1, 1); (1, 2); (1, 3)]; [(2, 1); (2, 2); (2, 3)]]%float
    [[(1, 1); (2, 1); (3, 1)]; [(1, 2); (2, 2); (3, 2)]; [(1, 3); (2, 3); (3, 3)]; [(1, 4); (2, 4); (3, 4)]]%float 0%float 0%float false 0.1%float = Ok (w, (uh, uv)) /\
  length uh = 2%nat /\ length uv = 4%nat.
Proof. do 3 eexists. split; [vm_compute; reflexivity|]. split; reflexivity. Qed.
