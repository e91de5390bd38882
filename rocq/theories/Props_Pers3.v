(** Properties of discorpy/proc/processing.py, vanishing points and
    regeneration (C37, C38, C84-C88). *)
From Coq Require Import Reals ZArith List Lra Lia Permutation Sorted.
From Flocq Require Import Core.
From Verif Require Import Base Num NumFacts Spec Lsq LsqEx ProcSpec PrepSpec Sorting Img PrepImg PrepPts PrepFacts PrepFacts2 Post PostPersp PostLines2 PostExtra
  Proc ProcPers ProcFacts ProcFacts2 ProcFacts3 ProcFacts4 ProcFacts5 PersFacts PersFacts2 PersFacts3 PersFacts4 PersFacts5 PersFacts6 PersFacts7 PersFacts8 Props_Proc Props_Pers ProcSpec PersSpec.
Import ListNotations.
Local Open Scope R_scope.

(** ** C37 the vanishing-point methods *)
(** The first method pairs lines of opposite curvature, never equal ones: it
    always gives a centre. *)
Theorem C37_first_method_total : forall polyfit argsort roots lh lv, polyfit_oracle polyfit -> roots_oracle roots ->
  (2 <= length lh)%nat -> (2 <= length lv)%nat -> (forall l, In l (lh ++ lv) -> l <> []) ->
  exists x y, @find_center_based_vanishing_points R Rexact polyfit argsort roots lh lv = Ok (x, y).
Proof.
  intros polyfit argsort roots lh lv PF RO Lh Lv Hne.
  assert (Hh : forall l, In l lh -> l <> []) by (intros; apply Hne; apply in_or_app; now left).
  assert (Hv : forall l, In l lv -> l <> []) by (intros; apply Hne; apply in_or_app; now right).
  unfold find_center_based_vanishing_points.
  destruct (para_hor_total (fun x => x) polyfit PF lh 0 0 Hh) as [ch [sh Eh]]. destruct (para_ver_total (fun x => x) polyfit PF lv 0 0 Hv) as [cv [sv Ev]].
  assert (G1 : @para_fit_hor R Rexact polyfit lh 0 0 = Ok (ch, sh)) by exact Eh. assert (G2 : @para_fit_ver R Rexact polyfit lv 0 0 = Ok (cv, sv)) by exact Ev.
  apply (@para_hor_lines R Rexact) in G1 as S1. apply (@para_ver_lines R Rexact) in G2 as S2.
  assert (H1 : sh = lh) by (etransitivity; [apply S1|apply shift0]). assert (H2 : sv = lv) by (etransitivity; [apply S2|apply shift0]). subst sh sv.
  cbn [n0 nofZ Rexact Rst]. rewrite G1. cbn [bind]. rewrite G2. cbn [bind fst snd].
  destruct (bailey_total polyfit PF lh lv 2 Lh Lv Hne) as [[bx by_] Eb]. unfold NV in Eb.
  destruct (opposite_points_total roots argsort RO ch) as [hl Ehl]. destruct (opposite_points_total roots argsort RO cv) as [vl Evl]. unfold NV in *.
  rewrite Ehl. cbn [bind]. destruct (2 <? Z.of_nat (length hl))%Z eqn:Lhl; [|exists bx, by_; exact Eb]. rewrite Evl. cbn [bind].
  destruct (2 <? Z.of_nat (length vl))%Z eqn:Lvl; [|exists bx, by_; exact Eb].
  destruct (vanishing_center_total polyfit PF hl vl) as [[x y] E].
  - intros ->. discriminate.
  - intros ->. discriminate.
  - exists x, y. exact E.
Qed.
Print Assumptions C37_first_method_total.
(** The iterative method pairs every other horizontal (vertical) line with
    the flattest one: a second line of that curvature gives ValueError. *)
Theorem C37_same_curvature_error : forall polyfit argsort lstsq roots lh lv ch cv m j iteration method, polyfit_oracle polyfit -> roots_oracle roots ->
  parabolas_hor (N := Rexact) polyfit 0 0 lh ch -> parabolas_ver (N := Rexact) polyfit 0 0 lv cv ->
  first_min (map (fun c : R * R * R => Rabs (fst (fst c))) ch) m -> (j < length ch)%nat -> j <> m -> curv ch j = curv ch m ->
  @find_center_based_vanishing_points_iteration R Rexact polyfit argsort cos atan lstsq roots lh lv iteration method = Err ValueError.
Proof.
  intros polyfit argsort lstsq roots lh lv ch cv m j iteration method PF RO Ph Pv FM Hj Hjm Hc.
  unfold find_center_based_vanishing_points_iteration, find_center_2nd_way.
  pose proof (parabolas_hor_fit polyfit lh 0 0 ch Ph) as Gh. pose proof (parabolas_ver_fit polyfit lv 0 0 cv Pv) as Gv.
  cbn [n0 nofZ Rexact Rst]. rewrite Gh. cbn [bind]. rewrite Gv. cbn [bind fst snd].
  pose proof (least_repeated roots RO ch m j FM Hj Hjm Hc) as E. unfold NV3 in E. rewrite E. reflexivity.
Qed.
Print Assumptions C37_same_curvature_error.

(** ** C85 centre from vanishing points on ideal grids *)
(** Barrel distortion: two lines on each side of the centre are enough. *)
Theorem C85_barrel : forall polyfit argsort roots k xc yc cs ds lh lv, polyfit_oracle polyfit -> roots_oracle roots -> argsort_spec argsort -> k < 0 ->
  Forall2 (ideal_hor k xc yc) cs lh -> Forall2 (ideal_ver k xc yc) ds lv ->
  (2 <= before yc cs)%nat -> (2 <= after yc cs)%nat -> (2 <= before xc ds)%nat -> (2 <= after xc ds)%nat ->
  @find_center_based_vanishing_points R Rexact polyfit argsort roots lh lv = Ok (xc, yc).
Proof.
  intros polyfit argsort roots k xc yc cs ds lh lv PF RO AS K Fh Fv B1 A1 B2 A2.
  apply (centre_barrel polyfit roots argsort PF RO (fun l => proj1 (AS l)) k xc yc cs ds lh lv Fh Fv K B1 A1 B2 A2).
Qed.
Print Assumptions C85_barrel.
(** Pincushion distortion: no vanishing points, the result is that of
    find_cod_bailey. *)
Theorem C85_pincushion : forall polyfit argsort roots k xc yc cs ds lh lv, polyfit_oracle polyfit -> roots_oracle roots -> argsort_spec argsort -> 0 < k ->
  Forall2 (ideal_hor k xc yc) cs lh -> Forall2 (ideal_ver k xc yc) ds lv -> distinct_values 2 cs -> distinct_values 2 ds ->
  (forall c c' d d', adjacent cs c c' -> adjacent ds d d' -> k ^ 2 * xc * yc * (c + c' - 2 * yc) * (d + d' - 2 * xc) <> 1) ->
  @find_center_based_vanishing_points R Rexact polyfit argsort roots lh lv = @find_cod_bailey R Rexact polyfit lh lv 2 /\
  @find_center_based_vanishing_points R Rexact polyfit argsort roots lh lv = Ok (xc, yc).
Proof.
  intros polyfit argsort roots k xc yc cs ds lh lv PF RO AS K Fh Fv D1 D2 Adj.
  pose proof (centre_pincushion polyfit roots argsort PF RO (fun l => proj1 (AS l)) k xc yc cs ds lh lv Fh Fv K) as E. unfold NV3 in E.
  split; [exact E|]. rewrite E. now apply (C27_positive polyfit k xc yc cs ds lh lv 2 PF K).
Qed.
Print Assumptions C85_pincushion.
(** The iterative method finds the centre and stays there, whatever the
    number of iterations and the method. *)
Theorem C85_iteration : forall polyfit argsort lstsq roots k xc yc cs ds lh lv iteration method,
  polyfit_oracle polyfit -> roots_oracle roots -> argsort_spec argsort -> lstsq_oracle lstsq -> k <> 0 ->
  Forall2 (ideal_hor k xc yc) cs lh -> Forall2 (ideal_ver k xc yc) ds lv -> NoDup cs -> NoDup ds -> (3 <= length cs)%nat -> (3 <= length ds)%nat ->
  (1 <= before yc cs)%nat -> (1 <= after yc cs)%nat -> (1 <= before xc ds)%nat -> (1 <= after xc ds)%nat ->
  (0 < k -> forall c c' d d', adjacent cs c c' -> adjacent ds d d' -> k ^ 2 * xc * yc * (c + c' - 2 * yc) * (d + d' - 2 * xc) <> 1) ->
  @find_center_based_vanishing_points_iteration R Rexact polyfit argsort cos atan lstsq roots lh lv iteration method = Ok (xc, yc).
Proof.
  intros polyfit argsort lstsq roots k xc yc cs ds lh lv iteration method PF RO AS LS K Fh Fv N1 N2 L1 L2 B1 A1 B2 A2 Adj.
  unfold find_center_based_vanishing_points_iteration.
  assert (E : @find_center_2nd_way R Rexact polyfit roots lh lv = Ok (xc, yc)).
  { destruct (Rlt_or_le k 0) as [Kn|Kp].
    - exact (second_barrel polyfit roots PF RO k xc yc cs ds lh lv Fh Fv Kn N1 N2 L1 L2).
    - etransitivity; [apply (second_pincushion polyfit roots PF RO k xc yc cs ds lh lv Fh Fv); [lra|exact N1|destruct cs; [cbn in L1; lia|discriminate]]|].
      apply (C27_positive polyfit k xc yc cs ds lh lv 2 PF ltac:(lra) Fh Fv); [apply (sides_distinct yc); assumption|apply (sides_distinct xc); assumption|apply Adj; lra]. }
  rewrite E. cbn [bind]. exact (loop_ideal polyfit argsort lstsq roots PF LS AS RO k xc yc cs ds lh lv method _ K Fh Fv N1 N2 L1 L2 B1 A1 B2 A2).
Qed.
Print Assumptions C85_iteration.

(** ** C86 an ideal grid shows no perspective effect *)
Theorem C86_unchanged : forall polyfit argsort lstsq k xc yc cs ds lh lv method scale,
  polyfit_oracle polyfit -> argsort_spec argsort -> lstsq_oracle lstsq -> k <> 0 ->
  Forall2 (ideal_hor k xc yc) cs lh -> Forall2 (ideal_ver k xc yc) ds lv ->
  (1 <= before yc cs)%nat -> (1 <= after yc cs)%nat -> (1 <= before xc ds)%nat -> (1 <= after xc ds)%nat -> (forall v, scale = ScVal v -> v = 1) ->
  @correct_perspective_effect R Rexact polyfit argsort cos atan lstsq lh lv xc yc method scale = Ok (lh, lv).
Proof.
  intros polyfit argsort lstsq k xc yc cs ds lh lv method scale PF AS LS K Fh Fv B1 A1 B2 A2 Sc.
  exact (effect_ideal polyfit argsort lstsq PF LS AS k xc yc cs ds lh lv method scale K Fh Fv B1 A1 B2 A2 Sc).
Qed.
Print Assumptions C86_unchanged.

(** Undistorted grids have lines of equal curvature. *)
Lemma straight_ideal_hor cs lh xc yc : Forall2 straight_hor cs lh -> Forall2 (ideal_hor 0 xc yc) cs lh.
Proof. intros F. induction F as [|c l cs lh [H D] F IH]; [apply Forall2_nil|]. apply Forall2_cons; [|exact IH]. split; [|exact D]. intros p Hp. rewrite (H p Hp). ring. Qed.
Lemma straight_ideal_ver ds lv xc yc : Forall2 straight_ver ds lv -> Forall2 (ideal_ver 0 xc yc) ds lv.
Proof. intros F. induction F as [|c l cs lh [H D] F IH]; [apply Forall2_nil|]. apply Forall2_cons; [|exact IH]. split; [|exact D]. intros p Hp. rewrite (H p Hp). ring. Qed.
Theorem C37_straight_grid_error : forall polyfit argsort lstsq roots cs ds lh lv iteration method, polyfit_oracle polyfit -> roots_oracle roots ->
  Forall2 straight_hor cs lh -> Forall2 straight_ver ds lv -> (2 <= length lh)%nat ->
  @find_center_based_vanishing_points_iteration R Rexact polyfit argsort cos atan lstsq roots lh lv iteration method = Err ValueError.
Proof.
  intros polyfit argsort lstsq roots cs ds lh lv iteration method PF RO Fh Fv L.
  pose proof (ideal_fit_hor polyfit PF 0 0 0 0 0 cs lh (straight_ideal_hor _ _ _ _ Fh)) as Gh. pose proof (ideal_fit_ver polyfit PF 0 0 0 0 0 ds lv (straight_ideal_ver _ _ _ _ Fv)) as Gv.
  pose proof (Forall2_length _ _ _ Fh) as Lh.
  assert (Z : forall i, (i < length cs)%nat -> curv (map (ideal_coef 0 0 0 0 0) cs) i = 0).
  { intros i Hi. unfold curv. rewrite (nth_indep _ (0, 0, 0) (ideal_coef 0 0 0 0 0 0)) by (now rewrite map_length). rewrite map_nth. cbn. ring. }
  unfold pt in *.
  apply (C37_same_curvature_error polyfit argsort lstsq roots lh lv (map (ideal_coef 0 0 0 0 0) cs) (map (ideal_coef 0 0 0 0 0) ds) 0 1 iteration method PF RO).
  - exact (fit_parabolas_hor polyfit lh 0 0 _ _ Gh).
  - exact (fit_parabolas_ver polyfit lv 0 0 _ _ Gv).
  - assert (Y : forall i, nth i (map (fun c : R * R * R => Rabs (fst (fst c))) (map (ideal_coef 0 0 0 0 0) cs)) 0 = 0).
    { intros i. rewrite map_map. clear. revert i. induction cs as [|c cs IH]; intros [|i]; cbn; try reflexivity; [|apply IH]. rewrite Rmult_0_l. apply Rabs_R0. }
    unfold first_min. rewrite !map_length. split; [lia|]. split; [intros i Hi; rewrite !Y; lra|intros i Hi; lia].
  - rewrite map_length. lia.
  - discriminate.
  - rewrite !Z by lia. reflexivity.
Qed.
Print Assumptions C37_straight_grid_error.

(** An instance of np.roots. *)
Definition roots_R (l : list R) : option (list R) :=
  match l with
  | [a; b; c] =>
      if Req_EM_T a 0 then (if Req_EM_T b 0 then Some [] else Some [- c / b]) else
      if Rlt_dec (b ^ 2 - 4 * a * c) 0 then None else
      Some [(- b + sqrt (b ^ 2 - 4 * a * c)) / (2 * a); (- b - sqrt (b ^ 2 - 4 * a * c)) / (2 * a)]
  | _ => None
  end.
Lemma roots_R_ok : roots_oracle roots_R.
Proof.
  repeat apply conj.
  - intros a b c A D. cbn [roots_R]. destruct (Req_EM_T a 0); [contradiction|]. destruct (Rlt_dec (b ^ 2 - 4 * a * c) 0); [reflexivity|contradiction].
  - intros a b c A D. cbn [roots_R]. destruct (Req_EM_T a 0); [contradiction|]. destruct (Rlt_dec (b ^ 2 - 4 * a * c) 0); [lra|].
    eexists _, _. split; [reflexivity|]. intros x. pose proof (sqrt_sqrt _ D) as S. set (q := sqrt (b ^ 2 - 4 * a * c)) in *.
    replace (a * (x - (- b + q) / (2 * a)) * (x - (- b - q) / (2 * a))) with (a * x ^ 2 + b * x + (b ^ 2 - q * q) / (4 * a)) by (field; assumption).
    rewrite S. field. assumption.
  - intros b c. cbn [roots_R]. destruct (Req_EM_T 0 0); [|contradiction]. destruct (Req_EM_T b 0); eexists; (split; [reflexivity|cbn; lia]).
Qed.
Lemma count_lt w c l : before w (c :: l) = ((if Rlt_dec c w then 1 else 0) + before w l)%nat.
Proof. unfold before. cbn. destruct (Rlt_dec c w); reflexivity. Qed.
Lemma count_gt w c l : after w (c :: l) = ((if Rlt_dec w c then 1 else 0) + after w l)%nat.
Proof. unfold after. cbn. destruct (Rlt_dec w c); reflexivity. Qed.
Ltac count_lit := rewrite ?count_lt, ?count_gt; repeat (destruct (Rlt_dec _ _); [|try lra]); try lra; cbn; lia.
Example C37_ex : roots_oracle roots_R /\ polyfit_oracle pf_R /\
  (exists x y, @find_center_based_vanishing_points R Rexact pf_R AI roots_R (straight_grid_hor [1; 2; 3] [1; 2; 3]) (straight_grid_ver [1; 2; 3] [1; 2; 3]) = Ok (x, y)) /\
  @find_center_based_vanishing_points_iteration R Rexact pf_R AI cos atan ls_R roots_R (straight_grid_hor [1; 2; 3] [1; 2; 3]) (straight_grid_ver [1; 2; 3] [1; 2; 3]) 2 RMean = Err ValueError.
Proof.
  split; [exact roots_R_ok|]. split; [exact pf_R_ok|]. split.
  - apply C37_first_method_total; [exact pf_R_ok|exact roots_R_ok|cbn; lia|cbn; lia|]. intros l Hl. cbn in Hl. intuition (subst; discriminate).
  - apply (C37_straight_grid_error pf_R AI ls_R roots_R [1; 2; 3] [1; 2; 3]); [exact pf_R_ok|exact roots_R_ok|apply straight_grid_hor_ok; distinct_lit|apply straight_grid_ver_ok; distinct_lit|cbn; lia].
Qed.
(** Barrel distortion, centre x = 2, y = 3. *)
Example C85_ex : let lh := grid_hor (-1) 2 3 [0; 1; 4; 5] [0; 1; 5] in let lv := grid_ver (-1) 2 3 [0; 1; 3; 4] [0; 1; 5] in
  (2 <= before 3%R [0; 1; 4; 5]%R)%nat /\ (2 <= after 3%R [0; 1; 4; 5]%R)%nat /\
  @find_center_based_vanishing_points R Rexact pf_R AI roots_R lh lv = Ok (2, 3) /\
  (forall n m, @find_center_based_vanishing_points_iteration R Rexact pf_R AI cos atan ls_R roots_R lh lv n m = Ok (2, 3)) /\
  (forall m, @correct_perspective_effect R Rexact pf_R AI cos atan ls_R lh lv 2 3 m ScMean = Ok (lh, lv)).
Proof.
  intros lh lv.
  assert (B1 : (2 <= before 3%R [0; 1; 4; 5]%R)%nat) by count_lit.
  assert (A1 : (2 <= after 3%R [0; 1; 4; 5]%R)%nat) by count_lit.
  assert (B2 : (2 <= before 2%R [0; 1; 3; 4]%R)%nat) by count_lit.
  assert (A2 : (2 <= after 2%R [0; 1; 3; 4]%R)%nat) by count_lit.
  assert (Fh : Forall2 (ideal_hor (-1) 2 3) [0; 1; 4; 5] lh) by (apply grid_hor_ideal; distinct_lit).
  assert (Fv : Forall2 (ideal_ver (-1) 2 3) [0; 1; 3; 4] lv) by (apply grid_ver_ideal; distinct_lit).
  assert (N1 : NoDup [0; 1; 4; 5]) by (repeat constructor; cbn [In]; intuition lra).
  assert (N2 : NoDup [0; 1; 3; 4]) by (repeat constructor; cbn [In]; intuition lra).
  split; [exact B1|]. split; [exact A1|]. split; [|split].
  - apply (C85_barrel pf_R AI roots_R (-1) 2 3 _ _ lh lv pf_R_ok roots_R_ok AI_ok ltac:(lra) Fh Fv B1 A1 B2 A2).
  - intros n m. apply (C85_iteration pf_R AI ls_R roots_R (-1) 2 3 _ _ lh lv n m pf_R_ok roots_R_ok AI_ok ls_R_ok ltac:(lra) Fh Fv N1 N2); try (cbn [length]; lia); try lia. intros K. lra.
  - intros m. apply (C86_unchanged pf_R AI ls_R (-1) 2 3 _ _ lh lv m ScMean pf_R_ok AI_ok ls_R_ok ltac:(lra) Fh Fv); try lia. discriminate.
Qed.

(** ** C38 regenerated parabola grid *)
Theorem C38_transposed : forall T (N : Num T) polyfit fsolve lh lv perspective find_center gh gv,
  @regenerate_grid_points_parabola T N polyfit fsolve lh lv perspective find_center = Ok (gh, gv) -> transposed (length lh) (length lv) gh gv.
Proof. exact @regen_shape. Qed.
Print Assumptions C38_transposed.
(** Without perspective correction: the points are on the parabolas fitted to
    the lines, about (0, 0) or about the centre of distortion. *)
Theorem C38_on_parabolas : forall st polyfit fsolve lh lv find_center gh gv,
  @regenerate_grid_points_parabola R (Rst st) polyfit fsolve lh lv false find_center = Ok (gh, gv) ->
  exists x0 y0 ch cv, (find_center = false -> x0 = 0 /\ y0 = 0) /\ (find_center = true -> @find_cod_bailey R (Rst st) polyfit lh lv 2 = Ok (x0, y0)) /\
  parabolas_hor (N := Rst st) polyfit x0 y0 lh ch /\ parabolas_ver (N := Rst st) polyfit x0 y0 lv cv /\
  forall i j, (i < length lh)%nat -> (j < length lv)%nat -> exists p, at_ gh i j = (st (py p), st (pxc p)) /\
    forall e, solved_within e fsolve (nth i ch (0, 0, 0)) (nth j cv (0, 0, 0)) ->
    Rabs (parabola (nth i ch (0, 0, 0)) (pxc p - x0) - (py p - y0)) <= e /\ Rabs (parabola (nth j cv (0, 0, 0)) (py p - y0) - (pxc p - x0)) <= e.
Proof.
  intros st polyfit fsolve lh lv fc gh gv. unfold regenerate_grid_points_parabola.
  match goal with |- bind ?m _ = _ -> _ => destruct m as [[[ch cv] [x0 y0]]|] eqn:E; [|discriminate] end. cbn [bind].
  match type of E with bind ?m _ = _ => destruct m as [cen|] eqn:E0; [|discriminate E] end. cbn [bind] in E.
  destruct (@para_fit_hor R (Rst st) polyfit lh (fst cen) (snd cen)) as [[a sh]|] eqn:Eh; [|discriminate]. destruct (@para_fit_ver R (Rst st) polyfit lv (fst cen) (snd cen)) as [[v sv]|] eqn:Ev; [|discriminate].
  cbn [bind fst] in E. apply Ok_inj in E. apply pair_equal_spec in E. destruct E as [E Ec]. apply pair_equal_spec in E. destruct E as [-> ->]. subst cen. cbn [fst snd] in *.
  pose proof (fit_parabolas_hor polyfit lh x0 y0 _ _ Eh) as Fh. pose proof (fit_parabolas_ver polyfit lv x0 y0 _ _ Ev) as Fv.
  intros H. apply Ok_inj in H. exists x0, y0, ch, cv. split; [|split; [|split; [exact Fh|split; [exact Fv|]]]].
  - intros ->. apply Ok_inj in E0. apply pair_equal_spec in E0. destruct E0 as [<- <-]. split; reflexivity.
  - intros ->. exact E0.
  - intros i j Hi Hj. rewrite (Forall2_length _ _ _ Fh) in Hi. rewrite (Forall2_length _ _ _ Fv) in Hj.
    destruct (cross_grid_near st fsolve ch cv x0 y0 gh gv i j H Hi Hj) as [p [H3 H4]]. exists p. split; [exact H3|]. exact H4.
Qed.
Print Assumptions C38_on_parabolas.
(** Lines with points always give a grid; finding the centre or correcting
    perspective needs two lines in each direction. *)
Theorem C38_total : forall polyfit fsolve lh lv perspective find_center, polyfit_oracle polyfit -> (forall l, In l (lh ++ lv) -> l <> []) ->
  (perspective = true \/ find_center = true -> (2 <= length lh)%nat /\ (2 <= length lv)%nat) ->
  exists gh gv, @regenerate_grid_points_parabola R Rexact polyfit fsolve lh lv perspective find_center = Ok (gh, gv).
Proof.
  intros polyfit fsolve lh lv pers fc PF Hne H2.
  assert (Hh : forall l, In l lh -> l <> []) by (intros; apply Hne; apply in_or_app; now left).
  assert (Hv : forall l, In l lv -> l <> []) by (intros; apply Hne; apply in_or_app; now right).
  unfold regenerate_grid_points_parabola.
  match goal with |- exists _ _, bind ?m _ = _ => assert (M : exists r, m = Ok r) end.
  { destruct pers.
    - destruct (H2 (or_introl eq_refl)) as [L1 L2]. exact (nonpers_total polyfit PF lh lv L1 L2 Hne).
    - assert (C : exists c, (if fc then @find_cod_bailey R Rexact polyfit lh lv 2 else Ok (@n0 R Rexact, @n0 R Rexact)) = Ok c).
      { destruct fc; [|eauto]. destruct (H2 (or_intror eq_refl)) as [L1 L2]. exact (bailey_total polyfit PF lh lv 2 L1 L2 Hne). }
      destruct C as [[x y] ->]. cbn [bind fst snd].
      destruct (para_hor_total (fun x => x) polyfit PF lh x y Hh) as [ch [sh Eh]]. destruct (para_ver_total (fun x => x) polyfit PF lv x y Hv) as [cv [sv Ev]].
      assert (G1 : @para_fit_hor R Rexact polyfit lh x y = Ok (ch, sh)) by exact Eh. assert (G2 : @para_fit_ver R Rexact polyfit lv x y = Ok (cv, sv)) by exact Ev.
      rewrite G1. cbn [bind]. rewrite G2. cbn [bind fst]. eauto. }
  destruct M as [[[ch cv] [x y]] ->]. cbn [bind]. match goal with |- exists _ _, Ok ?t = _ => destruct t as [g h]; now exists g, h end.
Qed.
Print Assumptions C38_total.

(** A solver that is exact for straight lines, and a straight grid. *)
Definition fs_R (F : R * R -> R * R) (s : R * R) : R * R := (snd (F (0, 0)), fst (F (0, 0))).
Lemma fs_R_straight a b : solved_within 0 fs_R (0, 0, a) (0, 0, b).
Proof.
  intros F s H. unfold fs_R. rewrite (H 0 0). cbn [fst snd]. rewrite H. unfold parabola. cbn [fst snd].
  match goal with |- Rabs ?x <= 0 /\ Rabs ?y <= 0 => replace x with 0 by ring; replace y with 0 by ring end. rewrite Rabs_R0. lra.
Qed.
Example C38_ex : exists gh gv,
  @regenerate_grid_points_parabola R Rexact pf_R fs_R (straight_grid_hor [1; 2] [1; 2; 3]) (straight_grid_ver [3; 5] [1; 2; 3]) false false = Ok (gh, gv) /\
  gh = [[(1, 3); (1, 5)]; [(2, 3); (2, 5)]].
Proof.
  pose proof (ideal_fit_hor pf_R pf_R_ok 0 0 0 0 0 [1; 2] _ (straight_ideal_hor _ _ _ _ (straight_grid_hor_ok [1; 2] [1; 2; 3] ltac:(distinct_lit)))) as Gh.
  pose proof (ideal_fit_ver pf_R pf_R_ok 0 0 0 0 0 [3; 5] _ (straight_ideal_ver _ _ _ _ (straight_grid_ver_ok [3; 5] [1; 2; 3] ltac:(distinct_lit)))) as Gv.
  unfold regenerate_grid_points_parabola. unfold pt, NEx in *. cbn [bind fst snd n0 nofZ Rexact Rst]. rewrite Gh. cbn [bind]. rewrite Gv. cbn [bind].
  eexists _, _. split; [reflexivity|]. cbn [cross_grid fst map ideal_coef find_cross_point_between_parabolas fs_R cf0 cf1 cf2]. cbn. repeat f_equal; ring.
Qed.

(** ** C87 regenerated grid with perspective correction *)
(** The points are on regular parabolas: common slope at the centre of
    distortion, the same line distance in both directions. *)
Theorem C87_on_regular_parabolas : forall polyfit fsolve lh lv find_center gh gv,
  @regenerate_grid_points_parabola R Rexact polyfit fsolve lh lv true find_center = Ok (gh, gv) ->
  exists x0 y0 ch cv b dh dv, @find_cod_bailey R Rexact polyfit lh lv 2 = Ok (x0, y0) /\
  parabolas_hor (N := Rexact) polyfit x0 y0 lh ch /\ parabolas_ver (N := Rexact) polyfit x0 y0 lv cv /\ regular_slope polyfit ch cv b /\
  (let n := Nat.min 3 (Nat.min (Nat.div2 (length lh) - 1) (Nat.div2 (length lv) - 1)) in central_distance n ch dh /\ central_distance n cv dv) /\
  (0 < dh -> 0 < dv -> forall i j, (i < length lh)%nat -> (j < length lv)%nat -> forall e,
    solved_within e fsolve (regular b (Rmax dh dv / dh) (nth i ch (0, 0, 0))) (regular (- b) (Rmax dh dv / dv) (nth j cv (0, 0, 0))) ->
    Rabs (parabola (regular b (Rmax dh dv / dh) (nth i ch (0, 0, 0))) (pxc (at_ gh i j) - x0) - (py (at_ gh i j) - y0)) <= e /\
    Rabs (parabola (regular (- b) (Rmax dh dv / dv) (nth j cv (0, 0, 0))) (py (at_ gh i j) - y0) - (pxc (at_ gh i j) - x0)) <= e).
Proof.
  intros polyfit fsolve lh lv fc gh gv. unfold regenerate_grid_points_parabola.
  destruct (@generate_non_perspective_parabola_coef R Rexact polyfit lh lv) as [[[ch' cv'] [x0 y0]]|] eqn:E; [|discriminate]. cbn [bind]. intros H. apply Ok_inj in H.
  destruct (nonpers_spec polyfit lh lv ch' cv' x0 y0 E) as [Eb [ch [cv [b [dh [dv [Ph [Pv [RS [D RG]]]]]]]]]].
  exists x0, y0, ch, cv, b, dh, dv. split; [exact Eb|]. split; [exact Ph|]. split; [exact Pv|]. split; [exact RS|]. split; [exact D|].
  intros Dh Dv i j Hi Hj e S. destruct (RG Dh Dv) as [E1 E2]. subst ch' cv'.
  rewrite (Forall2_length _ _ _ Ph) in Hi. rewrite (Forall2_length _ _ _ Pv) in Hj.
  destruct (cross_grid_near (fun x => x) fsolve _ _ x0 y0 gh gv i j H) as [p [H3 H4]]; [now rewrite map_length|now rewrite map_length|].
  rewrite H3. specialize (H4 e). rewrite (nth_indep _ (0, 0, 0) (regular b (Rmax dh dv / dh) (0, 0, 0))) in H4 by (now rewrite map_length). rewrite map_nth in H4.
  rewrite (nth_indep (map (regular (- b) (Rmax dh dv / dv)) cv) (0, 0, 0) (regular (- b) (Rmax dh dv / dv) (0, 0, 0))) in H4 by (now rewrite map_length). rewrite map_nth in H4.
  exact (H4 S).
Qed.
Print Assumptions C87_on_regular_parabolas.
(** Ideal grids with one line distance, the centre being found: nothing to
    correct. *)
Theorem C87_ideal_unchanged : forall polyfit fsolve k xc yc cs ds lh lv a a' e find_center, polyfit_oracle polyfit ->
  Forall2 (ideal_hor k xc yc) cs lh -> Forall2 (ideal_ver k xc yc) ds lv ->
  equidistant a e cs -> equidistant a' e ds -> e <> 0 -> (4 <= length cs)%nat -> (4 <= length ds)%nat -> @find_cod_bailey R Rexact polyfit lh lv 2 = Ok (xc, yc) ->
  @regenerate_grid_points_parabola R Rexact polyfit fsolve lh lv true find_center = @regenerate_grid_points_parabola R Rexact polyfit fsolve lh lv false true.
Proof.
  intros polyfit fsolve k xc yc cs ds lh lv a a' e fc PF Fh Fv Q1 Q2 He L1 L2 Eb. unfold regenerate_grid_points_parabola.
  pose proof (nonpers_ideal polyfit PF k xc yc cs ds lh lv a a' e Fh Fv Q1 Q2 He L1 L2 Eb) as E. unfold NP9 in E. rewrite E, Eb. cbn [bind fst snd].
  pose proof (ideal_fit_hor polyfit PF k xc yc xc yc cs lh Fh) as Gh. pose proof (ideal_fit_ver polyfit PF k xc yc xc yc ds lv Fv) as Gv.
  rewrite ideal_at0 in Gh, Gv. unfold pt, NEx in *. rewrite Gh. cbn [bind]. rewrite Gv. reflexivity.
Qed.
Print Assumptions C87_ideal_unchanged.
(** An ideal grid of four by four lines; the centre is found. *)
Example C87_ex : let lh := grid_hor 1 1 2 [3; 4; 5; 6] [0; 1; 5] in let lv := grid_ver 1 1 2 [2; 3; 4; 5] [0; 1; 5] in
  polyfit_oracle pf_R /\ equidistant 3 1 [3; 4; 5; 6] /\ @find_cod_bailey R Rexact pf_R lh lv 2 = Ok (1, 2) /\
  (forall fsolve, exists gh gv, @regenerate_grid_points_parabola R Rexact pf_R fsolve lh lv true false = Ok (gh, gv)).
Proof.
  intros lh lv. split; [exact pf_R_ok|]. split.
  { intros i Hi. cbn [length] in Hi. do 4 (destruct i as [|i]; [cbn; ring|]). lia. }
  split.
  - apply (C27_positive pf_R 1 1 2 [3; 4; 5; 6] [2; 3; 4; 5]); [exact pf_R_ok|lra|apply grid_hor_ideal; distinct_lit|apply grid_ver_ideal; distinct_lit|distinct_lit|distinct_lit|].
    intros c c' d d' H1 H2. assert (G : forall (a b : R) l x y, adjacent (a :: b :: l) x y -> (x = a /\ y = b) \/ adjacent (b :: l) x y).
    { intros a b l x y [l1 [l2 E]]. destruct l1 as [|z l1]; cbn in E; [left; injection E; auto|right; injection E as _ E; now exists l1, l2]. }
    assert (G1 : forall (a : R) x y, ~ adjacent [a] x y) by (intros a x y [[|z [|z' l1]] [l2 E]]; cbn in E; discriminate E).
    assert (P : forall x y, adjacent [3; 4; 5; 6] x y -> 7 <= x + y) by (intros x y H; repeat (apply G in H; destruct H as [[-> ->]|H]; [lra|]); now apply G1 in H).
    assert (Q : forall x y, adjacent [2; 3; 4; 5] x y -> 5 <= x + y) by (intros x y H; repeat (apply G in H; destruct H as [[-> ->]|H]; [lra|]); now apply G1 in H).
    apply P in H1. apply Q in H2. nra.
  - intros fsolve. apply C38_total; [exact pf_R_ok| |intros _; split; cbn; lia]. intros l Hl. cbn in Hl. intuition (subst; discriminate).
Qed.

(** ** C84 a grid without perspective distortion *)
(** Two families of equidistant lines at right angles: the undistorted lines
    are the regenerated ones, whatever the distance option. *)
Theorem C84_lines_unchanged : forall polyfit minimize a bs cs lh lv b0 d c0 f (eq opt : bool) scale, polyfit_oracle polyfit -> minimize_oracle minimize ->
  parallel_hor a bs lh -> parallel_ver a cs lv -> equidistant b0 d bs -> equidistant c0 f cs -> 0 < d -> 0 < f -> (eq = true -> d = f) ->
  (2 <= length lh)%nat -> (2 <= length lv)%nat -> (opt = false -> forall v, scale = ScVal v -> v = 1) ->
  exists gh gv, @generate_undistorted_perspective_lines R Rexact polyfit minimize lh lv eq scale opt = Ok (gh, gv) /\
  @regenerate_grid_points_linear R Rexact polyfit lh lv = Ok (gh, gv).
Proof.
  intros polyfit minimize a bs cs lh lv b0 d c0 f eq opt scale PF MO Fh Fv Q1 Q2 D F He Lh Lv Sc.
  destruct (square_kept polyfit minimize PF MO a bs cs lh lv b0 d c0 f eq opt scale Fh Fv Q1 Q2 D F He Lh Lv Sc) as [gh [gv [E1 [E2 _]]]].
  exists gh, gv. split; assumption.
Qed.
Print Assumptions C84_lines_unchanged.
(** The target points are the source points, at the crossings of the lines,
    and the fitted transformation, in either direction, is the identity. *)
Theorem C84_identity : forall polyfit minimize lstsq a bs cs lh lv b0 d c0 f (eq opt : bool) scale,
  polyfit_oracle polyfit -> minimize_oracle minimize -> lstsq_oracle lstsq ->
  parallel_hor a bs lh -> parallel_ver a cs lv -> equidistant b0 d bs -> equidistant c0 f cs -> 0 < d -> 0 < f -> (eq = true -> d = f) ->
  (2 <= length lh)%nat -> (2 <= length lv)%nat -> (opt = false -> forall v, scale = ScVal v -> v = 1) ->
  exists s, @generate_source_target_perspective_points R Rexact polyfit minimize lh lv eq scale opt = Ok (s, s) /\
  (forall b c, In b bs -> In c cs -> exists p, In p s /\ on_hor (a, b) p /\ on_ver (- a, c) p) /\
  forall forward, @calc_perspective_coefficients R Rexact lstsq s s forward = Ok [1; 0; 0; 0; 1; 0; 0; 0].
Proof.
  intros polyfit minimize lstsq a bs cs lh lv b0 d c0 f eq opt scale PF MO LS Fh Fv Q1 Q2 D F He Lh Lv Sc.
  destruct (square_kept polyfit minimize PF MO a bs cs lh lv b0 d c0 f eq opt scale Fh Fv Q1 Q2 D F He Lh Lv Sc) as [gh [gv [_ [E2 [T G]]]]].
  pose proof (Forall2_length _ _ _ Fh) as L1. pose proof (Forall2_length _ _ _ Fv) as L2.
  destruct (regenerated_parallel a bs cs b0 d c0 f gh gv Q1 Q2 D F ltac:(lia) ltac:(lia)) as [Ph Pv].
  { rewrite L1, L2. exact T. }
  { intros i j Hi Hj. apply G; [rewrite <- L1|rewrite <- L2]; assumption. }
  assert (L3 : length bs = length gh) by exact (Forall2_length _ _ _ Ph). assert (L4 : length cs = length gv) by exact (Forall2_length _ _ _ Pv).
  assert (Lg : (2 <= length gh)%nat) by (rewrite <- L3, L1; exact Lh). assert (Lw : (2 <= length gv)%nat) by (rewrite <- L4, L2; exact Lv).
  destruct (square_kept polyfit minimize PF MO a bs cs gh gv b0 d c0 f eq opt scale Ph Pv Q1 Q2 D F He Lg Lw Sc) as [gh' [gv' [E3 [_ [T' G']]]]].
  assert (P2 : 0 < 1 + a ^ 2) by (pose proof (pow2_ge_0 a); lra).
  destruct (grid_ext (length lh) (length lv) gh' gv' gh gv) as [-> ->].
  { rewrite <- L1, <- L2, L3, L4. exact T'. }
  { exact T. }
  { intros i j Hi Hj. destruct (G i j Hi Hj) as [H1 H2]. destruct (G' i j (eq_ind _ (fun n => (i < n)%nat) Hi _ (eq_trans (eq_sym L1) L3)) (eq_ind _ (fun n => (j < n)%nat) Hj _ (eq_trans (eq_sym L2) L4))) as [H3 H4].
    refine (cross_unique (a, _) (- a, _) _ _ _ H3 H4 H1 H2). cbn. nra. }
  exists (concat gh). split; [|].
  { unfold generate_source_target_perspective_points. unfold pt, NQ in *. rewrite E2. cbn [bind fst snd]. rewrite E3. reflexivity. }
  assert (IN : forall i j, (i < length lh)%nat -> (j < length lv)%nat -> In (at_ gh i j) (concat gh)).
  { intros i j Hi Hj. destruct T as [T1 [T2 _]]. apply in_concat. exists (nth i gh []). assert (I : In (nth i gh []) gh) by (apply nth_In; unfold pt in *; lia). split; [exact I|].
    unfold at_. apply nth_In. exact (eq_ind_r (fun n => (j < n)%nat) Hj (T2 _ I)). }
  split.
  { intros b c Hb Hc. apply (In_nth _ _ 0) in Hb, Hc. destruct Hb as [i [Hi <-]], Hc as [j [Hj <-]]. rewrite Q1, Q2 by assumption.
    exists (at_ gh i j). split; [apply IN|apply G]; lia. }
  assert (CF : @calc_perspective_coefficients R Rexact lstsq (concat gh) (concat gh) true = Ok [1; 0; 0; 0; 1; 0; 0; 0]).
  { assert (IC : forall l : list pt, forall p, In p l -> In (p, p) (combine l l)) by (intros l p; induction l as [|x l IH]; cbn; [intros []|intros [->|H]; [now left|right; auto]]).
    assert (CI : forall l : list pt, forall p q, In (p, q) (combine l l) -> p = q) by (intros l p q; induction l as [|x l IH]; cbn; [intros []|intros [H|H]; [apply pair_equal_spec in H; destruct H; congruence|auto]]).
    set (p1 := at_ gh 0 0). set (p2 := at_ gh 0 1). set (p3 := at_ gh 1 0). set (p4 := at_ gh 1 1).
    assert (K : forall i j, (i < 2)%nat -> (j < 2)%nat -> pxc (at_ gh i j) = (c0 + INR j * f - a * (b0 + INR i * d)) / (1 + a ^ 2) /\ py (at_ gh i j) = (b0 + INR i * d + a * (c0 + INR j * f)) / (1 + a ^ 2)).
    { intros i j Hi Hj. destruct (G i j ltac:(lia) ltac:(lia)) as [H1 H2]. unfold on_hor, on_ver in *. cbn [fst snd] in *.
      assert (X : pxc (at_ gh i j) * (1 + a ^ 2) = c0 + INR j * f - a * (b0 + INR i * d)) by (rewrite H1 in H2; lra).
      assert (Y : py (at_ gh i j) * (1 + a ^ 2) = b0 + INR i * d + a * (c0 + INR j * f)) by (rewrite H2 in H1; lra).
      rewrite <- X, <- Y. split; field; lra. }
    destruct (K 0%nat 0%nat ltac:(lia) ltac:(lia)) as [X1 Y1]. destruct (K 0%nat 1%nat ltac:(lia) ltac:(lia)) as [X2 Y2].
    destruct (K 1%nat 0%nat ltac:(lia) ltac:(lia)) as [X3 Y3]. destruct (K 1%nat 1%nat ltac:(lia) ltac:(lia)) as [X4 Y4]. cbn [INR] in *.
    assert (AR : forall p q r s, area p q r = s * (d * f / (1 + a ^ 2)) -> s = 1 \/ s = -1 -> triangle p q r).
    { intros p q r s E S. unfold triangle. rewrite E. assert (0 < d * f / (1 + a ^ 2)) by (apply Rdiv_lt_0_compat; [nra|lra]). destruct S as [-> | ->]; lra. }
    apply (C35_unique lstsq _ _ _ p1 p2 p3 p4 p1 p2 p3 p4); [exact LS|reflexivity| |apply IC, IN; lia|apply IC, IN; lia|apply IC, IN; lia|apply IC, IN; lia| |].
    - intros p q Hp. apply CI in Hp. subst q. destruct p as [y x]. unfold sends, proj, den, proj_map, py, pxc. cbn. split; [reflexivity|]. split; [lra|]. apply pair_equal_spec. split; field.
    - unfold general_position. repeat apply conj.
      + apply (AR _ _ _ 1); [|now left]. unfold area, p1, p2, p3. rewrite X1, Y1, X2, Y2, X3, Y3. field. lra.
      + apply (AR _ _ _ (-1)); [|now right]. unfold area, p4, p2, p3. rewrite X4, Y4, X2, Y2, X3, Y3. field. lra.
      + apply (AR _ _ _ 1); [|now left]. unfold area, p4, p1, p3. rewrite X4, Y4, X1, Y1, X3, Y3. field. lra.
      + apply (AR _ _ _ 1); [|now left]. unfold area, p4, p1, p2. rewrite X4, Y4, X1, Y1, X2, Y2. field. lra.
    - apply (AR _ _ _ 1); [|now left]. unfold area, p1, p2, p3. rewrite X1, Y1, X2, Y2, X3, Y3. field. lra. }
  intros [|]; exact CF.
Qed.
Print Assumptions C84_identity.
(** Lines of a rotated grid with distances 5 and 10 between intercepts. *)
Example C84_ex :
  parallel_hor (1 / 2) [0; 5; 10] [[(0, 0); (4, 8)]; [(5 / 2, -5); (9 / 2, -1)]; [(14, 8); (13, 6)]] /\
  parallel_ver (1 / 2) [0; 10] [[(0, 0); (4, -2)]; [(2, 9); (8, 6)]] /\
  equidistant 0 5 [0; 5; 10] /\ equidistant 0 10 [0; 10] /\ polyfit_oracle pf_R /\ minimize_oracle min_R /\ lstsq_oracle ls_R.
Proof.
  split; [|split; [|split; [|split; [|split; [exact pf_R_ok|split; [exact min_R_ok|exact ls_R_ok]]]]]].
  - unfold parallel_hor. repeat (apply Forall2_cons; [split; [intros p [<-|[<-|[]]]; unfold on_hor, py, pxc; cbn; lra|cbn [map pxc py fst snd]; distinct_lit]|]). apply Forall2_nil.
  - unfold parallel_ver. repeat (apply Forall2_cons; [split; [intros p [<-|[<-|[]]]; unfold on_ver, py, pxc; cbn; lra|cbn [map pxc py fst snd]; distinct_lit]|]). apply Forall2_nil.
  - intros i Hi. cbn [length] in Hi. do 3 (destruct i as [|i]; [cbn; ring|]). lia.
  - intros i Hi. cbn [length] in Hi. do 2 (destruct i as [|i]; [cbn; ring|]). lia.
Qed.

(** ** C88 optimised distances *)
(** The optimised distance does not depend on the option giving the start
    value: without a common distance any two options give the same lines, and
    with one all but max and min do. *)
Theorem C88_option_irrelevant : forall polyfit minimize lh lv (eq : bool) scale scale', minimize_oracle minimize -> (2 <= length lh)%nat -> (2 <= length lv)%nat ->
  (eq = true -> scale <> ScMax /\ scale <> ScMin /\ scale' <> ScMax /\ scale' <> ScMin) -> polyfit_oracle polyfit -> (forall l, In l (lh ++ lv) -> l <> []) ->
  exists gh gv, @generate_undistorted_perspective_lines R Rexact polyfit minimize lh lv eq scale true = Ok (gh, gv) /\
  @generate_undistorted_perspective_lines R Rexact polyfit minimize lh lv eq scale' true = Ok (gh, gv).
Proof.
  intros polyfit minimize lh lv eq scale scale' MO Lh Lv Hs PF Hne.
  destruct (C33_total polyfit minimize lh lv eq scale true PF Lh Lv Hne) as [[gh gv] E]. destruct (C33_total polyfit minimize lh lv eq scale' true PF Lh Lv Hne) as [[gh' gv'] E'].
  exists gh, gv. split; [exact E|].
  destruct (C33_lattice polyfit minimize lh lv eq scale true gh gv Lh Lv E) as [T _]. destruct (C33_lattice polyfit minimize lh lv eq scale' true gh' gv' Lh Lv E') as [T' _].
  destruct (C33_lines polyfit minimize lh lv eq scale true gh gv Lh Lv E) as [a [ch [cv [sh [sv [dh [dv [Gh [Gv [CS [S1 [S2 [Dh [Dv G]]]]]]]]]]]]]].
  destruct (C33_lines polyfit minimize lh lv eq scale' true gh' gv' Lh Lv E') as [a' [ch' [cv' [sh' [sv' [dh' [dv' [Gh' [Gv' [CS' [S1' [S2' [Dh' [Dv' G']]]]]]]]]]]]]].
  assert (ch' = ch) as -> by (refine (Forall2_fun (line_hor (fun x => x) polyfit) lh (fun a b b' => line_hor_fun polyfit (fun x => x) a b b') _ _ Gh' Gh)).
  assert (cv' = cv) as -> by (refine (Forall2_fun (line_ver (fun x => x) polyfit) lv (fun a b b' => line_ver_fun polyfit (fun x => x) a b b') _ _ Gv' Gv)).
  pose proof (Forall2_length _ _ _ Gh) as L1. pose proof (Forall2_length _ _ _ Gv) as L2.
  assert (sh' = sh) as -> by (apply (optimised_unique minimize scale' scale _ _ (map snd ch) _ _ MO ltac:(rewrite map_length, <- L1; exact Lh) S1' S1)).
  assert (sv' = sv) as -> by (apply (optimised_unique minimize scale' scale _ _ (map snd cv) _ _ MO ltac:(rewrite map_length, <- L2; exact Lv) S2' S2)).
  assert (a' = a) as ->.
  { destruct CS as [ah [bh [av [bv [F1 [F2 [F3 F4]]]]]]], CS' as [ah' [bh' [av' [bv' [F1' [F2' [F3' F4']]]]]]].
    rewrite F1 in F1'. rewrite F2 in F2'. apply Ok_inj in F1', F2'. injection F1' as <- <-. injection F2' as <- <-.
    destruct (Rlt_le_dec (Rabs (ah - av)) (1 / 10000)) as [S|S].
    - now rewrite F4, F4'.
    - destruct (F3 S) as [x [X1 X2]], (F3' S) as [x' [X1' X2']].
      assert (Nz : ah - av <> 0) by (intros Z; rewrite Z, Rabs_R0 in S; lra).
      assert (x = x'); [|congruence]. apply (Rmult_eq_reg_l (ah - av)); [lra|exact Nz]. }
  assert (W : dh' = dh /\ dv' = dv).
  { rewrite Dh, Dv, Dh', Dv'. destruct eq; [|now split]. destruct (Hs eq_refl) as [N1 [N2 [N3 N4]]]. unfold common_step. destruct scale, scale'; try congruence; now split. }
  destruct W as [-> ->].
  destruct (grid_ext _ _ _ _ _ _ T T') as [-> ->]; [|exact E'].
  intros i j Hi Hj. destruct (G i j Hi Hj) as [P1 P2]. destruct (G' i j Hi Hj) as [P3 P4].
  refine (cross_unique (a, _) (- a, _) _ _ _ P1 P2 P3 P4). cbn. pose proof (pow2_ge_0 a). nra.
Qed.
Print Assumptions C88_option_irrelevant.
Example C88_ex : let lh := [[(0, 0); (0, 1)]; [(1, 0); (1, 1)]; [(4, 0); (4, 1)]] in let lv := [[(0, 0); (1, 0)]; [(0, 2); (1, 3 / 2)]] in
  minimize_oracle min_R /\ polyfit_oracle pf_R /\ (2 <= length lh)%nat /\ (2 <= length lv)%nat /\ forall l, In l (lh ++ lv) -> l <> [].
Proof.
  intros lh lv. split; [exact min_R_ok|]. split; [exact pf_R_ok|]. split; [cbn; lia|]. split; [cbn; lia|]. intros l Hl. cbn in Hl. intuition (subst; discriminate).
Qed.
