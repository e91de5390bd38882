(** Facts on the vanishing-point methods, exact arithmetic. *)
From Coq Require Import Reals ZArith List Lra Lia Permutation Sorted.
From Flocq Require Import Core.
From Verif Require Import Base Num NumFacts Spec Lsq ProcSpec PrepSpec Sorting Img PrepImg PrepPts PrepFacts PrepFacts2 Post PostPersp PostExtra
  Proc ProcPers ProcFacts ProcFacts2 PersFacts PersFacts2 PersFacts3 PersFacts4 PersSpec.
Import ListNotations.
Local Open Scope R_scope.

Lemma gather_In {A} (l : list A) idx x : In x (gather l idx) -> In x l.
Proof.
  unfold gather. intros H. apply in_flat_map in H. destruct H as [k [_ H]]. destruct (nth_error l k) eqn:E; [|destruct H].
  destruct H as [<-|[]]. now apply nth_error_In in E.
Qed.
Lemma mapM_err {A B} (f : A -> res B) l e : (exists a, In a l /\ f a = Err e) -> (forall a e', In a l -> f a = Err e' -> e' = e) -> mapM f l = Err e.
Proof.
  intros [a [Ha E]] H. induction l as [|b l IH]; [destruct Ha|]. cbn [mapM].
  destruct (f b) as [x|e'] eqn:Eb; cbn [bind].
  - destruct Ha as [->|Ha]; [congruence|]. rewrite IH; [reflexivity|assumption|]. intros a' e' Ha'. apply H. now right.
  - f_equal. apply (H b); [now left|assumption].
Qed.

Section Vanish.
  Local Instance NV : Num R := Rexact.
  Variable polyfit : list R -> list R -> nat -> res (list R).
  Variable roots : list R -> option (list R).
  Variable argsort : list R -> list nat.
  Hypothesis PF : polyfit_oracle polyfit.
  Hypothesis RO : roots_oracle roots.
  Lemma para_at_R c x : para_at c x = parabola c x.
  Proof. reflexivity. Qed.
  Lemma pair_points_diff (p1 p2 : R * R * R) : cf0 p1 <> cf0 p2 ->
    (forall x, parabola p1 x <> parabola p2 x) /\ pair_points roots p1 p2 = Ok [] \/
    exists r s, pair_points roots p1 p2 = Ok [(r, parabola p1 r); (s, parabola p2 s)] /\ forall x, parabola p1 x = parabola p2 x <-> x = r \/ x = s.
  Proof.
    destruct RO as [N [S _]]. destruct p1 as [[a1 b1] d1], p2 as [[a2 b2] d2]. unfold pair_points, same_direction_cross, cf0, cf1, cf2. cbn [fst snd nsub NV Rexact Rst].
    intros Ha. assert (A : a1 - a2 <> 0) by lra.
    assert (Q : forall x, parabola (a1, b1, d1) x = parabola (a2, b2, d2) x <-> (a1 - a2) * x ^ 2 + (b1 - b2) * x + (d1 - d2) = 0)
      by (intros x; unfold parabola; cbn [fst snd]; split; lra).
    destruct (Rlt_or_le ((b1 - b2) ^ 2 - 4 * (a1 - a2) * (d1 - d2)) 0) as [D|D].
    - left. rewrite (N _ _ _ A D). split; [|reflexivity]. intros x H. apply Q in H. clear Q. set (a := a1 - a2) in *. set (b := b1 - b2) in *. set (d := d1 - d2) in *. clearbody a b d.
      assert (4 * a * (a * x ^ 2 + b * x + d) = (2 * a * x + b) ^ 2 - (b ^ 2 - 4 * a * d)) by ring. rewrite H in H0. pose proof (pow2_ge_0 (2 * a * x + b)). lra.
    - right. destruct (S _ _ _ A D) as [r [s [E H]]]. rewrite E. exists r, s. split; [reflexivity|]. intros x. rewrite Q, H. split.
      + intros Z. apply Rmult_integral in Z. destruct Z as [Z|Z]; [|right; lra]. apply Rmult_integral in Z. destruct Z as [Z|Z]; [contradiction|left; lra].
      + intros [-> | ->]; ring.
  Qed.
  Lemma pair_points_equal (p1 p2 : R * R * R) : cf0 p1 = cf0 p2 -> pair_points roots p1 p2 = Err ValueError.
  Proof.
    destruct RO as [_ [_ Z]]. destruct p1 as [[a1 b1] d1], p2 as [[a2 b2] d2]. unfold pair_points, same_direction_cross, cf0, cf1, cf2. cbn [fst snd nsub NV Rexact Rst].
    intros <-. replace (a1 - a1) with 0 by ring. destruct (Z (b1 - b2) (d1 - d2)) as [l [-> L]]. destruct l as [|x [|y l]]; try reflexivity. cbn in L. lia.
  Qed.
  Lemma pair_points_err (p1 p2 : R * R * R) e : pair_points roots p1 p2 = Err e -> e = ValueError.
  Proof. unfold pair_points. destruct (same_direction_cross roots p1 p2) as [[|x [|y [|]]]|]; congruence. Qed.
  Lemma opposite_points_total cs : exists l, opposite_points argsort roots cs = Ok l.
  Proof.
    unfold opposite_points. cbn zeta.
    match goal with |- context [mapM ?f ?l] => destruct (mapM_total f l) as [r ->] end; [|cbn [bind]; eauto].
    intros [p1 p2] H. pose proof (in_combine_l _ _ _ _ H) as H1. pose proof (in_combine_r _ _ _ _ H) as H2. cbn [fst snd].
    unfold curved in H1, H2. apply gather_In, filter_In in H1. apply gather_In, filter_In in H2. destruct H1 as [_ H1], H2 as [_ H2].
    assert (D : cf0 p1 <> cf0 p2).
    { cbn in H1, H2. revert H1 H2. destruct (Rlt_bool_spec 0 (cf0 p1)); try discriminate. destruct (Rlt_bool_spec (cf0 p2) 0); try discriminate. lra. }
    destruct (pair_points_diff p1 p2 D) as [[_ ->]|[r [s [-> _]]]]; eauto.
  Qed.
  Lemma vanishing_center_total hl vl : hl <> [] -> vl <> [] -> exists c, vanishing_center polyfit hl vl = Ok c.
  Proof.
    intros Hh Hv. unfold vanishing_center.
    destruct (fit1_total polyfit PF (map fst hl) (map snd hl)) as [[a b] E1]; [now destruct hl|now rewrite !map_length|].
    destruct (fit1_total polyfit PF (map fst vl) (map snd vl)) as [[c d] E2]; [now destruct vl|now rewrite !map_length|].
    rewrite E1. cbn [bind]. rewrite E2. cbn [bind]. eauto.
  Qed.
  Lemma bailey_total lh lv iter : (2 <= length lh)%nat -> (2 <= length lv)%nat -> (forall l, In l (lh ++ lv) -> l <> []) ->
    exists c, find_cod_bailey polyfit lh lv iter = Ok c.
  Proof.
    intros Lh Lv Hne.
    assert (Hh : forall l, In l lh -> l <> []) by (intros; apply Hne; apply in_or_app; now left).
    assert (Hv : forall l, In l lv -> l <> []) by (intros; apply Hne; apply in_or_app; now right).
    assert (ST : forall c, exists c', bailey_step polyfit lh lv c = Ok c').
    { intros [x y]. unfold bailey_step.
      destruct (para_hor_total (fun x => x) polyfit PF lh x y Hh) as [ch [sh Eh]]. destruct (para_ver_total (fun x => x) polyfit PF lv x y Hv) as [cv [sv Ev]].
      pose proof (para_hor_fits (fun x => x) polyfit lh x y ch sh Eh) as Fh. pose proof (para_ver_fits (fun x => x) polyfit lv x y cv sv Ev) as Fv.
      pose proof (Forall2_length _ _ _ Fh) as L1. pose proof (Forall2_length _ _ _ Fv) as L2.
      assert (G1 : @para_fit_hor R Rexact polyfit lh x y = Ok (ch, sh)) by exact Eh. assert (G2 : @para_fit_ver R Rexact polyfit lv x y = Ok (cv, sv)) by exact Ev.
      unfold NV. rewrite G1. cbn [bind]. rewrite G2. cbn [bind fst].
      destruct (fit1_total polyfit PF (map cf2 ch) (map cf0 ch)) as [[a b] E1]; [destruct ch; [cbn in L1; unfold pt in *; lia|discriminate]|now rewrite !map_length|].
      destruct (fit1_total polyfit PF (map cf2 cv) (map cf0 cv)) as [[c d] E2]; [destruct cv; [cbn in L2; unfold pt in *; lia|discriminate]|now rewrite !map_length|].
      rewrite E1. cbn [bind]. rewrite E2. cbn [bind]. eauto. }
    unfold find_cod_bailey.
    assert (CO : exists c0, find_cod_coarse polyfit lh lv = Ok c0).
    { destruct (para_hor_fitted (fun x => x) polyfit PF lh Hh) as [ch [sh [Eh Fh]]]. destruct (para_ver_fitted (fun x => x) polyfit PF lv Hv) as [cv [sv [Ev Fv]]].
      destruct (coarse_spec (fun x => x) polyfit lh lv ch sh cv sv Eh Ev) as [i [j [_ [_ E]]]].
      - rewrite <- (Forall2_length _ _ _ Fh). exact Lh.
      - rewrite <- (Forall2_length _ _ _ Fv). exact Lv.
      - eexists. exact E. }
    destruct CO as [c0 ->]. cbn [bind]. destruct (ST c0) as [c1 ->]. cbn [bind].
    generalize (Z.to_nat iter). intros n. revert c1. induction n as [|n IH]; intros c1; cbn [bailey_loop]; [eauto|]. destruct (ST c1) as [c2 ->]. cbn [bind]. apply IH.
  Qed.
End Vanish.

(** At the same height w, at two places at least. *)
Definition level (w : R) (l : list (R * R)) : Prop := (forall p, In p l -> snd p = w) /\ distinct_values 2 (map fst l) /\ (2 < length l)%nat.

Section Ideal.
  Local Instance NV2 : Num R := Rexact.
  Variable polyfit : list R -> list R -> nat -> res (list R).
  Variable roots : list R -> option (list R).
  Variable argsort : list R -> list nat.
  Hypothesis PF : polyfit_oracle polyfit.
  Hypothesis RO : roots_oracle roots.
  Hypothesis AP : forall l, Permutation (argsort l) (seq 0 (length l)).
  Variables (k u w : R).
  Definition ic (c : R) : R * R * R := ideal_coef k u w 0 0 c.
  Lemma ic_at c x : parabola (ic c) x = k * (c - w) * (x - u) ^ 2 + c.
  Proof. unfold parabola, ic, ideal_coef. cbn [fst snd]. ring. Qed.
  Lemma ic_pair c c' : k < 0 -> c <> c' -> exists r s, r <> s /\ pair_points roots (ic c) (ic c') = Ok [(r, w); (s, w)].
  Proof.
    intros K Hc. destruct (pair_points_diff roots RO (ic c) (ic c')) as [[Hn _]|[r [s [E H]]]].
    - unfold cf0, ic, ideal_coef. cbn [fst]. intros Z. apply Hc. assert (k * (c - c') = 0) by lra. apply Rmult_integral in H. destruct H; lra.
    - exfalso. apply (Hn (u + sqrt (- / k))). rewrite !ic_at. replace ((u + sqrt (- / k) - u) ^ 2) with (sqrt (- / k) * sqrt (- / k)) by ring.
      rewrite sqrt_sqrt; [field; lra|]. pose proof (Rinv_lt_0_compat k K). lra.
    - assert (P : 0 < - / k) by (pose proof (Rinv_lt_0_compat k K); lra).
      assert (V : forall x, x = r \/ x = s -> parabola (ic c) x = w /\ parabola (ic c') x = w /\ 1 + k * (x - u) ^ 2 = 0).
      { intros x Hx. apply H in Hx. rewrite !ic_at in *. assert (Z : (c - c') * (1 + k * (x - u) ^ 2) = 0) by lra.
        apply Rmult_integral in Z. destruct Z as [Z|Z]; [lra|]. assert (k * (x - u) ^ 2 = -1) by lra.
        replace (k * (c - w) * (x - u) ^ 2) with ((c - w) * (k * (x - u) ^ 2)) by ring. replace (k * (c' - w) * (x - u) ^ 2) with ((c' - w) * (k * (x - u) ^ 2)) by ring.
        rewrite H0. split; [ring|]. split; ring. }
      exists r, s. destruct (V r (or_introl eq_refl)) as [Vr _]. destruct (V s (or_intror eq_refl)) as [_ [Vs _]]. rewrite Vr, Vs in E. split; [|exact E].
      intros ->. pose proof (sqrt_lt_R0 _ P) as S0. assert (SS : sqrt (- / k) * sqrt (- / k) = - / k) by (apply sqrt_sqrt; lra).
      assert (I1 : u + sqrt (- / k) = s \/ u + sqrt (- / k) = s).
      { apply H. rewrite !ic_at. replace ((u + sqrt (- / k) - u) ^ 2) with (- / k) by (symmetry; etransitivity; [|exact SS]; ring). field. lra. }
      assert (I2 : u - sqrt (- / k) = s \/ u - sqrt (- / k) = s).
      { apply H. rewrite !ic_at. replace ((u - sqrt (- / k) - u) ^ 2) with (- / k) by (symmetry; etransitivity; [|exact SS]; ring). field. lra. }
      lra.
  Qed.
  Lemma ic_pair_none c c' : 0 < k -> c <> c' -> pair_points roots (ic c) (ic c') = Ok [].
  Proof.
    intros K Hc. destruct (pair_points_diff roots RO (ic c) (ic c')) as [[_ E]|[r [s [_ H]]]]; [|exact E|].
    - unfold cf0, ic, ideal_coef. cbn [fst]. intros Z. apply Hc. assert (k * (c - c') = 0) by lra. apply Rmult_integral in H. destruct H; lra.
    - exfalso. assert (Q : parabola (ic c) r = parabola (ic c') r) by (apply H; now left). rewrite !ic_at in Q.
      assert (Z : (c - c') * (1 + k * (r - u) ^ 2) = 0) by lra. apply Rmult_integral in Z. destruct Z as [Z|Z]; [lra|]. pose proof (pow2_ge_0 (r - u)). nra.
  Qed.
  (** Points of all the pairs. *)
  Lemma pairs_level (l : list (R * R)) : k < 0 -> (forall c c', In (c, c') l -> c <> c') -> (2 <= length l)%nat ->
    exists ps, mapM (fun p : (R * R * R) * (R * R * R) => pair_points roots (fst p) (snd p)) (map (fun p => (ic (fst p), ic (snd p))) l) = Ok ps /\ level w (concat ps).
  Proof.
    intros K Hd L.
    assert (G : exists ps, mapM (fun p : (R * R * R) * (R * R * R) => pair_points roots (fst p) (snd p)) (map (fun p => (ic (fst p), ic (snd p))) l) = Ok ps /\
      length ps = length l /\ forall q, In q ps -> exists r s, r <> s /\ q = [(r, w); (s, w)]).
    { clear L. induction l as [|[c c'] l IH]; [exists []; repeat split; intros q []|]. destruct IH as [ps [E [L H]]]; [intros a b Hab; apply Hd; now right|].
      destruct (ic_pair c c' K) as [r [s [Hrs Ep]]]; [apply Hd; now left|]. exists ([(r, w); (s, w)] :: ps). cbn [map mapM fst snd]. rewrite Ep. cbn [bind]. rewrite E. cbn [bind].
      split; [reflexivity|]. split; [cbn; now rewrite L|]. intros q [<-|Hq]; [exists r, s; split; [exact Hrs|reflexivity]|now apply H]. }
    destruct G as [ps [E [Lp H]]]. exists ps. split; [exact E|]. split; [|split].
    - intros p Hp. apply in_concat in Hp. destruct Hp as [q [Hq Hp]]. destruct (H q Hq) as [r [s [_ ->]]]. destruct Hp as [<-|[<-|[]]]; reflexivity.
    - destruct ps as [|q ps]; [cbn in Lp; lia|]. destruct (H q (or_introl eq_refl)) as [r [s [Hrs ->]]]. exists [r; s]. split; [repeat constructor; cbn; intuition|].
      split; [|cbn; lia]. intros x Hx. cbn [concat app map fst]. destruct Hx as [<-|[<-|[]]]; [now left|right; now left].
    - destruct ps as [|q [|q' ps]]; [cbn in Lp; lia|cbn in Lp; lia|]. destruct (H q (or_introl eq_refl)) as [r [s [_ ->]]].
      destruct (H q' (or_intror (or_introl eq_refl))) as [r' [s' [_ ->]]]. cbn. lia.
  Qed.
  Lemma pairs_none (l : list (R * R)) : 0 < k -> (forall c c', In (c, c') l -> c <> c') ->
    exists ps, mapM (fun p : (R * R * R) * (R * R * R) => pair_points roots (fst p) (snd p)) (map (fun p => (ic (fst p), ic (snd p))) l) = Ok ps /\ concat ps = [].
  Proof.
    intros K Hd. induction l as [|[c c'] l IH]; [exists []; split; reflexivity|]. destruct IH as [ps [E H]]; [intros a b Hab; apply Hd; now right|].
    exists ([] :: ps). cbn [map mapM fst snd]. rewrite (ic_pair_none c c' K) by (apply Hd; now left). cbn [bind]. rewrite E. cbn [bind]. split; [reflexivity|exact H].
  Qed.
  Lemma curved_map (cond : R * R * R -> bool) cs : curved argsort cond (map ic cs) =
    map ic (gather (filter (fun c => cond (ic c)) cs) (argsort (map (fun c => Rabs (cf0 (ic c))) (filter (fun c => cond (ic c)) cs)))).
  Proof.
    unfold curved. cbn zeta. assert (F : filter cond (map ic cs) = map ic (filter (fun c => cond (ic c)) cs)).
    { induction cs as [|c cs IH]; [reflexivity|]. cbn [map filter]. destruct (cond (ic c)); [cbn [map]; now rewrite IH|exact IH]. }
    rewrite F, gather_map. now rewrite map_map.
  Qed.
  Lemma combine_map2 {A B} (f : A -> B) l m : combine (map f l) (map f m) = map (fun p => (f (fst p), f (snd p))) (combine l m).
  Proof. revert m; induction l as [|a l IH]; intros [|b m]; try reflexivity. cbn. now rewrite IH. Qed.
  (** The pairs of lines on opposite sides of w. *)
  Lemma opposite_pairs cs : k <> 0 -> exists l, (forall c c', In (c, c') l -> c <> c') /\ length l = Nat.min (before w cs) (after w cs) /\
    opposite_points argsort roots (map ic cs) =
    bind (mapM (fun p : (R * R * R) * (R * R * R) => pair_points roots (fst p) (snd p)) (map (fun p => (ic (fst p), ic (snd p))) l)) (fun ps => Ok (concat ps)).
  Proof.
    intros K. unfold opposite_points. cbn zeta. rewrite !curved_map, combine_map2.
    set (P := fun c : R => nltb n0 (cf0 (ic c))). set (M := fun c : R => nltb (cf0 (ic c)) n0).
    assert (EP : forall c, P c = true <-> 0 < k * (c - w)) by (intros c; unfold P, cf0, ic, ideal_coef; cbn; destruct (Rlt_bool_spec 0 (k * (c - w))); split; intros; try reflexivity; try lra; discriminate).
    assert (EM : forall c, M c = true <-> k * (c - w) < 0) by (intros c; unfold M, cf0, ic, ideal_coef; cbn; destruct (Rlt_bool_spec (k * (c - w)) 0); split; intros; try reflexivity; try lra; discriminate).
    set (g1 := gather (filter P cs) _). set (g2 := gather (filter M cs) _).
    assert (P1 : Permutation g1 (filter P cs)) by (unfold g1; apply gather_perm; rewrite AP, map_length; reflexivity).
    assert (P2 : Permutation g2 (filter M cs)) by (unfold g2; apply gather_perm; rewrite AP, map_length; reflexivity).
    exists (combine g1 g2). split; [|split; [|reflexivity]].
    - intros c c' H. pose proof (in_combine_l _ _ _ _ H) as H1. pose proof (in_combine_r _ _ _ _ H) as H2.
      rewrite P1 in H1. rewrite P2 in H2. apply filter_In in H1. apply filter_In in H2. destruct H1 as [_ H1], H2 as [_ H2]. apply EP in H1. apply EM in H2. intros ->. lra.
    - rewrite combine_length, (Permutation_length P1), (Permutation_length P2). unfold before, after.
      assert (FE : forall f g : R -> bool, (forall c, f c = g c) -> length (filter f cs) = length (filter g cs)) by (intros f g E; now rewrite (filter_ext f g E)).
      destruct (Rlt_or_le 0 k) as [Kp|Kn].
      + rewrite (FE P (fun c => if Rlt_dec w c then true else false)), (FE M (fun c => if Rlt_dec c w then true else false)).
        * apply Nat.min_comm.
        * intros c. destruct (Rlt_dec c w) as [h|h]; [apply EM; nra|]. destruct (M c) eqn:Q; [|reflexivity]. apply EM in Q. nra.
        * intros c. destruct (Rlt_dec w c) as [h|h]; [apply EP; nra|]. destruct (P c) eqn:Q; [|reflexivity]. apply EP in Q. nra.
      + rewrite (FE P (fun c => if Rlt_dec c w then true else false)), (FE M (fun c => if Rlt_dec w c then true else false)).
        * reflexivity.
        * intros c. destruct (Rlt_dec w c) as [h|h]; [apply EM; nra|]. destruct (M c) eqn:Q; [|reflexivity]. apply EM in Q. nra.
        * intros c. destruct (Rlt_dec c w) as [h|h]; [apply EP; nra|]. destruct (P c) eqn:Q; [|reflexivity]. apply EP in Q. nra.
  Qed.
  Lemma opposite_level cs : k < 0 -> (2 <= before w cs)%nat -> (2 <= after w cs)%nat -> exists l, opposite_points argsort roots (map ic cs) = Ok l /\ level w l.
  Proof.
    intros K B A. destruct (opposite_pairs cs) as [l [D [L E]]]; [lra|]. destruct (pairs_level l K D) as [ps [Ep Lv]]; [lia|].
    exists (concat ps). rewrite E, Ep. split; [reflexivity|exact Lv].
  Qed.
  Lemma opposite_none cs : 0 < k -> opposite_points argsort roots (map ic cs) = Ok [].
  Proof.
    intros K. destruct (opposite_pairs cs) as [l [D [L E]]]; [lra|]. destruct (pairs_none l K D) as [ps [Ep Lv]]. rewrite E, Ep. cbn [bind]. now rewrite Lv.
  Qed.
  (** Every other line with the flattest. *)
  Lemma least_pairs cs : k <> 0 -> NoDup cs -> cs <> [] -> exists l, (forall c c', In (c, c') l -> c <> c') /\ S (length l) = length cs /\
    least_points roots (map ic cs) = bind (mapM (fun p : (R * R * R) * (R * R * R) => pair_points roots (fst p) (snd p)) (map (fun p => (ic (fst p), ic (snd p))) l)) (fun ps => Ok (concat ps)).
  Proof.
    intros K ND Hne. unfold least_points.
    assert (A0 : exists z, argmin (map (fun c : R * R * R => nabs (cf0 c)) (map ic cs)) = Ok z) by (destruct cs; [contradiction|eexists; reflexivity]).
    destruct A0 as [z Ez]. rewrite Ez. cbn [bind]. destruct (argmin_map_first (fun x => x) _ _ _ Ez) as [m [-> [_ Hm]]]. rewrite map_length in Hm. rewrite (pyget_nth (map ic cs) _ (ic 0)) by (now rewrite map_length). cbn [bind]. cbn zeta. rewrite Nat2Z.id, map_nth, firstn_map, skipn_map, <- map_app.
    destruct (nth_split cs 0 Hm) as [l1 [l2 [E L1]]]. set (d := nth m cs 0) in *.
    assert (E1 : firstn m cs = l1) by (rewrite E, firstn_app, L1, Nat.sub_diag, firstn_O, app_nil_r; apply firstn_all2; lia).
    assert (E2 : skipn (S m) cs = l2). { rewrite E. replace (l1 ++ d :: l2) with ((l1 ++ [d]) ++ l2) by (now rewrite <- app_assoc). rewrite skipn_app, app_length, L1. cbn [length].
      replace (S m - (m + 1))%nat with 0%nat by lia. rewrite skipn_all2 by (rewrite app_length; cbn; lia). reflexivity. }
    rewrite E1, E2. exists (map (fun c => (c, d)) (l1 ++ l2)). split; [|split].
    - intros c c' H. apply in_map_iff in H. destruct H as [a [Ha Hin]]. injection Ha as <- <-. intros ->. rewrite E in ND. apply NoDup_remove_2 in ND. contradiction.
    - rewrite map_length, E, !app_length. cbn. lia.
    - rewrite map_map. cbn [fst snd]. f_equal. generalize (l1 ++ l2). intros l. clear. induction l as [|a l IH]; [reflexivity|]. cbn [map mapM fst snd]. destruct (pair_points roots (ic a) (ic d)); [|reflexivity]. cbn [bind]. now rewrite IH.
  Qed.
  Lemma least_level cs : k < 0 -> NoDup cs -> (3 <= length cs)%nat -> exists l, least_points roots (map ic cs) = Ok l /\ level w l.
  Proof.
    intros K ND L. destruct (least_pairs cs) as [l [D [Ll E]]]; [lra|assumption|destruct cs; [cbn in L; lia|discriminate]|].
    destruct (pairs_level l K D) as [ps [Ep Lv]]; [lia|]. exists (concat ps). rewrite E, Ep. split; [reflexivity|exact Lv].
  Qed.
  Lemma least_none cs : 0 < k -> NoDup cs -> cs <> [] -> least_points roots (map ic cs) = Ok [].
  Proof.
    intros K ND L. destruct (least_pairs cs) as [l [D [Ll E]]]; [lra|assumption|assumption|].
    destruct (pairs_none l K D) as [ps [Ep Lv]]. rewrite E, Ep. cbn [bind]. now rewrite Lv.
  Qed.
End Ideal.

Section Centre.
  Local Instance NV3 : Num R := Rexact.
  Variable polyfit : list R -> list R -> nat -> res (list R).
  Variable roots : list R -> option (list R).
  Variable argsort : list R -> list nat.
  Variable lstsq : list (list R) -> list R -> res (list R).
  Hypothesis PF : polyfit_oracle polyfit.
  Hypothesis RO : roots_oracle roots.
  Hypothesis AP : forall l, Permutation (argsort l) (seq 0 (length l)).
  Lemma vanishing_center_level hl vl xc yc : level yc hl -> level xc vl -> vanishing_center polyfit hl vl = Ok (xc, yc).
  Proof.
    intros [H1 [D1 _]] [H2 [D2 _]]. unfold vanishing_center.
    rewrite (@ProcFacts.fit1_exact polyfit PF _ fst snd hl 0 yc D1) by (intros p Hp; rewrite (H1 p Hp); ring). cbn [bind].
    rewrite (@ProcFacts.fit1_exact polyfit PF _ fst snd vl 0 xc D2) by (intros p Hp; rewrite (H2 p Hp); ring). cbn [bind].
    f_equal. cbn. f_equal; field.
  Qed.
  Lemma shift0 (lines : list (list (R * R))) : map (map (shiftp 0 0)) lines = lines.
  Proof. rewrite <- (map_id lines) at 2. apply map_ext. intros l. rewrite <- (map_id l) at 2. apply map_ext. intros [y x]. unfold shiftp. cbn. f_equal; ring. Qed.
  Lemma len2 (n : nat) : (2 < n)%nat -> (2 <? Z.of_nat n)%Z = true.
  Proof. intros. apply Z.ltb_lt. lia. Qed.
  Section Grid.
    Variables (k xc yc : R) (cs ds : list R) (lh lv : list (list (R * R))).
    Hypothesis Fh : Forall2 (ideal_hor k xc yc) cs lh.
    Hypothesis Fv : Forall2 (ideal_ver k xc yc) ds lv.
    Lemma centre_barrel : k < 0 -> (2 <= before yc cs)%nat -> (2 <= after yc cs)%nat -> (2 <= before xc ds)%nat -> (2 <= after xc ds)%nat ->
      find_center_based_vanishing_points polyfit argsort roots lh lv = Ok (xc, yc).
    Proof.
      intros K B1 A1 B2 A2. unfold find_center_based_vanishing_points.
      destruct (opposite_level roots argsort RO AP k xc yc cs K B1 A1) as [hl [Eh Hl]].
      destruct (opposite_level roots argsort RO AP k yc xc ds K B2 A2) as [vl [Ev Vl]].
      pose proof (ideal_fit_hor polyfit PF k xc yc 0 0 cs lh Fh) as Gh. pose proof (ideal_fit_ver polyfit PF k xc yc 0 0 ds lv Fv) as Gv.
      match goal with |- context [@para_fit_hor R ?i polyfit lh ?a ?b] => change (@para_fit_hor R i polyfit lh a b) with (@para_fit_hor R NEx polyfit lh 0 0) end.
      match goal with |- context [@para_fit_ver R ?i polyfit lv ?a ?b] => change (@para_fit_ver R i polyfit lv a b) with (@para_fit_ver R NEx polyfit lv 0 0) end.
      unfold pt in *. rewrite Gh. cbn [bind]. rewrite Gv. cbn [bind fst snd].
      change (map (ideal_coef k xc yc 0 0) cs) with (map (ic k xc yc) cs). change (map (ideal_coef k yc xc 0 0) ds) with (map (ic k yc xc) ds).
      unfold NV2, NV3 in *. rewrite Eh. cbn [bind]. rewrite len2 by apply Hl. rewrite Ev. cbn [bind]. rewrite len2 by apply Vl.
      exact (vanishing_center_level hl vl xc yc Hl Vl).
    Qed.
    Lemma centre_pincushion : 0 < k ->
      find_center_based_vanishing_points polyfit argsort roots lh lv = find_cod_bailey polyfit lh lv 2.
    Proof.
      intros K. unfold find_center_based_vanishing_points.
      pose proof (opposite_none roots argsort RO AP k xc yc cs K) as Eh.
      pose proof (ideal_fit_hor polyfit PF k xc yc 0 0 cs lh Fh) as Gh. pose proof (ideal_fit_ver polyfit PF k xc yc 0 0 ds lv Fv) as Gv.
      match goal with |- context [@para_fit_hor R ?i polyfit lh ?a ?b] => change (@para_fit_hor R i polyfit lh a b) with (@para_fit_hor R NEx polyfit lh 0 0) end.
      match goal with |- context [@para_fit_ver R ?i polyfit lv ?a ?b] => change (@para_fit_ver R i polyfit lv a b) with (@para_fit_ver R NEx polyfit lv 0 0) end.
      unfold pt in *. rewrite Gh. cbn [bind]. rewrite Gv. cbn [bind fst snd].
      change (map (ideal_coef k xc yc 0 0) cs) with (map (ic k xc yc) cs).
      unfold NV2, NV3 in *. rewrite Eh. cbn [bind length]. change (2 <? Z.of_nat 0)%Z with false. cbn iota.
      pose proof (shift0 lh) as S1. pose proof (shift0 lv) as S2. unfold NEx, NV3 in *. now rewrite S1, S2.
    Qed.
    Lemma second_barrel : k < 0 -> NoDup cs -> NoDup ds -> (3 <= length cs)%nat -> (3 <= length ds)%nat ->
      find_center_2nd_way polyfit roots lh lv = Ok (xc, yc).
    Proof.
      intros K N1 N2 L1 L2. unfold find_center_2nd_way.
      destruct (least_level roots RO k xc yc cs K N1 L1) as [hl [Eh Hl]].
      destruct (least_level roots RO k yc xc ds K N2 L2) as [vl [Ev Vl]].
      pose proof (ideal_fit_hor polyfit PF k xc yc 0 0 cs lh Fh) as Gh. pose proof (ideal_fit_ver polyfit PF k xc yc 0 0 ds lv Fv) as Gv.
      match goal with |- context [@para_fit_hor R ?i polyfit lh ?a ?b] => change (@para_fit_hor R i polyfit lh a b) with (@para_fit_hor R NEx polyfit lh 0 0) end.
      match goal with |- context [@para_fit_ver R ?i polyfit lv ?a ?b] => change (@para_fit_ver R i polyfit lv a b) with (@para_fit_ver R NEx polyfit lv 0 0) end.
      unfold pt in *. rewrite Gh. cbn [bind]. rewrite Gv. cbn [bind fst snd].
      change (map (ideal_coef k xc yc 0 0) cs) with (map (ic k xc yc) cs). change (map (ideal_coef k yc xc 0 0) ds) with (map (ic k yc xc) ds).
      unfold NV2, NV3 in *. rewrite Eh. cbn [bind]. rewrite len2 by apply Hl. rewrite Ev. cbn [bind]. rewrite len2 by apply Vl.
      exact (vanishing_center_level hl vl xc yc Hl Vl).
    Qed.
  End Grid.
  (** Lines of equal curvature: ValueError. *)
  Lemma least_repeated cs m j : first_min (map (fun c : R * R * R => Rabs (fst (fst c))) cs) m -> (j < length cs)%nat -> j <> m ->
    curv cs j = curv cs m -> least_points roots cs = Err ValueError.
  Proof.
    intros FM Hj Hjm Hc. unfold least_points.
    assert (A0 : exists z, argmin (map (fun c : R * R * R => nabs (cf0 c)) cs) = Ok z) by (destruct cs; [cbn in Hj; lia|eexists; reflexivity]).
    destruct A0 as [z Ez]. rewrite Ez. cbn [bind]. destruct (argmin_map_first (fun x => x) _ _ _ Ez) as [m' [-> [FM' Hm]]].
    assert (m' = m).
    { destruct FM as [Lm [M1 M2]], FM' as [Lm' [M1' M2']]. rewrite map_length in *. destruct (Nat.lt_trichotomy m m') as [h|[h|h]]; [|now symmetry|].
      - pose proof (M2' m h) as Q. pose proof (M1 m' Lm') as Q'. change (map (fun c : R * R * R => nabs (cf0 c)) cs) with (map (fun c : R * R * R => Rabs (fst (fst c))) cs) in Q. lra.
      - pose proof (M2 m' h) as Q. pose proof (M1' m Lm) as Q'. change (map (fun c : R * R * R => nabs (cf0 c)) cs) with (map (fun c : R * R * R => Rabs (fst (fst c))) cs) in Q'. lra. }
    subst m'. rewrite (pyget_nth cs _ (0, 0, 0)) by assumption. cbn [bind]. cbn zeta. rewrite Nat2Z.id.
    rewrite (mapM_err _ _ ValueError); [reflexivity| |].
    - exists (nth j cs (0, 0, 0)). split; [|now apply pair_points_equal].
      destruct (Nat.lt_ge_cases j m) as [h|h].
      + apply in_or_app. left. rewrite <- (firstn_skipn m cs) at 1. rewrite app_nth1 by (rewrite firstn_length; lia). apply nth_In. rewrite firstn_length. lia.
      + apply in_or_app. right. rewrite <- (firstn_skipn (S m) cs) at 1. rewrite app_nth2 by (rewrite firstn_length; lia). apply nth_In. rewrite firstn_length, skipn_length. lia.
    - intros a e _ He. now apply pair_points_err in He.
  Qed.
End Centre.
