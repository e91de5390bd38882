(** The centre from vanishing points for lines of any shape (C85). *)
From Coq Require Import Reals ZArith List Lra Lia Permutation Sorted.
From Flocq Require Import Core.
From Verif Require Import Base Num NumFacts Spec Lsq ProcSpec PrepSpec Sorting Img PrepImg PrepPts PrepFacts PrepFacts2 Post
  Proc ProcPers ProcFacts ProcFacts2 ProcFacts3 ProcFacts4 ProcFacts5 PersSpec PersFacts PersFacts2 PersFacts3 PersFacts4 PersFacts5 Props_Proc Props_Pers Props_Pers3.
Import ListNotations.
Local Open Scope R_scope.

(** ** C85 *)
(** The points at which two parabolas meet, as (position, value); the value
    of the first is taken on p, that of the second on q. *)
Definition meets (p q : R * R * R) (l : list (R * R)) : Prop :=
  (l = [] /\ forall x, parabola p x <> parabola q x) \/
  exists r s, l = [(r, parabola p r); (s, parabola q s)] /\ forall x, parabola p x = parabola q x <-> x = r \/ x = s.
(** All points for a list of pairs. *)
Definition meeting_points (pairs : list ((R * R * R) * (R * R * R))) (pts : list (R * R)) : Prop :=
  exists ps, Forall2 (fun pq l => meets (fst pq) (snd pq) l) pairs ps /\ pts = concat ps.
Definition bend (c : R * R * R) : R := fst (fst c).
(** The flattest parabola of either sense is paired with the flattest of the
    other, the second flattest with the second flattest and so on. *)
Definition pairs_opposite (cs : list (R * R * R)) (pairs : list ((R * R * R) * (R * R * R))) : Prop :=
  exists up down up' down', selects (fun c => 0 < bend c) cs up /\ selects (fun c => bend c < 0) cs down /\
    Permutation up' up /\ Permutation down' down /\ StronglySorted (fun c d => Rabs (bend c) <= Rabs (bend d)) up' /\
    StronglySorted (fun c d => Rabs (bend c) <= Rabs (bend d)) down' /\ pairs = combine up' down'.
(** The first of the flattest is paired with each of the others. *)
Definition pairs_flattest (cs : list (R * R * R)) (pairs : list ((R * R * R) * (R * R * R))) : Prop :=
  exists l1 m l2, cs = l1 ++ m :: l2 /\ (forall c, In c l1 -> Rabs (bend m) < Rabs (bend c)) /\ (forall c, In c l2 -> Rabs (bend m) <= Rabs (bend c)) /\
    pairs = map (fun c => (c, m)) (l1 ++ l2).
(** The straight lines fitted to the two sets of points, y over x and x over
    y, meet at (xc, yc). *)
Definition lines_meet (polyfit : list R -> list R -> nat -> res (list R)) (hl vl : list (R * R)) (a c xc yc : R) : Prop :=
  exists b d, polyfit (map fst hl) (map snd hl) 1%nat = Ok [a; b] /\ polyfit (map fst vl) (map snd vl) 1%nat = Ok [c; d] /\
    (a * c <> 1 -> yc = a * xc + b /\ xc = c * yc + d).

Section Lemmas.
  Local Instance NX : Num R := Rexact.
  Variable polyfit : list R -> list R -> nat -> res (list R).
  Variable roots : list R -> option (list R).
  Variable argsort : list R -> list nat.
  Hypothesis PF : polyfit_oracle polyfit.
  Hypothesis RO : roots_oracle roots.
  Hypothesis AS : argsort_spec argsort.

  Lemma meets_pair p q : bend p <> bend q -> exists l, pair_points roots p q = Ok l /\ meets p q l.
  Proof.
    intros D. destruct (pair_points_diff roots RO p q D) as [[H E]|[r [s [E H]]]]; eexists; (split; [exact E|]).
    - left. auto.
    - right. exists r, s. auto.
  Qed.
  Lemma meets_pairs pairs : (forall p q, In (p, q) pairs -> bend p <> bend q) ->
    exists ps, mapM (fun pq : (R * R * R) * (R * R * R) => pair_points roots (fst pq) (snd pq)) pairs = Ok ps /\ meeting_points pairs (concat ps).
  Proof.
    intros H. assert (G : exists ps, mapM (fun pq : (R * R * R) * (R * R * R) => pair_points roots (fst pq) (snd pq)) pairs = Ok ps /\
      Forall2 (fun pq l => meets (fst pq) (snd pq) l) pairs ps).
    { induction pairs as [|[p q] pairs IH]; [exists []; split; [reflexivity|constructor]|].
      destruct IH as [ps [E F]]; [intros a b Hab; apply H; now right|]. destruct (meets_pair p q) as [l [El M]]; [apply H; now left|].
      exists (l :: ps). cbn [mapM fst snd]. rewrite El. cbn [bind]. rewrite E. cbn [bind]. split; [reflexivity|]. now constructor. }
    destruct G as [ps [E F]]. exists ps. split; [exact E|]. now exists ps.
  Qed.
  Lemma sorted_bend (sel : list (R * R * R)) : let s := gather sel (argsort (map (fun c => nabs (cf0 c)) sel)) in
    Permutation s sel /\ StronglySorted (fun c d => Rabs (bend c) <= Rabs (bend d)) s.
  Proof.
    intros s. destruct (AS (map (fun c => nabs (cf0 c)) sel)) as [P S]. rewrite map_length in P. split; [now apply gather_perm|].
    assert (K : forall k, In k (argsort (map (fun c => nabs (cf0 c)) sel)) -> (k < length sel)%nat).
    { intros k Hk. rewrite P in Hk. apply in_seq in Hk. lia. }
    unfold s. revert K S. generalize (argsort (map (fun c : R * R * R => nabs (cf0 c)) sel)) as idx. clear P s.
    induction idx as [|i idx IH]; intros K S; [constructor|]. cbn [map] in S. inversion_clear S as [|? ? S' F].
    assert (G : forall l, (forall k, In k l -> (k < length sel)%nat) -> gather sel l = map (fun k => nth k sel (0, 0, 0)) l).
    { clear. induction l as [|k l IH]; intros H; [reflexivity|]. unfold gather in *. cbn [flat_map map].
      rewrite IH by (intros; apply H; now right). assert (Hk := H k (or_introl eq_refl)).
      rewrite (nth_error_nth' sel (0, 0, 0) Hk). reflexivity. }
    assert (K' : forall k, In k idx -> (k < length sel)%nat) by (intros; apply K; now right).
    rewrite G by exact K. cbn [map]. rewrite <- (G idx K'). constructor; [now apply IH|]. rewrite (G idx K').
    apply Forall_forall. intros c Hc. apply in_map_iff in Hc. destruct Hc as [k [<- Hk]]. rewrite Forall_forall in F.
    specialize (F (nth k (map (fun c => nabs (cf0 c)) sel) 0)).
    assert (I : In (nth k (map (fun c => nabs (cf0 c)) sel) 0) (map (fun k => nth k (map (fun c => nabs (cf0 c)) sel) 0) idx)) by (apply in_map_iff; now exists k).
    specialize (F I). assert (N : forall k, (k < length sel)%nat -> nth k (map (fun c : R * R * R => nabs (cf0 c)) sel) 0 = Rabs (bend (nth k sel (0, 0, 0)))).
    { intros j Hj. rewrite (nth_indep _ 0 (nabs (cf0 (0, 0, 0)))) by (now rewrite map_length). rewrite (map_nth (fun c : R * R * R => nabs (cf0 c))). reflexivity. }
    rewrite !N in F by (apply K; auto using in_eq, in_cons). exact F.
  Qed.
  Lemma opposite_ok cs : exists pairs pts, opposite_points argsort roots cs = Ok pts /\ pairs_opposite cs pairs /\ meeting_points pairs pts.
  Proof.
    unfold opposite_points. cbn zeta. set (up' := curved argsort (fun c => nltb n0 (cf0 c)) cs). set (down' := curved argsort (fun c => nltb (cf0 c) n0) cs).
    set (up := filter (fun c : R * R * R => nltb n0 (cf0 c)) cs). set (down := filter (fun c : R * R * R => nltb (cf0 c) n0) cs).
    destruct (sorted_bend up) as [P1 S1]. destruct (sorted_bend down) as [P2 S2]. change (Permutation up' up) in P1. change (Permutation down' down) in P2.
    assert (U : forall c, nltb n0 (cf0 c) = true <-> 0 < bend c) by (intros c; apply Rlt_bool_true_iff).
    assert (D : forall c, nltb (cf0 c) n0 = true <-> bend c < 0) by (intros c; apply Rlt_bool_true_iff).
    destruct (meets_pairs (combine up' down')) as [ps [E M]].
    - intros p q H. pose proof (in_combine_l _ _ _ _ H) as H1. pose proof (in_combine_r _ _ _ _ H) as H2. rewrite P1 in H1. rewrite P2 in H2.
      apply filter_In in H1. apply filter_In in H2. destruct H1 as [_ H1], H2 as [_ H2]. apply U in H1. apply D in H2. lra.
    - exists (combine up' down'), (concat ps). split; [|split; [|exact M]].
      + rewrite E. reflexivity.
      + exists up, down, up', down'. split; [now apply filter_selects|]. split; [now apply filter_selects|]. auto 6.
  Qed.
  Lemma flattest_ok cs : cs <> [] -> (forall i j, (i < length cs)%nat -> (j < length cs)%nat -> i <> j -> curv cs i <> curv cs j) ->
    exists pairs pts, least_points roots cs = Ok pts /\ pairs_flattest cs pairs /\ meeting_points pairs pts.
  Proof.
    intros Ne Hc. unfold least_points.
    assert (A0 : exists z, argmin (map (fun c : R * R * R => nabs (cf0 c)) cs) = Ok z) by (destruct cs; [congruence|eexists; reflexivity]).
    destruct A0 as [z Ez]. rewrite Ez. cbn [bind]. destruct (argmin_map_first (fun x => x) _ _ _ Ez) as [m [-> [FM Hm]]].
    rewrite (pyget_nth cs _ (0, 0, 0)) by exact Hm. cbn [bind]. cbn zeta. rewrite Nat2Z.id.
    set (b := nth m cs (0, 0, 0)). set (l1 := firstn m cs). set (l2 := skipn (S m) cs).
    assert (L1 : length l1 = m) by (unfold l1; rewrite firstn_length; lia).
    assert (E : cs = l1 ++ b :: l2).
    { unfold l1, b, l2. clear - Hm. revert m Hm. induction cs as [|c cs IH]; intros [|m] Hm; cbn in *; try lia; [reflexivity|]. f_equal. apply IH. lia. }
    assert (N1 : forall c, In c l1 -> exists j, (j < m)%nat /\ nth j cs (0, 0, 0) = c).
    { intros c H. apply (In_nth _ _ (0, 0, 0)) in H. destruct H as [j [Hj <-]]. exists j. split; [lia|]. rewrite E. now rewrite app_nth1. }
    assert (N2 : forall c, In c l2 -> exists j, (m < j < length cs)%nat /\ nth j cs (0, 0, 0) = c).
    { intros c H. apply (In_nth _ _ (0, 0, 0)) in H. destruct H as [j [Hj <-]]. exists (m + S j)%nat. split.
      - rewrite E, app_length. cbn [length]. lia.
      - rewrite E, app_nth2 by lia. rewrite L1. replace (m + S j - m)%nat with (S j) by lia. reflexivity. }
    destruct FM as [_ [F1 F2]]. rewrite map_length in F1.
    assert (V : forall j, (j < length cs)%nat -> nth j (map (fun c : R * R * R => nabs (cf0 c)) cs) 0 = Rabs (bend (nth j cs (0, 0, 0)))).
    { intros j Hj. rewrite (nth_indep _ 0 (nabs (cf0 (0, 0, 0)))) by (now rewrite map_length). rewrite (map_nth (fun c : R * R * R => nabs (cf0 c))). reflexivity. }
    destruct (meets_pairs (map (fun c => (c, b)) (l1 ++ l2))) as [ps [Ep M]].
    - intros p q H. apply in_map_iff in H. destruct H as [c [K H]]. injection K as <- <-. apply in_app_or in H.
      assert (J : exists j, (j < length cs)%nat /\ j <> m /\ nth j cs (0, 0, 0) = c).
      { destruct H as [H|H]; [destruct (N1 c H) as [j [Hj Ej]]|destruct (N2 c H) as [j [Hj Ej]]]; exists j; repeat split; auto; lia. }
      destruct J as [j [Hj [Nj Ej]]]. specialize (Hc j m Hj Hm Nj). unfold curv in Hc. rewrite Ej in Hc. exact Hc.
    - exists (map (fun c => (c, b)) (l1 ++ l2)), (concat ps). split; [|split; [|exact M]].
      + assert (X : forall l, mapM (fun c => pair_points roots c b) l = mapM (fun pq : (R * R * R) * (R * R * R) => pair_points roots (fst pq) (snd pq)) (map (fun c => (c, b)) l)).
        { induction l as [|c l IH]; [reflexivity|]. cbn [map mapM fst snd]. now rewrite IH. }
        rewrite X, Ep. reflexivity.
      + exists l1, b, l2. split; [exact E|]. split; [|split; [|reflexivity]].
        * intros c H. destruct (N1 c H) as [j [Hj <-]]. specialize (F2 j Hj). rewrite !V in F2 by lia. exact F2.
        * intros c H. destruct (N2 c H) as [j [Hj <-]]. specialize (F1 j ltac:(lia)). rewrite !V in F1 by lia. exact F1.
  Qed.
  Lemma centre_meets hl vl : hl <> [] -> vl <> [] -> exists a c xc yc, vanishing_center polyfit hl vl = Ok (xc, yc) /\ lines_meet polyfit hl vl a c xc yc.
  Proof.
    intros Hh Hv. unfold vanishing_center.
    destruct (fit1_total polyfit PF (map fst hl) (map snd hl)) as [[a b] E1]; [now destruct hl|now rewrite !map_length|].
    destruct (fit1_total polyfit PF (map fst vl) (map snd vl)) as [[c d] E2]; [now destruct vl|now rewrite !map_length|].
    rewrite E1. cbn [bind]. rewrite E2. cbn [bind]. exists a, c. do 2 eexists. split; [reflexivity|].
    assert (Q : forall xs ys u v, fit1 polyfit xs ys = Ok (u, v) -> polyfit xs ys 1%nat = Ok [u; v]).
    { intros xs ys u v H. unfold fit1 in H. destruct (polyfit xs ys 1%nat) as [[|u' [|v' [|]]]|]; try discriminate H. cbn in H. congruence. }
    exists b, d. split; [now apply Q|]. split; [now apply Q|]. intros N. cbn. split; field; lra.
  Qed.
End Lemmas.

(** Every input: the centre is where the line fitted to the vanishing points of
    the horizontal lines meets the one fitted to those of the vertical lines;
    with two or fewer vanishing points it is the result of find_cod_bailey. *)
Theorem C85_crossing : forall polyfit argsort roots lh lv ch cv, polyfit_oracle polyfit -> roots_oracle roots -> argsort_spec argsort ->
  parabolas_hor (N := Rexact) polyfit 0 0 lh ch -> parabolas_ver (N := Rexact) polyfit 0 0 lv cv ->
  let result := @find_center_based_vanishing_points R Rexact polyfit argsort roots lh lv in
  exists hp vp hl vl, pairs_opposite ch hp /\ meeting_points hp hl /\ pairs_opposite cv vp /\ meeting_points vp vl /\
    ((2 < length hl)%nat -> (2 < length vl)%nat -> exists a c xc yc, result = Ok (xc, yc) /\ lines_meet polyfit hl vl a c xc yc) /\
    ((length hl <= 2)%nat \/ (length vl <= 2)%nat -> result = @find_cod_bailey R Rexact polyfit lh lv 2).
Proof.
  intros polyfit argsort roots lh lv ch cv PF RO AS Ph Pv result.
  destruct (opposite_ok roots argsort RO AS ch) as [hp [hl [Eh [Hp Hm]]]]. destruct (opposite_ok roots argsort RO AS cv) as [vp [vl [Ev [Vp Vm]]]]. unfold NX in *.
  exists hp, vp, hl, vl. split; [exact Hp|]. split; [exact Hm|]. split; [exact Vp|]. split; [exact Vm|].
  pose proof (parabolas_hor_fit polyfit lh 0 0 ch Ph) as Gh. pose proof (parabolas_ver_fit polyfit lv 0 0 cv Pv) as Gv.
  assert (S0 : forall lines : list (list (R * R)), map (map (fun p : R * R => (@nsub R Rexact (fst p) 0, @nsub R Rexact (snd p) 0))) lines = lines) by (intros lines; exact (shift0 lines)).
  rewrite S0 in Gh, Gv.
  assert (E : result = if (2 <? Z.of_nat (length hl))%Z then (if (2 <? Z.of_nat (length vl))%Z then @vanishing_center R Rexact polyfit hl vl else @find_cod_bailey R Rexact polyfit lh lv 2)
    else @find_cod_bailey R Rexact polyfit lh lv 2).
  { unfold result, find_center_based_vanishing_points. cbn [n0 nofZ Rexact Rst]. rewrite Gh. cbn [bind]. rewrite Gv. cbn [bind fst snd]. rewrite Eh. cbn [bind].
    destruct (2 <? Z.of_nat (length hl))%Z; [|reflexivity]. rewrite Ev. cbn [bind]. reflexivity. }
  rewrite E. split.
  - intros L1 L2. rewrite (len2 _ L1), (len2 _ L2). apply (centre_meets polyfit PF); intros ->; cbn in L1, L2; lia.
  - intros [L|L]; apply Nat2Z.inj_le in L; change (Z.of_nat 2) with 2%Z in L; apply Z.ltb_ge in L; rewrite L; [reflexivity|]. now destruct (2 <? Z.of_nat (length hl))%Z.
Qed.
Print Assumptions C85_crossing.
(** The iterative method starts from the same construction with the other
    pairs, if no two lines of a direction have the same curvature. *)
Theorem C85_iteration_start : forall polyfit argsort lstsq roots lh lv ch cv method, polyfit_oracle polyfit -> roots_oracle roots ->
  parabolas_hor (N := Rexact) polyfit 0 0 lh ch -> parabolas_ver (N := Rexact) polyfit 0 0 lv cv -> lh <> [] -> lv <> [] ->
  (forall cs i j, cs = ch \/ cs = cv -> (i < length cs)%nat -> (j < length cs)%nat -> i <> j -> curv cs i <> curv cs j) ->
  let result := @find_center_based_vanishing_points_iteration R Rexact polyfit argsort cos atan lstsq roots lh lv 0 method in
  exists hp vp hl vl, pairs_flattest ch hp /\ meeting_points hp hl /\ pairs_flattest cv vp /\ meeting_points vp vl /\
    ((2 < length hl)%nat -> (2 < length vl)%nat -> exists a c xc yc, result = Ok (xc, yc) /\ lines_meet polyfit hl vl a c xc yc) /\
    ((length hl <= 2)%nat \/ (length vl <= 2)%nat -> result = @find_cod_bailey R Rexact polyfit lh lv 2).
Proof.
  intros polyfit argsort lstsq roots lh lv ch cv method PF RO Ph Pv Nh Nv Hc result.
  assert (NE : forall cs lines (P : list (R * R) -> R * R * R -> Prop), Forall2 P lines cs -> lines <> [] -> cs <> []) by (intros cs lines P F Hl ->; inversion F; congruence).
  destruct (flattest_ok roots RO ch (NE _ _ _ Ph Nh) (fun i j => Hc ch i j (or_introl eq_refl))) as [hp [hl [Eh [Hp Hm]]]].
  destruct (flattest_ok roots RO cv (NE _ _ _ Pv Nv) (fun i j => Hc cv i j (or_intror eq_refl))) as [vp [vl [Ev [Vp Vm]]]]. unfold NX in *.
  exists hp, vp, hl, vl. split; [exact Hp|]. split; [exact Hm|]. split; [exact Vp|]. split; [exact Vm|].
  pose proof (parabolas_hor_fit polyfit lh 0 0 ch Ph) as Gh. pose proof (parabolas_ver_fit polyfit lv 0 0 cv Pv) as Gv.
  assert (S0 : forall lines : list (list (R * R)), map (map (fun p : R * R => (@nsub R Rexact (fst p) 0, @nsub R Rexact (snd p) 0))) lines = lines) by (intros lines; exact (shift0 lines)).
  rewrite S0 in Gh, Gv.
  assert (E : result = if (2 <? Z.of_nat (length hl))%Z then (if (2 <? Z.of_nat (length vl))%Z then @vanishing_center R Rexact polyfit hl vl else @find_cod_bailey R Rexact polyfit lh lv 2)
    else @find_cod_bailey R Rexact polyfit lh lv 2).
  { assert (W : forall r : res (R * R), (c0 <- r ;; Ok c0) = r) by (intros [r|e]; reflexivity).
    unfold result, find_center_based_vanishing_points_iteration. change (Z.to_nat 0) with 0%nat. cbn [vanishing_loop]. rewrite W.
    unfold find_center_2nd_way. cbn [n0 nofZ Rexact Rst]. rewrite Gh. cbn [bind]. rewrite Gv. cbn [bind fst snd]. rewrite Eh. cbn [bind].
    destruct (2 <? Z.of_nat (length hl))%Z; [|reflexivity]. rewrite Ev. cbn [bind]. reflexivity. }
  rewrite E. split.
  - intros L1 L2. rewrite (len2 _ L1), (len2 _ L2). apply (centre_meets polyfit PF); intros ->; cbn in L1, L2; lia.
  - intros [L|L]; apply Nat2Z.inj_le in L; change (Z.of_nat 2) with 2%Z in L; apply Z.ltb_ge in L; rewrite L; [reflexivity|]. now destruct (2 <? Z.of_nat (length hl))%Z.
Qed.
Print Assumptions C85_iteration_start.
(** The grid of C85_ex: both directions have four vanishing points. *)
Lemma four_points a b c d x hp hl : 0 < bend a -> 0 < bend b -> bend c < 0 -> bend d < 0 ->
  (forall e, In e [a; b; c; d] -> parabola e x = parabola a x) -> pairs_opposite [a; b; c; d] hp -> meeting_points hp hl -> length hl = 4%nat.
Proof.
  intros A B C D X [u [w [u' [w' [Su [Sw [Pu [Pw [_ [_ ->]]]]]]]]]] [ps [F ->]].
  assert (Y : forall (P : R * R * R -> Prop) e l s, P e -> selects P (e :: l) s -> exists s', s = e :: s' /\ selects P l s') by (intros P e l s He S; inversion S; subst; [eauto|contradiction]).
  assert (N : forall (P : R * R * R -> Prop) e l s, ~ P e -> selects P (e :: l) s -> selects P l s) by (intros P e l s He S; inversion S; subst; [contradiction|assumption]).
  assert (Z : forall (P : R * R * R -> Prop) s, selects P [] s -> s = []) by (intros P s S; now inversion S).
  apply Y in Su; [|exact A]. destruct Su as [s1 [-> Su]]. apply Y in Su; [|exact B]. destruct Su as [s2 [-> Su]].
  apply N in Su; [|lra]. apply N in Su; [|lra]. apply Z in Su. subst s2.
  apply N in Sw; [|lra]. apply N in Sw; [|lra]. apply Y in Sw; [|exact C]. destruct Sw as [s3 [-> Sw]]. apply Y in Sw; [|exact D]. destruct Sw as [s4 [-> Sw]]. apply Z in Sw. subst s4.
  assert (L1 := Permutation_length Pu). assert (L2 := Permutation_length Pw).
  destruct u' as [|p1 [|p2 [|]]]; try discriminate L1. destruct w' as [|q1 [|q2 [|]]]; try discriminate L2.
  assert (Q : forall p q l, In p [a; b] -> In q [c; d] -> meets p q l -> length l = 2%nat).
  { intros p q l Hp Hq [[_ M]|[r [s [-> _]]]]; [|reflexivity]. exfalso. apply (M x). rewrite (X p), (X q); [reflexivity|cbn in *; tauto|cbn in *; tauto]. }
  cbn [combine] in F. inversion F as [|? m1 ? ? M1 F1]; subst. inversion F1 as [|? m2 ? ? M2 F2]; subst. inversion F2; subst. cbn [fst snd] in *.
  cbn [concat]. rewrite !app_length. rewrite (Q p1 q1 m1), (Q p2 q2 m2); auto; try (rewrite <- Pu; cbn; tauto); rewrite <- Pw; cbn; tauto.
Qed.
Example C85_crossing_case : let lh := grid_hor (-1) 2 3 [0; 1; 4; 5] [0; 1; 5] in let lv := grid_ver (-1) 2 3 [0; 1; 3; 4] [0; 1; 5] in
  exists ch cv hp vp hl vl a c, parabolas_hor (N := Rexact) pf_R 0 0 lh ch /\ parabolas_ver (N := Rexact) pf_R 0 0 lv cv /\
    pairs_opposite ch hp /\ meeting_points hp hl /\ pairs_opposite cv vp /\ meeting_points vp vl /\ length hl = 4%nat /\ length vl = 4%nat /\
    lines_meet pf_R hl vl a c 2 3 /\ @find_center_based_vanishing_points R Rexact pf_R AI roots_R lh lv = Ok (2, 3) /\
    (forall i j, (i < 4)%nat -> (j < 4)%nat -> i <> j -> curv ch i <> curv ch j).
Proof.
  intros lh lv.
  assert (Fh : Forall2 (ideal_hor (-1) 2 3) [0; 1; 4; 5] lh) by (apply grid_hor_ideal; distinct_lit).
  assert (Fv : Forall2 (ideal_ver (-1) 2 3) [0; 1; 3; 4] lv) by (apply grid_ver_ideal; distinct_lit).
  pose proof (fit_parabolas_hor pf_R _ _ _ _ _ (ideal_fit_hor pf_R pf_R_ok (-1) 2 3 0 0 _ lh Fh)) as Ph.
  pose proof (fit_parabolas_ver pf_R _ _ _ _ _ (ideal_fit_ver pf_R pf_R_ok (-1) 2 3 0 0 _ lv Fv)) as Pv.
  set (ch := map _ [0; 1; 4; 5]) in Ph. set (cv := map _ [0; 1; 3; 4]) in Pv.
  assert (R1 : @find_center_based_vanishing_points R Rexact pf_R AI roots_R lh lv = Ok (2, 3)) by (apply C85_ex).
  destruct (C85_crossing pf_R AI roots_R lh lv ch cv pf_R_ok roots_R_ok AI_ok Ph Pv) as [hp [vp [hl [vl [H1 [H2 [H3 [H4 [H5 _]]]]]]]]].
  assert (L1 : length hl = 4%nat).
  { refine (four_points _ _ _ _ 3 _ _ _ _ _ _ _ H1 H2); unfold bend, ideal_coef; cbn [fst snd]; try lra.
    intros e He. cbn [In] in He. unfold parabola, ideal_coef in *. intuition (subst e; cbn [fst snd]; lra). }
  assert (L2 : length vl = 4%nat).
  { refine (four_points _ _ _ _ 4 _ _ _ _ _ _ _ H3 H4); unfold bend, ideal_coef; cbn [fst snd]; try lra.
    intros e He. cbn [In] in He. unfold parabola, ideal_coef in *. intuition (subst e; cbn [fst snd]; lra). }
  destruct H5 as [a [c [x [y [E M]]]]]; [lia|lia|]. pose proof (eq_trans (eq_sym E) R1) as G. injection G as -> ->.
  exists ch, cv, hp, vp, hl, vl, a, c. repeat (split; [assumption|]).
  intros i j Hi Hj D. unfold ch, curv, ideal_coef.
  destruct i as [|[|[|[|]]]]; destruct j as [|[|[|[|]]]]; try lia; cbn [map nth fst snd]; lra.
Qed.
(** Each further iteration corrects the perspective effect about the centre
    found so far, moves the origin there and adds the centre found from the
    moved lines. *)
Definition moved (x y : R) (lines : list (list (R * R))) : list (list (R * R)) := map (map (fun p => (fst p - y, snd p - x))) lines.
Theorem C85_steps : forall polyfit argsort lstsq roots lh lv n method, polyfit_oracle polyfit -> (0 <= n)%Z ->
  let iterate lh lv n := @find_center_based_vanishing_points_iteration R Rexact polyfit argsort cos atan lstsq roots lh lv n method in
  let correct x y := @correct_perspective_effect R Rexact polyfit argsort cos atan lstsq lh lv x y method ScMean in
  (forall x y lh' lv' dx dy, iterate lh lv n = Ok (x, y) -> correct x y = Ok (lh', lv') -> (forall l, In l (lh' ++ lv') -> l <> []) ->
     iterate (moved x y lh') (moved x y lv') 0%Z = Ok (dx, dy) -> iterate lh lv (n + 1)%Z = Ok (x + dx, y + dy)) /\
  (forall e, iterate lh lv n = Err e -> iterate lh lv (n + 1)%Z = Err e) /\
  (forall x y e, iterate lh lv n = Ok (x, y) -> correct x y = Err e -> iterate lh lv (n + 1)%Z = Err e) /\
  (forall x y lh' lv' e, iterate lh lv n = Ok (x, y) -> correct x y = Ok (lh', lv') -> (forall l, In l (lh' ++ lv') -> l <> []) ->
     iterate (moved x y lh') (moved x y lv') 0%Z = Err e -> iterate lh lv (n + 1)%Z = Err e).
Proof.
  intros polyfit argsort lstsq roots lh lv n method PF Hn iterate correct.
  set (step := fun c : R * R => let (x, y) := c in l1 <- correct x y ;; h1 <- @para_fit_hor R Rexact polyfit (fst l1) x y ;; v1 <- @para_fit_ver R Rexact polyfit (snd l1) x y ;;
    c1 <- @find_center_2nd_way R Rexact polyfit roots (snd h1) (snd v1) ;; Ok (x + fst c1, y + snd c1)).
  assert (LS : forall k c, @vanishing_loop R Rexact polyfit argsort cos atan lstsq roots lh lv method (S k) c = bind (step c) (fun c' => @vanishing_loop R Rexact polyfit argsort cos atan lstsq roots lh lv method k c')).
  { intros k [x y]. cbn [vanishing_loop]. unfold step, correct. destruct (correct_perspective_effect _ _ _ _ _ _ _ _ _ _ _) as [l1|e]; [|reflexivity]. cbn [bind].
    destruct (para_fit_hor _ _ _ _) as [h1|e]; [|reflexivity]. cbn [bind]. destruct (para_fit_ver _ _ _ _) as [v1|e]; [|reflexivity]. cbn [bind].
    destruct (find_center_2nd_way _ _ _ _) as [c1|e]; reflexivity. }
  assert (LE : forall k c, @vanishing_loop R Rexact polyfit argsort cos atan lstsq roots lh lv method (S k) c = bind (@vanishing_loop R Rexact polyfit argsort cos atan lstsq roots lh lv method k c) step).
  { induction k as [|k IH]; intros c.
    - rewrite LS. cbn [vanishing_loop bind]. destruct (step c); reflexivity.
    - rewrite LS. rewrite (LS k c). destruct (step c) as [c'|e]; [|reflexivity]. cbn [bind]. apply IH. }
  assert (ST : iterate lh lv (n + 1)%Z = bind (iterate lh lv n) step).
  { unfold iterate, find_center_based_vanishing_points_iteration. destruct (find_center_2nd_way _ _ lh lv) as [c|e]; [|reflexivity]. cbn [bind].
    replace (Z.to_nat (n + 1)) with (S (Z.to_nat n)) by lia. apply LE. }
  assert (I0 : forall a b, iterate a b 0%Z = @find_center_2nd_way R Rexact polyfit roots a b).
  { intros a b. unfold iterate, find_center_based_vanishing_points_iteration. change (Z.to_nat 0) with 0%nat. cbn [vanishing_loop]. now destruct (find_center_2nd_way _ _ a b). }
  assert (SH : forall x y lh' lv', correct x y = Ok (lh', lv') -> (forall l, In l (lh' ++ lv') -> l <> []) ->
    step (x, y) = c1 <- iterate (moved x y lh') (moved x y lv') 0%Z ;; Ok (x + fst c1, y + snd c1)).
  { intros x y lh' lv' E Hl. unfold step. rewrite E. cbn [bind fst snd].
    assert (Hh : forall l, In l lh' -> l <> []) by (intros; apply Hl; apply in_or_app; now left).
    assert (Hv : forall l, In l lv' -> l <> []) by (intros; apply Hl; apply in_or_app; now right).
    destruct (para_hor_total (fun x => x) polyfit PF lh' x y Hh) as [ch [sh Eh]]. destruct (para_ver_total (fun x => x) polyfit PF lv' x y Hv) as [cv [sv Ev]].
    assert (G1 : @para_fit_hor R Rexact polyfit lh' x y = Ok (ch, sh)) by exact Eh. assert (G2 : @para_fit_ver R Rexact polyfit lv' x y = Ok (cv, sv)) by exact Ev.
    apply (@para_hor_lines R Rexact) in G1 as S1. apply (@para_ver_lines R Rexact) in G2 as S2.
    assert (M1 : sh = moved x y lh') by (etransitivity; [apply S1|reflexivity]). assert (M2 : sv = moved x y lv') by (etransitivity; [apply S2|reflexivity]).
    rewrite G1. cbn [bind]. rewrite G2. cbn [bind snd]. rewrite M1, M2, I0. reflexivity. }
  rewrite ST. split; [|split; [|split]].
  - intros x y lh' lv' dx dy E C Hl D. rewrite E. cbn [bind]. rewrite (SH x y lh' lv' C Hl), D. reflexivity.
  - intros e E. rewrite E. reflexivity.
  - intros x y e E C. rewrite E. cbn [bind]. unfold step. rewrite C. reflexivity.
  - intros x y lh' lv' e E C Hl D. rewrite E. cbn [bind]. rewrite (SH x y lh' lv' C Hl), D. reflexivity.
Qed.
Print Assumptions C85_steps.
(** On the grid of C85_ex one iteration meets the hypotheses: the corrected
    lines are the lines, and the moved ones have their centre at the origin. *)
Example C85_steps_case : let lh := grid_hor (-1) 2 3 [0; 1; 4; 5] [0; 1; 5] in let lv := grid_ver (-1) 2 3 [0; 1; 3; 4] [0; 1; 5] in
  let iterate lh lv n := @find_center_based_vanishing_points_iteration R Rexact pf_R AI cos atan ls_R roots_R lh lv n RMean in
  iterate lh lv 0%Z = Ok (2, 3) /\ @correct_perspective_effect R Rexact pf_R AI cos atan ls_R lh lv 2 3 RMean ScMean = Ok (lh, lv) /\
  (forall l, In l (lh ++ lv) -> l <> []) /\ exists dx dy, iterate (moved 2 3 lh) (moved 2 3 lv) 0%Z = Ok (dx, dy) /\ dx = 0 /\ dy = 0.
Proof.
  intros lh lv iterate. destruct C85_ex as [_ [_ [_ [H1 H2]]]]. fold lh lv in H1, H2. split; [apply H1|]. split; [apply H2|].
  assert (NE : forall l, In l (lh ++ lv) -> l <> []) by (unfold lh, lv, grid_hor, grid_ver; cbn [map app In]; intuition (subst; discriminate)).
  split; [exact NE|].
  destruct (C85_steps pf_R AI ls_R roots_R lh lv 0 RMean pf_R_ok ltac:(lia)) as [S1 [_ [_ S2]]].
  destruct (iterate (moved 2 3 lh) (moved 2 3 lv) 0%Z) as [[dx dy]|e] eqn:E.
  - exists dx, dy. split; [reflexivity|]. specialize (S1 2 3 lh lv dx dy (H1 0%Z RMean) (H2 RMean) NE E).
    pose proof (eq_trans (eq_sym (H1 (0 + 1)%Z RMean)) S1) as G. injection G as G1 G2. lra.
  - exfalso. specialize (S2 2 3 lh lv e (H1 0%Z RMean) (H2 RMean) NE E). pose proof (eq_trans (eq_sym (H1 (0 + 1)%Z RMean)) S2) as G. discriminate G.
Qed.
