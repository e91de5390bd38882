(** Facts on discorpy/proc/processing.py: four points, perspective
    coefficients. *)
From Coq Require Import Reals ZArith List Lra Lia Permutation Sorted.
From Flocq Require Import Core.
From Verif Require Import Base Num NumFacts Spec Lsq ProcSpec PersSpec PrepSpec Sorting Img PrepImg PrepPts PrepFacts PrepFacts2 Post PostPersp PostLines2 PostExtra
  Proc ProcPers ProcFacts ProcFacts2 ProcFacts3 PersFacts.
Import ListNotations.
Local Open Scope R_scope.

(** *** Sorting *)
Lemma sorted_split {A} (key : A -> R) K l : StronglySorted (fun a b => key a <= key b) l ->
  l = filter (fun a => Rle_bool (key a) K) l ++ filter (fun a => negb (Rle_bool (key a) K)) l.
Proof.
  induction l as [|a l IH]; intros S; [reflexivity|]. inversion S as [|? ? S' F]; subst. cbn [filter].
  destruct (Rle_bool_spec (key a) K) as [H|H]; cbn [negb app].
  - f_equal. now apply IH.
  - assert (G : forall b, In b l -> Rle_bool (key b) K = false).
    { intros b Hb. rewrite Forall_forall in F. specialize (F b Hb). apply Rle_bool_false. lra. }
    assert (E1 : filter (fun a => Rle_bool (key a) K) l = []).
    { clear -G. induction l as [|b l IH]; [reflexivity|]. cbn [filter]. rewrite (G b (or_introl eq_refl)). apply IH. intros; apply G; now right. }
    assert (E2 : filter (fun a => negb (Rle_bool (key a) K)) l = l).
    { clear -G. induction l as [|b l IH]; [reflexivity|]. cbn [filter]. rewrite (G b (or_introl eq_refl)). cbn [negb]. f_equal. apply IH. intros; apply G; now right. }
    rewrite E1, E2. reflexivity.
Qed.
Lemma Permutation_filter' {A} (f : A -> bool) l m : Permutation l m -> Permutation (filter f l) (filter f m).
Proof.
  induction 1 as [|x l m P IH|x y l|l m k P1 IH1 P2 IH2]; cbn [filter].
  - constructor.
  - destruct (f x); [now constructor|assumption].
  - destruct (f x), (f y); try apply Permutation_refl. apply perm_swap.
  - now transitivity (filter f m).
Qed.
Lemma sorted_halves {A} (key : A -> R) K l m1 m2 : StronglySorted (fun a b => key a <= key b) l -> Permutation l (m1 ++ m2) ->
  (forall a, In a m1 -> key a <= K) -> (forall a, In a m2 -> K < key a) ->
  Permutation (firstn (length m1) l) m1 /\ Permutation (skipn (length m1) l) m2.
Proof.
  intros S P H1 H2. rewrite (sorted_split key K l S).
  assert (F1 : filter (fun a => Rle_bool (key a) K) (m1 ++ m2) = m1).
  { rewrite filter_app.
    assert (E1 : filter (fun a => Rle_bool (key a) K) m1 = m1).
    { clear -H1. induction m1 as [|b l IH]; [reflexivity|]. cbn [filter]. rewrite Rle_bool_true by (apply H1; now left). f_equal. apply IH. intros; apply H1; now right. }
    assert (E2 : filter (fun a => Rle_bool (key a) K) m2 = []).
    { clear -H2. induction m2 as [|b l IH]; [reflexivity|]. cbn [filter]. rewrite Rle_bool_false by (apply H2; now left). apply IH. intros; apply H2; now right. }
    now rewrite E1, E2, app_nil_r. }
  assert (F2 : filter (fun a => negb (Rle_bool (key a) K)) (m1 ++ m2) = m2).
  { rewrite filter_app.
    assert (E1 : filter (fun a => negb (Rle_bool (key a) K)) m1 = []).
    { clear -H1. induction m1 as [|b l IH]; [reflexivity|]. cbn [filter]. rewrite Rle_bool_true by (apply H1; now left). cbn [negb]. apply IH. intros; apply H1; now right. }
    assert (E2 : filter (fun a => negb (Rle_bool (key a) K)) m2 = m2).
    { clear -H2. induction m2 as [|b l IH]; [reflexivity|]. cbn [filter]. rewrite Rle_bool_false by (apply H2; now left). cbn [negb]. f_equal. apply IH. intros; apply H2; now right. }
    now rewrite E1, E2. }
  pose proof (Permutation_filter' (fun a => Rle_bool (key a) K) _ _ P) as P1. rewrite F1 in P1.
  pose proof (Permutation_filter' (fun a => negb (Rle_bool (key a) K)) _ _ P) as P2. rewrite F2 in P2.
  set (l1 := filter (fun a => Rle_bool (key a) K) l) in *. set (l2 := filter (fun a => negb (Rle_bool (key a) K)) l) in *.
  assert (L : length m1 = length l1) by (symmetry; now apply Permutation_length).
  rewrite L. rewrite firstn_app, skipn_app, Nat.sub_diag, firstn_all, skipn_all. cbn [firstn skipn app]. rewrite app_nil_r. now split.
Qed.
Lemma sorted_pair {A} (key : A -> R) l a b : StronglySorted (fun a b => key a <= key b) l -> Permutation l [a; b] -> key a < key b -> l = [a; b].
Proof.
  intros S P H. pose proof (Permutation_length P) as L. destruct l as [|x [|y [|]]]; try discriminate L.
  inversion S as [|? ? _ F]; subst. inversion F as [|? ? Fy _]; subst.
  assert (C : x = a /\ y = b \/ x = b /\ y = a).
  { apply Permutation_length_2 in P. intuition. }
  destruct C as [[-> ->]|[-> ->]]; [reflexivity|lra].
Qed.

Section Four.
  Local Instance NF1 : Num R := Rexact.
  Variable argsort : list R -> list nat.
  Hypothesis AS : argsort_spec argsort.
  Lemma four_sorted (pts : list (R * R)) (q1 q2 q3 q4 : R * R) : Permutation pts [q1; q2; q3; q4] -> corners q1 q2 q3 q4 ->
    sort_by argsort snd (lslice (sort_by argsort fst pts) 0 2) = [q1; q2] /\
    sort_by argsort snd (lslice (sort_by argsort fst pts) (-2) 4) = [q3; q4].
  Proof.
    intros P [H1 [H2 [H3 [H4 [H5 H6]]]]]. unfold py, pxc in *. unfold sort_by.
    destruct (gather_argsort argsort (@fst R R) pts AS) as [P1 S1]. set (ls := gather pts (argsort (map fst pts))) in *.
    assert (P2 : Permutation ls ([q1; q2] ++ [q3; q4])) by (now rewrite P1).
    pose proof (Permutation_length P2) as L. cbn in L.
    assert (SP : Permutation (firstn 2 ls) [q1; q2] /\ Permutation (skipn 2 ls) [q3; q4]).
    { apply (sorted_halves (@fst R R) (Rmax (fst q1) (fst q2)) ls [q1; q2] [q3; q4] S1 P2).
      - intros a [<-|[<-|[]]]; [apply Rmax_l|apply Rmax_r].
      - intros a [<-|[<-|[]]]; apply Rmax_lub_lt; assumption. }
    destruct SP as [Pa Pb].
    assert (A1 : lslice ls 0 2 = firstn 2 ls) by (unfold lslice; rewrite L; reflexivity).
    assert (A2 : lslice ls (-2) 4 = firstn 2 (skipn 2 ls)) by (unfold lslice; rewrite L; reflexivity).
    assert (A3 : firstn 2 (skipn 2 ls) = skipn 2 ls) by (apply firstn_all2; rewrite skipn_length; lia).
    rewrite A1, A2, A3. split.
    - destruct (gather_argsort argsort (@snd R R) (firstn 2 ls) AS) as [P3 S3]. apply (sorted_pair (@snd R R) _ q1 q2 S3); [now rewrite P3|assumption].
    - destruct (gather_argsort argsort (@snd R R) (skipn 2 ls) AS) as [P3 S3]. apply (sorted_pair (@snd R R) _ q3 q4 S3); [now rewrite P3|assumption].
  Qed.
  Lemma nmax_R a b : nmax a b = Rmax a b.
  Proof. unfold nmax, Rmax. cbn. destruct (Rle_dec a b); destruct (Rlt_bool_spec a b); try lra; reflexivity. Qed.
  Lemma nmin_R a b : nmin a b = Rmin a b.
  Proof. unfold nmin, Rmin. cbn. destruct (Rle_dec a b); destruct (Rlt_bool_spec b a); try lra; reflexivity. Qed.
  Lemma side_lengths_R scale eq q1 q2 q3 q4 :
    (Rabs (fst (side_lengths scale eq q1 q2 q3 q4)), Rabs (snd (side_lengths scale eq q1 q2 q3 q4))) = sides scale eq q1 q2 q3 q4.
  Proof.
    assert (D : forall p q : R * R, nsqrt (nadd (npow (nsub (snd p) (snd q)) 2) (npow (nsub (fst p) (fst q)) 2)) = dist p q).
    { intros p q. cbn [nsqrt nadd npow nsub NF1 Rexact Rst]. unfold dist. f_equal. unfold py, pxc. ring. }
    unfold side_lengths. cbn zeta. rewrite !D. unfold sides.
    assert (HF : nofQ 1 2 = 1 / 2) by reflexivity. rewrite HF.
    destruct scale, eq; cbn [pick common_step fst snd]; rewrite ?nmax_R, ?nmin_R; try reflexivity;
      f_equal; f_equal; cbn [nadd nmul NF1 Rexact Rst]; field.
  Qed.
  Lemma four_points (pts : list (R * R)) (xy : bool) eq scale (q1 q2 q3 q4 : R * R) : Permutation (if xy then map swap pts else pts) [q1; q2; q3; q4] -> corners q1 q2 q3 q4 ->
    exists p1 p2 p3 p4 c, generate_4_source_target_perspective_points argsort cos atan pts xy eq scale = Ok ([q1; q2; q3; q4], [p1; p2; p3; p4]) /\
      on_hor (slope0 q1 q2 q3 q4, (hor_inter q1 q2 + hor_inter q3 q4) / 2) c /\
      on_ver (- slope0 q1 q2 q3 q4, (ver_inter q1 q3 + ver_inter q2 q4) / 2) c /\
      target_of (slope0 q1 q2 q3 q4) c (sides scale eq q1 q2 q3 q4) p1 p2 p3 p4.
  Proof.
    intros P C. unfold generate_4_source_target_perspective_points.
    assert (E0 : map (fun p : R * R => (nf32 (fst p), nf32 (snd p))) pts = pts).
    { rewrite <- (map_id pts) at 2. apply map_ext. intros [y x]. reflexivity. }
    cbn zeta. rewrite E0. set (ps := if xy then fliplr pts else pts). assert (P' : Permutation ps [q1; q2; q3; q4]) by exact P.
    rewrite (Permutation_length P'). cbn [length Nat.eqb negb].
    destruct (four_sorted ps q1 q2 q3 q4 P' C) as [E1 E2]. rewrite E1, E2.
    destruct C as [C1 [C2 [C3 [C4 [C5 C6]]]]].
    destruct q1 as [y1 x1] eqn:Q1, q2 as [y2 x2] eqn:Q2, q3 as [y3 x3] eqn:Q3, q4 as [y4 x4] eqn:Q4.
    rewrite <- Q1, <- Q2, <- Q3, <- Q4.
    pose proof (side_lengths_R scale eq q1 q2 q3 q4) as SL.
    destruct (side_lengths scale eq q1 q2 q3 q4) as [H V]. cbn [fst snd] in SL. rewrite <- SL.
    cbn [py pxc fst snd] in *. unfold py, pxc in C1, C2, C3, C4, C5, C6. cbn [fst snd] in *.
    set (ah0 := nmul (nadd (ndiv (nsub y1 y2) (nsub x1 x2)) (ndiv (nsub y3 y4) (nsub x3 x4))) (nofQ 1 2)).
    set (av0 := nmul (nadd (ndiv (nsub x1 x3) (nsub y1 y3)) (ndiv (nsub x2 x4) (nsub y2 y4))) (nofQ 1 2)).
    set (a0 := nmul (nmul (nsign ah0) (nadd (nabs ah0) (nabs av0))) (nofQ 1 2)).
    assert (Ah : ah0 = (hor_slope q1 q2 + hor_slope q3 q4) / 2).
    { unfold ah0, hor_slope. rewrite Q1, Q2, Q3, Q4. unfold py, pxc. cbn [fst snd nmul nadd ndiv nsub nofQ NF1 Rexact Rst]. field. lra. }
    assert (Av : av0 = (ver_slope q1 q3 + ver_slope q2 q4) / 2).
    { unfold av0, ver_slope. rewrite Q1, Q2, Q3, Q4. unfold py, pxc. cbn [fst snd nmul nadd ndiv nsub nofQ NF1 Rexact Rst]. field. lra. }
    assert (A0 : a0 = slope0 q1 q2 q3 q4).
    { unfold a0, slope0. rewrite <- Ah, <- Av. pose proof (nsign_R (fun x => x) ah0) as NS. unfold NSt2 in NS.
      change (nsign ah0) with (@nsign R (Rst (fun x => x)) ah0). rewrite NS. cbn [nmul nadd nabs nofQ NF1 Rexact Rst]. field. }
    assert (Bh : nmul (nadd (nsub y1 (nmul (ndiv (nsub y1 y2) (nsub x1 x2)) x1)) (nsub y3 (nmul (ndiv (nsub y3 y4) (nsub x3 x4)) x3))) (nofQ 1 2)
                 = (hor_inter q1 q2 + hor_inter q3 q4) / 2).
    { unfold hor_inter, hor_slope. rewrite Q1, Q2, Q3, Q4. unfold py, pxc. cbn [fst snd nmul nadd ndiv nsub nofQ NF1 Rexact Rst]. field. lra. }
    assert (Bv : nmul (nadd (nsub x1 (nmul (ndiv (nsub x1 x3) (nsub y1 y3)) y1)) (nsub x2 (nmul (ndiv (nsub x2 x4) (nsub y2 y4)) y2))) (nofQ 1 2)
                 = (ver_inter q1 q3 + ver_inter q2 q4) / 2).
    { unfold ver_inter, ver_slope. rewrite Q1, Q2, Q3, Q4. unfold py, pxc. cbn [fst snd nmul nadd ndiv nsub nofQ NF1 Rexact Rst]. field. lra. }
    rewrite Bh, Bv, A0. set (bh := (hor_inter q1 q2 + hor_inter q3 q4) / 2). set (bv := (ver_inter q1 q3 + ver_inter q2 q4) / 2).
    set (a := slope0 q1 q2 q3 q4). clearbody a bh bv.
    assert (Sp : 0 < 1 + a ^ 2) by (pose proof (pow2_ge_0 a); lra).
    assert (Cs : forall d, nabs (ndiv (nmul d (nofQ 1 2)) (cos (atan a))) = Rabs d / 2 * sqrt (1 + a ^ 2)).
    { intros d. rewrite cos_atan. cbn [nabs ndiv nmul nofQ NF1 Rexact Rst]. replace (1 + Rsqr a) with (1 + a ^ 2) by (unfold Rsqr; ring).
      pose proof (sqrt_lt_R0 _ Sp). replace (d * (1 / 2) / (1 / sqrt (1 + a ^ 2))) with (d * (sqrt (1 + a ^ 2) / 2)) by (field; lra).
      rewrite Rabs_mult, (Rabs_right (sqrt (1 + a ^ 2) / 2)) by lra. field. }
    rewrite !Cs. set (r := sqrt (1 + a ^ 2)).
    assert (Rr : r * r = 1 + a ^ 2) by (apply sqrt_sqrt; lra). assert (R0 : 0 < r) by (now apply sqrt_lt_R0).
    do 4 eexists. exists ((a * bv + bh) / (1 + a ^ 2), (bv - a * bh) / (1 + a ^ 2)).
    split; [reflexivity|]. split; [unfold on_hor, py, pxc; cbn [fst snd]; field; lra|]. split; [unfold on_ver, py, pxc; cbn [fst snd]; field; lra|].
    unfold target_of. cbn zeta. fold r. unfold pscale, padd, psub, py, pxc. cbn [fst snd].
    cbn [nmul nadd ndiv nsub nofQ nopp npow NF1 Rexact Rst]. change n1 with 1. rewrite <- Rr.
    assert (HX : forall u v, - a * ((a * u + v) / (r * r)) + u = (u - a * v) / (r * r)).
    { intros u v. apply (Rmult_eq_reg_r (r * r)); [|nra].
      replace ((- a * ((a * u + v) / (r * r)) + u) * (r * r)) with (- a * (a * u + v) + u * (r * r)) by (field; lra).
      replace ((u - a * v) / (r * r) * (r * r)) with (u - a * v) by (field; lra). rewrite Rr. ring. }
    rewrite !HX. repeat apply conj; apply pair_equal_spec; split; field; lra.
  Qed.
End Four.

Lemma dist_scale_dir a k (p q : pt) : psub q p = pscale k (a, 1) \/ psub q p = pscale k (1, - a) -> dist p q = Rabs k * sqrt (1 + a ^ 2).
Proof.
  intros H. assert (Sp : 0 < 1 + a ^ 2) by (pose proof (pow2_ge_0 a); lra). unfold dist.
  replace ((py p - py q) * (py p - py q) + (pxc p - pxc q) * (pxc p - pxc q)) with (Rsqr k * (1 + a ^ 2)).
  - rewrite sqrt_mult by (try apply Rle_0_sqr; lra). now rewrite sqrt_Rsqr_abs.
  - unfold Rsqr. unfold psub, pscale, py, pxc in *. cbn [fst snd] in H.
    destruct H as [H|H]; apply pair_equal_spec in H; destruct H as [H1 H2].
    + replace (fst p - fst q) with (- (k * a)) by lra. replace (snd p - snd q) with (- (k * 1)) by lra. ring.
    + replace (fst p - fst q) with (- (k * 1)) by lra. replace (snd p - snd q) with (- (k * - a)) by lra. ring.
Qed.
Lemma target_rectangle a c h v p1 p2 p3 p4 : 0 <= h -> 0 <= v -> target_of a c (h, v) p1 p2 p3 p4 ->
  rectangle p1 p2 p3 p4 /\ dist p1 p2 = h /\ dist p1 p3 = v /\ mid p1 p4 = c /\ psub p2 p1 = pscale (h / sqrt (1 + a ^ 2)) (a, 1).
Proof.
  intros Hh Hv [-> [-> [-> ->]]]. assert (Sp : 0 < 1 + a ^ 2) by (pose proof (pow2_ge_0 a); lra). pose proof (sqrt_lt_R0 _ Sp) as R0.
  cbn [fst snd]. set (r := sqrt (1 + a ^ 2)) in *. repeat apply conj.
  - unfold psub, padd, pscale, py, pxc. cbn [fst snd]. f_equal; ring.
  - unfold pdot, psub, padd, pscale, py, pxc. cbn [fst snd]. field. lra.
  - rewrite (dist_scale_dir a (h / r)).
    + fold r. rewrite Rabs_right; [field; lra|]. apply Rle_ge. apply Rmult_le_pos; [assumption|]. left. now apply Rinv_0_lt_compat.
    + left. unfold psub, padd, pscale, py, pxc. cbn [fst snd]. f_equal; field; lra.
  - rewrite (dist_scale_dir a (v / r)).
    + fold r. rewrite Rabs_right; [field; lra|]. apply Rle_ge. apply Rmult_le_pos; [assumption|]. left. now apply Rinv_0_lt_compat.
    + right. unfold psub, padd, pscale, py, pxc. cbn [fst snd]. f_equal; field; lra.
  - unfold mid, psub, padd, pscale, py, pxc. cbn [fst snd]. destruct c as [cy cx]. cbn [fst snd]. f_equal; field; lra.
  - unfold psub, padd, pscale, py, pxc. cbn [fst snd]. f_equal; field; lra.
Qed.
Lemma sides_nonneg scale eq q1 q2 q3 q4 : 0 <= fst (sides scale eq q1 q2 q3 q4) /\ 0 <= snd (sides scale eq q1 q2 q3 q4).
Proof. unfold sides. destruct eq; split; apply Rabs_pos. Qed.
(** A rectangle in corner position: slope m, side vectors u (m, 1) and w (1, -m). *)
Lemma rectangle_form q1 q2 q3 q4 : corners q1 q2 q3 q4 -> rectangle q1 q2 q3 q4 ->
  exists m u w, 0 < u /\ 0 < w /\ q2 = padd q1 (pscale u (m, 1)) /\ q3 = padd q1 (pscale w (1, - m)) /\
    q4 = padd q1 (padd (pscale u (m, 1)) (pscale w (1, - m))).
Proof.
  destruct q1 as [y1 x1], q2 as [y2 x2], q3 as [y3 x3], q4 as [y4 x4].
  unfold corners, rectangle, psub, pdot, padd, pscale, py, pxc. cbn [fst snd]. intros [C1 [C2 [C3 [C4 [C5 C6]]]]] [E O].
  apply pair_equal_spec in E. destruct E as [E1 E2]. exists ((y2 - y1) / (x2 - x1)), (x2 - x1), (y3 - y1).
  split; [lra|]. split; [lra|].
  assert (X3 : x3 - x1 = - ((y3 - y1) * ((y2 - y1) / (x2 - x1)))).
  { apply (Rmult_eq_reg_l (x2 - x1)); [|lra]. replace ((x2 - x1) * - ((y3 - y1) * ((y2 - y1) / (x2 - x1)))) with (- ((y3 - y1) * (y2 - y1))) by (field; lra). lra. }
  repeat apply conj; apply pair_equal_spec; split; try (field; lra).
  - lra.
  - replace ((x2 - x1) * ((y2 - y1) / (x2 - x1))) with (y2 - y1) by (field; lra). lra.
  - lra.
Qed.
Lemma rectangle_fixed scale (eq : bool) q1 q2 q3 q4 p1 p2 p3 p4 c : corners q1 q2 q3 q4 -> rectangle q1 q2 q3 q4 ->
  (forall s, scale = ScVal s -> s = 1) -> (eq = true -> dist q1 q2 = dist q1 q3) ->
  on_hor (slope0 q1 q2 q3 q4, (hor_inter q1 q2 + hor_inter q3 q4) / 2) c ->
  on_ver (- slope0 q1 q2 q3 q4, (ver_inter q1 q3 + ver_inter q2 q4) / 2) c ->
  target_of (slope0 q1 q2 q3 q4) c (sides scale eq q1 q2 q3 q4) p1 p2 p3 p4 ->
  p1 = q1 /\ p2 = q2 /\ p3 = q3 /\ p4 = q4.
Proof.
  intros C Rc Sc He. destruct (rectangle_form q1 q2 q3 q4 C Rc) as [m [u [w [Hu [Hw [E2 [E3 E4]]]]]]].
  assert (Sp : 0 < 1 + m ^ 2) by (pose proof (pow2_ge_0 m); lra). pose proof (sqrt_lt_R0 _ Sp) as R0. set (r := sqrt (1 + m ^ 2)) in *.
  assert (D12 : dist q1 q2 = u * r).
  { rewrite (dist_scale_dir m u); [rewrite Rabs_right by lra; reflexivity|]. left. rewrite E2. unfold psub, padd, pscale, py, pxc. cbn. f_equal; ring. }
  assert (D34 : dist q3 q4 = u * r).
  { rewrite (dist_scale_dir m u); [rewrite Rabs_right by lra; reflexivity|]. left. rewrite E3, E4. unfold psub, padd, pscale, py, pxc. cbn. f_equal; ring. }
  assert (D13 : dist q1 q3 = w * r).
  { rewrite (dist_scale_dir m w); [rewrite Rabs_right by lra; reflexivity|]. right. rewrite E3. unfold psub, padd, pscale, py, pxc. cbn. f_equal; ring. }
  assert (D24 : dist q2 q4 = w * r).
  { rewrite (dist_scale_dir m w); [rewrite Rabs_right by lra; reflexivity|]. right. rewrite E2, E4. unfold psub, padd, pscale, py, pxc. cbn. f_equal; ring. }
  assert (Pk : forall d, pick scale d d = d).
  { intros d. destruct scale; cbn [pick]; try (unfold Rmax, Rmin; destruct (Rle_dec d d); lra). rewrite (Sc v eq_refl). lra. }
  assert (Cm : forall d, common_step scale d d = d).
  { intros d. destruct scale; cbn [common_step]; try (unfold Rmax, Rmin; destruct (Rle_dec d d); lra). }
  assert (SD : sides scale eq q1 q2 q3 q4 = (u * r, w * r)).
  { unfold sides. rewrite D12, D34, D13, D24, !Pk. assert (0 < u * r) by nra. assert (0 < w * r) by nra.
    destruct eq; [|now rewrite !Rabs_right by lra]. rewrite D12, D13 in He. rewrite (He eq_refl), Cm.
    rewrite Rabs_right by lra. reflexivity. }
  rewrite SD. clear SD.
  assert (S1 : hor_slope q1 q2 = m).
  { rewrite E2. unfold hor_slope, padd, pscale, py, pxc. cbn [fst snd]. field. lra. }
  assert (S2 : hor_slope q3 q4 = m).
  { rewrite E3, E4. unfold hor_slope, padd, pscale, py, pxc. cbn [fst snd]. field. lra. }
  assert (S3 : ver_slope q1 q3 = - m).
  { rewrite E3. unfold ver_slope, padd, pscale, py, pxc. cbn [fst snd]. field. lra. }
  assert (S4 : ver_slope q2 q4 = - m).
  { rewrite E2, E4. unfold ver_slope, padd, pscale, py, pxc. cbn [fst snd]. field. lra. }
  assert (S0 : slope0 q1 q2 q3 q4 = m).
  { unfold slope0. rewrite S1, S2, S3, S4. cbn zeta. replace ((m + m) / 2) with m by field. replace ((- m + - m) / 2) with (- m) by field.
    rewrite Rabs_Ropp. destruct (Rlt_or_le 0 m) as [L|L]; [rewrite sgn_pos, Rabs_right by lra; field|].
    destruct (Rlt_or_le m 0) as [L'|L']; [rewrite sgn_neg, Rabs_left by lra; field|]. assert (M0 : m = 0) by lra. rewrite M0, Rabs_R0. field. }
  rewrite S0. intros H1 H2 H. fold r in H. destruct H as [T1 [T2 [T3 T4]]]. fold r in T1, T2, T3, T4. cbn [fst snd] in *.
  assert (Ec : c = padd q1 (padd (pscale (u / 2) (m, 1)) (pscale (w / 2) (1, - m)))).
  { apply (cross_unique (m, (hor_inter q1 q2 + hor_inter q3 q4) / 2) (- m, (ver_inter q1 q3 + ver_inter q2 q4) / 2));
      [cbn [fst]; nra|assumption|assumption| |]; unfold on_hor, on_ver, hor_inter, ver_inter; rewrite ?S1, ?S2, ?S3, ?S4, ?E2, ?E3;
      unfold padd, pscale, py, pxc; cbn [fst snd]; field. }
  rewrite T1, T2, T3, T4, E2, E3, E4, Ec. destruct q1 as [y1 x1]. unfold padd, psub, pscale, py, pxc. cbn [fst snd].
  repeat apply conj; apply pair_equal_spec; split; field; lra.
Qed.
