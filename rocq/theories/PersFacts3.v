(** Facts on discorpy/proc/processing.py: perspective coefficients. *)
From Coq Require Import Reals ZArith List Lra Lia Permutation Sorted.
From Flocq Require Import Core.
From Verif Require Import Base Num NumFacts Spec Lsq ProcSpec PersSpec PrepSpec Sorting Img PrepImg PrepPts PrepFacts PrepFacts2 Post PostPersp PostLines2 PostExtra
  Proc ProcPers ProcFacts ProcFacts2 ProcFacts3 ProcFacts4 PersFacts PersFacts2.
Import ListNotations.
Local Open Scope R_scope.

(** The linear equations for one pair of points. *)
Definition row_x (p q : pt) : list R := [pxc p; py p; 1; 0; 0; 0; - pxc q * pxc p; - pxc q * py p].
Definition row_y (p q : pt) : list R := [0; 0; 0; pxc p; py p; 1; - py q * pxc p; - py q * py p].
Definition satisfies (c : list R) (p q : pt) : Prop := dot (row_x p q) c = pxc q /\ dot (row_y p q) c = py q.
Lemma sends_satisfies c p q : sends c p q -> satisfies c p q.
Proof.
  intros [L [D E]]. do 9 (destruct c as [|? c]; try discriminate L). unfold satisfies.
  assert (E1 : py (proj (proj_map [r; r0; r1; r2; r3; r4; r5; r6]) p) = py q) by (f_equal; exact E).
  assert (E2 : pxc (proj (proj_map [r; r0; r1; r2; r3; r4; r5; r6]) p) = pxc q) by (f_equal; exact E).
  unfold proj, den, proj_map, py, pxc in *. cbn [nth Spec.c1 c2 c3 c4 c5 c6 c7 c8 c9 fst snd] in *.
  unfold row_x, row_y, py, pxc. cbn [dot]. rewrite <- E1, <- E2. cbn [fst snd]. split; field; assumption.
Qed.
Lemma satisfies_sends c p q : length c = 8%nat -> den (proj_map c) p <> 0 -> satisfies c p q -> sends c p q.
Proof.
  intros L D [H1 H2]. split; [assumption|]. split; [assumption|]. do 9 (destruct c as [|? c]; try discriminate L).
  destruct q as [y' x']. unfold proj, den, proj_map, row_x, row_y, py, pxc in *. cbn [nth Spec.c1 c2 c3 c4 c5 c6 c7 c8 c9 fst snd dot] in *.
  apply pair_equal_spec. split.
  - apply (Rmult_eq_reg_r (r5 * snd p + r6 * fst p + 1)); [|assumption]. unfold Rdiv. rewrite Rmult_assoc, Rinv_l, Rmult_1_r by assumption. lra.
  - apply (Rmult_eq_reg_r (r5 * snd p + r6 * fst p + 1)); [|assumption]. unfold Rdiv. rewrite Rmult_assoc, Rinv_l, Rmult_1_r by assumption. lra.
Qed.

(** A linear function vanishing at the corners of a triangle is zero. *)
Lemma linear_zero a b c p q r : triangle p q r -> a * pxc p + b * py p + c = 0 -> a * pxc q + b * py q + c = 0 ->
  a * pxc r + b * py r + c = 0 -> a = 0 /\ b = 0 /\ c = 0.
Proof.
  intros T H1 H2 H3. unfold triangle, area in T.
  set (x1 := pxc p) in *. set (y1 := py p) in *. set (x2 := pxc q) in *. set (y2 := py q) in *. set (x3 := pxc r) in *. set (y3 := py r) in *.
  set (D := (x2 - x1) * (y3 - y1) - (x3 - x1) * (y2 - y1)) in *.
  assert (A : a * D = 0).
  { replace (a * D) with ((y3 - y1) * ((a * x2 + b * y2 + c) - (a * x1 + b * y1 + c)) - (y2 - y1) * ((a * x3 + b * y3 + c) - (a * x1 + b * y1 + c)))
      by (unfold D; ring). rewrite H1, H2, H3. ring. }
  assert (B : b * D = 0).
  { replace (b * D) with ((x2 - x1) * ((a * x3 + b * y3 + c) - (a * x1 + b * y1 + c)) - (x3 - x1) * ((a * x2 + b * y2 + c) - (a * x1 + b * y1 + c)))
      by (unfold D; ring). rewrite H1, H2, H3. ring. }
  apply Rmult_integral in A. apply Rmult_integral in B. assert (a = 0) by (destruct A; [assumption|contradiction]).
  assert (b = 0) by (destruct B; [assumption|contradiction]). subst a b. repeat split; try reflexivity. lra.
Qed.
(** The vectors (x, y, 1) of the corners of a triangle are independent. *)
Lemma corners_independent k1 k2 k3 p q r : triangle p q r -> k1 * pxc p + k2 * pxc q + k3 * pxc r = 0 ->
  k1 * py p + k2 * py q + k3 * py r = 0 -> k1 + k2 + k3 = 0 -> k1 = 0 /\ k2 = 0 /\ k3 = 0.
Proof.
  intros T H1 H2 H3. unfold triangle, area in T.
  set (x1 := pxc p) in *. set (y1 := py p) in *. set (x2 := pxc q) in *. set (y2 := py q) in *. set (x3 := pxc r) in *. set (y3 := py r) in *.
  set (D := (x2 - x1) * (y3 - y1) - (x3 - x1) * (y2 - y1)) in *.
  assert (A : k2 * D = 0).
  { replace (k2 * D) with ((y3 - y1) * ((k1 * x1 + k2 * x2 + k3 * x3) - x1 * (k1 + k2 + k3)) - (x3 - x1) * ((k1 * y1 + k2 * y2 + k3 * y3) - y1 * (k1 + k2 + k3)))
      by (unfold D; ring). rewrite H1, H2, H3. ring. }
  assert (B : k3 * D = 0).
  { replace (k3 * D) with ((x2 - x1) * ((k1 * y1 + k2 * y2 + k3 * y3) - y1 * (k1 + k2 + k3)) - (y2 - y1) * ((k1 * x1 + k2 * x2 + k3 * x3) - x1 * (k1 + k2 + k3)))
      by (unfold D; ring). rewrite H1, H2, H3. ring. }
  apply Rmult_integral in A. apply Rmult_integral in B. assert (k2 = 0) by (destruct A; [assumption|contradiction]).
  assert (k3 = 0) by (destruct B; [assumption|contradiction]). subst k2 k3. repeat split; try reflexivity. lra.
Qed.
(** Four points in general position determine the coefficients. *)
Lemma coefs_unique c c0 p1 p2 p3 p4 q1 q2 q3 q4 : length c = 8%nat -> general_position p1 p2 p3 p4 -> triangle q1 q2 q3 ->
  sends c0 p1 q1 -> sends c0 p2 q2 -> sends c0 p3 q3 -> sends c0 p4 q4 ->
  satisfies c p1 q1 -> satisfies c p2 q2 -> satisfies c p3 q3 -> satisfies c p4 q4 -> c = c0.
Proof.
  intros L [T123 [T423 [T143 T124]]] TQ S1 S2 S3 S4 A1 A2 A3 A4.
  pose proof (proj1 S1) as L0.
  destruct c as [|m1 [|m2 [|m3 [|m4 [|m5 [|m6 [|m7 [|m8 [|]]]]]]]]]; try discriminate L.
  destruct c0 as [|n1 [|n2 [|n3 [|n4 [|n5 [|n6 [|n7 [|n8 [|]]]]]]]]]; try discriminate L0.
  pose proof (sends_satisfies _ _ _ S1) as B1. pose proof (sends_satisfies _ _ _ S2) as B2.
  pose proof (sends_satisfies _ _ _ S3) as B3. pose proof (sends_satisfies _ _ _ S4) as B4.
  destruct S1 as [_ [D1 _]], S2 as [_ [D2 _]], S3 as [_ [D3 _]], S4 as [_ [D4 _]].
  unfold den, proj_map in D1, D2, D3, D4. cbn [nth c7 c8 c9] in D1, D2, D3, D4.
  set (d1 := n7 * pxc p1 + n8 * py p1 + 1) in *. set (d2 := n7 * pxc p2 + n8 * py p2 + 1) in *.
  set (d3 := n7 * pxc p3 + n8 * py p3 + 1) in *. set (d4 := n7 * pxc p4 + n8 * py p4 + 1) in *.
  (* images in homogeneous coordinates *)
  assert (IM : forall a1 a2 a3 a4 a5 a6 a7 a8 p q, satisfies [a1; a2; a3; a4; a5; a6; a7; a8] p q ->
    a1 * pxc p + a2 * py p + a3 = (a7 * pxc p + a8 * py p + 1) * pxc q /\ a4 * pxc p + a5 * py p + a6 = (a7 * pxc p + a8 * py p + 1) * py q).
  { intros a1 a2 a3 a4 a5 a6 a7 a8 p q [H1 H2]. unfold row_x, row_y in *. cbn [dot] in *. split; lra. }
  apply IM in A1, A2, A3, A4, B1, B2, B3, B4. fold d1 in B1. fold d2 in B2. fold d3 in B3. fold d4 in B4.
  set (e1 := m7 * pxc p1 + m8 * py p1 + 1) in *. set (e2 := m7 * pxc p2 + m8 * py p2 + 1) in *.
  set (e3 := m7 * pxc p3 + m8 * py p3 + 1) in *. set (e4 := m7 * pxc p4 + m8 * py p4 + 1) in *.
  (* p4 in barycentric coordinates *)
  set (D := area p1 p2 p3). assert (HD : D <> 0) by exact T123.
  set (al := area p4 p2 p3 / D). set (be := area p1 p4 p3 / D). set (ga := area p1 p2 p4 / D).
  assert (NZ : al <> 0 /\ be <> 0 /\ ga <> 0).
  { unfold al, be, ga, Rdiv. repeat split; apply Rmult_integral_contrapositive; split; try assumption; now apply Rinv_neq_0_compat. }
  destruct NZ as [Nal [Nbe Nga]].
  assert (BX : pxc p4 = al * pxc p1 + be * pxc p2 + ga * pxc p3) by (unfold al, be, ga, D, area in *; field; assumption).
  assert (BY : py p4 = al * py p1 + be * py p2 + ga * py p3) by (unfold al, be, ga, D, area in *; field; assumption).
  assert (BO : al + be + ga = 1) by (unfold al, be, ga, D, area in *; field; assumption).
  clearbody al be ga.
  (* the factors agree *)
  assert (F4 : forall u v w, u * pxc p4 + v * py p4 + w = al * (u * pxc p1 + v * py p1 + w) + be * (u * pxc p2 + v * py p2 + w) + ga * (u * pxc p3 + v * py p3 + w)).
  { intros u v w. rewrite BX, BY. replace w with (w * (al + be + ga)) at 1 by (rewrite BO; ring). ring. }
  assert (E4 : e4 = al * e1 + be * e2 + ga * e3) by (unfold e1, e2, e3, e4; apply F4).
  assert (G4 : d4 = al * d1 + be * d2 + ga * d3) by (unfold d1, d2, d3, d4; apply F4).
  assert (XE : e4 * pxc q4 = al * (e1 * pxc q1) + be * (e2 * pxc q2) + ga * (e3 * pxc q3)).
  { rewrite <- (proj1 A4), <- (proj1 A1), <- (proj1 A2), <- (proj1 A3). apply F4. }
  assert (YE : e4 * py q4 = al * (e1 * py q1) + be * (e2 * py q2) + ga * (e3 * py q3)).
  { rewrite <- (proj2 A4), <- (proj2 A1), <- (proj2 A2), <- (proj2 A3). apply F4. }
  assert (XD : d4 * pxc q4 = al * (d1 * pxc q1) + be * (d2 * pxc q2) + ga * (d3 * pxc q3)).
  { rewrite <- (proj1 B4), <- (proj1 B1), <- (proj1 B2), <- (proj1 B3). apply F4. }
  assert (YD : d4 * py q4 = al * (d1 * py q1) + be * (d2 * py q2) + ga * (d3 * py q3)).
  { rewrite <- (proj2 B4), <- (proj2 B1), <- (proj2 B2), <- (proj2 B3). apply F4. }
  destruct (corners_independent (al * (e1 * d4 - e4 * d1)) (be * (e2 * d4 - e4 * d2)) (ga * (e3 * d4 - e4 * d3)) q1 q2 q3 TQ) as [K1 [K2 K3]].
  { replace (al * (e1 * d4 - e4 * d1) * pxc q1 + be * (e2 * d4 - e4 * d2) * pxc q2 + ga * (e3 * d4 - e4 * d3) * pxc q3) with
      (d4 * (al * (e1 * pxc q1) + be * (e2 * pxc q2) + ga * (e3 * pxc q3)) - e4 * (al * (d1 * pxc q1) + be * (d2 * pxc q2) + ga * (d3 * pxc q3))) by ring.
    rewrite <- XE, <- XD. ring. }
  { replace (al * (e1 * d4 - e4 * d1) * py q1 + be * (e2 * d4 - e4 * d2) * py q2 + ga * (e3 * d4 - e4 * d3) * py q3) with
      (d4 * (al * (e1 * py q1) + be * (e2 * py q2) + ga * (e3 * py q3)) - e4 * (al * (d1 * py q1) + be * (d2 * py q2) + ga * (d3 * py q3))) by ring.
    rewrite <- YE, <- YD. ring. }
  { replace (al * (e1 * d4 - e4 * d1) + be * (e2 * d4 - e4 * d2) + ga * (e3 * d4 - e4 * d3)) with
      (d4 * (al * e1 + be * e2 + ga * e3) - e4 * (al * d1 + be * d2 + ga * d3)) by ring.
    rewrite <- E4, <- G4. ring. }
  set (la := e4 / d4).
  assert (LA : e1 = la * d1 /\ e2 = la * d2 /\ e3 = la * d3).
  { assert (Q : forall k e d, k <> 0 -> k * (e * d4 - e4 * d) = 0 -> e = la * d).
    { intros k e d Hk H. apply Rmult_integral in H. destruct H as [H|H]; [contradiction|]. unfold la.
      apply (Rmult_eq_reg_r d4); [|assumption]. replace (e4 / d4 * d * d4) with (e4 * d) by (field; assumption). lra. }
    split; [now apply (Q al)|]. split; [now apply (Q be)|now apply (Q ga)]. }
  destruct LA as [LA1 [LA2 LA3]].
  destruct (linear_zero (m7 - la * n7) (m8 - la * n8) (1 - la * 1) p1 p2 p3 T123) as [Z7 [Z8 Z9]];
    [unfold e1, d1 in LA1; lra|unfold e2, d2 in LA2; lra|unfold e3, d3 in LA3; lra|].
  assert (la = 1) by lra.
  destruct (linear_zero (m1 - n1) (m2 - n2) (m3 - n3) p1 p2 p3 T123) as [Z1 [Z2 Z3]].
  { destruct A1 as [A1 _], B1 as [B1 _]. rewrite LA1, H in A1. rewrite Rmult_1_l in A1. lra. }
  { destruct A2 as [A2 _], B2 as [B2 _]. rewrite LA2, H in A2. rewrite Rmult_1_l in A2. lra. }
  { destruct A3 as [A3 _], B3 as [B3 _]. rewrite LA3, H in A3. rewrite Rmult_1_l in A3. lra. }
  destruct (linear_zero (m4 - n4) (m5 - n5) (m6 - n6) p1 p2 p3 T123) as [Z4 [Z5 Z6]].
  { destruct A1 as [_ A1], B1 as [_ B1]. rewrite LA1, H in A1. rewrite Rmult_1_l in A1. lra. }
  { destruct A2 as [_ A2], B2 as [_ B2]. rewrite LA2, H in A2. rewrite Rmult_1_l in A2. lra. }
  { destruct A3 as [_ A3], B3 as [_ B3]. rewrite LA3, H in A3. rewrite Rmult_1_l in A3. lra. }
  rewrite H in *. repeat (f_equal; try lra).
Qed.

Section PersCoef.
  Local Instance NF2 : Num R := Rexact.
  Variable lstsq : list (list R) -> list R -> res (list R).
  Lemma pers_backward src tgt : calc_perspective_coefficients lstsq src tgt false = calc_perspective_coefficients lstsq tgt src true.
  Proof. reflexivity. Qed.
  Hypothesis LS : lstsq_oracle lstsq.
  Definition pair_rows (pq : pt * pt) : list (list R * R) := [(row_x (fst pq) (snd pq), pxc (snd pq)); (row_y (fst pq) (snd pq), py (snd pq))].
  Lemma pers_rows_R (src tgt : list (R * R)) :
    concat (map (fun st : (R * R) * (R * R) => pers_rows (fst st) (snd st)) (combine (fliplr src) (fliplr tgt))) = concat (map pair_rows (combine src tgt)).
  Proof.
    f_equal. revert tgt. induction src as [|p src IH]; intros [|q tgt]; try reflexivity. specialize (IH tgt). unfold fliplr in *. cbn [map combine]. rewrite IH.
    destruct p as [y x], q as [y' x']. reflexivity.
  Qed.
  Lemma satisfies_all c (l : list (pt * pt)) :
    Forall2 (fun r y => dot r c = y) (map fst (concat (map pair_rows l))) (map snd (concat (map pair_rows l))) <->
    (forall p q, In (p, q) l -> satisfies c p q).
  Proof.
    split.
    - induction l as [|[p q] l IH]; intros F a b H; [destruct H|]. cbn [map concat app fst snd pair_rows] in F.
      inversion F as [|? ? ? ? Q1 F2]; subst. inversion F2 as [|? ? ? ? Q2 F3]; subst.
      destruct H as [H|H]; [|now apply IH]. apply pair_equal_spec in H. destruct H as [<- <-]. split; assumption.
    - induction l as [|[p q] l IH]; intros H; [constructor|]. cbn [map concat app fst snd pair_rows].
      destruct (H p q (or_introl eq_refl)) as [H1 H2]. constructor; [assumption|]. constructor; [assumption|]. apply IH. intros; apply H; now right.
  Qed.
  Lemma pers_coef_lsq src tgt : src <> [] -> length src = length tgt ->
    exists c, calc_perspective_coefficients lstsq src tgt true = Ok c /\ length c = 8%nat /\
      (forall c0, length c0 = 8%nat -> (forall p q, In (p, q) (combine src tgt) -> satisfies c0 p q) ->
        forall p q, In (p, q) (combine src tgt) -> satisfies c p q).
  Proof.
    intros Hne L. unfold calc_perspective_coefficients. cbn zeta.
    assert (M : forall (b : res (list R)), match fliplr src, fliplr tgt with [], _ | _, [] => Err ValueError | _, _ => b end = b).
    { intros b. destruct src as [|p src]; [contradiction|]. destruct tgt as [|q tgt]; [discriminate|]. reflexivity. }
    rewrite M. clear M. unfold fliplr at 1 2. rewrite !map_length, <- L, Nat.ltb_irrefl.
    pose proof (pers_rows_R src tgt) as E. unfold pt in *. rewrite E.
    set (rows := concat (map pair_rows (combine src tgt))) in *.
    destruct (LS 8%nat (map fst rows) (map snd rows)) as [c [Ec Q]].
    - unfold rows. destruct src as [|p src]; [contradiction|]. destruct tgt as [|q tgt]; [discriminate|]. discriminate.
    - now rewrite !map_length.
    - intros r Hr. apply in_map_iff in Hr. destruct Hr as [[r' y] [<- Hr]]. unfold rows in Hr. apply in_concat in Hr. destruct Hr as [s [Hs Hr]].
      apply in_map_iff in Hs. destruct Hs as [[p q] [<- _]]. destruct Hr as [<-|[<-|[]]]; reflexivity.
    - exists c. split; [exact Ec|]. split; [exact (proj1 Q)|]. intros c0 L0 H0.
      apply satisfies_all. apply (lsq_exact 8 _ _ c c0); [now rewrite !map_length|exact Q|assumption|]. now apply satisfies_all.
  Qed.
End PersCoef.
