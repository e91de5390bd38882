(** C135: small measuring errors move the centre of distortion only a little. *)
From Coq Require Import Reals ZArith List Lia Lra Permutation.
From Flocq Require Import Core.
From Verif Require Import Base Num NumFacts Spec Lsq PolyUniq LsqEx Proc ProcSpec ProcFacts ProcFacts2 ProcFacts3 ProcFacts4 ProcFacts5 PostLines PostLines2
  Props_Proc Props_Calib2 Props_DotOrder Props_Centres Props_Centred.
Import ListNotations.
Local Open Scope R_scope.

(** The same lines with every dot moved by at most d along each axis. *)
Definition moved (d : R) (a b : list (list (R * R))) : Prop :=
  Forall2 (Forall2 (fun p q => Rabs (py q - py p) <= d /\ Rabs (pxc q - pxc p) <= d)) a b.
(** A result that depends continuously on the dots. *)
Definition steady (f : list (list (R * R)) -> list (list (R * R)) -> res (R * R)) (lh lv : list (list (R * R))) (x y : R) : Prop :=
  f lh lv = Ok (x, y) /\
  forall e, 0 < e -> exists d, 0 < d /\ forall lh' lv', moved d lh lh' -> moved d lv lv' -> exists x' y', f lh' lv' = Ok (x', y') /\ Rabs (x' - x) <= e /\ Rabs (y' - y) <= e.

(** The slope [a] of the straight line Bailey's method draws through the curvature
    of the lines against their position can be divided by: the lines do not all
    cross the axis at one point, and their curvature does change along it. *)
Definition leans (polyfit : list R -> list R -> nat -> res (list R)) (cs : list (R * R * R)) : Prop :=
  distinct_values 2 (map snd cs) /\ forall a b, polyfit (map snd cs) (map (fun c => fst (fst c)) cs) 1%nat = Ok [a; b] -> a <> 0.

(** *** Eventually, and continuity *)
Section Ev.
  Context {X : Type}.
  Variable X0 : X.
  Variable ev : (X -> Prop) -> Prop.
  Hypothesis ev_true : ev (fun _ => True).
  Hypothesis ev_and : forall P Q, ev P -> ev Q -> ev (fun x => P x /\ Q x).
  Hypothesis ev_imp : forall P Q : X -> Prop, (forall x, P x -> Q x) -> ev P -> ev Q.
  Definition cts (F : X -> R) : Prop := forall e, 0 < e -> ev (fun x => Rabs (F x - F X0) <= e).

  Lemma ev_all (P : nat -> X -> Prop) (l : list nat) : (forall i, In i l -> ev (P i)) -> ev (fun x => forall i, In i l -> P i x).
  Proof.
    induction l as [|a l IH]; intros H; [apply (ev_imp (fun _ => True)); [intros x _ i []|exact ev_true]|].
    apply (ev_imp (fun x => P a x /\ forall i, In i l -> P i x)); [intros x [A B] i [<-|I]; [exact A|now apply B]|].
    apply ev_and; [apply H; now left|apply IH; intros i I; apply H; now right].
  Qed.
  Lemma cts_const c : cts (fun _ => c).
  Proof. intros e He. apply (ev_imp (fun _ => True)); [|exact ev_true]. intros x _. rewrite Rminus_diag_eq by reflexivity. rewrite Rabs_R0. lra. Qed.
  Lemma cts_add F G : cts F -> cts G -> cts (fun x => F x + G x).
  Proof.
    intros HF HG e He. apply (ev_imp (fun x => Rabs (F x - F X0) <= e / 2 /\ Rabs (G x - G X0) <= e / 2)); [|apply ev_and; [apply HF|apply HG]; lra].
    intros x [A B]. replace (F x + G x - (F X0 + G X0)) with ((F x - F X0) + (G x - G X0)) by ring. eapply Rle_trans; [apply Rabs_triang|]. lra.
  Qed.
  Lemma cts_comp g F : continuity_pt g (F X0) -> cts F -> cts (fun x => g (F x)).
  Proof.
    intros Hg HF e He. destruct (Hg e He) as [d [Hd H]]. apply (ev_imp (fun x => Rabs (F x - F X0) <= d / 2)); [|apply HF; lra].
    intros x A. destruct (Req_dec (F x) (F X0)) as [E|N]; [rewrite E, Rminus_diag_eq by reflexivity; rewrite Rabs_R0; lra|].
    assert (B : Rabs (F x - F X0) < d) by lra. specialize (H (F x)). unfold D_x, no_cond in H. cbn in H. unfold R_dist in H.
    apply Rlt_le. apply H. split; [split; [exact I|auto]|exact B].
  Qed.
  Lemma cts_scal c F : cts F -> cts (fun x => c * F x).
  Proof. intros H. apply (cts_comp (fun y => c * y)); [|exact H]. apply continuity_pt_mult; [apply continuity_pt_const; intros a b; reflexivity|apply derivable_continuous_pt, derivable_pt_id]. Qed.
  Lemma cts_ext F G : (forall x, F x = G x) -> cts F -> cts G.
  Proof. intros E H e He. apply (ev_imp (fun x => Rabs (F x - F X0) <= e)); [|now apply H]. intros x. now rewrite !E. Qed.
  Lemma cts_sub F G : cts F -> cts G -> cts (fun x => F x - G x).
  Proof. intros HF HG. apply (cts_ext (fun x => F x + (-1) * G x)); [intros; ring|]. apply cts_add; [exact HF|now apply cts_scal]. Qed.
  Lemma cts_pow n F : cts F -> cts (fun x => F x ^ n).
  Proof. intros H. apply (cts_comp (fun y => y ^ n)); [|exact H]. apply derivable_continuous_pt, derivable_pt_pow. Qed.
  Lemma cts_mul F G : cts F -> cts G -> cts (fun x => F x * G x).
  Proof.
    intros HF HG. apply (cts_ext (fun x => / 4 * ((F x + G x) ^ 2 - (F x - G x) ^ 2))); [intros; field|].
    apply cts_scal, cts_sub; apply cts_pow; [now apply cts_add|now apply cts_sub].
  Qed.
  Lemma cts_div F G : cts F -> cts G -> G X0 <> 0 -> cts (fun x => F x / G x).
  Proof.
    intros HF HG N. apply cts_mul; [exact HF|]. apply (cts_comp Rinv); [|exact HG].
    apply (continuity_pt_inv (fun y => y)); [apply derivable_continuous_pt, derivable_pt_id|exact N].
  Qed.
  Lemma cts_sum (F : nat -> X -> R) l : (forall i, In i l -> cts (F i)) -> cts (fun x => Rsum (map (fun i => F i x) l)).
  Proof.
    induction l as [|a l IH]; intros H; cbn [map Rsum]; [apply cts_const|]. apply cts_add; [apply H; now left|apply IH; intros i I; apply H; now right].
  Qed.
  Lemma cts_near F c : cts F -> c < F X0 -> ev (fun x => c < F x).
  Proof.
    intros H L. apply (ev_imp (fun x => Rabs (F x - F X0) <= (F X0 - c) / 2)); [|apply H; lra]. intros x A. apply Rabs_le_inv in A. lra.
  Qed.
  Lemma cts_sgn F : cts F -> F X0 <> 0 -> ev (fun x => F x <> 0 /\ sgn (F x) = sgn (F X0)).
  Proof.
    intros H N. destruct (Rdichotomy _ _ N) as [L|G].
    - apply (ev_imp (fun x => - F X0 / 2 < - F x)); [|apply (cts_near (fun x => - F x)); [apply (cts_ext (fun x => (-1) * F x)); [intros; ring|now apply cts_scal]|lra]].
      intros x A. split; [lra|]. unfold sgn. repeat destruct (Rlt_dec _ _); lra.
    - apply (ev_imp (fun x => F X0 / 2 < F x)); [|apply cts_near; [exact H|lra]]. intros x A. split; [lra|]. unfold sgn. repeat destruct (Rlt_dec _ _); lra.
  Qed.
End Ev.

(** *** Least squares by Cramer's rule *)
Definition mo (k : nat) (l : list (R * R)) : R := Rsum (map (fun p => fst p ^ k) l).
Definition tm (k : nat) (l : list (R * R)) : R := Rsum (map (fun p => fst p ^ k * snd p) l).
Definition det3 (a b c d e f g h i : R) : R := a * (e * i - f * h) - b * (d * i - f * g) + c * (d * h - e * g).
Definition D2 (l : list (R * R)) : R := det3 (mo 4 l) (mo 3 l) (mo 2 l) (mo 3 l) (mo 2 l) (mo 1 l) (mo 2 l) (mo 1 l) (mo 0 l).
Definition para2 (l : list (R * R)) : R * R * R :=
  (det3 (tm 2 l) (mo 3 l) (mo 2 l) (tm 1 l) (mo 2 l) (mo 1 l) (tm 0 l) (mo 1 l) (mo 0 l) / D2 l,
   det3 (mo 4 l) (tm 2 l) (mo 2 l) (mo 3 l) (tm 1 l) (mo 1 l) (mo 2 l) (tm 0 l) (mo 0 l) / D2 l,
   det3 (mo 4 l) (mo 3 l) (tm 2 l) (mo 3 l) (mo 2 l) (tm 1 l) (mo 2 l) (mo 1 l) (tm 0 l) / D2 l).
Definition D1 (l : list (R * R)) : R := mo 2 l * mo 0 l - mo 1 l * mo 1 l.
Definition line1 (l : list (R * R)) : R * R := ((tm 1 l * mo 0 l - tm 0 l * mo 1 l) / D1 l, (mo 2 l * tm 0 l - mo 1 l * tm 1 l) / D1 l).

Lemma flat_zero A B : (forall t, 0 <= A * t ^ 2 + 2 * B * t) -> B = 0.
Proof.
  intros H. destruct (Rle_or_lt A 0) as [L|G].
  - pose proof (H 1). pose proof (H (-1)). nra.
  - specialize (H (- B / A)). replace (A * (- B / A) ^ 2 + 2 * B * (- B / A)) with (- (B * B) / A) in H by (field; lra).
    assert (B * B <= 0); [|nra]. apply Rnot_lt_le. intros P. assert (0 < B * B / A) by (apply Rdiv_lt_0_compat; lra). unfold Rdiv in *. lra.
Qed.
Lemma sq2 (l : list (R * R)) u v w : sqerr (map (pow_row 2) (map fst l)) (map snd l) [u; v; w] = Rsum (map (fun p => (u * fst p ^ 2 + v * fst p + w - snd p) ^ 2) l).
Proof. apply sqerr2. Qed.
Lemma sq1 (l : list (R * R)) u v : sqerr (map (pow_row 1) (map fst l)) (map snd l) [u; v] = Rsum (map (fun t => (u * fst t + v - snd t) ^ 2) l).
Proof. unfold sqerr. induction l as [|c l IH]; [reflexivity|]. cbn [map combine Rsum]. rewrite IH. cbn [fst snd pow_row dot]. f_equal. ring. Qed.
(** The residual is orthogonal to every power. *)
Lemma normal2 l u v w : polyfit_spec 2 (map fst l) (map snd l) [u; v; w] ->
  mo 4 l * u + mo 3 l * v + mo 2 l * w = tm 2 l /\ mo 3 l * u + mo 2 l * v + mo 1 l * w = tm 1 l /\ mo 2 l * u + mo 1 l * v + mo 0 l * w = tm 0 l.
Proof.
  intros [_ M].
  assert (E : forall a b c t, Rsum (map (fun p => ((u + a * t) * fst p ^ 2 + (v + b * t) * fst p + (w + c * t) - snd p) ^ 2) l) =
    Rsum (map (fun p => (u * fst p ^ 2 + v * fst p + w - snd p) ^ 2) l) + Rsum (map (fun p => (a * fst p ^ 2 + b * fst p + c) ^ 2) l) * t ^ 2
    + 2 * Rsum (map (fun p => (u * fst p ^ 2 + v * fst p + w - snd p) * (a * fst p ^ 2 + b * fst p + c)) l) * t).
  { intros a b c t. clear M. induction l as [|p l IH]; cbn [map Rsum]; [ring|]. rewrite IH. ring. }
  assert (Z : forall a b c, Rsum (map (fun p => (u * fst p ^ 2 + v * fst p + w - snd p) * (a * fst p ^ 2 + b * fst p + c)) l) = 0).
  { intros a b c. apply (flat_zero (Rsum (map (fun p => (a * fst p ^ 2 + b * fst p + c) ^ 2) l))). intros t. specialize (M [u + a * t; v + b * t; w + c * t] eq_refl). rewrite !sq2, E in M. lra. }
  assert (S : forall a b c, Rsum (map (fun p => (u * fst p ^ 2 + v * fst p + w - snd p) * (a * fst p ^ 2 + b * fst p + c)) l) =
    a * (mo 4 l * u + mo 3 l * v + mo 2 l * w - tm 2 l) + b * (mo 3 l * u + mo 2 l * v + mo 1 l * w - tm 1 l) + c * (mo 2 l * u + mo 1 l * v + mo 0 l * w - tm 0 l)).
  { intros a b c. clear. unfold mo, tm. induction l as [|p l IH]; cbn [map Rsum]; [ring|]. rewrite IH. ring. }
  pose proof (Z 1 0 0) as Z1. pose proof (Z 0 1 0) as Z2. pose proof (Z 0 0 1) as Z3. rewrite S in Z1, Z2, Z3. lra.
Qed.
Lemma normal1 l u v : polyfit_spec 1 (map fst l) (map snd l) [u; v] -> mo 2 l * u + mo 1 l * v = tm 1 l /\ mo 1 l * u + mo 0 l * v = tm 0 l.
Proof.
  intros [_ M].
  assert (E : forall a b t, Rsum (map (fun p => ((u + a * t) * fst p + (v + b * t) - snd p) ^ 2) l) =
    Rsum (map (fun p => (u * fst p + v - snd p) ^ 2) l) + Rsum (map (fun p => (a * fst p + b) ^ 2) l) * t ^ 2
    + 2 * Rsum (map (fun p => (u * fst p + v - snd p) * (a * fst p + b)) l) * t).
  { intros a b t. clear M. induction l as [|p l IH]; cbn [map Rsum]; [ring|]. rewrite IH. ring. }
  assert (Z : forall a b, Rsum (map (fun p => (u * fst p + v - snd p) * (a * fst p + b)) l) = 0).
  { intros a b. apply (flat_zero (Rsum (map (fun p => (a * fst p + b) ^ 2) l))). intros t. specialize (M [u + a * t; v + b * t] eq_refl). rewrite !sq1, E in M. lra. }
  assert (S : forall a b, Rsum (map (fun p => (u * fst p + v - snd p) * (a * fst p + b)) l) =
    a * (mo 2 l * u + mo 1 l * v - tm 1 l) + b * (mo 1 l * u + mo 0 l * v - tm 0 l)).
  { intros a b. clear. unfold mo, tm. induction l as [|p l IH]; cbn [map Rsum]; [ring|]. rewrite IH. ring. }
  pose proof (Z 1 0) as Z1. pose proof (Z 0 1) as Z2. rewrite S in Z1, Z2. lra.
Qed.
Lemma solve2 l u v w : polyfit_spec 2 (map fst l) (map snd l) [u; v; w] -> D2 l <> 0 -> (u, v, w) = para2 l.
Proof.
  intros P N. destruct (normal2 l u v w P) as (E2 & E1 & E0). unfold para2. rewrite <- E2, <- E1, <- E0. unfold D2 in *. unfold det3 in *.
  apply f_equal2; [apply f_equal2|]; field; exact N.
Qed.
Lemma solve1 l u v : polyfit_spec 1 (map fst l) (map snd l) [u; v] -> D1 l <> 0 -> (u, v) = line1 l.
Proof.
  intros P N. destruct (normal1 l u v P) as (E1 & E0). unfold line1. rewrite <- E1, <- E0. unfold D1 in *. apply f_equal2; field; exact N.
Qed.
Lemma pd3 a b c d e f : (forall x y z, (x <> 0 \/ y <> 0 \/ z <> 0) -> 0 < a * x ^ 2 + d * y ^ 2 + f * z ^ 2 + 2 * b * x * y + 2 * c * x * z + 2 * e * y * z) -> det3 a b c b d e c e f <> 0.
Proof.
  intros H. assert (A : 0 < a) by (specialize (H 1 0 0 ltac:(left; lra)); lra).
  assert (B : 0 < a * d - b * b).
  { specialize (H b (- a) 0 ltac:(right; left; lra)). assert (0 < a * (a * d - b * b)) by (ring_simplify; ring_simplify in H; lra). apply (Rmult_lt_reg_l a); lra. }
  specialize (H (b * e - c * d) (b * c - a * e) (a * d - b * b) ltac:(right; right; lra)). intros Z.
  assert (E : a * (b * e - c * d) ^ 2 + d * (b * c - a * e) ^ 2 + f * (a * d - b * b) ^ 2 + 2 * b * (b * e - c * d) * (b * c - a * e) + 2 * c * (b * e - c * d) * (a * d - b * b) + 2 * e * (b * c - a * e) * (a * d - b * b) = (a * d - b * b) * det3 a b c b d e c e f) by (unfold det3; ring).
  rewrite E, Z in H. lra.
Qed.
Lemma sum_sq_pos (f : R * R -> R) l : (exists p, In p l /\ f p <> 0) -> 0 < Rsum (map (fun p => f p ^ 2) l).
Proof.
  intros [p [I N]]. assert (Q : forall l, 0 <= Rsum (map (fun p => f p ^ 2) l)) by (intros l'; apply Rsum_nonneg; intros x Hx; apply in_map_iff in Hx; destruct Hx as [q [<- _]]; apply pow2_ge_0).
  induction l as [|q l IH]; [destruct I|]. cbn [map Rsum]. destruct I as [->|I].
  - specialize (Q l). assert (0 < f p ^ 2) by (destruct (Rdichotomy _ _ N); nra). lra.
  - pose proof (pow2_ge_0 (f q)). specialize (IH I). lra.
Qed.
Lemma D2_nonzero l : distinct_values 3 (map fst l) -> D2 l <> 0.
Proof.
  intros [d [Nd [Id Ld]]]. unfold D2. apply pd3. intros x y z H.
  assert (P : 0 < Rsum (map (fun p => (x * fst p ^ 2 + y * fst p + z) ^ 2) l)).
  { apply (sum_sq_pos (fun p => x * fst p ^ 2 + y * fst p + z)). destruct d as [|d1 [|d2 [|d3 d]]]; cbn in Ld; try lia.
    assert (W : forall t, In t (d1 :: d2 :: d3 :: d) -> exists p, In p l /\ fst p = t) by (intros t Ht; apply Id in Ht; apply in_map_iff in Ht; destruct Ht as [p [E I]]; exists p; tauto).
    destruct (W d1) as [p1 [I1 F1]]; [now left|]. destruct (W d2) as [p2 [I2 F2]]; [right; now left|]. destruct (W d3) as [p3 [I3 F3]]; [right; right; now left|].
    inversion Nd as [|? ? N1 Nd']; subst. inversion Nd' as [|? ? N2 _]; subst. cbn in N1, N2.
    destruct (Req_dec (x * fst p1 ^ 2 + y * fst p1 + z) 0) as [Z1|N]; [|now exists p1]. destruct (Req_dec (x * fst p2 ^ 2 + y * fst p2 + z) 0) as [Z2|N]; [|now exists p2]. destruct (Req_dec (x * fst p3 ^ 2 + y * fst p3 + z) 0) as [Z3|N]; [|now exists p3].
    exfalso. set (t1 := fst p1) in *. set (t2 := fst p2) in *. set (t3 := fst p3) in *. assert (A : t1 <> t2) by intuition. assert (B : t1 <> t3) by intuition. assert (C : t2 <> t3) by intuition.
    assert (K : (t1 - t2) * (x * (t1 + t2) + y) = 0) by (ring_simplify; ring_simplify in Z1; ring_simplify in Z2; lra). apply Rmult_integral in K. destruct K as [K|K]; [lra|].
    assert (K' : (t1 - t3) * (x * (t1 + t3) + y) = 0) by (ring_simplify; ring_simplify in Z1; ring_simplify in Z3; lra). apply Rmult_integral in K'. destruct K' as [K'|K']; [lra|].
    assert (X : x * (t2 - t3) = 0) by lra. apply Rmult_integral in X. destruct X as [->|X]; [|lra]. assert (y = 0) by lra. subst y. assert (z = 0) by lra. lra. }
  replace (mo 4 l * x ^ 2 + _ + _ + _ + _ + _) with (Rsum (map (fun p => (x * fst p ^ 2 + y * fst p + z) ^ 2) l)); [exact P|].
  clear. unfold mo. induction l as [|p l IH]; cbn [map Rsum]; [ring|]. rewrite IH. ring.
Qed.
Lemma D1_nonzero l : distinct_values 2 (map fst l) -> D1 l <> 0.
Proof.
  intros [d [Nd [Id Ld]]].
  assert (P : forall x y, (x <> 0 \/ y <> 0) -> 0 < mo 2 l * x ^ 2 + 2 * mo 1 l * x * y + mo 0 l * y ^ 2).
  { intros x y H. replace (mo 2 l * x ^ 2 + _ + _) with (Rsum (map (fun p => (x * fst p + y) ^ 2) l)) by (clear; unfold mo; induction l as [|p l IH]; cbn [map Rsum]; [ring|]; rewrite IH; ring).
    apply (sum_sq_pos (fun p => x * fst p + y)). destruct d as [|d1 [|d2 d]]; cbn in Ld; try lia.
    assert (W : forall t, In t (d1 :: d2 :: d) -> exists p, In p l /\ fst p = t) by (intros t Ht; apply Id in Ht; apply in_map_iff in Ht; destruct Ht as [p [E I]]; exists p; tauto).
    destruct (W d1) as [p1 [I1 F1]]; [now left|]. destruct (W d2) as [p2 [I2 F2]]; [right; now left|]. inversion Nd as [|? ? N1 _]; subst. cbn in N1.
    destruct (Req_dec (x * fst p1 + y) 0) as [Z1|N]; [|now exists p1]. destruct (Req_dec (x * fst p2 + y) 0) as [Z2|N]; [|now exists p2].
    exfalso. assert (A : fst p1 <> fst p2) by intuition. assert (X : x * (fst p1 - fst p2) = 0) by lra. apply Rmult_integral in X. destruct X as [->|X]; [|lra]. lra. }
  unfold D1. assert (A : 0 < mo 2 l) by (specialize (P 1 0 ltac:(left; lra)); lra).
  specialize (P (mo 1 l) (- mo 2 l) ltac:(right; lra)). intros Z.
  assert (E : mo 2 l * mo 1 l ^ 2 + 2 * mo 1 l * mo 1 l * - mo 2 l + mo 0 l * (- mo 2 l) ^ 2 = mo 2 l * (mo 2 l * mo 0 l - mo 1 l * mo 1 l)) by ring. rewrite E, Z in P. lra.
Qed.

(** *** Moved dots *)
Lemma moved_nth d a b k i : 0 <= d -> moved d a b ->
  Rabs (py (nth i (nth k b []) (0, 0)) - py (nth i (nth k a []) (0, 0))) <= d /\ Rabs (pxc (nth i (nth k b []) (0, 0)) - pxc (nth i (nth k a []) (0, 0))) <= d.
Proof.
  intros Hd M. assert (Z : forall p : R * R, Rabs (py p - py p) <= d /\ Rabs (pxc p - pxc p) <= d) by (intros p; rewrite !Rminus_diag_eq by reflexivity; rewrite Rabs_R0; lra).
  revert k. induction M as [|l l' a b H M IH]; intros k; [destruct k; apply Z|]. destruct k as [|k]; [|apply IH]. cbn [nth].
  clear IH M. revert i. induction H as [|p q l l' H' H IH']; intros i; [destruct i; apply Z|]. destruct i as [|i]; [exact H'|apply IH'].
Qed.
Lemma moved_lengths d a b k : moved d a b -> length (nth k b []) = length (nth k a []).
Proof.
  intros M. revert k. induction M as [|l l' a b H M IH]; intros k; [reflexivity|]. destruct k as [|k]; [|apply IH]. cbn [nth]. symmetry. exact (Forall2_length _ _ _ H).
Qed.
Lemma moved_same d a : 0 <= d -> moved d a a.
Proof.
  intros Hd. unfold moved. induction a as [|l a IH]; constructor; [|exact IH]. induction l as [|p l IH']; constructor; [|exact IH'].
  rewrite !Rminus_diag_eq by reflexivity. rewrite Rabs_R0. lra.
Qed.
Lemma moved_le d d' a b : d <= d' -> moved d a b -> moved d' a b.
Proof.
  intros L M. unfold moved in *. induction M as [|l l' a b H M IH]; constructor; [|exact IH]. clear IH M. induction H as [|p q l l' H' H IH']; constructor; [|exact IH']. lra.
Qed.
Lemma by_index {A B} (f : A -> B) (d : A) l : map f l = map (fun i => f (nth i l d)) (seq 0 (length l)).
Proof.
  induction l as [|a l IH]; [reflexivity|]. cbn [length seq map nth]. f_equal. rewrite <- seq_shift, map_map. exact IH.
Qed.

Section Near.
  Variables (lh lv : list (list (R * R))).
  Notation X := (list (list (R * R)) * list (list (R * R)))%type.
  Definition ev (P : X -> Prop) : Prop := exists d, 0 < d /\ forall x : X, moved d lh (fst x) -> moved d lv (snd x) -> P x.
  Lemma ev_true : ev (fun _ => True).
  Proof. exists 1. split; [lra|trivial]. Qed.
  Lemma ev_and P Q : ev P -> ev Q -> ev (fun x => P x /\ Q x).
  Proof.
    intros [d [Hd H]] [d' [Hd' H']]. exists (Rmin d d'). split; [now apply Rmin_glb_lt|]. intros x A B.
    split; [apply H; eapply moved_le; try eassumption; apply Rmin_l|apply H'; eapply moved_le; try eassumption; apply Rmin_r].
  Qed.
  Lemma ev_imp (P Q : X -> Prop) : (forall x, P x -> Q x) -> ev P -> ev Q.
  Proof. intros I [d [Hd H]]. exists d. split; [exact Hd|]. intros x A B. apply I. now apply H. Qed.
  Lemma ev_base P : ev P -> P (lh, lv).
  Proof. intros [d [Hd H]]. apply H; apply moved_same; lra. Qed.
  Lemma ev_moved : ev (fun x => exists d, moved d lh (fst x) /\ moved d lv (snd x)).
  Proof. exists 1. split; [lra|]. intros x A B. exists 1. tauto. Qed.
  Notation ct := (cts (lh, lv) ev).
  Lemma ct_eq F G : ev (fun x => F x = G x) -> ct F -> ct G.
  Proof. intros E H e He. pose proof (ev_base _ E) as E0. cbv beta in E0. apply (ev_imp (fun x => F x = G x /\ Rabs (F x - F (lh, lv)) <= e)); [|apply ev_and; [exact E|now apply H]]. intros x [A B]. now rewrite <- A, <- E0. Qed.

  (** One direction: the lines [side], the abscissa [fx] and the ordinate [fy]
      of a dot, seen from (cx, cy). *)
  Section Dir.
    Variables (side : X -> list (list (R * R))) (fx fy : R * R -> R).
    Hypothesis Cx : forall k i, ct (fun x => fx (nth i (nth k (side x) []) (0, 0))).
    Hypothesis Cy : forall k i, ct (fun x => fy (nth i (nth k (side x) []) (0, 0))).
    Hypothesis Ln : forall k, ev (fun x => length (nth k (side x) []) = length (nth k (side (lh, lv)) [])).
    Variables (cx cy : X -> R).
    Hypothesis Hcx : ct cx.
    Hypothesis Hcy : ct cy.
    Definition rel (k : nat) (x : X) : list (R * R) := map (fun p => (fx p - cx x, fy p - cy x)) (nth k (side x) []).
    Lemma ct_sum k (f : R * R -> R) : (forall F G, ct F -> ct G -> ct (fun x => f (F x, G x))) -> ct (fun x => Rsum (map f (rel k x))).
    Proof.
      intros Hf. apply (ct_eq (fun x => Rsum (map (fun i => f (fx (nth i (nth k (side x) []) (0, 0)) - cx x, fy (nth i (nth k (side x) []) (0, 0)) - cy x)) (seq 0 (length (nth k (side (lh, lv)) [])))))).
      - eapply ev_imp; [|apply (Ln k)]. intros x E. cbv beta in E. unfold rel. rewrite map_map. rewrite (by_index (fun p => f (fx p - cx x, fy p - cy x)) (0, 0)), E. reflexivity.
      - apply (cts_sum (lh, lv) ev ev_true ev_and ev_imp (fun i x => f (fx (nth i (nth k (side x) []) (0, 0)) - cx x, fy (nth i (nth k (side x) []) (0, 0)) - cy x))).
        intros i _. apply (Hf (fun x => fx (nth i (nth k (side x) []) (0, 0)) - cx x) (fun x => fy (nth i (nth k (side x) []) (0, 0)) - cy x));
          apply (cts_sub (lh, lv) ev ev_and ev_imp); auto.
    Qed.
    Lemma ct_mo k j : ct (fun x => mo j (rel k x)).
    Proof. unfold mo. apply (ct_sum k (fun p => fst p ^ j)). intros F G HF HG. cbn [fst snd]. now apply (cts_pow (lh, lv) ev ev_imp). Qed.
    Lemma ct_tm k j : ct (fun x => tm j (rel k x)).
    Proof. unfold tm. apply (ct_sum k (fun p => fst p ^ j * snd p)). intros F G HF HG. cbn [fst snd]. apply (cts_mul (lh, lv) ev ev_and ev_imp); [now apply (cts_pow (lh, lv) ev ev_imp)|exact HG]. Qed.
    Lemma ct_det3 (a b c d e f g h i : X -> R) : ct a -> ct b -> ct c -> ct d -> ct e -> ct f -> ct g -> ct h -> ct i ->
      ct (fun x => det3 (a x) (b x) (c x) (d x) (e x) (f x) (g x) (h x) (i x)).
    Proof.
      intros. unfold det3. repeat (assumption || apply (cts_sub (lh, lv) ev ev_and ev_imp) || apply (cts_add (lh, lv) ev ev_and ev_imp) || apply (cts_mul (lh, lv) ev ev_and ev_imp)).
    Qed.
    Lemma ct_D2 k : ct (fun x => D2 (rel k x)).
    Proof. unfold D2. apply (ct_det3 (fun x => mo 4 (rel k x)) (fun x => mo 3 (rel k x)) (fun x => mo 2 (rel k x)) (fun x => mo 3 (rel k x)) (fun x => mo 2 (rel k x)) (fun x => mo 1 (rel k x)) (fun x => mo 2 (rel k x)) (fun x => mo 1 (rel k x)) (fun x => mo 0 (rel k x))); apply ct_mo. Qed.
    Variable k : nat.
    Hypothesis Dk : D2 (rel k (lh, lv)) <> 0.
    Lemma ct_para : ct (fun x => fst (fst (para2 (rel k x)))) /\ ct (fun x => snd (fst (para2 (rel k x)))) /\ ct (fun x => snd (para2 (rel k x))).
    Proof.
      unfold para2. cbn [fst snd].
      assert (Q : forall F, ct F -> ct (fun x => F x / D2 (rel k x))) by (intros F HF; apply (cts_div (lh, lv) ev ev_and ev_imp); [exact HF|apply ct_D2|exact Dk]).
      split; [|split].
      - apply (Q (fun x => det3 (tm 2 (rel k x)) (mo 3 (rel k x)) (mo 2 (rel k x)) (tm 1 (rel k x)) (mo 2 (rel k x)) (mo 1 (rel k x)) (tm 0 (rel k x)) (mo 1 (rel k x)) (mo 0 (rel k x)))).
        apply (ct_det3 (fun x => tm 2 (rel k x)) (fun x => mo 3 (rel k x)) (fun x => mo 2 (rel k x)) (fun x => tm 1 (rel k x)) (fun x => mo 2 (rel k x)) (fun x => mo 1 (rel k x)) (fun x => tm 0 (rel k x)) (fun x => mo 1 (rel k x)) (fun x => mo 0 (rel k x))); apply ct_mo || apply ct_tm.
      - apply (Q (fun x => det3 (mo 4 (rel k x)) (tm 2 (rel k x)) (mo 2 (rel k x)) (mo 3 (rel k x)) (tm 1 (rel k x)) (mo 1 (rel k x)) (mo 2 (rel k x)) (tm 0 (rel k x)) (mo 0 (rel k x)))).
        apply (ct_det3 (fun x => mo 4 (rel k x)) (fun x => tm 2 (rel k x)) (fun x => mo 2 (rel k x)) (fun x => mo 3 (rel k x)) (fun x => tm 1 (rel k x)) (fun x => mo 1 (rel k x)) (fun x => mo 2 (rel k x)) (fun x => tm 0 (rel k x)) (fun x => mo 0 (rel k x))); apply ct_mo || apply ct_tm.
      - apply (Q (fun x => det3 (mo 4 (rel k x)) (mo 3 (rel k x)) (tm 2 (rel k x)) (mo 3 (rel k x)) (mo 2 (rel k x)) (tm 1 (rel k x)) (mo 2 (rel k x)) (mo 1 (rel k x)) (tm 0 (rel k x)))).
        apply (ct_det3 (fun x => mo 4 (rel k x)) (fun x => mo 3 (rel k x)) (fun x => tm 2 (rel k x)) (fun x => mo 3 (rel k x)) (fun x => mo 2 (rel k x)) (fun x => tm 1 (rel k x)) (fun x => mo 2 (rel k x)) (fun x => mo 1 (rel k x)) (fun x => tm 0 (rel k x))); apply ct_mo || apply ct_tm.
    Qed.
    Lemma ev_D2 : ev (fun x => D2 (rel k x) <> 0).
    Proof. eapply ev_imp; [|apply (cts_sgn (lh, lv) ev ev_imp _ (ct_D2 k) Dk)]. intros x H. apply H. Qed.
  End Dir.

  (** Both directions. *)
  Lemma ct_coord (f : R * R -> R) side : (f = pxc \/ f = py) -> (side = fst \/ side = snd) -> forall k i, ct (fun x : X => f (nth i (nth k (side x) []) (0, 0))).
  Proof.
    intros Hf Hs k i e He. exists e. split; [exact He|]. intros [a b] A B. cbn [fst snd] in A, B. destruct Hs as [->| ->]; cbn [fst snd].
    - destruct (moved_nth e lh a k i ltac:(lra) A) as [P Q]. destruct Hf as [->| ->]; assumption.
    - destruct (moved_nth e lv b k i ltac:(lra) B) as [P Q]. destruct Hf as [->| ->]; assumption.
  Qed.
  Lemma ev_len side : (side = fst \/ side = snd) -> forall k, ev (fun x : X => length (nth k (side x) []) = length (nth k (side (lh, lv)) [])).
  Proof.
    intros Hs k. exists 1. split; [lra|]. intros [a b] A B. cbn [fst snd] in A, B. destruct Hs as [->| ->]; cbn [fst snd]; [exact (moved_lengths 1 lh a k A)|exact (moved_lengths 1 lv b k B)].
  Qed.
  Lemma ev_count : ev (fun x => length (fst x) = length lh /\ length (snd x) = length lv).
  Proof. exists 1. split; [lra|]. intros [a b] A B. cbn [fst snd] in *. split; symmetry; [exact (Forall2_length _ _ _ A)|exact (Forall2_length _ _ _ B)]. Qed.

  Variable polyfit : list R -> list R -> nat -> res (list R).
  Hypothesis PF : polyfit_oracle polyfit.
  Definition fitted (fx fy : R * R -> R) (a b : R) (lines : list (list (R * R))) (cs : list (R * R * R)) : Prop :=
    Forall2 (fun line c => exists u v w, c = (u, v, w) /\ polyfit (map (fun p => fx p - a) line) (map (fun p => fy p - b) line) 2%nat = Ok [u; v; w]) lines cs.
  Lemma fitted_nth fx fy a b lines cs k : fitted fx fy a b lines cs -> (k < length lines)%nat -> nth k lines [] <> [] ->
    D2 (map (fun p => (fx p - a, fy p - b)) (nth k lines [])) <> 0 -> nth k cs (0, 0, 0) = para2 (map (fun p => (fx p - a, fy p - b)) (nth k lines [])).
  Proof.
    intros F. revert k. induction F as [|l c ls cs H F IH]; intros k Hk; [cbn in Hk; lia|]. destruct k as [|k]; [|apply IH; cbn in Hk; lia]. cbn [nth].
    intros N D. destruct H as [u [v [w [-> E]]]]. apply solve2; [|exact D]. rewrite !map_map. cbn [fst snd].
    destruct (PF (map (fun p => fx p - a) l) (map (fun p => fy p - b) l) 2%nat) as [r [Er S]]; [destruct l; [easy|discriminate]|now rewrite !map_length|]. rewrite E in Er. injection Er as <-. exact S.
  Qed.
  (** The parabolas of the moved lines, seen from a moving centre. *)
  Lemma paras_of side fx fy (cx cy : X -> R) n : (side = fst \/ side = snd) -> ev (fun x => length (side x) = n) -> length (side (lh, lv)) = n ->
    Forall (fun l => distinct_values 3 (map fx l)) (side (lh, lv)) -> (fx = pxc \/ fx = py) -> (fy = pxc \/ fy = py) -> ct cx -> ct cy ->
    ev (fun x => (forall k, (k < n)%nat -> nth k (side x) [] <> []) /\ forall cs, fitted fx fy (cx x) (cy x) (side x) cs -> cs = map (fun k => para2 (rel side fx fy cx cy k x)) (seq 0 n)).
  Proof.
    intros Hs Hn L D Fx Fy Hx Hy.
    assert (Dl : forall k, (k < n)%nat -> distinct_values 3 (map fx (nth k (side (lh, lv)) []))).
    { intros k Hk. rewrite Forall_forall in D. apply D, nth_In. lia. }
    assert (Db : forall k, In k (seq 0 n) -> D2 (rel side fx fy cx cy k (lh, lv)) <> 0).
    { intros k Hk. apply in_seq in Hk. apply D2_nonzero. unfold rel. rewrite map_map. cbn [fst]. apply distinct_shift. apply Dl. lia. }
    assert (E1 : ev (fun x => forall k, In k (seq 0 n) -> D2 (rel side fx fy cx cy k x) <> 0)).
    { apply (ev_all ev ev_true ev_and ev_imp (fun k x => D2 (rel side fx fy cx cy k x) <> 0)). intros k Hk. apply ev_D2; auto using ct_coord, ev_len. }
    assert (E2 : ev (fun x => forall k, In k (seq 0 n) -> length (nth k (side x) []) = length (nth k (side (lh, lv)) []))).
    { apply (ev_all ev ev_true ev_and ev_imp (fun k x => length (nth k (side x) []) = length (nth k (side (lh, lv)) []))). intros k _. now apply ev_len. }
    pose proof (ev_and _ _ Hn (ev_and _ _ E1 E2)) as E. eapply ev_imp; [|exact E]. clear E E1 E2. intros x [Ex [E1 E2]].
    assert (Nx : forall k, (k < n)%nat -> nth k (side x) [] <> []).
    { intros k Hk Z. specialize (E2 k ltac:(apply in_seq; lia)). rewrite Z in E2. specialize (Dl k Hk). destruct (nth k (side (lh, lv)) []); [now apply distinct_values_ne in Dl|discriminate]. }
    split; [exact Nx|]. intros cs F. pose proof (Forall2_length _ _ _ F) as Lc. unfold pt in *.
    apply (nth_ext _ _ (0, 0, 0) (0, 0, 0)); [rewrite map_length, seq_length; lia|]. intros k Hk.
    rewrite (nth_indep (map _ _) (0, 0, 0) (para2 (rel side fx fy cx cy 0 x))) by (rewrite map_length, seq_length; lia). rewrite (map_nth (fun k => para2 (rel side fx fy cx cy k x))), seq_nth by lia. cbn [Nat.add].
    apply fitted_nth; [exact F|lia|apply Nx; lia|]. apply (E1 k). apply in_seq. lia.
  Qed.

  Lemma seq_nth_map {A} (f : nat -> A) d n k : (k < n)%nat -> nth k (map f (seq 0 n)) d = f k.
  Proof. intros Hk. rewrite (nth_indep _ d (f O)) by (rewrite map_length, seq_length; lia). rewrite (map_nth f), seq_nth by lia. reflexivity. Qed.
  Lemma change_unique cs i j : main_change cs i -> main_change cs j -> i = j.
  Proof.
    intros (A & B & C) (A' & B' & C'). destruct (Nat.lt_trichotomy i j) as [L|[E|G]]; [|exact E|].
    - specialize (C' i L). specialize (B j A'). lra.
    - specialize (C j G). specialize (B' i A). lra.
  Qed.
  Lemma change_signs cs cs' i : length cs = length cs' -> (forall k, (k < length cs)%nat -> sgn (curv cs k) = sgn (curv cs' k)) -> main_change cs i -> main_change cs' i.
  Proof.
    intros L G (A & B & C).
    assert (J : forall j, (S j < length cs)%nat -> sign_jump cs' j = sign_jump cs j) by (intros j Hj; unfold sign_jump; rewrite !G by lia; reflexivity).
    split; [lia|]. split; intros j Hj; [rewrite !J by lia; apply B; lia|rewrite !J by lia; now apply C].
  Qed.

  Hypothesis Sh : spread_hor 3 lh.
  Hypothesis Sv : spread_ver 3 lv.
  Hypothesis Lh : (2 <= length lh)%nat.
  Hypothesis Lv : (2 <= length lv)%nat.
  Let n := length lh.
  Let m := length lv.
  Lemma ev_n : ev (fun x => length (fst x) = n).
  Proof. eapply ev_imp; [|exact ev_count]. intros x H. apply H. Qed.
  Lemma ev_m : ev (fun x => length (snd x) = m).
  Proof. eapply ev_imp; [|exact ev_count]. intros x H. apply H. Qed.
  Notation Ph cx cy k x := (para2 (rel fst pxc py cx cy k x)).
  Notation Pv cx cy k x := (para2 (rel snd py pxc cy cx k x)).
  Lemma ct_h cx cy k : ct cx -> ct cy -> (k < n)%nat -> ct (fun x => fst (fst (Ph cx cy k x))) /\ ct (fun x => snd (fst (Ph cx cy k x))) /\ ct (fun x => snd (Ph cx cy k x)).
  Proof.
    intros Hx Hy Hk. apply ct_para; auto using ct_coord, ev_len. apply D2_nonzero. unfold rel. rewrite map_map. cbn [fst]. apply distinct_shift.
    unfold spread_hor in Sh. rewrite Forall_forall in Sh. apply Sh. cbn [fst]. apply nth_In. exact Hk.
  Qed.
  Lemma ct_v cx cy k : ct cx -> ct cy -> (k < m)%nat -> ct (fun x => fst (fst (Pv cx cy k x))) /\ ct (fun x => snd (fst (Pv cx cy k x))) /\ ct (fun x => snd (Pv cx cy k x)).
  Proof.
    intros Hx Hy Hk. apply ct_para; auto using ct_coord, ev_len. apply D2_nonzero. unfold rel. rewrite map_map. cbn [fst]. apply distinct_shift.
    unfold spread_ver in Sv. rewrite Forall_forall in Sv. apply Sv. cbn [fst snd]. apply nth_In. exact Hk.
  Qed.
  Lemma all_h cx cy : ct cx -> ct cy -> ev (fun x => (exists sl, @para_fit_hor R Rexact polyfit (fst x) (cx x) (cy x) = Ok (map (fun k => Ph cx cy k x) (seq 0 n), sl)) /\
    forall cs, fits_hor (fun x => x) polyfit (cx x) (cy x) (fst x) cs -> cs = map (fun k => Ph cx cy k x) (seq 0 n)).
  Proof.
    intros Hx Hy. pose proof (paras_of fst pxc py cx cy n ltac:(now left) ev_n eq_refl Sh ltac:(now left) ltac:(now right) Hx Hy) as E.
    eapply ev_imp; [|exact (ev_and _ _ ev_n E)]. intros x [Ln [Nx F]]. split; [|exact F].
    destruct (para_hor_total (fun x => x) polyfit PF (fst x) (cx x) (cy x)) as [cs [sl P]].
    { intros l Hl. apply (In_nth _ _ []) in Hl. destruct Hl as [k [Hk <-]]. apply Nx. lia. }
    exists sl. rewrite <- (F cs (para_hor_fits (fun x => x) polyfit _ _ _ _ _ P)). exact P.
  Qed.
  Lemma all_v cx cy : ct cx -> ct cy -> ev (fun x => (exists sl, @para_fit_ver R Rexact polyfit (snd x) (cx x) (cy x) = Ok (map (fun k => Pv cx cy k x) (seq 0 m), sl)) /\
    forall cs, fits_ver (fun x => x) polyfit (cx x) (cy x) (snd x) cs -> cs = map (fun k => Pv cx cy k x) (seq 0 m)).
  Proof.
    intros Hx Hy. pose proof (paras_of snd py pxc cy cx m ltac:(now right) ev_m eq_refl Sv ltac:(now right) ltac:(now left) Hy Hx) as E.
    eapply ev_imp; [|exact (ev_and _ _ ev_m E)]. intros x [Ln [Nx F]]. split; [|exact F].
    destruct (para_ver_total (fun x => x) polyfit PF (snd x) (cx x) (cy x)) as [cs [sl P]].
    { intros l Hl. apply (In_nth _ _ []) in Hl. destruct Hl as [k [Hk <-]]. apply Nx. lia. }
    exists sl. rewrite <- (F cs (para_ver_fits (fun x => x) polyfit _ _ _ _ _ P)). exact P.
  Qed.
  Lemma coarse_near ch cv i j : fits_hor (fun x => x) polyfit 0 0 lh ch -> fits_ver (fun x => x) polyfit 0 0 lv cv ->
    (forall k, (k < length lh)%nat -> curv ch k <> 0) -> (forall k, (k < length lv)%nat -> curv cv k <> 0) -> main_change ch i -> main_change cv j ->
    (slope ch i + slope ch (S i)) / 2 * ((slope cv j + slope cv (S j)) / 2) <> 1 ->
    exists cx cy, ct cx /\ ct cy /\ ev (fun x => @find_cod_coarse R Rexact polyfit (fst x) (snd x) = Ok (cx x, cy x)).
  Proof.
    intros Fh Fv Bh Bv Mi Mj NP. set (z := fun _ : X => 0).
    assert (Hz : ct z) by apply (cts_const (lh, lv) ev ev_true ev_imp).
    pose proof (all_h z z Hz Hz) as Ah. pose proof (all_v z z Hz Hz) as Av.
    pose proof (ev_base _ Ah) as [_ Ch]. cbv beta in Ch. specialize (Ch ch Fh). pose proof (ev_base _ Av) as [_ Cv]. cbv beta in Cv. specialize (Cv cv Fv).
    assert (Ci : (S i < n)%nat) by (destruct Mi as [Q _]; rewrite Ch, map_length, seq_length in Q; exact Q).
    assert (Cj : (S j < m)%nat) by (destruct Mj as [Q _]; rewrite Cv, map_length, seq_length in Q; exact Q).
    assert (Gh : ev (fun x => forall k, In k (seq 0 n) -> sgn (fst (fst (Ph z z k x))) = sgn (curv ch k))).
    { apply (ev_all ev ev_true ev_and ev_imp (fun k x => sgn (fst (fst (Ph z z k x))) = sgn (curv ch k))). intros k Hk. apply in_seq in Hk.
      assert (E : curv ch k = fst (fst (Ph z z k (lh, lv)))) by (unfold curv; rewrite Ch at 1; rewrite seq_nth_map by lia; reflexivity).
      specialize (Bh k ltac:(unfold n in Hk; lia)). rewrite E in Bh |- *.
      eapply ev_imp; [|apply (cts_sgn (lh, lv) ev ev_imp (fun x => fst (fst (Ph z z k x)))); [apply ct_h; (assumption || lia)|exact Bh]]. intros x Q. apply Q. }
    assert (Gv : ev (fun x => forall k, In k (seq 0 m) -> sgn (fst (fst (Pv z z k x))) = sgn (curv cv k))).
    { apply (ev_all ev ev_true ev_and ev_imp (fun k x => sgn (fst (fst (Pv z z k x))) = sgn (curv cv k))). intros k Hk. apply in_seq in Hk.
      assert (E : curv cv k = fst (fst (Pv z z k (lh, lv)))) by (unfold curv; rewrite Cv at 1; rewrite seq_nth_map by lia; reflexivity).
      specialize (Bv k ltac:(unfold m in Hk; lia)). rewrite E in Bv |- *.
      eapply ev_imp; [|apply (cts_sgn (lh, lv) ev ev_imp (fun x => fst (fst (Pv z z k x)))); [apply ct_v; (assumption || lia)|exact Bv]]. intros x Q. apply Q. }
    set (mh := fun x => (snd (fst (Ph z z i x)) + snd (fst (Ph z z (S i) x))) / 2). set (mv := fun x => (snd (fst (Pv z z j x)) + snd (fst (Pv z z (S j) x))) / 2).
    set (y0 := fun x => (snd (Ph z z i x) + snd (Ph z z (S i) x)) / 2). set (x0 := fun x => (snd (Pv z z j x) + snd (Pv z z (S j) x)) / 2).
    assert (two0 : forall F, ct F -> ct (fun x => F x / 2)) by (intros F HF; apply (cts_div (lh, lv) ev ev_and ev_imp F (fun _ => 2)); [exact HF|apply (cts_const (lh, lv) ev ev_true ev_imp)|lra]).
    assert (add := cts_add (lh, lv) ev ev_and ev_imp). assert (mul := cts_mul (lh, lv) ev ev_and ev_imp).
    destruct (ct_h z z i Hz Hz ltac:(lia)) as (_ & h1 & h2). destruct (ct_h z z (S i) Hz Hz ltac:(lia)) as (_ & h3 & h4).
    destruct (ct_v z z j Hz Hz ltac:(lia)) as (_ & v1 & v2). destruct (ct_v z z (S j) Hz Hz ltac:(lia)) as (_ & v3 & v4).
    assert (Cmh : ct mh) by (apply (two0 (fun x => snd (fst (Ph z z i x)) + snd (fst (Ph z z (S i) x)))); now apply add).
    assert (Cmv : ct mv) by (apply (two0 (fun x => snd (fst (Pv z z j x)) + snd (fst (Pv z z (S j) x)))); now apply add).
    assert (Cy0 : ct y0) by (apply (two0 (fun x => snd (Ph z z i x) + snd (Ph z z (S i) x))); now apply add).
    assert (Cx0 : ct x0) by (apply (two0 (fun x => snd (Pv z z j x) + snd (Pv z z (S j) x))); now apply add).
    assert (N0 : 1 - mh (lh, lv) * mv (lh, lv) <> 0).
    { unfold slope in NP. rewrite Ch, Cv in NP. rewrite !seq_nth_map in NP by lia. intros Z. apply NP. unfold mh, mv in Z. lra. }
    assert (Cd : ct (fun x => 1 - mh x * mv x)) by (apply (cts_sub (lh, lv) ev ev_and ev_imp (fun _ => 1)); [apply (cts_const (lh, lv) ev ev_true ev_imp)|now apply mul]).
    exists (fun x => (x0 x + y0 x * mv x) / (1 - mh x * mv x)), (fun x => (y0 x + x0 x * mh x) / (1 - mh x * mv x)).
    split; [apply (cts_div (lh, lv) ev ev_and ev_imp (fun x => x0 x + y0 x * mv x)); [apply add; [exact Cx0|now apply mul]|exact Cd|exact N0]|].
    split; [apply (cts_div (lh, lv) ev ev_and ev_imp (fun x => y0 x + x0 x * mh x)); [apply add; [exact Cy0|now apply mul]|exact Cd|exact N0]|].
    eapply ev_imp; [|exact (ev_and _ _ (ev_and _ _ Ah Av) (ev_and _ _ Gh Gv))]. intros x [[[[slh Ex] _] [[slv Ev] _]] [Jh Jv]].
    set (hs := map (fun k => Ph z z k x) (seq 0 n)) in *. set (vs := map (fun k => Pv z z k x) (seq 0 m)) in *.
    assert (Lhs : length hs = n) by (unfold hs; now rewrite map_length, seq_length). assert (Lvs : length vs = m) by (unfold vs; now rewrite map_length, seq_length).
    destruct (coarse_spec (fun x => x) polyfit (fst x) (snd x) hs slh vs slv Ex Ev) as [i' [j' [Mi' [Mj' E]]]]; [unfold n in Lhs; lia|unfold m in Lvs; lia|].
    assert (i' = i).
    { apply (change_unique ch); [|exact Mi]. apply (change_signs hs); [rewrite Ch; unfold hs; now rewrite !map_length|intros k Hk; rewrite Lhs in Hk; rewrite <- (Jh k) by (apply in_seq; lia); unfold curv, hs; now rewrite seq_nth_map|exact Mi']. }
    assert (j' = j).
    { apply (change_unique cv); [|exact Mj]. apply (change_signs vs); [rewrite Cv; unfold vs; now rewrite !map_length|intros k Hk; rewrite Lvs in Hk; rewrite <- (Jv k) by (apply in_seq; lia); unfold curv, vs; now rewrite seq_nth_map|exact Mj']. }
    subst i' j'. cbv zeta in E. unfold slope, inter, hs, vs in E. rewrite !seq_nth_map in E by lia. exact E.
  Qed.

  (** *** One update of Bailey's method *)
  Definition pr (P : nat -> X -> R * R * R) (l : list nat) (x : X) : list (R * R) := map (fun k => (snd (P k x), fst (fst (P k x)))) l.
  Lemma line_near (P : nat -> X -> R * R * R) c : (forall k, (k < c)%nat -> ct (fun x => fst (fst (P k x))) /\ ct (fun x => snd (P k x))) ->
    leans polyfit (map (fun k => P k (lh, lv)) (seq 0 c)) ->
    exists a b, ct a /\ ct b /\ a (lh, lv) <> 0 /\ ev (fun x => @fit1 R polyfit (map cf2 (map (fun k => P k x) (seq 0 c))) (map cf0 (map (fun k => P k x) (seq 0 c))) = Ok (a x, b x)).
  Proof.
    intros C [D A]. set (l := seq 0 c).
    assert (Cm : forall j, ct (fun x => mo j (pr P l x))).
    { intros j. apply (cts_ext (lh, lv) ev ev_imp (fun x => Rsum (map (fun k => snd (P k x) ^ j) l))); [intros x; unfold mo, pr; now rewrite map_map|].
      apply (cts_sum (lh, lv) ev ev_true ev_and ev_imp (fun k x => snd (P k x) ^ j)). intros k Hk. apply in_seq in Hk. apply (cts_pow (lh, lv) ev ev_imp). apply C. lia. }
    assert (Ct : forall j, ct (fun x => tm j (pr P l x))).
    { intros j. apply (cts_ext (lh, lv) ev ev_imp (fun x => Rsum (map (fun k => snd (P k x) ^ j * fst (fst (P k x))) l))); [intros x; unfold tm, pr; now rewrite map_map|].
      apply (cts_sum (lh, lv) ev ev_true ev_and ev_imp (fun k x => snd (P k x) ^ j * fst (fst (P k x)))). intros k Hk. apply in_seq in Hk.
      apply (cts_mul (lh, lv) ev ev_and ev_imp); [apply (cts_pow (lh, lv) ev ev_imp)|]; apply C; lia. }
    assert (mul := cts_mul (lh, lv) ev ev_and ev_imp). assert (sub := cts_sub (lh, lv) ev ev_and ev_imp).
    assert (CD : ct (fun x => D1 (pr P l x))) by (unfold D1; apply (sub (fun x => mo 2 (pr P l x) * mo 0 (pr P l x))); now apply mul).
    assert (D0 : D1 (pr P l (lh, lv)) <> 0) by (apply D1_nonzero; unfold pr; rewrite map_map; cbn [fst]; rewrite map_map in D; exact D).
    assert (Nc : (0 < c)%nat) by (destruct c; [cbn in D; now apply distinct_values_ne in D|lia]).
    assert (F : forall x, D1 (pr P l x) <> 0 -> exists u v, polyfit (map snd (map (fun k => P k x) l)) (map (fun q => fst (fst q)) (map (fun k => P k x) l)) 1%nat = Ok [u; v] /\ (u, v) = line1 (pr P l x)).
    { intros x Dx. destruct (PF (map snd (map (fun k => P k x) l)) (map (fun q => fst (fst q)) (map (fun k => P k x) l)) 1%nat) as [r [Er S]];
        [unfold l; destruct c; [lia|discriminate]|now rewrite !map_length|].
      destruct r as [|u [|v [|w r]]]; try (destruct S as [S _]; discriminate S). exists u, v. split; [exact Er|]. apply solve1; [|exact Dx].
      unfold pr. rewrite !map_map in S |- *. exact S. }
    exists (fun x => fst (line1 (pr P l x))), (fun x => snd (line1 (pr P l x))). unfold line1. cbn [fst snd].
    split; [apply (cts_div (lh, lv) ev ev_and ev_imp (fun x => tm 1 (pr P l x) * mo 0 (pr P l x) - tm 0 (pr P l x) * mo 1 (pr P l x))); [apply sub; apply mul; auto|exact CD|exact D0]|].
    split; [apply (cts_div (lh, lv) ev ev_and ev_imp (fun x => mo 2 (pr P l x) * tm 0 (pr P l x) - mo 1 (pr P l x) * tm 1 (pr P l x))); [apply sub; apply mul; auto|exact CD|exact D0]|].
    split.
    - destruct (F (lh, lv) D0) as [u [v [E L]]]. apply A in E. unfold line1 in L. injection L as <- _. exact E.
    - eapply ev_imp; [|exact (cts_sgn (lh, lv) ev ev_imp _ CD D0)]. intros x [Dx _]. destruct (F x Dx) as [u [v [E L]]]. unfold line1 in L. rewrite <- L. cbn [fst snd].
      unfold fit1. replace (map cf2 (map (fun k => P k x) l)) with (map snd (map (fun k => P k x) l)) by reflexivity.
      replace (map cf0 (map (fun k => P k x) l)) with (map (fun q => fst (fst q)) (map (fun k => P k x) l)) by reflexivity. rewrite E. cbn [bind]. reflexivity.
  Qed.
  Lemma step_near cx cy : ct cx -> ct cy ->
    (forall ch, fits_hor (fun x => x) polyfit (cx (lh, lv)) (cy (lh, lv)) lh ch -> leans polyfit ch) -> (forall cv, fits_ver (fun x => x) polyfit (cx (lh, lv)) (cy (lh, lv)) lv cv -> leans polyfit cv) ->
    exists dx dy, ct dx /\ ct dy /\ ev (fun x => @bailey_step R Rexact polyfit (fst x) (snd x) (cx x, cy x) = Ok (dx x, dy x)).
  Proof.
    intros Hx Hy Gh Gv. pose proof (all_h cx cy Hx Hy) as Ah. pose proof (all_v cx cy Hx Hy) as Av.
    destruct (ev_base _ Ah) as [[s0 E0] _]. destruct (ev_base _ Av) as [[s1 E1] _]. cbn [fst snd] in E0, E1.
    destruct (line_near (fun k x => Ph cx cy k x) n) as [a1 [b1 (A1 & B1 & N1 & L1)]].
    { intros k Hk. destruct (ct_h cx cy k Hx Hy Hk) as (Q & _ & Q'). now split. }
    { apply Gh. exact (para_hor_fits (fun x => x) polyfit _ _ _ _ _ E0). }
    destruct (line_near (fun k x => Pv cx cy k x) m) as [a2 [b2 (A2 & B2 & N2 & L2)]].
    { intros k Hk. destruct (ct_v cx cy k Hx Hy Hk) as (Q & _ & Q'). now split. }
    { apply Gv. exact (para_ver_fits (fun x => x) polyfit _ _ _ _ _ E1). }
    exists (fun x => cx x - b2 x / a2 x), (fun x => cy x - b1 x / a1 x).
    split; [apply (cts_sub (lh, lv) ev ev_and ev_imp cx); [exact Hx|now apply (cts_div (lh, lv) ev ev_and ev_imp)]|].
    split; [apply (cts_sub (lh, lv) ev ev_and ev_imp cy); [exact Hy|now apply (cts_div (lh, lv) ev ev_and ev_imp)]|].
    eapply ev_imp; [|exact (ev_and _ _ (ev_and _ _ Ah Av) (ev_and _ _ L1 L2))]. intros x [[[[sh Eh] _] [[sv Ev] _]] [F1 F2]].
    unfold bailey_step. rewrite Eh, Ev. cbn [bind fst snd]. rewrite F1, F2. cbn [bind]. reflexivity.
  Qed.
  Lemma loop_snoc a b k c : @bailey_loop R Rexact polyfit a b (S k) c = bind (@bailey_loop R Rexact polyfit a b k c) (@bailey_step R Rexact polyfit a b).
  Proof.
    revert c. induction k as [|k IH]; intros c; [cbn [bailey_loop bind]; destruct (bailey_step polyfit a b c); reflexivity|].
    change (bailey_loop polyfit a b (S (S k)) c) with (bind (@bailey_step R Rexact polyfit a b c) (@bailey_loop R Rexact polyfit a b (S k))).
    change (bailey_loop polyfit a b (S k) c) with (bind (@bailey_step R Rexact polyfit a b c) (@bailey_loop R Rexact polyfit a b k)).
    destruct (bailey_step polyfit a b c) as [d|]; [|reflexivity]. cbn [bind]. apply IH.
  Qed.
  Lemma bailey_near iteration cx cy : ct cx -> ct cy -> ev (fun x => @find_cod_coarse R Rexact polyfit (fst x) (snd x) = Ok (cx x, cy x)) ->
    (forall x y ch, candidate polyfit lh lv iteration x y -> fits_hor (fun x => x) polyfit x y lh ch -> leans polyfit ch) ->
    (forall x y cv, candidate polyfit lh lv iteration x y -> fits_ver (fun x => x) polyfit x y lv cv -> leans polyfit cv) ->
    forall k, (Z.of_nat k <= Z.max 0 iteration)%Z -> exists dx dy, ct dx /\ ct dy /\ ev (fun x => @find_cod_bailey R Rexact polyfit (fst x) (snd x) (Z.of_nat k) = Ok (dx x, dy x)).
  Proof.
    intros Hx Hy E Gh Gv. unfold find_cod_bailey. induction k as [|k IH]; intros Hk.
    - assert (E0 : candidate polyfit lh lv iteration (cx (lh, lv)) (cy (lh, lv))) by (left; exact (ev_base _ E)).
      destruct (step_near cx cy Hx Hy ltac:(intros; eapply Gh; eassumption) ltac:(intros; eapply Gv; eassumption)) as [dx [dy (A & B & S)]].
      exists dx, dy. split; [exact A|]. split; [exact B|]. eapply ev_imp; [|exact (ev_and _ _ E S)]. intros x [P Q]. rewrite P. cbn [bind]. rewrite Q. reflexivity.
    - destruct IH as [ux [uy (A & B & S)]]; [lia|]. rewrite Nat2Z.id in S.
      assert (E0 : candidate polyfit lh lv iteration (ux (lh, lv)) (uy (lh, lv))).
      { right. exists (Z.of_nat k). split; [lia|]. unfold find_cod_bailey. rewrite Nat2Z.id. exact (ev_base _ S). }
      destruct (step_near ux uy A B ltac:(intros; eapply Gh; eassumption) ltac:(intros; eapply Gv; eassumption)) as [dx [dy (A' & B' & S')]].
      exists dx, dy. split; [exact A'|]. split; [exact B'|]. eapply ev_imp; [|exact (ev_and _ _ S S')]. intros x [P Q]. rewrite Nat2Z.id.
      destruct (find_cod_coarse polyfit (fst x) (snd x)) as [c0|]; [|discriminate P]. cbn [bind] in P |- *.
      destruct (bailey_step polyfit (fst x) (snd x) c0) as [c1|]; [|discriminate P]. cbn [bind] in P |- *.
      rewrite loop_snoc, P. cbn [bind]. exact Q.
  Qed.
  Lemma near_steady f cx cy : ct cx -> ct cy -> ev (fun x => f (fst x) (snd x) = Ok (cx x, cy x)) -> exists x y, steady f lh lv x y.
  Proof.
    intros Hx Hy E. exists (cx (lh, lv)), (cy (lh, lv)). split; [exact (ev_base _ E)|]. intros e He.
    destruct (ev_and _ _ E (ev_and _ _ (Hx e He) (Hy e He))) as [d [Hd H]]. exists d. split; [exact Hd|]. intros lh' lv' A B.
    destruct (H (lh', lv') A B) as (P & Q & Q'). exists (cx (lh', lv')), (cy (lh', lv')). split; [exact P|]. split; assumption.
  Qed.
End Near.

(** What find_cod_coarse needs to be steady: at least two lines a direction, with at
    least three separate dots each; no fitted line without curvature; and the two
    middle lines, where the curvature changes sign, not parallel. *)
Definition clear_target (polyfit : list R -> list R -> nat -> res (list R)) (lh lv : list (list (R * R))) : Prop :=
  spread_hor 3 lh /\ spread_ver 3 lv /\ (2 <= length lh)%nat /\ (2 <= length lv)%nat /\
  forall ch cv i j, fits_hor (fun x => x) polyfit 0 0 lh ch -> fits_ver (fun x => x) polyfit 0 0 lv cv -> main_change ch i -> main_change cv j ->
    (forall k, (k < length lh)%nat -> curv ch k <> 0) /\ (forall k, (k < length lv)%nat -> curv cv k <> 0) /\
    (slope ch i + slope ch (S i)) / 2 * ((slope cv j + slope cv (S j)) / 2) <> 1.

Lemma change_ex cs : (2 <= length cs)%nat -> exists i, main_change cs i.
Proof.
  intros L. assert (Q : forall n, (S n < length cs)%nat -> exists i, (i <= n)%nat /\ (forall j, (j <= n)%nat -> sign_jump cs j <= sign_jump cs i) /\ forall j, (j < i)%nat -> sign_jump cs j < sign_jump cs i).
  { induction n as [|n IH]; intros Hn.
    - exists 0%nat. split; [lia|]. split; [intros j Hj; replace j with 0%nat by lia; lra|lia].
    - destruct IH as [i (A & B & C)]; [lia|]. destruct (Rle_lt_dec (sign_jump cs (S n)) (sign_jump cs i)) as [Le|Gt].
      + exists i. split; [lia|]. split; [|exact C]. intros j Hj. destruct (Nat.eq_dec j (S n)) as [->|N]; [exact Le|apply B; lia].
      + exists (S n). split; [lia|]. split; intros j Hj; [destruct (Nat.eq_dec j (S n)) as [->|N]; [lra|]|]; specialize (B j ltac:(lia)); lra. }
  destruct (Q (length cs - 2)%nat ltac:(lia)) as [i (A & B & C)]. exists i. split; [lia|]. split; [intros j Hj; apply B; lia|exact C].
Qed.
Lemma clear_near polyfit lh lv : polyfit_oracle polyfit -> clear_target polyfit lh lv ->
  exists cx cy, cts (lh, lv) (ev lh lv) cx /\ cts (lh, lv) (ev lh lv) cy /\ ev lh lv (fun x => @find_cod_coarse R Rexact polyfit (fst x) (snd x) = Ok (cx x, cy x)).
Proof.
  intros PF (Sh & Sv & Lh & Lv & G).
  assert (Nh : forall l, In l lh -> l <> []) by (intros l Hl; unfold spread_hor in Sh; rewrite Forall_forall in Sh; apply Sh in Hl; intros ->; now apply distinct_values_ne in Hl).
  assert (Nv : forall l, In l lv -> l <> []) by (intros l Hl; unfold spread_ver in Sv; rewrite Forall_forall in Sv; apply Sv in Hl; intros ->; now apply distinct_values_ne in Hl).
  destruct (para_hor_total (fun x => x) polyfit PF lh 0 0 Nh) as [ch [sh Eh]]. destruct (para_ver_total (fun x => x) polyfit PF lv 0 0 Nv) as [cv [sv Ev]].
  pose proof (para_hor_fits (fun x => x) polyfit _ _ _ _ _ Eh) as Fh. pose proof (para_ver_fits (fun x => x) polyfit _ _ _ _ _ Ev) as Fv.
  pose proof (Forall2_length _ _ _ Fh) as L1. pose proof (Forall2_length _ _ _ Fv) as L2. unfold pt in *.
  destruct (change_ex ch ltac:(lia)) as [i Hi]. destruct (change_ex cv ltac:(lia)) as [j Hj].
  destruct (G ch cv i j Fh Fv Hi Hj) as (B1 & B2 & P). exact (coarse_near lh lv polyfit PF Sh Sv Lh Lv ch cv i j Fh Fv B1 B2 Hi Hj P).
Qed.

(** C135 (rough centre). *)
Theorem C135_coarse : forall polyfit lh lv, polyfit_oracle polyfit -> clear_target polyfit lh lv ->
  exists x y, steady (@find_cod_coarse R Rexact polyfit) lh lv x y.
Proof.
  intros polyfit lh lv PF C. destruct (clear_near polyfit lh lv PF C) as [cx [cy (A & B & E)]]. exact (near_steady lh lv _ cx cy A B E).
Qed.
Print Assumptions C135_coarse.

(** C135 (Bailey's method, any number of updates): also, at every centre it starts
    an update from, the curvature of the lines changes along the axis. *)
Theorem C135_bailey : forall polyfit lh lv iteration, polyfit_oracle polyfit -> clear_target polyfit lh lv ->
  (forall x y cs, candidate polyfit lh lv iteration x y ->
    (fits_hor (fun x => x) polyfit x y lh cs -> leans polyfit cs) /\ (fits_ver (fun x => x) polyfit x y lv cs -> leans polyfit cs)) ->
  exists x y, steady (fun lh lv => @find_cod_bailey R Rexact polyfit lh lv iteration) lh lv x y.
Proof.
  intros polyfit lh lv iteration PF C G. destruct (clear_near polyfit lh lv PF C) as [cx [cy (A & B & E)]]. destruct C as (Sh & Sv & Lh & Lv & _).
  destruct (bailey_near lh lv polyfit PF Sh Sv Lh Lv iteration cx cy A B E (fun x y cs K => proj1 (G x y cs K)) (fun x y cs K => proj2 (G x y cs K)) (Z.to_nat iteration)) as [dx [dy (A' & B' & E')]]; [lia|].
  apply (near_steady lh lv _ dx dy A' B'). eapply ev_imp; [|exact E']. intros x Q. cbv beta in Q |- *. rewrite <- Q. unfold find_cod_bailey. rewrite Nat2Z.id. reflexivity.
Qed.
Print Assumptions C135_bailey.

(** A case: the centred target of C134 with four lines of four dots. *)
Lemma pin0_hor : Forall2 (on_para_hor 0 0) pin_hor (map (map (lens pin 0 0)) (target 4 4 0 0 (2, 0) (0, 2))).
Proof. rewrite pin_lens. unfold pin_hor. on_lines. all: unfold py, pxc; cbn [map fst snd]. all: distinct_lit. Qed.
Lemma pin0_ver : Forall2 (on_para_ver 0 0) pin_hor (map (map (lens pin 0 0)) (target 4 4 0 0 (0, 2) (2, 0))).
Proof. rewrite pin_lens. unfold pin_hor. on_lines. all: unfold py, pxc; cbn [map fst snd]. all: distinct_lit. Qed.
Example C135_ex : forall iteration, let lh := map (map (lens pin 0 0)) (target 4 4 0 0 (2, 0) (0, 2)) in let lv := map (map (lens pin 0 0)) (target 4 4 0 0 (0, 2) (2, 0)) in
  steady (@find_cod_coarse R Rexact pf_R) lh lv 0 0 /\ steady (fun lh lv => @find_cod_bailey R Rexact pf_R lh lv iteration) lh lv 0 0.
Proof.
  intros iteration lh lv. pose proof pin0_hor as Fh. fold lh in Fh. pose proof pin0_ver as Fv. fold lv in Fv. destruct pin_bent as [B A].
  pose proof (on_spread_hor _ _ _ _ Fh) as Sh. pose proof (on_spread_ver _ _ _ _ Fv) as Sv. pose proof (on_fits_hor _ _ _ _ _ pf_R_ok Fh) as Gh. pose proof (on_fits_ver _ _ _ _ _ pf_R_ok Fv) as Gv.
  assert (NP : slope pin_hor (2 - 1) * slope pin_hor (2 - 1) <> 1) by (unfold slope, pin_hor; cbn; lra).
  assert (C0 : @find_cod_coarse R Rexact pf_R lh lv = Ok (0, 0)) by exact (proj1 (C134_photo pf_R pin 0 0 (2, 0) (0, 2) 2 2 pin_hor pin_hor iteration pf_R_ok ltac:(lia) ltac:(lia) Sh Sv Gh Gv B B NP)).
  assert (C1 : forall k, @find_cod_bailey R Rexact pf_R lh lv k = Ok (0, 0)) by (intros k; exact (proj2 (C134_photo pf_R pin 0 0 (2, 0) (0, 2) 2 2 pin_hor pin_hor k pf_R_ok ltac:(lia) ltac:(lia) Sh Sv Gh Gv B B NP) A A)).
  assert (CT : clear_target pf_R lh lv).
  { split; [exact Sh|]. split; [exact Sv|]. split; [cbn; lia|]. split; [cbn; lia|]. intros ch cv i j Qh Qv Hi Hj.
    rewrite (fits_hor_fun _ _ _ _ _ _ _ Qh Gh), (fits_ver_fun _ _ _ _ _ _ _ Qv Gv) in *.
    assert (K : forall k, (k < 4)%nat -> curv pin_hor k <> 0) by (intros k Hk; unfold curv, pin_hor; destruct k as [|[|[|[|k]]]]; [| | | |lia]; cbn [nth fst snd]; lra).
    split; [exact K|]. split; [exact K|].
    assert (Z : forall k, slope pin_hor k = 0) by (intros k; unfold slope, pin_hor; destruct k as [|[|[|[|[|k]]]]]; reflexivity). rewrite !Z. lra. }
  assert (LN : leans pf_R pin_hor).
  { split; [unfold pin_hor; cbn [map snd]; distinct_lit|]. intros a b E.
    destruct (C134_bailey pf_R 0 0 2 2 lh lv pin_hor pin_hor 0 pf_R_ok) as [_ [a1 [a2 (N1 & N2 & E1 & E2)]]]; try assumption; try lia; try reflexivity; try (apply C134_lens, C134_target).
    rewrite E in E1. injection E1 as -> _. exact N1. }
  split.
  - destruct (C135_coarse pf_R lh lv pf_R_ok CT) as [x [y S]]. pose proof (proj1 S) as E. rewrite C0 in E. injection E as <- <-. exact S.
  - destruct (C135_bailey pf_R lh lv iteration pf_R_ok CT) as [x [y S]].
    + intros x y cs K. assert (E : x = 0 /\ y = 0) by (destruct K as [K|[k [_ K]]]; [rewrite C0 in K|rewrite C1 in K]; injection K as <- <-; easy). destruct E as [-> ->].
      split; intros Q; [rewrite (fits_hor_fun _ _ _ _ _ _ _ Q Gh)|rewrite (fits_ver_fun _ _ _ _ _ _ _ Q Gv)]; exact LN.
    + pose proof (proj1 S) as E. cbv beta in E. rewrite C1 in E. injection E as <- <-. exact S.
Qed.

(** Without the curvature of the lines: when the middle line is straight, dots that
    are off by no more than d, for any d, move the rough centre by more than a line
    spacing. *)
Theorem C135_jump_refuted : forall polyfit, polyfit_oracle polyfit ->
  let lh := map (map (lens pin 0 0)) (target 3 4 0 0 (2, 0) (0, 2)) in let lv := map (map (lens pin 0 0)) (target 4 3 0 0 (0, 2) (2, 0)) in
  exists y, y < -1 /\ @find_cod_coarse R Rexact polyfit lh lv = Ok (0, y) /\
  forall d, 0 < d -> exists lh' y', moved d lh lh' /\ @find_cod_coarse R Rexact polyfit lh' lv = Ok (0, y') /\ 1 < y'.
Proof.
  intros polyfit PF lh lv. destruct (C134_odd_refuted polyfit PF) as (_ & _ & [y [Hy E0]]). exists y. split; [exact Hy|]. split; [exact E0|]. clear y Hy E0. intros d Hd.
  set (bend := fun l : list (R * R) => map (fun p : R * R => (fst p - d / 11 * snd p ^ 2, snd p)) l).
  set (lh' := match lh with [a; b; c] => [a; bend b; c] | _ => lh end).
  set (hor := [nth 0 odd_hor (0, 0, 0); (- (d / 11), 0, 0); nth 2 odd_hor (0, 0, 0)]).
  assert (Eh : lh' = match map (map (pin_at 0 0)) (target 3 4 0 0 (2, 0) (0, 2)) with [a; b; c] => [a; bend b; c] | _ => [] end) by (unfold lh', lh; rewrite pin_lens; reflexivity).
  assert (Fh : Forall2 (on_para_hor 0 0) hor lh').
  { rewrite Eh. unfold hor, odd_hor, bend. cbn [nth]. on_lines; unfold py, pxc; cbn [map fst snd]; distinct_lit. }
  assert (Fv : Forall2 (on_para_ver 0 0) odd_ver lv) by (unfold lv; rewrite pin_lens; unfold odd_ver; on_lines; unfold py, pxc; cbn [map fst snd]; distinct_lit).
  pose proof (para_hor_exact (fun x => x) polyfit PF 0 0 _ _ Fh) as Ph. pose proof (para_ver_exact (fun x => x) polyfit PF 0 0 _ _ Fv) as Pv. rewrite ids in Ph, Pv.
  destruct (coarse_spec (fun x => x) polyfit lh' lv _ _ _ _ Ph Pv) as [i [j [[Hi [Mi1 Mi]] [[Hj [Mj1 Mj]] E]]]]; [cbn; lia|cbn; lia|].
  assert (J0 : sgn (curv hor 0) = -1 /\ sgn (curv hor 1) = -1 /\ sgn (curv hor 2) = 1).
  { unfold curv, hor, odd_hor, sgn. cbn [nth fst snd]. repeat split; repeat destruct (Rlt_dec _ _); lra. }
  assert (J1 : sgn (curv odd_ver 0) = -1 /\ sgn (curv odd_ver 1) = -1 /\ sgn (curv odd_ver 2) = 1 /\ sgn (curv odd_ver 3) = 1).
  { unfold curv, odd_ver, sgn. cbn [nth fst snd]. repeat split; repeat destruct (Rlt_dec _ _); lra. }
  assert (i = 1%nat).
  { specialize (Mi1 1%nat ltac:(cbn; lia)). unfold sign_jump in Mi1. destruct J0 as (A & B & C). rewrite B, C in Mi1. replace (1 - -1) with 2 in Mi1 by ring. rewrite Rabs_pos_eq in Mi1 by lra.
    destruct i as [|[|i]]; [|reflexivity|cbn in Hi; lia]. rewrite A, B in Mi1. replace (-1 - -1) with 0 in Mi1 by ring. rewrite Rabs_R0 in Mi1. lra. }
  assert (j = 1%nat).
  { specialize (Mj1 1%nat ltac:(cbn; lia)). unfold sign_jump in Mj1. destruct J1 as (A & B & C & D). rewrite B, C in Mj1. replace (1 - -1) with 2 in Mj1 by ring. rewrite Rabs_pos_eq in Mj1 by lra.
    destruct j as [|[|[|j]]]; [|reflexivity| |cbn in Hj; lia].
    - rewrite A, B in Mj1. replace (-1 - -1) with 0 in Mj1 by ring. rewrite Rabs_R0 in Mj1. lra.
    - rewrite C, D in Mj1. replace (1 - 1) with 0 in Mj1 by ring. rewrite Rabs_R0 in Mj1. lra. }
  subst i j. unfold slope, inter, hor, odd_hor, odd_ver in E. cbn [nth fst snd] in E. cbv zeta in E. exists lh'. eexists. split; [|split; [refine (eq_trans E _)|]].
  2: { f_equal. apply f_equal2; [field|reflexivity]. }
  2: { cbv beta. lra. }
  assert (Mb : moved d (map (map (pin_at 0 0)) (target 3 4 0 0 (2, 0) (0, 2))) lh').
  { rewrite Eh. unfold bend, target, pin_at, moved. cbn [seq map INR Nat.mul Nat.add fst snd]. repeat (apply Forall2_cons || apply Forall2_nil).
    all: unfold py, pxc; cbn [fst snd]; split; apply Rabs_le; lra. }
  unfold lh. rewrite pin_lens. exact Mb.
Qed.
Print Assumptions C135_jump_refuted.
