(** Facts about the transformation of coefficients, and instances of the
    oracles. *)
From Coq Require Import Reals ZArith List Lra Lia.
From Flocq Require Import Core.
From Verif Require Import Base Num Spec Lsq LsqEx ProcSpec PolyUniq PrepImg PrepPts PrepFacts PrepFacts2 Post Proc ProcFacts ProcFacts2 ProcFacts3 ProcFacts4.
Import ListNotations.
Local Open Scope R_scope.

Lemma concat_filter {A B} (g : A -> B) (q : A -> bool) l : concat (map (fun x => if q x then [g x] else []) l) = map g (filter q l).
Proof. induction l as [|x l IH]; [reflexivity|]. cbn [map concat filter]. rewrite IH. destruct (q x); reflexivity. Qed.

Section Transform.
  Variable st : R -> R.
  Local Instance NSt6 : Num R := Rst st.
  Variable lstsq : list (list R) -> list R -> res (list R).
  Hypothesis LS : lstsq_oracle lstsq.
  Notation pnt := (R * R)%type.
  Lemma radius_dist (p : pnt) : radius p = dist p (0, 0).
  Proof.
    unfold radius, dist, py, pxc. cbn [nsqrt nadd nmul NSt6 Rst fst snd]. f_equal. ring.
  Qed.
  Lemma transform_rows_R fact refs :
    transform_rows_forward fact refs =
    map (fun p => (powers (length fact) (poly fact (dist p (0, 0)) * dist p (0, 0)), 1 / poly fact (dist p (0, 0))))
      (filter (fun p => negb (Req_bool (poly fact (dist p (0, 0))) 0)) refs).
  Proof.
    unfold transform_rows_forward. rewrite <- concat_filter. f_equal. apply map_ext. intros p.
    change (nsqrt (nadd (nmul (snd p) (snd p)) (nmul (fst p) (fst p)))) with (radius p). rewrite radius_dist, (poly_value_R st). reflexivity.
  Qed.
  Lemma transform_same fact refs : transform_coef_backward_and_forward lstsq fact true refs = transform_coef_backward_and_forward lstsq fact false refs.
  Proof. reflexivity. Qed.
  (** The reference points used. *)
  Definition used (refs : option (list pnt)) : list pnt := match refs with Some l => l | None => default_refs end.
  Lemma transform_exact fact fwd refs G : (match refs with Some l => (length fact <= length l)%nat | None => True end) ->
    length G = length fact -> (exists p, In p (used refs) /\ poly fact (dist p (0, 0)) <> 0) ->
    (forall p, In p (used refs) -> let r := dist p (0, 0) in poly fact r <> 0 -> poly G (poly fact r * r) * poly fact r = 1) ->
    exists g, transform_coef_backward_and_forward lstsq fact fwd refs = Ok g /\ length g = length fact /\
    forall p, In p (used refs) -> let r := dist p (0, 0) in poly fact r <> 0 -> poly g (poly fact r * r) * poly fact r = 1.
  Proof.
    intros Hl LG [p0 [P1 P2]] H.
    assert (T : transform_coef_backward_and_forward lstsq fact fwd refs = solve_rows lstsq (transform_rows_forward fact (used refs))).
    { unfold transform_coef_backward_and_forward, used. destruct refs as [l|]; cbn [bind].
      - destruct (Nat.ltb_spec (length l) (length fact)); [lia|]. cbn [bind]. destruct fwd; reflexivity.
      - destruct fwd; reflexivity. }
    rewrite T, transform_rows_R. match goal with |- context [filter ?q (used refs)] => set (us := filter q (used refs)) end.
    assert (U : forall p, In p us <-> In p (used refs) /\ poly fact (dist p (0, 0)) <> 0).
    { intros p. unfold us. rewrite filter_In. rewrite Bool.negb_true_iff. split; intros [A B]; split; auto.
      - intros E. rewrite E in B. rewrite Req_bool_true in B; [discriminate|reflexivity].
      - now apply Req_bool_false. }
    destruct (solve_fitted st lstsq LS (length fact) (fun p => poly fact (dist p (0, 0)) * dist p (0, 0)) (fun p => 1 / poly fact (dist p (0, 0))) us G)
      as [g [E [Lg F]]].
    - intros E. assert (I : In p0 us) by now apply U. rewrite E in I. destruct I.
    - assumption.
    - intros p Hp. apply U in Hp. destruct Hp as [A B]. specialize (H p A B). cbn zeta in H. apply (Rmult_eq_reg_r (poly fact (dist p (0, 0)))); [|assumption].
      rewrite H. field. assumption.
    - exists g. split; [exact E|]. split; [assumption|]. intros p Hp r Hr. unfold r in *. rewrite (F p).
      + field. assumption.
      + now apply U.
  Qed.
  Lemma transform_few fact fwd l : (length l < length fact)%nat -> transform_coef_backward_and_forward lstsq fact fwd (Some l) = Err ValueError.
  Proof.
    intros H. unfold transform_coef_backward_and_forward. destruct (Nat.ltb_spec (length l) (length fact)); [reflexivity|lia].
  Qed.
  Lemma transform_constant k fwd refs : k <> 0 -> refs <> Some [] ->
    transform_coef_backward_and_forward lstsq [k] fwd refs = Ok [1 / k].
  Proof.
    intros Hk Hr.
    assert (PK : forall r, poly [k] r = k) by (intros; cbn; ring).
    assert (NE : exists p, In p (used refs)).
    { destruct refs as [[|p l]|]; [easy|exists p; now left|]. exists (IZR (-1000), IZR (-1000)). unfold used, default_refs.
      apply in_flat_map. exists (-1000)%Z. split; [apply in_zrange_step; [lia|]; exists 0%Z; lia|].
      apply in_map_iff. exists (-1000)%Z. split; [reflexivity|]. apply in_zrange_step; [lia|]. exists 0%Z; lia. }
    destruct NE as [p0 P0].
    destruct (transform_exact [k] fwd refs [1 / k]) as [g [E [Lg F]]].
    - destruct refs as [[|p l]|]; [easy|cbn; lia|exact I].
    - reflexivity.
    - exists p0. split; [assumption|]. now rewrite PK.
    - intros p _ r _. rewrite PK. cbn. field. assumption.
    - rewrite E. f_equal. destruct g as [|x [|]]; try discriminate Lg. specialize (F p0 P0). cbn zeta in F. rewrite PK in F.
      specialize (F Hk). cbn in F. f_equal. apply (Rmult_eq_reg_r k); [|assumption]. replace (1 / k * k) with 1 by (field; assumption). lra.
  Qed.
End Transform.

(** *** Oracles *)
Definition pf_R (xs ys : list R) (deg : nat) : res (list R) := Ok (polyfit_R deg xs ys).
Lemma pf_R_ok : polyfit_oracle pf_R.
Proof. intros xs ys deg _ _. eexists. split; [reflexivity|]. apply polyfit_R_ok. Qed.
Definition ls_R (rows : list (list R)) (ys : list R) : res (list R) := Ok (lsq_solve (length (hd [] rows)) rows ys).
Lemma ls_R_ok : lstsq_oracle ls_R.
Proof.
  intros n rows ys Hr _ Hn. eexists. split; [reflexivity|]. destruct rows as [|r rows]; [easy|]. cbn [hd].
  rewrite (Hn r (or_introl eq_refl)). apply lsq_solve_ok.
Qed.
Definition min_R (g : R -> R) (x0 : R) : R := - ((g 1 - g (-1)) / 2) / (2 * ((g 1 + g (-1)) / 2 - g 0)).
Lemma min_R_ok : minimize_oracle min_R.
Proof.
  intros g A B C x0 HA H x. unfold min_R. set (m := - ((g 1 - g (-1)) / 2) / (2 * ((g 1 + g (-1)) / 2 - g 0))).
  assert (E : m = - B / (2 * A)).
  { unfold m. rewrite !H. field. split; lra. }
  rewrite !H, E. pose proof (pow2_ge_0 (x + B / (2 * A))) as P.
  assert (Q : A * x ^ 2 + B * x + C - (A * (- B / (2 * A)) ^ 2 + B * (- B / (2 * A)) + C) = A * (x + B / (2 * A)) ^ 2) by (field; lra).
  nra.
Qed.
