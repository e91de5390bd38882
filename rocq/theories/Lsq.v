(** Linear least squares: specification and consequences (fitted values are
    unique, exact solutions are found, existence). *)
From Coq Require Import Reals ZArith List Lra Lia.
From Verif Require Import Base Spec.
Local Open Scope R_scope.

Fixpoint dot (r v : list R) : R :=
  match r, v with a :: r', b :: v' => a * b + dot r' v' | _, _ => 0 end.

(** Sum of squared residuals of the linear system rows * v = ys. *)
Definition sqerr (rows : list (list R)) (ys v : list R) : R :=
  Rsum (map (fun ry => (dot (fst ry) v - snd ry) ^ 2) (combine rows ys)).

(** v is a least-squares solution with n unknowns (np.linalg.lstsq). *)
Definition is_lsq (n : nat) (rows : list (list R)) (ys v : list R) : Prop :=
  length v = n /\ forall v', length v' = n -> sqerr rows ys v <= sqerr rows ys v'.

(** Row of the polynomial design matrix of np.polyfit for degree [deg]
    (highest power first). *)
Fixpoint pow_row (deg : nat) (x : R) : list R :=
  match deg with O => [1] | S k => x ^ (S k) :: pow_row k x end.
Definition polyfit_spec (deg : nat) (xs ys v : list R) : Prop :=
  is_lsq (S deg) (map (pow_row deg) xs) ys v.

Lemma Rsum_nonneg l : (forall x, In x l -> 0 <= x) -> 0 <= Rsum l.
Proof.
  induction l as [|a l IH]; intros H; cbn; [lra|].
  assert (0 <= a) by (apply H; now left).
  assert (0 <= Rsum l) by (apply IH; intros; apply H; now right). lra.
Qed.
Lemma Rsum_nonneg_zero l : (forall x, In x l -> 0 <= x) -> Rsum l <= 0 ->
  forall x, In x l -> x = 0.
Proof.
  induction l as [|a l IH]; intros H Hs x Hx; [destruct Hx|]. cbn in Hs.
  assert (0 <= a) by (apply H; now left).
  assert (0 <= Rsum l) by (apply Rsum_nonneg; intros; apply H; now right).
  destruct Hx as [->|Hx]; [lra|]. apply IH; auto; [intros; apply H; now right|lra].
Qed.

Fixpoint vlin (a : R) (u : list R) (b : R) (v : list R) : list R :=
  match u, v with x :: u', y :: v' => (a * x + b * y) :: vlin a u' b v' | _, _ => [] end.
Lemma vlin_length a u b v n : length u = n -> length v = n -> length (vlin a u b v) = n.
Proof.
  revert v n; induction u as [|x u IH]; destruct v as [|y v]; intros n Hu Hv;
    cbn in *; try lia. destruct n as [|n]; [lia|]. f_equal. apply IH; lia.
Qed.
Lemma dot_vlin r a u b v : length u = length v ->
  dot r (vlin a u b v) = a * dot r u + b * dot r v.
Proof.
  revert u v; induction r as [|c r IH]; intros u v H; cbn; [lra|].
  destruct u as [|x u], v as [|y v]; cbn in *; try lia; [lra|].
  rewrite IH by lia. lra.
Qed.

Lemma sqerr_nonneg rows ys v : 0 <= sqerr rows ys v.
Proof.
  unfold sqerr. apply Rsum_nonneg. intros x Hx. apply in_map_iff in Hx.
  destruct Hx as [[r y] [<- _]]. apply pow2_ge_0.
Qed.

Lemma sqerr_zero rows ys v : length rows = length ys ->
  sqerr rows ys v <= 0 <-> Forall2 (fun r y => dot r v = y) rows ys.
Proof.
  unfold sqerr. revert ys. induction rows as [|r rows IH]; intros [|y ys] Hl;
    cbn [length] in Hl; try lia; cbn [combine map Rsum fst snd].
  - split; [constructor|lra].
  - assert (Hn : 0 <= Rsum (map (fun ry => (dot (fst ry) v - snd ry) ^ 2) (combine rows ys)))
      by apply (sqerr_nonneg rows ys v).
    split.
    + intros H. pose proof (pow2_ge_0 (dot r v - y)) as Hp.
      constructor.
      * assert (H0 : (dot r v - y) * (dot r v - y) = 0) by (cbn [pow] in *; lra).
        apply Rsqr_0_uniq in H0. lra.
      * apply IH; [lia|]. lra.
    + intros H. inversion H as [|? ? ? ? E HF]; subst.
      apply IH in HF; [|lia].
      replace ((dot r v - dot r v) ^ 2) with 0 by ring. lra.
Qed.

(** If an exact solution exists, every least-squares solution is exact. *)
Lemma lsq_exact n rows ys v v0 : length rows = length ys ->
  is_lsq n rows ys v -> length v0 = n ->
  Forall2 (fun r y => dot r v0 = y) rows ys ->
  Forall2 (fun r y => dot r v = y) rows ys.
Proof.
  intros Hl [Hn Hm] H0 HF. apply sqerr_zero; [assumption|].
  apply sqerr_zero in HF; [|assumption]. specialize (Hm v0 H0). lra.
Qed.

Lemma sqerr_mid rows ys u v : length u = length v ->
  4 * sqerr rows ys (vlin (1/2) u (1/2) v) =
  2 * sqerr rows ys u + 2 * sqerr rows ys v
  - Rsum (map (fun ry : list R * R => (dot (fst ry) u - dot (fst ry) v) ^ 2) (combine rows ys)).
Proof.
  intros Hl. unfold sqerr. induction (combine rows ys) as [|[r y] l IH]; cbn [map Rsum]; [lra|].
  cbn [fst snd]. rewrite dot_vlin by assumption.
  set (A := Rsum (map _ l)) in *.
  remember (Rsum (map (fun ry => (dot (fst ry) u - snd ry) ^ 2) l)) as B.
  remember (Rsum (map (fun ry => (dot (fst ry) v - snd ry) ^ 2) l)) as C.
  remember (Rsum (map (fun ry : list R * R => (dot (fst ry) u - dot (fst ry) v) ^ 2) l)) as D.
  rewrite Rmult_plus_distr_l, IH. field.
Qed.

(** Fitted values of two least-squares solutions agree. *)
Lemma lsq_fitted_unique n rows ys u v : length rows = length ys ->
  is_lsq n rows ys u -> is_lsq n rows ys v ->
  forall r, In r rows -> dot r u = dot r v.
Proof.
  intros Hl [Hu Mu] [Hv Mv] r Hr.
  assert (E := sqerr_mid rows ys u v ltac:(lia)).
  assert (Hm := Mu (vlin (1/2) u (1/2) v) (vlin_length _ _ _ _ _ Hu Hv)).
  assert (Huv := Mv u Hu).
  assert (Hs : Rsum (map (fun ry : list R * R => (dot (fst ry) u - dot (fst ry) v) ^ 2)
                         (combine rows ys)) <= 0) by lra.
  assert (Hex : exists y, In (r, y) (combine rows ys)).
  { clear -Hl Hr. revert ys Hl. induction rows as [|a rows IH]; intros ys Hl; [destruct Hr|].
    destruct ys as [|y ys]; cbn in Hl; [lia|]. destruct Hr as [->|Hr].
    - exists y. now left.
    - destruct (IH Hr ys ltac:(lia)) as [y' Hy]. exists y'. now right. }
  destruct Hex as [y Hy].
  assert (Hz := Rsum_nonneg_zero _ ltac:(intros x Hx; apply in_map_iff in Hx;
     destruct Hx as [? [<- _]]; apply pow2_ge_0) Hs
     ((dot r u - dot r v) ^ 2)).
  assert ((dot r u - dot r v) ^ 2 = 0).
  { apply Hz. apply in_map_iff. exists (r, y). auto. }
  cbn in H. assert ((dot r u - dot r v) * (dot r u - dot r v) = 0) by lra.
  apply Rsqr_0_uniq in H0. lra.
Qed.

(** Converse: anything with the same fitted values is a solution. *)
Lemma lsq_same_fitted n rows ys u v :
  is_lsq n rows ys u -> length v = n ->
  (forall r, In r rows -> dot r u = dot r v) -> is_lsq n rows ys v.
Proof.
  intros [Hu Mu] Hv H. split; [assumption|]. intros v' Hv'.
  replace (sqerr rows ys v) with (sqerr rows ys u); [now apply Mu|].
  unfold sqerr. f_equal. apply map_ext_in. intros [r y] Hin. cbn.
  rewrite H; [reflexivity|]. now apply in_combine_l in Hin.
Qed.
