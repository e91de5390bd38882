(** Specification of argsort and a concrete (insertion sort) instance. *)
From Coq Require Import Reals ZArith List Lra Lia Permutation Sorted.
From Flocq Require Import Core.
From Verif Require Import Base Num.

(** ndarray.argsort: a permutation of the indices that sorts the values. *)
Definition argsort_spec (argsort : list R -> list nat) : Prop :=
  forall l, Permutation (argsort l) (seq 0 (length l)) /\
            StronglySorted Rle (map (fun k => nth k l 0%R) (argsort l)).

Section Ins.
  Context {T : Type} {N : Num T}.
  Fixpoint ins (key : nat -> T) (k : nat) (l : list nat) : list nat :=
    match l with
    | [] => [k]
    | j :: l' => if nltb (key k) (key j) then k :: l else j :: ins key k l'
    end.
  (** A stable argsort. *)
  Definition argsort_ins (l : list T) : list nat :=
    fold_left (fun acc k => ins (fun i => nth i l n0) k acc) (seq 0 (length l)) [].
End Ins.

Lemma ins_perm {T} {N : Num T} key k l : Permutation (ins key k l) (k :: l).
Proof.
  induction l as [|j l IH]; cbn; [apply Permutation_refl|].
  destruct (nltb (key k) (key j)); [apply Permutation_refl|].
  rewrite IH. apply perm_swap.
Qed.

Lemma fold_ins_perm {T} {N : Num T} key ks acc :
  Permutation (fold_left (fun acc k => ins key k acc) ks acc) (ks ++ acc).
Proof.
  revert acc; induction ks as [|k ks IH]; intros acc; cbn; [apply Permutation_refl|].
  rewrite IH, ins_perm. symmetry. apply Permutation_middle.
Qed.

Lemma ins_sorted rnd key k l :
  StronglySorted (fun i j => (key i <= key j)%R) l ->
  StronglySorted (fun i j => (key i <= key j)%R) (@ins R (Rnum rnd) key k l).
Proof.
  induction l as [|j l IH]; intros H; cbn [ins].
  - constructor; constructor.
  - inversion H as [|? ? Hs HF]; subst. cbn [nltb Rnum].
    destruct (Rlt_bool_spec (key k) (key j)) as [L|L].
    + constructor; [assumption|]. constructor; [lra|].
      rewrite Forall_forall in *. intros x Hx. specialize (HF x Hx). lra.
    + constructor; [now apply IH|]. rewrite Forall_forall in *. intros x Hx.
      apply (Permutation_in _ (@ins_perm R (Rnum rnd) key k l)) in Hx.
      destruct Hx as [<-|Hx]; [assumption|]. now apply HF.
Qed.

Lemma fold_ins_sorted rnd key ks acc :
  StronglySorted (fun i j => (key i <= key j)%R) acc ->
  StronglySorted (fun i j => (key i <= key j)%R)
    (fold_left (fun acc k => @ins R (Rnum rnd) key k acc) ks acc).
Proof.
  revert acc; induction ks as [|k ks IH]; intros acc H; cbn; [assumption|].
  apply IH. now apply ins_sorted.
Qed.

Lemma StronglySorted_map {A B} (f : A -> B) (P : B -> B -> Prop) l :
  StronglySorted (fun a b => P (f a) (f b)) l -> StronglySorted P (map f l).
Proof.
  induction 1 as [|a l Hs IH HF]; cbn; constructor; [assumption|].
  rewrite Forall_forall in *. intros b Hb. apply in_map_iff in Hb.
  destruct Hb as [c [<- Hc]]. now apply HF.
Qed.

Lemma argsort_ins_ok rnd : argsort_spec (@argsort_ins R (Rnum rnd)).
Proof.
  intros l. unfold argsort_ins. split.
  - rewrite fold_ins_perm, app_nil_r. apply Permutation_refl.
  - apply StronglySorted_map. apply fold_ins_sorted. constructor.
Qed.
