(** A least-squares fit that does not depend on the order of the points. *)
From Coq Require Import Reals ZArith List Lra Lia Permutation Sorted.
From Verif Require Import Base Num Spec Lsq LsqEx Sorting PrepFacts PrepFacts3 PrepFacts4.
Import ListNotations.
Local Open Scope R_scope.

Definition lexle (a b : R * R) : Prop := fst a < fst b \/ (fst a = fst b /\ snd a <= snd b).
Definition lexle_dec (a b : R * R) : {lexle a b} + {~ lexle a b}.
Proof.
  unfold lexle. destruct (Rlt_dec (fst a) (fst b)); [left; tauto|].
  destruct (Req_EM_T (fst a) (fst b)); [|right; lra]. destruct (Rle_dec (snd a) (snd b)); [left; tauto|right; lra].
Defined.
Fixpoint lex_ins (x : R * R) (l : list (R * R)) : list (R * R) :=
  match l with [] => [x] | y :: l' => if lexle_dec x y then x :: l else y :: lex_ins x l' end.
Definition lex_sort (l : list (R * R)) : list (R * R) := fold_right lex_ins [] l.
Lemma lex_ins_perm x l : Permutation (lex_ins x l) (x :: l).
Proof.
  induction l as [|y l IH]; cbn; [apply Permutation_refl|]. destruct (lexle_dec x y); [apply Permutation_refl|].
  rewrite IH. apply perm_swap.
Qed.
Lemma lex_sort_perm l : Permutation (lex_sort l) l.
Proof. induction l as [|x l IH]; cbn; [constructor|]. rewrite lex_ins_perm. now constructor. Qed.
Lemma lex_ins_sorted x l : StronglySorted lexle l -> StronglySorted lexle (lex_ins x l).
Proof.
  induction 1 as [|y l S IH F]; cbn; [repeat constructor|]. destruct (lexle_dec x y) as [H|H].
  - constructor; [constructor; assumption|]. constructor; [assumption|]. rewrite Forall_forall in *. intros z Hz. specialize (F z Hz).
    unfold lexle in *. lra.
  - constructor; [assumption|]. rewrite Forall_forall in *. intros z Hz. apply (Permutation_in _ (lex_ins_perm x l)) in Hz.
    destruct Hz as [<-|Hz]; [unfold lexle in *; lra|now apply F].
Qed.
Lemma lex_sort_sorted l : StronglySorted lexle (lex_sort l).
Proof. induction l; cbn; [constructor|now apply lex_ins_sorted]. Qed.
Lemma lexle_antisym a b : lexle a b -> lexle b a -> a = b.
Proof. destruct a, b. unfold lexle. cbn. intros. f_equal; lra. Qed.
Lemma lex_unique a b : StronglySorted lexle a -> StronglySorted lexle b -> Permutation a b -> a = b.
Proof.
  intros Sa. revert b. induction Sa as [|x a Sa IH F]; intros b Sb P; [now apply Permutation_nil in P|].
  destruct Sb as [|y b Sb F']; [symmetry in P; now apply Permutation_nil in P|]. rewrite Forall_forall in F, F'.
  assert (E : x = y).
  { assert (I1 : In x (y :: b)) by (apply (Permutation_in _ P); now left).
    assert (I2 : In y (x :: a)) by (apply (Permutation_in _ (Permutation_sym P)); now left).
    destruct I1 as [|I1]; [congruence|]. destruct I2 as [|I2]; [congruence|]. apply lexle_antisym; auto. }
  subst y. f_equal. apply IH; [assumption|]. now apply Permutation_cons_inv in P.
Qed.
Lemma lex_sort_perm_eq l l' : Permutation l l' -> lex_sort l = lex_sort l'.
Proof. intros P. apply lex_unique; try apply lex_sort_sorted. rewrite !lex_sort_perm. assumption. Qed.

Definition fit_sorted (xs ys : list R) (k : nat) : res (list R) :=
  let s := lex_sort (combine ys xs) in Ok (polyfit_R k (map snd s) (map fst s)).
Lemma fit_sorted_order_free : order_free fit_sorted.
Proof.
  intros s s' k P. unfold fit_sorted. do 2 f_equal; f_equal; apply lex_sort_perm_eq.
  all: assert (G : forall l : list (R * R), combine (map fst l) (map snd l) = l) by (induction l as [|[? ?] l IH]; cbn; congruence).
  all: now rewrite !G.
Qed.
Lemma sqerr_pairs k (l : list (R * R)) v : sqerr (map (pow_row k) (map snd l)) (map fst l) v =
  Rsum (map (fun p => (dot (pow_row k (snd p)) v - fst p) ^ 2) l).
Proof. unfold sqerr. induction l as [|p l IH]; cbn [map combine Rsum fst snd]; [reflexivity|]. now rewrite IH. Qed.
Lemma sqerr_combine k xs ys v : sqerr (map (pow_row k) xs) ys v =
  Rsum (map (fun p => (dot (pow_row k (snd p)) v - fst p) ^ 2) (combine ys xs)).
Proof. unfold sqerr. revert ys; induction xs as [|x xs IH]; intros [|y ys]; cbn [map combine Rsum fst snd]; try reflexivity. now rewrite IH. Qed.
Lemma fit_sorted_fits : fits fit_sorted.
Proof.
  intros xs ys k v E. unfold fit_sorted in E. injection E as <-. set (s := lex_sort (combine ys xs)).
  destruct (polyfit_R_ok k (map snd s) (map fst s)) as [L M]. split; [assumption|]. intros v' Hv'. specialize (M v' Hv').
  rewrite !sqerr_pairs in M. rewrite !sqerr_combine.
  rewrite !(Rsum_perm _ _ (Permutation_map _ (Permutation_sym (lex_sort_perm (combine ys xs))))). exact M.
Qed.
