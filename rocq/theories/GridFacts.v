(** Grouping of dots: rows which are well separated are found exactly. *)
From Coq Require Import Reals ZArith List Lra Lia Permutation Sorted.
From Flocq Require Import Core.
From Verif Require Import Base Num Img Post Spec Lsq NumFacts Sorting PrepSpec PrepPts PrepFacts PrepFacts2.
Import ListNotations.
Local Open Scope R_scope.

Section Rows.
  Context {A : Type} (lt : A -> A -> Prop) (test : A -> A -> Prop).
  Hypothesis lt_irrefl : forall a b, lt a b -> ~ lt b a.
  Notation le := (fun a b => ~ lt b a).

  Lemma ss_le_in (d : A) l x : StronglySorted le (d :: l) -> In x (d :: l) -> ~ lt x d.
  Proof.
    intros H Hi. inversion_clear H. destruct Hi as [->|Hi]; [intros K; now apply (lt_irrefl _ _ K)|].
    rewrite Forall_forall in H1. now apply H1.
  Qed.
  (** The first dot of the sorted list is the first dot of its row. *)
  Lemma head_of_row d l r others : StronglySorted le (d :: l) -> Permutation (d :: l) (r ++ others) ->
    StronglySorted lt r -> In d r -> exists r', r = d :: r'.
  Proof.
    intros Hs Hp Hr Hd. destruct r as [|x r]; [destruct Hd|]. exists r. f_equal. destruct Hd as [->|Hd]; [reflexivity|].
    exfalso. inversion_clear Hr. rewrite Forall_forall in H0. apply (ss_le_in d l x Hs); [|now apply H0].
    apply (Permutation_in _ (Permutation_sym Hp)). now left.
  Qed.
  Lemma pass_sorted e l taken left (P : A -> A -> Prop) : pass test e l taken left -> StronglySorted P l ->
    StronglySorted P left /\ incl left l.
  Proof.
    induction 1 as [e|e d l taken left Ht H IH|e d l taken left Ht H IH]; intros S.
    - split; [constructor|intros x Hx; exact Hx].
    - inversion_clear S. destruct (IH H0) as [A1 A2]. split; [exact A1|]. intros x Hx. right. auto.
    - inversion_clear S. destruct (IH H0) as [A1 A2]. split.
      + constructor; [exact A1|]. rewrite Forall_forall in *. auto.
      + intros x [->|Hx]; [now left|right; auto].
  Qed.
  Lemma pass_row e l taken left : pass test e l taken left -> forall r others,
    StronglySorted le l -> Permutation l (r ++ others) -> StronglySorted lt r -> chain test (e :: r) ->
    (forall p q, In p (e :: r) -> In q others -> ~ test p q) -> taken = r /\ Permutation left others.
  Proof.
    induction 1 as [e|e d l taken left Ht H IH|e d l taken left Ht H IH]; intros r others Hs Hp Hr Hc Hn.
    - apply Permutation_nil in Hp. apply app_eq_nil in Hp. destruct Hp as [-> ->]. auto.
    - assert (Hd : In d (r ++ others)) by (apply (Permutation_in _ Hp); now left).
      apply in_app_or in Hd. destruct Hd as [Hd|Hd]; [|exfalso; apply (Hn e d); auto; now left].
      destruct (head_of_row d l r others Hs Hp Hr Hd) as [r' ->]. cbn [app] in Hp. apply Permutation_cons_inv in Hp.
      inversion_clear Hs. inversion_clear Hr. cbn [chain] in Hc. destruct Hc as [_ Hc].
      destruct (IH r' others) as [-> P]; auto. intros p q Hp' Hq. apply Hn; auto. now right.
    - assert (Hd : In d (r ++ others)) by (apply (Permutation_in _ Hp); now left).
      apply in_app_or in Hd. destruct Hd as [Hd|Hd].
      + exfalso. destruct (head_of_row d l r others Hs Hp Hr Hd) as [r' ->]. cbn [chain] in Hc. apply Ht. apply Hc.
      + apply in_split in Hd. destruct Hd as [o1 [o2 ->]]. inversion_clear Hs.
        rewrite app_assoc in Hp. apply Permutation_cons_app_inv in Hp. rewrite <- app_assoc in Hp.
        destruct (IH r (o1 ++ o2)) as [-> P]; auto.
        * intros p q Hp' Hq. apply Hn; auto. apply in_app_or in Hq. apply in_or_app. cbn [In]. tauto.
        * split; [reflexivity|]. now apply Permutation_cons_app.
  Qed.

  Definition good_row (r : list A) : Prop := (2 <= length r)%nat /\ StronglySorted lt r /\ chain test r.
  Definition apart (r r' : list A) : Prop := forall p q, In p r -> In q r' -> ~ test p q /\ ~ test q p.

  Lemma apart_middle R1 r R2 : ForallOrdPairs apart (R1 ++ r :: R2) ->
    (forall p q, In p r -> In q (concat (R1 ++ R2)) -> ~ test p q) /\ ForallOrdPairs apart (R1 ++ R2).
  Proof.
    induction R1 as [|x R1 IH]; cbn [app]; intros H; inversion_clear H.
    - split; [|assumption]. intros p q Hp Hq. apply in_concat in Hq. destruct Hq as [y [Hy Hq]]. rewrite Forall_forall in H0.
      exact (proj1 (H0 y Hy p q Hp Hq)).
    - destruct (IH H1) as [A1 A2]. rewrite Forall_forall in H0. split.
      + intros p q Hp Hq. cbn [concat] in Hq. apply in_app_or in Hq. destruct Hq as [Hq|Hq]; [|now apply A1].
        refine (proj2 (H0 r _ q p Hq Hp)). apply in_or_app. right. now left.
      + constructor; [|exact A2]. rewrite Forall_forall. intros y Hy. apply H0. apply in_app_or in Hy. apply in_or_app. cbn [In]. tauto.
  Qed.
  Lemma passes_rows l groups rest : passes test l groups rest -> forall rows,
    StronglySorted le l -> Permutation l (concat rows) -> Forall good_row rows -> ForallOrdPairs apart rows ->
    Permutation groups rows /\ rest = [].
  Proof.
    induction 1 as [|d|d d' l taken left groups rest Hp H IH]; intros rows Hs Hq Hg Ha.
    - destruct rows as [|r rows]; [auto|]. apply Permutation_nil in Hq. inversion_clear Hg. destruct H as [L _].
      destruct r; [cbn in L; lia|discriminate].
    - exfalso. apply Permutation_length in Hq. destruct rows as [|r rows]; [discriminate|]. inversion_clear Hg. destruct H as [L _].
      cbn [concat length] in Hq. rewrite app_length in Hq. lia.
    - assert (Hd : In d (concat rows)) by (apply (Permutation_in _ Hq); now left).
      apply in_concat in Hd. destruct Hd as [r [Hr Hd]]. apply in_split in Hr. destruct Hr as [R1 [R2 ->]].
      destruct (apart_middle _ _ _ Ha) as [A1 A2].
      apply Forall_app in Hg. destruct Hg as [G1 G2]. inversion_clear G2. destruct H0 as [L [Sr Cr]].
      assert (Q : Permutation (d :: d' :: l) (r ++ concat (R1 ++ R2))).
      { rewrite Hq, !concat_app. cbn [concat]. rewrite !app_assoc. apply Permutation_app_tail. apply Permutation_app_comm. }
      destruct (head_of_row d (d' :: l) r _ Hs Q Sr Hd) as [r' ->]. cbn [app] in Q. apply Permutation_cons_inv in Q.
      inversion_clear Hs. inversion_clear Sr.
      destruct (pass_row _ _ _ _ Hp r' (concat (R1 ++ R2))) as [-> P]; auto.
      destruct (pass_sorted _ _ _ _ _ Hp H0) as [SL _].
      destruct (IH (R1 ++ R2)) as [P' E]; auto; [now apply Forall_app|].
      split; [|exact E]. now apply Permutation_cons_app.
  Qed.
End Rows.
