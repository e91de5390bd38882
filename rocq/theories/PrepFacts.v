(** Grouping of dots: facts about the model. *)
From Coq Require Import Reals ZArith List Lra Lia Permutation Sorted.
From Flocq Require Import Core.
From Verif Require Import Base Num Img Post Spec NumFacts Sorting PrepSpec PrepImg PrepPts.
Local Open Scope Z_scope.

(** *** gather *)
Lemma gather_map {A B} (f : A -> B) l idx : gather (map f l) idx = map f (gather l idx).
Proof.
  unfold gather. induction idx as [|k idx IH]; cbn [flat_map map]; [reflexivity|].
  rewrite map_app, <- IH. f_equal. rewrite nth_error_map. destruct (nth_error l k); reflexivity.
Qed.
Lemma gather_in_range {A} (d : A) l idx : (forall k, In k idx -> (k < length l)%nat) ->
  gather l idx = map (fun k => nth k l d) idx.
Proof.
  unfold gather. induction idx as [|k idx IH]; cbn [flat_map map]; intros H; [reflexivity|].
  rewrite IH by (intros; apply H; now right).
  destruct (nth_error l k) eqn:E.
  - cbn. f_equal. symmetry. now apply nth_error_nth.
  - apply nth_error_None in E. specialize (H k (or_introl eq_refl)). lia.
Qed.
Lemma gather_perm {A} (l : list A) idx : Permutation idx (seq 0 (length l)) -> Permutation (gather l idx) l.
Proof.
  intros H. assert (P : Permutation (gather l idx) (gather l (seq 0 (length l)))).
  { unfold gather. now apply Permutation_flat_map. }
  rewrite P. clear. enough (E : gather l (seq 0 (length l)) = l) by now rewrite E.
  assert (G : forall pre, gather (pre ++ l) (seq (length pre) (length l)) = l).
  { induction l as [|a l IH]; intros pre; cbn [length seq gather flat_map]; [reflexivity|].
    rewrite nth_error_app2, Nat.sub_diag by lia. cbn [nth_error app]. f_equal.
    replace (pre ++ a :: l) with ((pre ++ [a]) ++ l) by now rewrite <- app_assoc.
    replace (S (length pre)) with (length (pre ++ [a])) by (rewrite app_length; cbn; lia). apply IH. }
  exact (G []).
Qed.
Lemma gather_argsort {A} argsort (key : A -> R) (l : list A) : argsort_spec argsort ->
  Permutation (gather l (argsort (map key l))) l /\
  StronglySorted (fun a b => (key a <= key b)%R) (gather l (argsort (map key l))).
Proof.
  intros H. destruct (H (map key l)) as [P S]. rewrite map_length in P. split; [now apply gather_perm|].
  destruct l as [|a0 l0].
  { cbn in *. apply Permutation_sym, Permutation_nil in P. rewrite P. constructor. }
  set (l := a0 :: l0) in *. set (idx := argsort (map key l)) in *.
  assert (R : forall k, In k idx -> (k < length l)%nat).
  { intros k Hk. apply (Permutation_in _ P) in Hk. apply in_seq in Hk. lia. }
  rewrite (gather_in_range a0 l idx R).
  assert (K : forall k, In k idx -> nth k (map key l) 0%R = key (nth k l a0)).
  { intros k Hk. rewrite (nth_indep _ 0%R (key a0)) by (rewrite map_length; now apply R). apply map_nth. }
  clear P H R. clearbody idx. induction idx as [|k idx IH]; cbn [map] in *; [constructor|].
  inversion S as [|? ? S' F]; subst. constructor; [apply IH; [assumption|intros; apply K; now right]|].
  rewrite Forall_forall in F |- *. intros x Hx. apply in_map_iff in Hx. destruct Hx as [j [<- Hj]].
  rewrite <- (K k (or_introl eq_refl)), <- (K j (or_intror Hj)). apply F. now apply (in_map (fun k => nth k (map key l) 0%R)).
Qed.

(** *** sorted *)
Lemma insert_key_perm {T} {N : Num T} {A} (key : A -> T) x l : Permutation (insert_key key x l) (x :: l).
Proof.
  induction l as [|y l IH]; cbn [insert_key]; [apply Permutation_refl|].
  destruct (nltb (key x) (key y)); [apply Permutation_refl|]. rewrite IH. apply perm_swap.
Qed.
Lemma sorted_perm {T} {N : Num T} {A} (key : A -> T) l : Permutation (sorted key l) l.
Proof.
  unfold sorted. enough (H : forall acc, Permutation (fold_left (fun acc x => insert_key key x acc) l acc) (l ++ acc)).
  { rewrite H, app_nil_r. apply Permutation_refl. }
  induction l as [|x l IH]; intros acc; cbn; [apply Permutation_refl|].
  rewrite IH, insert_key_perm. symmetry. apply Permutation_middle.
Qed.
Lemma insert_key_sorted rnd {A} (key : A -> R) x l :
  StronglySorted (fun a b => (key a <= key b)%R) l ->
  StronglySorted (fun a b => (key a <= key b)%R) (@insert_key R (Rnum rnd) A key x l).
Proof.
  induction l as [|y l IH]; intros H; cbn [insert_key].
  - constructor; constructor.
  - inversion H as [|? ? Hs HF]; subst. cbn [nltb Rnum].
    destruct (Rlt_bool_spec (key x) (key y)) as [L|L].
    + constructor; [assumption|]. constructor; [lra|].
      rewrite Forall_forall in *. intros z Hz. specialize (HF z Hz). lra.
    + constructor; [now apply IH|]. rewrite Forall_forall in *. intros z Hz.
      apply (Permutation_in _ (@insert_key_perm R (Rnum rnd) A key x l)) in Hz.
      destruct Hz as [<-|Hz]; [assumption|]. now apply HF.
Qed.
Lemma sorted_sorted rnd {A} (key : A -> R) l :
  StronglySorted (fun a b => (key a <= key b)%R) (@sorted R (Rnum rnd) A key l).
Proof.
  unfold sorted. enough (H : forall acc, StronglySorted (fun a b => (key a <= key b)%R) acc ->
    StronglySorted (fun a b => (key a <= key b)%R) (fold_left (fun acc x => @insert_key R (Rnum rnd) A key x acc) l acc)).
  { apply H. constructor. }
  induction l as [|x l IH]; intros acc Ha; cbn; [assumption|]. apply IH. now apply insert_key_sorted.
Qed.
Lemma insert_key_map {T} {N : Num T} {A B} (f : A -> B) (key : B -> T) x l :
  insert_key key (f x) (map f l) = map f (insert_key (fun a => key (f a)) x l).
Proof.
  induction l as [|y l IH]; cbn [insert_key map]; [reflexivity|].
  destruct (nltb (key (f x)) (key (f y))); cbn [map]; [reflexivity|]. now rewrite IH.
Qed.
Lemma sorted_map {T} {N : Num T} {A B} (f : A -> B) (key : B -> T) l :
  sorted key (map f l) = map f (sorted (fun a => key (f a)) l).
Proof.
  unfold sorted. enough (H : forall acc, fold_left (fun acc x => insert_key key x acc) (map f l) (map f acc) =
    map f (fold_left (fun acc x => insert_key (fun a => key (f a)) x acc) l acc)) by exact (H []).
  induction l as [|x l IH]; intros acc; cbn; [reflexivity|]. rewrite insert_key_map. apply IH.
Qed.
Lemma insert_key_ext {T} {N : Num T} {A} (k1 k2 : A -> T) x l : (forall a, k1 a = k2 a) -> insert_key k1 x l = insert_key k2 x l.
Proof. intros H. induction l as [|y l IH]; cbn [insert_key]; [reflexivity|]. rewrite !H, IH. reflexivity. Qed.
Lemma sorted_ext {T} {N : Num T} {A} (k1 k2 : A -> T) l : (forall a, k1 a = k2 a) -> sorted k1 l = sorted k2 l.
Proof.
  intros H. unfold sorted. generalize (@nil A). induction l as [|x l IH]; intros acc; cbn; [reflexivity|].
  now rewrite (insert_key_ext k1 k2), IH.
Qed.

(** *** The scan *)
Section Scan.
  Context {T : Type} {N : Num T}.
  Notation pnt := (T * T)%type.
  Variable check : pnt -> pnt -> bool.
  Fixpoint greedy (e : pnt) (l : list pnt) : list pnt * list pnt :=
    match l with
    | [] => ([], [])
    | d :: l' => if check e d then let (t, f) := greedy d l' in (d :: t, f)
                 else let (t, f) := greedy e l' in (t, d :: f)
    end.
  Lemma greedy_pass l : forall e t f, greedy e l = (t, f) -> pass (fun a b => check a b = true) e l t f.
  Proof.
    induction l as [|d l IH]; intros e t f; cbn [greedy].
    - intros H. injection H as <- <-. constructor.
    - destruct (check e d) eqn:E.
      + destruct (greedy d l) as [t' f'] eqn:G. intros H. injection H as <- <-. constructor; auto.
      + destruct (greedy e l) as [t' f'] eqn:G. intros H. injection H as <- <-.
        constructor; [congruence|auto].
  Qed.
  Let step (dots : list pnt) := fun '(dot1, sel, pos) i =>
        match nth_error dots i with
        | Some dot2 => if check dot1 dot2 then (dot2, sel ++ [dot2], pos ++ [i]) else (dot1, sel, pos)
        | None => (dot1, sel, pos)
        end : pnt * list pnt * list nat.
  Lemma scan_fold l : forall pre e sel pos,
    (forall k, In k pos -> (k < length pre)%nat) ->
    exists e' ptk, fold_left (step (pre ++ l)) (seq (length pre) (length l)) (e, sel, pos)
      = (e', sel ++ fst (greedy e l), pos ++ ptk) /\
      (forall k, In k ptk -> (length pre <= k)%nat) /\
      gather (pre ++ l) (filter (fun p => negb (existsb (Nat.eqb p) (pos ++ ptk))) (seq (length pre) (length l)))
        = snd (greedy e l).
  Proof.
    induction l as [|d l IH]; intros pre e sel pos Hpos.
    - exists e, []. cbn. rewrite !app_nil_r. split; [reflexivity|split; [tauto|reflexivity]].
    - cbn [length seq fold_left greedy].
      assert (En : nth_error (pre ++ d :: l) (length pre) = Some d)
        by (rewrite nth_error_app2, Nat.sub_diag by lia; reflexivity).
      assert (Ea : pre ++ d :: l = (pre ++ [d]) ++ l) by (rewrite <- app_assoc; reflexivity).
      assert (El : S (length pre) = length (pre ++ [d])) by (rewrite app_length; cbn; lia).
      unfold step at 2. rewrite En. destruct (check e d) eqn:E.
      + specialize (IH (pre ++ [d]) d (sel ++ [d]) (pos ++ [length pre])).
        destruct IH as [e' [ptk [H1 [H2 H3]]]].
        { intros k Hk. apply in_app_iff in Hk. rewrite app_length. cbn. destruct Hk as [Hk|[<-|[]]]; [specialize (Hpos k Hk)|]; lia. }
        rewrite <- Ea, <- El in *. exists e', (length pre :: ptk).
        destruct (greedy d l) as [t f] eqn:G. cbn [fst snd] in *.
        rewrite H1. split; [now rewrite <- !app_assoc|]. split.
        * intros k [<-|Hk]; [lia|]. specialize (H2 k Hk). lia.
        * cbn [filter]. replace (existsb (Nat.eqb (length pre)) (pos ++ length pre :: ptk)) with true.
          2: { symmetry. apply existsb_exists. exists (length pre). split; [apply in_app_iff; right; now left|apply Nat.eqb_refl]. }
          cbn [negb]. rewrite <- H3. now rewrite <- app_assoc.
      + specialize (IH (pre ++ [d]) e sel pos).
        destruct IH as [e' [ptk [H1 [H2 H3]]]].
        { intros k Hk. rewrite app_length. cbn. specialize (Hpos k Hk). lia. }
        rewrite <- Ea, <- El in *. exists e', ptk.
        destruct (greedy e l) as [t f] eqn:G. cbn [fst snd] in *.
        rewrite H1. split; [reflexivity|]. split.
        * intros k Hk. specialize (H2 k Hk). lia.
        * cbn [filter]. replace (existsb (Nat.eqb (length pre)) (pos ++ ptk)) with false.
          2: { symmetry. apply not_true_is_false. intros H. apply existsb_exists in H. destruct H as [k [Hk Ek]].
               apply Nat.eqb_eq in Ek. subst k. apply in_app_iff in Hk. destruct Hk as [Hk|Hk]; [specialize (Hpos _ Hk)|specialize (H2 _ Hk)]; lia. }
          cbn [negb]. unfold gather in *. cbn [flat_map]. rewrite En. cbn [app]. now rewrite H3.
  Qed.
  Lemma scan_line_greedy d l : forall sel pos, scan_line check d (d :: l) = (sel, pos) ->
    sel = d :: fst (greedy d l) /\ dots_not_in (d :: l) pos = snd (greedy d l).
  Proof.
    intros sel pos. unfold scan_line, dots_not_in.
    destruct (scan_fold l [d] d [d] [0%nat]) as [e' [ptk [H1 [H2 H3]]]].
    { intros k [<-|[]]. cbn. lia. }
    cbn [length app] in H1, H2, H3. cbn [length]. rewrite Nat.sub_succ, Nat.sub_0_r.
    change (fun '(dot1, sel, pos) i => match nth_error (d :: l) i with
        | Some dot2 => if check dot1 dot2 then (dot2, sel ++ [dot2], pos ++ [i]) else (dot1, sel, pos)
        | None => (dot1, sel, pos) end) with (step (d :: l)).
    rewrite H1. intros H. injection H as <- <-. split; [reflexivity|]. exact H3.
  Qed.
  Lemma greedy_length l : forall e, (length (fst (greedy e l)) + length (snd (greedy e l)) = length l)%nat.
  Proof.
    induction l as [|d l IH]; intros e; cbn [greedy]; [reflexivity|].
    destruct (check e d); [specialize (IH d); destruct (greedy d l)|specialize (IH e); destruct (greedy e l)]; cbn in *; lia.
  Qed.

  (** All groups (including single dots) and the dot left at the end. *)
  Lemma group_hor_passes fuel : forall dots acc, (length dots <= fuel)%nat ->
    exists groups rest, passes (fun a b => check a b = true) dots groups rest /\
      group_hor_loop check fuel dots acc = Ok (acc ++ filter (fun g => 1 <? Z.of_nat (length g)) groups).
  Proof.
    induction fuel as [|fuel IH]; intros dots acc Hl.
    - destruct dots; [|cbn in Hl; lia]. exists [], []. split; [constructor|]. cbn. now rewrite app_nil_r.
    - destruct dots as [|d [|d' l]].
      + exists [], []. split; [constructor|]. cbn. now rewrite app_nil_r.
      + exists [], [d]. split; [constructor|]. cbn. now rewrite app_nil_r.
      + set (l1 := d' :: l) in *. 
        destruct (scan_line check d (d :: l1)) as [sel pos] eqn:E.
        destruct (scan_line_greedy d l1 sel pos E) as [Hs Hn].
        pose proof (greedy_length l1 d) as GL.
        destruct (IH (dots_not_in (d :: l1) pos) (if 1 <? Z.of_nat (length sel) then acc ++ [sel] else acc)) as [gs [rest [P Q]]].
        { rewrite Hn. cbn [length] in *. lia. }
        exists (sel :: gs), rest. split.
        * rewrite Hs. apply passes_more with (left := snd (greedy d l1)).
          -- apply greedy_pass. apply surjective_pairing.
          -- now rewrite <- Hn.
        * unfold l1 in *. cbn [group_hor_loop]. rewrite E, Q. cbn [filter].
          destruct (1 <? Z.of_nat (length sel)); [now rewrite <- app_assoc|reflexivity].
  Qed.
End Scan.

(** *** Consequences of the passes *)
Section Pass.
  Context {A : Type} (test : A -> A -> Prop).
  Lemma pass_perm e l t f : pass test e l t f -> Permutation l (t ++ f).
  Proof.
    induction 1; cbn; [constructor|now constructor|].
    rewrite IHpass. apply Permutation_middle.
  Qed.
  Lemma pass_chain e l t f : pass test e l t f -> chain test (e :: t).
  Proof.
    induction 1; [exact I| |assumption]. split; assumption.
  Qed.
  Lemma pass_sub e l t f (P : A -> A -> Prop) : pass test e l t f -> StronglySorted P l ->
    StronglySorted P t /\ StronglySorted P f.
  Proof.
    induction 1 as [e|e d l t f Ht Hp IH|e d l t f Ht Hp IH]; intros S.
    - split; constructor.
    - inversion S as [|? ? S' F]; subst. destruct (IH S') as [St Sf]. split; [|assumption].
      constructor; [assumption|]. apply pass_perm in Hp. rewrite Forall_forall in *. intros x Hx. apply F.
      apply (Permutation_in _ (Permutation_sym Hp)), in_app_iff. now left.
    - inversion S as [|? ? S' F]; subst. destruct (IH S') as [St Sf]. split; [assumption|].
      constructor; [assumption|]. apply pass_perm in Hp. rewrite Forall_forall in *. intros x Hx. apply F.
      apply (Permutation_in _ (Permutation_sym Hp)), in_app_iff. now right.
  Qed.
  Lemma passes_perm l gs rest : passes test l gs rest -> Permutation l (concat gs ++ rest).
  Proof.
    induction 1 as [|d|d d' l t f gs rest Hp _ IH]; cbn [concat]; [constructor|apply Permutation_refl|].
    apply pass_perm in Hp. cbn [app]. constructor. rewrite Hp, IH, app_assoc. apply Permutation_refl.
  Qed.
  Lemma passes_groups l gs rest (P : A -> A -> Prop) : passes test l gs rest -> StronglySorted P l ->
    Forall (fun g => chain test g /\ StronglySorted P g /\ g <> []) gs /\ (length rest <= 1)%nat.
  Proof.
    induction 1 as [|d|d d' l t f gs rest Hp _ IH]; intros S; [split; [constructor|cbn; lia]|split; [constructor|cbn; lia]|].
    inversion S as [|? ? S' F]; subst. destruct (pass_sub _ _ _ _ P Hp S') as [St Sf].
    destruct (IH Sf) as [HF Hr]. split; [|assumption]. constructor; [|assumption].
    split; [now apply pass_chain in Hp|]. split; [|discriminate].
    constructor; [assumption|]. apply pass_perm in Hp. rewrite Forall_forall in *. intros x Hx. apply F.
    apply (Permutation_in _ (Permutation_sym Hp)), in_app_iff. now left.
  Qed.
End Pass.
Lemma filter_concat_sub {A} (f : list A -> bool) gs : submultiset (concat (filter f gs)) (concat gs).
Proof.
  induction gs as [|g gs [r IH]]; [exists []; constructor|]. cbn [filter concat]. destruct (f g); cbn [concat].
  - exists r. rewrite IH, app_assoc. apply Permutation_refl.
  - exists (g ++ r). rewrite IH. rewrite !app_assoc. apply Permutation_app_tail, Permutation_app_comm.
Qed.
Lemma concat_perm {A} (a b : list (list A)) : Permutation a b -> Permutation (concat a) (concat b).
Proof.
  induction 1; cbn [concat]; [constructor|now apply Permutation_app_head| |now transitivity (concat l')].
  rewrite !app_assoc. apply Permutation_app_tail, Permutation_app_comm.
Qed.
