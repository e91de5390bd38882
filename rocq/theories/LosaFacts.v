(** Facts about the save functions: names, folders, what is written where. *)
From Coq Require Import Ascii String ZifyBool FinFun.
From Verif Require Import Base Text Fs FsFacts Json JsonFacts Hdf Num Losa.
Local Open Scope nat_scope.

(** *** Path strings *)
Lemma resolve_posix cwd p : Forall good_comp p -> resolve cwd (posix p) = p.
Proof.
  intros H. destruct p as [|c p]; [reflexivity|]. unfold resolve, posix.
  rewrite split_slash_posix by assumption.
  cbn [flat_map app]. change (aeqb "/" "/") with true. cbv iota.
  change (fold_left step_dir (c :: p) [] = c :: p).
  assert (G : forall l q, Forall good_comp l -> fold_left step_dir l q = q ++ l).
  { induction l as [|x l IH]; intros q Hl; cbn [fold_left]; [now rewrite app_nil_r|].
    inversion_clear Hl. rewrite step_good by assumption. rewrite IH by assumption.
    now rewrite <- app_assoc. }
  now rewrite G by assumption.
Qed.

Section Save.
  Context {T : Type} {N : Num T}.
  Notation FS := (@FS T).
  Implicit Types f : FS.

  (** *** Free names *)
  Lemma numbered_ne p n : numbered p n <> [].
  Proof. unfold numbered. intros H. apply app_eq_nil in H. destruct H. discriminate. Qed.
  Lemma numbered_inj p n m : numbered p n = numbered p m -> n = m.
  Proof.
    unfold numbered. intros H. apply app_inj_tail in H. destruct H as [_ H].
    rewrite !app_assoc in H. apply app_inv_tail in H. rewrite <- !app_assoc in H.
    apply app_inv_head, app_inv_head in H. now apply dec4_inj.
  Qed.
  Lemma numbered_length p n : p <> [] -> List.length (numbered p n) = List.length p.
  Proof. intros H. unfold numbered. rewrite app_length, (parent_length p H). cbn. lia. Qed.

  Lemma find_free_some f p fuel : forall n q, find_free f p n fuel = Some q ->
    exists k, n <= k /\ q = numbered p k /\ look f q = None /\
      (forall m, n <= m < k -> look f (numbered p m) <> None).
  Proof.
    induction fuel as [|fuel IH]; intros n q; cbn [find_free]; [discriminate|].
    destruct (exists_ f (numbered p n)) eqn:E.
    - intros H. destruct (IH _ _ H) as [k [Hk [-> [H1 H2]]]]. exists k. repeat split; try assumption; [lia|].
      intros m Hm. destruct (Nat.eq_dec m n) as [->|]; [now apply exists_look|]. apply H2. lia.
    - intros H. injection H as <-. exists n. repeat split; [lia|now apply exists_look_false|lia].
  Qed.
  Lemma find_free_none f p fuel : forall n, find_free f p n fuel = None ->
    forall m, n <= m < n + fuel -> look f (numbered p m) <> None.
  Proof.
    induction fuel as [|fuel IH]; intros n; cbn [find_free]; [intros _ m Hm; lia|].
    destruct (exists_ f (numbered p n)) eqn:E; [|discriminate].
    intros H m Hm. destruct (Nat.eq_dec m n) as [->|]; [now apply exists_look|].
    apply (IH (S n) H). lia.
  Qed.
  (** Finitely many files: the search ends. *)
  Lemma find_free_ends f p : find_free f p 0 (S (List.length f)) <> None.
  Proof.
    intros H. pose proof (find_free_none f p _ 0 H) as A.
    assert (I : incl (map (numbered p) (seq 0 (S (List.length f)))) (map fst f)).
    { intros q Hq. apply in_map_iff in Hq. destruct Hq as [m [<- Hm]]. apply in_seq in Hm.
      destruct (look f (numbered p m)) eqn:E; [|exfalso; apply (A m); [lia|assumption]].
      eapply look_in; [apply numbered_ne|exact E]. }
    apply NoDup_incl_length in I.
    - rewrite !map_length, seq_length in I. lia.
    - apply Injective_map_NoDup; [|apply seq_NoDup]. intros a b. apply numbered_inj.
  Qed.

  (** The name used for the requested path p: itself if free, else with the
      smallest free counter. *)
  Definition fresh f p q : Prop :=
    (look f p = None /\ q = p) \/
    (look f p <> None /\ exists n, q = numbered p n /\ look f q = None /\
       forall m, m < n -> look f (numbered p m) <> None).
  Lemma create_file_name_spec p f : exists q, create_file_name p f = (f, Ok q) /\ fresh f p q.
  Proof.
    unfold create_file_name, ibind, get. destruct (exists_ f p) eqn:E.
    - destruct (find_free f p 0 (S (List.length f))) as [q|] eqn:F; [|now apply find_free_ends in F].
      exists q. split; [reflexivity|]. right. split; [now apply exists_look|].
      destruct (find_free_some _ _ _ _ _ F) as [k [_ [-> [H1 H2]]]]. exists k. repeat split; try assumption.
      intros m Hm. apply H2. lia.
    - exists p. split; [reflexivity|]. left. split; [now apply exists_look_false|reflexivity].
  Qed.
  Lemma fresh_none f p q : fresh f p q -> look f q = None.
  Proof. intros [[H ->]|[_ [n [-> [H _]]]]]; exact H. Qed.

  (** *** Folders *)
  Definition folder_of p : path := match suffix p with [] => p | _ => parent p end.
  Lemma create_folder_spec p f f' r : create_folder p f = (f', r) ->
    keeps f f' /\ (forall q, (forall b, folder_of p <> q ++ b) -> look f' q = look f q) /\
    (r = Ok tt \/ r = Err ValueError) /\
    (r = Ok tt -> look f (folder_of p) <> None \/ look f' (folder_of p) = Some Dir) /\
    ((forall q b, folder_of p = q ++ b -> is_file f q = false) -> r = Ok tt /\ look f' (folder_of p) = Some Dir) /\
    (r <> Ok tt -> f' = f).
  Proof.
    unfold create_folder. fold (folder_of p). unfold ibind at 1, get.
    destruct (exists_ f (folder_of p)) eqn:E.
    - intros H. injection H as <- <-. apply exists_look in E.
      split; [apply keeps_refl|]. repeat split; auto; try congruence.
      pose proof (H (folder_of p) []) as F. rewrite app_nil_r in F. specialize (F eq_refl).
      unfold is_file in F. destruct (look f (folder_of p)) as [[]|]; congruence.
    - apply exists_look_false in E. unfold as_value_error.
      destruct (mkdir_p (folder_of p) f) as [g s] eqn:Em. intros H. injection H as <- <-.
      destruct (mkdir_p_spec _ _ _ _ Em) as [[-> [-> [q [Hq Hf]]]]|[-> [H1 [H2 H3]]]].
      + split; [apply keeps_refl|]. split; [reflexivity|]. split; [auto|].
        split; [congruence|]. split; [|auto]. intros H.
        destruct (prefixes_in _ _ Hq) as [b [Eb _]]. rewrite (H q b Eb) in Hf. discriminate.
      + split.
        { intros q n Hn. destruct (in_dec (list_eq_dec (list_eq_dec Ascii.ascii_dec)) q (prefixes (folder_of p))) as [Hi|Hi].
          - rewrite H2 by assumption. pose proof (H1 q Hi) as Hf. unfold is_file in Hf. rewrite Hn in Hf.
            destruct n; congruence.
          - now rewrite H3. }
        assert (D : look g (folder_of p) = Some Dir).
        { destruct (folder_of p) as [|c d] eqn:Ed; [reflexivity|]. apply H2.
          apply (prefixes_all _ _ []); [now rewrite app_nil_r|discriminate]. }
        split; [|repeat split; auto; congruence].
        intros q Hq. apply H3. intros Hi. destruct (prefixes_in _ _ Hi) as [b [Eb _]]. now apply (Hq b).
  Qed.

  (** *** The common shape of the save functions *)
  Definition saver (p : path) (overwrite : bool) (w : path -> io FS path) : io FS path :=
    _ <-- create_folder p ;; q <-- (if overwrite then ret p else create_file_name p) ;; w q.

  (** Writes nothing but q, and a file there on success. *)
  Definition writes_at (w : path -> io FS path) q : Prop := forall f f' r, w q f = (f', r) ->
    (forall p, p <> q -> look f' p = look f p) /\
    (forall q', r = Ok q' -> q' = q /\ exists c, look f' q = Some (File c)).
  Definition writes (w : path -> io FS path) : Prop := forall q, writes_at w q.
  (** .. for the names that can be chosen for p. *)
  Definition writes_for p (w : path -> io FS path) : Prop :=
    writes_at w p /\ forall n, writes_at w (numbered p n).
  Lemma writes_writes_for w p : writes w -> writes_for p w.
  Proof. intros H. split; intros; apply H. Qed.
  Lemma fresh_writes f p q w : writes_for p w -> fresh f p q -> writes_at w q.
  Proof. intros [A B] [[_ ->]|[_ [n [-> _]]]]; auto. Qed.

  Lemma suffix_ne p : suffix p <> [] -> p <> [].
  Proof. intros H ->. now apply H. Qed.
  Lemma folder_short p q : suffix p <> [] -> List.length p <= List.length q ->
    forall b, folder_of p <> q ++ b.
  Proof.
    intros Hs Hl b E. unfold folder_of in E. pose proof (parent_length p (suffix_ne p Hs)).
    assert (parent p = q ++ b) by (destruct (suffix p); [congruence|exact E]).
    apply (f_equal (@List.length _)) in H0. rewrite app_length in H0. unfold path, text in *. lia.
  Qed.

  Lemma fresh_transport p f g q : p <> [] ->
    (forall r, List.length p <= List.length r -> look g r = look f r) -> fresh g p q -> fresh f p q.
  Proof.
    intros Hp H. assert (Hn : forall n, look g (numbered p n) = look f (numbered p n)).
    { intros n. apply H. now rewrite numbered_length. }
    intros [[A ->]|[A [n [-> [B D]]]]].
    - left. split; [|reflexivity]. now rewrite <- H.
    - right. rewrite H in A by lia. rewrite Hn in B. split; [exact A|].
      exists n. repeat split; [exact B|]. intros m Hm. rewrite <- Hn. now apply D.
  Qed.

  Lemma saver_keeps p w f f' r : writes_for p w -> saver p false w f = (f', r) -> keeps f f'.
  Proof.
    intros Hw. unfold saver, ibind at 1. destruct (create_folder p f) as [g s] eqn:Ef.
    destruct (create_folder_spec _ _ _ _ Ef) as [K [_ [[->| ->] _]]].
    - unfold ibind. destruct (create_file_name_spec p g) as [q [-> Hq]].
      intros H. destruct (fresh_writes _ _ _ _ Hw Hq _ _ _ H) as [A _]. eapply keeps_trans; [exact K|].
      intros x n Hx. rewrite A; [exact Hx|]. intros ->. apply fresh_none in Hq. congruence.
    - intros H. injection H as <- <-. exact K.
  Qed.
  Lemma saver_fresh p w f f' q : writes_for p w -> suffix p <> [] -> saver p false w f = (f', Ok q) ->
    look f q = None /\ (exists c, look f' q = Some (File c)) /\ fresh f p q.
  Proof.
    intros Hw Hs. unfold saver, ibind at 1. destruct (create_folder p f) as [g s] eqn:Ef.
    destruct (create_folder_spec _ _ _ _ Ef) as [K [L [[->| ->] _]]]; [|congruence].
    unfold ibind. destruct (create_file_name_spec p g) as [q' [-> Hq]].
    intros H. destruct (fresh_writes _ _ _ _ Hw Hq _ _ _ H) as [_ B]. destruct (B q eq_refl) as [-> Hc].
    assert (F : fresh f p q').
    { eapply fresh_transport; [now apply suffix_ne| |exact Hq]. intros r Hr. apply L.
      now apply folder_short. }
    repeat split; try assumption. now apply fresh_none in F.
  Qed.
  Lemma saver_over p w f f' q : writes_for p w -> saver p true w f = (f', Ok q) ->
    q = p /\ exists c, look f' q = Some (File c).
  Proof.
    intros Hw. unfold saver, ibind at 1. destruct (create_folder p f) as [g s] eqn:Ef.
    destruct s as [[]|e]; [|congruence]. unfold ibind, ret. intros H.
    destruct (proj1 Hw _ _ _ H) as [_ B]. destruct (B q eq_refl) as [-> Hc]. auto.
  Qed.

  (** The last step of a successful save. *)
  Lemma saver_last p ow w f f' r : saver p ow w f = (f', r) ->
    (exists g q, w q g = (f', r) /\ (ow = true -> q = p) /\ keeps f g /\ (ow = false -> fresh g p q)) \/
    (exists e, r = Err e /\ keeps f f').
  Proof.
    unfold saver, ibind at 1. destruct (create_folder p f) as [g s] eqn:Ef.
    destruct (create_folder_spec _ _ _ _ Ef) as [K [_ [[->| ->] _]]].
    - unfold ibind. destruct ow.
      + intros H. left. exists g, p. repeat split; auto. discriminate.
      + destruct (create_file_name_spec p g) as [q [-> Hq]]. intros H. left. exists g, q. repeat split; auto. discriminate.
    - intros H. injection H as <- <-. right. eauto.
  Qed.
  (** A save reaches its write when no ancestor of the target is a file. *)
  Lemma saver_reaches p ow w f : suffix p <> [] ->
    (forall d b, parent p = d ++ b -> is_file f d = false) ->
    exists g q, saver p ow w f = w q g /\ keeps f g /\ look g (parent p) = Some Dir /\ parent q = parent p /\
      (ow = true -> q = p) /\ (ow = false -> fresh f p q) /\ look g q = look f q /\ q <> [].
  Proof.
    intros Hs Hf. assert (E : folder_of p = parent p) by (unfold folder_of; destruct (suffix p); congruence).
    unfold saver, ibind at 1. destruct (create_folder p f) as [g s] eqn:Ef.
    destruct (create_folder_spec _ _ _ _ Ef) as [K [L [_ [_ [S _]]]]]. rewrite E in *.
    destruct (S Hf) as [-> D].
    assert (TR : forall r, List.length p <= List.length r -> look g r = look f r).
    { intros r Hr. apply L. rewrite <- E. now apply folder_short. }
    pose proof (suffix_ne p Hs) as Hne.
    unfold ibind. destruct ow.
    - exists g, p. repeat split; auto. discriminate.
    - destruct (create_file_name_spec p g) as [q [-> Hq]]. exists g, q.
      assert (Hq' : fresh f p q) by (eapply fresh_transport; eassumption).
      assert (P : parent q = parent p /\ List.length q = List.length p /\ q <> []).
      { destruct Hq as [[_ ->]|[_ [n [-> _]]]]; [auto|]. split; [apply parent_app|].
        split; [now apply numbered_length|apply numbered_ne]. }
      destruct P as [P1 [P2 P3]]. repeat split; auto; try discriminate. apply TR. unfold path, text in *. lia.
  Qed.
End Save.
