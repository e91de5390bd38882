(** Facts about saving in steps. *)
From Coq Require Import Ascii String Lia.
From Verif Require Import Base Text Fs FsFacts Json Hdf Num Losa LosaSpec LosaFacts LosaFacts2 LosaFacts3 Sched.
Local Open Scope nat_scope.

Section Facts.
  Context {T : Type} {N : Num T}.
  Local Notation FS := (@FS T).
  Local Notation content := (@content T).
  Local Notation job := (@job T).
  Local Notation world := (@world T).
  Implicit Types (f g : FS) (j : job) (w : world).

  (** *** Worlds *)
  Lemma replace_nth_same {A} i (x : A) l y : nth_error l i = Some y -> nth_error (replace_nth i x l) i = Some x.
  Proof. revert i. induction l as [|z l IH]; intros [|i]; cbn; try discriminate; [reflexivity|apply IH]. Qed.
  Lemma replace_nth_other {A} i k (x : A) l : k <> i -> nth_error (replace_nth i x l) k = nth_error l k.
  Proof. revert i k. induction l as [|z l IH]; intros [|i] [|k] H; cbn; try congruence. apply IH. congruence. Qed.
  Lemma act_at f ps i j c : nth_error ps i = Some (j, c) -> act (f, ps) i = (fst (step j c f), replace_nth i (j, snd (step j c f)) ps).
  Proof. intros H. unfold act. cbn [fst snd]. rewrite H. now destruct (step j c f). Qed.
  Lemma act_none f ps i : nth_error ps i = None -> act (f, ps) i = (f, ps).
  Proof. intros H. unfold act. cbn [fst snd]. now rewrite H. Qed.
  Lemma run_app a b w : run (a ++ b) w = run b (run a w).
  Proof. unfold run. apply fold_left_app. Qed.
  (** An invariant of single steps holds after every schedule. *)
  Lemma run_inv (I : world -> Prop) : (forall f ps i j c, I (f, ps) -> nth_error ps i = Some (j, c) -> I (act (f, ps) i)) ->
    forall sched w, I w -> I (run sched w).
  Proof.
    intros H sched. induction sched as [|i s IH]; intros w Hw; [exact Hw|]. cbn [run fold_left]. apply IH.
    destruct w as [f ps]. destruct (nth_error ps i) as [[j c]|] eqn:E; [now apply (H f ps i j c)|]. now rewrite act_none.
  Qed.
  (** The jobs stay the same. *)
  Lemma act_jobs w i : map fst (snd (act w i)) = map fst (snd w).
  Proof.
    destruct w as [f ps]. destruct (nth_error ps i) as [[j c]|] eqn:E; [|now rewrite act_none].
    rewrite (act_at _ _ _ _ _ E). cbn [snd]. generalize (snd (step j c f)). intros c'. revert i E. induction ps as [|y ps IH]; intros [|i] E; cbn in *; try congruence.
    - injection E as ->. reflexivity.
    - f_equal. now apply IH.
  Qed.
  Lemma run_jobs sched w : map fst (snd (run sched w)) = map fst (snd w).
  Proof. revert w. induction sched as [|i s IH]; intros w; [reflexivity|]. change (run (i :: s) w) with (run s (act w i)). rewrite IH. apply act_jobs. Qed.

  (** *** Single steps *)
  Lemma os_mkdir_spec d f g r : os_mkdir d f = (g, r) ->
    (r = Ok tt /\ g = (d, Dir) :: f /\ look f d = None /\ d <> [] /\ look f (parent d) = Some Dir) \/
    (g = f /\ r = Err OSError /\ (look f d <> None \/ exists a b, parent d = a ++ b /\ is_file f a = true)) \/
    (g = f /\ r = Err FileNotFoundError /\ look f d = None /\ look f (parent d) <> Some Dir).
  Proof.
    unfold os_mkdir. destruct (exists_ f d) eqn:E.
    - intros H. injection H as <- <-. right. left. repeat split. left. now apply exists_look.
    - apply exists_look_false in E. assert (Hd : d <> []) by (intros ->; discriminate E). destruct (existsb (is_file f) (prefixes (parent d))) eqn:X.
      + intros H. injection H as <- <-. right. left. repeat split. right. apply existsb_exists in X. destruct X as [a [Ha F]]. destruct (prefixes_in _ _ Ha) as [b [Eb _]]. now exists a, b.
      + destruct (look f (parent d)) as [[|c]|] eqn:L; intros H; injection H as <- <-; [left|right; right|right; right]; repeat split; (assumption || congruence).
  Qed.
  (** What a step may change. *)
  Inductive touched j : @pc T -> path -> Prop :=
  | to_open q c cs : touched j (POpen q c cs) q
  | to_put q c cs : touched j (PPut q c cs) q.
  Lemma step_fs j c f : 
    fst (step j c f) = f \/
    (exists d pa todo, c = PMkdir d pa todo /\ fst (step j c f) = (d, Dir) :: f /\ look f d = None /\ d <> [] /\ look f (parent d) = Some Dir) \/
    (exists q x cs, (c = POpen q x cs \/ c = PPut q x cs) /\ fst (step j c f) = (q, File x) :: f).
  Proof.
    destruct c as [|d pa todo|d todo| |n|q x cs|q x cs|r]; cbn [step fst]; try (left; reflexivity).
    - destruct (os_mkdir d f) as [g r] eqn:E. destruct (os_mkdir_spec _ _ _ _ E) as [[-> [-> [A [B D]]]]|[[-> [-> _]]|[-> [-> _]]]]; cbn [fst]; [|left; reflexivity|left; reflexivity].
      right. left. exists d, pa, todo. repeat split; assumption.
    - destruct (write_file q x f) as [g r] eqn:E. destruct (write_file_spec _ _ _ _ _ E) as [[e [-> ->]]|[-> [-> _]]]; [left; reflexivity|].
      right. right. exists q, x, cs. split; [now left|reflexivity].
    - right. right. exists q, x, cs. split; [now right|reflexivity].
  Qed.

  (** The names a job can write to. *)
  Definition candidate j q : Prop := q = jpath j \/ jover j = false /\ exists n, q = numbered (jpath j) n.
  Lemma name_touched j q x : touched j (name_known j q) x -> x = q.
  Proof. unfold name_known. destruct (jtrace j q); intros H; inversion H; reflexivity. Qed.
  Lemma put_touched j q cs x : touched j (put_next j q cs) x -> x = q.
  Proof. unfold put_next. destruct cs; intros H; inversion H; reflexivity. Qed.
  Lemma folder_touched j x : touched j (folder_done j) x -> jover j = true /\ x = jpath j.
  Proof. unfold folder_done. destruct (jover j); [|intros H; inversion H]. intros H. apply name_touched in H. now split. Qed.
  Lemma mk_touched j todo x : touched j (mk_next j todo) x -> jover j = true /\ x = jpath j.
  Proof. unfold mk_next. destruct todo; [apply folder_touched|intros H; inversion H]. Qed.
  Lemma step_touched j c f x : touched j (snd (step j c f)) x ->
    touched j c x \/ (jover j = true /\ x = jpath j) \/ ((c = PName \/ exists n, c = PNum n) /\ look f x = None /\ (x = jpath j \/ exists n, x = numbered (jpath j) n)).
  Proof.
    destruct c as [|d pa todo|d todo| |n|q y cs|q y cs|r]; cbn [step snd].
    - destruct (exists_ _ _); intros H; [right; left; now apply folder_touched|inversion H].
    - destruct (os_mkdir d f) as [g r] eqn:E. destruct (os_mkdir_spec _ _ _ _ E) as [[-> _]|[[_ [-> _]]|[_ [-> _]]]]; cbn [snd].
      + intros H. right. left. now apply mk_touched in H.
      + intros H. inversion H.
      + destruct pa; intros H; inversion H.
    - destruct (is_dir f d); intros H; [right; left; now apply mk_touched in H|inversion H].
    - destruct (exists_ f (jpath j)) eqn:E; intros H; [inversion H|]. right. right. apply name_touched in H. subst x. apply exists_look_false in E. auto.
    - destruct (exists_ f (numbered (jpath j) n)) eqn:E; intros H; [inversion H|]. right. right. apply name_touched in H. subst x. apply exists_look_false in E. split; [right; now exists n|]. split; [exact E|]. right. now exists n.
    - destruct (write_file q y f) as [g r] eqn:E. destruct (write_file_spec _ _ _ _ _ E) as [[e [-> ->]]|[-> [-> _]]]; cbn [snd]; intros H; [inversion H|].
      left. apply put_touched in H. subst x. constructor.
    - intros H. left. apply put_touched in H. subst x. constructor.
    - intros H. inversion H.
  Qed.

  (** *** Nothing is lost *)
  Lemma kept_inv x n : forall sched w, 
    (look (fst w) x = Some n /\ forall i j c, nth_error (snd w) i = Some (j, c) -> (forall q, touched j c q -> q <> x) /\ (jover j = true -> jpath j <> x)) ->
    look (fst (run sched w)) x = Some n /\ forall i j c, nth_error (snd (run sched w)) i = Some (j, c) -> (forall q, touched j c q -> q <> x) /\ (jover j = true -> jpath j <> x).
  Proof.
    apply (run_inv (fun w => look (fst w) x = Some n /\ forall i j c, nth_error (snd w) i = Some (j, c) -> (forall q, touched j c q -> q <> x) /\ (jover j = true -> jpath j <> x))).
    intros f ps i j c [L A] E. rewrite (act_at _ _ _ _ _ E). cbn [fst snd] in *. destruct (A i j c E) as [A1 A2]. split.
    - destruct (step_fs j c f) as [->|[[d [pa [todo [_ [-> [Nd _]]]]]]|[q [y [cs [Hc ->]]]]]]; [exact L| |].
      + rewrite look_cons_other; [exact L|]. intros ->. congruence.
      + rewrite look_cons_other; [exact L|]. intros ->. apply (A1 q); [|reflexivity]. destruct Hc as [-> | ->]; constructor.
    - intros k j' c' Ek. destruct (Nat.eq_dec k i) as [->|Nk].
      + rewrite (replace_nth_same _ _ _ _ E) in Ek. injection Ek as <- <-. split; [|exact A2].
        intros q Hq. apply step_touched in Hq. destruct Hq as [Hq|[[Ho ->]|[_ [Hq _]]]]; [now apply A1|now apply A2|]. intros ->. congruence.
      + rewrite replace_nth_other in Ek by assumption. now apply (A k).
  Qed.
End Facts.

(** *** Processes that do not disturb each other *)
(** Nothing that the second job may write or create is a name that the first
    may use, or a folder above it. *)
Definition ok_beside {T} (j j' : @job T) : Prop :=
  (forall q, candidate j q -> ~ candidate j' q) /\
  (forall q b, candidate j' q -> parent (jpath j) <> q ++ b) /\
  (forall q b, candidate j q -> job_folder j' <> q ++ b).

Section Alone.
  Context {T : Type} {N : Num T}.
  Local Notation FS := (@FS T).
  Local Notation content := (@content T).
  Local Notation job := (@job T).
  Variables (f0 : FS) (j : job).
  Let p := jpath j.
  Let F := parent p.
  Hypothesis Hs : suffix p <> [].
  Hypothesis Hw : writable f0 p.

  (** The name that will be used. *)
  Definition picked (q : path) : Prop := (jover j = true /\ q = p) \/ (jover j = false /\ fresh f0 p q).
  Lemma picked_fun q q' : picked q -> picked q' -> q = q'.
  Proof.
    intros [[A ->]|[A B]] [[A' ->]|[A' B']]; try congruence. destruct B as [[B1 ->]|[B1 [n [-> [B2 B3]]]]], B' as [[B1' ->]|[B1' [n' [-> [B2' B3']]]]]; try congruence.
    f_equal. destruct (Nat.lt_trichotomy n n') as [H|[H|H]]; [|exact H|]; exfalso; [now apply (B3' n)|now apply (B3 n')].
  Qed.
  Lemma picked_some : exists q, picked q.
  Proof.
    destruct (jover j) eqn:E; [exists p; now left|]. destruct (create_file_name_spec p f0) as [q [_ Hq]]. exists q. right. now split.
  Qed.
  Lemma picked_candidate q : picked q -> candidate j q.
  Proof. intros [[A ->]|[A [[_ ->]|[_ [n [-> _]]]]]]; [now left|now left|]. right. split; [exact A|]. now exists n. Qed.
  Lemma candidate_parent q : candidate j q -> parent q = F.
  Proof. intros [->|[_ [n ->]]]; [reflexivity|]. unfold numbered. apply parent_app. Qed.
  Lemma p_ne : p <> []. Proof. now apply suffix_ne. Qed.
  Lemma candidate_length q : candidate j q -> List.length q = S (List.length F).
  Proof.
    intros [->|[_ [n ->]]]; fold p.
    - exact (parent_length p p_ne).
    - exact (eq_trans (numbered_length p n p_ne) (parent_length p p_ne)).
  Qed.
  Lemma picked_not_dir q : picked q -> look f0 q <> Some Dir.
  Proof. intros [[_ ->]|[_ H]]; [apply Hw|]. apply fresh_none in H. congruence. Qed.

  Fixpoint chain (d : path) (todo : list path) : Prop := match todo with [] => d = F | e :: t => parent e = d /\ chain e t end.
  Lemma parent_prefix (e : path) : exists b, e = parent e ++ b.
  Proof. destruct e as [|x e]; [now exists []|]. exists [pname (x :: e)]. now apply split_last_name. Qed.
  Lemma chain_above d todo : chain d todo -> exists b, F = d ++ b.
  Proof.
    revert d. induction todo as [|e t IH]; intros d; cbn [chain]; [intros ->; exists []; now rewrite app_nil_r|].
    intros [<- H]. destruct (IH e H) as [b E]. destruct (parent_prefix e) as [b' E']. exists (b' ++ b). rewrite app_assoc, <- E'. exact E.
  Qed.

  Definition unwritten (f : FS) : Prop := forall q, candidate j q -> look f q = look f0 q.
  Definition Good (f : FS) (c : pc) : Prop :=
    (forall d b, F = d ++ b -> is_file f d = false) /\
    match c with
    | PFolder => unwritten f
    | PMkdir d pa todo => unwritten f /\ chain d todo /\ (pa = false -> look f (parent d) = Some Dir)
    | PIsDir d todo => unwritten f /\ chain d todo /\ look f d = Some Dir
    | PName => unwritten f /\ look f F = Some Dir /\ jover j = false
    | PNum n => unwritten f /\ look f F = Some Dir /\ jover j = false /\ look f0 p <> None /\ forall m, m < n -> look f0 (numbered p m) <> None
    | POpen q x cs => unwritten f /\ look f F = Some Dir /\ picked q /\ jtrace j q = x :: cs
    | PPut q x cs => picked q /\ (forall q', candidate j q' -> q' <> q -> look f q' = look f0 q') /\ exists a y, jtrace j q = (a ++ [y]) ++ x :: cs /\ look f q = Some (File y)
    | PEnd r => exists q, picked q /\ r = jend j q /\ ((jtrace j q = [] /\ unwritten f) \/
        (forall q', candidate j q' -> q' <> q -> look f q' = look f0 q') /\ exists a x, jtrace j q = a ++ [x] /\ look f q = Some (File x))
    end.

  Lemma good_start : Good f0 PFolder.
  Proof. split; [|now intros q _]. intros d b E. apply (proj1 Hw d (b ++ [pname p])); [|destruct b; discriminate]. rewrite app_assoc, <- E. apply split_last_name, p_ne. Qed.

  Lemma good_name (f : FS) q : (forall d b, F = d ++ b -> is_file f d = false) -> unwritten f -> look f F = Some Dir -> picked q -> Good f (name_known j q).
  Proof.
    intros A U D P. unfold name_known. destruct (jtrace j q) as [|x cs] eqn:E; (split; [exact A|]).
    - exists q. split; [exact P|]. split; [reflexivity|]. left. now split.
    - repeat split; assumption.
  Qed.
  Lemma good_folder (f : FS) : (forall d b, F = d ++ b -> is_file f d = false) -> unwritten f -> look f F = Some Dir -> Good f (folder_done j).
  Proof.
    intros A U D. unfold folder_done. destruct (jover j) eqn:E; [apply good_name; try assumption; now left|]. split; [exact A|]. repeat split; assumption.
  Qed.
  Lemma good_mk (f : FS) d todo : (forall d b, F = d ++ b -> is_file f d = false) -> unwritten f -> chain d todo -> look f d = Some Dir -> Good f (mk_next j todo).
  Proof.
    intros A U C D. destruct todo as [|e t]; cbn [mk_next chain] in *; [apply good_folder; try assumption; congruence|].
    destruct C as [E C]. split; [exact A|]. repeat split; try assumption. intros _. congruence.
  Qed.
  Lemma folder_is : job_folder j = F.
  Proof. unfold job_folder. fold p. destruct (suffix p); [now elim Hs|reflexivity]. Qed.

  Lemma good_put (f : FS) q a x cs : (forall d b, F = d ++ b -> is_file f d = false) -> picked q -> (forall q', candidate j q' -> q' <> q -> look f q' = look f0 q') -> jtrace j q = a ++ x :: cs -> look f q = Some (File x) -> Good f (put_next j q cs).
  Proof.
    intros A P O E L. destruct cs as [|y cs]; cbn [put_next]; (split; [exact A|]).
    - exists q. split; [exact P|]. split; [reflexivity|]. right. split; [exact O|]. now exists a, x.
    - split; [exact P|]. split; [exact O|]. exists a, x. split; [|exact L]. rewrite <- app_assoc. exact E.
  Qed.
  Lemma candidate_ne q : candidate j q -> q <> [].
  Proof. intros C ->. apply candidate_length in C. discriminate C. Qed.
  Lemma candidate_below q d b : candidate j q -> F = d ++ b -> q <> d.
  Proof. intros C E ->. apply candidate_length in C. rewrite E, app_length in C. unfold path, text in *. lia. Qed.
  Lemma write_above (f : FS) q (x : content) : candidate j q -> (forall d b, F = d ++ b -> is_file f d = false) -> forall d b, F = d ++ b -> is_file ((q, File x) :: f) d = false.
  Proof.
    intros C A d b E. unfold is_file. rewrite look_cons_other; [exact (A d b E)|]. intros ->. now apply (candidate_below q q b C).
  Qed.

  (** The steps of the process itself. *)
  Lemma good_step (f : FS) c : Good f c -> Good (fst (step j c f)) (snd (step j c f)).
  Proof.
    intros [A G]. destruct c as [|d pa todo|d todo| |n|q x cs|q x cs|r]; cbn [step].
    - cbn [fst snd]. rewrite folder_is. destruct (exists_ f F) eqn:E.
      + apply good_folder; try assumption. apply exists_look in E. pose proof (A F [] ltac:(now rewrite app_nil_r)) as Z. unfold is_file in Z. destruct (look f F) as [[]|]; congruence.
      + split; [exact A|]. split; [exact G|]. split; [reflexivity|discriminate].
    - destruct G as [U [C D]]. destruct (os_mkdir d f) as [g r] eqn:E. destruct (chain_above d todo C) as [b Eb].
      destruct (os_mkdir_spec _ _ _ _ E) as [[-> [-> [L [Nd _]]]]|[[-> [-> L]]|[-> [-> [L1 L2]]]]]; cbn [fst snd].
      + apply (good_mk _ d); [| |exact C|now apply look_cons_same].
        * intros d' b' E'. unfold is_file. destruct (list_eq_dec (list_eq_dec Ascii.ascii_dec) d' d) as [->|Ne]; [now rewrite look_cons_same|]. rewrite look_cons_other by exact Ne. now apply (A d' b').
        * intros q Hq. rewrite look_cons_other; [now apply U|]. now apply (candidate_below q d b).
      + split; [exact A|]. split; [exact U|]. split; [exact C|]. destruct L as [L|[a [b' [E1 E2]]]].
        * pose proof (A d b Eb) as Z. unfold is_file in Z. destruct (look f d) as [[]|]; congruence.
        * exfalso. destruct (parent_prefix d) as [b2 E3]. rewrite (A a (b' ++ b2 ++ b)) in E2; [discriminate|]. rewrite app_assoc, <- E1, app_assoc, <- E3. exact Eb.
      + destruct pa.
        * split; [exact A|]. split; [exact U|]. split; [|discriminate]. cbn [chain]. now split.
        * exfalso. now apply L2, D.
    - destruct G as [U [C D]]. cbn [fst snd]. unfold is_dir. rewrite D. now apply (good_mk _ d).
    - destruct G as [U [D O]]. cbn [fst snd]. fold p. destruct (exists_ f p) eqn:E.
      + apply exists_look in E. split; [exact A|]. repeat split; try assumption; [|lia]. rewrite <- (U p); [exact E|now left].
      + apply exists_look_false in E. apply good_name; try assumption. right. split; [exact O|]. left. split; [|reflexivity]. rewrite <- (U p); [exact E|now left].
    - destruct G as [U [D [O [K M]]]]. cbn [fst snd]. fold p. assert (Cn : candidate j (numbered p n)) by (right; split; [exact O|now exists n]). destruct (exists_ f (numbered p n)) eqn:E.
      + apply exists_look in E. split; [exact A|]. repeat split; try assumption. intros m Hm. destruct (Nat.eq_dec m n) as [->|Ne]; [|apply M; lia]. now rewrite <- (U _ Cn).
      + apply exists_look_false in E. apply good_name; try assumption. right. split; [exact O|]. right. split; [exact K|]. exists n. repeat split; [|exact M]. now rewrite <- (U _ Cn).
    - destruct G as [U [D [P E]]]. pose proof (picked_candidate q P) as C. 
      rewrite write_ok; [|rewrite (U q C); now apply picked_not_dir|now rewrite (candidate_parent q C)|now apply candidate_ne].
      cbn [fst snd]. apply (good_put _ q [] x cs); [now apply write_above|exact P|intros q' C' Ne; rewrite look_cons_other by exact Ne; now apply U|exact E|now apply look_cons_same, candidate_ne].
    - destruct G as [P [O [a [y [E _]]]]]. cbn [fst snd]. pose proof (picked_candidate q P) as C. apply (good_put _ q (a ++ [y]) x cs); [now apply write_above|exact P|intros q' C' Ne; rewrite look_cons_other by exact Ne; now apply O|exact E|now apply look_cons_same, candidate_ne].
    - cbn [fst snd]. now split.
  Qed.

  (** The steps of others. *)
  Definition stable (f f' : FS) : Prop :=
    (forall q, candidate j q -> look f' q = look f q) /\
    (forall d b, F = d ++ b -> (is_file f d = false -> is_file f' d = false) /\ (look f d = Some Dir -> look f' d = Some Dir)).
  Lemma good_stable (f f' : FS) c : stable f f' -> Good f c -> Good f' c.
  Proof.
    intros [S1 S2] [A G]. assert (U : unwritten f -> unwritten f') by (intros U q C; rewrite S1 by exact C; now apply U).
    assert (DF : look f F = Some Dir -> look f' F = Some Dir) by (apply (S2 F []); now rewrite app_nil_r).
    split; [intros d b E; apply (S2 d b E); now apply (A d b)|].
    destruct c as [|d pa todo|d todo| |n|q x cs|q x cs|r].
    - auto.
    - destruct G as [G1 [G2 G3]]. split; [auto|]. split; [exact G2|]. intros Hp. destruct (chain_above d todo G2) as [b E]. destruct (parent_prefix d) as [b2 E2].
      apply (S2 (parent d) (b2 ++ b)); [rewrite app_assoc, <- E2; exact E|]. now apply G3.
    - destruct G as [G1 [G2 G3]]. split; [auto|]. split; [exact G2|]. destruct (chain_above d todo G2) as [b E]. now apply (S2 d b).
    - destruct G as [G1 [G2 G3]]. auto.
    - destruct G as [G1 [G2 [G3 G4]]]. auto.
    - destruct G as [G1 [G2 [G3 G4]]]. auto.
    - destruct G as [G1 [G2 [a [y [G3 G4]]]]]. split; [exact G1|]. split; [intros q' C' Ne; rewrite S1 by exact C'; now apply G2|]. exists a, y. split; [exact G3|]. rewrite S1; [exact G4|now apply picked_candidate].
    - destruct G as [q [P [E [[G1 G2]|[G0 [a [x [G1 G2]]]]]]]]; exists q; (split; [exact P|]); (split; [exact E|]); [left; auto|right].
      split; [intros q' C' Ne; rewrite S1 by exact C'; now apply G0|]. exists a, x. split; [exact G1|]. rewrite S1; [exact G2|now apply picked_candidate].
  Qed.

  (** What is on the disk at any time. *)
  Lemma good_now (f : FS) c q : Good f c -> candidate j q -> look f q = look f0 q \/ (picked q /\ exists x, In x (jtrace j q) /\ look f q = Some (File x)).
  Proof.
    intros [_ G] Hq. destruct c as [|d pa todo|d todo| |n|q' x cs|q' x cs|r]; try (left; now apply G).
    - destruct G as [P [O [a [y [E L]]]]]. destruct (list_eq_dec (list_eq_dec Ascii.ascii_dec) q q') as [->|Ne]; [|left; now apply O]. right. split; [exact P|]. exists y. split; [|exact L]. rewrite E, !in_app_iff. left. right. now left.
    - destruct G as [q' [P [_ [[_ U]|[O [a [x [E L]]]]]]]]; [left; now apply U|]. destruct (list_eq_dec (list_eq_dec Ascii.ascii_dec) q q') as [->|Ne]; [|left; now apply O].
      right. split; [exact P|]. exists x. split; [|exact L]. rewrite E, in_app_iff. right. now left.
  Qed.
  Lemma good_end (f g : FS) r r' : Good f (PEnd r) -> Good g (PEnd r') -> r = r' /\ forall q, candidate j q -> look f q = look g q.
  Proof.
    intros [_ [q [P [-> H]]]] [_ [q' [P' [-> H']]]]. pose proof (picked_fun _ _ P P') as E. subst q'. split; [reflexivity|].
    intros x Hx. destruct H as [[H1 H2]|[H1 [a [y [H2 H3]]]]], H' as [[H1' H2']|[H1' [a' [y' [H2' H3']]]]]; try (rewrite H1 in H2'; destruct a'; discriminate); try (rewrite H1' in H2; destruct a; discriminate).
    - rewrite H2, H2' by exact Hx. reflexivity.
    - destruct (list_eq_dec (list_eq_dec Ascii.ascii_dec) x q) as [->|Ne]; [|rewrite H1, H1' by assumption; reflexivity]. rewrite H2 in H2'. apply app_inj_tail in H2'. destruct H2' as [_ <-]. congruence.
  Qed.
End Alone.

Section Beside.
  Context {T : Type} {N : Num T}.
  Local Notation FS := (@FS T).
  Local Notation content := (@content T).
  Local Notation job := (@job T).

  (** What a process does, wherever it is. *)
  Definition above (j : job) (d : path) : Prop := exists b, job_folder j = d ++ b.
  Definition tame (j : job) (c : @pc T) : Prop :=
    match c with
    | PMkdir d _ todo => above j d /\ Forall (above j) todo
    | PIsDir d todo => Forall (above j) todo
    | PName | PNum _ => jover j = false
    | POpen q _ _ | PPut q _ _ => candidate j q
    | _ => True
    end.
  Lemma tame_name j q : candidate j q -> tame j (name_known j q).
  Proof. unfold name_known. intros C. destruct (jtrace j q); [exact Logic.I|exact C]. Qed.
  Lemma tame_folder j : tame j (folder_done j).
  Proof. unfold folder_done. destruct (jover j) eqn:E; [|exact E]. apply tame_name. now left. Qed.
  Lemma tame_mk j todo : Forall (above j) todo -> tame j (mk_next j todo).
  Proof. intros H. destruct todo; cbn [mk_next]; [apply tame_folder|]. inversion_clear H. now split. Qed.
  Lemma tame_put j q cs : candidate j q -> tame j (put_next j q cs).
  Proof. intros C. destruct cs; [exact Logic.I|exact C]. Qed.
  Lemma tame_step j c f : tame j c -> tame j (snd (step j c f)).
  Proof.
    destruct c as [|d pa todo|d todo| |n|q x cs|q x cs|r]; cbn [step snd tame].
    - intros _. destruct (exists_ _ _); [apply tame_folder|]. split; [exists []; now rewrite app_nil_r|constructor].
    - intros [A B]. destruct (os_mkdir d f) as [g r] eqn:E. destruct (os_mkdir_spec _ _ _ _ E) as [[-> _]|[[_ [-> _]]|[_ [-> _]]]]; cbn [snd]; [now apply tame_mk|exact B|].
      destruct pa; [|exact Logic.I]. split; [|now constructor]. destruct A as [b E1]. destruct (parent_prefix d) as [b' E2]. exists (b' ++ b). rewrite app_assoc, <- E2. exact E1.
    - intros B. destruct (is_dir f d); [now apply tame_mk|exact Logic.I].
    - intros O. destruct (exists_ _ _); [exact O|]. apply tame_name. now left.
    - intros O. destruct (exists_ _ _); [exact O|]. apply tame_name. right. split; [exact O|now exists n].
    - intros C. destruct (write_file q x f) as [g [[]|e]]; cbn [snd]; [now apply tame_put|exact Logic.I].
    - intros C. now apply tame_put.
    - auto.
  Qed.
  Lemma stable_step j j' c f : ok_beside j j' -> tame j' c -> stable j f (fst (step j' c f)).
  Proof.
    intros [B1 [B2 B3]] Tm. destruct (step_fs j' c f) as [->|[[d [pa [todo [-> [-> [Nd [Dn _]]]]]]]|[q [y [cs [Hc ->]]]]]].
    - split; [reflexivity|auto].
    - destruct Tm as [[b Eb] _]. split.
      + intros q C. apply look_cons_other. intros ->. now apply (B3 d b C).
      + intros d' b' _. unfold is_file. destruct (list_eq_dec (list_eq_dec Ascii.ascii_dec) d' d) as [->|Ne]; [rewrite look_cons_same by exact Dn; auto|]. rewrite look_cons_other by exact Ne. auto.
    - assert (C' : candidate j' q) by (destruct Hc as [-> | ->]; exact Tm). split.
      + intros q' C. apply look_cons_other. intros ->. now apply (B1 q C).
      + intros d b E. unfold is_file. rewrite look_cons_other; [auto|]. intros ->. now apply (B2 q b C').
  Qed.

  Variables (f0 : FS) (j : job) (i : nat).
  Hypothesis Hs : suffix (jpath j) <> [].
  Hypothesis Hw : writable f0 (jpath j).

  (** How many turns the process still needs at most. *)
  Variables (qn : path) (n0 : nat).
  Hypothesis Hq : picked f0 j qn.
  Hypothesis Hn : look f0 (numbered (jpath j) n0) = None.
  Definition bound := List.length (jtrace j qn) + 2 + n0.
  Definition turns (c : @pc T) : nat :=
    match c with
    | PFolder => bound + 3 * List.length (parent (jpath j)) + 3
    | PMkdir d pa todo => bound + 2 * List.length todo + 2 + (if pa then 3 * List.length d else 0)
    | PIsDir d todo => bound + 2 * List.length todo + 1
    | PName => bound
    | PNum n => List.length (jtrace j qn) + 1 + (n0 - n)
    | POpen q x cs | PPut q x cs => S (List.length cs)
    | PEnd _ => 0
    end.
  Lemma turns_name : turns (name_known j qn) <= List.length (jtrace j qn).
  Proof. unfold name_known. destruct (jtrace j qn); cbn [turns List.length]; lia. Qed.
  Lemma turns_folder : turns (folder_done j) <= bound.
  Proof.
    unfold folder_done. destruct (jover j) eqn:O; [|cbn [turns]; lia].
    replace (jpath j) with qn by (destruct Hq as [[_ H]|[H _]]; [exact H|congruence]). pose proof turns_name. unfold bound. lia.
  Qed.
  Lemma turns_mk todo : turns (mk_next j todo) <= bound + 2 * List.length todo.
  Proof. destruct todo; cbn [mk_next]; [pose proof turns_folder; cbn [List.length]; lia|]. cbn [turns List.length]. lia. Qed.
  Lemma turns_put q cs : turns (put_next j q cs) <= List.length cs.
  Proof. destruct cs; cbn [put_next turns List.length]; lia. Qed.
  Definition ended (c : @pc T) : Prop := exists r, c = PEnd r.
  Lemma turns_step f c : Good f0 j f c -> ended c \/ turns (snd (step j c f)) < turns c.
  Proof.
    intros [A G]. destruct c as [|d pa todo|d todo| |n|q x cs|q x cs|r]; cbn [step snd]; [right|right|right|right|right|right|right|left; now exists r].
    - rewrite folder_is by exact Hs. destruct (exists_ _ _); [pose proof turns_folder; cbn [turns]; lia|]. cbn [turns List.length]. lia.
    - destruct G as [U [C D]]. destruct (os_mkdir d f) as [g r] eqn:E. destruct (os_mkdir_spec _ _ _ _ E) as [[-> _]|[[_ [-> _]]|[_ [-> [L1 L2]]]]]; cbn [snd turns].
      + pose proof (turns_mk todo). lia.
      + lia.
      + destruct pa; [|cbn [turns]; lia]. assert (Nd : d <> []) by (intros ->; discriminate L1). pose proof (parent_length d Nd). cbn [turns List.length]. unfold path, text in *. lia.
    - destruct (is_dir f d); [pose proof (turns_mk todo); cbn [turns]; lia|cbn [turns]; lia].
    - destruct G as [U [D O]]. destruct (exists_ f (jpath j)) eqn:E; [cbn [turns]; unfold bound; lia|]. 
      assert (P : picked f0 j (jpath j)). { right. split; [exact O|]. left. split; [|reflexivity]. rewrite <- (U (jpath j)); [now apply exists_look_false|now left]. }
      rewrite (picked_fun f0 j _ _ P Hq). pose proof turns_name. cbn [turns]. unfold bound. lia.
    - destruct G as [U [D [O [K M]]]]. assert (Ln : n <= n0). { destruct (le_lt_dec n n0) as [H|H]; [exact H|]. exfalso. now apply (M n0 H). }
      assert (Cn : candidate j (numbered (jpath j) n)) by (right; split; [exact O|now exists n]). destruct (exists_ f (numbered (jpath j) n)) eqn:E.
      + apply exists_look in E. rewrite (U _ Cn) in E. assert (n <> n0) by congruence. cbn [turns]. lia.
      + apply exists_look_false in E. rewrite (U _ Cn) in E.
        assert (P : picked f0 j (numbered (jpath j) n)). { right. split; [exact O|]. right. split; [exact K|]. exists n. repeat split; assumption. }
        rewrite (picked_fun f0 j _ _ P Hq). pose proof turns_name. cbn [turns]. lia.
    - destruct (write_file q x f) as [g [[]|e]]; cbn [snd turns]; [|lia]. pose proof (turns_put q cs). lia.
    - pose proof (turns_put q cs). cbn [turns]. lia.
  Qed.

  Definition calm (w : @world T) : Prop :=
    (exists c, nth_error (snd w) i = Some (j, c) /\ Good f0 j (fst w) c) /\
    forall k j' c', k <> i -> nth_error (snd w) k = Some (j', c') -> ok_beside j j' /\ tame j' c'.
  Lemma calm_act w k : calm w -> calm (act w k).
  Proof.
    intros [[c [E G]] O]. destruct w as [f ps]. cbn [fst snd] in *. destruct (nth_error ps k) as [[j' c']|] eqn:Ek; [|rewrite act_none by exact Ek; split; [now exists c|exact O]].
    rewrite (act_at _ _ _ _ _ Ek). unfold calm. cbn [fst snd]. destruct (Nat.eq_dec k i) as [->|Ne].
    - rewrite E in Ek. injection Ek as <- <-. split.
      + exists (snd (step j c f)). split; [now apply replace_nth_same with (y := (j, c))|]. now apply good_step.
      + intros k j' c' Hk H. rewrite replace_nth_other in H by exact Hk. now apply (O k).
    - destruct (O k j' c' Ne Ek) as [Ob Tm]. split.
      + exists c. split; [rewrite replace_nth_other by congruence; exact E|]. apply (good_stable f0 j f); [now apply stable_step|exact G].
      + intros k2 j2 c2 Hk H. destruct (Nat.eq_dec k2 k) as [->|N2].
        * rewrite (replace_nth_same _ _ _ _ Ek) in H. injection H as <- <-. split; [exact Ob|now apply tame_step].
        * rewrite replace_nth_other in H by exact N2. now apply (O k2).
  Qed.
  Lemma calm_run sched : forall w c, calm w -> nth_error (snd w) i = Some (j, c) -> 
    calm (run sched w) /\ exists c', nth_error (snd (run sched w)) i = Some (j, c') /\ (ended c' \/ turns c' + count_occ Nat.eq_dec sched i <= turns c).
  Proof.
    induction sched as [|k s IH]; intros w c Hc E; [split; [exact Hc|]; exists c; split; [exact E|right; cbn; lia]|].
    change (run (k :: s) w) with (run s (act w k)). pose proof (calm_act w k Hc) as Hc'. destruct w as [f ps]. cbn [snd] in *.
    destruct (Nat.eq_dec k i) as [->|Ne].
    - assert (E' : nth_error (snd (act (f, ps) i)) i = Some (j, snd (step j c f))) by (rewrite (act_at _ _ _ _ _ E); cbn [snd]; now apply replace_nth_same with (y := (j, c))).
      destruct (IH _ _ Hc' E') as [H1 [c' [H2 H3]]]. split; [exact H1|]. exists c'. split; [exact H2|].
      destruct H3 as [H3|H3]; [now left|]. destruct Hc as [[c2 [E2 G]] _]. cbn [fst snd] in *. rewrite E in E2. injection E2 as <-.
      destruct (turns_step f c G) as [[r ->]|Lt].
      + left. cbn [step snd turns] in H3. destruct c'; cbn [turns] in H3; unfold bound in H3; try lia. eexists; reflexivity.
      + right. cbn [count_occ]. destruct (Nat.eq_dec i i); [lia|congruence].
    - assert (E' : nth_error (snd (act (f, ps) k)) i = Some (j, c)).
      { destruct (nth_error ps k) as [[j' c']|] eqn:Ek; [|rewrite act_none by exact Ek; exact E]. rewrite (act_at _ _ _ _ _ Ek). cbn [snd]. rewrite replace_nth_other by congruence. exact E. }
      destruct (IH _ _ Hc' E') as [H1 [c' [H2 H3]]]. split; [exact H1|]. exists c'. split; [exact H2|]. destruct H3 as [H3|H3]; [now left|right]. cbn [count_occ]. destruct (Nat.eq_dec k i); [congruence|lia].
  Qed.
End Beside.

(** *** A process on its own *)
(** Every existing path lies in a directory. *)
Definition proper {C} (f : fs C) : Prop := forall p n, p <> [] -> look f p = Some n -> look f (parent p) = Some Dir.
Lemma proper_above {C} (f : fs C) d : proper f -> look f d <> None -> forall a b, d = a ++ b -> b <> [] -> look f a = Some Dir.
Proof.
  intros P. revert d. enough (H : forall b a d, look f d <> None -> d = a ++ b -> b <> [] -> look f a = Some Dir) by (intros d L a b; now apply (H b a d)).
  intros b. induction b as [|x b IH] using rev_ind; intros a d L E Nb; [congruence|]. clear Nb. rewrite app_assoc in E.
  assert (Nd : d <> []) by (rewrite E; intros H; now apply app_eq_nil in H). destruct (look f d) as [n|] eqn:En; [|congruence].
  pose proof (P d n Nd En) as Q. rewrite E, parent_app in Q. destruct b as [|y b]; [now rewrite app_nil_r in Q|].
  apply (IH a (a ++ y :: b)); [congruence|reflexivity|discriminate].
Qed.
Definition same_look {C} (f g : fs C) : Prop := forall p, look f p = look g p.

Section Solo.
  Context {T : Type} {N : Num T}.
  Local Notation FS := (@FS T).
  Local Notation content := (@content T).
  Local Notation job := (@job T).
  Variable j : job.

  Inductive reach : FS * pc -> FS * pc -> Prop :=
  | reach_refl s : reach s s
  | reach_step f c s : reach (step j c f) s -> reach (f, c) s.
  Lemma reach_trans a b c : reach a b -> reach b c -> reach a c.
  Proof. induction 1; [auto|]. intros H'. constructor. auto. Qed.
  Lemma reach_one f c : reach (f, c) (step j c f).
  Proof. constructor. constructor. Qed.
  Lemma reach_run f c g c' : reach (f, c) (g, c') -> exists n, run (repeat 0 n) (f, [(j, c)]) = (g, [(j, c')]).
  Proof.
    intros H. remember (f, c) as s. remember (g, c') as t. revert f c Heqs. induction H as [s|f1 c1 s H IH]; intros f c E.
    - subst. injection E as -> ->. now exists 0.
    - injection E as -> ->. destruct (step j c f) as [f2 c2] eqn:St. destruct (IH Heqt f2 c2 eq_refl) as [n Hn]. exists (S n). cbn [repeat].
      change (run (0 :: repeat 0 n) (f, [(j, c)])) with (run (repeat 0 n) (act (f, [(j, c)]) 0)). unfold act. cbn [snd nth_error fst]. rewrite St. exact Hn.
  Qed.

  Lemma prefixes_parent (d : path) q : In q (prefixes d) -> q = d \/ In q (prefixes (parent d)).
  Proof.
    intros H. destruct (prefixes_in _ _ H) as [b [E Nq]]. destruct b as [|x b] using rev_ind; [left; now rewrite app_nil_r in E|right].
    rewrite app_assoc in E. rewrite E, parent_app. now apply (prefixes_all _ q b).
  Qed.
  Lemma prefixes_up (d : path) q : In q (prefixes (parent d)) -> In q (prefixes d).
  Proof.
    intros H. destruct (prefixes_in _ _ H) as [b [E Nq]]. destruct (parent_prefix d) as [b' E']. apply (prefixes_all _ q (b ++ b')); [|exact Nq]. rewrite app_assoc, <- E. exact E'.
  Qed.
  Lemma reach_mkdir n : forall d todo (f : FS), List.length d <= n -> proper f -> (forall q, In q (prefixes d) -> is_file f q = false) ->
    exists g, reach (f, PMkdir d true todo) (g, mk_next j todo) /\
      (forall q, In q (prefixes d) -> look g q = Some Dir) /\ (forall q, ~ In q (prefixes d) -> look g q = look f q).
  Proof.
    induction n as [|n IH]; intros d todo f L P A.
    - assert (d = []) as -> by (destruct d; [reflexivity|cbn in L; lia]). exists f. split; [|split; [intros q []|reflexivity]].
      apply reach_step. cbn [step]. unfold os_mkdir. cbn [exists_ look]. apply reach_one.
    - destruct (os_mkdir d f) as [g r] eqn:E. pose proof (os_mkdir_spec _ _ _ _ E) as S.
      destruct S as [[-> [-> [Ld [Nd Lp]]]]|[[-> [-> Le]]|[-> [-> [L1 L2]]]]].
      + exists ((d, Dir) :: f). split; [|split].
        * pose proof (reach_one f (PMkdir d true todo)) as R. cbn [step] in R. rewrite E in R. exact R.
        * intros q Hq. destruct (prefixes_parent d q Hq) as [->|Hp]; [now apply look_cons_same|]. destruct (prefixes_in _ _ Hp) as [b [Eb _]].
          rewrite look_cons_other. { destruct b as [|x b]; [rewrite app_nil_r in Eb; congruence|]. apply (proper_above f (parent d) P ltac:(congruence) q (x :: b) Eb). discriminate. }
          intros ->. apply (f_equal (@List.length _)) in Eb. rewrite app_length in Eb. pose proof (parent_length d Nd). unfold path, text in *. lia.
        * intros q Hq. apply look_cons_other. intros ->. apply Hq. apply (prefixes_all d d []); [now rewrite app_nil_r|exact Nd].
      + assert (Ld : look f d = Some Dir).
        { destruct Le as [Le|[a [b [E1 E2]]]].
          - destruct d as [|x d]; [reflexivity|]. assert (Z : is_file f (x :: d) = false) by (apply A, (prefixes_all _ _ []); [now rewrite app_nil_r|discriminate]). unfold is_file in Z. destruct (look f (x :: d)) as [[]|]; congruence.
          - exfalso. assert (Na : a <> []) by (intros ->; discriminate E2). rewrite (A a) in E2; [discriminate|]. apply prefixes_up. now apply (prefixes_all _ a b). }
        exists f. split; [|split].
        * apply reach_step. cbn [step]. rewrite E. pose proof (reach_one f (PIsDir d todo)) as R. cbn [step] in R. unfold is_dir in R. rewrite Ld in R. exact R.
        * intros q Hq. destruct (prefixes_in _ _ Hq) as [b [Eb _]]. destruct b as [|x b]; [rewrite app_nil_r in Eb; congruence|]. apply (proper_above f d P ltac:(congruence) q (x :: b) Eb). discriminate.
        * reflexivity.
      + assert (Nd : d <> []) by (intros ->; discriminate L1). pose proof (parent_length d Nd) as LP.
        destruct (IH (parent d) (d :: todo) f) as [g [R [G1 G2]]]; [unfold path, text in *; lia|exact P|intros q Hq; apply A; now apply prefixes_up|].
        assert (Dn : ~ In d (prefixes (parent d))). { intros H. destruct (prefixes_in _ _ H) as [b [Eb _]]. apply (f_equal (@List.length _)) in Eb. rewrite app_length in Eb. unfold path, text in *. lia. }
        assert (Lg : look g d = None) by (rewrite G2; assumption).
        assert (Lpg : look g (parent d) = Some Dir). { destruct (parent d) as [|x e] eqn:Ep; [reflexivity|]. apply G1. apply (prefixes_all _ _ []); [now rewrite app_nil_r|discriminate]. }
        exists ((d, Dir) :: g). split; [|split].
        * apply reach_step. cbn [step]. rewrite E. apply (reach_trans _ _ _ R). cbn [mk_next]. apply reach_step. cbn [step]. unfold os_mkdir.
          assert (Ex : exists_ g d = false) by now apply exists_look_false. rewrite Ex.
          assert (X : existsb (is_file g) (prefixes (parent d)) = false).
          { destruct (existsb (is_file g) (prefixes (parent d))) eqn:X; [|reflexivity]. apply existsb_exists in X. destruct X as [q [Hq X]]. unfold is_file in X. rewrite (G1 q Hq) in X. discriminate. }
          rewrite X, Lpg. constructor.
        * intros q Hq. destruct (prefixes_parent d q Hq) as [->|Hp]; [now apply look_cons_same|]. rewrite look_cons_other; [now apply G1|]. intros ->. now apply Dn.
        * intros q Hq. rewrite look_cons_other.
          -- apply G2. intros H. now apply Hq, prefixes_up.
          -- intros ->. apply Hq. apply (prefixes_all d d []); [now rewrite app_nil_r|exact Nd].
  Qed.
  (** The folder. *)
  Lemma reach_folder f f' r : proper f -> create_folder (jpath j) f = (f', r) ->
    exists g, same_look g f' /\ reach (f, PFolder) (g, match r with Ok _ => folder_done j | Err _ => PEnd (Err ValueError) end).
  Proof.
    intros P. unfold create_folder. change (match suffix (jpath j) with [] => jpath j | _ => parent (jpath j) end) with (job_folder j).
    unfold ibind at 1, get. destruct (exists_ f (job_folder j)) eqn:E.
    - intros H. injection H as <- <-. exists f. split; [intros q; reflexivity|]. pose proof (reach_one f PFolder) as R. cbn [step] in R. now rewrite E in R.
    - unfold as_value_error. destruct (mkdir_p (job_folder j) f) as [g s] eqn:M. intros H. injection H as <- <-.
      destruct (mkdir_p_spec _ _ _ _ M) as [[-> [-> [q [Hq Hf]]]]|[-> [H1 [H2 H3]]]].
      + exists f. split; [intros x; reflexivity|]. apply reach_step. cbn [step]. rewrite E. apply reach_step. cbn [step]. apply exists_look_false in E.
        assert (Q : In q (prefixes (parent (job_folder j)))). { destruct (prefixes_parent _ _ Hq) as [->|H]; [|exact H]. unfold is_file in Hf. rewrite E in Hf. discriminate. }
        unfold os_mkdir. assert (Ex : exists_ f (job_folder j) = false) by now apply exists_look_false. rewrite Ex.
        assert (X : existsb (is_file f) (prefixes (parent (job_folder j))) = true) by (apply existsb_exists; exists q; now split). rewrite X.
        pose proof (reach_one f (PIsDir (job_folder j) [])) as R. cbn [step] in R. unfold is_dir in R. rewrite E in R. exact R.
      + destruct (reach_mkdir _ (job_folder j) [] f (le_n _) P H1) as [g2 [R [G1 G2]]]. exists g2. split.
        * intros q. destruct (in_dec (list_eq_dec (list_eq_dec Ascii.ascii_dec)) q (prefixes (job_folder j))) as [Hi|Hi]; [rewrite G1, H2 by exact Hi; reflexivity|rewrite G2, H3 by exact Hi; reflexivity].
        * apply reach_step. cbn [step]. rewrite E. exact R.
  Qed.
  (** The name. *)
  Lemma reach_numbers g k n : (forall m, k <= m < k + n -> look g (numbered (jpath j) m) <> None) -> reach (g, PNum k) (g, PNum (k + n)).
  Proof.
    revert k. induction n as [|n IH]; intros k H; [rewrite Nat.add_0_r; constructor|]. apply reach_step. cbn [step].
    assert (E : exists_ g (numbered (jpath j) k) = true) by (apply exists_look, H; lia). rewrite E. replace (k + S n) with (S k + n) by lia. apply IH. intros m Hm. apply H. lia.
  Qed.
  Lemma reach_name g q : fresh g (jpath j) q -> reach (g, PName) (g, name_known j q).
  Proof.
    intros [[L ->]|[L [n [-> [L2 A]]]]]; apply reach_step; cbn [step].
    - apply exists_look_false in L. rewrite L. constructor.
    - apply exists_look in L. rewrite L. apply (reach_trans _ (g, PNum n)); [apply (reach_numbers g 0 n); intros m Hm; apply A; lia|].
      apply reach_step. cbn [step]. apply exists_look_false in L2. rewrite L2. constructor.
  Qed.
  (** The content. *)
  Lemma reach_puts q cs : forall c (g : FS), look g q = Some (File c) -> q <> [] -> exists g', reach (g, put_next j q cs) (g', PEnd (jend j q)) /\ same_look g' ((q, File (List.last cs c)) :: g).
  Proof.
    induction cs as [|x cs IH]; intros c g L Nq.
    - exists g. split; [constructor|]. intros p. cbn [List.last]. destruct (list_eq_dec (list_eq_dec Ascii.ascii_dec) p q) as [->|Ne]; [now rewrite look_cons_same|now rewrite look_cons_other].
    - destruct (IH x ((q, File x) :: g) (look_cons_same g q _ Nq) Nq) as [g' [R S]]. exists g'. split; [apply reach_step; cbn [step]; exact R|].
      intros p. rewrite S. destruct (list_eq_dec (list_eq_dec Ascii.ascii_dec) p q) as [->|Ne].
      + rewrite !look_cons_same by exact Nq. f_equal. f_equal. destruct cs; [reflexivity|]. clear. revert c0. induction cs as [|y cs IH]; intros z; [reflexivity|]. cbn [List.last] in *. apply IH.
      + now rewrite !look_cons_other.
  Qed.
  Definition writes_like (w : path -> io FS path) : Prop := forall q g, candidate j q ->
    match jtrace j q with
    | [] => w q g = (g, jend j q)
    | c :: cs => match write_file q c g with
                 | (_, Ok _) => exists g', w q g = (g', jend j q) /\ same_look g' ((q, File (List.last cs c)) :: g)
                 | (_, Err e) => w q g = (g, Err (jfail j e))
                 end
    end.
  Lemma write_same q c (g h : FS) : same_look g h -> snd (write_file q c g) = snd (write_file q c h).
  Proof. intros S. unfold write_file. rewrite (S q), (S (parent q)). destruct (look h q) as [[]|]; destruct (look h (parent q)) as [[]|]; reflexivity. Qed.
  Lemma reach_write (w : path -> io FS path) q g h f' r : writes_like w -> same_look g h -> candidate j q -> w q h = (f', r) -> exists g', reach (g, name_known j q) (g', PEnd r) /\ same_look g' f'.
  Proof.
    intros W S Cq E. specialize (W q h Cq). unfold name_known. destruct (jtrace j q) as [|c cs].
    - rewrite E in W. injection W as -> ->. exists g. split; [constructor|exact S].
    - pose proof (write_same q c g h S) as Ws. destruct (write_file q c h) as [h' [[]|e]] eqn:Eh; cbn [snd] in Ws.
      + destruct W as [h2 [W1 W2]]. rewrite E in W1. injection W1 as <- ->. destruct (write_file q c g) as [g1 s] eqn:Eg. cbn [snd] in Ws. subst s.
        destruct (write_file_spec _ _ _ _ _ Eg) as [[e [H _]]|[_ [-> [Nq _]]]]; [discriminate|].
        destruct (reach_puts q cs c ((q, File c) :: g) (look_cons_same g q _ Nq) Nq) as [g' [R S']]. exists g'. split.
        * apply reach_step. cbn [step]. rewrite Eg. exact R.
        * intros p. rewrite S', W2. destruct (list_eq_dec (list_eq_dec Ascii.ascii_dec) p q) as [->|Ne]; [now rewrite !look_cons_same|]. now rewrite !look_cons_other.
      + rewrite E in W. injection W as -> ->. destruct (write_file q c g) as [g1 s] eqn:Eg. cbn [snd] in Ws. subst s. exists g. split; [|exact S].
        pose proof (reach_one g (POpen q c cs)) as R. cbn [step] in R. now rewrite Eg in R.
  Qed.
  Lemma fresh_same (g h : FS) p q : same_look g h -> fresh h p q -> fresh g p q.
  Proof.
    intros S [[A ->]|[A [n [-> [B D]]]]]; [left; now rewrite S|right]. rewrite S. split; [exact A|]. exists n. rewrite S. repeat split; [exact B|]. intros m Hm. rewrite S. now apply D.
  Qed.
  Lemma reach_saver w f f' r : proper f -> writes_like w -> saver (jpath j) (jover j) w f = (f', r) -> exists g, reach (f, PFolder) (g, PEnd r) /\ same_look g f'.
  Proof.
    intros P W. unfold saver, ibind at 1. destruct (create_folder (jpath j) f) as [f1 s] eqn:E. destruct (reach_folder f f1 s P E) as [g1 [S1 R1]].
    destruct s as [[]|e].
    - unfold ibind. unfold folder_done in R1. destruct (jover j) eqn:Ow.
      + unfold ret. intros H. destruct (reach_write w (jpath j) g1 f1 f' r W S1 (or_introl eq_refl) H) as [g [R2 S2]]. exists g. split; [now apply (reach_trans _ _ _ R1)|exact S2].
      + destruct (create_file_name_spec (jpath j) f1) as [q [-> Hq]]. intros H. destruct (reach_write w q g1 f1 f' r W S1 ltac:(destruct Hq as [[_ ->]|[_ [n [-> _]]]]; [now left|right; split; [exact Ow|now exists n]]) H) as [g [R2 S2]].
        exists g. split; [|exact S2]. apply (reach_trans _ _ _ R1). apply (reach_trans _ _ _ (reach_name g1 q (fresh_same _ _ _ _ S1 Hq)) R2).
    - intros H. injection H as <- <-. exists g1. split; [|exact S1].
      destruct (create_folder_spec _ _ _ _ E) as [_ [_ [[Z|Z] _]]]; [discriminate|]. injection Z as ->. exact R1.
  Qed.
  (** The same among other processes. *)
  Lemma replace_twice {A} i (x y : A) l : replace_nth i y (replace_nth i x l) = replace_nth i y l.
  Proof. revert i. induction l as [|z l IH]; intros [|i]; cbn; try reflexivity. now rewrite IH. Qed.
  Lemma replace_id {A} i (x : A) l : nth_error l i = Some x -> replace_nth i x l = l.
  Proof. revert i. induction l as [|z l IH]; intros [|i]; cbn; try discriminate; [intros H; injection H as ->; reflexivity|]. intros H. now rewrite IH. Qed.
  Lemma reach_world f c g c' i ps : reach (f, c) (g, c') -> nth_error ps i = Some (j, c) -> exists n, run (repeat i n) (f, ps) = (g, replace_nth i (j, c') ps).
  Proof.
    intros H. remember (f, c) as s. remember (g, c') as t. revert f c ps Heqs. induction H as [s|f1 c1 s H IH]; intros f c ps E Hn.
    - subst. injection E as -> ->. exists 0. cbn [repeat run fold_left]. now rewrite replace_id.
    - injection E as -> ->. destruct (step j c f) as [f2 c2] eqn:St.
      destruct (IH Heqt f2 c2 (replace_nth i (j, c2) ps) eq_refl (replace_nth_same _ _ _ _ Hn)) as [n Hr]. exists (S n). cbn [repeat].
      change (run (i :: repeat i n) (f, ps)) with (run (repeat i n) (act (f, ps) i)). rewrite (act_at _ _ _ _ _ Hn), St. cbn [fst snd]. rewrite Hr. now rewrite replace_twice.
  Qed.
End Solo.
