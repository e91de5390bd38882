(** Facts about paths, extensions and file-system operations. *)
From Coq Require Import Ascii String ZifyBool.
From Verif Require Import Base Text Fs.
Local Open Scope nat_scope.

(** *** Extensions *)
Definition no_dot (s : text) : Prop := Forall (fun c => c <> dot) s.

Lemma rfind_from_nodot s i b : no_dot s -> rfind_from i b s = b.
Proof.
  intros H. revert i b. induction H as [|c s Hc _ IH]; intros i b; [reflexivity|].
  cbn [rfind_from]. unfold aeqb. destruct (Ascii.eqb_spec c dot); [congruence|]. apply IH.
Qed.
Lemma rfind_from_app a e : no_dot e -> forall i b, rfind_from i b (a ++ dot :: e) = (i + Z.of_nat (List.length a))%Z.
Proof.
  intros He. induction a as [|c a IH]; intros i b; cbn [app rfind_from List.length].
  - unfold aeqb. rewrite Ascii.eqb_refl. rewrite rfind_from_nodot by assumption. lia.
  - rewrite IH. lia.
Qed.
Lemma rfind_dot_app a e : no_dot e -> rfind_dot (a ++ dot :: e) = Z.of_nat (List.length a).
Proof. intros H. unfold rfind_dot. rewrite rfind_from_app by assumption. lia. Qed.

(** Every text has no dot or splits at its last dot. *)
Lemma last_dot s : no_dot s \/ exists a e, s = a ++ dot :: e /\ no_dot e.
Proof.
  induction s as [|c s IH]; [left; constructor|].
  destruct IH as [IH|[a [e [-> He]]]].
  - destruct (Ascii.eqb_spec c dot) as [->|E].
    + right. exists [], s. auto.
    + left. constructor; assumption.
  - right. exists (c :: a), e. auto.
Qed.

Lemma suffix_of_app a e : a <> [] -> e <> [] -> no_dot e ->
  suffix_of (a ++ dot :: e) = dot :: e /\ stem_of (a ++ dot :: e) = a.
Proof.
  intros Ha He Hd. unfold suffix_of, stem_of, has_suffix. rewrite rfind_dot_app by assumption.
  rewrite app_length. cbn [List.length].
  replace ((0 <? Z.of_nat (List.length a)) && (Z.of_nat (List.length a) <? Z.of_nat (List.length a + S (List.length e)) - 1))%Z with true.
  - rewrite Nat2Z.id. rewrite skipn_app, firstn_app, skipn_all, firstn_all, Nat.sub_diag.
    cbn. now rewrite app_nil_r.
  - symmetry. destruct a; [congruence|]. destruct e; [congruence|]. cbn [List.length]. lia.
Qed.
Lemma suffix_of_cases s :
  (suffix_of s = [] /\ stem_of s = s) \/
  exists a e, s = a ++ dot :: e /\ a <> [] /\ e <> [] /\ no_dot e /\ suffix_of s = dot :: e /\ stem_of s = a.
Proof.
  destruct (last_dot s) as [H|[a [e [-> He]]]].
  - left. unfold suffix_of, stem_of, has_suffix, rfind_dot. rewrite rfind_from_nodot by assumption. auto.
  - destruct a as [|c a].
    + left. unfold suffix_of, stem_of, has_suffix. rewrite rfind_dot_app by assumption. auto.
    + destruct e as [|d e].
      * left. unfold suffix_of, stem_of, has_suffix. rewrite rfind_dot_app by assumption.
        rewrite app_length. cbn [List.length].
        replace ((0 <? Z.of_nat (S (List.length a))) && (Z.of_nat (S (List.length a)) <? Z.of_nat (S (List.length a) + 1) - 1))%Z
          with false by (symmetry; lia). auto.
      * right. exists (c :: a), (d :: e).
        destruct (suffix_of_app (c :: a) (d :: e)) as [E1 E2]; try discriminate; try assumption.
        repeat split; try assumption; discriminate.
Qed.
Lemma stem_suffix s : stem_of s ++ suffix_of s = s.
Proof.
  destruct (suffix_of_cases s) as [[-> ->]|[a [e [-> [_ [_ [_ [-> ->]]]]]]]]; [apply app_nil_r|reflexivity].
Qed.
Lemma stem_nonempty s : s <> [] -> stem_of s <> [].
Proof. destruct (suffix_of_cases s) as [[_ ->]|[a [e [-> [H [_ [_ [_ ->]]]]]]]]; auto. Qed.
Lemma suffix_nodot s : suffix_of s = [] \/ exists e, suffix_of s = dot :: e /\ e <> [] /\ no_dot e.
Proof.
  destruct (suffix_of_cases s) as [[-> _]|[a [e [_ [_ [H1 [H2 [H3 _]]]]]]]]; [now left|right; eauto].
Qed.
(** Putting an extension (or none) back behind another stem. *)
Lemma suffix_of_new a ext : a <> [] ->
  (exists e, ext = dot :: e /\ e <> [] /\ no_dot e) -> suffix_of (a ++ ext) = ext /\ stem_of (a ++ ext) = a.
Proof. intros Ha [e [-> [He Hd]]]. now apply suffix_of_app. Qed.

Lemma split_last_name (p : path) : p <> [] -> p = parent p ++ [pname p].
Proof. intros H. unfold parent, pname. now apply app_removelast_last. Qed.
Lemma parent_app d c : parent (d ++ [c]) = d.
Proof. unfold parent. apply removelast_last. Qed.
Lemma pname_app d c : pname (d ++ [c]) = c.
Proof. unfold pname. apply last_last. Qed.
Lemma parent_length p : p <> [] -> List.length p = S (List.length (parent p)).
Proof. intros H. rewrite (split_last_name p H) at 1. rewrite app_length. cbn. lia. Qed.

Lemma with_suffix_ok p ext q : (exists e, ext = dot :: e /\ e <> [] /\ no_dot e) ->
  with_suffix p ext = Ok q ->
  q = parent p ++ [stem p ++ ext] /\ suffix q = ext /\ stem q = stem p /\ parent q = parent p /\ pname p <> [].
Proof.
  intros He. unfold with_suffix. destruct (pname p) as [|c n] eqn:E; [discriminate|].
  intros H. injection H as <-. split; [reflexivity|].
  unfold suffix, stem. rewrite pname_app, parent_app.
  destruct (suffix_of_new (stem_of (pname p)) ext) as [A B].
  - apply stem_nonempty. rewrite E. discriminate.
  - exact He.
  - rewrite E in *. repeat split; auto; discriminate.
Qed.

(** *** Looking up *)
Section Look.
  Context {C : Type}.
  Implicit Types f : fs C.

  Lemma look_cons_same f (p : path) n : p <> [] -> look ((p, n) :: f) p = Some n.
  Proof.
    intros H. destruct p as [|c p]; [congruence|]. unfold look. cbn [assoc].
    now rewrite (proj2 (path_eqb_eq _ _) eq_refl).
  Qed.
  Lemma look_cons_other f (p q : path) n : p <> q -> look ((q, n) :: f) p = look f p.
  Proof.
    intros H. destruct p as [|c p]; [reflexivity|]. unfold look. cbn [assoc].
    destruct (path_eqb_spec (c :: p) q); [congruence|reflexivity].
  Qed.
  Lemma exists_look f p : exists_ f p = true <-> look f p <> None.
  Proof. unfold exists_. destruct (look f p); split; congruence. Qed.
  Lemma exists_look_false f p : exists_ f p = false <-> look f p = None.
  Proof. unfold exists_. destruct (look f p); split; congruence. Qed.
  Lemma look_in f p n : p <> [] -> look f p = Some n -> In p (map fst f).
  Proof.
    intros Hp. unfold look. destruct p as [|c p]; [congruence|]. set (q := c :: p).
    induction f as [|[r m] f IH]; cbn [assoc map fst]; [discriminate|].
    destruct (path_eqb_spec q r) as [->|E]; [intros _; now left|]. right. auto.
  Qed.

  (** Everything that existed is still there with the same content. *)
  Definition keeps f f' : Prop := forall p n, look f p = Some n -> look f' p = Some n.
  Lemma keeps_refl f : keeps f f. Proof. intros p n H. exact H. Qed.
  Lemma keeps_trans f g h : keeps f g -> keeps g h -> keeps f h.
  Proof. intros A B p n H. apply B, A, H. Qed.

  (** *** Making directories *)
  Lemma prefixes_from_in pre p q : In q (prefixes_from pre p) ->
    exists a b, p = a ++ b /\ a <> [] /\ q = pre ++ a.
  Proof.
    revert pre. induction p as [|x p IH]; intros pre; cbn [prefixes_from]; [easy|].
    intros [<-|H].
    - exists [x], p. repeat split; congruence.
    - destruct (IH _ H) as [a [b [-> [Ha ->]]]]. exists (x :: a), b. repeat split; [discriminate|].
      now rewrite <- app_assoc.
  Qed.
  Lemma prefixes_in p q : In q (prefixes p) -> exists b, p = q ++ b /\ q <> [].
  Proof. intros H. destruct (prefixes_from_in _ _ _ H) as [a [b [-> [Ha ->]]]]. exists b. auto. Qed.
  Lemma prefixes_from_all pre p a b : p = a ++ b -> a <> [] -> In (pre ++ a) (prefixes_from pre p).
  Proof.
    revert pre a. induction p as [|x p IH]; intros pre a E Ha.
    - destruct a; [congruence|discriminate].
    - destruct a as [|y a]; [congruence|]. injection E as -> E. cbn [prefixes_from].
      destruct a as [|z a]; [now left|]. right.
      change (pre ++ y :: z :: a) with (pre ++ [y] ++ z :: a). rewrite (app_assoc pre [y] (z :: a)). apply IH; [exact E|discriminate].
  Qed.
  Lemma prefixes_all p a b : p = a ++ b -> a <> [] -> In a (prefixes p).
  Proof. intros E Ha. now apply (prefixes_from_all [] p a b). Qed.

  Definition mkstep := (fun (g : fs C) q => if exists_ g q then g else (q, Dir) :: g).
  Lemma mk_fold l : forall f, (forall q, In q l -> q <> []) ->
    let f' := fold_left mkstep l f in
    (forall q, In q l -> look f' q = match look f q with Some n => Some n | None => Some Dir end) /\
    (forall q, ~ In q l -> look f' q = look f q).
  Proof.
    induction l as [|x l IH]; intros f Hne; cbn [fold_left]; [split; [easy|reflexivity]|].
    destruct (IH (mkstep f x)) as [A B]; [intros q Hq; apply Hne; now right|].
    assert (S : forall q, look (mkstep f x) q = if path_eqb q x then (match look f q with Some n => Some n | None => Some Dir end) else look f q).
    { intros q. unfold mkstep. destruct (exists_ f x) eqn:E.
      - destruct (path_eqb_spec q x) as [->|]; [|reflexivity]. apply exists_look in E.
        destruct (look f x); congruence.
      - apply exists_look_false in E. destruct (path_eqb_spec q x) as [->|Hq].
        + rewrite E. apply look_cons_same. apply Hne. now left.
        + now apply look_cons_other. }
    split.
    - intros q Hq. destruct (in_dec (list_eq_dec (list_eq_dec Ascii.ascii_dec)) q l) as [Hl|Hl].
      + rewrite A by assumption. rewrite S. destruct (path_eqb q x); [|reflexivity].
        destruct (look f q); reflexivity.
      + rewrite B by assumption. destruct Hq as [->|]; [|contradiction]. rewrite S.
        now rewrite (proj2 (path_eqb_eq _ _) eq_refl).
    - intros q Hq. rewrite B by (intros H; apply Hq; now right). rewrite S.
      destruct (path_eqb_spec q x) as [->|]; [|reflexivity]. destruct Hq. now left.
  Qed.

  Lemma mkdir_p_spec p f f' r : mkdir_p p f = (f', r) ->
    (r = Err OSError /\ f' = f /\ exists q, In q (prefixes p) /\ is_file f q = true) \/
    (r = Ok tt /\ (forall q, In q (prefixes p) -> is_file f q = false) /\
     (forall q, In q (prefixes p) -> look f' q = Some Dir) /\
     (forall q, ~ In q (prefixes p) -> look f' q = look f q)).
  Proof.
    unfold mkdir_p. destruct (existsb (is_file f) (prefixes p)) eqn:E; intros H; injection H as <- <-.
    - left. apply existsb_exists in E. destruct E as [q [Hq Hf]]. eauto.
    - right. assert (F : forall q, In q (prefixes p) -> is_file f q = false).
      { intros q Hq. destruct (is_file f q) eqn:Ef; [|reflexivity].
        assert (existsb (is_file f) (prefixes p) = true) by (apply existsb_exists; eauto). congruence. }
      destruct (mk_fold (prefixes p) f) as [A B].
      { intros q Hq. destruct (prefixes_in _ _ Hq) as [_ [_ H]]. exact H. }
      repeat split; auto.
      intros q Hq. unfold mkstep in A. rewrite A by assumption.
      pose proof (F q Hq) as Fq. unfold is_file in Fq. destruct (look f q) as [[]|]; congruence.
  Qed.

  (** *** Writing *)
  Lemma write_file_spec p c f f' r : write_file p c f = (f', r) ->
    (exists e, r = Err e /\ f' = f) \/
    (r = Ok tt /\ f' = (p, File c) :: f /\ p <> [] /\ look f p <> Some Dir /\ look f (parent p) = Some Dir).
  Proof.
    unfold write_file. destruct p as [|x p].
    - cbn. intros H. injection H as <- <-. eauto.
    - set (q := x :: p). destruct (look f q) as [[|c']|] eqn:E1;
      destruct (look f (parent q)) as [[|c'']|] eqn:E2; intros H; injection H as <- <-; eauto 7;
      right; repeat split; try assumption; try discriminate; congruence.
  Qed.
End Look.

(** *** Path strings *)
Definition good_comp (c : text) : Prop :=
  c <> [] /\ Forall (fun x => x <> "/"%char) c /\ c <> lit "." /\ c <> lit "..".

Lemma split_slash_chars cur s c : In c (split_slash cur s) -> Forall (fun x => x <> "/"%char) cur ->
  Forall (fun x => x <> "/"%char) c.
Proof.
  revert cur. induction s as [|x s IH]; intros cur; cbn [split_slash].
  - intros [<-|[]]. auto.
  - unfold aeqb. destruct (Ascii.eqb_spec x "/"%char) as [E|E].
    + intros [<-|H] Hc; [exact Hc|]. apply (IH [] H). constructor.
    + intros H Hc. apply (IH _ H). apply Forall_app. split; [exact Hc|]. now repeat constructor.
Qed.
Lemma resolve_good cwd s : Forall good_comp cwd -> Forall good_comp (resolve cwd s).
Proof.
  intros Hc. unfold resolve.
  assert (H : forall l p, Forall good_comp p -> (forall c, In c l -> Forall (fun x => x <> "/"%char) c) ->
            Forall good_comp (fold_left step_dir l p)).
  { induction l as [|c l IH]; intros p Hp Hl; cbn [fold_left]; [exact Hp|].
    apply IH; [|intros d Hd; apply Hl; now right]. unfold step_dir.
    destruct (teqb c []) eqn:E1; [exact Hp|]. destruct (teqb c (lit ".")) eqn:E2; [exact Hp|].
    destruct (teqb c (lit "..")) eqn:E3; cbn [orb].
    - destruct p as [|x p]; [constructor|]. rewrite (split_last_name (x :: p)) in Hp by discriminate.
      apply Forall_app in Hp. apply Hp.
    - apply Forall_app. split; [exact Hp|]. constructor; [|constructor].
      repeat split.
      + intros ->. rewrite teqb_refl in E1. discriminate.
      + apply Hl. now left.
      + intros ->. rewrite teqb_refl in E2. discriminate.
      + intros ->. rewrite teqb_refl in E3. discriminate. }
  apply H.
  - destruct s as [|c s]; [exact Hc|]. destruct (aeqb c "/"); [constructor|exact Hc].
  - intros c Hin. eapply split_slash_chars; [exact Hin|constructor].
Qed.

Lemma split_slash_comp cur c s : Forall (fun x => x <> "/"%char) c ->
  split_slash cur (c ++ s) = split_slash (cur ++ c) s.
Proof.
  intros H. revert cur. induction H as [|x c Hx _ IH]; intros cur; cbn [app split_slash].
  - now rewrite app_nil_r.
  - unfold aeqb. destruct (Ascii.eqb_spec x "/"%char); [congruence|]. rewrite IH. now rewrite <- app_assoc.
Qed.
Lemma split_slash_posix p : Forall good_comp p -> forall cur,
  split_slash cur (flat_map (fun c => "/"%char :: c) p) = cur :: p.
Proof.
  induction 1 as [|c p Hc _ IH]; intros cur; cbn [flat_map]; [reflexivity|].
  cbn [app split_slash]. change (aeqb "/" "/") with true. cbv iota. f_equal.
  rewrite split_slash_comp by apply Hc. cbn [app]. apply IH.
Qed.
Lemma step_good p c : good_comp c -> step_dir p c = p ++ [c].
Proof.
  intros [A [_ [B D]]]. unfold step_dir.
  destruct (teqb c []) eqn:E1; [apply teqb_eq in E1; congruence|].
  destruct (teqb c (lit ".")) eqn:E2; [apply teqb_eq in E2; congruence|].
  destruct (teqb c (lit "..")) eqn:E3; [apply teqb_eq in E3; congruence|]. reflexivity.
Qed.
