(** Lemmas about JSON texts that json.dump did not write (C103). *)
From Coq Require Import Ascii String ZifyBool Lia.
From Verif Require Import Base Text Json JsonFacts JsonSpec.
Local Open Scope nat_scope.

Lemma json_blank_iff c : json_blank c <-> jws c = true.
Proof.
  unfold json_blank, jws, aeqb. rewrite !Bool.orb_true_iff, !Ascii.eqb_eq. cbn [In]. split.
  - intros H. assert (E : c = ascii_of_nat (nat_of_ascii c)) by now rewrite ascii_nat_embedding.
    destruct H as [H|[H|[H|[H|[]]]]]; rewrite <- H in E; rewrite E; auto.
  - intros [[[->| ->]| ->]| ->]; vm_compute; auto.
Qed.
Lemma blanks_iff w : blanks w <-> Forall (fun c => jws c = true) w.
Proof. unfold blanks. split; apply Forall_impl; intros c; apply json_blank_iff. Qed.
Lemma mark_iff c : json_mark c <-> delim c = true.
Proof.
  unfold json_mark, delim. rewrite json_blank_iff. unfold aeqb. rewrite !Bool.orb_true_iff, !Ascii.eqb_eq.
  cbn [lit list_ascii_of_string In]. intuition auto; subst; auto 10.
Qed.
Lemma no_mark_iff t : Forall (fun c => ~ json_mark c) t <-> Forall (fun c => delim c = false) t.
Proof.
  split; apply Forall_impl; intros c.
  - rewrite mark_iff. now destruct (delim c).
  - rewrite mark_iff. congruence.
Qed.
Lemma blanks_okrest w s : blanks w -> okrest s -> okrest (w ++ s).
Proof. intros [|c v H _] Hs; [exact Hs|]. apply json_blank_iff in H. cbn. now apply jws_delim. Qed.

Lemma Forall2_r {A B} (P : A -> B -> Prop) l m b : Forall2 P l m -> In b m -> exists a, In a l /\ P a b.
Proof. induction 1 as [|a b' l m H _ IH]; intros I; [destruct I|]. destruct I as [->|I]; [exists a; split; [now left|exact H]|]. destruct (IH I) as [a' [J Q]]. exists a'. split; [now right|exact Q]. Qed.

Section Facts.
  Context {T : Type}.
  Variable parse_float : text -> option T.
  Notation scalar := (scalar parse_float). Notation pval := (pval parse_float).
  Notation pelems := (pelems parse_float). Notation pmembers := (pmembers parse_float).
  Notation json_text := (json_text parse_float). Notation json_items := (json_items parse_float).
  Notation json_members := (json_members parse_float).

  Lemma float_scalar t x : float_word parse_float t x -> scalar t = Some (JFloat x).
  Proof.
    intros [_ [_ [N [Z P]]]]. unfold Json.scalar. cbn [In] in N. rewrite Z, P.
    destruct (teqb t (lit "null")) eqn:E1; [apply teqb_eq in E1; exfalso; apply N; auto|].
    destruct (teqb t (lit "true")) eqn:E2; [apply teqb_eq in E2; exfalso; apply N; auto|].
    destruct (teqb t (lit "false")) eqn:E3; [apply teqb_eq in E3; exfalso; apply N; auto|]. reflexivity.
  Qed.
  (** The first character of a value. *)
  Lemma text_head t v : json_text t v -> exists c s, t = c :: s /\ jws c = false /\ c <> "]"%char /\ c <> "}"%char.
  Proof.
    assert (S : forall a : text, Forall (fun c => delim c = false) a -> a <> [] ->
      exists c s, a = c :: s /\ jws c = false /\ c <> "]"%char /\ c <> "}"%char).
    { intros [|c a] Ha Hne; [congruence|]. inversion_clear Ha. exists c, a. split; [reflexivity|]. split; [|split].
      - destruct (jws c) eqn:E; [apply jws_delim in E; congruence|reflexivity].
      - intros ->. discriminate.
      - intros ->. discriminate. }
    intros []; try (eexists _, _; split; [reflexivity|]; repeat split; discriminate).
    - apply S; apply zdec_chars.
    - destruct H as [N [M _]]. apply S; [now apply no_mark_iff|exact N].
  Qed.
  Lemma quote_head (a k s : text) : blanks a -> exists c r, skip (a ++ lit """" ++ k ++ s) = c :: r /\ c = """"%char.
  Proof. intros A. apply blanks_iff in A. rewrite skip_ws by exact A. eexists _, _. split; reflexivity. Qed.

  Lemma parse_all :
    (forall t v, json_text t v -> forall n w r, blanks w -> okrest r -> List.length t <= n -> pval n (w ++ t ++ r) = Some (v, r)) /\
    (forall t l, json_items t l -> forall n r, List.length t < n -> pelems n (t ++ "]"%char :: r) = Some (l, r)) /\
    (forall t l, json_members t l -> forall n r, List.length t < n -> pmembers n (t ++ "}"%char :: r) = Some (l, r)).
  Proof.
    apply json_all_ind.
    - intros z n w r Hw Hr Hn. destruct (zdec_chars z) as [A B]. destruct n; [destruct (zdec z); [congruence|cbn in Hn; lia]|].
      apply pval_scalar; auto; [now apply blanks_iff|apply scalar_zdec].
    - intros t x F n w r Hw Hr Hn. assert (F' := F). destruct F' as [Ne [M _]]. destruct n; [destruct t; [congruence|cbn in Hn; lia]|].
      apply pval_scalar; auto; [now apply blanks_iff|now apply no_mark_iff|now apply float_scalar].
    - intros n w r Hw Hr Hn. destruct n; [cbn in Hn; lia|]. apply pval_scalar; auto; [now apply blanks_iff|repeat constructor|discriminate].
    - intros n w r Hw Hr Hn. destruct n; [cbn in Hn; lia|]. apply pval_scalar; auto; [now apply blanks_iff|repeat constructor|discriminate].
    - intros n w r Hw Hr Hn. destruct n; [cbn in Hn; lia|]. apply pval_scalar; auto; [now apply blanks_iff|repeat constructor|discriminate].
    - intros w0 H0 n w r Hw Hr Hn. apply blanks_iff in H0, Hw. destruct n; [cbn in Hn; lia|]. cbn [Json.pval]. rewrite skip_ws by exact Hw.
      rewrite <- !app_assoc. cbn [lit list_ascii_of_string app]. rewrite skip_stop by reflexivity. change (aeqb "[" "[") with true. cbv iota.
      rewrite skip_ws by exact H0. rewrite skip_stop by reflexivity. reflexivity.
    - intros t l Ht IH n w r Hw Hr Hn. apply blanks_iff in Hw. rewrite !app_length in Hn. cbn [lit list_ascii_of_string List.length] in Hn.
      destruct n; [lia|]. cbn [Json.pval]. rewrite skip_ws by exact Hw.
      rewrite <- !app_assoc. cbn [lit list_ascii_of_string app]. rewrite skip_stop by reflexivity. change (aeqb "[" "[") with true. cbv iota.
      rewrite IH by lia.
      assert (E : exists c s, skip (t ++ "]"%char :: r) = c :: s /\ c <> "]"%char).
      { inversion Ht as [a t0 b v A T0 B|a t0 b u v l0 A T0 B U]; subst; apply blanks_iff in A; destruct (text_head _ _ T0) as [c [s [-> [J [C _]]]]];
          rewrite <- !app_assoc, skip_ws by exact A; cbn [app]; rewrite skip_stop by exact J; eauto. }
      destruct E as [c [s [-> C]]]. unfold aeqb. destruct (Ascii.eqb_spec c "]"%char); [congruence|reflexivity].
    - intros w0 H0 n w r Hw Hr Hn. apply blanks_iff in H0, Hw. destruct n; [cbn in Hn; lia|]. cbn [Json.pval]. rewrite skip_ws by exact Hw.
      rewrite <- !app_assoc. cbn [lit list_ascii_of_string app]. rewrite skip_stop by reflexivity. change (aeqb "{" "[") with false. change (aeqb "{" "{") with true. cbv iota.
      rewrite skip_ws by exact H0. rewrite skip_stop by reflexivity. reflexivity.
    - intros t l Ht IH n w r Hw Hr Hn. apply blanks_iff in Hw. rewrite !app_length in Hn. cbn [lit list_ascii_of_string List.length] in Hn.
      destruct n; [lia|]. cbn [Json.pval]. rewrite skip_ws by exact Hw.
      rewrite <- !app_assoc. cbn [lit list_ascii_of_string app]. rewrite skip_stop by reflexivity. change (aeqb "{" "[") with false. change (aeqb "{" "{") with true. cbv iota.
      rewrite IH by lia.
      assert (E : exists s, skip (t ++ "}"%char :: r) = """"%char :: s).
      { inversion Ht as [a k b c t0 d v A|a k b c t0 d u v l0 A]; subst; apply blanks_iff in A; rewrite <- !app_assoc, skip_ws by exact A; eexists; reflexivity. }
      destruct E as [s ->]. reflexivity.
    - intros a t b v A Ht IH B n r Hn. rewrite !app_length in Hn. destruct n; [lia|]. cbn [Json.pelems]. rewrite <- !app_assoc.
      rewrite IH; [|exact A|now apply blanks_okrest|lia]. apply blanks_iff in B. rewrite skip_ws by exact B. rewrite skip_stop by reflexivity. reflexivity.
    - intros a t b u v l A Ht IH B Hu IHu n r Hn. rewrite !app_length in Hn. cbn [lit list_ascii_of_string List.length] in Hn. destruct n; [lia|]. cbn [Json.pelems]. rewrite <- !app_assoc.
      rewrite IH; [|exact A|now apply blanks_okrest|lia]. apply blanks_iff in B. rewrite skip_ws by exact B. cbn [lit list_ascii_of_string app]. rewrite skip_stop by reflexivity.
      change (aeqb "," "]") with false. change (aeqb "," ",") with true. cbv iota. rewrite IHu by lia. reflexivity.
    - intros a k b c t d v A K B C Ht IH D n r Hn. rewrite !app_length in Hn. cbn [lit list_ascii_of_string List.length] in Hn. destruct n; [lia|]. cbn [Json.pmembers]. rewrite <- !app_assoc.
      apply blanks_iff in A, B, D. rewrite skip_ws by exact A. cbn [lit list_ascii_of_string app]. rewrite skip_stop by reflexivity. change (negb (aeqb """" """")) with false. cbv iota.
      rewrite pkey_ok by (eapply Forall_impl; [|exact K]; intros q Q; apply Q). rewrite skip_ws by exact B. rewrite skip_stop by reflexivity. change (negb (aeqb ":" ":")) with false. cbv iota.
      rewrite IH; [|exact C|apply blanks_okrest; [now apply blanks_iff|reflexivity]|lia]. rewrite skip_ws by exact D. rewrite skip_stop by reflexivity. reflexivity.
    - intros a k b c t d u v l A K B C Ht IH D Hu IHu n r Hn. rewrite !app_length in Hn. cbn [lit list_ascii_of_string List.length] in Hn. destruct n; [lia|]. cbn [Json.pmembers]. rewrite <- !app_assoc.
      apply blanks_iff in A, B, D. rewrite skip_ws by exact A. cbn [lit list_ascii_of_string app]. rewrite skip_stop by reflexivity. change (negb (aeqb """" """")) with false. cbv iota.
      rewrite pkey_ok by (eapply Forall_impl; [|exact K]; intros q Q; apply Q). rewrite skip_ws by exact B. rewrite skip_stop by reflexivity. change (negb (aeqb ":" ":")) with false. cbv iota.
      rewrite IH; [|exact C|apply blanks_okrest; [now apply blanks_iff|reflexivity]|lia]. rewrite skip_ws by exact D. rewrite skip_stop by reflexivity.
      change (aeqb "," "}") with false. change (aeqb "," ",") with true. cbv iota. rewrite IHu by lia. reflexivity.
  Qed.
  Lemma parse_text t v w1 w2 : json_text t v -> blanks w1 -> blanks w2 -> loads parse_float (w1 ++ t ++ w2) = Some v.
  Proof.
    intros H A B. unfold loads. rewrite (proj1 parse_all t v H); [|exact A|rewrite <- (app_nil_r w2); apply blanks_okrest; [exact B|exact I]|rewrite !app_length; lia].
    apply blanks_iff in B. rewrite <- (app_nil_r w2), skip_ws by exact B. reflexivity.
  Qed.

  (** *** Translation of line ends *)
  Lemma newlines_other c s : c <> CR -> univ_newlines (c :: s) = c :: univ_newlines s.
  Proof. intros H. cbn [univ_newlines]. unfold aeqb. destruct (Ascii.eqb_spec c CR); congruence. Qed.
  Lemma newlines_others a s : Forall (fun c => c <> CR) a -> univ_newlines (a ++ s) = a ++ univ_newlines s.
  Proof. induction 1 as [|c a H _ IH]; [reflexivity|]. cbn [app]. now rewrite newlines_other, IH. Qed.
  Definition no_lf (s : text) : Prop := match s with c :: _ => c <> LF | [] => True end.
  Lemma newlines_ind (P : list ascii -> Prop) : P [] -> (forall c s, c <> CR -> P s -> P (c :: s)) ->
    (forall s, P s -> P (CR :: LF :: s)) -> (forall s, no_lf s -> P s -> P (CR :: s)) -> forall s : list ascii, P s.
  Proof.
    intros H0 H1 H2 H3 s. remember (List.length s) as n eqn:En. revert s En. induction n as [n IH] using lt_wf_ind. intros s En. destruct s as [|c s]; [exact H0|].
    destruct (ascii_dec c CR) as [->|C].
    - destruct s as [|d s]; [apply H3; [exact I|exact H0]|]. destruct (ascii_dec d LF) as [->|D].
      + apply H2. apply (IH (List.length s)); [cbn in En; lia|reflexivity].
      + apply H3; [exact D|]. apply (IH (List.length (d :: s))); [cbn in *; lia|reflexivity].
    - apply H1; [exact C|]. apply (IH (List.length s)); [cbn in En; lia|reflexivity].
  Qed.
  Lemma newlines_cr s : no_lf s -> univ_newlines (CR :: s) = LF :: univ_newlines s.
  Proof. intros H. destruct s as [|d s]; [reflexivity|]. cbn in H. cbn [univ_newlines]. change (aeqb CR CR) with true. cbv iota. unfold aeqb. destruct (Ascii.eqb_spec d LF) as [E|E]; [exfalso; apply H; exact E|reflexivity]. Qed.
  Lemma newlines_app a s : no_lf s -> univ_newlines (a ++ s) = univ_newlines a ++ univ_newlines s.
  Proof.
    intros Hs. induction a as [|c a C IH|a IH|a N IH] using newlines_ind.
    - reflexivity.
    - cbn [app]. now rewrite !newlines_other, IH.
    - cbn [app]. change (LF :: univ_newlines (a ++ s) = LF :: univ_newlines a ++ univ_newlines s). now rewrite IH.
    - cbn [app]. rewrite !newlines_cr, IH; [reflexivity|exact N|]. destruct a; [exact Hs|exact N].
  Qed.
  Lemma newlines_blank w : blanks w -> blanks (univ_newlines w).
  Proof.
    assert (L : json_blank LF) by (right; now left). induction w as [|c w C IH|w IH|w N IH] using newlines_ind; intros B.
    - exact B.
    - rewrite newlines_other by exact C. inversion_clear B. constructor; auto. now apply IH.
    - inversion_clear B. inversion_clear H0. constructor; [exact L|]. now apply IH.
    - inversion_clear B. rewrite newlines_cr by exact N. constructor; [exact L|]. now apply IH.
  Qed.
  Lemma newlines_prefix a x : exists y, univ_newlines (a ++ x) = univ_newlines a ++ y.
  Proof.
    induction a as [|c a C [y IH]|a [y IH]|a N [y IH]] using newlines_ind.
    - now exists (univ_newlines x).
    - exists y. cbn [app]. now rewrite !newlines_other, IH.
    - exists y. cbn [app]. change (LF :: univ_newlines (a ++ x) = LF :: univ_newlines a ++ y). now rewrite IH.
    - destruct a as [|d a].
      + cbn [app]. destruct x as [|d x]; [now exists []|]. destruct (ascii_dec d LF) as [->|D].
        * exists (univ_newlines x). reflexivity.
        * exists (univ_newlines (d :: x)). now rewrite newlines_cr.
      + exists y. cbn [app] in *. rewrite !newlines_cr by exact N. now rewrite IH.
  Qed.
  Lemma not_mark_cr c : ~ json_mark c -> c <> CR.
  Proof. intros H ->. apply H. apply mark_iff. reflexivity. Qed.
  Lemma not_ws_lf c : jws c = false -> c <> LF.
  Proof. intros H ->. discriminate H. Qed.
  Lemma text_no_lf t v s : json_text t v -> no_lf (t ++ s).
  Proof. intros H. destruct (text_head _ _ H) as [c [r [-> [J _]]]]. cbn. now apply not_ws_lf. Qed.

  Lemma key_no_cr k : json_key k -> Forall (fun c => c <> CR) k.
  Proof. intros H. eapply Forall_impl; [|exact H]. intros c [_ [_ L]] ->. vm_compute in L. lia. Qed.
  Lemma newlines_app_end a c s : c <> CR -> univ_newlines ((a ++ [c]) ++ s) = univ_newlines (a ++ [c]) ++ univ_newlines s.
  Proof.
    intros Hc. induction a as [|d a D IH|a IH|a N IH] using newlines_ind.
    - cbn [app]. now rewrite !newlines_other.
    - cbn [app] in *. rewrite !newlines_other, IH; auto.
    - cbn [app] in *. change (LF :: univ_newlines ((a ++ [c]) ++ s) = LF :: univ_newlines (a ++ [c]) ++ univ_newlines s). now rewrite IH.
    - destruct (ascii_dec c LF) as [->|E].
      + destruct a as [|d a]; [reflexivity|]. cbn [app] in *. rewrite !newlines_cr by exact N. now rewrite IH.
      + cbn [app] in *. rewrite !newlines_cr, IH; [reflexivity|destruct a; [exact E|exact N]..].
  Qed.
  Lemma last_of (t : text) (Q : ascii -> Prop) : t <> [] -> Forall Q t -> exists a c, t = a ++ [c] /\ Q c.
  Proof. intros N F. destruct (exists_last N) as [a [c ->]]. apply Forall_app in F. destruct F as [_ F]. inversion_clear F. eauto. Qed.
  Lemma text_last t v : json_text t v -> exists a c, t = a ++ [c] /\ c <> CR.
  Proof.
    intros [].
    - destruct (zdec_chars z) as [A B]. destruct (last_of _ _ B A) as [a [c [-> C]]]. exists a, c. split; [reflexivity|]. intros ->. discriminate C.
    - destruct H as [A [B _]]. destruct (last_of _ _ A B) as [a [c [-> C]]]. exists a, c. split; [reflexivity|]. now apply not_mark_cr.
    - exists (lit "nul"), "l"%char. split; [reflexivity|discriminate].
    - exists (lit "tru"), "e"%char. split; [reflexivity|discriminate].
    - exists (lit "fals"), "e"%char. split; [reflexivity|discriminate].
    - exists (lit "[" ++ w), "]"%char. rewrite app_assoc. split; [reflexivity|discriminate].
    - exists (lit "[" ++ t0), "]"%char. rewrite app_assoc. split; [reflexivity|discriminate].
    - exists (lit "{" ++ w), "}"%char. rewrite app_assoc. split; [reflexivity|discriminate].
    - exists (lit "{" ++ t0), "}"%char. rewrite app_assoc. split; [reflexivity|discriminate].
  Qed.
  Lemma newlines_after t v s : json_text t v -> univ_newlines (t ++ s) = univ_newlines t ++ univ_newlines s.
  Proof. intros H. destruct (text_last _ _ H) as [a [c [-> C]]]. now apply newlines_app_end. Qed.

  Lemma newlines_text :
    (forall t v, json_text t v -> json_text (univ_newlines t) v) /\
    (forall t l, json_items t l -> json_items (univ_newlines t) l) /\
    (forall t l, json_members t l -> json_members (univ_newlines t) l).
  Proof.
    assert (O : forall c s, c <> CR -> univ_newlines (lit (String c EmptyString) ++ s) = lit (String c EmptyString) ++ univ_newlines s).
    { intros c s H. cbn [lit list_ascii_of_string app]. now apply newlines_other. }
    apply json_all_ind.
    - intros z. rewrite univ_newlines_id; [constructor|]. eapply Forall_impl; [|apply zdec_chars]. intros c H ->. discriminate H.
    - intros t x F. rewrite univ_newlines_id; [now constructor|]. eapply Forall_impl; [|apply F]. exact not_mark_cr.
    - constructor.
    - constructor.
    - constructor.
    - intros w B. rewrite O, newlines_app by (cbn; discriminate). apply jt_no_items. now apply newlines_blank.
    - intros t l _ IH. rewrite O, newlines_app by (cbn; discriminate). now apply jt_items.
    - intros w B. rewrite O, newlines_app by (cbn; discriminate). apply jt_no_members. now apply newlines_blank.
    - intros t l _ IH. rewrite O, newlines_app by (cbn; discriminate). now apply jt_members.
    - intros a t b v A Ht IH B. rewrite newlines_app by (eapply text_no_lf; exact Ht). rewrite (newlines_after t v) by exact Ht. apply ji_last; auto using newlines_blank.
    - intros a t b u v l A Ht IH B Hu IHu. rewrite newlines_app by (eapply text_no_lf; exact Ht). rewrite (newlines_after t v) by exact Ht.
      rewrite (newlines_app b) by (cbn; discriminate). rewrite O by discriminate. apply ji_more; auto using newlines_blank.
    - intros a k b c t d v A K B C Ht IH D. rewrite newlines_app by (cbn; discriminate). rewrite O by discriminate. rewrite newlines_others by now apply key_no_cr. rewrite O by discriminate.
      rewrite (newlines_app b) by (cbn; discriminate). rewrite O by discriminate. rewrite (newlines_app c) by (eapply text_no_lf; exact Ht). rewrite (newlines_after t v) by exact Ht.
      apply jm_last; auto using newlines_blank.
    - intros a k b c t d u v l A K B C Ht IH D Hu IHu. rewrite newlines_app by (cbn; discriminate). rewrite O by discriminate. rewrite newlines_others by now apply key_no_cr. rewrite O by discriminate.
      rewrite (newlines_app b) by (cbn; discriminate). rewrite O by discriminate. rewrite (newlines_app c) by (eapply text_no_lf; exact Ht). rewrite (newlines_after t v) by exact Ht.
      rewrite (newlines_app d) by (cbn; discriminate). rewrite O by discriminate.
      apply jm_more; auto using newlines_blank.
  Qed.
  Lemma read_any_layout t v w1 w2 : json_text t v -> blanks w1 -> blanks w2 -> loads parse_float (univ_newlines (w1 ++ t ++ w2)) = Some v.
  Proof.
    intros H A B. rewrite newlines_app by (eapply text_no_lf; exact H). rewrite (newlines_after t v) by exact H.
    apply parse_text; auto using newlines_blank. now apply (proj1 newlines_text).
  Qed.

  (** *** More text, more fuel *)
  Lemma skip_cons s c r x : skip s = c :: r -> skip (s ++ x) = c :: r ++ x.
  Proof. induction s as [|d s IH]; [discriminate|]. cbn [skip app]. destruct (jws d); [exact IH|]. intros H. injection H as -> ->. reflexivity. Qed.
  Lemma token_more s k r x : token s = (k, r) -> r <> [] -> token (s ++ x) = (k, r ++ x).
  Proof.
    revert k r. induction s as [|d s IH]; intros k r; cbn [token app].
    - intros H N. injection H as <- <-. congruence.
    - destruct (delim d); [intros H N; injection H as <- <-; reflexivity|]. destruct (token s) as [a b] eqn:E. intros H N. injection H as <- <-. now rewrite (IH a b).
  Qed.
  Lemma pkey_more s k r x : pkey s = Some (k, r) -> pkey (s ++ x) = Some (k, r ++ x).
  Proof.
    revert k r. induction s as [|d s IH]; intros k r; cbn [pkey app]; [discriminate|]. destruct (aeqb d _); [intros H; injection H as <- <-; reflexivity|].
    destruct (pkey s) as [[a b]|]; [|discriminate]. intros H. injection H as <- <-. now rewrite (IH a b).
  Qed.
  Lemma pval_S n s : pval (S n) s = match skip s with
    | [] => None
    | c :: s1 => if aeqb c "[" then match skip s1 with
          | d :: s2 => if aeqb d "]" then Some (JList [], s2) else match pelems n s1 with Some (l, r) => Some (JList l, r) | None => None end
          | [] => None end
        else if aeqb c "{" then match skip s1 with
          | d :: s2 => if aeqb d "}" then Some (JObj [], s2) else match pmembers n s1 with Some (l, r) => Some (JObj l, r) | None => None end
          | [] => None end
        else let (tok, r) := token (c :: s1) in match scalar tok with Some v => Some (v, r) | None => None end
    end.
  Proof. reflexivity. Qed.
  Lemma pelems_S n s : pelems (S n) s = match pval n s with None => None | Some (v, r) => match skip r with
        | c :: r1 => if aeqb c "]" then Some ([v], r1) else if aeqb c "," then match pelems n r1 with Some (l, r2) => Some (v :: l, r2) | None => None end else None
        | [] => None end end.
  Proof. reflexivity. Qed.
  Lemma pmembers_S n s : pmembers (S n) s = match skip s with
        | q :: s1 => if negb (aeqb q """") then None else match pkey s1 with None => None | Some (k, s2) =>
            match skip s2 with c0 :: s3 => if negb (aeqb c0 ":") then None else
              match pval n s3 with None => None | Some (v, r) => match skip r with
                | c :: r1 => if aeqb c "}" then Some ([(k, v)], r1) else if aeqb c "," then match pmembers n r1 with Some (l, r2) => Some ((k, v) :: l, r2) | None => None end else None
                | [] => None end end
            | [] => None end end
        | [] => None end.
  Proof. reflexivity. Qed.
  Definition opens (s : text) : Prop := exists c r, skip s = c :: r /\ (c = "["%char \/ c = "{"%char).
  Lemma parse_more n :
    (forall s v r x, pval n s = Some (v, r) -> r <> [] \/ opens s -> pval n (s ++ x) = Some (v, r ++ x)) /\
    (forall s l r x, pelems n s = Some (l, r) -> pelems n (s ++ x) = Some (l, r ++ x)) /\
    (forall s l r x, pmembers n s = Some (l, r) -> pmembers n (s ++ x) = Some (l, r ++ x)).
  Proof.
    induction n as [|n [IHv [IHe IHm]]]; [split; [|split]; intros s; intros; match goal with H : _ s = _ |- _ => discriminate H end|]. split; [|split].
    - intros s v r x. rewrite !pval_S. destruct (skip s) as [|c s1] eqn:E; [discriminate|]. rewrite (skip_cons _ _ _ x E).
      destruct (aeqb c "[") eqn:B1; [|destruct (aeqb c "{") eqn:B2].
      + destruct (skip s1) as [|d s2] eqn:E1; [discriminate|]. rewrite (skip_cons _ _ _ x E1). destruct (aeqb d "]").
        * intros H _. injection H as <- <-. reflexivity.
        * destruct (pelems n s1) as [[l r']|] eqn:P; [|intros Bad; discriminate Bad]. intros H _. injection H as <- <-. now rewrite (IHe _ _ _ x P).
      + destruct (skip s1) as [|d s2] eqn:E1; [discriminate|]. rewrite (skip_cons _ _ _ x E1). destruct (aeqb d "}").
        * intros H _. injection H as <- <-. reflexivity.
        * destruct (pmembers n s1) as [[l r']|] eqn:P; [|intros Bad; discriminate Bad]. intros H _. injection H as <- <-. now rewrite (IHm _ _ _ x P).
      + intros H [N|[c' [r' [O O']]]].
        * destruct (token (c :: s1)) as [k r'] eqn:K. destruct (scalar k) as [v'|] eqn:S; [|discriminate H]. injection H as <- <-.
          change (c :: s1 ++ x) with ((c :: s1) ++ x). rewrite (token_more _ _ _ x K N), S. reflexivity.
        * exfalso. rewrite E in O. injection O as <- _. destruct O' as [->| ->]; [discriminate B1|discriminate B2].
    - intros s l r x. rewrite !pelems_S. destruct (pval n s) as [[v r0]|] eqn:P; [|intros Bad; discriminate Bad]. destruct (skip r0) as [|c r1] eqn:E; [discriminate|].
      rewrite (IHv _ _ _ x P) by (left; intros ->; discriminate E). rewrite (skip_cons _ _ _ x E).
      destruct (aeqb c "]"); [intros H; injection H as <- <-; reflexivity|]. destruct (aeqb c ","); [|intros Bad; discriminate Bad].
      destruct (pelems n r1) as [[l' r2]|] eqn:Q; [|intros Bad; discriminate Bad]. intros H. injection H as <- <-. now rewrite (IHe _ _ _ x Q).
    - intros s l r x. rewrite !pmembers_S. destruct (skip s) as [|q s1] eqn:E; [discriminate|]. rewrite (skip_cons _ _ _ x E).
      destruct (negb _); [discriminate|]. destruct (pkey s1) as [[k s2]|] eqn:K; [|intros Bad; discriminate Bad]. rewrite (pkey_more _ _ _ x K).
      destruct (skip s2) as [|c0 s3] eqn:E2; [discriminate|]. rewrite (skip_cons _ _ _ x E2). destruct (negb _); [discriminate|].
      destruct (pval n s3) as [[v r0]|] eqn:P; [|intros Bad; discriminate Bad]. destruct (skip r0) as [|c r1] eqn:E3; [discriminate|].
      rewrite (IHv _ _ _ x P) by (left; intros ->; discriminate E3). rewrite (skip_cons _ _ _ x E3).
      destruct (aeqb c "}"); [intros H; injection H as <- <-; reflexivity|]. destruct (aeqb c ","); [|intros Bad; discriminate Bad].
      destruct (pmembers n r1) as [[l' r2]|] eqn:Q; [|intros Bad; discriminate Bad]. intros H. injection H as <- <-. now rewrite (IHm _ _ _ x Q).
  Qed.
  Lemma parse_fuel n :
    (forall s v, pval n s = Some v -> pval (S n) s = Some v) /\
    (forall s l, pelems n s = Some l -> pelems (S n) s = Some l) /\
    (forall s l, pmembers n s = Some l -> pmembers (S n) s = Some l).
  Proof.
    induction n as [|n [IHv [IHe IHm]]]; [split; [|split]; intros s; intros; match goal with H : _ s = _ |- _ => discriminate H end|]. split; [|split].
    - intros s v. rewrite (pval_S (S n)), (pval_S n). destruct (skip s) as [|c s1]; [intros Bad; discriminate Bad|].
      destruct (aeqb c "["); [|destruct (aeqb c "{")]; [..|exact (fun H => H)].
      + destruct (skip s1) as [|d s2]; [intros Bad; discriminate Bad|]. destruct (aeqb d "]"); [exact (fun H => H)|].
        destruct (pelems n s1) as [[l r']|] eqn:P; [|intros Bad; discriminate Bad]. intros H. now rewrite (IHe _ _ P).
      + destruct (skip s1) as [|d s2]; [intros Bad; discriminate Bad|]. destruct (aeqb d "}"); [exact (fun H => H)|].
        destruct (pmembers n s1) as [[l r']|] eqn:P; [|intros Bad; discriminate Bad]. intros H. now rewrite (IHm _ _ P).
    - intros s l. rewrite (pelems_S (S n)), (pelems_S n).
      destruct (pval n s) as [[v r0]|] eqn:P; [|intros Bad; discriminate Bad]. rewrite (IHv _ _ P). destruct (skip r0) as [|c r1]; [intros Bad; discriminate Bad|].
      destruct (aeqb c "]"); [exact (fun H => H)|]. destruct (aeqb c ","); [|intros Bad; discriminate Bad].
      destruct (pelems n r1) as [[l' r2]|] eqn:Q; [|intros Bad; discriminate Bad]. now rewrite (IHe _ _ Q).
    - intros s l. rewrite (pmembers_S (S n)), (pmembers_S n). destruct (skip s) as [|q s1]; [intros Bad; discriminate Bad|].
      destruct (negb _); [intros Bad; discriminate Bad|]. destruct (pkey s1) as [[k s2]|]; [|intros Bad; discriminate Bad].
      destruct (skip s2) as [|c0 s3]; [intros Bad; discriminate Bad|]. destruct (negb _); [intros Bad; discriminate Bad|].
      destruct (pval n s3) as [[v r0]|] eqn:P; [|intros Bad; discriminate Bad]. rewrite (IHv _ _ P). destruct (skip r0) as [|c r1]; [intros Bad; discriminate Bad|].
      destruct (aeqb c "}"); [exact (fun H => H)|]. destruct (aeqb c ","); [|intros Bad; discriminate Bad].
      destruct (pmembers n r1) as [[l' r2]|] eqn:Q; [|intros Bad; discriminate Bad]. intros H. now rewrite (IHm _ _ Q).
  Qed.
  Lemma pval_fuel n m s v : n <= m -> pval n s = Some v -> pval m s = Some v.
  Proof. induction 1 as [|m _ IH]; intros H; [exact H|]. apply (proj1 (parse_fuel m)). auto. Qed.

  (** The beginning of a text that needs its last character is not accepted. *)
  Lemma loads_cut p x v t : p ++ x = t -> x <> [] -> opens t -> pval (S (List.length t)) t = Some (v, []) -> loads parse_float p = None.
  Proof.
    intros E N O H. unfold loads. destruct (pval (S (List.length p)) p) as [[v' r]|] eqn:P; [|reflexivity]. exfalso.
    assert (Op : opens p).
    { destruct O as [c [r0 [O O']]]. exists c. cbn [Json.pval] in P. destruct (skip p) as [|d p'] eqn:S; [discriminate|].
      rewrite <- E, (skip_cons _ _ _ x S) in O. injection O as -> _. exists p'. auto. }
    apply (proj1 (parse_more _) _ _ _ x) in P; [|now right]. rewrite E in P. apply (pval_fuel _ (S (List.length t))) in P; [|rewrite <- E, app_length; lia].
    rewrite H in P. injection P as _ P. symmetry in P. apply app_eq_nil in P. now apply N.
  Qed.
  Lemma text_opens t l : json_text t (JObj l) -> opens t.
  Proof. intros H. inversion H; subst; eexists _, _; (split; [reflexivity|now right]). Qed.
  Lemma text_closes t l : json_text t (JObj l) -> exists a, t = a ++ ["}"%char].
  Proof. intros H. inversion H; subst; [exists (lit "{" ++ w)|exists (lit "{" ++ t0)]; now rewrite <- app_assoc. Qed.
  Lemma cut_object w t l p x : json_text t (JObj l) -> blanks w -> w ++ t = p ++ x -> x <> [] -> loads parse_float (univ_newlines p) = None.
  Proof.
    intros H W E N. destruct (text_closes _ _ H) as [a ->].
    assert (P : exists y, w ++ a = p ++ y).
    { destruct (exists_last N) as [x' [c ->]]. rewrite !app_assoc in E. apply app_inj_tail in E. destruct E as [E _]. eauto. }
    destruct P as [y P]. destruct (newlines_prefix p y) as [y' Y].
    assert (U : univ_newlines (w ++ a ++ ["}"%char]) = univ_newlines p ++ y' ++ ["}"%char]).
    { rewrite app_assoc, newlines_app by (cbn; discriminate). rewrite P, Y, <- app_assoc. reflexivity. }
    assert (U' : univ_newlines (w ++ a ++ ["}"%char]) = univ_newlines w ++ univ_newlines (a ++ ["}"%char])).
    { apply newlines_app. apply (text_no_lf _ _ []) in H. now rewrite app_nil_r in H. }
    apply (loads_cut _ (y' ++ ["}"%char]) (JObj l) (univ_newlines w ++ univ_newlines (a ++ ["}"%char]))).
    - now rewrite <- U.
    - now destruct y'.
    - assert (H' := proj1 newlines_text _ _ H). assert (O := text_opens _ _ H'). destruct O as [c [r [O O']]]. exists c, r. split; [|exact O'].
      rewrite skip_ws by now apply blanks_iff, newlines_blank. exact O.
    - rewrite <- (app_nil_r (univ_newlines (a ++ _))) at 2. apply (proj1 parse_all); [now apply (proj1 newlines_text)|now apply newlines_blank|exact I|rewrite app_length; lia].
  Qed.

  (** *** What json.dump writes *)
  Variable repr : T -> text.
  Hypothesis repr_ok : float_repr_ok repr parse_float.
  Notation print := (print repr). Notation enc := (enc repr).
  Lemma repr_word x : float_word parse_float (repr x) x.
  Proof.
    destruct (repr_ok x) as [A [B C]]. split; [exact A|]. split; [now apply no_mark_iff|]. unfold Json.scalar in C.
    destruct (teqb _ (lit "null")) eqn:E1; [discriminate|]. destruct (teqb _ (lit "true")) eqn:E2; [discriminate|]. destruct (teqb _ (lit "false")) eqn:E3; [discriminate|].
    destruct (zparse _); [discriminate|]. destruct (parse_float _) as [y|]; [|discriminate]. injection C as ->. split; [|split; reflexivity].
    intros [H|[H|[H|[]]]]; rewrite <- H in *; discriminate.
  Qed.
  Lemma nl_blanks lvl : blanks (nl lvl).
  Proof. apply blanks_iff. apply nl_ws. Qed.
  Lemma print_items lvl l : l <> [] -> (forall x, In x l -> forall lvl, json_text (print lvl x) x) ->
    json_items (nl (S lvl) ++ join (","%char :: nl (S lvl)) (map (print (S lvl)) l) ++ nl lvl) l.
  Proof.
    induction l as [|x l IH]; intros N H; [congruence|]. destruct l as [|y l].
    - cbn [map join]. apply ji_last; [apply nl_blanks|apply H; now left|apply nl_blanks].
    - change (join (","%char :: nl (S lvl)) (map (print (S lvl)) (x :: y :: l)))
        with (print (S lvl) x ++ (","%char :: nl (S lvl)) ++ join (","%char :: nl (S lvl)) (map (print (S lvl)) (y :: l))).
      assert (K : json_items (nl (S lvl) ++ join (","%char :: nl (S lvl)) (map (print (S lvl)) (y :: l)) ++ nl lvl) (y :: l)) by (apply IH; [discriminate|intros z Hz; apply H; now right]).
      assert (J := ji_more parse_float (nl (S lvl)) (print (S lvl) x) [] _ x _ (nl_blanks _) (H x (or_introl eq_refl) _) (Forall_nil _) K).
      rewrite <- !app_assoc. cbn [lit list_ascii_of_string app] in *. exact J.
  Qed.
  Lemma print_text v : array_value v -> forall lvl, json_text (print lvl v) v.
  Proof.
    induction 1 as [z|x|b| |l _ IH]; intros lvl.
    - apply jt_int.
    - apply jt_float, repr_word.
    - destruct b; [apply jt_true|apply jt_false].
    - apply jt_null.
    - destruct l as [|x l]; [apply (jt_no_items _ []); constructor|]. cbn [Json.print].
      assert (K := jt_items _ _ _ (print_items lvl (x :: l) ltac:(discriminate) IH)). rewrite <- !app_assoc in K. exact K.
  Qed.
  Lemma meta_object xc yc j : (forall lvl, json_text (print lvl j) j) ->
    json_text (print 0 (JObj [(lit "xcenter", JFloat xc); (lit "ycenter", JFloat yc); (lit "list_fact", j)])) (JObj [(lit "xcenter", JFloat xc); (lit "ycenter", JFloat yc); (lit "list_fact", j)]).
  Proof.
    intros H.
    assert (K : forall s, json_key (lit s) -> json_key (lit s)) by auto.
    assert (B : blanks [" "%char]) by (repeat constructor; right; right; right; now left).
    assert (N : blanks []) by constructor.
    assert (K1 : json_key (lit "xcenter")) by (repeat (constructor; [repeat split; [discriminate|discriminate|vm_compute; lia]|]); constructor).
    assert (K2 : json_key (lit "ycenter")) by (repeat (constructor; [repeat split; [discriminate|discriminate|vm_compute; lia]|]); constructor).
    assert (K3 : json_key (lit "list_fact")) by (repeat (constructor; [repeat split; [discriminate|discriminate|vm_compute; lia]|]); constructor).
    assert (M3 := jm_last parse_float (nl 1) _ [] [" "%char] (print 1 j) (nl 0) j (nl_blanks 1) K3 N B (H 1) (nl_blanks 0)).
    assert (M2 := jm_more parse_float (nl 1) _ [] [" "%char] (print 1 (JFloat yc)) [] _ (JFloat yc) _ (nl_blanks 1) K2 N B (jt_float _ _ _ (repr_word yc)) N M3).
    assert (M1 := jm_more parse_float (nl 1) _ [] [" "%char] (print 1 (JFloat xc)) [] _ (JFloat xc) _ (nl_blanks 1) K1 N B (jt_float _ _ _ (repr_word xc)) N M2).
    assert (M := jt_members _ _ _ M1). cbn [Json.print map join fst snd]. unfold quote. rewrite <- !app_assoc in *. cbn [lit list_ascii_of_string app] in *. repeat (rewrite <- app_assoc; cbn [app]). exact M.
  Qed.
  Lemma unknown_plain (v : pyval T) : unknown_in v <-> plain v = None.
  Proof.
    induction v as [z|x|z|x| |b|l IH|l IH|w| ] using pyval_ind'; try (split; [intros H; inversion H|discriminate]).
    - rewrite plain_PList. split.
      + intros H. inversion H as [|l' x Hx Hu|]; subst. assert (E : plain_all l = None); [|now rewrite E].
        clear H. induction l as [|y l IHl]; [destruct Hx|]. cbn [plain_all]. inversion_clear IH. destruct Hx as [->|Hx].
        * apply H in Hu. now rewrite Hu.
        * rewrite IHl by assumption. now destruct (plain y).
      + destruct (plain_all l) eqn:E; [discriminate|]. intros _. destruct (plain_all_none l E) as [x [Hx Ex]]. rewrite Forall_forall in IH. apply (ui_list _ x Hx). now apply IH.
    - rewrite plain_PTuple. split.
      + intros H. inversion H as [| |l' x Hx Hu]; subst. assert (E : plain_all l = None); [|now rewrite E].
        clear H. induction l as [|y l IHl]; [destruct Hx|]. cbn [plain_all]. inversion_clear IH. destruct Hx as [->|Hx].
        * apply H in Hu. now rewrite Hu.
        * rewrite IHl by assumption. now destruct (plain y).
      + destruct (plain_all l) eqn:E; [discriminate|]. intros _. destruct (plain_all_none l E) as [x [Hx Ex]]. rewrite Forall_forall in IH. apply (ui_tuple _ x Hx). now apply IH.
    - split; [reflexivity|constructor].
  Qed.
  Lemma plain_array (v : pyval T) j : plain v = Some j -> (forall w, array_in w v -> array_value w) -> array_value j.
  Proof.
    revert j. induction v as [z|x|z|x| |b|l IH|l IH|w| ] using pyval_ind'; intros j E A; try (injection E as <-; constructor); try discriminate.
    - rewrite plain_PList in E. destruct (plain_all l) as [ys|] eqn:Y; [|discriminate]. injection E as <-. constructor. apply plain_all_F2 in Y.
      intros y Hy. rewrite Forall_forall in IH. destruct (Forall2_r _ _ _ _ Y Hy) as [x [Hx Ex]]. apply (IH x Hx _ Ex). intros w W. apply A. now apply (ai_list _ l x).
    - rewrite plain_PTuple in E. destruct (plain_all l) as [ys|] eqn:Y; [|discriminate]. injection E as <-. constructor. apply plain_all_F2 in Y.
      intros y Hy. rewrite Forall_forall in IH. destruct (Forall2_r _ _ _ _ Y Hy) as [x [Hx Ex]]. apply (IH x Hx _ Ex). intros w W. apply A. now apply (ai_tuple _ l x).
    - injection E as <-. apply A. constructor.
  Qed.

  (** What was written when the encoder gave up is the beginning of the text
      of a value. *)
  Definition begun (v : pyval T) : Prop := forall lvl t e, enc lvl v = (t, Some e) -> exists j x, array_value j /\ x <> [] /\ t ++ x = print lvl j.
  Lemma begun_items lvl l : (forall x, In x l -> begun x) -> (forall x j, In x l -> plain x = Some j -> array_value j) ->
    forall t e, ojoin (","%char :: nl (S lvl)) (map (enc (S lvl)) l) = (t, Some e) ->
    exists js x, js <> [] /\ (forall j, In j js -> array_value j) /\ x <> [] /\ t ++ x = join (","%char :: nl (S lvl)) (map (print (S lvl)) js).
  Proof.
    induction l as [|v l IH]; intros B A t e E; [discriminate|]. destruct (enc (S lvl) v) as [u [e'|]] eqn:Ev.
    - assert (u = t).
      { destruct l as [|v2 l]; cbn [map ojoin] in E; rewrite Ev in E; [injection E as -> _; reflexivity|]. cbn in E. injection E as -> _. reflexivity. }
      subst u. destruct (B v (or_introl eq_refl) _ _ _ Ev) as [j [x [J [N X]]]]. exists [j], x. split; [discriminate|]. split; [intros y [<-|[]]; exact J|]. split; [exact N|exact X].
    - destruct l as [|v2 l]; [cbn in E; congruence|].
      change (ojoin (","%char :: nl (S lvl)) (map (enc (S lvl)) (v :: v2 :: l))) with (oseq (enc (S lvl) v) (oseq (okt (","%char :: nl (S lvl))) (ojoin (","%char :: nl (S lvl)) (map (enc (S lvl)) (v2 :: l))))) in E.
      rewrite Ev in E. destruct (ojoin (","%char :: nl (S lvl)) (map (enc (S lvl)) (v2 :: l))) as [t' e2] eqn:Et. unfold oseq, okt in E. cbn [fst snd] in E.
      injection E as <- ->. destruct (IH (fun x Hx => B x (or_intror Hx)) (fun x j Hx => A x j (or_intror Hx)) _ _ eq_refl) as [js [x [N [J [X Q]]]]].
      destruct (plain v) as [j|] eqn:P.
      + assert (Ej := proj1 (enc_correct repr v) j P (S lvl)). rewrite Ev in Ej. injection Ej as ->.
        exists (j :: js), x. split; [discriminate|]. split; [intros y [<-|Hy]; [apply (A v); [now left|exact P]|now apply J]|]. split; [exact X|].
        destruct js as [|j2 js]; [congruence|]. cbn [map] in Q |- *.
        refine (eq_trans _ (f_equal (fun z => print (S lvl) j ++ (","%char :: nl (S lvl)) ++ z) Q)). rewrite <- !app_assoc. cbn [app]. now rewrite <- !app_assoc.
      + exfalso. destruct (proj2 (enc_correct repr v) P (S lvl)) as [t0 [e0 E0]]. rewrite Ev in E0. discriminate.
  Qed.
  Lemma begun_seq l : (forall x, In x l -> begun x) -> (forall x j, In x l -> plain x = Some j -> array_value j) -> forall lvl t e,
    match l with
      | [] => okt (lit "[]")
      | _ => oseq (okt ("["%char :: nl (S lvl)))
               (oseq (ojoin (","%char :: nl (S lvl)) (map (enc (S lvl)) l)) (okt (nl lvl ++ ["]"%char])))
      end = (t, Some e) -> exists j x, array_value j /\ x <> [] /\ t ++ x = print lvl j.
  Proof.
    intros B A lvl t e E. destruct l as [|v l]; [discriminate|]. destruct (ojoin _ _) as [u o] eqn:Eu. cbn [oseq okt fst snd] in E. destruct o as [e'|]; [|discriminate].
    cbn [oseq okt fst snd] in E. injection E as <- ->. destruct (begun_items lvl (v :: l) B A _ _ Eu) as [js [x [N [J [X Q]]]]].
    exists (JList js), (x ++ nl lvl ++ ["]"%char]). split; [now constructor|]. split; [now destruct x|]. destruct js as [|j js]; [congruence|].
    change (print lvl (JList (j :: js))) with ("["%char :: nl (S lvl) ++ join (","%char :: nl (S lvl)) (map (print (S lvl)) (j :: js)) ++ nl lvl ++ ["]"%char]).
    refine (eq_trans _ (f_equal (fun z => "["%char :: nl (S lvl) ++ z ++ nl lvl ++ ["]"%char]) Q)). cbn [app]. rewrite <- !app_assoc. reflexivity.
  Qed.
  Lemma begun_all (v : pyval T) : (forall w, array_in w v -> array_value w) -> begun v.
  Proof.
    induction v as [z|x|z|x| |b|l IH|l IH|w| ] using pyval_ind'; intros A lvl t e E; try discriminate E.
    - destruct b; discriminate E.
    - rewrite (enc_seq repr lvl l PList) in E by auto. apply (begun_seq l) in E; [exact E| |].
      + intros x Hx. rewrite Forall_forall in IH. apply IH; [exact Hx|]. intros w W. apply A. now apply (ai_list _ l x).
      + intros x j Hx P. apply (plain_array x j P). intros w W. apply A. now apply (ai_list _ l x).
    - rewrite (enc_seq repr lvl l PTuple) in E by auto. apply (begun_seq l) in E; [exact E| |].
      + intros x Hx. rewrite Forall_forall in IH. apply IH; [exact Hx|]. intros w W. apply A. now apply (ai_tuple _ l x).
      + intros x j Hx P. apply (plain_array x j P). intros w W. apply A. now apply (ai_tuple _ l x).
    - injection E as <- <-. exists JNull, (lit "null"). split; [constructor|]. split; [discriminate|reflexivity].
  Qed.
End Facts.
