(** Each save function has the common shape; round trips. *)
From Coq Require Import Ascii String ZifyBool FinFun.
From Verif Require Import Base Text Fs FsFacts Json JsonFacts Hdf Num Losa LosaFacts.
Local Open Scope nat_scope.

Section S.
  Context {T : Type} {N : Num T}.
  Variables (win : bool) (cwd : path).
  Notation FS := (@FS T).
  Notation M := (io FS).
  Implicit Types f : FS.

  (** *** Extensions *)
  Definition is_ext (ext : text) : Prop := exists e, ext = dot :: e /\ e <> [] /\ no_dot e.

  Lemma default_ext_suffix acc ext p q : is_ext ext -> (forall x, In x acc -> x <> []) ->
    default_ext acc ext p = Ok q ->
    parent q = parent p /\ stem q = stem p /\ suffix q <> [] /\
    ((In (lower (suffix p)) acc /\ q = p) \/ (~ In (lower (suffix p)) acc /\ suffix q = ext)).
  Proof.
    intros He Ha. unfold default_ext. destruct (tmem (lower (suffix p)) acc) eqn:E.
    - intros H. injection H as <-. apply tmem_in in E. repeat split; auto.
      intros H. apply (Ha _ E). now rewrite H.
    - intros H. destruct (with_suffix_ok p ext q He H) as [_ [H1 [H2 [H3 _]]]].
      repeat split; auto.
      + rewrite H1. destruct He as [e [-> _]]. discriminate.
      + right. split; [|exact H1]. rewrite <- tmem_in. congruence.
  Qed.
  Lemma default_ext_err acc ext p e : default_ext acc ext p = Err e -> e = ValueError /\ pname p = [].
  Proof.
    unfold default_ext. destruct (tmem _ _); [discriminate|]. unfold with_suffix.
    destruct (pname p); [|discriminate]. intros H. injection H as <-. auto.
  Qed.

  Lemma is_ext_txt : is_ext (lit ".txt"). Proof. eexists. split; [reflexivity|]. split; [discriminate|]. repeat constructor; discriminate. Qed.
  Lemma is_ext_json : is_ext (lit ".json"). Proof. eexists. split; [reflexivity|]. split; [discriminate|]. repeat constructor; discriminate. Qed.
  Lemma is_ext_pkl : is_ext (lit ".pkl"). Proof. eexists. split; [reflexivity|]. split; [discriminate|]. repeat constructor; discriminate. Qed.
  Lemma is_ext_hdf : is_ext (lit ".hdf"). Proof. eexists. split; [reflexivity|]. split; [discriminate|]. repeat constructor; discriminate. Qed.

  Definition target (acc : list text) (ext s : text) : res path := default_ext acc ext (get_path win cwd s).

  (** *** Writers *)
  Definition w_text (str : text) (e : option exn) (q : path) : M path :=
    _ <-- write_file q (CText str) ;; match e with Some x => throw x | None => ret q end.
  Definition w_bytes (str : text) (e : option exn) (q : path) : M path :=
    _ <-- write_file q (CBytes str) ;; match e with Some x => throw x | None => ret q end.

  Lemma writes_any (k : path -> M path) c :
    (forall q f, look f q = Some (File c) -> forall f' r, k q f = (f', r) ->
       (forall p, p <> q -> look f' p = look f p) /\
       (forall q', r = Ok q' -> q' = q /\ exists c, look f' q = Some (File c))) ->
    writes (fun q => _ <-- write_file q c ;; k q).
  Proof.
    intros Hk q f f' r. unfold ibind. destruct (write_file q c f) as [g s] eqn:E.
    destruct (write_file_spec _ _ _ _ _ E) as [[e [-> ->]]|[-> [-> [Hq _]]]].
    - intros H. injection H as <- <-. split; [reflexivity|discriminate].
    - intros H. destruct (Hk q _ (look_cons_same f q _ Hq) _ _ H) as [A B]. split; [|exact B].
      intros p Hp. rewrite A by assumption. now apply look_cons_other.
  Qed.
  Lemma end_ok (e : option exn) c q f : look f q = Some (File c) -> forall f' r,
    match e with Some x => throw x | None => ret q end f = (f', r) ->
    (forall p, p <> q -> look f' p = look f p) /\
    (forall q', r = Ok q' -> q' = q /\ exists c, look f' q = Some (File c)).
  Proof.
    intros Hc f' r. destruct e; intros H; injection H as <- <-.
    - split; [reflexivity|discriminate].
    - split; [reflexivity|]. intros q' H. injection H as <-. eauto.
  Qed.
  Lemma w_text_writes t e : writes (w_text t e).
  Proof. apply writes_any. intros q f Hf. now apply end_ok with (1 := Hf). Qed.
  Lemma w_bytes_writes t e : writes (w_bytes t e).
  Proof. apply writes_any. intros q f Hf. now apply end_ok with (1 := Hf). Qed.

  Lemma write_ok q c f : look f q <> Some Dir -> look f (parent q) = Some Dir -> q <> [] ->
    write_file q c f = ((q, File c) :: f, Ok tt).
  Proof.
    intros H1 H2 Hq. unfold write_file. destruct (look f q) as [[]|]; try congruence; now rewrite H2.
  Qed.

  (** *** Text metadata *)
  Variables (str_ : T -> text) (float_ : text -> res T).
  Definition meta_text (x y : T) (facts : list T) : text :=
    flat_map (meta_line str_) (add_facts (dict_set (dict_set [] (lit "xcenter") x) (lit "ycenter") y) 0 facts).
  Lemma save_txt_saver s x y facts ow f :
    save_metadata_txt win cwd str_ s x y facts ow f =
    match target [lit ".txt"; lit ".dat"] (lit ".txt") s with
    | Ok p => saver p ow (w_text (meta_text x y facts) None) f
    | Err e => (f, Err e)
    end.
  Proof.
    unfold save_metadata_txt, target, lift. unfold ibind at 1.
    destruct (default_ext _ _ _) as [p|e]; reflexivity.
  Qed.

  Lemma dict_set_new {V} (d : list (text * V)) k v : ~ In k (map fst d) -> dict_set d k v = d ++ [(k, v)].
  Proof.
    induction d as [|[k' v'] d IH]; cbn [dict_set map fst app]; [reflexivity|]. intros H.
    destruct (teqb k k') eqn:E; [apply teqb_eq in E; subst; exfalso; apply H; now left|].
    rewrite IH; [reflexivity|]. intros Hi. apply H. now right.
  Qed.
  Fixpoint fact_items {V} (i : nat) (facts : list V) : list (text * V) :=
    match facts with [] => [] | x :: l => (lit "factor" ++ dec i, x) :: fact_items (S i) l end.
  Lemma fact_items_keys {V} (facts : list V) : forall i k, In k (map fst (fact_items i facts)) ->
    exists j, i <= j /\ k = lit "factor" ++ dec j.
  Proof.
    induction facts as [|x l IH]; intros i k; cbn [fact_items map fst]; [easy|].
    intros [<-|H]; [exists i; auto|]. destruct (IH _ _ H) as [j [Hj ->]]. exists j. split; [lia|reflexivity].
  Qed.
  Lemma add_facts_items {V} (facts : list V) : forall d i,
    (forall j, i <= j -> ~ In (lit "factor" ++ dec j) (map fst d)) ->
    add_facts d i facts = d ++ fact_items i facts.
  Proof.
    induction facts as [|x l IH]; intros d i H; cbn [add_facts fact_items]; [now rewrite app_nil_r|].
    rewrite dict_set_new by (apply H; lia). rewrite IH.
    - now rewrite <- app_assoc.
    - intros j Hj. rewrite map_app, in_app_iff. cbn [map fst]. intros [Hi|[Hi|[]]].
      + now apply (H j); [lia|].
      + apply app_inv_head in Hi. apply dec_inj in Hi. lia.
  Qed.
  Definition items (x y : T) (facts : list T) : list (text * T) :=
    (lit "xcenter", x) :: (lit "ycenter", y) :: fact_items 0 facts.
  Lemma meta_text_items x y facts : meta_text x y facts = flat_map (meta_line str_) (items x y facts).
  Proof.
    unfold meta_text. rewrite add_facts_items; [reflexivity|].
    intros j _. cbn [dict_set]. change (teqb (lit "ycenter") (lit "xcenter")) with false. cbv iota.
    cbn [map fst]. intros [H|[H|[]]]; cbn in H; discriminate.
  Qed.

  Lemma items_no_ws x y facts : Forall (fun kv => no_ws (fst kv)) (items x y facts).
  Proof.
    assert (F : forall l i, Forall (fun kv : text * T => no_ws (fst kv)) (fact_items i l)).
    { induction l as [|v l IH]; intros i; constructor; [|apply IH]. cbn [fst]. unfold no_ws.
      apply Forall_app. split; [repeat constructor|apply dec_no_ws]. }
    constructor; [repeat constructor|]. constructor; [repeat constructor|]. apply F.
  Qed.
  Lemma items_vals x y facts : map snd (items x y facts) = x :: y :: facts.
  Proof.
    unfold items. cbn [map snd]. do 2 f_equal. generalize 0. induction facts as [|v l IH]; intros i; [reflexivity|].
    cbn [fact_items map snd]. now rewrite IH.
  Qed.

  Definition str_ok (v : T) : Prop := str_ v <> [] /\ no_ws (str_ v) /\ float_ (str_ v) = Ok v.

  Lemma mapM_lines (l : list (text * T)) :
    Forall (fun kv => str_ok (snd kv)) l ->
    mapM (fun i => w <- pyget (split_ws i) (-1) ;; float_ w) (map (fun kv => fst kv ++ lit " = " ++ str_ (snd kv)) l)
    = Ok (map snd l).
  Proof.
    induction 1 as [|kv l [H1 [H2 H3]] _ IH]; [reflexivity|]. cbn [map mapM].
    change (fst kv ++ lit " = " ++ str_ (snd kv)) with (fst kv ++ [" "; "="]%char ++ " "%char :: str_ (snd kv)).
    rewrite app_assoc. rewrite split_last by assumption. cbn [bind]. rewrite H3. cbn [bind]. now rewrite IH.
  Qed.
  Lemma parse_meta_text x y facts : Forall str_ok (x :: y :: facts) ->
    parse_meta float_ (univ_newlines (meta_text x y facts)) = Ok (x, y, facts).
  Proof.
    intros H. rewrite meta_text_items.
    set (ls := map (fun kv => fst kv ++ lit " = " ++ str_ (snd kv)) (items x y facts)).
    assert (E : flat_map (meta_line str_) (items x y facts) = concat (map (fun l => l ++ [LF]) ls)).
    { unfold ls. rewrite map_map, flat_map_concat_map. f_equal. apply map_ext. intros kv.
      unfold meta_line. cbv beta. rewrite <- (app_assoc (fst kv)), <- (app_assoc (lit " = ")). reflexivity. }
    assert (HI : Forall (fun kv => str_ok (snd kv)) (items x y facts)).
    { rewrite <- (items_vals x y facts) in H. exact (proj1 (Forall_map _ _ _) H). }
    assert (W : Forall (Forall (fun c => is_nl c = false)) ls).
    { unfold ls. apply Forall_map. pose proof (items_no_ws x y facts) as HK.
      apply Forall_forall. intros kv Hkv. rewrite Forall_forall in HI, HK.
      destruct (HI kv Hkv) as [_ [Hw _]]. specialize (HK kv Hkv).
      assert (NN : forall t, no_ws t -> Forall (fun c => is_nl c = false) t).
      { intros t Ht. eapply Forall_impl; [|exact Ht]. intros c Hc. cbn in Hc.
        destruct (is_nl c) eqn:En; [|reflexivity]. apply Text.nl_ws in En. congruence. }
      apply Forall_app. split; [now apply NN|]. apply Forall_app. split; [repeat constructor|now apply NN]. }
    rewrite E. rewrite univ_newlines_id.
    - unfold parse_meta. rewrite splitlines_lines by exact W. unfold ls.
      rewrite mapM_lines by exact HI. cbn [bind]. rewrite items_vals.
      unfold pyget. cbn [List.length].
      replace (0 <? 0)%Z with false by reflexivity. replace (1 <? 0)%Z with false by reflexivity.
      set (n := Z.of_nat (S (S (List.length facts)))).
      replace ((0 <? 0) || (n <=? 0))%Z with false by (symmetry; lia).
      replace ((1 <? 0) || (n <=? 1))%Z with false by (symmetry; lia).
      reflexivity.
    - apply Forall_concat. apply Forall_map. eapply Forall_impl; [|exact W].
      intros l Hl. apply Forall_app. split; [|repeat constructor; discriminate].
      eapply Forall_impl; [|exact Hl]. intros c Hc ->. discriminate.
  Qed.

  Lemma w_text_done t e q f f' r : w_text t e q f = (f', r) ->
    (exists x, r = Err x /\ f' = f) \/
    (f' = (q, File (CText t)) :: f /\ q <> [] /\ r = match e with Some x => Err x | None => Ok q end).
  Proof.
    unfold w_text, ibind. destruct (write_file q (CText t) f) as [g s] eqn:E.
    destruct (write_file_spec _ _ _ _ _ E) as [[x [-> ->]]|[-> [-> [Hq _]]]].
    - intros H. injection H as <- <-. left. eauto.
    - intros H. right. destruct e; injection H as <- <-; auto.
  Qed.
  Lemma read_text_at q t f : look f q = Some (File (CText t)) -> read_text q f = (f, Ok (univ_newlines t)).
  Proof. intros H. unfold read_text, ibind, read_file. rewrite H. reflexivity. Qed.
  Lemma checked_at q s' f c : get_path win cwd s' = q -> look f q = Some (File c) ->
    checked_path win cwd s' f = (f, Ok q).
  Proof.
    intros E H. unfold checked_path, ibind, get. rewrite E.
    assert (exists_ f q = true) by (apply exists_look; congruence). now rewrite H0.
  Qed.

  (** What a successful save leaves at the returned path. *)
  Lemma saved_text p ow t f f' q : saver p ow (w_text t None) f = (f', Ok q) ->
    look f' q = Some (File (CText t)).
  Proof.
    intros H. destruct (saver_last _ _ _ _ _ _ H) as [[g [q' [Hw _]]]|[e [He _]]]; [|congruence].
    destruct (w_text_done _ _ _ _ _ _ Hw) as [[x [Hx _]]|[-> [Hq Hr]]]; [congruence|].
    injection Hr as ->. now apply look_cons_same.
  Qed.
  Lemma txt_round_trip s s' x y facts ow f f' q : Forall str_ok (x :: y :: facts) ->
    save_metadata_txt win cwd str_ s x y facts ow f = (f', Ok q) -> get_path win cwd s' = q ->
    load_metadata_txt win cwd float_ s' f' = (f', Ok (x, y, facts)).
  Proof.
    intros Hs. rewrite save_txt_saver. destruct (target _ _ _) as [p|]; [|discriminate].
    intros H E. pose proof (saved_text _ _ _ _ _ _ H) as L. unfold load_metadata_txt.
    unfold ibind at 1. rewrite (checked_at _ _ _ _ E L). unfold ibind. rewrite (read_text_at _ _ _ L).
    unfold lift. now rewrite parse_meta_text.
  Qed.

  (** *** Returned paths can be spelled. *)
  Lemma numbered_good p n : Forall good_comp p -> p <> [] -> Forall good_comp (numbered p n).
  Proof.
    intros H Hp. unfold numbered. rewrite (split_last_name p Hp) in H. apply Forall_app in H.
    destruct H as [H1 H2]. inversion_clear H2. apply Forall_app. split; [exact H1|]. constructor; [|constructor].
    destruct H as [A [B _]]. unfold stem, suffix.
    assert (Hs : stem_of (pname p) <> []) by now apply stem_nonempty.
    rewrite <- (stem_suffix (pname p)) in B. apply Forall_app in B. destruct B as [B1 B2].
    destruct (stem_of (pname p)) as [|c st] eqn:Es; [congruence|].
    assert (L : 3 <= List.length ((c :: st) ++ lit "_" ++ dec4 n ++ suffix_of (pname p))).
    { pose proof (dec4_length n) as Hd. rewrite !app_length. cbn [List.length lit list_ascii_of_string]. unfold text in *. lia. }
    unfold good_comp. repeat split.
    - discriminate.
    - apply Forall_app. split; [exact B1|]. cbn [lit list_ascii_of_string app]. constructor; [discriminate|].
      apply Forall_app. split; [|exact B2]. unfold dec4. eapply Forall_impl; [|apply uint_digits].
      intros d Hdg ->. discriminate.
    - intros E. rewrite E in L. cbn in L. lia.
    - intros E. rewrite E in L. cbn in L. lia.
  Qed.
  Lemma default_ext_good acc ext p q : is_ext ext -> Forall (fun x => x <> "/"%char) ext ->
    Forall good_comp p -> default_ext acc ext p = Ok q -> Forall good_comp q.
  Proof.
    intros He Hx Hp. unfold default_ext. destruct (tmem _ _); [congruence|].
    intros H. destruct (with_suffix_ok p ext q He H) as [-> [_ [_ [_ Hn]]]].
    assert (Hpn : p <> []) by (intros ->; now apply Hn).
    rewrite (split_last_name p Hpn) in Hp. apply Forall_app in Hp.
    destruct Hp as [H1 H2]. inversion_clear H2. apply Forall_app. split; [exact H1|]. constructor; [|constructor].
    destruct H0 as [A [B _]]. unfold stem in *. pose proof (stem_nonempty _ A) as Hs.
    rewrite <- (stem_suffix (pname p)) in B. apply Forall_app in B. destruct B as [B1 _].
    destruct He as [e [-> [He1 He2]]]. destruct (stem_of (pname p)) as [|c st] eqn:Es; [congruence|].
    destruct e as [|c2 e]; [congruence|].
    assert (L : 3 <= List.length ((c :: st) ++ dot :: c2 :: e)) by (rewrite app_length; cbn [List.length]; lia).
    unfold good_comp. repeat split.
    - discriminate.
    - apply Forall_app. auto.
    - intros E. rewrite E in L. cbn in L. lia.
    - intros E. rewrite E in L. cbn in L. lia.
  Qed.
  Lemma saver_good p ow w f f' q : writes_for p w -> Forall good_comp p -> suffix p <> [] ->
    saver p ow w f = (f', Ok q) -> Forall good_comp q.
  Proof.
    intros Hw Hp Hs H. destruct ow.
    - now destruct (saver_over _ _ _ _ _ Hw H) as [-> _].
    - destruct (saver_fresh _ _ _ _ _ Hw Hs H) as [_ [_ [[_ ->]|[_ [n [-> _]]]]]]; [exact Hp|].
      apply numbered_good; [exact Hp|now apply suffix_ne].
  Qed.

  (** *** JSON *)
  Variables (repr : T -> text) (parse_float : text -> option T).
  Context {X : Type}.
  Variable to_float : X -> res T.

  Lemma save_json_saver s x y facts ow f :
    save_metadata_json win cwd repr to_float s x y facts ow f =
    match target [lit ".json"] (lit ".json") s with
    | Ok p => saver p ow (fun q =>
        xc <-- lift (to_float x) ;; yc <-- lift (to_float y) ;;
        w_text (fst (dump_meta repr xc yc facts)) (snd (dump_meta repr xc yc facts)) q) f
    | Err e => (f, Err e)
    end.
  Proof.
    unfold save_metadata_json, target. unfold ibind at 1, lift at 1.
    destruct (default_ext _ _ _) as [p|e]; [|reflexivity].
    unfold saver, ibind. destruct (create_folder p f) as [g [[]|e]]; [|reflexivity].
    destruct ((if ow then ret p else create_file_name p) g) as [g2 [q|e]]; [|reflexivity].
    unfold lift. destruct (to_float x) as [xc|]; [|reflexivity]. destruct (to_float y) as [yc|]; [|reflexivity].
    destruct (dump_meta repr xc yc facts) as [t e]. reflexivity.
  Qed.
  Definition json_of (xc yc : T) (facts : jval T) : jval T :=
    JObj [(lit "xcenter", JFloat xc); (lit "ycenter", JFloat yc); (lit "list_fact", facts)].
  Lemma dump_meta_ok xc yc facts j : plain facts = Some j ->
    dump_meta repr xc yc facts = (print repr 0 (json_of xc yc j), None).
  Proof.
    intros H. pose proof (proj1 (enc_correct repr facts) j H 1) as E. unfold dump_meta. rewrite E.
    cbn [oseq okt ojoin fst snd]. unfold json_of. cbn [print map join fst snd]. f_equal.
    
  Qed.
  Lemma dump_meta_err xc yc facts : plain facts = None ->
    exists t e, dump_meta repr xc yc facts = (t, Some e).
  Proof.
    intros H. destruct (proj2 (enc_correct repr facts) H 1) as [t [e E]]. unfold dump_meta. rewrite E.
    cbn [oseq okt ojoin fst snd]. eauto.
  Qed.
  Lemma jfields xc yc j : jfield (lit "xcenter") (json_of xc yc j) = Ok (JFloat xc) /\
    jfield (lit "ycenter") (json_of xc yc j) = Ok (JFloat yc) /\ jfield (lit "list_fact") (json_of xc yc j) = Ok j.
  Proof. repeat split. Qed.

  (** No carriage returns in what is written. *)
  Lemma delim_cr c : delim c = false -> c <> CR.
  Proof. intros H ->. discriminate. Qed.
  Fixpoint key_chars_ok (v : jval T) : Prop :=
    match v with
    | JList l => (fix all l := match l with [] => True | x :: l' => key_chars_ok x /\ all l' end) l
    | JObj l => (fix all l := match l with [] => True
        | kv :: l' => Forall (fun c => c <> CR) (fst kv) /\ key_chars_ok (snd kv) /\ all l' end) l
    | _ => True
    end.
  Lemma join_no_cr sep l : Forall (fun c => c <> CR) sep -> Forall (Forall (fun c => c <> CR)) l ->
    Forall (fun c => c <> CR) (join sep l).
  Proof.
    intros Hs. induction 1 as [|x l Hx Hl IH]; [constructor|]. destruct l as [|y l]; [exact Hx|].
    change (join sep (x :: y :: l)) with (x ++ sep ++ join sep (y :: l)).
    apply Forall_app. split; [exact Hx|]. apply Forall_app. auto.
  Qed.
  Lemma nl_no_cr lvl : Forall (fun c => c <> CR) (nl lvl).
  Proof.
    unfold nl. constructor; [discriminate|]. apply Forall_forall. intros c Hc. apply repeat_spec in Hc. subst. discriminate.
  Qed.
  Lemma print_no_cr v : float_repr_ok repr parse_float -> key_chars_ok v -> forall lvl,
    Forall (fun c => c <> CR) (print repr lvl v).
  Proof.
    intros Hr. induction v as [z|x| |b|l IH|l IH] using jval_ind'; intros Hk lvl.
    - eapply Forall_impl; [exact delim_cr|apply zdec_chars].
    - destruct (Hr x) as [_ [A _]]. eapply Forall_impl; [exact delim_cr|exact A].
    - repeat constructor; discriminate.
    - destruct b; repeat constructor; discriminate.
    - assert (F : Forall (fun v => forall lvl, Forall (fun c => c <> CR) (print repr lvl v)) l).
      { clear -IH Hk. induction IH as [|x l Hx Hl IHl]; constructor; cbn in Hk; destruct Hk; auto. }
      destruct l as [|x l]; [repeat constructor; discriminate|]. cbn [print]. constructor; [discriminate|].
      apply Forall_app. split; [apply nl_no_cr|]. apply Forall_app. split.
      + apply join_no_cr; [constructor; [discriminate|apply nl_no_cr]|]. apply Forall_map.
        eapply Forall_impl; [|exact F]. intros v Hv. apply Hv.
      + apply Forall_app. split; [apply nl_no_cr|repeat constructor; discriminate].
    - assert (F : Forall (fun kv => Forall (fun c => c <> CR) (fst kv) /\ forall lvl, Forall (fun c => c <> CR) (print repr lvl (snd kv))) l).
      { clear -IH Hk. induction IH as [|x l Hx Hl IHl]; constructor; cbn in Hk; destruct Hk as [A [B D]]; auto. }
      destruct l as [|x l]; [repeat constructor; discriminate|]. cbn [print]. constructor; [discriminate|].
      apply Forall_app. split; [apply nl_no_cr|]. apply Forall_app. split.
      + apply join_no_cr; [constructor; [discriminate|apply nl_no_cr]|]. apply Forall_map.
        eapply Forall_impl; [|exact F]. intros kv [H1 H2]. unfold quote.
        apply Forall_app. split; [constructor; [discriminate|]; apply Forall_app; split; [exact H1|repeat constructor; discriminate]|].
        apply Forall_app. split; [repeat constructor; discriminate|apply H2].
      + apply Forall_app. split; [apply nl_no_cr|repeat constructor; discriminate].
  Qed.

  Lemma json_writer_cases x y facts q f f' r :
    (xc <-- lift (to_float x) ;; yc <-- lift (to_float y) ;;
        w_text (fst (dump_meta repr xc yc facts)) (snd (dump_meta repr xc yc facts)) q) f = (f', r) ->
    (exists e, r = Err e /\ f' = f) \/
    (exists xc yc, to_float x = Ok xc /\ to_float y = Ok yc /\
       w_text (fst (dump_meta repr xc yc facts)) (snd (dump_meta repr xc yc facts)) q f = (f', r)).
  Proof.
    unfold ibind, lift. destruct (to_float x) as [xc|e]; [|intros H; injection H as <- <-; left; eauto].
    destruct (to_float y) as [yc|e]; [|intros H; injection H as <- <-; left; eauto].
    intros H. right. eauto.
  Qed.
  Lemma json_writes x y facts : writes (fun q =>
        xc <-- lift (to_float x) ;; yc <-- lift (to_float y) ;;
        w_text (fst (dump_meta repr xc yc facts)) (snd (dump_meta repr xc yc facts)) q).
  Proof.
    intros q f f' r H. destruct (json_writer_cases _ _ _ _ _ _ _ H) as [[e [-> ->]]|[xc [yc [_ [_ Hw]]]]].
    - split; [reflexivity|discriminate].
    - exact (w_text_writes _ _ q f f' r Hw).
  Qed.

  Lemma json_round_trip s s' x y facts ow f f' q j :
    float_repr_ok repr parse_float -> plain facts = Some j -> keys_ok j -> key_chars_ok j ->
    save_metadata_json win cwd repr to_float s x y facts ow f = (f', Ok q) -> get_path win cwd s' = q ->
    exists xc yc, to_float x = Ok xc /\ to_float y = Ok yc /\
      load_metadata_json win cwd parse_float s' f' = (f', Ok (JFloat xc, JFloat yc, j)).
  Proof.
    intros Hr Hj Hk Hc. rewrite save_json_saver. destruct (target _ _ _) as [p|]; [|discriminate].
    intros H E. destruct (saver_last _ _ _ _ _ _ H) as [[g [q' [Hw _]]]|[e [He _]]]; [|congruence].
    destruct (json_writer_cases _ _ _ _ _ _ _ Hw) as [[e [He _]]|[xc [yc [Hx [Hy Hw']]]]]; [congruence|].
    exists xc, yc. split; [exact Hx|]. split; [exact Hy|].
    rewrite (dump_meta_ok _ _ _ _ Hj) in Hw'. cbn [fst snd] in Hw'.
    destruct (w_text_done _ _ _ _ _ _ Hw') as [[e [He _]]|[-> [Hq Hqq]]]; [congruence|].
    injection Hqq as ->.
    pose proof (look_cons_same g q' (File (CText (print repr 0 (json_of xc yc j)))) Hq) as L.
    unfold load_metadata_json. unfold ibind at 1. rewrite (checked_at _ _ _ _ E L).
    unfold ibind. rewrite (read_text_at _ _ _ L). rewrite univ_newlines_id.
    - rewrite (loads_print repr parse_float Hr).
      + unfold lift. destruct (jfields xc yc j) as [-> [-> ->]]. reflexivity.
      + cbn. repeat split; auto; repeat constructor; discriminate.
    - apply print_no_cr; [exact Hr|]. cbn. repeat split; auto; repeat constructor; discriminate.
  Qed.

  (** Failures of the JSON save. *)
  Lemma json_bad_center s x y facts ow f f' r :
    (forall xc yc, ~ (to_float x = Ok xc /\ to_float y = Ok yc)) ->
    save_metadata_json win cwd repr to_float s x y facts ow f = (f', r) ->
    keeps f f' /\ (exists e, r = Err e) /\ (forall p c, look f' p = Some (File c) -> look f p = Some (File c)).
  Proof.
    intros Hb. rewrite save_json_saver. destruct (target _ _ _) as [p|e].
    2:{ intros H. injection H as <- <-. split; [apply keeps_refl|]. eauto. }
    unfold saver, ibind at 1. destruct (create_folder p f) as [g s0] eqn:Ef.
    destruct (create_folder_spec _ _ _ _ Ef) as [K [_ [Hs0 _]]].
    assert (ND : forall a c, look g a = Some (File c) -> look f a = Some (File c)).
    { intros a c Hg. destruct (look f a) as [n|] eqn:E; [pose proof (K _ _ E); congruence|].
      exfalso. clear Hs0 K. revert Ef. unfold create_folder, ibind, get.
      destruct (exists_ f _); [intros H; injection H as <- <-; congruence|].
      unfold as_value_error. destruct (mkdir_p _ f) as [g' s1] eqn:Em. intros H. injection H as -> _.
      destruct (mkdir_p_spec _ _ _ _ Em) as [[_ [-> _]]|[_ [_ [H2 H3]]]]; [congruence|].
      destruct (in_dec (list_eq_dec (list_eq_dec Ascii.ascii_dec)) a (prefixes match suffix p with [] => p | _ => parent p end)) as [Hi|Hi].
      - rewrite H2 in Hg by assumption. discriminate.
      - rewrite H3 in Hg by assumption. congruence. }
    destruct Hs0 as [->| ->].
    - unfold ibind at 1.
      assert (Q : exists q, (if ow then ret p else create_file_name p) g = (g, Ok q)).
      { destruct ow; [now exists p|]. destruct (create_file_name_spec p g) as [q [Eq _]]. eauto. }
      destruct Q as [q ->]. intros H.
      destruct (json_writer_cases _ _ _ _ _ _ _ H) as [[e [-> ->]]|[xc [yc [Hx [Hy _]]]]]; [eauto|].
      exfalso. apply (Hb xc yc). auto.
    - intros H. injection H as <- <-. eauto.
  Qed.
  Lemma json_bad_facts s x y facts f xc yc p :
    to_float x = Ok xc -> to_float y = Ok yc -> plain facts = None ->
    target [lit ".json"] (lit ".json") s = Ok p ->
    (forall d b, parent p = d ++ b -> is_file f d = false) -> look f p <> Some Dir ->
    exists f' e t, save_metadata_json win cwd repr to_float s x y facts true f = (f', Err e) /\
      look f' p = Some (File (CText t)) /\ dump_meta repr xc yc facts = (t, Some e).
  Proof.
    intros Hx Hy Hp Ht Hf Hd. rewrite save_json_saver, Ht.
    assert (Hs : suffix p <> []).
    { eapply default_ext_suffix; [apply is_ext_json| |exact Ht]. intros z [<-|[]]. discriminate. }
    destruct (saver_reaches p true (fun q =>
        xc <-- lift (to_float x) ;; yc <-- lift (to_float y) ;;
        w_text (fst (dump_meta repr xc yc facts)) (snd (dump_meta repr xc yc facts)) q) f Hs Hf)
      as [g [q [E [K [D [_ [Hq [_ [L Hne]]]]]]]]].
    rewrite (Hq eq_refl) in *. rewrite E. destruct (dump_meta_err xc yc facts Hp) as [t [e Ed]].
    exists ((p, File (CText t)) :: g), e, t. split; [|split; [now apply look_cons_same|exact Ed]].
    unfold ibind, lift. rewrite Hx, Hy, Ed. cbn [fst snd]. unfold w_text, ibind.
    rewrite write_ok; [reflexivity|congruence|exact D|exact Hne].
  Qed.

  (** *** Pickle *)
  Context {P : Type}.
  Variables (pdump : P -> text * option exn) (pload : text -> res P).
  Lemma save_pkl_saver s v ow f :
    save_python_list win cwd pdump s v ow f =
    match target [lit ".pkl"] (lit ".pkl") s with
    | Ok p => saver p ow (w_bytes (fst (pdump v)) (snd (pdump v))) f
    | Err e => (f, Err e)
    end.
  Proof.
    unfold save_python_list, target. unfold ibind at 1, lift at 1.
    destruct (default_ext _ _ _) as [p|e]; [|reflexivity]. destruct (pdump v) as [t e]. reflexivity.
  Qed.
  Lemma w_bytes_done t e q f f' r : w_bytes t e q f = (f', r) ->
    (exists x, r = Err x /\ f' = f) \/
    (f' = (q, File (CBytes t)) :: f /\ q <> [] /\ r = match e with Some x => Err x | None => Ok q end).
  Proof.
    unfold w_bytes, ibind. destruct (write_file q (CBytes t) f) as [g s] eqn:E.
    destruct (write_file_spec _ _ _ _ _ E) as [[x [-> ->]]|[-> [-> [Hq _]]]].
    - intros H. injection H as <- <-. left. eauto.
    - intros H. right. destruct e; injection H as <- <-; auto.
  Qed.
  Lemma pkl_round_trip s s' v ow f f' q :
    (snd (pdump v) = None -> pload (fst (pdump v)) = Ok v) ->
    save_python_list win cwd pdump s v ow f = (f', Ok q) -> get_path win cwd s' = q ->
    load_python_list win cwd pload s' f' = (f', Ok v).
  Proof.
    intros Hp. rewrite save_pkl_saver. destruct (target _ _ _) as [p|]; [|discriminate].
    intros H E. destruct (saver_last _ _ _ _ _ _ H) as [[g [q' [Hw _]]]|[e [He _]]]; [|congruence].
    destruct (w_bytes_done _ _ _ _ _ _ Hw) as [[x [Hx _]]|[-> [Hq Hr]]]; [congruence|].
    destruct (snd (pdump v)); [discriminate|]. injection Hr as ->.
    pose proof (look_cons_same g q' (File (CBytes (fst (pdump v)))) Hq) as L.
    unfold load_python_list. unfold ibind at 1. rewrite (checked_at _ _ _ _ E L).
    unfold ibind, read_file. rewrite L. unfold lift. now rewrite Hp.
  Qed.
End S.
