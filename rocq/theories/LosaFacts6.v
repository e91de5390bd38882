(** Folders made by the save functions. *)
From Coq Require Import Ascii String ZifyBool FinFun.
From Verif Require Import Base Text Fs FsFacts Json JsonFacts Hdf HdfFacts Num Losa LosaFacts LosaFacts2 LosaFacts3 LosaSpec LosaFacts5.
Local Open Scope nat_scope.

Section S.
  Context {T : Type} {N : Num T}.
  Variables (win : bool) (cwd : path).
  Notation FS := (@FS T).
  Notation M := (io FS).
  Implicit Types f : FS.
  Variable Hcwd : Forall good_comp cwd.

  (** No ancestor of d, nor d itself, is a file. *)
  Definition clear_path f (d : path) : Prop := forall a b, d = a ++ b -> is_file f a = false.
  Definition makes f (d : path) (m : M path) : Prop :=
    clear_path f d -> forall f' r, m f = (f', r) -> look f' d = Some Dir.

  Lemma parent_not_self (q : path) : q <> [] -> parent q <> q.
  Proof. intros Hq E. pose proof (parent_length q Hq) as L. rewrite E in L. unfold path, text in *. lia. Qed.
  Lemma saver_makes_parent f p ow w : suffix p <> [] -> writes_for p w -> makes f (parent p) (saver p ow w).
  Proof.
    intros Hs Hw Hc f' r H. destruct (saver_reaches p ow w f Hs Hc) as [g [q [E [K [D [Pq [O1 [O2 [L Hq]]]]]]]]].
    rewrite E in H. assert (Hwq : writes_at w q).
    { destruct ow; [rewrite (O1 eq_refl); apply Hw|]. eapply fresh_writes; [exact Hw|apply O2; reflexivity]. }
    destruct (Hwq _ _ _ H) as [A _]. rewrite A; [exact D|]. rewrite <- Pq. now apply parent_not_self.
  Qed.
  Definition keeps_dirs (w : path -> M path) : Prop := forall q f f' r p, w q f = (f', r) ->
    look f p = Some Dir -> look f' p = Some Dir.
  Lemma saver_makes_self f p ow w : suffix p = [] -> keeps_dirs w -> makes f p (saver p ow w).
  Proof.
    intros Hs Hw Hc f' r. unfold saver, ibind at 1. destruct (create_folder p f) as [g s] eqn:Ef.
    destruct (create_folder_spec _ _ _ _ Ef) as [_ [_ [_ [_ [S _]]]]].
    assert (E : folder_of p = p) by (unfold folder_of; now rewrite Hs). rewrite E in S. destruct (S Hc) as [-> D].
    unfold ibind. destruct ow.
    - intros H. exact (Hw _ _ _ _ _ H D).
    - destruct (create_file_name_spec p g) as [q [-> _]]. intros H. exact (Hw _ _ _ _ _ H D).
  Qed.
  Lemma write_keeps_dirs q c f f' r p : write_file q c f = (f', r) -> look f p = Some Dir -> look f' p = Some Dir.
  Proof.
    intros H D. destruct (write_file_spec _ _ _ _ _ H) as [[e [_ ->]]|[_ [-> [Hq [Hn _]]]]]; [exact D|].
    rewrite look_cons_other; [exact D|]. intros ->. congruence.
  Qed.
  Lemma w_img_dirs a e im : keeps_dirs (w_img a e im).
  Proof.
    intros q f f' r p. unfold w_img, ibind, as_value_error. destruct (a im); [|intros H; injection H as <- <-; auto].
    unfold ret. destruct (e (lower (suffix q)) im).
    - destruct (write_file q _ f) as [g s] eqn:E. pose proof (write_keeps_dirs _ _ _ _ _ p E) as K.
      destruct s; intros H; injection H as <- <-; exact K.
    - intros H. injection H as <- <-. auto.
  Qed.
  Lemma w_fig_dirs m : keeps_dirs (w_fig m).
  Proof.
    intros q f f' r p. unfold w_fig, ibind, as_value_error, savefig. destruct (tl (splitext_ext (pname q))) as [|c fmt].
    - destruct (write_file _ _ f) as [g s] eqn:E. pose proof (write_keeps_dirs _ _ _ _ _ p E) as K.
      destruct s; intros H; injection H as <- <-; exact K.
    - destruct (m (c :: fmt)).
      + destruct (write_file _ _ f) as [g s] eqn:E. pose proof (write_keeps_dirs _ _ _ _ _ p E) as K.
        destruct s; intros H; injection H as <- <-; exact K.
      + intros H. injection H as <- <-. auto.
  Qed.

  Lemma makes_ext f d (m m' : M path) : m f = m' f -> makes f d m' -> makes f d m.
  Proof. intros E H Hc f' r Hm. rewrite E in Hm. eauto. Qed.
  Lemma target_makes acc ext s p w ow f (m : M path) : is_ext ext -> (forall x, In x acc -> x <> []) ->
    wanted acc ext (get_path win cwd s) p -> writes w ->
    (forall f, m f = match target win cwd acc ext s with Ok p => saver p ow w f | Err e => (f, Err e) end) ->
    makes f (parent p) m.
  Proof.
    intros He Ha Hw Hws Hm. eapply makes_ext; [rewrite Hm, (target_wanted win cwd Hcwd _ _ _ _ Hw); reflexivity|].
    apply saver_makes_parent; [|now apply writes_writes_for].
    eapply wanted_suffix; eauto; [now apply wanted_ne in Hw|now apply path_good].
  Qed.
  Lemma txt_makes str_ s x y facts ow f p : wanted [lit ".txt"; lit ".dat"] (lit ".txt") (get_path win cwd s) p ->
    makes f (parent p) (save_metadata_txt win cwd str_ s x y facts ow).
  Proof.
    intros Hw. eapply target_makes; [apply is_ext_txt|apply txt_accs|exact Hw|apply w_text_writes|intros g; apply save_txt_saver].
  Qed.
  Lemma json_makes {X} repr (to_float : X -> res T) s x y facts ow f p : wanted [lit ".json"] (lit ".json") (get_path win cwd s) p ->
    makes f (parent p) (save_metadata_json win cwd repr to_float s x y facts ow).
  Proof.
    intros Hw. eapply target_makes; [apply is_ext_json|apply json_accs|exact Hw|apply json_writes|intros g; apply save_json_saver].
  Qed.
  Lemma pkl_makes {P} (pdump : P -> text * option exn) s v ow f p : wanted [lit ".pkl"] (lit ".pkl") (get_path win cwd s) p ->
    makes f (parent p) (save_python_list win cwd pdump s v ow).
  Proof.
    intros Hw. eapply target_makes; [apply is_ext_pkl|apply pkl_accs|exact Hw|apply w_bytes_writes|intros g; apply save_pkl_saver].
  Qed.
  Lemma hdf_makes s idata key ow f p : wanted hdf_exts (lit ".hdf") (get_path win cwd s) p ->
    makes f (parent p) (save_hdf_file win cwd s idata key ow).
  Proof.
    intros Hw. eapply target_makes; [apply is_ext_hdf|apply hdf_accs|exact Hw|apply w_hdf_writes|intros g; apply save_hdf_saver].
  Qed.
  Lemma stream_makes s shape key dt ow options f p : wanted hdf_exts (lit ".hdf") (get_path win cwd s) p ->
    makes f (parent p) (open_hdf_stream win cwd s shape key dt ow options).
  Proof.
    intros Hw. eapply target_makes; [apply is_ext_hdf|apply hdf_accs|exact Hw|apply w_stream_writes|intros g; apply stream_saver].
  Qed.
  Lemma image_makes pa (pe : text -> image T -> bool) s im im' ow f : let p := get_path win cwd s in
    prepare_image (suffix p) im = Ok im' ->
    makes f (if teqb (suffix p) [] then p else parent p) (save_image win cwd pa pe s im ow).
  Proof.
    intros p Hi. eapply makes_ext; [rewrite save_image_saver; fold p; rewrite Hi; reflexivity|].
    destruct (teqb (suffix p) []) eqn:E.
    - apply teqb_eq in E. apply saver_makes_self; [exact E|apply w_img_dirs].
    - apply saver_makes_parent; [intros X; rewrite X in E; discriminate|apply writes_writes_for, w_img_writes].
  Qed.
  Lemma plot_makes_self mf s ow f : let p := get_path win cwd s in suffix p = [] ->
    makes f p (save_plot_image win cwd mf s ow) /\ makes f p (save_residual_plot win cwd mf s ow) /\
    makes f p (save_plot_points win cwd mf s ow).
  Proof.
    intros p Hs. assert (X : makes f p (saver p ow (w_fig mf))) by (apply saver_makes_self; [exact Hs|apply w_fig_dirs]).
    (split; [|split]); (eapply makes_ext; [|exact X]).
    - apply plot_image_saver.
    - apply residual_saver.
    - apply plot_points_saver.
  Qed.
  Lemma plot_makes_parent mf s ow f : let p := get_path win cwd s in has_format_spec (pname p) ->
    makes f (parent p) (save_plot_image win cwd mf s ow) /\ makes f (parent p) (save_residual_plot win cwd mf s ow) /\
    makes f (parent p) (save_plot_points win cwd mf s ow).
  Proof.
    intros p Hs. apply has_format_spec_iff in Hs.
    assert (X : makes f (parent p) (saver p ow (w_fig mf))) by (apply saver_makes_parent; [now apply has_format_suffix|now apply w_fig_for]).
    (split; [|split]); (eapply makes_ext; [|exact X]).
    - apply plot_image_saver.
    - apply residual_saver.
    - apply plot_points_saver.
  Qed.

  (** Saving an image under a name without extension always fails. *)
  Lemma image_no_ext pa (pe : text -> image T -> bool) s im ow f f' r :
    (forall e m, pe e m = true -> e <> [] /\ ~ In "_"%char e) -> suffix (get_path win cwd s) = [] ->
    save_image win cwd pa pe s im ow f = (f', r) -> (exists e, r = Err e) /\ untouched f f' /\
      forall q c, look f' q = Some (File c) -> look f q = Some (File c).
  Proof.
    intros Hpil Es H. rewrite save_image_saver in H. set (p := get_path win cwd s) in *.
    destruct (prepare_image (suffix p) im) as [im'|e].
    - unfold saver, ibind at 1 in H. destruct (create_folder p f) as [g s0] eqn:Ef.
      assert (NF : forall q c, look g q = Some (File c) -> look f q = Some (File c)).
      { intros q c Hq. unfold create_folder in Ef. fold (folder_of p) in Ef. unfold ibind at 1, get in Ef.
        destruct (exists_ f (folder_of p)); [injection Ef as <- _; exact Hq|].
        unfold as_value_error in Ef. destruct (mkdir_p (folder_of p) f) as [g' s'] eqn:Em. injection Ef as <- _.
        destruct (mkdir_p_spec _ _ _ _ Em) as [[_ [-> _]]|[_ [_ [H2 H3]]]]; [exact Hq|].
        destruct (in_dec (list_eq_dec (list_eq_dec Ascii.ascii_dec)) q (prefixes (folder_of p))) as [Hi|Hi].
        - rewrite H2 in Hq by assumption. discriminate.
        - now rewrite H3 in Hq. }
      destruct (create_folder_spec _ _ _ _ Ef) as [K [_ [[->| ->] _]]].
      + assert (X : exists q, w_img pa pe im' q g = (f', r) /\ (suffix q = [] \/ In "_"%char (suffix q))).
        { destruct ow.
          - exists p. split; [exact H|now left].
          - unfold ibind in H. destruct (create_file_name_spec p g) as [q [E Hq]]. rewrite E in H. exists q. split; [exact H|].
            destruct Hq as [[_ ->]|[_ [n [-> _]]]]; [now left|now apply no_suffix_numbered]. }
        destruct X as [q [Hq Hs]]. destruct (w_img_done _ _ _ _ _ _ _ Hq) as [[e [-> ->]]|[_ [_ [_ Hx]]]].
        * repeat split; eauto.
        * exfalso. apply Hpil in Hx. destruct Hx as [Hx1 Hx2]. destruct Hs as [E|E]; [rewrite E in Hx1; now apply Hx1|].
          apply Hx2. now apply lower_under.
      + injection H as <- <-. repeat split; eauto.
    - injection H as <- <-. split; [eauto|]. split; [apply keeps_refl|auto].
  Qed.
End S.
