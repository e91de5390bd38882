(** The save functions against LosaSpec. *)
From Coq Require Import Ascii String ZifyBool FinFun.
From Verif Require Import Base Text Fs FsFacts Json JsonFacts Hdf HdfFacts Num Losa LosaFacts LosaFacts2 LosaFacts3 LosaSpec.
Local Open Scope nat_scope.

Lemma no_dot_in e : no_dot e <-> ~ In dot e.
Proof.
  unfold no_dot. rewrite Forall_forall. split.
  - intros H Hi. now apply (H dot Hi).
  - intros H x Hx ->. auto.
Qed.
Lemma splits_of name : splits name (stem_of name) (suffix_of name).
Proof.
  destruct (suffix_of_cases name) as [[E1 E2]|[a [e [-> [Ha [He [Hd [E1 E2]]]]]]]].
  - right. repeat split; auto. intros a' e' [e'' [-> [-> [Ha [He Hd]]]]]. apply no_dot_in in Hd.
    destruct (suffix_of_app a' e'' Ha He Hd) as [X _]. rewrite X in E1. discriminate.
  - left. rewrite E1, E2. exists e. repeat split; auto. now apply no_dot_in.
Qed.
Lemma splits_unique name a e : splits name a e -> a = stem_of name /\ e = suffix_of name.
Proof.
  intros [[e' [-> [-> [Ha [He Hd]]]]]|[-> [-> H]]].
  - apply no_dot_in in Hd. destruct (suffix_of_app a e' Ha He Hd). auto.
  - destruct (suffix_of_cases name) as [[-> ->]|[a [e [E [Ha [He [Hd _]]]]]]]; [auto|].
    exfalso. apply (H a (dot :: e)). exists e. repeat split; auto. now apply no_dot_in.
Qed.
Lemma with_counter_iff p q n : with_counter p q n <-> p <> [] /\ q = numbered p n.
Proof.
  unfold with_counter, numbered, stem, suffix. split.
  - intros [d [name [a [e [-> [Hs ->]]]]]]. apply splits_unique in Hs. destruct Hs as [-> ->].
    rewrite parent_app, pname_app. split; [destruct d; discriminate|reflexivity].
  - intros [Hp ->]. exists (parent p), (pname p), (stem_of (pname p)), (suffix_of (pname p)).
    split; [now apply split_last_name|]. split; [apply splits_of|reflexivity].
Qed.
Lemma in_small_iff e x : in_small e x <-> x = lower e.
Proof.
  assert (K : forall c c', In (c, c') (combine capitals smalls) \/ ~ In c capitals /\ c' = c <-> c' = lower_char c).
  { assert (D : forall c, In (c, lower_char c) (combine capitals smalls) \/ ~ In c capitals /\ lower_char c = c).
    { intros [[|] [|] [|] [|] [|] [|] [|] [|]]; vm_compute; intuition discriminate. }
    assert (U : forall c c', In (c, c') (combine capitals smalls) -> c' = lower_char c).
    { intros c c' H. assert (A : forallb (fun z => aeqb (snd z) (lower_char (fst z))) (combine capitals smalls) = true) by reflexivity.
      rewrite forallb_forall in A. specialize (A _ H). now apply Ascii.eqb_eq in A. }
    intros c c'. split; [intros [H|[H ->]]; [auto|]|intros ->; apply D].
    destruct (D c) as [A|[_ A]]; [|auto]. now apply in_combine_l in A. }
  unfold in_small, lower. split.
  - induction 1 as [|c c' e x H HF IH]; cbn [map]; [reflexivity|]. apply K in H. congruence.
  - intros ->. induction e; cbn [map]; constructor; auto. now apply K.
Qed.
Lemma accepts_iff acc e : accepts acc e <-> In (lower e) acc.
Proof.
  unfold accepts. split.
  - intros [x [H Hi]]. apply in_small_iff in H. now subst.
  - intros H. exists (lower e). split; [now apply in_small_iff|exact H].
Qed.
Lemma wanted_iff acc ext p0 p : p0 <> [] -> pname p0 <> [] -> (wanted acc ext p0 p <-> default_ext acc ext p0 = Ok p).
Proof.
  intros H0 Hn. unfold default_ext, with_suffix. split.
  - intros [d [name [a [e [-> [Hs H]]]]]]. apply splits_unique in Hs. destruct Hs as [-> ->].
    unfold suffix, stem. rewrite pname_app, parent_app in *. rewrite accepts_iff in H. destruct H as [[Hi ->]|[Hi ->]].
    + apply tmem_in in Hi. now rewrite Hi.
    + destruct (tmem (lower (suffix_of name)) acc) eqn:E; [apply tmem_in in E; contradiction|].
      destruct name; [congruence|reflexivity].
  - intros H. exists (parent p0), (pname p0), (stem p0), (suffix p0).
    split; [now apply split_last_name|]. split; [apply splits_of|]. rewrite accepts_iff.
    destruct (tmem (lower (suffix p0)) acc) eqn:E.
    + left. split; [now apply tmem_in|]. now injection H as <-.
    + right. split; [intros Hi; apply tmem_in in Hi; congruence|]. destruct (pname p0); [congruence|]. now injection H as <-.
Qed.
Lemma wanted_default acc ext p0 p : p0 <> [] -> Forall good_comp p0 -> wanted acc ext p0 p -> default_ext acc ext p0 = Ok p.
Proof.
  intros H0 Hg Hw. apply wanted_iff; auto. rewrite (split_last_name p0 H0) in Hg.
  apply Forall_app in Hg. destruct Hg as [_ Hg]. inversion_clear Hg. apply H.
Qed.
Lemma wanted_ne acc ext p0 p : wanted acc ext p0 p -> p0 <> [].
Proof. intros [d [name [a [e [-> _]]]]]. destruct d; discriminate. Qed.

Section S.
  Context {T : Type} {N : Num T}.
  Variables (win : bool) (cwd : path).
  Notation FS := (@FS T).
  Notation M := (io FS).
  Implicit Types f : FS.

  Lemma fresh_chosen f p q : p <> [] -> fresh f p q -> chosen_name f p q.
  Proof.
    intros Hp [[H ->]|[H [n [-> [H1 H2]]]]]; [left; auto|]. right. split; [exact H|]. exists n.
    split; [apply with_counter_iff; auto|]. split; [exact H1|]. intros m q' Hm Hq. apply with_counter_iff in Hq.
    destruct Hq as [_ ->]. auto.
  Qed.
  Lemma saver_saves_new f p w : writes_for p w -> suffix p <> [] -> saves_new f p (saver p false w).
  Proof.
    intros Hw Hs f' r H. split; [exact (saver_keeps _ _ _ _ _ Hw H)|]. intros q ->.
    destruct (saver_fresh _ _ _ _ _ Hw Hs H) as [A [B C]]. repeat split; auto.
    apply fresh_chosen; [now apply suffix_ne|exact C].
  Qed.
  Lemma saves_new_ext f p (m m' : M path) : m f = m' f -> saves_new f p m' -> saves_new f p m.
  Proof. intros E H f' r Hm. rewrite E in Hm. now apply H. Qed.

  Section Ext.
    Variables (acc : list text) (ext : text).
    Hypothesis Hext : is_ext ext.
    Hypothesis Hacc : forall x, In x acc -> x <> [].
    Lemma wanted_suffix p0 p : wanted acc ext p0 p -> p0 <> [] -> Forall good_comp p0 -> suffix p <> [].
    Proof.
      intros Hw H0 Hg. apply wanted_default in Hw; auto. apply default_ext_suffix in Hw; auto. tauto.
    Qed.
  End Ext.
  Lemma txt_accs x : In x [lit ".txt"; lit ".dat"] -> x <> []. Proof. intros [<-|[<-|[]]]; discriminate. Qed.
  Lemma json_accs x : In x [lit ".json"] -> x <> []. Proof. intros [<-|[]]; discriminate. Qed.
  Lemma pkl_accs x : In x [lit ".pkl"] -> x <> []. Proof. intros [<-|[]]; discriminate. Qed.
  Lemma hdf_accs x : In x hdf_exts -> x <> []. Proof. intros [<-|[<-|[<-|[<-|[]]]]]; discriminate. Qed.

  Variable Hcwd : Forall good_comp cwd.
  Lemma path_good s : Forall good_comp (get_path win cwd s).
  Proof. now apply resolve_good. Qed.
  Lemma saves_new_target acc ext s p w f (m : M path) : is_ext ext -> (forall x, In x acc -> x <> []) ->
    wanted acc ext (get_path win cwd s) p -> writes w ->
    (forall f, m f = match target win cwd acc ext s with Ok p => saver p false w f | Err e => (f, Err e) end) ->
    saves_new f p m.
  Proof.
    intros He Ha Hw Hwr Hm. pose proof (wanted_ne _ _ _ _ Hw) as H0. pose proof (path_good s) as Hg.
    apply (saves_new_ext f p m (saver p false w)).
    - rewrite Hm. unfold target. now rewrite (wanted_default _ _ _ _ H0 Hg Hw).
    - apply saver_saves_new; [now apply writes_writes_for|]. eapply wanted_suffix; eauto.
  Qed.

  Lemma txt_new str_ s x y facts f p : wanted [lit ".txt"; lit ".dat"] (lit ".txt") (get_path win cwd s) p ->
    saves_new f p (save_metadata_txt win cwd str_ s x y facts false).
  Proof.
    intros Hw. eapply saves_new_target; [apply is_ext_txt|apply txt_accs|exact Hw|apply w_text_writes|].
    intros g. apply save_txt_saver.
  Qed.
  Lemma json_new {X} repr (to_float : X -> res T) s x y facts f p : wanted [lit ".json"] (lit ".json") (get_path win cwd s) p ->
    saves_new f p (save_metadata_json win cwd repr to_float s x y facts false).
  Proof.
    intros Hw. eapply saves_new_target; [apply is_ext_json|apply json_accs|exact Hw|apply json_writes|].
    intros g. apply save_json_saver.
  Qed.
  Lemma pkl_new {P} (pdump : P -> text * option exn) s v f p : wanted [lit ".pkl"] (lit ".pkl") (get_path win cwd s) p ->
    saves_new f p (save_python_list win cwd pdump s v false).
  Proof.
    intros Hw. eapply saves_new_target; [apply is_ext_pkl|apply pkl_accs|exact Hw|apply w_bytes_writes|].
    intros g. apply save_pkl_saver.
  Qed.
  Lemma hdf_new s idata key f p : wanted hdf_exts (lit ".hdf") (get_path win cwd s) p ->
    saves_new f p (save_hdf_file win cwd s idata key false).
  Proof.
    intros Hw. eapply saves_new_target; [apply is_ext_hdf|apply hdf_accs|exact Hw|apply w_hdf_writes|].
    intros g. apply save_hdf_saver.
  Qed.
  Lemma stream_new s shape key dt options f p : wanted hdf_exts (lit ".hdf") (get_path win cwd s) p ->
    saves_new f p (open_hdf_stream win cwd s shape key dt false options).
  Proof.
    intros Hw. eapply saves_new_target; [apply is_ext_hdf|apply hdf_accs|exact Hw|apply w_stream_writes|].
    intros g. apply stream_saver.
  Qed.

  (** Images: an extension known to PIL is not empty and has no underscore, so
      a name without extension never succeeds. *)
  Lemma under_after_dot (x y a e : text) : x ++ lit "_" ++ y = a ++ dot :: e -> no_dot y -> In "_"%char e.
  Proof.
    intros E Hy. change (lit "_" ++ y) with ("_"%char :: y) in E. apply app_eq_app in E.
    destruct E as [l [[-> E]|[-> E]]]; destruct l as [|c l].
    - discriminate.
    - injection E as <- ->. apply in_app_iff. right. now left.
    - discriminate.
    - injection E as <- ->. exfalso. rewrite no_dot_in in Hy. apply Hy. apply in_app_iff. right. now left.
  Qed.
  Lemma dec4_no_dot n : no_dot (dec4 n).
  Proof. unfold no_dot, dec4. eapply Forall_impl; [|apply uint_digits]. intros c Hc ->. discriminate. Qed.
  Lemma lower_under e : In "_"%char e -> In "_"%char (lower e).
  Proof. intros H. unfold lower. apply in_map_iff. exists "_"%char. auto. Qed.
  Lemma no_suffix_numbered p n : suffix p = [] -> suffix (numbered p n) = [] \/ In "_"%char (suffix (numbered p n)).
  Proof.
    intros Es. unfold suffix, numbered. rewrite pname_app. fold (suffix p). rewrite Es, app_nil_r.
    destruct (suffix_of_cases (stem p ++ lit "_" ++ dec4 n)) as [[E _]|[a [e [E [Ha [He [Hd [-> _]]]]]]]]; [now left|].
    right. right. eapply under_after_dot; [exact E|apply dec4_no_dot].
  Qed.
  Lemma image_new pil_array (pil_ext : text -> image T -> bool) s im f :
    (forall e m, pil_ext e m = true -> e <> [] /\ ~ In "_"%char e) ->
    saves_new f (get_path win cwd s) (save_image win cwd pil_array pil_ext s im false).
  Proof.
    intros Hpil f' r H. rewrite save_image_saver in H. set (p := get_path win cwd s) in *.
    destruct (prepare_image (suffix p) im) as [im'|e].
    - pose proof (w_img_writes pil_array pil_ext im') as Hw.
      destruct (suffix p) as [|c e] eqn:Es.
      + split; [exact (saver_keeps _ _ _ _ _ (writes_writes_for _ _ Hw) H)|]. intros q ->. exfalso.
        destruct (saver_last _ _ _ _ _ _ H) as [[g [q' [Hq [_ [_ Hf]]]]]|[e [He _]]]; [|discriminate].
        destruct (w_img_done _ _ _ _ _ _ _ Hq) as [[e [He _]]|[_ [_ [_ Hx]]]]; [discriminate|].
        apply Hpil in Hx. destruct Hx as [Hx1 Hx2].
        assert (E : suffix q' = [] \/ In "_"%char (suffix q')).
        { destruct (Hf eq_refl) as [[_ ->]|[_ [n [-> _]]]]; [now left|]. now apply no_suffix_numbered. }
        destruct E as [E|E]; [rewrite E in Hx1; now apply Hx1|]. apply Hx2. now apply lower_under.
      + revert f' r H. change (saves_new f p (saver p false (w_img pil_array pil_ext im'))). apply saver_saves_new; [now apply writes_writes_for|congruence].
    - injection H as <- <-. split; [apply keeps_refl|]. discriminate.
  Qed.

  Definition has_format_spec (name : text) : Prop :=
    exists a e, name = a ++ dot :: e /\ e <> [] /\ ~ In dot e /\ exists c, In c a /\ c <> dot.
  Lemma has_format_spec_iff name : has_format_spec name <-> has_format name.
  Proof.
    unfold has_format_spec, has_format. split; intros [a [e [E [He [Hd Hx]]]]]; exists a, e; repeat split; auto.
    - now apply no_dot_in.
    - apply Exists_exists. exact Hx.
    - now apply no_dot_in.
    - apply Exists_exists in Hx. exact Hx.
  Qed.
  Lemma plot_new mpl_format s f : has_format_spec (pname (get_path win cwd s)) ->
    saves_new f (get_path win cwd s) (save_plot_image (T := T) win cwd mpl_format s false) /\
    saves_new f (get_path win cwd s) (save_residual_plot (T := T) win cwd mpl_format s false) /\
    saves_new f (get_path win cwd s) (save_plot_points (T := T) win cwd mpl_format s false).
  Proof.
    intros H. apply has_format_spec_iff in H.
    assert (S : saves_new f (get_path win cwd s) (saver (get_path win cwd s) false (w_fig mpl_format))).
    { apply saver_saves_new; [now apply w_fig_for|now apply has_format_suffix]. }
    (split; [|split]); (eapply saves_new_ext; [|exact S]).
    - apply plot_image_saver.
    - apply residual_saver.
    - apply plot_points_saver.
  Qed.

  (** *** Saving succeeds *)
  Definition saved_with (f : FS) (ow : bool) (p : path) (m : M path) : Prop :=
    exists f' q, m f = (f', Ok q) /\ (ow = true -> q = p) /\ (ow = false -> chosen_name f p q) /\
      exists c, look f' q = Some (File c).
  Lemma writable_parent f p : p <> [] -> writable f p ->
    (forall d b, parent p = d ++ b -> is_file f d = false).
  Proof.
    intros Hp [H _] d b E. apply (H d (b ++ [pname p])); [|destruct b; discriminate].
    rewrite (split_last_name p Hp), E at 1. now rewrite <- app_assoc.
  Qed.
  Lemma saver_succeeds f p ow w : suffix p <> [] -> writable f p -> writes_for p w ->
    (forall g q, look g (parent q) = Some Dir -> look g q <> Some Dir -> q <> [] -> (q = p \/ exists n, q = numbered p n) ->
       exists g', w q g = (g', Ok q)) ->
    saved_with f ow p (saver p ow w).
  Proof.
    intros Hs Hw Hwr Hok. pose proof (suffix_ne p Hs) as Hp. pose proof (writable_parent f p Hp Hw) as Hpar.
    destruct (saver_reaches p ow w f Hs Hpar) as [g [q [E [K [D [Pq [O1 [O2 [L Hq]]]]]]]]].
    destruct (Hok g q) as [g' Hg'].
    - rewrite Pq. exact D.
    - rewrite L. destruct ow.
      + rewrite (O1 eq_refl). apply Hw.
      + specialize (O2 eq_refl). apply fresh_none in O2. rewrite O2. discriminate.
    - exact Hq.
    - destruct ow; [left; auto|]. destruct (O2 eq_refl) as [[_ ->]|[_ [n [-> _]]]]; [now left|right; eauto].
    - exists g', q. rewrite E, Hg'. split; [reflexivity|]. split; [exact O1|]. split.
      + intros Ho. apply fresh_chosen; auto.
      + assert (Hwq : writes_at w q).
        { destruct ow; [rewrite (O1 eq_refl); apply Hwr|]. eapply fresh_writes; [exact Hwr|apply O2; reflexivity]. }
        destruct (Hwq _ _ _ Hg') as [_ B]. destruct (B q eq_refl) as [_ [c Hc]]. eauto.
  Qed.
  Lemma saved_with_ext f ow p (m m' : M path) : m f = m' f -> saved_with f ow p m' -> saved_with f ow p m.
  Proof. intros E [f' [q [H1 H2]]]. exists f', q. rewrite E. auto. Qed.
  Lemma target_wanted acc ext s p : wanted acc ext (get_path win cwd s) p -> target win cwd acc ext s = Ok p.
  Proof. intros Hw. unfold target. apply wanted_default; auto; [now apply wanted_ne in Hw|apply path_good]. Qed.
  Lemma target_saved acc ext s p w ow f (m : M path) : is_ext ext -> (forall x, In x acc -> x <> []) ->
    wanted acc ext (get_path win cwd s) p -> writable f p -> writes w ->
    (forall f, m f = match target win cwd acc ext s with Ok p => saver p ow w f | Err e => (f, Err e) end) ->
    (forall g q, look g (parent q) = Some Dir -> look g q <> Some Dir -> q <> [] -> exists g', w q g = (g', Ok q)) ->
    saved_with f ow p m.
  Proof.
    intros He Ha Hw Hwr Hws Hm Hok. eapply saved_with_ext; [rewrite Hm, (target_wanted _ _ _ _ Hw); reflexivity|].
    apply saver_succeeds; auto; [|now apply writes_writes_for].
    eapply wanted_suffix; eauto; [now apply wanted_ne in Hw|apply path_good].
  Qed.
  Lemma txt_saved str_ s x y facts ow f p : wanted [lit ".txt"; lit ".dat"] (lit ".txt") (get_path win cwd s) p ->
    writable f p -> saved_with f ow p (save_metadata_txt win cwd str_ s x y facts ow).
  Proof.
    intros Hw Hr. eapply target_saved; [apply is_ext_txt|apply txt_accs|exact Hw|exact Hr|apply w_text_writes|intros g; apply save_txt_saver|].
    intros g q H1 H2 H3. unfold w_text, ibind. rewrite write_ok by assumption. eexists. reflexivity.
  Qed.
  Lemma json_saved {X} repr (to_float : X -> res T) s x y facts ow f p xc yc j :
    wanted [lit ".json"] (lit ".json") (get_path win cwd s) p ->
    to_float x = Ok xc -> to_float y = Ok yc -> plain facts = Some j ->
    writable f p -> saved_with f ow p (save_metadata_json win cwd repr to_float s x y facts ow).
  Proof.
    intros Hw Hx Hy Hj Hr. eapply target_saved; [apply is_ext_json|apply json_accs|exact Hw|exact Hr|apply json_writes|intros g; apply save_json_saver|].
    intros g q H1 H2 H3. rewrite Hx, Hy. unfold lift, w_text, ibind. cbn beta iota.
    rewrite write_ok by assumption. rewrite (dump_meta_ok repr xc yc facts j Hj). eexists. reflexivity.
  Qed.
  Lemma pkl_saved {P} (pdump : P -> text * option exn) s v ow f p : wanted [lit ".pkl"] (lit ".pkl") (get_path win cwd s) p ->
    snd (pdump v) = None -> writable f p -> saved_with f ow p (save_python_list win cwd pdump s v ow).
  Proof.
    intros Hw Hd Hr. eapply target_saved; [apply is_ext_pkl|apply pkl_accs|exact Hw|exact Hr|apply w_bytes_writes|intros g; apply save_pkl_saver|].
    intros g q H1 H2 H3. unfold w_bytes, ibind. rewrite write_ok by assumption. rewrite Hd. eexists. reflexivity.
  Qed.
  Lemma hdf_saved s idata key ow f p : wanted hdf_exts (lit ".hdf") (get_path win cwd s) p ->
    comps key <> [] -> writable f p -> saved_with f ow p (save_hdf_file win cwd s idata key ow).
  Proof.
    intros Hw Hk Hr. eapply target_saved; [apply is_ext_hdf|apply hdf_accs|exact Hw|exact Hr|apply w_hdf_writes|intros g; apply save_hdf_saver|].
    intros g q H1 H2 H3. unfold w_hdf, as_value_error, ibind, lift, update_file. rewrite write_ok by assumption.
    destruct (comps key) as [|c cs]; [congruence|]. cbn [hcreate]. eexists. reflexivity.
  Qed.
  Lemma stream_saved s shape key dt ow options f p root root' : wanted hdf_exts (lit ".hdf") (get_path win cwd s) p ->
    (forall k d, In (k, d) (flat_map snd options) -> contains key k = false) ->
    add_all (flat_map snd options) HNil = Ok root -> hcreate (comps key) (HData (zeros dt shape)) root = Ok root' ->
    writable f p -> saved_with f ow p (open_hdf_stream win cwd s shape key dt ow options).
  Proof.
    intros Hw Hk Ha Hc Hr. eapply target_saved; [apply is_ext_hdf|apply hdf_accs|exact Hw|exact Hr|apply w_stream_writes|intros g; apply stream_saver|].
    intros g q H1 H2 H3. unfold w_stream, as_value_error. unfold ibind at 1. rewrite write_ok by assumption.
    destruct (stream_options_ok key q (flat_map snd options) HNil ((q, File (CHdf HNil)) :: g) H3 (look_cons_same _ _ _ H3) Hk root Ha) as [f2 [E _]].
    unfold ibind at 1. rewrite E. unfold ibind, lift, update_file. rewrite Hc. eexists. reflexivity.
  Qed.
  Lemma image_saved pil_array (pil_ext : text -> image T -> bool) s im im' ow f :
    let p := get_path win cwd s in
    prepare_image (suffix p) im = Ok im' -> pil_array im' = true -> pil_ext (lower (suffix p)) im' = true ->
    suffix p <> [] -> writable f p ->
    saved_with f ow p (save_image win cwd pil_array pil_ext s im ow).
  Proof.
    intros p Hi H1 H2 Hs Hr. eapply saved_with_ext; [rewrite save_image_saver; fold p; rewrite Hi; reflexivity|].
    apply saver_succeeds; auto; [apply writes_writes_for, w_img_writes|].
    intros g q A B C D. unfold w_img. rewrite H1. unfold ibind at 1, ret.
    assert (E : suffix q = suffix p).
    { destruct D as [->|[n ->]]; [reflexivity|]. unfold suffix, numbered. rewrite pname_app. fold (suffix p).
      destruct (suffix_nodot (pname p)) as [E|[e [E [E1 E2]]]]; [unfold suffix in Hs; congruence|].
      unfold suffix in Hs |- *. rewrite E. rewrite (app_assoc (lit "_")), app_assoc.
      apply suffix_of_app; auto. destruct (stem p); discriminate. }
    rewrite E, H2. unfold as_value_error, ibind. rewrite write_ok by assumption. eexists. reflexivity.
  Qed.
  Lemma plot_saved mpl_format s ow f a e : let p := get_path win cwd s in
    pname p = a ++ dot :: e -> e <> [] -> ~ In dot e -> (exists c, In c a /\ c <> dot) -> mpl_format e = true -> writable f p ->
    saved_with f ow p (save_plot_image win cwd mpl_format s ow) /\
    saved_with f ow p (save_residual_plot win cwd mpl_format s ow) /\
    saved_with f ow p (save_plot_points win cwd mpl_format s ow).
  Proof.
    intros p En He Hd Hx Hm Hr. assert (Hf : has_format (pname p)) by (apply has_format_spec_iff; exists a, e; auto).
    apply Exists_exists in Hx. apply no_dot_in in Hd.
    assert (S : saved_with f ow p (saver p ow (w_fig mpl_format))).
    { apply saver_succeeds; auto; [now apply has_format_suffix|now apply w_fig_for|].
      intros g q A B C D.
      assert (Eq : exists a', pname q = a' ++ dot :: e /\ Exists (fun c => c <> dot) a').
      { destruct D as [->|[n ->]]; [exists a; auto|]. unfold numbered. rewrite pname_app.
        assert (Ha : a <> []) by (intros ->; inversion Hx).
        destruct (suffix_of_app a e Ha He Hd) as [S1 S2]. unfold stem, suffix. rewrite En, S1, S2.
        exists (a ++ lit "_" ++ dec4 n). split; [now rewrite <- !app_assoc|]. apply Exists_app. now left. }
      destruct Eq as [a' [Eq Hx']]. unfold w_fig, as_value_error, savefig, ibind.
      rewrite (splitext_format _ _ _ Eq He Hd Hx'). cbn [tl]. destruct e as [|c e]; [congruence|].
      rewrite Hm. rewrite write_ok by assumption. eexists. reflexivity. }
    (split; [|split]); (eapply saved_with_ext; [|exact S]).
    - apply plot_image_saver.
    - apply residual_saver.
    - apply plot_points_saver.
  Qed.

  (** *** A spelling of the returned path *)
  Lemma saved_path_good s acc ext p w ow f f' q (m : M path) : is_ext ext -> Forall (fun x => x <> "/"%char) ext ->
    (forall x, In x acc -> x <> []) -> writes w ->
    (forall f, m f = match target win cwd acc ext s with Ok p => saver p ow w f | Err e => (f, Err e) end) ->
    target win cwd acc ext s = Ok p -> m f = (f', Ok q) -> Forall good_comp q.
  Proof.
    intros He Hs Ha Hw Hm Ht H. rewrite Hm, Ht in H. unfold target in Ht.
    pose proof (default_ext_good _ _ _ _ He Hs (path_good s) Ht) as Hg.
    apply default_ext_suffix in Ht; auto. eapply saver_good; [apply writes_writes_for; exact Hw|exact Hg|tauto|exact H].
  Qed.
End S.
