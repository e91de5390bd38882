(** HDF, image and figure savers. *)
From Coq Require Import Ascii String ZifyBool FinFun.
From Verif Require Import Base Text Fs FsFacts Json JsonFacts Hdf Num Losa LosaFacts LosaFacts2.
Local Open Scope nat_scope.

Section S.
  Context {T : Type} {N : Num T}.
  Variables (win : bool) (cwd : path).
  Notation FS := (@FS T).
  Notation M := (io FS).
  Notation target := (target win cwd).
  Implicit Types f : FS.

  (** *** HDF files *)
  Definition w_hdf (idata : dset T) (key : text) (q : path) : M path :=
    _ <-- as_value_error (write_file q (CHdf HNil)) ;;
    root <-- lift (hcreate (comps key) (HGroup (HHard (lit "data") (HData idata) HNil)) HNil) ;;
    _ <-- update_file q (CHdf root) ;; ret q.
  Lemma save_hdf_saver s idata key ow f :
    save_hdf_file win cwd s idata key ow f =
    match target hdf_exts (lit ".hdf") s with
    | Ok p => saver p ow (w_hdf idata key) f
    | Err e => (f, Err e)
    end.
  Proof.
    unfold save_hdf_file, LosaFacts2.target, lift at 1. unfold ibind at 1.
    destruct (default_ext _ _ _) as [p|e]; reflexivity.
  Qed.

  Lemma opened q f f' r : as_value_error (write_file q (CHdf HNil)) f = (f', r) ->
    (r = Err ValueError /\ f' = f) \/
    (r = Ok tt /\ f' = (q, File (CHdf HNil)) :: f /\ q <> [] /\ look f q <> Some Dir /\ look f (parent q) = Some Dir).
  Proof.
    unfold as_value_error. destruct (write_file q (CHdf HNil) f) as [g s] eqn:E.
    destruct (write_file_spec _ _ _ _ _ E) as [[e [-> ->]]|[-> H]]; intros Q; injection Q as <- <-; auto.
  Qed.
  Lemma w_hdf_done idata key q f f' r : w_hdf idata key q f = (f', r) ->
    (exists e, r = Err e /\ f' = f) \/
    (exists e, r = Err e /\ f' = (q, File (CHdf HNil)) :: f /\ q <> [] /\ comps key = []) \/
    (exists root, q <> [] /\ r = Ok q /\ look f' q = Some (File (CHdf root)) /\
       hcreate (comps key) (HGroup (HHard (lit "data") (HData idata) HNil)) HNil = Ok root /\
       forall p, p <> q -> look f' p = look f p).
  Proof.
    unfold w_hdf, ibind. destruct (as_value_error (write_file q (CHdf HNil)) f) as [g s] eqn:E.
    destruct (opened _ _ _ _ E) as [[-> ->]|[-> [-> [Hq _]]]].
    - intros H. injection H as <- <-. left. eauto.
    - unfold lift. destruct (hcreate _ _ _) as [root|e] eqn:Eh.
      + unfold update_file, ret. intros H. injection H as <- <-. right. right. exists root.
        split; [exact Hq|]. split; [reflexivity|]. split; [now apply look_cons_same|]. split; [reflexivity|].
        intros p Hp. now rewrite !look_cons_other.
      + intros H. injection H as <- <-. right. left. exists e. repeat split; auto.
        destruct (comps key); [reflexivity|]. discriminate.
  Qed.
  Lemma w_hdf_writes idata key : writes (w_hdf idata key).
  Proof.
    intros q f f' r H. destruct (w_hdf_done _ _ _ _ _ _ H) as [[e [-> ->]]|[[e [-> [-> _]]]|[root [_ [-> [L [_ O]]]]]]].
    - split; [reflexivity|discriminate].
    - split; [|discriminate]. intros p Hp. now apply look_cons_other.
    - split; [exact O|]. intros q' Q. injection Q as <-. eauto.
  Qed.

  (** *** HDF streams *)
  Definition zeros (data_type : text) (shape : list Z) : dset T :=
    {| dtype := data_type; darr := {| nshape := shape; nval := fun _ => nofZ 0 |} |}.
  Definition w_stream (key dt : text) (shape : list Z) (opts : list (text * dset T)) (q : path) : M path :=
    _ <-- as_value_error (write_file q (CHdf HNil)) ;;
    root <-- stream_options key q HNil opts ;;
    root' <-- lift (hcreate (comps key) (HData (zeros dt shape)) root) ;;
    _ <-- update_file q (CHdf root') ;; ret q.
  Lemma stream_saver s shape key dt ow options f :
    open_hdf_stream win cwd s shape key dt ow options f =
    match target hdf_exts (lit ".hdf") s with
    | Ok p => saver p ow (w_stream key dt shape (flat_map snd options)) f
    | Err e => (f, Err e)
    end.
  Proof.
    unfold open_hdf_stream, LosaFacts2.target, lift at 1. unfold ibind at 1.
    destruct (default_ext _ _ _) as [p|e]; reflexivity.
  Qed.

  (** The trees after adding datasets one by one. *)
  Fixpoint add_all (opts : list (text * dset T)) (root : hitems T) : res (hitems T) :=
    match opts with
    | [] => Ok root
    | (k, d) :: opts' => r <- hcreate (comps k) (HData d) root ;; add_all opts' r
    end.
  Lemma stream_options_ok key q opts : forall root f, q <> [] -> look f q = Some (File (CHdf root)) ->
    (forall k d, In (k, d) opts -> contains key k = false) ->
    forall root', add_all opts root = Ok root' ->
    exists f', stream_options key q root opts f = (f', Ok root') /\ look f' q = Some (File (CHdf root')) /\
      (forall p, p <> q -> look f' p = look f p).
  Proof.
    induction opts as [|[k d] opts IH]; intros root f Hq Hf Hk root' Ha.
    - injection Ha as <-. exists f. auto.
    - cbn [stream_options]. rewrite (Hk k d) by now left. cbn [add_all] in Ha.
      destruct (hcreate (comps k) (HData d) root) as [r|e] eqn:Eh; [|discriminate]. cbn [bind] in Ha.
      unfold ibind, lift, update_file. cbn beta iota.
      edestruct (IH r ((q, File (CHdf r)) :: f)) as [f' [E [L O]]].
      + exact Hq.
      + now apply look_cons_same.
      + intros k' d' Hi. apply (Hk k' d'). now right.
      + exact Ha.
      + exists f'. split; [exact E|]. split; [exact L|]. intros p Hp. rewrite O by assumption. now apply look_cons_other.
  Qed.
  Lemma stream_options_frame key q opts : forall root f f' r, q <> [] -> look f q = Some (File (CHdf root)) ->
    stream_options key q root opts f = (f', r) ->
    (exists root', look f' q = Some (File (CHdf root'))) /\ (forall p, p <> q -> look f' p = look f p).
  Proof.
    induction opts as [|[k d] opts IH]; intros root f f' r Hq Hf; cbn [stream_options].
    - intros H. injection H as <- <-. eauto.
    - destruct (contains key k); [intros H; injection H as <- <-; eauto|].
      unfold ibind, lift, update_file. destruct (hcreate (comps k) (HData d) root) as [r'|e]; [|intros H; injection H as <- <-; eauto].
      intros H. destruct (IH _ _ _ _ Hq (look_cons_same f q _ Hq) H) as [A B]. split; [exact A|].
      intros p Hp. rewrite B by assumption. now apply look_cons_other.
  Qed.
  (** A key that contains the key path. *)
  Lemma stream_options_bad key q opts : forall root f f' r,
    (exists k d, In (k, d) opts /\ contains key k = true) ->
    stream_options key q root opts f = (f', r) -> exists e, r = Err e.
  Proof.
    induction opts as [|[k d] opts IH]; intros root f f' r [k' [d' [Hin Hc]]]; [destruct Hin|].
    cbn [stream_options]. destruct (contains key k) eqn:E.
    - intros H. injection H as <- <-. eauto.
    - unfold ibind, lift, update_file. destruct (hcreate (comps k) (HData d) root) as [r'|e]; [|intros H; injection H as <- <-; eauto].
      apply IH. exists k', d'. split; [|exact Hc]. destruct Hin as [H|H]; [|exact H]. injection H as -> ->. congruence.
  Qed.
  Lemma stream_options_stop key q opts1 k d opts2 : forall root f, q <> [] -> look f q = Some (File (CHdf root)) ->
    (forall k d, In (k, d) opts1 -> contains key k = false) -> contains key k = true ->
    forall root', add_all opts1 root = Ok root' ->
    exists f', stream_options key q root (opts1 ++ (k, d) :: opts2) f = (f', Err ValueError) /\
      look f' q = Some (File (CHdf root')).
  Proof.
    induction opts1 as [|[k1 d1] opts1 IH]; intros root f Hq Hf Hk Hc root' Ha.
    - injection Ha as <-. exists f. cbn [app stream_options]. rewrite Hc. auto.
    - cbn [app stream_options]. rewrite (Hk k1 d1) by now left. cbn [add_all] in Ha.
      destruct (hcreate (comps k1) (HData d1) root) as [r|e] eqn:Eh; [|discriminate]. cbn [bind] in Ha.
      unfold ibind, lift, update_file. cbn beta iota.
      apply IH; auto; [now apply look_cons_same|]. intros k' d' Hi. apply (Hk k' d'). now right.
  Qed.

  Lemma w_stream_writes key dt shape opts : writes (w_stream key dt shape opts).
  Proof.
    intros q f f' r. unfold w_stream, ibind at 1. destruct (as_value_error (write_file q (CHdf HNil)) f) as [g s] eqn:E.
    destruct (opened _ _ _ _ E) as [[-> ->]|[-> [-> [Hq _]]]].
    - intros H. injection H as <- <-. split; [reflexivity|discriminate].
    - unfold ibind at 1. destruct (stream_options _ _ _ _ _) as [h s] eqn:Es.
      destruct (stream_options_frame _ _ _ _ _ _ _ Hq (look_cons_same f q _ Hq) Es) as [[r0 A] B].
      destruct s as [root|e].
      + unfold ibind, lift. destruct (hcreate _ _ _) as [root'|e].
        * unfold update_file, ret. intros H. injection H as <- <-. split.
          -- intros p Hp. rewrite look_cons_other by assumption. rewrite B by assumption. now apply look_cons_other.
          -- intros q' Q. injection Q as <-. split; [reflexivity|]. eexists. now apply look_cons_same.
        * intros H. injection H as <- <-. split; [|discriminate]. intros p Hp. rewrite B by assumption. now apply look_cons_other.
      + intros H. injection H as <- <-. split; [|discriminate]. intros p Hp. rewrite B by assumption. now apply look_cons_other.
  Qed.

  (** *** Images *)
  Variables (pil_array : image T -> bool) (pil_ext : text -> image T -> bool).
  Definition w_img (im : image T) (q : path) : M path :=
    _ <-- (if pil_array im then ret tt else throw TypeError) ;;
    _ <-- as_value_error (if pil_ext (lower (suffix q)) im then write_file q (CImage (lower (suffix q)) im) else throw External) ;;
    ret q.
  Lemma save_image_saver s im ow f :
    save_image win cwd pil_array pil_ext s im ow f =
    match prepare_image (suffix (get_path win cwd s)) im with
    | Ok im' => saver (get_path win cwd s) ow (w_img im') f
    | Err e => (f, Err e)
    end.
  Proof.
    unfold save_image, lift. unfold ibind at 1. destruct (prepare_image _ _) as [im'|e]; reflexivity.
  Qed.
  Lemma w_img_done im q f f' r : w_img im q f = (f', r) ->
    (exists e, r = Err e /\ f' = f) \/
    (r = Ok q /\ f' = (q, File (CImage (lower (suffix q)) im)) :: f /\ q <> [] /\ pil_ext (lower (suffix q)) im = true).
  Proof.
    unfold w_img, ibind. destruct (pil_array im); [|intros H; injection H as <- <-; left; eauto].
    unfold ret at 1, as_value_error. destruct (pil_ext (lower (suffix q)) im) eqn:Ep.
    - destruct (write_file _ _ f) as [g s] eqn:E.
      destruct (write_file_spec _ _ _ _ _ E) as [[e [-> ->]]|[-> [-> [Hq _]]]].
      + intros H. injection H as <- <-. left. eauto.
      + intros H. injection H as <- <-. right. auto.
    - intros H. injection H as <- <-. left. eauto.
  Qed.
  Lemma w_img_writes im : writes (w_img im).
  Proof.
    intros q f f' r H. destruct (w_img_done _ _ _ _ _ H) as [[e [-> ->]]|[-> [-> [Hq _]]]].
    - split; [reflexivity|discriminate].
    - split; [intros p Hp; now apply look_cons_other|]. intros q' Q. injection Q as <-. split; [reflexivity|].
      eexists. now apply look_cons_same.
  Qed.

  (** *** Figures *)
  Variable mpl_format : text -> bool.
  Definition w_fig (q : path) : M path := _ <-- as_value_error (savefig mpl_format q) ;; ret q.
  Lemma plot_image_saver s ow f : save_plot_image win cwd mpl_format s ow f = saver (get_path win cwd s) ow w_fig f.
  Proof. reflexivity. Qed.
  Lemma residual_saver s ow f : save_residual_plot win cwd mpl_format s ow f = saver (get_path win cwd s) ow w_fig f.
  Proof. reflexivity. Qed.
  Lemma plot_points_saver s ow f : save_plot_points win cwd mpl_format s ow f = saver (get_path win cwd s) ow w_fig f.
  Proof. reflexivity. Qed.

  (** A name that matplotlib takes with its extension. *)
  Definition has_format (name : text) : Prop :=
    exists a e, name = a ++ dot :: e /\ e <> [] /\ no_dot e /\ Exists (fun c => c <> dot) a.
  Lemma splitext_format name a e : name = a ++ dot :: e -> e <> [] -> no_dot e -> Exists (fun c => c <> dot) a ->
    splitext_ext name = dot :: e.
  Proof.
    intros -> He Hd Ha. unfold splitext_ext. rewrite rfind_dot_app by assumption. rewrite Nat2Z.id.
    rewrite firstn_app, firstn_all, Nat.sub_diag. cbn [firstn]. rewrite app_nil_r.
    assert (X : existsb (fun c => negb (aeqb c dot)) a = true).
    { apply existsb_exists. apply Exists_exists in Ha. destruct Ha as [c [Hc Hn]]. exists c. split; [exact Hc|].
      unfold aeqb. destruct (Ascii.eqb_spec c dot); [congruence|reflexivity]. }
    rewrite X. replace ((0 <=? Z.of_nat (List.length a))%Z) with true by (symmetry; lia). cbn [andb].
    rewrite skipn_app, skipn_all, Nat.sub_diag. reflexivity.
  Qed.
  Lemma has_format_suffix p : has_format (pname p) -> suffix p <> [].
  Proof.
    intros [a [e [E [He [Hd Ha]]]]]. unfold suffix. rewrite E.
    destruct (suffix_of_app a e) as [-> _]; auto; [|discriminate]. intros ->. inversion Ha.
  Qed.
  Lemma numbered_format p n : has_format (pname p) -> has_format (pname (numbered p n)).
  Proof.
    intros [a [e [E [He [Hd Ha]]]]]. unfold numbered. rewrite pname_app. unfold stem, suffix. rewrite E.
    destruct (suffix_of_app a e) as [-> ->]; auto; [intros ->; inversion Ha|].
    exists (a ++ lit "_" ++ dec4 n), e. rewrite <- !app_assoc. repeat split; auto.
    apply Exists_app. now left.
  Qed.
  Lemma w_fig_at q : has_format (pname q) -> writes_at w_fig q.
  Proof.
    intros [a [e [E [He [Hd Ha]]]]] f f' r. unfold w_fig, ibind, as_value_error, savefig.
    rewrite (splitext_format _ _ _ E He Hd Ha). cbn [tl]. destruct e as [|c e]; [congruence|].
    destruct (mpl_format (c :: e)).
    - destruct (write_file _ _ f) as [g s] eqn:Ew.
      destruct (write_file_spec _ _ _ _ _ Ew) as [[x [-> ->]]|[-> [-> [Hq _]]]].
      + intros H. injection H as <- <-. split; [reflexivity|discriminate].
      + intros H. injection H as <- <-. split; [intros p Hp; now apply look_cons_other|].
        intros q' Q. injection Q as <-. split; [reflexivity|]. eexists. now apply look_cons_same.
    - intros H. injection H as <- <-. split; [reflexivity|discriminate].
  Qed.
  Lemma w_fig_for p : has_format (pname p) -> writes_for p w_fig.
  Proof. intros H. split; [now apply w_fig_at|]. intros n. now apply w_fig_at, numbered_format. Qed.
End S.
