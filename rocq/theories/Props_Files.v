(** Loading from files (C105) and where figures are written (C106). *)
From Coq Require Import Ascii String ZArith List Lia Floats ZifyBool.
From Verif Require Import Base Text Fs FsFacts Json Hdf HdfFacts Num Losa LosaFacts LosaFacts2 LosaFacts3 LosaSpec LosaFacts4
  LosaFacts5 LosaFacts6 Props_Losa.
Local Open Scope nat_scope.

(** ** C105 *)
(** Nothing exists at the path: ValueError, by every function that loads or
    lists a file. *)
Theorem C105_missing : forall {T P} {N : Num T} win cwd s (f : @FS T), look f (get_path win cwd s) = None ->
  (forall average, load_image win cwd s average f = (f, Err ValueError)) /\
  (forall key index axis, load_hdf_file win cwd s key index axis f = (f, Err ValueError)) /\
  (forall key, load_hdf_object win cwd s key f = (f, Err ValueError)) /\
  hdf_information win cwd s f = (f, Err ValueError) /\
  (forall pattern, hdf_find_key win cwd s pattern f = (f, Err ValueError)) /\
  (forall float_, load_metadata_txt win cwd float_ s f = (f, Err ValueError)) /\
  (forall parse_float, load_metadata_json win cwd parse_float s f = (f, Err ValueError)) /\
  (forall pload : text -> res P, load_python_list win cwd pload s f = (f, Err ValueError)).
Proof.
  intros T P N win cwd s f H.
  assert (E : exists_ f (get_path win cwd s) = false) by (unfold exists_; now rewrite H).
  unfold load_image, load_hdf_file, load_hdf_object, hdf_information, hdf_find_key, load_metadata_txt, load_metadata_json, load_python_list,
    checked_path, as_value_error, ibind, get, ret, throw. rewrite E, H. repeat split.
Qed.
Print Assumptions C105_missing.
(** A directory is never taken for a file. *)
Theorem C105_directory : forall {T P} {N : Num T} win cwd s (f : @FS T), look f (get_path win cwd s) = Some Dir ->
  (forall average, load_image win cwd s average f = (f, Err ValueError)) /\
  (forall key index axis, load_hdf_file win cwd s key index axis f = (f, Err ValueError)) /\
  (forall key, load_hdf_object win cwd s key f = (f, Err ValueError)) /\
  hdf_information win cwd s f = (f, Err OSError) /\
  (forall pattern, hdf_find_key win cwd s pattern f = (f, Err OSError)) /\
  (forall float_, load_metadata_txt win cwd float_ s f = (f, Err OSError)) /\
  (forall parse_float, load_metadata_json win cwd parse_float s f = (f, Err OSError)) /\
  (forall pload : text -> res P, load_python_list win cwd pload s f = (f, Err OSError)).
Proof.
  intros T P N win cwd s f H.
  assert (E : exists_ f (get_path win cwd s) = true) by (unfold exists_; now rewrite H).
  unfold load_image, load_hdf_file, load_hdf_object, hdf_information, hdf_find_key, load_metadata_txt, load_metadata_json, load_python_list,
    checked_path, open_hdf, read_text, read_file, as_value_error, ibind, get, ret, throw. rewrite E, H. repeat split.
Qed.
Print Assumptions C105_directory.
(** Whatever the arguments and the outcome, nothing is written. *)
Theorem C105_read_only : forall {T P} {N : Num T} win cwd s (f : @FS T),
  (forall average, fst (load_image win cwd s average f) = f) /\
  (forall key index axis, fst (load_hdf_file win cwd s key index axis f) = f) /\
  (forall key, fst (load_hdf_object win cwd s key f) = f) /\
  fst (hdf_information win cwd s f) = f /\
  (forall pattern, fst (hdf_find_key win cwd s pattern f) = f) /\
  (forall float_, fst (load_metadata_txt win cwd float_ s f) = f) /\
  (forall parse_float, fst (load_metadata_json win cwd parse_float s f) = f) /\
  (forall pload : text -> res P, fst (load_python_list win cwd pload s f) = f).
Proof.
  intros T P N win cwd s f.
  unfold load_image, load_hdf_file, load_hdf_object, hdf_information, hdf_find_key, load_metadata_txt, load_metadata_json, load_python_list,
    checked_path, open_hdf, read_text, read_file, as_value_error, ibind, get, ret, throw, lift.
  destruct (exists_ f (get_path win cwd s)), (look f (get_path win cwd s)) as [[|[]]|]; repeat split; intros; try reflexivity.
  destruct (lookup _ key); reflexivity.
Qed.
Print Assumptions C105_read_only.
Example C105_ex : look ex_fs (get_path false home (lit "b.json")) = None /\ look ex_fs (get_path false home (lit "/home")) = Some Dir /\
  load_metadata_json false home ex_parse (lit "b.json") ex_fs = (ex_fs, Err ValueError) /\
  load_metadata_json false home ex_parse (lit "a.txt") ex_fs = (ex_fs, Err ValueError).
Proof. repeat split. Qed.

(** ** C106 *)
(** The name without the dots at its end. *)
Definition bare (name b : text) : Prop :=
  exists n, name = b ++ repeat dot n /\ (b = [] \/ exists b' c, b = b' ++ [c] /\ c <> dot).
Lemma lstrip_spec s : exists n, s = repeat dot n ++ lstrip_dots s /\
  (lstrip_dots s = [] \/ exists c r, lstrip_dots s = c :: r /\ c <> dot).
Proof.
  induction s as [|c s IH]; cbn [lstrip_dots]; [exists 0; auto|]. unfold aeqb. destruct (Ascii.eqb_spec c dot) as [->|N].
  - destruct IH as [n [E H]]. exists (S n). split; [cbn [repeat app]; now f_equal|exact H].
  - exists 0. split; [reflexivity|]. right. eauto.
Qed.
Lemma bare_rstrip name : bare name (rstrip_dots name).
Proof.
  unfold rstrip_dots. destruct (lstrip_spec (rev name)) as [n [E H]]. exists n. split.
  - apply (f_equal (@rev ascii)) in E. rewrite rev_involutive, rev_app_distr in E. rewrite E at 1. f_equal.
    clear. induction n as [|n IH]; [reflexivity|]. cbn [repeat rev]. rewrite IH. clear. induction n; cbn; congruence.
  - destruct H as [->|[c [r [-> N]]]]; [now left|right]. exists (rev r), c. split; [reflexivity|exact N].
Qed.
Lemma bare_unique name b b' : bare name b -> bare name b' -> b = b'.
Proof.
  assert (K : forall n m a a', (a = [] \/ exists x c, a = x ++ [c] /\ c <> dot) -> (a' = [] \/ exists x c, a' = x ++ [c] /\ c <> dot) ->
    a ++ repeat dot n = a' ++ repeat dot m -> a = a').
  { assert (R : forall k (x : text), x ++ repeat dot (S k) = (x ++ repeat dot k) ++ [dot]).
    { intros k x. rewrite <- app_assoc. f_equal. induction k; [reflexivity|]. cbn [repeat app] in *. now rewrite IHk. }
    induction n as [|n IH]; intros m a a' Ha Ha' E.
    - destruct m as [|m]; [cbn in E; now rewrite !app_nil_r in E|]. cbn [repeat] in E. rewrite app_nil_r in E.
      change (dot :: repeat dot m) with (repeat dot (S m)) in E. rewrite R in E.
      destruct Ha as [->|[x [c [-> Nc]]]]; [destruct (a' ++ repeat dot m); discriminate E|].
      apply app_inj_tail in E. destruct E as [_ E]. congruence.
    - destruct m as [|m].
      + cbn [repeat] in E. rewrite app_nil_r in E. change (dot :: repeat dot n) with (repeat dot (S n)) in E. rewrite R in E.
        destruct Ha' as [->|[x [c [-> Nc]]]]; [destruct (a ++ repeat dot n); discriminate E|].
        apply app_inj_tail in E. destruct E as [_ E]. congruence.
      + rewrite !R in E. apply app_inj_tail in E. destruct E as [E _]. now apply (IH m). }
  intros [n [E H]] [m [E' H']]. apply (K n m); auto. congruence.
Qed.
Lemma no_format_ext name : ~ has_format_spec name -> tl (splitext_ext name) = [].
Proof.
  intros H. unfold splitext_ext. destruct ((0 <=? rfind_dot name)%Z && _) eqn:B; [|reflexivity].
  apply andb_prop in B. destruct B as [B1 B2]. apply existsb_exists in B2. destruct B2 as [c [Ic Nc]].
  destruct (tl (skipn _ name)) as [|x r] eqn:E; [reflexivity|]. exfalso.
  destruct (last_dot name) as [I|[a [e [En Hd]]]].
  - unfold rfind_dot in B1. rewrite rfind_from_nodot in B1 by exact I. discriminate B1.
  - rewrite En in *. rewrite rfind_dot_app in * by exact Hd. rewrite Nat2Z.id in *.
    rewrite firstn_app, firstn_all, Nat.sub_diag in Ic. cbn [firstn] in Ic. rewrite app_nil_r in Ic.
    rewrite skipn_app, skipn_all, Nat.sub_diag in E. cbn [skipn app tl] in E.
    apply H. exists a, e. split; [reflexivity|]. split; [congruence|]. split; [now apply no_dot_in|]. exists c. split; [exact Ic|].
    intros ->. unfold aeqb in Nc. rewrite Ascii.eqb_refl in Nc. discriminate Nc.
Qed.
Lemma folder_files {T} p (f f' : @FS T) r : create_folder p f = (f', r) -> forall q c, look f' q = Some (File c) -> look f q = Some (File c).
Proof.
  unfold create_folder, ibind, get. destruct (exists_ f _); [intros H; injection H as <- _; auto|].
  unfold as_value_error. destruct (mkdir_p _ f) as [g s] eqn:E.
  destruct (mkdir_p_spec _ _ _ _ E) as [[-> [-> _]]|[-> [_ [A B]]]]; intros H; injection H as <- _; [auto|].
  intros q c L. destruct (in_dec (list_eq_dec (list_eq_dec ascii_dec)) q (prefixes match suffix p with [] => p | _ :: _ => parent p end)) as [I|I].
  - rewrite (A q I) in L. discriminate L.
  - now rewrite (B q I) in L.
Qed.

(** A figure with an extension that the plotting library does not know:
    ValueError, and no file is written or changed. *)
Theorem C106_unsupported : forall {T} {N : Num T} win cwd mpl_format s ow (f f' : @FS T) r a e,
  pname (get_path win cwd s) = a ++ dot :: e -> e <> [] -> ~ In dot e -> (exists c, In c a /\ c <> dot) -> mpl_format e = false ->
  (save_plot_image win cwd mpl_format s ow f = (f', r) \/ save_residual_plot win cwd mpl_format s ow f = (f', r) \/
   save_plot_points win cwd mpl_format s ow f = (f', r)) ->
  r = Err ValueError /\ untouched f f' /\ forall q c, look f' q = Some (File c) -> look f q = Some (File c).
Proof.
  intros T N win cwd mpl_format s ow f f' r a e En He Hd Hx Hm H.
  assert (S : saver (get_path win cwd s) ow (w_fig mpl_format) f = (f', r)).
  { destruct H as [H|[H|H]]; [rewrite <- plot_image_saver|rewrite <- residual_saver|rewrite <- plot_points_saver]; exact H. }
  clear H. revert S. unfold saver, ibind at 1. set (p := get_path win cwd s) in *.
  assert (No : forall q, (exists a', pname q = a' ++ dot :: e /\ Exists (fun c => c <> dot) a') -> forall g : @FS T, w_fig mpl_format q g = (g, Err ValueError)).
  { intros q [a' [Eq Hx']] g. unfold w_fig, as_value_error, savefig, ibind.
    rewrite (splitext_format _ _ _ Eq He (proj2 (no_dot_in e) Hd) Hx'). cbn [tl]. destruct e as [|c e]; [congruence|]. rewrite Hm. reflexivity. }
  destruct (create_folder p f) as [g t] eqn:Ef. pose proof (folder_files _ _ _ _ Ef) as F.
  destruct (create_folder_spec _ _ _ _ Ef) as [K [_ [[->| ->] _]]].
  2: { intros H. injection H as <- <-. auto. }
  apply Exists_exists in Hx. unfold ibind. destruct ow.
  - unfold ret. rewrite No by eauto. intros H. injection H as <- <-. auto.
  - destruct (create_file_name_spec p g) as [q [-> Hq]]. rewrite No; [intros H; injection H as <- <-; auto|].
    destruct Hq as [[_ ->]|[_ [n [-> _]]]]; [eauto|]. unfold numbered. rewrite pname_app.
    assert (Ha : a <> []) by (intros ->; inversion Hx).
    destruct (suffix_of_app a e Ha He (proj2 (no_dot_in e) Hd)) as [S1 S2]. unfold stem, suffix. rewrite En, S1, S2.
    exists (a ++ lit "_" ++ dec4 n). split; [now rewrite <- !app_assoc|]. apply Exists_app. now left.
Qed.
Print Assumptions C106_unsupported.
(** A figure without extension: the path returned is the one asked for, but the
    picture is in the file with '.png' behind the name without its dots at the
    end; no other file is written or changed. *)
Theorem C106_no_extension : forall {T} {N : Num T} win cwd mpl_format s (f f' : @FS T) q b,
  let p0 := get_path win cwd s in
  ~ has_format_spec (pname p0) -> bare (pname p0) b ->
  (save_plot_image win cwd mpl_format s true f = (f', Ok q) \/ save_residual_plot win cwd mpl_format s true f = (f', Ok q) \/
   save_plot_points win cwd mpl_format s true f = (f', Ok q)) ->
  let picture := parent p0 ++ [b ++ lit ".png"] in
  q = p0 /\ look f' picture = Some (File (CFig (lit "png"))) /\
  (forall p c, p <> picture -> look f p = Some (File c) <-> look f' p = Some (File c)).
Proof.
  intros T N win cwd mpl_format s f f' q b p0 Hn Hb H picture.
  assert (S : saver p0 true (w_fig mpl_format) f = (f', Ok q)).
  { unfold p0. destruct H as [H|[H|H]]; [rewrite <- plot_image_saver|rewrite <- residual_saver|rewrite <- plot_points_saver]; exact H. }
  clear H. revert S. unfold saver, ibind at 1.
  destruct (create_folder p0 f) as [g t] eqn:Ef. pose proof (folder_files _ _ _ _ Ef) as F.
  destruct (create_folder_spec _ _ _ _ Ef) as [K [_ [[->| ->] _]]]; [|discriminate].
  unfold ibind, ret, w_fig, as_value_error, savefig. rewrite (no_format_ext _ Hn).
  rewrite <- (bare_unique _ _ _ Hb (bare_rstrip _)). fold picture. unfold ibind.
  destruct (write_file picture _ g) as [h t] eqn:Ew.
  destruct (write_file_spec _ _ _ _ _ Ew) as [[e [-> ->]]|[-> [-> [Hq _]]]]; [discriminate|].
  intros H. injection H as <- <-. split; [reflexivity|]. split; [now apply look_cons_same|].
  intros p c Np. rewrite look_cons_other by exact Np. split; [apply K|apply F].
Qed.
Print Assumptions C106_no_extension.
Example C106_ex : ~ has_format_spec (lit "foo..") /\ bare (lit "foo..") (lit "foo") /\
  ~ has_format_spec (lit ".png") /\ bare (lit ".png") (lit ".png").
Proof.
  assert (H : forall name, tl (splitext_ext name) = [] -> ~ has_format_spec name).
  { intros name H F. apply has_format_spec_iff in F. destruct F as [a [e [E [He [Hd Ha]]]]].
    rewrite (splitext_format _ _ _ E He Hd Ha) in H. cbn in H. congruence. }
  split; [apply H; reflexivity|]. split; [exists 2; split; [reflexivity|right; exists (lit "fo"), "o"%char; split; [reflexivity|discriminate]]|].
  split; [apply H; reflexivity|]. exists 0. split; [reflexivity|]. right. exists (lit ".pn"), "g"%char. split; [reflexivity|discriminate].
Qed.
Example C106_ex2 : exists f', save_plot_points (T := bool) false home (fun _ => true) (lit ".png") true [(home, Dir)] = (f', Ok (home ++ [lit ".png"])) /\
  look f' (home ++ [lit ".png.png"]) = Some (File (CFig (lit "png"))).
Proof. eexists. split; vm_compute; reflexivity. Qed.
Example C106_ex3 : exists f', save_plot_image (T := bool) false home (fun e => teqb e (lit "png")) (lit "out/a.doc") true [(home, Dir)] = (f', Err ValueError).
Proof. eexists. vm_compute; reflexivity. Qed.
