(** Property theorems for discorpy/losa/loadersaver.py (C63 - C78).
    Vocabulary: LosaSpec.v (names, chosen names, saving); reach / links / wf_items
    (HdfFacts.v: paths of hard links, links of a group, proper names);
    chosen / at3 / plane_shape (LosaFacts4.v: index lists, planes);
    unescape (LosaFacts4.v); spread / inside (ImgScale.v). *)
From Coq Require Import Ascii String ZifyBool FinFun Sorted Reals Lra Lia Floats.
From Flocq Require Import Core.
From Verif Require Import Base Text Fs FsFacts Json JsonFacts Hdf HdfFacts Num Losa LosaFacts LosaFacts2 LosaFacts3
  LosaSpec LosaFacts4 LosaFacts5 LosaFacts6 ImgScale MetaFacts StreamFacts.
Local Open Scope nat_scope.

(** What the examples use: a directory with two files, and numbers with two
    values. *)
Definition home : path := [lit "home"].
Lemma home_good : Forall good_comp home.
Proof. repeat constructor; discriminate. Qed.
Definition ex_str (b : bool) : text := if b then lit "1.5" else lit "0.5".
Definition ex_float (t : text) : res bool :=
  if teqb t (lit "1.5") then Ok true else if teqb t (lit "0.5") then Ok false else Err ValueError.
Definition ex_parse (t : text) : option bool := match ex_float t with Ok b => Some b | Err _ => None end.
Definition ex_fs : @FS bool :=
  [(home, Dir); (home ++ [lit "a.txt"], File (CText (lit "old"))); (home ++ [lit "a_0000.txt"], File (CText (lit "old")))].

(** ** C63 *)
Theorem C63_no_overwrite : forall {T} {N : Num T} win cwd (f : @FS T) s, Forall good_comp cwd ->
  let p0 := get_path win cwd s in
  (forall str_ x y facts p, wanted [lit ".txt"; lit ".dat"] (lit ".txt") p0 p ->
     saves_new f p (save_metadata_txt win cwd str_ s x y facts false)) /\
  (forall X repr (to_float : X -> res T) x y facts p, wanted [lit ".json"] (lit ".json") p0 p ->
     saves_new f p (save_metadata_json win cwd repr to_float s x y facts false)) /\
  (forall P (pdump : P -> text * option exn) v p, wanted [lit ".pkl"] (lit ".pkl") p0 p ->
     saves_new f p (save_python_list win cwd pdump s v false)) /\
  (forall idata key p, wanted [lit ".hdf"; lit ".h5"; lit ".nxs"; lit ".hdf5"] (lit ".hdf") p0 p ->
     saves_new f p (save_hdf_file win cwd s idata key false)) /\
  (forall shape key dt options p, wanted [lit ".hdf"; lit ".h5"; lit ".nxs"; lit ".hdf5"] (lit ".hdf") p0 p ->
     saves_new f p (open_hdf_stream win cwd s shape key dt false options)) /\
  (forall pil_array pil_ext im, (forall e m, pil_ext e m = true -> e <> [] /\ ~ In "_"%char e) ->
     saves_new f p0 (save_image win cwd pil_array pil_ext s im false)) /\
  (forall mpl_format, has_format_spec (pname p0) ->
     saves_new f p0 (save_plot_image win cwd mpl_format s false) /\
     saves_new f p0 (save_residual_plot win cwd mpl_format s false) /\
     saves_new f p0 (save_plot_points win cwd mpl_format s false)).
Proof.
  intros T N win cwd f s Hc p0. repeat apply conj.
  - intros. now apply txt_new.
  - intros. now apply json_new.
  - intros. now apply pkl_new.
  - intros. now apply hdf_new.
  - intros. now apply stream_new.
  - intros. now apply image_new.
  - intros. now apply plot_new.
Qed.
Print Assumptions C63_no_overwrite.

(** Saving succeeds whenever the target can be written. *)
Theorem C63_succeeds : forall {T} {N : Num T} win cwd (f : @FS T) s ow, Forall good_comp cwd ->
  let p0 := get_path win cwd s in
  (forall str_ x y facts p, wanted [lit ".txt"; lit ".dat"] (lit ".txt") p0 p -> writable f p ->
     saved_with f ow p (save_metadata_txt win cwd str_ s x y facts ow)) /\
  (forall X repr (to_float : X -> res T) x y facts p xc yc j, wanted [lit ".json"] (lit ".json") p0 p -> writable f p ->
     to_float x = Ok xc -> to_float y = Ok yc -> plain facts = Some j ->
     saved_with f ow p (save_metadata_json win cwd repr to_float s x y facts ow)) /\
  (forall P (pdump : P -> text * option exn) v p, wanted [lit ".pkl"] (lit ".pkl") p0 p -> writable f p ->
     snd (pdump v) = None -> saved_with f ow p (save_python_list win cwd pdump s v ow)) /\
  (forall idata key p, wanted [lit ".hdf"; lit ".h5"; lit ".nxs"; lit ".hdf5"] (lit ".hdf") p0 p -> writable f p ->
     comps key <> [] -> saved_with f ow p (save_hdf_file win cwd s idata key ow)) /\
  (forall pil_array pil_ext im im', prepare_image (suffix p0) im = Ok im' -> pil_array im' = true ->
     pil_ext (lower (suffix p0)) im' = true -> suffix p0 <> [] -> writable f p0 ->
     saved_with f ow p0 (save_image win cwd pil_array pil_ext s im ow)) /\
  (forall mpl_format a e, pname p0 = a ++ dot :: e -> e <> [] -> ~ In dot e -> (exists c, In c a /\ c <> dot) ->
     mpl_format e = true -> writable f p0 ->
     saved_with f ow p0 (save_plot_image win cwd mpl_format s ow) /\
     saved_with f ow p0 (save_residual_plot win cwd mpl_format s ow) /\
     saved_with f ow p0 (save_plot_points win cwd mpl_format s ow)).
Proof.
  intros T N win cwd f s ow Hc p0. repeat apply conj.
  - intros. now apply txt_saved.
  - intros. now apply (json_saved win cwd Hc _ _ _ _ _ _ _ _ _ xc yc j).
  - intros. now apply pkl_saved.
  - intros. now apply hdf_saved.
  - intros. now apply (image_saved win cwd _ _ _ _ im').
  - intros. now apply (plot_saved win cwd _ _ _ _ a e).
Qed.
Print Assumptions C63_succeeds.

(** a.txt and a_0000.txt exist: a_0001.txt is written. *)
Example C63_ex : wanted [lit ".txt"; lit ".dat"] (lit ".txt") (get_path false home (lit "a.txt")) (home ++ [lit "a.txt"]) /\
  save_metadata_txt false home ex_str (lit "a.txt") true false [true] false ex_fs =
    ((home ++ [lit "a_0001.txt"], File (CText (lit "xcenter = 1.5" ++ LF :: lit "ycenter = 0.5" ++ LF :: lit "factor0 = 1.5" ++ [LF]))) :: ex_fs,
     Ok (home ++ [lit "a_0001.txt"])).
Proof.
  split.
  - apply wanted_iff; [discriminate|discriminate|reflexivity].
  - vm_compute. reflexivity.
Qed.
Example C63_ex_writable : writable ex_fs (home ++ [lit "b.txt"]).
Proof.
  split; [|discriminate]. intros d b E Hb. destruct d as [|x [|y d]]; [reflexivity| |].
  - injection E as <- _. reflexivity.
  - destruct d; [|discriminate]. injection E as _ _ <-. congruence.
Qed.

(** A plot saved under a name without extension overwrites an existing file
    although overwrite=False, and returns a path that does not exist. *)
Definition plot_fs : @FS bool := [(home, Dir); (home ++ [lit "foo_0000.png"], File (CFig (lit "old")))].
Theorem C63_plot_without_extension_refuted :
  exists f', save_plot_image false home (fun _ => true) (lit "foo") false plot_fs = (f', Ok (home ++ [lit "foo_0000"])) /\
    look plot_fs (home ++ [lit "foo_0000.png"]) = Some (File (CFig (lit "old"))) /\
    look f' (home ++ [lit "foo_0000.png"]) = Some (File (CFig (lit "png"))) /\
    look f' (home ++ [lit "foo_0000"]) = None /\ look f' (home ++ [lit "foo"]) = Some Dir.
Proof. eexists. split; [vm_compute; reflexivity|]. repeat split. Qed.
Print Assumptions C63_plot_without_extension_refuted.

(** ** C64 *)
Theorem C64_extension : forall {T} {N : Num T} win cwd (f f' : @FS T) s q, Forall good_comp cwd ->
  let p0 := get_path win cwd s in
  (forall str_ x y facts, save_metadata_txt win cwd str_ s x y facts true f = (f', Ok q) ->
     wanted [lit ".txt"; lit ".dat"] (lit ".txt") p0 q) /\
  (forall X repr (to_float : X -> res T) x y facts, save_metadata_json win cwd repr to_float s x y facts true f = (f', Ok q) ->
     wanted [lit ".json"] (lit ".json") p0 q) /\
  (forall P (pdump : P -> text * option exn) v, save_python_list win cwd pdump s v true f = (f', Ok q) ->
     wanted [lit ".pkl"] (lit ".pkl") p0 q) /\
  (forall idata key, save_hdf_file win cwd s idata key true f = (f', Ok q) ->
     wanted [lit ".hdf"; lit ".h5"; lit ".nxs"; lit ".hdf5"] (lit ".hdf") p0 q) /\
  (forall shape key dt options, open_hdf_stream win cwd s shape key dt true options f = (f', Ok q) ->
     wanted [lit ".hdf"; lit ".h5"; lit ".nxs"; lit ".hdf5"] (lit ".hdf") p0 q).
Proof.
  intros T N win cwd f f' s q Hc p0.
  assert (K : forall acc ext w (m : io (@FS T) path), writes w ->
     m f = match target win cwd acc ext s with Ok p => saver p true w f | Err e => (f, Err e) end ->
     m f = (f', Ok q) -> wanted acc ext p0 q).
  { intros acc ext w m Hw Hm H. rewrite Hm in H. destruct (target win cwd acc ext s) as [p|e] eqn:Et; [|discriminate].
    destruct (saver_over _ _ _ _ _ (writes_writes_for _ _ Hw) H) as [-> [c Hq]]. unfold target in Et. fold p0 in Et.
    assert (H0 : p0 <> []).
    { intros E. rewrite E in Et. unfold default_ext in Et. cbn [with_suffix pname last suffix] in Et.
      destruct (tmem _ _) in Et; [injection Et as <-|discriminate]. discriminate. }
    apply wanted_iff; auto. intros E. pose proof (path_good win cwd Hc s) as G. fold p0 in G.
    rewrite (split_last_name p0 H0) in G. apply Forall_app in G. destruct G as [_ G]. inversion_clear G.
    unfold pname in E. destruct H1 as [A _]. apply A. exact E. }
  repeat apply conj.
  - intros str_ x y facts. eapply K; [apply w_text_writes|apply save_txt_saver].
  - intros X repr to_float x y facts. eapply K; [apply json_writes|apply save_json_saver].
  - intros P pdump v. eapply K; [apply w_bytes_writes|apply save_pkl_saver].
  - intros idata key. eapply K; [apply w_hdf_writes|apply save_hdf_saver].
  - intros shape key dt options. eapply K; [apply w_stream_writes|apply stream_saver].
Qed.
Print Assumptions C64_extension.
(** A path without a file name (the root) is refused and nothing is written. *)
Theorem C64_no_name : forall {T} {N : Num T} win cwd (f : @FS T) s ow, get_path win cwd s = [] ->
  (forall str_ x y facts, save_metadata_txt win cwd str_ s x y facts ow f = (f, Err ValueError)) /\
  (forall X repr (to_float : X -> res T) x y facts, save_metadata_json win cwd repr to_float s x y facts ow f = (f, Err ValueError)) /\
  (forall P (pdump : P -> text * option exn) v, save_python_list win cwd pdump s v ow f = (f, Err ValueError)) /\
  (forall idata key, save_hdf_file win cwd s idata key ow f = (f, Err ValueError)) /\
  (forall shape key dt options, open_hdf_stream win cwd s shape key dt ow options f = (f, Err ValueError)).
Proof.
  intros T N win cwd f s ow H0.
  assert (K : forall acc ext, ~ In [] acc -> target win cwd acc ext s = Err ValueError).
  { intros acc ext Ha. unfold target. destruct (default_ext acc ext (get_path win cwd s)) as [p|e] eqn:E.
    - exfalso. rewrite H0 in E. unfold default_ext in E. destruct (tmem _ acc) eqn:M in E; [|discriminate]. apply tmem_in in M. now apply Ha.
    - apply default_ext_err in E. now destruct E as [-> _]. }
  assert (L : forall l : list text, forallb (fun x => negb (Nat.eqb (length x) 0)) l = true -> ~ In [] l).
  { intros l Hl Hi. rewrite forallb_forall in Hl. now specialize (Hl [] Hi). }
  split; [|split; [|split; [|split]]]; intros.
  - rewrite save_txt_saver, K by (apply L; reflexivity). reflexivity.
  - rewrite save_json_saver, K by (apply L; reflexivity). reflexivity.
  - rewrite save_pkl_saver, K by (apply L; reflexivity). reflexivity.
  - rewrite save_hdf_saver, K by (apply L; reflexivity). reflexivity.
  - rewrite stream_saver, K by (apply L; reflexivity). reflexivity.
Qed.
Print Assumptions C64_no_name.
Example C64_no_name_case : get_path false home (lit "/") = [].
Proof. reflexivity. Qed.

(** Two names that differ only in an extension that is not accepted stand for
    the same file. *)
Theorem C64_collision : forall acc ext d a e e' p p',
  a <> [] -> e <> [] -> ~ In dot e -> e' <> [] -> ~ In dot e' ->
  ~ accepts acc (dot :: e) -> ~ accepts acc (dot :: e') ->
  wanted acc ext (d ++ [a ++ dot :: e]) p -> wanted acc ext (d ++ [a ++ dot :: e']) p' -> p = p'.
Proof.
  intros acc ext d a e e' p p' Ha He Hd He' Hd' H1 H2.
  assert (K : forall e p, e <> [] -> ~ In dot e -> ~ accepts acc (dot :: e) ->
            wanted acc ext (d ++ [a ++ dot :: e]) p -> p = d ++ [a ++ ext]).
  { intros x r Hx Hdx Hn [d1 [name [a1 [e1 [E [Hs H]]]]]]. apply app_inj_tail in E. destruct E as [<- <-].
    apply splits_unique in Hs. apply no_dot_in in Hdx. destruct (suffix_of_app a x Ha Hx Hdx) as [S1 S2].
    rewrite S1, S2 in Hs. destruct Hs as [-> ->]. destruct H as [[H _]|[_ H]]; [contradiction|exact H]. }
  intros W W'. rewrite (K e p), (K e' p'); auto.
Qed.
Print Assumptions C64_collision.
Example C64_ex : let s1 := lit "scan.001" in let s2 := lit "scan.002" in
  exists f1 f2, save_metadata_txt (T := bool) false home ex_str s1 true true [] true [(home, Dir)] = (f1, Ok (home ++ [lit "scan.txt"])) /\
    save_metadata_txt false home ex_str s2 false true [] true f1 = (f2, Ok (home ++ [lit "scan.txt"])) /\
    load_metadata_txt false home ex_float (lit "scan.txt") f2 = (f2, Ok (false, true, [])) /\
    wanted [lit ".txt"; lit ".dat"] (lit ".txt") (home ++ [lit "Data.TXT"]) (home ++ [lit "Data.TXT"]).
Proof.
  do 2 eexists. split; [vm_compute; reflexivity|]. split; [vm_compute; reflexivity|]. split; [vm_compute; reflexivity|].
  apply wanted_iff; [discriminate|discriminate|reflexivity].
Qed.

(** ** C65 *)
Theorem C65_text_round_trip : forall {T} win cwd str_ float_ s s' (x y : T) facts ow f f' q,
  (forall v, In v (x :: y :: facts) -> str_ v <> [] /\ (forall c, In c (str_ v) -> ~ blank c) /\ float_ (str_ v) = Ok v) ->
  save_metadata_txt win cwd str_ s x y facts ow f = (f', Ok q) -> get_path win cwd s' = q ->
  load_metadata_txt win cwd float_ s' f' = (f', Ok (x, y, facts)).
Proof.
  intros T win cwd str_ float_ s s' x y facts ow f f' q Hs. apply txt_round_trip. apply Forall_forall.
  intros v Hv. destruct (Hs v Hv) as [A [B C]]. split; [exact A|]. split; [|exact C]. apply no_ws_iff. now apply Forall_forall.
Qed.
Print Assumptions C65_text_round_trip.

(** The returned path itself (as a text) leads to the file. *)
Theorem C65_returned_path : forall {T} cwd str_ s (x y : T) facts ow f f' q, Forall good_comp cwd ->
  save_metadata_txt false cwd str_ s x y facts ow f = (f', Ok q) -> get_path false cwd (posix q) = q.
Proof.
  intros T cwd str_ s x y facts ow f f' q Hc H. unfold get_path. apply resolve_posix.
  destruct (target false cwd [lit ".txt"; lit ".dat"] (lit ".txt") s) as [p|e] eqn:Et.
  - refine (saved_path_good false cwd Hc s [lit ".txt"; lit ".dat"] (lit ".txt") p (w_text (meta_text str_ x y facts) None) ow f f' q _ _ _ _ _ _ Et H).
    + apply is_ext_txt.
    + repeat constructor; discriminate.
    + apply txt_accs.
    + apply w_text_writes.
    + intros g. apply save_txt_saver.
  - rewrite save_txt_saver, Et in H. discriminate.
Qed.
Print Assumptions C65_returned_path.
Example C65_ex : forall v : bool, ex_str v <> [] /\ (forall c, In c (ex_str v) -> ~ blank c) /\ ex_float (ex_str v) = Ok v.
Proof.
  intros []; (split; [discriminate|]); (split; [|reflexivity]); apply Forall_forall; apply no_ws_iff; repeat constructor.
Qed.
(** What is written: one line per number, with its name. *)
Theorem C65_written : forall {T} win cwd str_ s (x y : T) facts ow f f' q,
  save_metadata_txt win cwd str_ s x y facts ow f = (f', Ok q) ->
  let line name v := name ++ lit " = " ++ str_ v ++ [ascii_of_nat 10] in
  look f' q = Some (File (CText (line (lit "xcenter") x ++ line (lit "ycenter") y ++
    concat (map (fun iv => line (lit "factor" ++ dec (fst iv)) (snd iv)) (combine (seq 0 (List.length facts)) facts))))).
Proof.
  intros T win cwd str_ s x y facts ow f f' q H line. rewrite save_txt_saver in H. destruct (target _ _ _) as [p|]; [|discriminate].
  rewrite (saved_text _ _ _ _ _ _ H). do 3 f_equal. rewrite meta_text_items. unfold items. cbn [flat_map].
  change (meta_line str_ (lit "xcenter", x)) with (line (lit "xcenter") x). change (meta_line str_ (lit "ycenter", y)) with (line (lit "ycenter") y).
  apply f_equal. apply f_equal. generalize 0. clear H. induction facts as [|v l IH]; intros i; [reflexivity|].
  cbn [fact_items flat_map List.length seq combine map concat]. rewrite IH. reflexivity.
Qed.
Print Assumptions C65_written.
Example C65_ex2 : forall facts f' q, save_metadata_txt false home ex_str (lit "a.txt") true false facts false ex_fs = (f', Ok q) ->
  load_metadata_txt false home ex_float (posix q) f' = (f', Ok (true, false, facts)).
Proof.
  intros facts f' q H. eapply C65_text_round_trip; [intros v _; apply C65_ex|exact H|].
  eapply C65_returned_path; [apply home_good|exact H].
Qed.

(** ** C66 *)
(** Lists, tuples and arrays of floats as argument. *)
Inductive float_seq {T} (l : list T) : pyval T -> Prop :=
| fs_list : float_seq l (PList (map PFloat l))
| fs_tuple : float_seq l (PTuple (map PFloat l))
| fs_numpy_scalars : float_seq l (PList (map PNpFloat l))
| fs_array : float_seq l (PArr (JList (map JFloat l))).
Lemma float_seq_plain {T} (l : list T) v : float_seq l v -> plain v = Some (JList (map JFloat l)).
Proof.
  intros [].
  - rewrite plain_PList. replace (plain_all (map PFloat l)) with (Some (map (@JFloat T) l)); [reflexivity|].
    induction l as [|x l IH]; [reflexivity|]. cbn [map plain_all plain]. now rewrite <- IH.
  - rewrite plain_PTuple. replace (plain_all (map PFloat l)) with (Some (map (@JFloat T) l)); [reflexivity|].
    induction l as [|x l IH]; [reflexivity|]. cbn [map plain_all plain]. now rewrite <- IH.
  - rewrite plain_PList. replace (plain_all (map PNpFloat l)) with (Some (map (@JFloat T) l)); [reflexivity|].
    induction l as [|x l IH]; [reflexivity|]. cbn [map plain_all plain]. now rewrite <- IH.
  - reflexivity.
Qed.
Theorem C66_json_round_trip : forall {T X} win cwd repr parse_float (to_float : X -> res T) s s' x y l facts ow f f' q,
  float_repr_ok repr parse_float -> float_seq l facts ->
  save_metadata_json win cwd repr to_float s x y facts ow f = (f', Ok q) -> get_path win cwd s' = q ->
  exists xc yc, to_float x = Ok xc /\ to_float y = Ok yc /\
    load_metadata_json win cwd parse_float s' f' = (f', Ok (JFloat xc, JFloat yc, JList (map JFloat l))).
Proof.
  intros T X win cwd repr parse_float to_float s s' x y l facts ow f f' q Hr Hs. apply (json_round_trip win cwd).
  - exact Hr.
  - now apply float_seq_plain.
  - clear. cbn. induction l; cbn; auto.
  - clear. cbn. induction l; cbn; auto.
Qed.
Print Assumptions C66_json_round_trip.
Theorem C66_returned_path : forall {T X} cwd repr (to_float : X -> res T) s x y facts ow f f' q, Forall good_comp cwd ->
  save_metadata_json false cwd repr to_float s x y facts ow f = (f', Ok q) -> get_path false cwd (posix q) = q.
Proof.
  intros T X cwd repr to_float s x y facts ow f f' q Hc H. unfold get_path. apply resolve_posix.
  destruct (target false cwd [lit ".json"] (lit ".json") s) as [p|e] eqn:Et.
  - eapply (saved_path_good false cwd Hc s [lit ".json"] (lit ".json") p); [apply is_ext_json| |apply json_accs|apply json_writes|intros g; apply save_json_saver|exact Et|exact H].
    repeat constructor; discriminate.
  - rewrite save_json_saver, Et in H. discriminate.
Qed.
Print Assumptions C66_returned_path.
Lemma ex_repr_ok : float_repr_ok ex_str ex_parse.
Proof. intros []; vm_compute; repeat split; try discriminate; repeat constructor. Qed.
Example C66_ex : exists f' q, save_metadata_json false home ex_str (@Ok bool) (lit "m.json") true false (PTuple [PFloat true; PFloat false]) false ex_fs = (f', Ok q) /\
  load_metadata_json false home ex_parse (posix q) f' = (f', Ok (JFloat true, JFloat false, JList [JFloat true; JFloat false])).
Proof. do 2 eexists. split; vm_compute; reflexivity. Qed.

(** ** C67 *)
Theorem C67_bad_center : forall {T X} win cwd repr (to_float : X -> res T) s x y facts ow f f' r,
  (forall xc yc, ~ (to_float x = Ok xc /\ to_float y = Ok yc)) ->
  save_metadata_json win cwd repr to_float s x y facts ow f = (f', r) ->
  (exists e, r = Err e) /\ untouched f f' /\ (forall p c, look f' p = Some (File c) -> look f p = Some (File c)).
Proof.
  intros T X win cwd repr to_float s x y facts ow f f' r Hb H.
  destruct (json_bad_center win cwd repr to_float s x y facts ow f f' r Hb H) as [A [B C]]. auto.
Qed.
Print Assumptions C67_bad_center.
Theorem C67_bad_facts : forall {T X} win cwd repr (to_float : X -> res T) s x y facts f xc yc p old,
  Forall good_comp cwd ->
  to_float x = Ok xc -> to_float y = Ok yc -> plain facts = None ->
  wanted [lit ".json"] (lit ".json") (get_path win cwd s) p -> writable f p ->
  look f p = Some (File old) ->
  exists f' e t, save_metadata_json win cwd repr to_float s x y facts true f = (f', Err e) /\
    look f' p = Some (File (CText t)) /\
    (* what is left is the unfinished beginning of the JSON text *)
    exists t', t = lit "{" ++ nl 1 ++ lit """xcenter"": " ++ repr xc ++ "," %char :: nl 1 ++ lit """ycenter"": " ++ repr yc ++ "," %char :: nl 1 ++ lit """list_fact"": " ++ t'.
Proof.
  intros T X win cwd repr to_float s x y facts f xc yc p old Hc Hx Hy Hp Hw Hr _.
  pose proof (wanted_ne _ _ _ _ Hw) as H0.
  destruct (json_bad_facts win cwd repr to_float s x y facts f xc yc p Hx Hy Hp) as [f' [e [t [H1 [H2 H3]]]]].
  - unfold target. apply wanted_default; auto. now apply path_good.
  - apply writable_parent; [|exact Hr]. intros ->. destruct Hr as [_ Hr]. now apply Hr.
  - apply Hr.
  - exists f', e, t. repeat split; auto. unfold dump_meta in H3.
    destruct (enc repr 1 facts) as [u o] eqn:E. destruct o as [e'|].
    + exists u. cbn in H3. injection H3 as H3 _. rewrite <- H3. cbn. reflexivity.
    + exfalso. cbn in H3. discriminate.
Qed.
Print Assumptions C67_bad_facts.
Example C67_ex : let old : @FS bool := [(home, Dir); (home ++ [lit "m.json"], File (CText (lit "old")))] in
  exists f' e t, save_metadata_json false home ex_str (@Ok bool) (lit "m.json") true false (PList [PFloat true; POther]) true old = (f', Err e) /\
    look f' (home ++ [lit "m.json"]) = Some (File (CText t)) /\ loads ex_parse t = None.
Proof. do 3 eexists. split; [vm_compute; reflexivity|]. split; [vm_compute; reflexivity|]. vm_compute. reflexivity. Qed.

(** ** C68 *)
Theorem C68_unescape : forall s, correct_text (unescape s) = correct_text s.
Proof. intros s. now apply (unescape_correct (List.length s)). Qed.
Print Assumptions C68_unescape.
(** Raw texts (without control characters): every backslash becomes a slash. *)
Theorem C68_raw : forall s, (forall x, In x s -> ctrl_of x = None) ->
  correct_text s = map (fun c => if Ascii.eqb c backslash then "/"%char else c) s.
Proof.
  intros s H. rewrite correct_text_chars. induction s as [|c s IH]; [reflexivity|]. cbn [flat_map map].
  rewrite IH by (intros x Hx; apply H; now right). unfold correct_char, aeqb.
  rewrite (H c) by now left. destruct (Ascii.eqb c backslash); reflexivity.
Qed.
Print Assumptions C68_raw.
Theorem C68_clean : forall s,
  (forall x, In x (correct_text s) -> x <> backslash /\ ~ In (code x) [7; 8; 12; 10; 13; 9; 11; 0]) /\
  correct_text (correct_text s) = correct_text s.
Proof.
  intros s. split.
  - intros x Hx. destruct (correct_text_clean s x Hx) as [A B]. split; [exact A|]. intros Hc.
    clear -B Hc. destruct x as [[] [] [] [] [] [] [] []]; vm_compute in B, Hc; try discriminate B; repeat destruct Hc as [Hc|Hc]; try discriminate Hc; exact Hc.
  - apply correct_clean. apply correct_text_clean.
Qed.
Print Assumptions C68_clean.
(** C:\new\table.tif typed without escaping. *)
Example C68_ex : let raw := lit "C:\new\table.tif" in
  unescape raw = lit "C:" ++ ascii_of_nat 10 :: lit "ew" ++ ascii_of_nat 9 :: lit "able.tif" /\
  correct_text (unescape raw) = lit "C:/new/table.tif".
Proof. split; reflexivity. Qed.

(** ** C69 *)
Theorem C69_folder : forall {T} {N : Num T} win cwd (f : @FS T) s ow, Forall good_comp cwd ->
  let p0 := get_path win cwd s in
  (forall str_ x y facts p, wanted [lit ".txt"; lit ".dat"] (lit ".txt") p0 p ->
     makes f (parent p) (save_metadata_txt win cwd str_ s x y facts ow)) /\
  (forall X repr (to_float : X -> res T) x y facts p, wanted [lit ".json"] (lit ".json") p0 p ->
     makes f (parent p) (save_metadata_json win cwd repr to_float s x y facts ow)) /\
  (forall P (pdump : P -> text * option exn) v p, wanted [lit ".pkl"] (lit ".pkl") p0 p ->
     makes f (parent p) (save_python_list win cwd pdump s v ow)) /\
  (forall idata key p, wanted [lit ".hdf"; lit ".h5"; lit ".nxs"; lit ".hdf5"] (lit ".hdf") p0 p ->
     makes f (parent p) (save_hdf_file win cwd s idata key ow)) /\
  (forall shape key dt options p, wanted [lit ".hdf"; lit ".h5"; lit ".nxs"; lit ".hdf5"] (lit ".hdf") p0 p ->
     makes f (parent p) (open_hdf_stream win cwd s shape key dt ow options)) /\
  (forall pil_array pil_ext im im', prepare_image (suffix p0) im = Ok im' ->
     makes f (if teqb (suffix p0) [] then p0 else parent p0) (save_image win cwd pil_array pil_ext s im ow)) /\
  (forall mpl_format, has_format_spec (pname p0) ->
     makes f (parent p0) (save_plot_image win cwd mpl_format s ow) /\
     makes f (parent p0) (save_residual_plot win cwd mpl_format s ow) /\
     makes f (parent p0) (save_plot_points win cwd mpl_format s ow)) /\
  (forall mpl_format, suffix p0 = [] ->
     makes f p0 (save_plot_image win cwd mpl_format s ow) /\
     makes f p0 (save_residual_plot win cwd mpl_format s ow) /\
     makes f p0 (save_plot_points win cwd mpl_format s ow)).
Proof.
  intros T N win cwd f s ow Hc p0. repeat apply conj.
  - intros. now apply txt_makes.
  - intros. now apply json_makes.
  - intros. now apply pkl_makes.
  - intros. now apply hdf_makes.
  - intros. now apply stream_makes.
  - intros. now apply (image_makes win cwd _ _ _ _ im').
  - intros. now apply plot_makes_parent.
  - intros. now apply plot_makes_self.
Qed.
Print Assumptions C69_folder.
Theorem C69_image_without_extension_fails : forall {T} {N : Num T} win cwd pil_array pil_ext s (im : image T) ow f f' r,
  (forall e m, pil_ext e m = true -> e <> [] /\ ~ In "_"%char e) -> suffix (get_path win cwd s) = [] ->
  save_image win cwd pil_array pil_ext s im ow f = (f', r) ->
  (exists e, r = Err e) /\ untouched f f' /\ (forall q c, look f' q = Some (File c) -> look f q = Some (File c)).
Proof. intros T N. apply image_no_ext. Qed.
Print Assumptions C69_image_without_extension_fails.
Example C69_ex : exists f' e, save_image (N := FloatNum) false home (fun _ => true) (fun e _ => teqb e (lit ".png")) (lit "out/foo")
    {| ikind_of := KU8; iarr := {| nshape := [2; 2]%Z; nval := fun _ => 0%float |} |} true [(home, Dir)] = (f', Err e) /\
  look f' (home ++ [lit "out"; lit "foo"]) = Some Dir.
Proof. do 2 eexists. split; vm_compute; reflexivity. Qed.

(** ** C70 *)
Lemma file_information {T} {N : Num T} win cwd s f (root : hitems T) : look f (get_path win cwd s) = Some (File (CHdf root)) ->
  hdf_information win cwd s f = (f, Ok (get_hdf_information root)) /\
  (forall pat, hdf_find_key win cwd s pat f = (f, Ok (find_hdf_key root pat))).
Proof.
  intros H. unfold hdf_information, hdf_find_key, checked_path, open_hdf, ibind, get, exists_, ret. rewrite H. cbn. rewrite H. auto.
Qed.
Lemma reach_last {T} (root : hitems T) p o : reach root p o -> forall q n, p = q ++ [n] -> q <> [] ->
  exists g, reach root q (HGroup g) /\ In (n, LHard o) (links g).
Proof.
  induction 1 as [g n o H|g n g' p o H R IH]; intros q m E Hq.
  - destruct q as [|a [|b q]]; [congruence|discriminate|discriminate].
  - destruct q as [|a q]; [congruence|]. cbn in E. injection E as <- E. destruct q as [|b q].
    + exists g'. split; [now constructor|]. subst p. cbn [app] in R. inversion R as [? ? ? H1|? ? ? ? ? _ H2]; subst; [assumption|inversion H2].
    + destruct (IH (b :: q) m E) as [g2 [A B]]; [discriminate|]. exists g2. split; [|exact B]. eapply reach_in; eauto.
Qed.
Lemma link_names {T} (g : hitems T) n l : In (n, l) (links g) -> In n (hnames g).
Proof.
  induction g; cbn [links hnames]; intros H; try contradiction; destruct H as [H|H];
    try (injection H as -> _; now left); right; auto.
Qed.
Lemma filter_combine3 {A B C} (h : A -> bool) (g : A -> B) (k : A -> C) l :
  combine (combine (filter h l) (map g (filter h l))) (map k (filter h l)) =
  filter (fun e => h (fst (fst e))) (combine (combine l (map g l)) (map k l)).
Proof. induction l as [|x l IH]; [reflexivity|]. cbn. destruct (h x); cbn; now rewrite IH. Qed.

Theorem C70_listing : forall {T} {N : Num T} win cwd s f (root : hitems T),
  look f (get_path win cwd s) = Some (File (CHdf root)) -> wf_items root ->
  exists ks ss ts, hdf_information win cwd s f = (f, Ok (ks, ss, ts)) /\
    List.length ss = List.length ks /\ List.length ts = List.length ks /\
    (* every entry describes what its key leads to *)
    (forall i k, nth_error ks i = Some k ->
       nth_error ss i = Some (match lookup root k with Some (HData d) => Some (nshape (darr d)) | _ => None end) /\
       nth_error ts i = Some (match lookup root k with Some (HData d) => Some (dtype d) | _ => None end)) /\
    (* every dataset is listed, twice if it is inside a group *)
    (forall p d, reach root p (HData d) ->
       In (slash :: keytext p) ks /\ lookup root (slash :: keytext p) = Some (HData d) /\
       (2 <= List.length p -> In (keytext p) ks /\ lookup root (keytext p) = Some (HData d))) /\
    (* and nothing else but the names in groups *)
    (forall k, In k ks <-> exists p o, reach root p o /\
       match o with
       | HData _ => k = slash :: keytext p
       | HGroup g => match hnames g with
                     | [] => k = keytext p
                     | _ => exists n, In n (hnames g) /\ k = keytext p ++ slash :: n
                     end
       end).
Proof.
  intros T N win cwd s f root Hf Hw. destruct (file_information win cwd s f root Hf) as [-> _].
  rewrite information_entries. do 3 eexists. split; [reflexivity|]. rewrite !map_length. split; [reflexivity|]. split; [reflexivity|].
  split; [|split].
  - intros i k Hk. rewrite !nth_error_map, Hk. cbn. unfold entry_of. destruct (lookup root k) as [[]|]; auto.
  - intros p d Hr. destruct (lookup_reach root p (HData d) Hw Hr) as [L1 L2]. split; [|split; [exact L2|]].
    + apply listed_iff; [exact Hw|]. exists p, (HData d). auto.
    + intros Hl. split; [|exact L1]. apply listed_iff; [exact Hw|].
      destruct (@exists_last _ p) as [q [n E]]; [now intros ->; cbn in Hl; lia|].
      assert (Hq : q <> []) by (intros ->; subst p; cbn in Hl; lia).
      destruct (reach_last root p (HData d) Hr q n E Hq) as [g [R I]].
      exists q, (HGroup g). split; [exact R|]. pose proof (link_names _ _ _ I) as In_.
      destruct (hnames g) as [|x l]; [contradiction|]. exists n. split; [exact In_|]. subst p. now apply keytext_snoc.
  - intros k. rewrite (listed_iff root k Hw). split; intros [p [o [R H]]]; exists p, o; (split; [exact R|]); destruct o as [d|g]; auto;
      destruct (hnames g); auto.
Qed.
Print Assumptions C70_listing.
Theorem C70_find_key : forall {T} {N : Num T} win cwd s pat f (root : hitems T),
  look f (get_path win cwd s) = Some (File (CHdf root)) -> wf_items root ->
  exists ks ss ts fk fs ft, hdf_information win cwd s f = (f, Ok (ks, ss, ts)) /\
    hdf_find_key win cwd s pat f = (f, Ok (fk, fs, ft)) /\
    List.length fs = List.length fk /\ List.length ft = List.length fk /\
    combine (combine fk fs) ft = filter (fun e => contains pat (fst (fst e))) (combine (combine ks ss) ts) /\
    (forall k, contains pat k = true <-> exists a b, k = a ++ pat ++ b).
Proof.
  intros T N win cwd s pat f root Hf Hw. destruct (file_information win cwd s f root Hf) as [-> H2]. rewrite H2.
  rewrite information_entries, (find_key_filter root pat Hw). do 6 eexists. split; [reflexivity|]. split; [reflexivity|].
  rewrite !map_length. split; [reflexivity|]. split; [reflexivity|]. split; [apply filter_combine3|]. intros k. apply contains_spec.
Qed.
Print Assumptions C70_find_key.

(** A file with a root dataset, a group with data and a nested empty group. *)
Definition ds (n : Z) : dset PrimFloat.float := {| dtype := lit "<f8"; darr := {| nshape := [n; n]; nval := fun _ => 1%float |} |}.
Definition ex_root : hitems PrimFloat.float :=
  HHard (lit "data") (HData (ds 2))
    (HHard (lit "entry") (HGroup (HHard (lit "data") (HData (ds 3)) (HHard (lit "g") (HGroup HNil) (HBroken (lit "old") HNil)))) HNil).
Definition ex_hdf : @FS PrimFloat.float := [(home, Dir); (home ++ [lit "a.hdf"], File (CHdf ex_root))].
Lemma ex_wf : wf_items ex_root.
Proof.
  cbn. repeat split; try (vm_compute; intros H; repeat destruct H as [H|H]; try discriminate H; try exact H); repeat constructor; discriminate.
Qed.
Example C70_ex : look ex_hdf (get_path false home (lit "a.hdf")) = Some (File (CHdf ex_root)) /\ wf_items ex_root /\
  fst (fst (get_hdf_information ex_root)) =
    [lit "/data"; lit "entry/data"; lit "entry/g"; lit "entry/old"; lit "/entry/data"; lit "entry/g"] /\
  snd (fst (get_hdf_information ex_root)) = [Some [2; 2]; Some [3; 3]; None; None; Some [3; 3]; None]%Z.
Proof. split; [reflexivity|]. split; [apply ex_wf|]. split; vm_compute; reflexivity. Qed.

(** ** C71 *)
Theorem C71_first_group : forall {T} {N : Num T} win cwd s index axis f (root : hitems T) l1 p g l2 l d,
  look f (get_path win cwd s) = Some (File (CHdf root)) -> wf_items root ->
  (* in visiting order, g is the first group that holds a dataset 'data' *)
  hvisit_items [] root = l1 ++ (p, HGroup g) :: l2 ->
  In (lit "data", l) (links g) -> target_of l = Some (HData d) ->
  (forall q g', In (q, HGroup g') l1 -> ~ has_data g') ->
  load_hdf_file win cwd s None index axis f =
  load_hdf_file win cwd s (Some (slash :: keytext p ++ slash :: lit "data")) index axis f /\
  lookup root (slash :: keytext p ++ slash :: lit "data") = Some (HData d).
Proof.
  intros T N win cwd s index axis f root l1 p g l2 l d Hf Hw Hv Hl Ht H1.
  assert (R : reach root p (HGroup g)) by (apply visit_iff; rewrite Hv; apply in_or_app; right; now left).
  pose proof (auto_key_lookup root p g l d Hw R Hl Ht) as L. split; [|exact L].
  rewrite !(load_at win cwd s _ index axis f root Hf). f_equal. unfold load_open.
  assert (A : auto_key root = Some (slash :: keytext p ++ slash :: lit "data")).
  { apply auto_key_some. exists l1, p, g, l2. split; [exact Hv|]. split; [exists l, d; auto|]. split; [|reflexivity].
    apply Forall_forall. intros [q [d'|g']] Hin; cbn; [tauto|]. now apply (H1 q). }
  now rewrite A.
Qed.
Print Assumptions C71_first_group.
Theorem C71_no_group : forall {T} {N : Num T} win cwd s index axis f (root : hitems T),
  look f (get_path win cwd s) = Some (File (CHdf root)) ->
  (forall p g, reach root p (HGroup g) -> ~ has_data g) ->
  load_hdf_file win cwd s None index axis f = (f, Err ValueError).
Proof.
  intros T N win cwd s index axis f root Hf H. rewrite (load_at win cwd s _ index axis f root Hf). unfold load_open.
  apply auto_key_none in H. now rewrite H.
Qed.
Print Assumptions C71_no_group.
Example C71_ex : exists m, load_hdf_file (N := FloatNum) false home (lit "a.hdf") None INone 0 ex_hdf = (ex_hdf, Ok m) /\ nshape m = [3; 3]%Z.
Proof. eexists. split; vm_compute; reflexivity. Qed.
Example C71_ex_root_only : let f : @FS PrimFloat.float := [(home, Dir); (home ++ [lit "r.hdf"], File (CHdf (HHard (lit "data") (HData (ds 2)) HNil)))] in
  (forall p g, reach (HHard (lit "data") (HData (ds 2)) HNil) p (HGroup g) -> ~ has_data g) /\
  load_hdf_file (N := FloatNum) false home (lit "r.hdf") None INone 0 f = (f, Err ValueError).
Proof.
  intros f. split; [|reflexivity]. intros p g R. exfalso.
  inversion R as [? ? ? H|? ? ? ? ? H _]; subst; cbn in H; destruct H as [H|[]]; discriminate H.
Qed.

(** ** C72 *)
Theorem C72_integer_index : forall {T} {N : Num T} win cwd s key f (root : hitems T) d d0 d1 d2 i axis,
  look f (get_path win cwd s) = Some (File (CHdf root)) -> lookup root key = Some (HData d) ->
  nshape (darr d) = [d0; d1; d2] -> (0 < d0 -> 0 < d1 -> 0 < d2 ->
  let k := clip_axis axis in let n := extent k d0 d1 d2 in
  let load := load_hdf_file win cwd s (Some key) (IInt i) axis f in
  (* the axis whose length is compared with 1 *)
  let e := match k with 1%nat => d2 | _ => d1 end in
  (- n <= i < n -> let j := if i <? 0 then i + n else i in
     (e <> 1 -> exists m, load = (f, Ok m) /\ nshape m = plane_shape k d0 d1 d2 /\
        (forall r c, nval m [r; c] = nf32 (at3 (darr d) k j r c))) /\
     (e = 1 -> k = 0%nat -> exists m, load = (f, Ok m) /\ nshape m = [d2] /\ (forall c, nval m [c] = nf32 (nval (darr d) [j; 0; c]))) /\
     (e = 1 -> k <> 0%nat -> load = (f, Err IndexError))) /\
  (i < - n \/ n <= i -> load = (f, Err IndexError)))%Z.
Proof.
  intros T N win cwd s key f root d d0 d1 d2 i axis Hf Hl Hs H0 H1 H2 k n load e.
  assert (E : load = (f, slice_dataset nf32 (darr d) (IInt i) axis)).
  { unfold load. rewrite (load_at win cwd s _ _ axis f root Hf). unfold load_open. cbn [bind]. now rewrite Hl. }
  assert (Hn : (0 < n)%Z) by (unfold n, extent, k; destruct (clip_axis axis) as [|[|?]]; lia). split.
  - intros Hi j.
    destruct (slice_int nf32 (darr d) d0 d1 d2 i j axis Hs H0 H1 H2) as [A [B C]].
    + fold k n. unfold j. destruct (i <? 0)%Z eqn:Ei; lia.
    + unfold j. destruct (i <? 0)%Z eqn:Ei; lia.
    + fold k n. unfold j. destruct (i <? 0)%Z eqn:Ei; lia.
    + split; [|split].
      * intros He. destruct (A He) as [m [Hm M]]. exists m. rewrite E, Hm. auto.
      * intros He Hk. destruct (B He Hk) as [m [Hm M]]. exists m. rewrite E, Hm. auto.
      * intros He Hk. rewrite E. now rewrite (C He Hk).
  - intros Hi. rewrite E. rewrite (slice_int_out nf32 (darr d) d0 d1 d2 i axis Hs); auto. fold k n. lia.
Qed.
Print Assumptions C72_integer_index.
Theorem C72_ranges : forall {T} {N : Num T} win cwd s key f (root : hitems T) d d0 d1 d2 l li axis,
  look f (get_path win cwd s) = Some (File (CHdf root)) -> lookup root key = Some (HData d) ->
  nshape (darr d) = [d0; d1; d2] -> (0 < d0)%Z -> (0 < d1)%Z -> (0 < d2)%Z ->
  let k := clip_axis axis in
  chosen l li -> StronglySorted Z.lt li -> (forall i, In i li -> 0 <= i < extent k d0 d1 d2)%Z ->
  let load := load_hdf_file win cwd s (Some key) (ISeq l) axis f in
  (li = [] -> load = (f, Err ValueError)) /\
  (forall i, li = [i] -> k <= 1 -> exists m, load = (f, Ok m) /\ nshape m = plane_shape k d0 d1 d2 /\
     (forall r c, nval m [r; c] = nf32 (at3 (darr d) k i r c))) /\
  (forall i, li = [i] -> k = 2 -> load = (f, Err IndexError)) /\
  (2 <= List.length li -> exists m, load = (f, Ok m) /\ nshape m = set_nth k (Z.of_nat (List.length li)) [d0; d1; d2] /\
     (forall n i, nth_error li n = Some i -> forall r c, at3 m k (Z.of_nat n) r c = nf32 (at3 (darr d) k i r c))).
Proof.
  intros T N win cwd s key f root d d0 d1 d2 l li axis Hf Hl Hs H0 H1 H2 k Hc Hso Hin load.
  assert (E : load = (f, slice_dataset nf32 (darr d) (ISeq l) axis)).
  { unfold load. rewrite (load_at win cwd s _ _ axis f root Hf). unfold load_open. cbn [bind]. now rewrite Hl. }
  destruct (slice_seq nf32 (darr d) d0 d1 d2 l li axis Hs H0 H1 H2 Hc Hso Hin) as [A [B [C D]]]. rewrite E.
  split; [|split; [|split]].
  - intros H. now rewrite (A H).
  - intros i Hi Hk. destruct (B i Hi Hk) as [m [-> M]]. exists m. auto.
  - intros i Hi Hk. now rewrite (C i Hi Hk).
  - intros Hn. destruct (D Hn) as [m [-> M]]. exists m. auto.
Qed.
Print Assumptions C72_ranges.
(** h5py rejects indices that are not increasing or out of range; so a range
    with a negative step works for at most one index. *)
Theorem C72_rejected : forall {T} {N : Num T} win cwd s key f (root : hitems T) d d0 d1 d2 l li axis,
  look f (get_path win cwd s) = Some (File (CHdf root)) -> lookup root key = Some (HData d) -> nshape (darr d) = [d0; d1; d2] ->
  let load l := load_hdf_file win cwd s (Some key) (ISeq l) axis f in
  (chosen l li -> ~ (StronglySorted Z.lt li /\ forall i, In i li -> (0 <= i < extent (clip_axis axis) d0 d1 d2)%Z) -> load l = (f, Err External)) /\
  (forall start stop, load [start; stop; 0%Z] = (f, Err ValueError)).
Proof.
  intros T N win cwd s key f root d d0 d1 d2 l li axis Hf Hl Hs load.
  assert (E : forall l, load l = (f, slice_dataset nf32 (darr d) (ISeq l) axis)).
  { intros l'. unfold load. rewrite (load_at win cwd s _ _ axis f root Hf). unfold load_open. cbn [bind]. now rewrite Hl. }
  split; [intros Hc Hno|intros start stop]; rewrite E.
  - now rewrite (slice_seq_rejected nf32 (darr d) d0 d1 d2 l li axis Hs Hc Hno).
  - now rewrite (slice_seq_zero nf32 (darr d) d0 d1 d2 start stop axis Hs).
Qed.
Print Assumptions C72_rejected.
Definition vol (a b c : Z) : @FS PrimFloat.float := [(home, Dir); (home ++ [lit "v.hdf"], File (CHdf (HHard (lit "data")
  (HData {| dtype := lit "<f4"; darr := {| nshape := [a; b; c]; nval := fun _ => 1%float |} |}) HNil)))].
Definition load_vol a b c i axis := snd (load_hdf_file (N := FloatNum) false home (lit "v.hdf") (Some (lit "data")) i axis (vol a b c)).
Definition shape_of (r : res (ndarr PrimFloat.float)) : res (list Z) := m <- r ;; Ok (nshape m).
Example C72_ex :
  shape_of (load_vol 4 5 6 (IInt (-1)) 1) = Ok [4; 6]%Z /\ shape_of (load_vol 4 5 6 (IInt 4) 0) = Err IndexError /\
  shape_of (load_vol 4 1 6 (IInt 0) 0) = Ok [6]%Z /\ shape_of (load_vol 4 1 6 (IInt 0) 2) = Err IndexError /\
  shape_of (load_vol 4 5 6 (ISeq [1; 2]%Z) 0) = Ok [5; 6]%Z /\ shape_of (load_vol 4 5 6 (ISeq [1; 2]%Z) 2) = Err IndexError /\
  shape_of (load_vol 4 5 6 (ISeq [2; 2]%Z) 2) = Err ValueError /\ shape_of (load_vol 4 5 6 (ISeq [0; 5; 2]%Z) 2) = Ok [4; 5; 3]%Z.
Proof. vm_compute. repeat split. Qed.
Example C72_ex_chosen : chosen [0; 5; 2]%Z [0; 2; 4]%Z.
Proof.
  unfold chosen. left. split; [lia|]. split; [repeat constructor; lia|]. intros i. split.
  - intros [<-|[<-|[<-|[]]]]; [exists 0%Z|exists 1%Z|exists 2%Z]; lia.
  - intros [k [A [B C]]]. assert (k = 0 \/ k = 1 \/ k = 2)%Z as [->|[->| ->]] by lia; subst i; cbn; auto.
Qed.
Example C72_ex_backward : chosen [5; 0; -2]%Z [5; 3; 1]%Z /\ ~ StronglySorted Z.lt [5; 3; 1]%Z /\ chosen [3; 1; -2]%Z [3]%Z /\
  snd (load_hdf_file (N := FloatNum) false home (lit "v.hdf") (Some (lit "data")) (ISeq [5; 0; -2]%Z) 2 (vol 4 5 6)) = Err External /\
  shape_of (load_vol 4 5 6 (ISeq [3; 1; -2]%Z) 0) = Ok [5; 6]%Z.
Proof.
  split; [|split; [|split; [|split; vm_compute; reflexivity]]].
  - unfold chosen. right. split; [lia|]. split; [repeat constructor; lia|]. intros i. split.
    + intros [<-|[<-|[<-|[]]]]; [exists 0%Z|exists 1%Z|exists 2%Z]; lia.
    + intros [k [A [B C]]]. assert (k = 0 \/ k = 1 \/ k = 2)%Z as [->|[->| ->]] by lia; subst i; cbn; auto.
  - intros H. inversion_clear H as [|? ? ? F]. inversion_clear F. lia.
  - unfold chosen. right. split; [lia|]. split; [repeat constructor|]. intros i. split.
    + intros [<-|[]]. exists 0%Z. lia.
    + intros [k [A [B C]]]. assert (k = 0)%Z as -> by lia. subst i. now left.
Qed.

(** ** C73 *)
Theorem C73_hdf_round_trip : forall {T} {N : Num T} win cwd s s' idata key ow f f' q key' axis,
  save_hdf_file win cwd s idata key ow f = (f', Ok q) -> get_path win cwd s' = q ->
  (key' = None \/ exists k, key' = Some k /\ comps k = comps key ++ [lit "data"]) ->
  load_hdf_file win cwd s' key' INone axis f' =
    (f', match nshape (darr idata) with
         | [_; _] => Ok (darr idata)
         | [_; _; _] => Ok (ndmap nf32 (darr idata))
         | _ => Err ValueError
         end).
Proof. intros T N. apply hdf_round_trip. Qed.
Print Assumptions C73_hdf_round_trip.
Theorem C73_returned_path : forall {T} {N : Num T} cwd s idata key ow (f f' : @FS T) q, Forall good_comp cwd ->
  save_hdf_file false cwd s idata key ow f = (f', Ok q) -> get_path false cwd (posix q) = q.
Proof.
  intros T N cwd s idata key ow f f' q Hc H. unfold get_path. apply resolve_posix.
  destruct (target false cwd hdf_exts (lit ".hdf") s) as [p|e] eqn:Et.
  - eapply (saved_path_good false cwd Hc s hdf_exts (lit ".hdf") p); [apply is_ext_hdf| |apply hdf_accs|apply w_hdf_writes|intros g; apply save_hdf_saver|exact Et|exact H].
    repeat constructor; discriminate.
  - rewrite save_hdf_saver, Et in H. discriminate.
Qed.
Print Assumptions C73_returned_path.
Example C73_ex : exists f' q, save_hdf_file false home (lit "out/b") (ds 4) (lit "/entry") false ex_hdf = (f', Ok q) /\
  q = home ++ [lit "out"; lit "b.hdf"] /\ comps (lit "entry/data") = comps (lit "/entry") ++ [lit "data"] /\
  snd (load_hdf_file (N := FloatNum) false home (posix q) (Some (lit "entry/data")) INone 0 f') = Ok (darr (ds 4)).
Proof. do 2 eexists. split; [vm_compute; reflexivity|]. repeat split. Qed.

(** ** C74 *)
Theorem C74_bad_option_key : forall {T} {N : Num T} win cwd s shape key dt options f p opts1 k (d : dset T) opts2,
  Forall good_comp cwd -> wanted hdf_exts (lit ".hdf") (get_path win cwd s) p -> writable f p ->
  (* the options in order: k is the first key that contains key_path, and the ones before can be created *)
  flat_map snd options = opts1 ++ (k, d) :: opts2 -> (exists a b, k = a ++ key ++ b) ->
  (forall k d, In (k, d) opts1 -> ~ exists a b, k = a ++ key ++ b) -> separate (map (fun o => comps (fst o)) opts1) ->
  exists f' root, open_hdf_stream win cwd s shape key dt true options f = (f', Err ValueError) /\
    (* the file was replaced by one with exactly the datasets of the options before *)
    look f' p = Some (File (CHdf root)) /\
    forall k' e, lookup root k' = Some (HData e) <-> exists k1, In (k1, e) opts1 /\ comps k1 = comps k'.
Proof.
  intros T N win cwd s shape key dt options f p opts1 k d opts2 Hc Hw Hr Ho Hk H1 Hs.
  destruct (add_all_holds opts1 HNil [] holds_nil) as [[[root [Ha [_ [Hd _]]]] _]|[_ A]];
    [split; constructor| |exfalso; apply A; cbn [app]; rewrite map_map; exact Hs].
  cbn [app] in Hd. pose proof (wanted_ne _ _ _ _ Hw) as H0.
  destruct (stream_bad win cwd s shape key dt options f p opts1 k d opts2 root) as [f' [E L]]; auto.
  - unfold target. apply wanted_default; auto. now apply path_good.
  - apply writable_parent; [|exact Hr]. intros ->. destruct Hr as [_ Hr]. now apply Hr.
  - apply Hr.
  - now apply contains_spec.
  - intros k' d' Hin. specialize (H1 k' d' Hin). destruct (contains key k') eqn:E; [|reflexivity].
    apply contains_spec in E. contradiction.
  - exists f', root. split; [exact E|]. split; [exact L|]. intros k' e. unfold lookup. rewrite Hd, in_map_iff. unfold entry. split.
    + intros [[k1 e1] [X Hi]]. cbn [fst snd] in X. injection X as X ->. eauto.
    + intros [k1 [Hi X]]. exists (k1, e). cbn [fst snd]. now rewrite X.
Qed.
Print Assumptions C74_bad_option_key.
(** The sibling key entry/data_dark is refused, and the old file is gone. *)
Example C74_ex : exists f', open_hdf_stream (N := FloatNum) false home (lit "a.hdf") [2; 2]%Z (lit "entry/data") (lit "float32") true
    [(lit "dark", [(lit "entry/data_dark", ds 2)])] ex_hdf = (f', Err ValueError) /\
  look ex_hdf (home ++ [lit "a.hdf"]) = Some (File (CHdf ex_root)) /\ look f' (home ++ [lit "a.hdf"]) = Some (File (CHdf HNil)) /\
  wanted hdf_exts (lit ".hdf") (get_path false home (lit "a.hdf")) (home ++ [lit "a.hdf"]).
Proof.
  eexists. split; [vm_compute; reflexivity|]. split; [reflexivity|]. split; [vm_compute; reflexivity|].
  apply wanted_iff; [discriminate|discriminate|reflexivity].
Qed.

(** ** C75 *)
Lemma image_content {T} {N : Num T} win cwd pil_array pil_ext s (im im' : image T) ow f f' q :
  prepare_image (suffix (get_path win cwd s)) im = Ok im' ->
  save_image win cwd pil_array pil_ext s im ow f = (f', Ok q) ->
  look f' q = Some (File (CImage (lower (suffix q)) im')).
Proof.
  intros Hp H. rewrite save_image_saver, Hp in H.
  destruct (saver_last _ _ _ _ _ _ H) as [[g [q' [Hw _]]]|[e [He _]]]; [|discriminate].
  unfold w_img in Hw. destruct (pil_array im'); [|discriminate]. unfold ibind at 1, ret in Hw.
  unfold ibind, as_value_error in Hw. destruct (pil_ext (lower (suffix q')) im'); [|discriminate].
  destruct (write_file q' (CImage (lower (suffix q')) im') g) as [g' [u|e]] eqn:Ew; [|discriminate].
  injection Hw as <- <-. unfold write_file in Ew. destruct q' as [|c q']; [discriminate|].
  destruct (look g (c :: q')) as [[]|]; try discriminate; destruct (look g (parent (c :: q'))) as [[]|]; try discriminate;
    injection Ew as <- _; now apply look_cons_same.
Qed.

(** Extensions compared literally: only .tif and .tiff (lower case) keep the
    values; everything else is scaled to 8 bits. *)
Definition is_tif (e : text) : Prop := e = lit ".tif" \/ e = lit ".tiff".
Lemma prepare_other {T} {N : Num T} e (im : image T) : ~ is_tif e -> prepare_image e im = scale8 im.
Proof.
  intros H. unfold prepare_image. destruct (teqb e (lit ".tif")) eqn:E1; [apply teqb_eq in E1; exfalso; apply H; now left|].
  destruct (teqb e (lit ".tiff")) eqn:E2; [apply teqb_eq in E2; exfalso; apply H; now right|]. reflexivity.
Qed.
(** What a saved image is: [out] is the content of the file q. *)
Definition image_at {T} (f : @FS T) (q : path) (out : image T) : Prop :=
  exists e, look f q = Some (File (CImage e out)).

Theorem C75_float : forall rnd, image_arith rnd -> forall win cwd pil_array pil_ext s im ow f f' q imn imx,
  let a := iarr im in
  ~ is_tif (suffix (get_path win cwd s)) -> ikind_of im = KFloat -> inside a imn -> inside a imx ->
  (forall j, inside a j -> nval a imn <= nval a j <= nval a imx)%R -> (nval a imn < nval a imx)%R ->
  (forall j, inside a j -> rnd (nval a j) = nval a j) ->
  @save_image R (Rnum rnd) win cwd pil_array pil_ext s im ow f = (f', Ok q) ->
  exists out, image_at f' q out /\ ikind_of out = KU8 /\ nshape (iarr out) = nshape a /\ spread rnd a (iarr out).
Proof.
  intros rnd Ha win cwd pil_array pil_ext s im ow f f' q imn imx a Ht Hk H1 H2 H3 H4 H5 H.
  destruct (scale8_float rnd Ha im imn imx Hk H1 H2 H3 H4 H5) as [out [Ho M]]. exists out. split; [|exact M].
  eexists. eapply (image_content (N := Rnum rnd)); [|exact H]. now rewrite prepare_other.
Qed.
Print Assumptions C75_float.
Theorem C75_int : forall rnd, image_arith rnd -> forall win cwd pil_array pil_ext s im ow f f' q w z imn imx,
  let a := iarr im in
  ~ is_tif (suffix (get_path win cwd s)) -> ikind_of im = KInt w ->
  (forall idx, inside a idx -> nval a idx = IZR (z idx)) -> inside a imn -> inside a imx ->
  (forall j, inside a j -> z imn <= z j <= z imx)%Z -> (z imn < z imx)%Z ->
  ((z imx - z imn <= 2 ^ 24)%Z \/ (forall x, rnd x = f64 x) /\ (z imx - z imn <= 2 ^ 53)%Z \/ (forall x, rnd x = x)) ->
  (* no difference to the minimum leaves the integer type *)
  (forall k, 0 <= k <= z imx - z imn -> w k = k)%Z ->
  @save_image R (Rnum rnd) win cwd pil_array pil_ext s im ow f = (f', Ok q) ->
  exists out, image_at f' q out /\ ikind_of out = KU8 /\ nshape (iarr out) = nshape a /\ spread rnd a (iarr out).
Proof.
  intros rnd Ha win cwd pil_array pil_ext s im ow f f' q w z imn imx a Ht Hk H1 H2 H3 H4 H5 H6 H7 H.
  destruct (scale8_int rnd Ha im w imn imx z Hk H1 H2 H3 H4 H5 H6 H7) as [out [Ho M]]. exists out. split; [|exact M].
  eexists. eapply (image_content (N := Rnum rnd)); [|exact H]. now rewrite prepare_other.
Qed.
Print Assumptions C75_int.
(** Unsigned 16-bit images always qualify. *)
Theorem C75_uint16 : forall win cwd pil_array pil_ext s im ow f f' q z imn imx,
  let a := iarr im in
  ~ is_tif (suffix (get_path win cwd s)) -> ikind_of im = KInt (fun k => k mod 2 ^ 16)%Z ->
  (forall idx, inside a idx -> nval a idx = IZR (z idx) /\ 0 <= z idx < 2 ^ 16)%Z -> inside a imn -> inside a imx ->
  (forall j, inside a j -> z imn <= z j <= z imx)%Z -> (z imn < z imx)%Z ->
  @save_image R (Rnum f64) win cwd pil_array pil_ext s im ow f = (f', Ok q) ->
  exists out, image_at f' q out /\ ikind_of out = KU8 /\ nshape (iarr out) = nshape a /\ spread f64 a (iarr out).
Proof.
  intros win cwd pil_array pil_ext s im ow f f' q z imn imx a Ht Hk H1 H2 H3 H4 H5 H.
  destruct (H1 imn H2) as [_ B1]. destruct (H1 imx H3) as [_ B2].
  change (2 ^ 16)%Z with 65536%Z in *.
  refine (C75_int f64 _ win cwd pil_array pil_ext s im ow f f' q _ z imn imx Ht Hk _ H2 H3 H4 H5 _ _ H).
  - right. right. reflexivity.
  - intros idx Hi. now destruct (H1 idx Hi).
  - left. change (2 ^ 24)%Z with 16777216%Z. lia.
  - intros k Hr. apply Z.mod_small. lia.
Qed.
Print Assumptions C75_uint16.
Theorem C75_constant : forall rnd win cwd pil_array pil_ext s (im : image R) ow f f' q c,
  let a := iarr im in
  ~ is_tif (suffix (get_path win cwd s)) -> ikind_of im <> KU8 -> indices (nshape a) <> [] ->
  (forall idx, inside a idx -> nval a idx = c) ->
  @save_image R (Rnum rnd) win cwd pil_array pil_ext s im ow f = (f', Ok q) ->
  exists out, image_at f' q out /\ ikind_of out = KU8 /\ nshape (iarr out) = nshape a /\
    (forall idx, inside a idx -> nval (iarr out) idx = IZR (Ztrunc c mod 256)).
Proof.
  intros rnd win cwd pil_array pil_ext s im ow f f' q c a Ht Hk Hn Hc H.
  destruct (scale8_const rnd im c Hk Hn Hc) as [out [Ho M]]. exists out. split; [|exact M].
  eexists. eapply (image_content (N := Rnum rnd)); [|exact H]. now rewrite prepare_other.
Qed.
Print Assumptions C75_constant.
(** 8-bit images are stored as they are. *)
Theorem C75_uint8 : forall {T} {N : Num T} win cwd pil_array pil_ext s (im : image T) ow f f' q,
  ~ is_tif (suffix (get_path win cwd s)) -> ikind_of im = KU8 ->
  save_image win cwd pil_array pil_ext s im ow f = (f', Ok q) -> image_at f' q im.
Proof.
  intros T N win cwd pil_array pil_ext s im ow f f' q Ht Hk H. eexists. eapply image_content; [|exact H].
  rewrite prepare_other by assumption. unfold scale8. now rewrite Hk.
Qed.
Print Assumptions C75_uint8.
Definition img1 {T} (k : ikind) (l : list T) (d : T) : image T :=
  {| ikind_of := k; iarr := {| nshape := [Z.of_nat (List.length l)]; nval := fun idx => nth (Z.to_nat (hd 0%Z idx)) l d |} |}.
(** The hypotheses of C75_float and C75_uint16 are met by an image of two pixels. *)
Example C75_ex : exists f' q, @save_image R (Rnum f64) false home (fun _ => true) (fun _ _ => true) (lit "a.png")
    (img1 (KInt (fun k => k mod 2 ^ 16)%Z) [IZR 7; IZR 60000] 0%R) true [(home, Dir)] = (f', Ok q) /\
  ~ is_tif (suffix (get_path false home (lit "a.png"))).
Proof.
  destruct (scale8_int f64 (or_intror (or_intror (fun _ => eq_refl))) (img1 (KInt (fun k => k mod 2 ^ 16)%Z) [IZR 7; IZR 60000] 0%R)
     _ [0%Z] [1%Z] (fun idx => if (hd 0 idx =? 0)%Z then 7%Z else 60000%Z) eq_refl) as [out [Ho _]].
  - intros idx [<-|[<-|[]]]; reflexivity.
  - now left.
  - right; now left.
  - intros j [<-|[<-|[]]]; cbn; lia.
  - cbn. lia.
  - left. cbn. lia.
  - intros k Hk. apply Z.mod_small. cbn in Hk. change (2 ^ 16)%Z with 65536%Z. lia.
  - do 2 eexists. split; [|intros [H|H]; discriminate H].
    unfold save_image. rewrite (prepare_other (N := Rnum f64)) by (intros [H|H]; discriminate H).
    unfold ibind at 1, lift. rewrite Ho. cbn. reflexivity.
Qed.
Lemma scale8_form {T} {N : Num T} (im : image T) mn mx : ikind_of im <> KU8 ->
  let vals := map (nval (iarr im)) (indices (nshape (iarr im))) in
  namin vals = Ok mn -> namax vals = Ok mx -> neqb mx mn = false ->
  scale8 im = Ok {| ikind_of := KU8; iarr := ndmap (fun x => to_u8 (ndiv (nmul (nofZ 255) (elem_sub (ikind_of im) x mn))
    (elem_sub (ikind_of im) mx mn))) (iarr im) |}.
Proof.
  intros Hk vals H1 H2 H3. unfold scale8. fold vals.
  destruct (ikind_of im); try congruence; rewrite H1; cbn [bind]; rewrite H2; cbn [bind]; now rewrite H3.
Qed.
Lemma saved_png {T} {N : Num T} (im out : image T) : scale8 im = Ok out ->
  exists f' q, save_image false home (fun _ => true) (fun _ _ => true) (lit "a.png") im true [(home, Dir)] = (f', Ok q) /\ image_at f' q out.
Proof.
  intros H. do 2 eexists. split.
  - unfold save_image. rewrite prepare_other by (intros [E|E]; discriminate E). unfold ibind at 1, lift. rewrite H. cbn. reflexivity.
  - eexists. cbn. reflexivity.
Qed.
(** In floating point the maximum can become 254. *)
Definition im055 : image PrimFloat.float := img1 KFloat [0%float; 0x1.199999999999ap-1%float (* 0.55 *)] 0%float.
Theorem C75_max_255_refuted : exists f' q out,
  save_image (N := FloatNum) false home (fun _ => true) (fun _ _ => true) (lit "a.png") im055 true [(home, Dir)] = (f', Ok q) /\ image_at f' q out /\ nval (iarr out) [1%Z] = 254%float.
Proof.
  pose proof (scale8_form (N := FloatNum) im055 0%float 0x1.199999999999ap-1%float ltac:(discriminate)
    ltac:(vm_compute; reflexivity) ltac:(vm_compute; reflexivity) ltac:(vm_compute; reflexivity)) as E.
  destruct (saved_png _ _ E) as [f' [q [A B]]]. exists f', q. eexists. split; [exact A|]. split; [exact B|].
  vm_compute. reflexivity.
Qed.
Print Assumptions C75_max_255_refuted.
(** Signed images that use the whole range wrap around: the order of the pixels
    -1 and 0 is reversed. *)
Definition im16 : image PrimFloat.float :=
  img1 (KInt (fun k => (k + 32768) mod 65536 - 32768)%Z) [(-32768)%float; (-1)%float; 0%float; 32767%float] 0%float.
Theorem C75_int16_refuted : exists f' q out,
  save_image (N := FloatNum) false home (fun _ => true) (fun _ _ => true) (lit "a.png") im16 true [(home, Dir)] = (f', Ok q) /\ image_at f' q out /\ nval (iarr out) [1%Z] = 255%float /\ nval (iarr out) [2%Z] = 0%float.
Proof.
  pose proof (scale8_form (N := FloatNum) im16 (-32768)%float 32767%float ltac:(discriminate)
    ltac:(vm_compute; reflexivity) ltac:(vm_compute; reflexivity) ltac:(vm_compute; reflexivity)) as E.
  destruct (saved_png _ _ E) as [f' [q [A B]]]. exists f', q. eexists. split; [exact A|]. split; [exact B|].
  vm_compute. split; reflexivity.
Qed.
Print Assumptions C75_int16_refuted.

(** ** C76 *)
(** What load_image and (for .tif) save_image average over. *)
Theorem C76_channels_last : forall {T} {N : Num T} (a : ndarr T) h w c, nshape a = [h; w; c] -> (c < h)%Z -> (c < w)%Z ->
  (forall win cwd s f e k, look f (get_path win cwd s) = Some (File (CImage e {| ikind_of := k; iarr := a |})) ->
     exists m, load_image win cwd s true f = (f, Ok m) /\ nshape m = [h; w] /\
       (forall i j, nval m [i; j] = ndiv (nsum (map (fun n => nf32 (nval a [i; j; n])) (zrange 0 c))) (nofZ c))) /\
  (forall win cwd pil_array pil_ext s f f' q ow k, is_tif (suffix (get_path win cwd s)) ->
     save_image win cwd pil_array pil_ext s {| ikind_of := k; iarr := a |} ow f = (f', Ok q) ->
     exists m, image_at f' q m /\ nshape (iarr m) = [h; w] /\
       (forall i j, nval (iarr m) [i; j] = ndiv (nsum (map (fun n => nval a [i; j; n]) (zrange 0 c))) (nofZ c))).
Proof.
  intros T N a h w c Hs H1 H2.
  assert (A : argmin (nshape a) = 2).
  { rewrite Hs. apply argmin_unique with c; [reflexivity|]. intros [|[|[|[]]]] x E; cbn in E; try discriminate; injection E as <-; lia. }
  split.
  - intros win cwd s f e k Hf. unfold load_image, ibind, get. rewrite Hf. unfold ret. cbn [iarr].
    change (nshape (ndmap nf32 a)) with (nshape a). rewrite A, Hs. eexists. split; [reflexivity|].
    unfold mean_axis. cbn [nshape ndmap nval]. rewrite Hs. split; [reflexivity|]. intros i j. reflexivity.
  - intros win cwd pil_array pil_ext s f f' q ow k Ht H. eexists. split.
    + eexists. eapply image_content; [|exact H]. unfold prepare_image. cbn [iarr]. rewrite A, Hs.
      destruct Ht as [-> | ->]; reflexivity.
    + cbn [iarr]. unfold mean_axis. cbn [nshape nval]. rewrite Hs. split; [reflexivity|]. intros i j. reflexivity.
Qed.
Print Assumptions C76_channels_last.
(** Images not taller than their number of channels lose their height. *)
Theorem C76_low_image : forall {T} {N : Num T} (a : ndarr T) h w c, nshape a = [h; w; c] -> (h <= w)%Z -> (h <= c)%Z ->
  (forall win cwd s f e k, look f (get_path win cwd s) = Some (File (CImage e {| ikind_of := k; iarr := a |})) ->
     exists m, load_image win cwd s true f = (f, Ok m) /\ nshape m = [w; c]) /\
  (forall win cwd pil_array pil_ext s f f' q ow k, is_tif (suffix (get_path win cwd s)) ->
     save_image win cwd pil_array pil_ext s {| ikind_of := k; iarr := a |} ow f = (f', Ok q) ->
     exists m, image_at f' q m /\ nshape (iarr m) = [w; c]).
Proof.
  intros T N a h w c Hs H1 H2.
  assert (A : argmin (nshape a) = 0).
  { rewrite Hs. apply argmin_unique with h; [reflexivity|]. intros [|[|[|[]]]] x E; cbn in E; try discriminate; injection E as <-; lia. }
  split.
  - intros win cwd s f e k Hf. unfold load_image, ibind, get. rewrite Hf. unfold ret. cbn [iarr].
    change (nshape (ndmap nf32 a)) with (nshape a). rewrite A, Hs. eexists. split; [reflexivity|].
    unfold mean_axis. cbn [nshape ndmap nval]. rewrite Hs. reflexivity.
  - intros win cwd pil_array pil_ext s f f' q ow k Ht H. eexists. split.
    + eexists. eapply image_content; [|exact H]. unfold prepare_image. cbn [iarr]. rewrite A, Hs.
      destruct Ht as [-> | ->]; reflexivity.
    + cbn [iarr]. unfold mean_axis. cbn [nshape nval]. rewrite Hs. reflexivity.
Qed.
Print Assumptions C76_low_image.
(** Without averaging, or with two axes, the image is only converted to float32. *)
Theorem C76_plain : forall {T} {N : Num T} win cwd s average f e (im : image T),
  look f (get_path win cwd s) = Some (File (CImage e im)) -> (average = false \/ List.length (nshape (iarr im)) <= 2) ->
  load_image win cwd s average f = (f, Ok (ndmap nf32 (iarr im))).
Proof.
  intros T N win cwd s average f e im Hf H. unfold load_image, ibind, get. rewrite Hf. unfold ret. do 2 f_equal.
  change (nshape (ndmap nf32 (iarr im))) with (nshape (iarr im)).
  destruct H as [-> | H]; [now rewrite Bool.andb_false_r|].
  destruct (2 <? Z.of_nat (List.length (nshape (iarr im))))%Z eqn:E; [lia|reflexivity].
Qed.
Print Assumptions C76_plain.
Definition rgb (h w c : Z) : @FS PrimFloat.float := [(home, Dir); (home ++ [lit "a.png"],
  File (CImage (lit ".png") {| ikind_of := KU8; iarr := {| nshape := [h; w; c]; nval := fun _ => 3%float |} |}))].
Example C76_ex : shape_of (snd (load_image (N := FloatNum) false home (lit "a.png") true (rgb 20 30 3))) = Ok [20; 30]%Z /\
  shape_of (snd (load_image (N := FloatNum) false home (lit "a.png") true (rgb 3 30 3))) = Ok [30; 3]%Z.
Proof. split; vm_compute; reflexivity. Qed.

(** ** C77 *)
Theorem C77_find_file : forall {T} cwd fnmatch s (f f' : @FS T) r, find_file cwd fnmatch s f = (f', r) ->
  let p := get_path true cwd s in
  f' = f /\ (p = [] -> r = Err ValueError) /\
  (Forall (Forall good_comp) (map fst f) -> pname p <> [] ->
   let matching q := q <> [] /\ parent q = parent p /\ look f q <> None /\ fnmatch (pname p) (pname q) = true in
   r = Err FileNotFoundError /\ (forall q, ~ matching q) \/
   exists l, r = Ok l /\ l <> [] /\ StronglySorted tle l /\ NoDup l /\
     (forall t, In t l <-> exists q, matching q /\ t = posix q)).
Proof. intros T. apply find_file_ok. Qed.
Print Assumptions C77_find_file.
Example C77_ex : let m := fun (pat n : text) => teqb (firstn 1 pat) (firstn 1 n) in
  find_file home m (lit "a*") ex_fs = (ex_fs, Ok [lit "/home/a.txt"; lit "/home/a_0000.txt"]) /\
  find_file home m (lit "b*") ex_fs = (ex_fs, Err FileNotFoundError) /\ Forall (Forall good_comp) (map fst ex_fs).
Proof. split; [reflexivity|]. split; [reflexivity|]. repeat constructor; discriminate. Qed.

(** ** C78 *)
Theorem C78_pickle_round_trip : forall {T P} win cwd (pdump : P -> text * option exn) pload s s' v ow (f f' : @FS T) q,
  (snd (pdump v) = None -> pload (fst (pdump v)) = Ok v) ->
  save_python_list win cwd pdump s v ow f = (f', Ok q) -> get_path win cwd s' = q ->
  load_python_list win cwd pload s' f' = (f', Ok v).
Proof. intros T P win cwd. apply pkl_round_trip. Qed.
Print Assumptions C78_pickle_round_trip.
Example C78_ex : exists f' q, save_python_list false home (fun b => (ex_str b, None)) (lit "l") true false ex_fs = (f', Ok q) /\
  load_python_list false home ex_float (posix q) f' = (f', Ok true) /\ q = home ++ [lit "l.pkl"].
Proof. do 2 eexists. split; [vm_compute; reflexivity|]. split; vm_compute; reflexivity. Qed.

(** ** C79 *)
Theorem C79_stream : forall {T} {N : Num T} win cwd s shape key dt ow options (f f' : @FS T) q,
  open_hdf_stream win cwd s shape key dt ow options f = (f', Ok q) ->
  exists root, look f' q = Some (File (CHdf root)) /\
    (exists d, lookup root key = Some (HData d) /\ dtype d = dt /\ nshape (darr d) = shape /\ forall i, nval (darr d) i = nofZ 0) /\
    (forall grp k d, In grp options -> In (k, d) (snd grp) -> lookup root k = Some (HData d) /\ ~ exists a b, k = a ++ key ++ b).
Proof.
  intros T N win cwd s shape key dt ow options f f' q H.
  destruct (stream_done win cwd s shape key dt ow options f f' q H) as [root [A [B C]]]. exists root. split; [exact A|]. split.
  - exists (zeros dt shape). repeat split; auto.
  - intros grp k d Hg Hk. destruct (C grp k d Hg Hk) as [D E]. split; [exact D|]. intros X. apply contains_spec in X. congruence.
Qed.
Print Assumptions C79_stream.
Example C79_ex : exists f' q, open_hdf_stream (N := FloatNum) false home (lit "a.hdf") [2; 2]%Z (lit "entry/data") (lit "float32") false
    [(lit "rotation", [(lit "entry/angles", ds 2); (lit "entry/dark/mean", ds 3)])] ex_hdf = (f', Ok q) /\ q = home ++ [lit "a_0000.hdf"].
Proof. do 2 eexists. split; vm_compute; reflexivity. Qed.
(** Exactly when a stream can be opened, and exactly what the file holds. *)
Theorem C74_stream : forall {T} {N : Num T} win cwd s shape key dt ow options (f : @FS T) p,
  Forall good_comp cwd -> wanted hdf_exts (lit ".hdf") (get_path win cwd s) p -> writable f p ->
  let opts := flat_map snd options in
  let good := (forall k d, In (k, d) opts -> ~ exists a b, k = a ++ key ++ b) /\ separate (map (fun o => comps (fst o)) opts ++ [comps key]) in
  (good -> exists f' q root, open_hdf_stream win cwd s shape key dt ow options f = (f', Ok q) /\ look f' q = Some (File (CHdf root)) /\
     forall k e, lookup root k = Some (HData e) <->
       comps k = comps key /\ e = {| dtype := dt; darr := {| nshape := shape; nval := fun _ => nofZ 0 |} |} \/ exists k1, In (k1, e) opts /\ comps k1 = comps k) /\
  (~ good -> exists f', open_hdf_stream win cwd s shape key dt ow options f = (f', Err ValueError)).
Proof.
  intros T N win cwd s shape key dt ow options f p Hc Hw Hr opts good.
  pose proof (wanted_ne _ _ _ _ Hw) as H0.
  assert (Ht : target win cwd hdf_exts (lit ".hdf") s = Ok p) by (unfold target; apply wanted_default; auto; now apply path_good).
  assert (Hd : forall d b, parent p = d ++ b -> is_file f d = false) by (apply writable_parent; [intros ->; destruct Hr as [_ Hr]; now apply Hr|exact Hr]).
  assert (Hs : suffix p <> []).
  { unfold target in Ht. apply default_ext_suffix in Ht; [tauto|apply is_ext_hdf|]. intros x [<-|[<-|[<-|[<-|[]]]]]; discriminate. }
  pose proof (stream_saver win cwd s shape key dt ow options f) as SS. rewrite Ht in SS. fold opts in SS.
  destruct (saver_reaches p ow (w_stream key dt shape opts) f Hs Hd) as [g [q [SR [_ [Hpar [Hpq [Hq1 [Hq2 [Hl Hne]]]]]]]]].
  pose proof (eq_trans SS SR) as W. clear SS SR. rewrite W. clear W.
  assert (G : good <-> (forall k d, In (k, d) opts -> contains key k = false) /\ separate (map (fun o => comps (fst o)) opts ++ [comps key])).
  { unfold good. split; intros [A B]; (split; [|exact B]); intros k d Hi; specialize (A k d Hi).
    - destruct (contains key k) eqn:E; [|reflexivity]. apply contains_spec in E. contradiction.
    - intros X. apply contains_spec in X. congruence. }
  destruct (w_stream_result key dt shape opts q g) as [[f' [root [E [GG [L [_ [Hdat _]]]]]]]|[f' [E GG]]].
  - rewrite Hl. destruct ow; [rewrite (Hq1 eq_refl); apply Hr|]. rewrite (fresh_none _ _ _ (Hq2 eq_refl)). discriminate.
  - now rewrite Hpq.
  - exact Hne.
  - split; [|intros X; exfalso; apply X; now apply G]. intros _. exists f', q, root. split; [exact E|]. split; [exact L|].
    intros k e. unfold lookup. rewrite Hdat, in_app_iff, in_map_iff. cbn [In]. unfold entry. split.
    + intros [[[k1 e1] [X Hi]]|[X|[]]]; [cbn [fst snd] in X; injection X as X ->; eauto|]. injection X as -> <-. auto.
    + intros [[-> ->]|[k1 [Hi X]]]; [auto|]. left. exists (k1, e). cbn [fst snd]. now rewrite X.
  - split; [intros X; exfalso; apply GG; now apply G|]. intros _. eauto.
Qed.
Print Assumptions C74_stream.
(** Two options in different groups; the same with a dataset below another
    dataset, and with a key given twice. *)
Example C74_stream_ex : separate (map comps [lit "entry/angles"; lit "entry/dark/mean"; lit "entry/data"]) /\
  ~ separate (map comps [lit "entry/dark"; lit "/entry//dark/mean"; lit "entry/data"]) /\
  (exists f', open_hdf_stream (N := FloatNum) false home (lit "a.hdf") [2; 2]%Z (lit "entry/data") (lit "float32") false
    [(lit "a", [(lit "entry/dark", ds 2)]); (lit "b", [(lit "/entry//dark/mean", ds 3)])] ex_hdf = (f', Err ValueError)) /\
  (exists f', open_hdf_stream (N := FloatNum) false home (lit "a.hdf") [2; 2]%Z (lit "entry/data") (lit "float32") false
    [(lit "a", [(lit "x", ds 2)]); (lit "b", [(lit "./x", ds 3)])] ex_hdf = (f', Err ValueError)).
Proof.
  split; [|split; [|split; eexists; vm_compute; reflexivity]].
  - split; [repeat constructor; discriminate|]. repeat constructor; intros [c H]; vm_compute in H; discriminate H.
  - intros [_ O]. inversion_clear O as [|? ? F _]. inversion_clear F as [|? ? [A _] _]. apply A. exists [lit "mean"]. reflexivity.
Qed.
(** Loading an object of the file: every dataset and group of the file is
    reached by its path, with or without the leading slash; nothing is written;
    a key that leads nowhere and a path that is no HDF file give a
    ValueError. *)
Theorem C70_object : forall {T} {N : Num T} win cwd s f (root : hitems T),
  look f (get_path win cwd s) = Some (File (CHdf root)) -> wf_items root ->
  (forall p o, reach root p o -> load_hdf_object win cwd s (slash :: keytext p) f = (f, Ok o) /\
                                 load_hdf_object win cwd s (keytext p) f = (f, Ok o)) /\
  (forall k, load_hdf_object win cwd s k f = (f, match lookup root k with Some o => Ok o | None => Err ValueError end)) /\
  (* what is listed with a shape can be loaded as a dataset of that shape *)
  (forall ks ss ts i k sh, hdf_information win cwd s f = (f, Ok (ks, ss, ts)) -> nth_error ks i = Some k -> nth_error ss i = Some (Some sh) ->
     exists d, load_hdf_object win cwd s k f = (f, Ok (HData d)) /\ nshape (darr d) = sh).
Proof.
  intros T N win cwd s f root Hf Hw.
  assert (L : forall k, load_hdf_object win cwd s k f = (f, match lookup root k with Some o => Ok o | None => Err ValueError end)).
  { intros k. unfold load_hdf_object, ibind at 1, as_value_error, checked_path, open_hdf. unfold ibind, get.
    assert (E : exists_ f (get_path win cwd s) = true) by (apply exists_look; congruence). rewrite E. unfold ret. rewrite Hf.
    now destruct (lookup root k). }
  split; [|split; [exact L|]].
  - intros p o R. rewrite !L. destruct (lookup_reach root p o Hw R) as [L1 L2]. rewrite L1, L2. auto.
  - intros ks ss ts i k sh E Hk Hs. destruct (C70_listing win cwd s f root Hf Hw) as [ks' [ss' [ts' [E' [_ [_ [A _]]]]]]].
    rewrite E in E'. injection E' as <- <- <-. destruct (A i k Hk) as [A1 _]. rewrite Hs in A1. rewrite L.
    destruct (lookup root k) as [[d|g]|]; try discriminate. injection A1 as ->. eauto.
Qed.
Print Assumptions C70_object.
Theorem C70_object_no_file : forall {T} win cwd s k (f : @FS T),
  (forall root, look f (get_path win cwd s) <> Some (File (CHdf root))) -> load_hdf_object win cwd s k f = (f, Err ValueError).
Proof.
  intros T win cwd s k f H. unfold load_hdf_object, ibind at 1, as_value_error, checked_path, open_hdf. unfold ibind, get.
  destruct (exists_ f (get_path win cwd s)); [|reflexivity]. unfold ret.
  destruct (look f (get_path win cwd s)) as [[|[]]|] eqn:E; try reflexivity. now destruct (H _ eq_refl).
Qed.
Print Assumptions C70_object_no_file.
(** load_hdf_file with a key reads the object which load_hdf_object gives: any
    failure of the latter is a ValueError of the former, a group an
    AttributeError, a dataset of neither 2 nor 3 dimensions a ValueError, and a
    2D dataset is returned as it is whatever the index and axis are. *)
Theorem C71_key_given : forall {T} {N : Num T} win cwd s key index axis (f : @FS T),
  let load := load_hdf_file win cwd s (Some key) index axis f in
  match load_hdf_object win cwd s key f with
  | (_, Err _) => load = (f, Err ValueError)
  | (_, Ok (HGroup _)) => load = (f, Err AttributeError)
  | (_, Ok (HData d)) =>
      (length (nshape (darr d)) = 2 -> load = (f, Ok (darr d))) /\
      (length (nshape (darr d)) <> 2 -> length (nshape (darr d)) <> 3 -> load = (f, Err ValueError)) /\
      (length (nshape (darr d)) = 3 -> index = IOther -> load = (f, Err AttributeError))
  end.
Proof.
  intros T N win cwd s key index axis f load. unfold load, load_hdf_object, load_hdf_file. unfold ibind, as_value_error, checked_path, open_hdf. unfold ibind, get.
  destruct (exists_ f (get_path win cwd s)); [|reflexivity]. unfold ret, throw.
  destruct (look f (get_path win cwd s)) as [[|[]]|]; try reflexivity. unfold lift, load_open. cbn [bind].
  destruct (lookup _ key) as [[d|g]|]; try reflexivity. unfold slice_dataset.
  destruct (length (nshape (darr d))) as [|[|[|[|n]]]]; repeat split; intros; try lia; try reflexivity. now subst index.
Qed.
Print Assumptions C71_key_given.
Theorem C71_no_file : forall {T} {N : Num T} win cwd s key index axis (f : @FS T),
  (forall root, look f (get_path win cwd s) <> Some (File (CHdf root))) -> load_hdf_file win cwd s key index axis f = (f, Err ValueError).
Proof.
  intros T N win cwd s k index axis f H. unfold load_hdf_file, ibind at 1, as_value_error, checked_path, open_hdf. unfold ibind, get.
  destruct (exists_ f (get_path win cwd s)); [|reflexivity]. unfold ret.
  destruct (look f (get_path win cwd s)) as [[|[]]|] eqn:E; try reflexivity. now destruct (H _ eq_refl).
Qed.
Print Assumptions C71_no_file.
Example C71_key_ex : snd (load_hdf_file (N := FloatNum) false home (lit "a.hdf") (Some (lit "entry")) INone 0 ex_hdf) = Err AttributeError /\
  snd (load_hdf_file (N := FloatNum) false home (lit "a.hdf") (Some (lit "entry/no")) INone 0 ex_hdf) = Err ValueError /\
  snd (load_hdf_file (N := FloatNum) false home (lit "a.hdf") (Some (lit "entry/data")) (IInt 7) 1 ex_hdf) = Ok (darr (ds 3)).
Proof. split; [|split]; reflexivity. Qed.
Example C70_object_ex : load_hdf_object false home (lit "a.hdf") (lit "entry/data") ex_hdf = (ex_hdf, Ok (HData (ds 3))) /\
  load_hdf_object false home (lit "a.hdf") (lit "/entry/nothing") ex_hdf = (ex_hdf, Err ValueError) /\
  load_hdf_object false home (lit "b.hdf") (lit "data") ex_hdf = (ex_hdf, Err ValueError).
Proof. split; [|split]; reflexivity. Qed.
