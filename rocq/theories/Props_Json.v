(** JSON metadata written by other programs, laid out in any way, or cut off
    (C103).  Vocabulary: JsonSpec.v (json_text, blanks, last_value, array_in,
    unknown_in, array_value). *)
From Coq Require Import Ascii String ZifyBool Lia.
From Verif Require Import Base Text Fs FsFacts Json JsonFacts JsonSpec JsonFacts2 Losa LosaFacts LosaFacts2 LosaFacts3 LosaFacts4 LosaFacts5 LosaSpec MetaFacts Props_Losa Props_Meta.
Local Open Scope nat_scope.

(** ** C103 *)
Lemma load_json {T} win cwd pf s f t : look f (get_path win cwd s) = Some (File (CText t)) ->
  @load_metadata_json T win cwd pf s f = (f, match loads pf (univ_newlines t) with
    | None => Err ValueError
    | Some m => x <- jfield (lit "xcenter") m ;; y <- jfield (lit "ycenter") m ;; l <- jfield (lit "list_fact") m ;; Ok (x, y, l) end).
Proof.
  intros L. unfold load_metadata_json. unfold ibind at 1. rewrite (checked_at win cwd _ _ _ _ eq_refl L). unfold ibind. rewrite (read_text_at _ _ _ L). reflexivity.
Qed.
Lemma find_last_value {T} (l : list (text * jval T)) k v : last_value l k v -> find_last (fun kv => teqb k (fst kv)) l = Some (k, v).
Proof.
  intros [a [b [-> N]]]. unfold find_last. rewrite rev_app_distr. cbn [rev]. rewrite <- app_assoc. cbn [app].
  assert (F : forall kv, In kv (rev b) -> teqb k (fst kv) = false).
  { intros kv H. apply in_rev in H. destruct (teqb k (fst kv)) eqn:E; [|reflexivity]. apply teqb_eq in E. exfalso. apply N. rewrite E. now apply in_map. }
  induction (rev b) as [|kv r IH].
  - cbn [app find fst]. now rewrite (proj2 (teqb_eq k k) eq_refl).
  - cbn [app find]. rewrite F by now left. apply IH. intros kv' H. apply F. now right.
Qed.
Lemma find_last_none {T} (l : list (text * jval T)) k : ~ In k (map fst l) -> find_last (fun kv => teqb k (fst kv)) l = None.
Proof.
  intros N. unfold find_last. assert (F : forall kv, In kv (rev l) -> teqb k (fst kv) = false).
  { intros kv H. apply in_rev in H. destruct (teqb k (fst kv)) eqn:E; [|reflexivity]. apply teqb_eq in E. exfalso. apply N. rewrite E. now apply in_map. }
  induction (rev l) as [|kv r IH]; [reflexivity|]. cbn [find]. rewrite F by now left. apply IH. intros kv' H. apply F. now right.
Qed.
(** An object in any layout: the values of the three names, other names do
    not matter, the last occurrence of a name counts. *)
Theorem C103_any_layout : forall {T} win cwd parse_float s f w1 t w2 l (x y facts : jval T),
  look f (get_path win cwd s) = Some (File (CText (w1 ++ t ++ w2))) ->
  blanks w1 -> blanks w2 -> json_text parse_float t (JObj l) ->
  last_value l (lit "xcenter") x -> last_value l (lit "ycenter") y -> last_value l (lit "list_fact") facts ->
  load_metadata_json win cwd parse_float s f = (f, Ok (x, y, facts)).
Proof.
  intros T win cwd pf s f w1 t w2 l x y facts L A B H X Y F. rewrite (load_json _ _ _ _ _ _ L), (read_any_layout _ _ _ _ _ H A B).
  unfold jfield. now rewrite (find_last_value _ _ _ X), (find_last_value _ _ _ Y), (find_last_value _ _ _ F).
Qed.
Print Assumptions C103_any_layout.
(** A name is missing; the file is not an object. *)
Theorem C103_missing_name : forall {T} win cwd parse_float s f w1 t w2 (l : list (text * jval T)) k,
  look f (get_path win cwd s) = Some (File (CText (w1 ++ t ++ w2))) ->
  blanks w1 -> blanks w2 -> json_text parse_float t (JObj l) ->
  In k [lit "xcenter"; lit "ycenter"; lit "list_fact"] -> ~ In k (map fst l) ->
  load_metadata_json win cwd parse_float s f = (f, Err KeyError).
Proof.
  intros T win cwd pf s f w1 t w2 l k L A B H K N. rewrite (load_json _ _ _ _ _ _ L), (read_any_layout _ _ _ _ _ H A B).
  apply find_last_none in N. unfold jfield. destruct K as [<-|[<-|[<-|[]]]]; rewrite N; cbn [bind].
  - reflexivity.
  - now destruct (find_last (fun kv => teqb (lit "xcenter") (fst kv)) l).
  - destruct (find_last (fun kv => teqb (lit "xcenter") (fst kv)) l); [|reflexivity]. cbn [bind]. now destruct (find_last (fun kv => teqb (lit "ycenter") (fst kv)) l).
Qed.
Print Assumptions C103_missing_name.
Theorem C103_not_an_object : forall {T} win cwd parse_float s f w1 t w2 (v : jval T),
  look f (get_path win cwd s) = Some (File (CText (w1 ++ t ++ w2))) ->
  blanks w1 -> blanks w2 -> json_text parse_float t v -> (forall l, v <> JObj l) ->
  load_metadata_json win cwd parse_float s f = (f, Err TypeError).
Proof.
  intros T win cwd pf s f w1 t w2 v L A B H N. rewrite (load_json _ _ _ _ _ _ L), (read_any_layout _ _ _ _ _ H A B).
  destruct v; try reflexivity. now elim (N l).
Qed.
Print Assumptions C103_not_an_object.
(** A file that was cut anywhere before the end of the object is rejected. *)
Theorem C103_cut : forall {T} win cwd parse_float s f w1 t (l : list (text * jval T)) p x,
  look f (get_path win cwd s) = Some (File (CText p)) ->
  blanks w1 -> json_text parse_float t (JObj l) -> w1 ++ t = p ++ x -> x <> [] ->
  load_metadata_json win cwd parse_float s f = (f, Err ValueError).
Proof. intros T win cwd pf s f w1 t l p x L A H E N. rewrite (load_json _ _ _ _ _ _ L). now rewrite (cut_object pf w1 t l p x H A E N). Qed.
Print Assumptions C103_cut.
(** The same for a file that was saved: of its text every proper beginning is
    rejected. *)
Theorem C103_saved_file_cut : forall {T X} win cwd repr parse_float (to_float : X -> res T) s x y facts ow f f' q g s' p,
  float_repr_ok repr parse_float -> ~ unknown_in facts -> (forall w, array_in w facts -> array_value w) ->
  save_metadata_json win cwd repr to_float s x y facts ow f = (f', Ok q) ->
  exists t, look f' q = Some (File (CText t)) /\
    forall r, t = p ++ r -> r <> [] -> look g (get_path win cwd s') = Some (File (CText p)) ->
      load_metadata_json win cwd parse_float s' g = (g, Err ValueError).
Proof.
  intros T X win cwd repr pf to_float s x y facts ow f f' q g s' p Hr U A. rewrite save_json_saver. destruct (target _ _ _) as [p0|]; [|discriminate].
  intros H. destruct (plain facts) as [j|] eqn:P; [|exfalso; now apply U, unknown_plain].
  destruct (saver_last _ _ _ _ _ _ H) as [[g0 [q' [Hw _]]]|[e [He _]]]; [|congruence].
  destruct (json_writer_cases _ _ _ _ _ _ _ _ _ Hw) as [[e [He _]]|[xc [yc [Hx [Hy Hw']]]]]; [congruence|].
  rewrite (dump_meta_ok _ _ _ _ _ P) in Hw'. cbn [fst snd] in Hw'. destruct (w_text_done _ _ _ _ _ _ Hw') as [[e [He _]]|[-> [Hq Hqq]]]; [congruence|]. injection Hqq as ->.
  exists (print repr 0 (json_of xc yc j)). split; [now apply look_cons_same|]. intros r E N L.
  apply (C103_cut win cwd pf s' g [] (print repr 0 (json_of xc yc j)) [(lit "xcenter", JFloat xc); (lit "ycenter", JFloat yc); (lit "list_fact", j)] p r L); [constructor| |exact E|exact N].
  apply meta_object; [exact Hr|]. apply print_text; [exact Hr|]. now apply (plain_array facts).
Qed.
Print Assumptions C103_saved_file_cut.

(** Saving something json cannot encode fails after the old file was emptied;
    loading what is left fails, it never gives partial coefficients. *)
Theorem C103_after_failed_save : forall {T X} win cwd repr parse_float (to_float : X -> res T) s x y facts f xc yc p s',
  Forall good_comp cwd -> float_repr_ok repr parse_float ->
  to_float x = Ok xc -> to_float y = Ok yc -> unknown_in facts -> (forall w, array_in w facts -> array_value w) ->
  wanted [lit ".json"] (lit ".json") (get_path win cwd s) p -> writable f p -> get_path win cwd s' = p ->
  exists f' e, save_metadata_json win cwd repr to_float s x y facts true f = (f', Err e) /\
    load_metadata_json win cwd parse_float s' f' = (f', Err ValueError).
Proof.
  intros T X win cwd repr pf to_float s x y facts f xc yc p s' Hc Hr Hx Hy U A Hw Ww Hp.
  pose proof (wanted_ne _ _ _ _ Hw) as H0. apply unknown_plain in U.
  destruct (json_bad_facts win cwd repr to_float s x y facts f xc yc p Hx Hy U) as [f' [e [t [H1 [H2 H3]]]]].
  - unfold target. apply wanted_default; auto. now apply path_good.
  - apply writable_parent; [|exact Ww]. intros ->. destruct Ww as [_ Ww]. now apply Ww.
  - apply Ww.
  - exists f', e. split; [exact H1|]. unfold dump_meta in H3. destruct (enc repr 1 facts) as [u o] eqn:E. destruct o as [e'|]; [|exfalso; cbn in H3; discriminate].
    destruct (begun_all repr facts A 1 u e' E) as [j [r [J [N Q]]]].
    apply (C103_cut win cwd pf s' f' [] (print repr 0 (json_of xc yc j)) [(lit "xcenter", JFloat xc); (lit "ycenter", JFloat yc); (lit "list_fact", j)] t (r ++ nl 0 ++ ["}"%char])).
    + now rewrite Hp.
    + constructor.
    + apply meta_object; [exact Hr|]. now apply print_text.
    + cbn in H3. injection H3 as H3 _. rewrite <- H3. unfold json_of. cbn [print map join fst snd]. rewrite <- Q. unfold quote. cbn [lit list_ascii_of_string app]. repeat (rewrite <- app_assoc; cbn [app]). reflexivity.
    + now destruct r.
Qed.
Print Assumptions C103_after_failed_save.
(** Text metadata have no such protection: a saved file cut after any line but
    the first gives the values of the lines that are left. *)
Theorem C103_text_cut_refuted : forall {T} win cwd str_ float_ s s' (x y : T) facts more ow f f' q,
  (forall v, In v (x :: y :: facts ++ more) -> str_ v <> [] /\ (forall c, In c (str_ v) -> ~ blank c) /\ float_ (str_ v) = Ok v) ->
  save_metadata_txt win cwd str_ s x y (facts ++ more) ow f = (f', Ok q) ->
  exists t r, look f' q = Some (File (CText (t ++ r))) /\ (more <> [] -> r <> []) /\
    (forall g, look g (get_path win cwd s') = Some (File (CText t)) -> load_metadata_txt win cwd float_ s' g = (g, Ok (x, y, facts))).
Proof.
  intros T win cwd str_ float_ s s' x y facts more ow f f' q V H. rewrite save_txt_saver in H. destruct (target _ _ _) as [p|]; [|discriminate].
  assert (W := saved_text _ _ _ _ _ _ H). rewrite meta_text_items in W. unfold items in W.
  assert (E : forall i, fact_items i (facts ++ more) = fact_items i facts ++ fact_items (i + List.length facts) more).
  { clear. induction facts as [|v l IH]; intros i; cbn [fact_items app List.length]; [now rewrite Nat.add_0_r|]. rewrite IH. now rewrite Nat.add_succ_comm. }
  rewrite E, app_comm_cons, app_comm_cons, flat_map_app in W. fold (items x y facts) in W. rewrite <- meta_text_items in W.
  do 2 eexists. split; [exact W|]. split.
  - intros N. destruct more as [|v more]; [congruence|]. cbn [fact_items flat_map]. unfold meta_line. discriminate.
  - intros g L. rewrite (load_text _ _ _ _ _ _ L). rewrite parse_meta_text; [reflexivity|]. apply Forall_forall. intros v Hv.
    destruct (V v) as [A [B C]]; [cbn [In] in *; rewrite in_app_iff; tauto|]. split; [exact A|]. split; [|exact C]. apply no_ws_iff. now apply Forall_forall.
Qed.
Print Assumptions C103_text_cut_refuted.

(** A file with tabs, CR LF, another name and one name twice. *)
Definition hand_json : text := tab :: lit "{" ++ [CR; LF] ++ tab :: lit """list_fact"" :" ++ LF :: lit "[ 1.5,0.5 , 3 ]" ++ CR :: lit ", ""by"":null,""xcenter"": 7," ++ LF ::
  lit """xcenter"":0.5 ,""ycenter"" : 1.5" ++ [CR; LF] ++ lit "}" ++ [LF; LF].
Ltac jblank := repeat (constructor; [apply json_blank_iff; reflexivity|]); constructor.
Ltac jkey := repeat (constructor; [split; [discriminate|split; [discriminate|vm_compute; lia]]|]); constructor.
Example C103_case : load_metadata_json false home ex_parse (lit "m.json") [(home, Dir); (home ++ [lit "m.json"], File (CText hand_json))] =
  ([(home, Dir); (home ++ [lit "m.json"], File (CText hand_json))], Ok (JFloat false, JFloat true, JList [JFloat true; JFloat false; JInt 3])).
Proof.
  assert (F : forall b, float_word ex_parse (ex_str b) b) by (intros b; apply (repr_word _ _ ex_repr_ok)).
  set (obj := [(lit "list_fact", JList [JFloat true; JFloat false; JInt 3]); (lit "by", JNull); (lit "xcenter", JInt 7); (lit "xcenter", JFloat false); (lit "ycenter", JFloat true)]).
  set (t := lit "{" ++ [CR; LF] ++ tab :: lit """list_fact"" :" ++ LF :: lit "[ 1.5,0.5 , 3 ]" ++ CR :: lit ", ""by"":null,""xcenter"": 7," ++ LF :: lit """xcenter"":0.5 ,""ycenter"" : 1.5" ++ [CR; LF] ++ lit "}").
  apply (C103_any_layout false home ex_parse (lit "m.json") _ [tab] t [LF; LF] obj).
  - reflexivity.
  - jblank.
  - jblank.
  - assert (I : json_items ex_parse (lit " 1.5,0.5 , 3 ") [JFloat true; JFloat false; JInt 3]).
    { apply (ji_more _ (lit " ") (ex_str true) [] (lit "0.5 , 3 ")); [jblank|apply jt_float, F|jblank|].
      apply (ji_more _ [] (ex_str false) (lit " ") (lit " 3 ")); [jblank|apply jt_float, F|jblank|].
      apply (ji_last _ (lit " ") (zdec 3) (lit " ")); [jblank|apply jt_int|jblank]. }
    assert (I' := jt_items _ _ _ I).
    assert (B0 : blanks []) by jblank. assert (B1 : blanks (lit " ")) by jblank. assert (B2 : blanks [LF]) by jblank. assert (B3 : blanks [CR]) by jblank.
    assert (B4 : blanks [CR; LF]) by jblank. assert (B5 : blanks [CR; LF; tab]) by jblank.
    assert (Kx : json_key (lit "xcenter")) by jkey. assert (Ky : json_key (lit "ycenter")) by jkey. assert (Kl : json_key (lit "list_fact")) by jkey. assert (Kb : json_key (lit "by")) by jkey.
    assert (M1 := jm_last ex_parse [] _ (lit " ") (lit " ") _ [CR; LF] _ B0 Ky B1 B1 (jt_float _ _ _ (F true)) B4).
    assert (M2 := jm_more ex_parse [LF] _ [] [] _ (lit " ") _ _ _ B2 Kx B0 B0 (jt_float _ _ _ (F false)) B1 M1).
    assert (M3 := jm_more ex_parse [] _ [] (lit " ") _ [] _ _ _ B0 Kx B0 B1 (jt_int _ 7%Z) B0 M2).
    assert (M4 := jm_more ex_parse (lit " ") _ [] [] _ [] _ _ _ B1 Kb B0 B0 (jt_null _) B0 M3).
    assert (M5 := jm_more ex_parse [CR; LF; tab] _ (lit " ") [LF] _ [CR] _ _ _ B5 Kl B1 B2 I' B3 M4).
    exact (jt_members _ _ _ M5).
  - exists [(lit "list_fact", JList [JFloat true; JFloat false; JInt 3]); (lit "by", JNull); (lit "xcenter", JInt 7)], [(lit "ycenter", JFloat true)].
    split; [reflexivity|]. intros [H|[]]. discriminate H.
  - exists [(lit "list_fact", JList [JFloat true; JFloat false; JInt 3]); (lit "by", JNull); (lit "xcenter", JInt 7); (lit "xcenter", JFloat false)], [].
    split; [reflexivity|]. intros [].
  - exists [], [(lit "by", JNull); (lit "xcenter", JInt 7); (lit "xcenter", JFloat false); (lit "ycenter", JFloat true)].
    split; [reflexivity|]. intros [H|[H|[H|[H|[]]]]]; discriminate H.
Qed.
(** The beginnings of a saved file, all of them. *)
Example C103_cut_case : exists f' q, save_metadata_json false home ex_str (@Ok bool) (lit "m.json") true false (PTuple [PFloat true; PArr (JList [JInt 3; JFloat false])]) false ex_fs = (f', Ok q) /\
  exists t, look f' q = Some (File (CText t)) /\ List.length t > 60 /\ forall p r, t = p ++ r -> r <> [] ->
    load_metadata_json false home ex_parse (lit "c.json") [(home, Dir); (home ++ [lit "c.json"], File (CText p))] = ([(home, Dir); (home ++ [lit "c.json"], File (CText p))], Err ValueError).
Proof.
  set (facts := PTuple [PFloat true; PArr (JList [JInt 3; JFloat false])]).
  destruct (save_metadata_json false home ex_str (@Ok bool) (lit "m.json") true false facts false ex_fs) as [f' [q|e]] eqn:E; [|vm_compute in E; discriminate E].
  exists f', q. split; [reflexivity|]. assert (E' := E). vm_compute in E'. injection E' as Ef Eq. eexists. split; [rewrite <- Ef, <- Eq; vm_compute; reflexivity|]. split; [vm_compute; lia|].
  intros p r P N.
  destruct (C103_saved_file_cut false home ex_str ex_parse (@Ok bool) (lit "m.json") true false facts false ex_fs f' q [(home, Dir); (home ++ [lit "c.json"], File (CText p))] (lit "c.json") p ex_repr_ok) as [t [L C]].
  - intros U. inversion U as [| |l x Hx Hu]; subst. destruct Hx as [<-|[<-|[]]]; inversion Hu.
  - intros w W. inversion W as [| |l x Hx Hw]; subst. destruct Hx as [<-|[<-|[]]]; inversion Hw; subst. constructor. intros z [<-|[<-|[]]]; constructor.
  - exact E.
  - apply (C r); [|exact N|reflexivity]. rewrite <- P. rewrite <- Ef, <- Eq in L. vm_compute in L. injection L as <-. reflexivity.
Qed.
