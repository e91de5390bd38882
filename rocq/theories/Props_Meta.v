(** Text metadata written by hand or by other programs (C101).
    Vocabulary: LosaSpec.v (blank, line_break, line_end, text_lines, last_word). *)
From Coq Require Import Ascii String ZifyBool Lia.
From Verif Require Import Base Text Fs FsFacts Losa LosaFacts LosaFacts2 LosaSpec MetaFacts Props_Losa.
Local Open Scope nat_scope.

(** ** C101 *)
Lemma load_text {T} win cwd float_ s f t : look f (get_path win cwd s) = Some (File (CText t)) ->
  @load_metadata_txt T win cwd float_ s f = (f, parse_meta float_ (univ_newlines t)).
Proof.
  intros L. unfold load_metadata_txt. unfold ibind at 1. rewrite (checked_at win cwd _ _ _ _ eq_refl L). unfold ibind. rewrite (read_text_at _ _ _ L). reflexivity.
Qed.
(** The last word of every line is a number: that is what is loaded, whatever
    precedes it, whatever separates the words and however the lines end. *)
Theorem C101_last_words : forall {T} win cwd float_ s f t ls (x y : T) facts,
  look f (get_path win cwd s) = Some (File (CText t)) -> text_lines t ls ->
  Forall2 (fun l v => exists w, last_word l w /\ float_ w = Ok v) ls (x :: y :: facts) ->
  load_metadata_txt win cwd float_ s f = (f, Ok (x, y, facts)).
Proof. intros T win cwd float_ s f t ls x y facts L H F. rewrite (load_text _ _ _ _ _ _ L). now rewrite (parse_values float_ t ls x y facts H F). Qed.
Print Assumptions C101_last_words.
(** Fewer than two lines. *)
Theorem C101_too_short : forall {T} win cwd float_ s f t ls (vs : list T),
  look f (get_path win cwd s) = Some (File (CText t)) -> text_lines t ls ->
  Forall2 (fun l v => exists w, last_word l w /\ float_ w = Ok v) ls vs -> List.length ls < 2 ->
  load_metadata_txt win cwd float_ s f = (f, Err IndexError).
Proof. intros T win cwd float_ s f t ls vs L H F N. rewrite (load_text _ _ _ _ _ _ L). now rewrite (parse_short float_ t ls vs H F N). Qed.
Print Assumptions C101_too_short.
(** After good lines [ls] an empty or blank line, or one whose last word is
    not a number: the rest of the file does not matter. *)
Theorem C101_bad_line : forall {T} win cwd float_ s f ls (vs : list T) l t,
  let line l := l ++ [ascii_of_nat 10] in
  look f (get_path win cwd s) = Some (File (CText (concat (map line ls) ++ line l ++ t))) ->
  Forall (Forall (fun c => ~ line_break c)) (l :: ls) ->
  Forall2 (fun l v => exists w, last_word l w /\ float_ w = Ok v) ls vs ->
  (Forall blank l -> load_metadata_txt win cwd float_ s f = (f, Err IndexError)) /\
  (forall w e, last_word l w -> float_ w = Err e -> load_metadata_txt win cwd float_ s f = (f, Err e)).
Proof.
  intros T win cwd float_ s f ls vs l t line L N F. unfold line in L. fold LF in L. rewrite <- app_assoc in L. cbn [app] in L.
  rewrite (load_text _ _ _ _ _ _ L), (parse_from float_ ls vs l t F N). unfold line_value. split.
  - intros B. rewrite (blank_line_words _ B). reflexivity.
  - intros w e W E. rewrite (last_word_get _ _ W). cbn [bind]. rewrite E. reflexivity.
Qed.
Print Assumptions C101_bad_line.

(** A file with a tab, CR LF, a comment and no end of the last line. *)
Definition tab : ascii := ascii_of_nat 9.
Definition hand_written : text :=
  (lit "x:" ++ tab :: lit "1.5") ++ [ascii_of_nat 13; ascii_of_nat 10] ++ (lit "the centre, vertical 0.5  ") ++ [ascii_of_nat 10] ++ (lit "1.5").
Ltac chars := match goal with
  | |- Forall (fun c => ~ line_break c) _ => apply no_break_iff; repeat (constructor; [reflexivity|]); constructor
  | |- Forall (fun c => ~ blank c) _ => apply no_ws_iff; repeat (constructor; [reflexivity|]); constructor
  | |- Forall blank _ => repeat (constructor; [apply blank_iff; reflexivity|]); constructor end.
Example C101_case : load_metadata_txt false home ex_float (lit "m.txt") [(home, Dir); (home ++ [lit "m.txt"], File (CText hand_written))] =
  ([(home, Dir); (home ++ [lit "m.txt"], File (CText hand_written))], Ok (true, false, [true])).
Proof.
  apply (C101_last_words false home ex_float (lit "m.txt") _ hand_written [lit "x:" ++ tab :: lit "1.5"; lit "the centre, vertical 0.5  "; lit "1.5"]); [reflexivity| |].
  - apply tl_line; [discriminate|chars|now left|]. apply tl_line; [discriminate|chars|right; eexists; split; [reflexivity|now left]|]. apply tl_last; [discriminate|chars].
  - constructor; [|constructor; [|constructor; [|constructor]]].
    + exists (lit "1.5"). split; [|reflexivity]. exists (lit "x:" ++ [tab]), []. split; [reflexivity|]. split; [discriminate|]. split; [chars|]. split; [constructor|].
      right. exists (lit "x:"), tab. split; [reflexivity|now left].
    + exists (lit "0.5"). split; [|reflexivity]. exists (lit "the centre, vertical "), (lit "  "). split; [reflexivity|]. split; [discriminate|]. split; [chars|]. split; [chars|].
      right. exists (lit "the centre, vertical"), " "%char. split; [reflexivity|]. apply blank_iff. reflexivity.
    + exists (lit "1.5"). split; [|reflexivity]. exists [], []. split; [reflexivity|]. split; [discriminate|]. split; [chars|]. split; [constructor|now left].
Qed.
(** A blank line at the end is an error. *)
Example C101_blank_case : let t := lit "x = 1.5" ++ LF :: lit "y = 0.5" ++ [LF; LF] in
  snd (load_metadata_txt false home ex_float (lit "m.txt") [(home, Dir); (home ++ [lit "m.txt"], File (CText t))]) = Err IndexError.
Proof. vm_compute. reflexivity. Qed.
