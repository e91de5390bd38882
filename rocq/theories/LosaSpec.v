(** Vocabulary for the properties of discorpy/losa: names and extensions, the
    name chosen for a new file, what saving may do to a file system. *)
From Coq Require Import Ascii String.
From Verif Require Import Base Text Fs.
Local Open Scope nat_scope.

(** The extension of a file name: the part from the last dot, if that dot is
    neither the first nor the last character. *)
Definition dotted (name a e : text) : Prop :=
  exists e', e = dot :: e' /\ name = a ++ e /\ a <> [] /\ e' <> [] /\ ~ In dot e'.
Definition splits (name a e : text) : Prop :=
  dotted name a e \/ (e = [] /\ a = name /\ forall a' e', ~ dotted name a' e').

(** q is the path p with _NNNN (at least four digits) before the extension. *)
Definition with_counter (p q : path) (n : nat) : Prop :=
  exists d name a e, p = d ++ [name] /\ splits name a e /\ q = d ++ [a ++ lit "_" ++ dec4 n ++ e].

(** x is e with every capital letter replaced by the small one. *)
Definition capitals := lit "ABCDEFGHIJKLMNOPQRSTUVWXYZ".
Definition smalls := lit "abcdefghijklmnopqrstuvwxyz".
Definition in_small (e x : text) : Prop :=
  Forall2 (fun c c' => In (c, c') (combine capitals smalls) \/ (~ In c capitals /\ c' = c)) e x.
Definition accepts (acc : list text) (e : text) : Prop := exists x, in_small e x /\ In x acc.

(** p is the path requested as p0 when only the extensions [acc] (lower case)
    are accepted and [ext] is the default. *)
Definition wanted (acc : list text) (ext : text) (p0 p : path) : Prop :=
  exists d name a e, p0 = d ++ [name] /\ splits name a e /\
    ((accepts acc e /\ p = p0) \/ (~ accepts acc e /\ p = d ++ [a ++ ext])).

(** *** Text files *)
(** Character codes: tab, line feed, vertical tab, form feed, carriage return,
    the four separators 28-31 and the space; 9, 31 and 32 do not end a line. *)
Definition blank (c : ascii) : Prop := In (nat_of_ascii c) [9; 10; 11; 12; 13; 28; 29; 30; 31; 32].
Definition line_break (c : ascii) : Prop := In (nat_of_ascii c) [10; 11; 12; 13; 28; 29; 30].
(** The end of a line as a text: LF, CR LF, CR, ... *)
Definition line_end (e : text) : Prop := e = [ascii_of_nat 13; ascii_of_nat 10] \/ exists c, e = [c] /\ line_break c.
(** The lines of a text; none is empty, the last may lack its end. *)
Inductive text_lines : text -> list text -> Prop :=
| tl_nil : text_lines [] []
| tl_last l : l <> [] -> Forall (fun c => ~ line_break c) l -> text_lines l [l]
| tl_line l e t ls : l <> [] -> Forall (fun c => ~ line_break c) l -> line_end e -> text_lines t ls -> text_lines (l ++ e ++ t) (l :: ls).
(** w is the last word of the line l. *)
Definition last_word (l w : text) : Prop :=
  exists a b, l = a ++ w ++ b /\ w <> [] /\ Forall (fun c => ~ blank c) w /\ Forall blank b /\
    (a = [] \/ exists a' c, a = a' ++ [c] /\ blank c).

Section Spec.
  Context {C : Type}.
  Implicit Types f : fs C.

  (** The name for a new file requested as p: p if free, else with the smallest
      free counter. *)
  Definition chosen_name f (p q : path) : Prop :=
    (look f p = None /\ q = p) \/
    (look f p <> None /\ exists n, with_counter p q n /\ look f q = None /\
       forall m q', m < n -> with_counter p q' m -> look f q' <> None).

  (** Everything that existed still exists with the same content. *)
  Definition untouched f f' : Prop := forall p n, look f p = Some n -> look f' p = Some n.

  (** An action that saves to a new name for p: whatever happens nothing that
      existed is changed; on success the path returned is the chosen name and
      now holds a file. *)
  Definition saves_new f (p : path) (m : io (fs C) path) : Prop :=
    forall f' r, m f = (f', r) -> untouched f f' /\
      forall q, r = Ok q -> chosen_name f p q /\ look f q = None /\ exists c, look f' q = Some (File c).

  (** No ancestor of p is a file and p is not a directory. *)
  Definition writable f (p : path) : Prop :=
    (forall d b, p = d ++ b -> b <> [] -> is_file f d = false) /\ look f p <> Some Dir.
End Spec.
