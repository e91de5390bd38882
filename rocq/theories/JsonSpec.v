(** What counts as JSON text for a value (C103): any layout, any spelling of
    the floats.  Independent of the printer and of the parser of Json.v, from
    which only the type of values and the decimal form of an integer come. *)
From Coq Require Import Ascii String.
From Verif Require Import Base Text Json.
Local Open Scope nat_scope.

(** Tab, line feed, carriage return, space. *)
Definition json_blank (c : ascii) : Prop := In (nat_of_ascii c) [9; 10; 13; 32].
Definition blanks (w : text) : Prop := Forall json_blank w.
(** Characters that end a number or a word. *)
Definition json_mark (c : ascii) : Prop := json_blank c \/ In c (lit ",:[]{}""").
(** A name between quotes without escapes: no quote, no backslash, no control character. *)
Definition json_key (k : text) : Prop := Forall (fun c => c <> """"%char /\ c <> "\"%char /\ 32 <= nat_of_ascii c) k.

Section Spec.
  Context {T : Type}.
  Variable parse_float : text -> option T.
  (** t is a word that is read as the float x. *)
  Definition float_word (t : text) (x : T) : Prop :=
    t <> [] /\ Forall (fun c => ~ json_mark c) t /\ ~ In t [lit "null"; lit "true"; lit "false"] /\
    zparse t = None /\ parse_float t = Some x.

  Inductive json_text : text -> jval T -> Prop :=
  | jt_int z : json_text (zdec z) (JInt z)
  | jt_float t x : float_word t x -> json_text t (JFloat x)
  | jt_null : json_text (lit "null") JNull
  | jt_true : json_text (lit "true") (JBool true)
  | jt_false : json_text (lit "false") (JBool false)
  | jt_no_items w : blanks w -> json_text (lit "[" ++ w ++ lit "]") (JList [])
  | jt_items t l : json_items t l -> json_text (lit "[" ++ t ++ lit "]") (JList l)
  | jt_no_members w : blanks w -> json_text (lit "{" ++ w ++ lit "}") (JObj [])
  | jt_members t l : json_members t l -> json_text (lit "{" ++ t ++ lit "}") (JObj l)
  with json_items : text -> list (jval T) -> Prop :=
  | ji_last a t b v : blanks a -> json_text t v -> blanks b -> json_items (a ++ t ++ b) [v]
  | ji_more a t b u v l : blanks a -> json_text t v -> blanks b -> json_items u l -> json_items (a ++ t ++ b ++ lit "," ++ u) (v :: l)
  with json_members : text -> list (text * jval T) -> Prop :=
  | jm_last a k b c t d v : blanks a -> json_key k -> blanks b -> blanks c -> json_text t v -> blanks d ->
      json_members (a ++ lit """" ++ k ++ lit """" ++ b ++ lit ":" ++ c ++ t ++ d) [(k, v)]
  | jm_more a k b c t d u v l : blanks a -> json_key k -> blanks b -> blanks c -> json_text t v -> blanks d -> json_members u l ->
      json_members (a ++ lit """" ++ k ++ lit """" ++ b ++ lit ":" ++ c ++ t ++ d ++ lit "," ++ u) ((k, v) :: l).

  (** The value of a name in an object: its last occurrence counts. *)
  Definition last_value (l : list (text * jval T)) (k : text) (v : jval T) : Prop :=
    exists a b, l = a ++ (k, v) :: b /\ ~ In k (map fst b).

  (** The arrays that occur in a Python value. *)
  Inductive array_in (w : jval T) : pyval T -> Prop :=
  | ai_here : array_in w (PArr w)
  | ai_list l x : In x l -> array_in w x -> array_in w (PList l)
  | ai_tuple l x : In x l -> array_in w x -> array_in w (PTuple l).
  (** Something json cannot encode occurs in a Python value. *)
  Inductive unknown_in : pyval T -> Prop :=
  | ui_here : unknown_in POther
  | ui_list l x : In x l -> unknown_in x -> unknown_in (PList l)
  | ui_tuple l x : In x l -> unknown_in x -> unknown_in (PTuple l).
  (** What an array becomes as nested lists: no objects in it. *)
  Inductive array_value : jval T -> Prop :=
  | av_int z : array_value (JInt z)
  | av_float x : array_value (JFloat x)
  | av_bool b : array_value (JBool b)
  | av_none : array_value JNull
  | av_list l : (forall x, In x l -> array_value x) -> array_value (JList l).
End Spec.
Scheme json_text_mind := Induction for json_text Sort Prop
  with json_items_mind := Induction for json_items Sort Prop
  with json_members_mind := Induction for json_members Sort Prop.
Combined Scheme json_all_ind from json_text_mind, json_items_mind, json_members_mind.
