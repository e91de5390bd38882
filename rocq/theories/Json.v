(** The parts of Python's json module that save_metadata_json and
    load_metadata_json use: json.dump(.., indent=4, default=..) and json.load.
    Strings occur only as keys and need no escapes; repr of a float and its
    parsing are parameters. *)
From Coq Require Import Ascii String Decimal DecimalString DecimalZ DecimalPos DecimalNat.
From Verif Require Import Base Text.

(** A JSON document; used by loadersaver.py 829-848 (load_metadata_json). *)
Inductive jval (T : Type) :=
| JInt (z : Z) | JFloat (x : T) | JNull | JBool (b : bool)
| JList (l : list (jval T)) | JObj (l : list (text * jval T)).
Arguments JInt {T}. Arguments JFloat {T}. Arguments JNull {T}. Arguments JBool {T}.
Arguments JList {T}. Arguments JObj {T}.

(** Python values given as coefficients: numbers (np.float64 is a float),
    numpy scalars, None, bool, lists, tuples, arrays (by their tolist()) and
    anything json and __numpy_encoder do not know.
    Used by loadersaver.py 791-826 (save_metadata_json), loadersaver.py
    791-826 (json_job). *)
Inductive pyval (T : Type) :=
| PInt (z : Z) | PFloat (x : T) | PNpInt (z : Z) | PNpFloat (x : T) | PNone | PBool (b : bool)
| PList (l : list (pyval T)) | PTuple (l : list (pyval T)) | PArr (v : jval T) | POther.
Arguments PInt {T}. Arguments PFloat {T}. Arguments PNpInt {T}. Arguments PNpFloat {T}.
Arguments PNone {T}. Arguments PBool {T}. Arguments PList {T}. Arguments PTuple {T}.
Arguments PArr {T}. Arguments POther {T}.

(** repr of an int
    Used by loadersaver.py 791-826 (save_metadata_json), loadersaver.py
    791-826 (json_job). *)
Definition zdec (z : Z) : text := lit (NilZero.string_of_int (Z.to_int z)).
(** int(s) for a decimal number; used by loadersaver.py 829-848
    (load_metadata_json). *)
Definition zparse (s : text) : option Z :=
  match NilZero.int_of_string (string_of_list_ascii s) with
  | Some d => Some (Z.of_int d)
  | None => None
  end.

(** newline + 4 * lvl spaces
    Used by loadersaver.py 791-826 (save_metadata_json), loadersaver.py
    791-826 (json_job). *)
Definition nl (lvl : nat) : text := LF :: repeat " "%char (4 * lvl).
(** A string in quotes (names without special characters); used by
    loadersaver.py 791-826 (save_metadata_json), loadersaver.py 791-826
    (json_job). *)
Definition quote (k : text) : text := """"%char :: k ++ [""""%char].

(** sep.join(l); used by loadersaver.py 791-826 (save_metadata_json),
    loadersaver.py 791-826 (json_job). *)
Fixpoint join (sep : text) (l : list text) : text :=
  match l with [] => [] | [x] => x | x :: l' => x ++ sep ++ join sep l' end.

(** White space of JSON; used by loadersaver.py 829-848 (load_metadata_json). *)
Definition jws (c : ascii) : bool :=
  aeqb c " " || aeqb c (ascii_of_nat 9) || aeqb c LF || aeqb c CR.
(** Characters that end a number or a word in JSON; used by loadersaver.py
    829-848 (load_metadata_json). *)
Definition delim (c : ascii) : bool :=
  jws c || aeqb c "," || aeqb c ":" || aeqb c "[" || aeqb c "]" || aeqb c "{" || aeqb c "}" || aeqb c """".
(** Skipping white space; used by loadersaver.py 829-848 (load_metadata_json).
    *)
Fixpoint skip (s : text) : text :=
  match s with c :: s' => if jws c then skip s' else s | [] => [] end.
(** A number or a word up to the next delimiter; used by loadersaver.py 829-848
    (load_metadata_json). *)
Fixpoint token (s : text) : text * text :=
  match s with
  | [] => ([], [])
  | c :: s' => if delim c then ([], s) else let (a, b) := token s' in (c :: a, b)
  end.
(** After an opening quote: the key and what follows the closing quote.
    Used by loadersaver.py 829-848 (load_metadata_json). *)
Fixpoint pkey (s : text) : option (text * text) :=
  match s with
  | [] => None
  | c :: s' => if aeqb c """" then Some ([], s')
               else match pkey s' with Some (k, r) => Some (c :: k, r) | None => None end
  end.

Section Json.
  Context {T : Type}.
  Variables (repr : T -> text) (parse_float : text -> option T).

  (** json.dumps of a plain value at nesting level lvl, indent=4.
      Used by loadersaver.py 791-826 (save_metadata_json), loadersaver.py
      791-826 (json_job). *)
  Fixpoint print (lvl : nat) (v : jval T) : text :=
    match v with
    | JInt z => zdec z
    | JFloat x => repr x
    | JNull => lit "null"
    | JBool true => lit "true"
    | JBool false => lit "false"
    | JList [] => lit "[]"
    | JList l => "["%char :: nl (S lvl) ++ join (","%char :: nl (S lvl)) (map (print (S lvl)) l) ++ nl lvl ++ ["]"%char]
    | JObj [] => lit "{}"
    | JObj l => "{"%char :: nl (S lvl) ++
        join (","%char :: nl (S lvl)) (map (fun kv => quote (fst kv) ++ lit ": " ++ print (S lvl) (snd kv)) l)
        ++ nl lvl ++ ["}"%char]
    end.

  (** The text written by json.dump(v, f, indent=4, default=__numpy_encoder)
      until it finishes or raises (the encoder yields chunks in this order).
      Used by loadersaver.py 791-826 (save_metadata_json), loadersaver.py
      791-826 (json_job). *)
  Definition out := (text * option exn)%type.
  (** Writing one piece after another until one fails; used by loadersaver.py
      791-826 (save_metadata_json), loadersaver.py 791-826 (json_job). *)
  Definition oseq (a : out) (b : out) : out :=
    match a with (t, Some e) => (t, Some e) | (t, None) => (t ++ fst b, snd b) end.
  (** Writing a piece of text; used by loadersaver.py 791-826
      (save_metadata_json), loadersaver.py 791-826 (json_job). *)
  Definition okt (t : text) : out := (t, None).
  (** Writing pieces with separators; used by loadersaver.py 791-826
      (save_metadata_json), loadersaver.py 791-826 (json_job). *)
  Fixpoint ojoin (sep : text) (l : list out) : out :=
    match l with
    | [] => okt []
    | [x] => x
    | x :: l' => oseq x (oseq (okt sep) (ojoin sep l'))
    end.
  (** json.dump(value, indent=4, default=__numpy_encoder) (loadersaver.py
      779-826). *)
  Fixpoint enc (lvl : nat) (v : pyval T) : out :=
    let seq_ l := match l with
      | [] => okt (lit "[]")
      | _ => oseq (okt ("["%char :: nl (S lvl)))
               (oseq (ojoin (","%char :: nl (S lvl)) (map (enc (S lvl)) l)) (okt (nl lvl ++ ["]"%char])))
      end in
    match v with
    | PInt z => okt (zdec z)
    | PFloat x => okt (repr x)
    | PNone => okt (lit "null")
    | PBool true => okt (lit "true")
    | PBool false => okt (lit "false")
    | PNpInt z => okt (zdec z)          (* loadersaver.py 780-782 *)
    | PNpFloat x => okt (repr x)        (* 783-784 *)
    | PArr w => okt (print lvl w)       (* 785-786 *)
    | PList l => seq_ l
    | PTuple l => seq_ l
    | POther => ([], Some TypeError)    (* 787-788 *)
    end.

  (** json.loads.  On texts that json.dump does not produce it may accept more
      than Python does.
      Used by loadersaver.py 829-848 (load_metadata_json). *)
  Definition scalar (tok : text) : option (jval T) :=
    if teqb tok (lit "null") then Some JNull else
    if teqb tok (lit "true") then Some (JBool true) else
    if teqb tok (lit "false") then Some (JBool false) else
    match zparse tok with
    | Some z => Some (JInt z)
    | None => match parse_float tok with Some x => Some (JFloat x) | None => None end
    end.

  (** json.loads: one value; used by loadersaver.py 829-848
      (load_metadata_json). *)
  Fixpoint pval (fuel : nat) (s : text) : option (jval T * text) :=
    match fuel with
    | O => None
    | S n =>
        match skip s with
        | [] => None
        | c :: s1 =>
            if aeqb c "[" then
              match skip s1 with
              | d :: s2 => if aeqb d "]" then Some (JList [], s2) else
                  match pelems n s1 with Some (l, r) => Some (JList l, r) | None => None end
              | [] => None
              end
            else if aeqb c "{" then
              match skip s1 with
              | d :: s2 => if aeqb d "}" then Some (JObj [], s2) else
                  match pmembers n s1 with Some (l, r) => Some (JObj l, r) | None => None end
              | [] => None
              end
            else let (tok, r) := token (c :: s1) in
                 match scalar tok with Some v => Some (v, r) | None => None end
        end
    end
  with pelems (fuel : nat) (s : text) : option (list (jval T) * text) :=
    match fuel with
    | O => None
    | S n =>
        match pval n s with
        | None => None
        | Some (v, r) =>
            match skip r with
            | c :: r1 => if aeqb c "]" then Some ([v], r1)
                         else if aeqb c "," then
                           match pelems n r1 with Some (l, r2) => Some (v :: l, r2) | None => None end
                         else None
            | [] => None
            end
        end
    end
  with pmembers (fuel : nat) (s : text) : option (list (text * jval T) * text) :=
    match fuel with
    | O => None
    | S n =>
        match skip s with
        | q :: s1 => if negb (aeqb q """") then None else
            match pkey s1 with
            | None => None
            | Some (k, s2) =>
                match skip s2 with
                | c0 :: s3 => if negb (aeqb c0 ":") then None else
                    match pval n s3 with
                    | None => None
                    | Some (v, r) =>
                        match skip r with
                        | c :: r1 => if aeqb c "}" then Some ([(k, v)], r1)
                                     else if aeqb c "," then
                                       match pmembers n r1 with Some (l, r2) => Some ((k, v) :: l, r2) | None => None end
                                     else None
                        | [] => None
                        end
                    end
                | [] => None
                end
            end
        | [] => None
        end
    end.

  (** json.load: one value and nothing else; used by loadersaver.py 829-848
      (load_metadata_json). *)
  Definition loads (s : text) : option (jval T) :=
    match pval (S (List.length s)) s with
    | Some (v, r) => match skip r with [] => Some v | _ => None end
    | None => None
    end.

  (** The value read back.
      (Only used in statements about loadersaver.py 791-848.) *)
  Fixpoint plain (v : pyval T) : option (jval T) :=
    let fix all l := match l with
      | [] => Some []
      | x :: l' => match plain x, all l' with Some y, Some ys => Some (y :: ys) | _, _ => None end
      end in
    match v with
    | PInt z => Some (JInt z)
    | PFloat x => Some (JFloat x)
    | PNone => Some JNull
    | PBool b => Some (JBool b)
    | PNpInt z => Some (JInt z)
    | PNpFloat x => Some (JFloat x)
    | PArr w => Some w
    | PList l => match all l with Some ys => Some (JList ys) | None => None end
    | PTuple l => match all l with Some ys => Some (JList ys) | None => None end
    | POther => None
    end.

  (** What is required of float.__repr__ and float.
      (Only used in statements about loadersaver.py 791-848.) *)
  Definition float_repr_ok : Prop := forall x,
    repr x <> [] /\ Forall (fun c => delim c = false) (repr x) /\ scalar (repr x) = Some (JFloat x).

  (** Keys without quotes.
      (Only used in statements about loadersaver.py 791-848.) *)
  Fixpoint keys_ok (v : jval T) : Prop :=
    match v with
    | JList l => (fix all l := match l with [] => True | x :: l' => keys_ok x /\ all l' end) l
    | JObj l => (fix all l := match l with [] => True
        | kv :: l' => Forall (fun c => c <> """"%char) (fst kv) /\ keys_ok (snd kv) /\ all l' end) l
    | _ => True
    end.
End Json.
