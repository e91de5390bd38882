(** Paths, file systems and actions with side effects and exceptions. *)
From Coq Require Import Ascii String.
From Verif Require Import Base Text.

(** An absolute path: the names from the root.  pathlib.Path without symbolic
    links and drives.
    Used by loadersaver.py 70-81 (get_path), loadersaver.py 358-376
    (create_folder), loadersaver.py 400-402 (numbered) and others. *)
Definition path := list text.
(** Equality of paths; used by loadersaver.py 899-917 (find_file). *)
Fixpoint path_eqb (a b : path) : bool :=
  match a, b with
  | [], [] => true
  | x :: a', y :: b' => teqb x y && path_eqb a' b'
  | _, _ => false
  end.
Lemma path_eqb_eq a b : path_eqb a b = true <-> a = b.
Proof.
  revert b. induction a as [|x a IH]; intros [|y b]; cbn; try (split; congruence).
  rewrite andb_true_iff, IH, teqb_eq. split.
  - intros [-> ->]. reflexivity.
  - intros H. injection H as -> ->. auto.
Qed.
Lemma path_eqb_spec a b : reflect (a = b) (path_eqb a b).
Proof.
  destruct (path_eqb a b) eqn:E; constructor.
  - now apply path_eqb_eq.
  - intros H. apply path_eqb_eq in H. congruence.
Qed.

(** Path.name and Path.parent
    Used by loadersaver.py 899-917 (find_file), loadersaver.py 453-497
    (fig_job). *)
Definition pname (p : path) : text := last p [].
(** Path.parent; used by loadersaver.py 358-376 (create_folder), loadersaver.py
    400-402 (numbered), loadersaver.py 899-917 (find_file) and others. *)
Definition parent (p : path) : path := removelast p.

(** '.'; used by loadersaver.py 453-497 (fig_job). *)
Definition dot : ascii := "."%char.
(** Position of the last dot as in str.rfind('.'), -1 if there is none.
    Used by loadersaver.py 453-497 (fig_job). *)
Fixpoint rfind_from (i : Z) (best : Z) (s : text) : Z :=
  match s with
  | [] => best
  | c :: s' => rfind_from (i + 1) (if aeqb c dot then i else best) s'
  end.
(** name.rfind('.'), as in Path.suffix; used by loadersaver.py 453-497
    (fig_job). *)
Definition rfind_dot (s : text) : Z := rfind_from 0 (-1) s.

(** PurePath.suffix and stem (Python < 3.14): the part from the last dot if it
    is neither the first nor the last character of the name.
    Used by loadersaver.py 358-376 (create_folder), loadersaver.py 400-402
    (numbered), loadersaver.py 411-450 (save_image) and others. *)
Definition has_suffix (s : text) : bool :=
  let i := rfind_dot s in ((0 <? i) && (i <? Z.of_nat (List.length s) - 1))%Z.
(** Path.suffix of a name; used by loadersaver.py 358-376 (create_folder),
    loadersaver.py 400-402 (numbered), loadersaver.py 411-450 (save_image) and
    others. *)
Definition suffix_of (s : text) : text :=
  if has_suffix s then skipn (Z.to_nat (rfind_dot s)) s else [].
(** Path.stem of a name; used by loadersaver.py 400-402 (numbered). *)
Definition stem_of (s : text) : text :=
  if has_suffix s then firstn (Z.to_nat (rfind_dot s)) s else s.
(** Path.suffix; used by loadersaver.py 358-376 (create_folder), loadersaver.py
    400-402 (numbered), loadersaver.py 411-450 (save_image) and others. *)
Definition suffix (p : path) : text := suffix_of (pname p).
(** Path.stem; used by loadersaver.py 400-402 (numbered). *)
Definition stem (p : path) : text := stem_of (pname p).

(** PurePath.with_suffix; ValueError for the root.
    Used by loadersaver.py 572-605 (save_hdf_file), loadersaver.py 608-656
    (open_hdf_stream), loadersaver.py 713-751 (save_metadata_txt) and others.
    *)
Definition with_suffix (p : path) (ext : text) : res path :=
  match pname p with
  | [] => Err ValueError
  | _ => Ok (parent p ++ [stem p ++ ext])
  end.

(** Components of a path string, and Path(s).resolve() with current
    directory [cwd].
    Used by loadersaver.py 70-81 (get_path), loadersaver.py 899-917
    (find_file), loadersaver.py 572-605 (save_hdf_file) and others. *)
Fixpoint split_slash (cur : text) (s : text) : list text :=
  match s with
  | [] => [cur]
  | c :: s' => if aeqb c "/"%char then cur :: split_slash [] s' else split_slash (cur ++ [c]) s'
  end.
(** One component of a path, '.' and '..' removed; used by loadersaver.py 70-81
    (get_path), loadersaver.py 899-917 (find_file). *)
Definition step_dir (p : path) (c : text) : path :=
  if teqb c [] || teqb c (lit ".") then p
  else if teqb c (lit "..") then removelast p else p ++ [c].
(** Path(s).resolve() in the current folder (no links); used by loadersaver.py
    70-81 (get_path), loadersaver.py 899-917 (find_file). *)
Definition resolve (cwd : path) (s : text) : path :=
  fold_left step_dir (split_slash [] s)
    (match s with c :: _ => if aeqb c "/"%char then [] else cwd | [] => cwd end).

(** A file system: association list of the existing paths; later writes are
    put in front.  The root always exists.
    Used by loadersaver.py 84-106 (load_image). *)
Inductive node (C : Type) := Dir | File (c : C).
Arguments Dir {C}. Arguments File {C} c.
(** The files and folders; used by loadersaver.py 84-106 (load_image),
    loadersaver.py 358-376 (create_folder), loadersaver.py 398-407 (find_free)
    and others. *)
Definition fs (C : Type) := list (path * node C).
(** The entry under a path; used by loadersaver.py 84-106 (load_image). *)
Fixpoint assoc {C} (f : fs C) (p : path) : option (node C) :=
  match f with
  | [] => None
  | (q, n) :: f' => if path_eqb p q then Some n else assoc f' p
  end.
(** What a path refers to; the root folder always exists; used by loadersaver.py
    84-106 (load_image). *)
Definition look {C} (f : fs C) (p : path) : option (node C) :=
  match p with [] => Some Dir | _ => assoc f p end.
(** Path.exists(); used by loadersaver.py 358-376 (create_folder),
    loadersaver.py 398-407 (find_free), loadersaver.py 379-408
    (create_file_name) and others. *)
Definition exists_ {C} (f : fs C) (p : path) : bool :=
  match look f p with Some _ => true | None => false end.

(** Computations with effects on a state; the state survives exceptions.
    Used by loadersaver.py 358-376 (create_folder), loadersaver.py 379-408
    (create_file_name), loadersaver.py 411-450 (save_image) and others. *)
Definition io (S A : Type) := S -> S * res A.
(** return; used by loadersaver.py 358-376 (create_folder), loadersaver.py
    379-408 (create_file_name), loadersaver.py 411-450 (save_image) and others.
    *)
Definition ret {S A} (a : A) : io S A := fun s => (s, Ok a).
(** raise; used by loadersaver.py 379-408 (create_file_name), loadersaver.py
    411-450 (save_image), loadersaver.py 84-106 (load_image) and others. *)
Definition throw {S A} (e : exn) : io S A := fun s => (s, Err e).
(** Statements in sequence; an exception ends the function and keeps what was
    written (every function of loadersaver.py 47-917). *)
Definition ibind {S A B} (m : io S A) (k : A -> io S B) : io S B :=
  fun s => let (s', r) := m s in match r with Ok a => k a s' | Err e => (s', Err e) end.
Notation "x <-- m ;; k" := (ibind m (fun x => k))
  (at level 61, m at next level, right associativity).
(** A computation that does not touch files; used by loadersaver.py 411-450
    (save_image), loadersaver.py 572-605 (save_hdf_file), loadersaver.py 645-654
    (stream_options) and others. *)
Definition lift {S A} (r : res A) : io S A := fun s => (s, r).
(** Looking at the files; used by loadersaver.py 358-376 (create_folder),
    loadersaver.py 379-408 (create_file_name), loadersaver.py 84-106
    (load_image) and others. *)
Definition get {S} : io S S := fun s => (s, Ok s).
(** Changing the files (mkdir and open in loadersaver.py 358-376, 713-751). *)
Definition put {S} (s : S) : io S unit := fun _ => (s, Ok tt).
(** try: m except Exception: raise ValueError
    Used by loadersaver.py 358-376 (create_folder), loadersaver.py 411-450
    (save_image), loadersaver.py 453-497 (save_plot_image) and others. *)
Definition as_value_error {S A} (m : io S A) : io S A :=
  fun s => let (s', r) := m s in
           (s', match r with Ok a => Ok a | Err _ => Err ValueError end).

Section Ops.
  Context {C : Type}.

  (** Proper and improper non-root prefixes of a path, shortest first.
      Used by loadersaver.py 358-376 (create_folder), loadersaver.py 358-376
      (step). *)
  Fixpoint prefixes_from (pre : path) (p : path) : list path :=
    match p with [] => [] | x :: p' => (pre ++ [x]) :: prefixes_from (pre ++ [x]) p' end.
  (** All parents of a path and the path itself, for mkdir(parents=True); used
      by loadersaver.py 358-376 (create_folder), loadersaver.py 358-376 (step).
      *)
  Definition prefixes (p : path) : list path := prefixes_from [] p.

  (** Path.is_file(); used by loadersaver.py 358-376 (create_folder),
      loadersaver.py 358-376 (step). *)
  Definition is_file (f : fs C) (p : path) : bool :=
    match look f p with Some (File _) => true | _ => false end.

  (** Path.mkdir(parents=True, exist_ok=True): fails without effect when the
      path or one of its ancestors is a file.
      Used by loadersaver.py 358-376 (create_folder). *)
  Definition mkdir_p (p : path) : io (fs C) unit := fun f =>
    if existsb (is_file f) (prefixes p) then (f, Err OSError)
    else (fold_left (fun g q => if exists_ g q then g else (q, Dir) :: g) (prefixes p) f, Ok tt).

  (** open(p, 'w') / 'wb' and writing [c]: fails on a directory and when the
      parent is not a directory; otherwise replaces the content.
      Used by loadersaver.py 411-450 (save_image), loadersaver.py 572-605
      (save_hdf_file), loadersaver.py 608-656 (open_hdf_stream) and others. *)
  Definition write_file (p : path) (c : C) : io (fs C) unit := fun f =>
    match look f p with
    | Some Dir => (f, Err OSError)
    | _ => match look f (parent p) with
           | Some Dir => ((p, File c) :: f, Ok tt)
           | _ => (f, Err FileNotFoundError)
           end
    end.

  (** open(p, 'r').read()
      Used by loadersaver.py 851-867 (load_python_list). *)
  Definition read_file (p : path) : io (fs C) C := fun f =>
    match look f p with
    | Some (File c) => (f, Ok c)
    | Some Dir => (f, Err OSError)
    | None => (f, Err FileNotFoundError)
    end.
End Ops.
