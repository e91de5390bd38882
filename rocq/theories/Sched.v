(** Saving in steps: the save functions of discorpy/losa/loadersaver.py as
    processes that share a file system and can be interrupted between any two
    system calls.

    A process is a [job] (what is saved and where) together with a program
    counter.  Every step makes one system call.  The contents that a file has
    while it is being written are part of the job: they depend on buffering and
    on the libraries.  Simplification: a process that writes to a file another
    process is writing to as well replaces the whole content. *)
From Coq Require Import Ascii String.
From Verif Require Import Base Text Fs Json Hdf Num Losa.

Section Steps.
  Context {T : Type} {N : Num T}.
  Local Notation FS := (@FS T).
  Local Notation content := (@content T).

  (** os.mkdir
      Used by loadersaver.py 358-376 (step). *)
  Definition os_mkdir (d : path) : io FS unit := fun f =>
    if exists_ f d then (f, Err OSError)
    else if existsb (is_file f) (prefixes (parent d)) then (f, Err OSError)
    else match look f (parent d) with
         | Some Dir => ((d, Dir) :: f, Ok tt)
         | _ => (f, Err FileNotFoundError)
         end.
  (** Path.is_dir(); used by loadersaver.py 358-376 (step). *)
  Definition is_dir (f : FS) (d : path) : bool := match look f d with Some Dir => true | _ => false end.

  (** A call of a save function: the path after the choice of the extension,
      the contents of the file from its opening on (none if an exception is
      raised before the opening), the outcome after the last of them, and what
      an exception of the opening becomes.
      Used by loadersaver.py 358-376 (step), loadersaver.py 713-751 (txt_job),
      loadersaver.py 791-826 (json_job) and others. *)
  Record job := { jpath : path; jover : bool; jtrace : path -> list content; jend : path -> res path; jfail : exn -> exn }.

  (** Where a process stands in a save function (loadersaver.py 358-408,
      713-896). *)
  Inductive pc :=
  | PFolder                                              (* folder_path.exists(), line 372 *)
  | PMkdir (d : path) (parents : bool) (todo : list path) (* os.mkdir inside Path.mkdir, line 374 *)
  | PIsDir (d : path) (todo : list path)                 (* is_dir after a failed os.mkdir, exist_ok *)
  | PName                                                (* file_path.exists(), line 397 *)
  | PNum (n : nat)                                       (* new_file_path.exists(), line 403 *)
  | POpen (q : path) (c : content) (cs : list content)   (* opening the file: first content c *)
  | PPut (q : path) (c : content) (cs : list content)    (* the next content *)
  | PEnd (r : res path).

  (** The folder that _create_folder makes (loadersaver.py 358-376). *)
  Definition job_folder (j : job) : path := match suffix (jpath j) with [] => jpath j | _ => parent (jpath j) end.
  (** The next write, or the end (loadersaver.py 713-896). *)
  Definition put_next (j : job) (q : path) (cs : list content) : pc :=
    match cs with [] => PEnd (jend j q) | c :: cs' => PPut q c cs' end.
  (** The name is chosen: open the file (loadersaver.py 379-408, 713-896). *)
  Definition name_known (j : job) (q : path) : pc :=
    match jtrace j q with [] => PEnd (jend j q) | c :: cs => POpen q c cs end.
  (** if not overwrite: file_path = _create_file_name(file_path)
      Used by loadersaver.py 358-376 (step). *)
  Definition folder_done (j : job) : pc := if jover j then name_known j (jpath j) else PName.
  (** The next missing folder, or on to the name (loadersaver.py 358-376). *)
  Definition mk_next (j : job) (todo : list path) : pc :=
    match todo with [] => folder_done j | d :: todo' => PMkdir d false todo' end.

  (** One step of loadersaver.py 358-376 _create_folder, 379-408
      _create_file_name and the writing in the save functions.
      Path.mkdir(parents=True, exist_ok=True) is the recursion of CPython's
      pathlib: os.mkdir; on FileNotFoundError first the parent, then os.mkdir
      again; on another OSError nothing if the path is a directory. *)
  Definition step (j : job) (c : pc) (f : FS) : FS * pc :=
    match c with
    | PFolder => (f, if exists_ f (job_folder j) then folder_done j else PMkdir (job_folder j) true [])
    | PMkdir d parents todo =>
        match os_mkdir d f with
        | (g, Ok _) => (g, mk_next j todo)
        | (_, Err FileNotFoundError) =>
            (f, if parents then PMkdir (parent d) true (d :: todo) else PEnd (Err ValueError))
        | (_, Err _) => (f, PIsDir d todo)
        end
    | PIsDir d todo => (f, if is_dir f d then mk_next j todo else PEnd (Err ValueError))
    | PName => (f, if exists_ f (jpath j) then PNum 0 else name_known j (jpath j))
    | PNum n => (f, if exists_ f (numbered (jpath j) n) then PNum (S n) else name_known j (numbered (jpath j) n))
    | POpen q c cs =>
        match write_file q c f with
        | (g, Ok _) => (g, put_next j q cs)
        | (_, Err e) => (f, PEnd (Err (jfail j e)))
        end
    | PPut q c cs => ((q, File c) :: f, put_next j q cs)
    | PEnd r => (f, PEnd r)
    end.

  (** Several processes; a schedule says whose turn it is.  A process that gets
      no further turn has been killed; a schedule that ends is a crash of the
      machine.
      (Several calls of loadersaver.py 411-896.) *)
  Definition world := (FS * list (job * pc))%type.
  (** List with one element replaced; one process has moved on (loadersaver.py
      411-896). *)
  Fixpoint replace_nth {A} (i : nat) (x : A) (l : list A) : list A :=
    match l, i with
    | [], _ => []
    | _ :: l', O => x :: l'
    | y :: l', S i' => y :: replace_nth i' x l'
    end.
  (** One step of one process (loadersaver.py 411-896). *)
  Definition act (w : world) (i : nat) : world :=
    match nth_error (snd w) i with
    | Some (j, c) => let (g, c') := step j c (fst w) in (g, replace_nth i (j, c') (snd w))
    | None => w
    end.
  (** A schedule: which process does the next step (loadersaver.py 411-896). *)
  Definition run (schedule : list nat) (w : world) : world := fold_left act schedule w.
  (** All processes at the beginning of their calls (loadersaver.py 411-896). *)
  Definition start (f : FS) (jobs : list job) : world := (f, map (fun j => (j, PFolder)) jobs).

  (** *** The save functions as jobs *)
  Variables (win : bool) (cwd : path).
  (** The contents of a file that grows in pieces, from the empty one on.
      Used by loadersaver.py 713-751 (txt_job), loadersaver.py 791-826
      (json_job), loadersaver.py 870-896 (pkl_job). *)
  Definition growing (K : text -> content) (pieces : list text) : list content :=
    map (fun i => K (List.concat (firstn i pieces))) (seq 0 (S (List.length pieces))).
  (** The result of a call after the last write (loadersaver.py 713-896). *)
  Definition to_end (e : option exn) (q : path) : res path := match e with Some x => Err x | None => Ok q end.
  (** The exception is passed on (loadersaver.py 713-896). *)
  Definition same (e : exn) : exn := e.
  (** The exception is turned into ValueError (loadersaver.py 411-450). *)
  Definition value_error (e : exn) : exn := ValueError.

  (** loadersaver.py 713-751 save_metadata_txt; [cut] are the pieces in which
      the text reaches the file. *)
  Definition txt_job (str_ : T -> text) (cut : text -> list text) (s : text) (x y : T) (facts : list T) (overwrite : bool) : res job :=
    p <- default_ext [lit ".txt"; lit ".dat"] (lit ".txt") (get_path win cwd s) ;;
    let metadata := add_facts (dict_set (dict_set [] (lit "xcenter") x) (lit "ycenter") y) 0 facts in
    Ok {| jpath := p; jover := overwrite; jtrace := fun _ => growing CText (cut (flat_map (meta_line str_) metadata)); jend := to_end None; jfail := same |}.
  (** loadersaver.py 791-826 save_metadata_json *)
  Definition json_job {X} (repr : T -> text) (to_float : X -> res T) (cut : text -> list text) (s : text) (x y : X) (facts : pyval T) (overwrite : bool) : res job :=
    p <- default_ext [lit ".json"] (lit ".json") (get_path win cwd s) ;;
    Ok match to_float x, to_float y with
       | Ok xc, Ok yc =>
           let (t, e) := dump_meta repr xc yc facts in
           {| jpath := p; jover := overwrite; jtrace := fun _ => growing CText (cut t); jend := to_end e; jfail := same |}
       | Err e, _ | Ok _, Err e =>
           {| jpath := p; jover := overwrite; jtrace := fun _ => []; jend := to_end (Some e); jfail := same |}
       end.
  (** loadersaver.py 870-896 save_python_list *)
  Definition pkl_job {P} (pdump : P -> text * option exn) (cut : text -> list text) (s : text) (v : P) (overwrite : bool) : res job :=
    p <- default_ext [lit ".pkl"] (lit ".pkl") (get_path win cwd s) ;;
    let (t, e) := pdump v in
    Ok {| jpath := p; jover := overwrite; jtrace := fun _ => growing CBytes (cut t); jend := to_end e; jfail := same |}.
  (** loadersaver.py 572-605 save_hdf_file; [mid] are the contents while the
      HDF5 library writes. *)
  Definition hdf_job (mid : list content) (s : text) (idata : dset T) (key : text) (overwrite : bool) : res job :=
    p <- default_ext hdf_exts (lit ".hdf") (get_path win cwd s) ;;
    Ok match hcreate (comps key) (HGroup (HHard (lit "data") (HData idata) HNil)) HNil with
       | Ok root => {| jpath := p; jover := overwrite; jtrace := fun _ => CHdf HNil :: mid ++ [CHdf root]; jend := to_end None; jfail := value_error |}
       | Err e => {| jpath := p; jover := overwrite; jtrace := fun _ => [CHdf HNil]; jend := to_end (Some e); jfail := value_error |}
       end.
  (** loadersaver.py 411-450 save_image; [mid] are the contents while PIL
      writes. *)
  Definition image_job (pil_array : image T -> bool) (pil_ext : text -> image T -> bool) (mid : list content) (s : text) (im : image T) (overwrite : bool) : res job :=
    let p := get_path win cwd s in
    im <- prepare_image (suffix p) im ;;
    Ok {| jpath := p; jover := overwrite;
          jtrace := fun q => if pil_array im && pil_ext (lower (suffix q)) im then mid ++ [CImage (lower (suffix q)) im] else [];
          jend := fun q => if pil_array im then if pil_ext (lower (suffix q)) im then Ok q else Err ValueError else Err TypeError;
          jfail := value_error |}.
  (** loadersaver.py 645-656: the contents that the options and the dataset
      add one after the other, and the exception that ends them. *)
  Fixpoint stream_trace (key data_type : text) (shape : list Z) (root : hitems T) (opts : list (text * dset T)) : list content * option exn :=
    match opts with
    | [] => match hcreate (comps key) (HData {| dtype := data_type; darr := {| nshape := shape; nval := fun _ => nofZ 0 |} |}) root with
            | Ok root' => ([CHdf root'], None)
            | Err e => ([], Some e)
            end
    | (k, d) :: opts' =>
        if contains key k then ([], Some ValueError)
        else match hcreate (comps k) (HData d) root with
             | Ok root' => let (t, e) := stream_trace key data_type shape root' opts' in (CHdf root' :: t, e)
             | Err e => ([], Some e)
             end
    end.
  (** loadersaver.py 608-656 open_hdf_stream up to its return *)
  Definition stream_job (s : text) (shape : list Z) (key data_type : text) (overwrite : bool) (options : list (text * list (text * dset T))) : res job :=
    p <- default_ext hdf_exts (lit ".hdf") (get_path win cwd s) ;;
    let (t, e) := stream_trace key data_type shape HNil (flat_map snd options) in
    Ok {| jpath := p; jover := overwrite; jtrace := fun _ => CHdf HNil :: t; jend := to_end e; jfail := value_error |}.
  (** loadersaver.py 453-497, 521-569, 659-710: figures whose name has an
      extension; [mid] are the contents while matplotlib writes.  Not modelled
      in steps: names without extension. *)
  Definition fig_job (mpl_format : text -> bool) (mid : list content) (s : text) (overwrite : bool) : job :=
    let format q := tl (splitext_ext (pname q)) in
    {| jpath := get_path win cwd s; jover := overwrite;
       jtrace := fun q => if mpl_format (format q) then mid ++ [CFig (format q)] else [];
       jend := fun q => if mpl_format (format q) then Ok q else Err ValueError; jfail := value_error |}.
End Steps.
