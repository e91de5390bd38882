(** Model of discorpy/losa/loadersaver.py.

    The functions act on a file system (Fs.v) whose files hold text, pickled
    bytes, HDF trees, images or figures.  Paths are resolved against a current
    directory at the start; where the code keeps a relative path (save_plot_image,
    save_residual_plot, loaders), only the spelling of the path differs.
    [win] says whether platform.system() is 'Windows'.  Library code enters as
    explicit parameters. *)
From Coq Require Import Ascii String.
From Verif Require Import Base Text Fs Json Hdf Num.
Local Open Scope Z_scope.

(** The backslash; used by loadersaver.py 47-67 (correct_text). *)
Definition backslash : ascii := ascii_of_nat 92.
(** loadersaver.py 53-62: (control character, letter) *)
Definition escape_sequences : list (ascii * ascii) :=
  [(ascii_of_nat 7, "a"); (ascii_of_nat 8, "b"); (ascii_of_nat 12, "f"); (ascii_of_nat 10, "n");
   (ascii_of_nat 13, "r"); (ascii_of_nat 9, "t"); (ascii_of_nat 11, "v"); (ascii_of_nat 0, "0")]%char.
(** Models loadersaver.py 47-67 __correct_path, up to Path(..). *)
Definition correct_text (s : text) : text :=
  let s := fold_left (fun s ce => if contains [fst ce] s then replace_char (fst ce) [backslash; snd ce] s else s)
             escape_sequences s in
  replace_char backslash (lit "/") s.

(** loadersaver.py 70-81 __get_path without the existence check. *)
Definition get_path (win : bool) (cwd : path) (s : text) : path :=
  resolve cwd (if win then correct_text s else s).

(** str(path) of an absolute path.
    Used by loadersaver.py 899-917 (find_file). *)
Definition posix (p : path) : text :=
  match p with [] => lit "/" | _ => flat_map (fun c => "/"%char :: c) p end.

(** An image array: unsigned 8-bit, floating point, or another integer type
    given by its wrap-around (elements are integers).  Modelled with exact
    element values in T.
    Used by loadersaver.py 432-437 (scale8), loadersaver.py 431-441
    (prepare_image), loadersaver.py 411-450 (save_image) and others. *)
Inductive ikind := KU8 | KFloat | KInt (wrap : Z -> Z).
(** An array with the type that decides how it is saved; used by loadersaver.py
    432-437 (scale8), loadersaver.py 431-441 (prepare_image), loadersaver.py
    411-450 (save_image) and others. *)
Record image (T : Type) := { ikind_of : ikind; iarr : ndarr T }.
Arguments ikind_of {T}. Arguments iarr {T}. Arguments Build_image {T}.

Section Losa.
  Context {T : Type} {N : Num T}.
  Variables (win : bool) (cwd : path).

  (** What a file holds.
      Used by loadersaver.py 572-605 (hdf_job), loadersaver.py 411-450
      (image_job), loadersaver.py 645-656 (stream_trace) and others. *)
  Inductive content := CText (t : text) | CBytes (t : text) | CHdf (root : hitems T)
                     | CImage (ext : text) (im : image T) | CFig (ext : text).
  (** The files and folders with their contents; used by loadersaver.py 398-407
      (find_free), loadersaver.py 358-376 (step). *)
  Definition FS := fs content.
  Notation M := (io FS).

  (** loadersaver.py 358-376 _create_folder *)
  Definition create_folder (p : path) : M unit :=
    let folder := match suffix p with [] => p | _ => parent p end in
    f <-- get ;;
    if exists_ f folder then ret tt else as_value_error (mkdir_p folder).

  (** loadersaver.py 400-402: the name with counter n. *)
  Definition numbered (p : path) (n : nat) : path :=
    parent p ++ [stem p ++ lit "_" ++ dec4 n ++ suffix p].
  (** loadersaver.py 398-407: the loop, which ends when a name is free.  With
      [fuel] = number of files + 1 it always does (see LosaFacts). *)
  Fixpoint find_free (f : FS) (p : path) (n : nat) (fuel : nat) : option path :=
    match fuel with
    | O => None
    | S k => if exists_ f (numbered p n) then find_free f p (S n) k else Some (numbered p n)
    end.
  (** loadersaver.py 379-408 _create_file_name; [External] stands for
      non-termination and does not occur. *)
  Definition create_file_name (p : path) : M path :=
    f <-- get ;;
    if exists_ f p then
      match find_free f p 0 (S (List.length f)) with Some q => ret q | None => throw External end
    else ret p.

  (** with_suffix when the extension is not accepted (592-594, 634-636,
      735-737, 813-815, 888-890).
      Used by loadersaver.py 572-605 (save_hdf_file), loadersaver.py 608-656
      (open_hdf_stream), loadersaver.py 713-751 (save_metadata_txt) and
      others. *)
  Definition default_ext (accepted : list text) (ext : text) (p : path) : res path :=
    if tmem (lower (suffix p)) accepted then Ok p else with_suffix p ext.

  (** *** Images *)
  (** np.argmin(shape): first axis of minimal length.
      Used by loadersaver.py 431-441 (prepare_image), loadersaver.py 84-106
      (load_image). *)
  Fixpoint argmin_from (i best : nat) (m : Z) (l : list Z) : nat :=
    match l with
    | [] => best
    | x :: l' => if x <? m then argmin_from (S i) i x l' else argmin_from (S i) best m l'
    end.
  (** np.argmin(shape); used by loadersaver.py 431-441 (prepare_image),
      loadersaver.py 84-106 (load_image). *)
  Definition argmin (l : list Z) : nat :=
    match l with [] => O | x :: l' => argmin_from 1 0 x l' end.
  (** np.mean(mat, axis=k)
      Used by loadersaver.py 431-441 (prepare_image), loadersaver.py 84-106
      (load_image). *)
  Definition mean_axis (a : ndarr T) (k : nat) : ndarr T :=
    let n := dim (nshape a) k in
    {| nshape := del_nth k (nshape a);
       nval := fun idx => ndiv (nsum (map (fun i => nval a (ins_nth k i idx)) (zrange 0 n))) (nofZ n) |}.

  (** mat - nmin in the array's type
      Used by loadersaver.py 432-437 (scale8). *)
  Definition elem_sub (k : ikind) (a b : T) : T :=
    match k with
    | KFloat => nsub a b
    | KInt w => nofZ (w (ntrunc a - ntrunc b))
    | KU8 => nofZ (wrap_u8 (ntrunc a - ntrunc b))
    end.
  (** np.uint8(x)
      Used by loadersaver.py 432-437 (scale8). *)
  Definition to_u8 (x : T) : T := nofZ (wrap_u8 (ntrunc x)).
  (** loadersaver.py 432-437: rescaling to 8 bits; np.min of an empty array
      raises. *)
  Definition scale8 (im : image T) : res (image T) :=
    match ikind_of im with
    | KU8 => Ok im
    | k =>
        let a := iarr im in
        let vals := map (nval a) (indices (nshape a)) in
        nmin <- namin vals ;; nmax <- namax vals ;;
        Ok {| ikind_of := KU8;
              iarr := if negb (neqb nmax nmin)
                      then ndmap (fun x => to_u8 (ndiv (nmul (nofZ 255) (elem_sub k x nmin)) (elem_sub k nmax nmin))) a
                      else ndmap to_u8 a |}
    end.
  (** loadersaver.py 431-441 *)
  Definition prepare_image (ext : text) (im : image T) : res (image T) :=
    if teqb ext (lit ".tif") || teqb ext (lit ".tiff") then
      Ok (if (2 <? Z.of_nat (List.length (nshape (iarr im))))
          then {| ikind_of := KFloat; iarr := mean_axis (iarr im) (argmin (nshape (iarr im))) |} else im)
    else scale8 im.

  (** PIL: Image.fromarray raises unless [pil_array] accepts the array;
      image.save raises (before opening the file) unless [pil_ext] accepts the
      extension and array. *)
  Variables (pil_array : image T -> bool) (pil_ext : text -> image T -> bool).

  (** loadersaver.py 411-450 save_image *)
  Definition save_image (s : text) (mat : image T) (overwrite : bool) : M path :=
    let p := get_path win cwd s in
    mat <-- lift (prepare_image (suffix p) mat) ;;
    _ <-- create_folder p ;;
    q <-- (if overwrite then ret p else create_file_name p) ;;
    _ <-- (if pil_array mat then ret tt else throw TypeError) ;;
    _ <-- as_value_error (if pil_ext (lower (suffix q)) mat then write_file q (CImage (lower (suffix q)) mat) else throw External) ;;
    ret q.

  (** loadersaver.py 84-106 load_image.  Multichannel images are averaged over
      the axis np.argmin(mat.shape). *)
  Definition load_image (s : text) (average : bool) : M (ndarr T) :=
    let p := get_path win cwd s in
    f <-- get ;;
    match look f p with
    | Some (File (CImage _ im)) =>
        let a := ndmap nf32 (iarr im) in
        ret (if (2 <? Z.of_nat (List.length (nshape a))) && average
             then mean_axis a (argmin (nshape a)) else a)
    | _ => throw ValueError
    end.

  (** *** Figures *)
  (** os.path.splitext(name)[1]: leading dots do not count.
      Used by loadersaver.py 453-497 (fig_job). *)
  Definition splitext_ext (s : text) : text :=
    let i := rfind_dot s in
    if (0 <=? i) && existsb (fun c => negb (aeqb c dot)) (firstn (Z.to_nat i) s)
    then skipn (Z.to_nat i) s else [].
  (** str.lstrip('.'); used by loadersaver.py 453-497 (save_plot_image),
      loadersaver.py 521-569 (save_residual_plot), loadersaver.py 659-710
      (save_plot_points). *)
  Fixpoint lstrip_dots (s : text) : text :=
    match s with c :: s' => if aeqb c dot then lstrip_dots s' else s | [] => [] end.
  (** str.rstrip('.'); used by loadersaver.py 453-497 (save_plot_image),
      loadersaver.py 521-569 (save_residual_plot), loadersaver.py 659-710
      (save_plot_points). *)
  Definition rstrip_dots (s : text) : text := rev (lstrip_dots (rev s)).
  (** matplotlib's savefig: the format is the extension; without one (or with
      an empty one) '.png' is appended to the name.  [mpl_format] are the
      supported formats. *)
  Variable mpl_format : text -> bool.
  (** plt.savefig(path): the format follows the extension, png without one; used
      by loadersaver.py 453-497 (save_plot_image), loadersaver.py 521-569
      (save_residual_plot), loadersaver.py 659-710 (save_plot_points). *)
  Definition savefig (p : path) : M unit :=
    match tl (splitext_ext (pname p)) with
    | [] => write_file (parent p ++ [rstrip_dots (pname p) ++ lit ".png"]) (CFig (lit "png"))
    | fmt => if mpl_format fmt then write_file p (CFig fmt) else throw ValueError
    end.
  (** loadersaver.py 453-497 save_plot_image; the drawing (483-491) is not
      modelled. *)
  Definition save_plot_image (s : text) (overwrite : bool) : M path :=
    let p := get_path win cwd s in
    _ <-- create_folder p ;;
    q <-- (if overwrite then ret p else create_file_name p) ;;
    _ <-- as_value_error (savefig q) ;;
    ret q.
  (** loadersaver.py 521-569 save_residual_plot *)
  Definition save_residual_plot (s : text) (overwrite : bool) : M path :=
    let p := get_path win cwd s in
    _ <-- create_folder p ;;
    q <-- (if overwrite then ret p else create_file_name p) ;;
    _ <-- as_value_error (savefig q) ;;
    ret q.
  (** loadersaver.py 659-710 save_plot_points: only IOError becomes
      ValueError, which makes no difference in the model. *)
  Definition save_plot_points (s : text) (overwrite : bool) : M path :=
    let p := get_path win cwd s in
    _ <-- create_folder p ;;
    q <-- (if overwrite then ret p else create_file_name p) ;;
    _ <-- as_value_error (savefig q) ;;
    ret q.

  (** *** HDF *)
  (** Used by loadersaver.py 572-605 (save_hdf_file), loadersaver.py 608-656
      (open_hdf_stream), loadersaver.py 572-605 (hdf_job) and others. *)
  Definition hdf_exts : list text := [lit ".hdf"; lit ".h5"; lit ".nxs"; lit ".hdf5"].

  (** Rewriting the content of an open file.
      Used by loadersaver.py 572-605 (save_hdf_file), loadersaver.py 645-654
      (stream_options), loadersaver.py 608-656 (open_hdf_stream). *)
  Definition update_file (p : path) (c : content) : M unit := fun f => ((p, File c) :: f, Ok tt).

  (** loadersaver.py 572-605 save_hdf_file *)
  Definition save_hdf_file (s : text) (idata : dset T) (key_path : text) (overwrite : bool) : M path :=
    p <-- lift (default_ext hdf_exts (lit ".hdf") (get_path win cwd s)) ;;
    _ <-- create_folder p ;;
    q <-- (if overwrite then ret p else create_file_name p) ;;
    _ <-- as_value_error (write_file q (CHdf HNil)) ;;
    root <-- lift (hcreate (comps key_path) (HGroup (HHard (lit "data") (HData idata) HNil)) HNil) ;;
    _ <-- update_file q (CHdf root) ;;
    ret q.

  (** loadersaver.py 645-654: the loop over the option keys (of all options,
      in order) on the open file. *)
  Fixpoint stream_options (key_path : text) (q : path) (root : hitems T) (opts : list (text * dset T)) : M (hitems T) :=
    match opts with
    | [] => ret root
    | (key, d) :: opts' =>
        if contains key_path key then throw ValueError
        else root' <-- lift (hcreate (comps key) (HData d) root) ;;
             _ <-- update_file q (CHdf root') ;;
             stream_options key_path q root' opts'
    end.
  (** loadersaver.py 608-656 open_hdf_stream; returns the path of the file that
      holds the dataset.  A new dataset is filled with zeros. *)
  Definition open_hdf_stream (s : text) (data_shape : list Z) (key_path data_type : text)
      (overwrite : bool) (options : list (text * list (text * dset T))) : M path :=
    p <-- lift (default_ext hdf_exts (lit ".hdf") (get_path win cwd s)) ;;
    _ <-- create_folder p ;;
    q <-- (if overwrite then ret p else create_file_name p) ;;
    _ <-- as_value_error (write_file q (CHdf HNil)) ;;
    root <-- stream_options key_path q HNil (flat_map snd options) ;;
    root' <-- lift (hcreate (comps key_path)
                (HData {| dtype := data_type; darr := {| nshape := data_shape; nval := fun _ => nofZ 0 |} |}) root) ;;
    _ <-- update_file q (CHdf root') ;;
    ret q.

  (** h5py.File(path, 'r')
      Used by loadersaver.py 248-329 (load_hdf_file), loadersaver.py 332-355
      (load_hdf_object), loadersaver.py 109-168 (hdf_information). *)
  Definition open_hdf (p : path) : M (hitems T) :=
    f <-- get ;;
    match look f p with Some (File (CHdf root)) => ret root | _ => throw OSError end.
  (** __get_path(..) with its check (78-80)
      Used by loadersaver.py 248-329 (load_hdf_file), loadersaver.py 332-355
      (load_hdf_object), loadersaver.py 109-168 (hdf_information) and others.
      *)
  Definition checked_path (s : text) : M path :=
    f <-- get ;;
    if exists_ f (get_path win cwd s) then ret (get_path win cwd s) else throw ValueError.
  (** loadersaver.py 248-329 load_hdf_file *)
  Definition load_hdf_file (s : text) (key_path : option text) (index : hindex) (axis : Z) : M (ndarr T) :=
    root <-- as_value_error (p <-- checked_path s ;; open_hdf p) ;;
    lift (load_open nf32 root key_path index axis).
  (** loadersaver.py 332-355 load_hdf_object *)
  Definition load_hdf_object (s : text) (key_path : text) : M (hobj T) :=
    root <-- as_value_error (p <-- checked_path s ;; open_hdf p) ;;
    match lookup root key_path with Some o => ret o | None => throw ValueError end.
  (** loadersaver.py 109-168 and 171-234: listing a file *)
  Definition hdf_information (s : text) :=
    p <-- checked_path s ;; root <-- open_hdf p ;; ret (get_hdf_information root).
  (** find_hdf_key on a file (loadersaver.py 171-234). *)
  Definition hdf_find_key (s pattern : text) :=
    p <-- checked_path s ;; root <-- open_hdf p ;; ret (find_hdf_key root pattern).

  (** *** Text metadata *)
  (** d[k] = v on an OrderedDict
      Used by loadersaver.py 713-751 (save_metadata_txt), loadersaver.py
      713-751 (txt_job). *)
  Fixpoint dict_set {V} (d : list (text * V)) (k : text) (v : V) : list (text * V) :=
    match d with
    | [] => [(k, v)]
    | (k', v') :: d' => if teqb k k' then (k, v) :: d' else (k', v') :: dict_set d' k v
    end.
  (** 744-746: for i, fact in enumerate(list_fact), from i.
      Used by loadersaver.py 713-751 (save_metadata_txt), loadersaver.py
      713-751 (txt_job). *)
  Fixpoint add_facts {V} (d : list (text * V)) (i : nat) (facts : list V) : list (text * V) :=
    match facts with
    | [] => d
    | x :: facts' => add_facts (dict_set d (lit "factor" ++ dec i) x) (S i) facts'
    end.
  (** str and float of the numbers used *)
  Variables (str_ : T -> text) (float_ : text -> res T).
  (** One line of the text file (loadersaver.py 713-751). *)
  Definition meta_line (kv : text * T) : text := fst kv ++ lit " = " ++ str_ (snd kv) ++ [LF].
  (** loadersaver.py 713-751 save_metadata_txt *)
  Definition save_metadata_txt (s : text) (xcenter ycenter : T) (list_fact : list T) (overwrite : bool) : M path :=
    p <-- lift (default_ext [lit ".txt"; lit ".dat"] (lit ".txt") (get_path win cwd s)) ;;
    _ <-- create_folder p ;;
    q <-- (if overwrite then ret p else create_file_name p) ;;
    let metadata := add_facts (dict_set (dict_set [] (lit "xcenter") xcenter) (lit "ycenter") ycenter) 0 list_fact in
    _ <-- write_file q (CText (flat_map meta_line metadata)) ;;
    ret q.
  (** open(path, 'r').read()
      Used by loadersaver.py 829-848 (load_metadata_json). *)
  Definition read_text (p : path) : M text :=
    c <-- read_file p ;;
    match c with CText t => ret (univ_newlines t) | _ => throw External end.
  (** loadersaver.py 754-776 load_metadata_txt *)
  Definition parse_meta (t : text) : res (T * T * list T) :=
    list_data <- mapM (fun i => w <- pyget (split_ws i) (-1) ;; float_ w) (splitlines t) ;;
    xcenter <- pyget list_data 0 ;; ycenter <- pyget list_data 1 ;;
    Ok (xcenter, ycenter, skipn 2 list_data).
  (** The whole function (loadersaver.py 754-776). *)
  Definition load_metadata_txt (s : text) : M (T * T * list T) :=
    p <-- checked_path s ;; t <-- read_text p ;; lift (parse_meta t).

  (** *** JSON metadata *)
  Variables (repr : T -> text) (parse_float : text -> option T).
  (** float(xcenter) for arguments of any type *)
  Context {X : Type}.
  Variable to_float : X -> res T.
  (** json.dump of the metadata dict: text written and exception raised.
      Used by loadersaver.py 791-826 (save_metadata_json), loadersaver.py
      791-826 (json_job). *)
  Definition dump_meta (xc yc : T) (facts : pyval T) : out :=
    let item k o := oseq (okt (quote (lit k) ++ lit ": ")) o in
    oseq (okt ("{"%char :: nl 1))
      (oseq (ojoin (","%char :: nl 1)
         [item "xcenter"%string (okt (repr xc)); item "ycenter"%string (okt (repr yc));
          item "list_fact"%string (enc repr 1 facts)])
        (okt (nl 0 ++ ["}"%char]))).
  (** loadersaver.py 791-826 save_metadata_json: the file is opened (and
      truncated) before the encoding, and what was encoded before an exception
      is flushed when the file is closed. *)
  Definition save_metadata_json (s : text) (xcenter ycenter : X) (list_fact : pyval T) (overwrite : bool) : M path :=
    p <-- lift (default_ext [lit ".json"] (lit ".json") (get_path win cwd s)) ;;
    _ <-- create_folder p ;;
    q <-- (if overwrite then ret p else create_file_name p) ;;
    xc <-- lift (to_float xcenter) ;;
    yc <-- lift (to_float ycenter) ;;
    let (t, e) := dump_meta xc yc list_fact in
    _ <-- write_file q (CText t) ;;
    match e with Some x => throw x | None => ret q end.
  (** metadata[k]: the last entry with this key
      Used by loadersaver.py 829-848 (load_metadata_json). *)
  Definition jfield (k : text) (v : jval T) : res (jval T) :=
    match v with
    | JObj l => match find_last (fun kv => teqb k (fst kv)) l with Some kv => Ok (snd kv) | None => Err KeyError end
    | _ => Err TypeError
    end.
  (** loadersaver.py 829-848 load_metadata_json; json.JSONDecodeError is a
      ValueError. *)
  Definition load_metadata_json (s : text) : M (jval T * jval T * jval T) :=
    p <-- checked_path s ;; t <-- read_text p ;;
    lift (match loads parse_float t with
          | None => Err ValueError
          | Some metadata =>
              xcenter <- jfield (lit "xcenter") metadata ;;
              ycenter <- jfield (lit "ycenter") metadata ;;
              list_fact <- jfield (lit "list_fact") metadata ;;
              Ok (xcenter, ycenter, list_fact)
          end).

  (** *** Pickle *)
  Context {P : Type}.
  (** pickle.dump: the bytes written and a possible exception; pickle.load. *)
  Variables (pdump : P -> text * option exn) (pload : text -> res P).
  (** loadersaver.py 870-896 save_python_list *)
  Definition save_python_list (s : text) (python_list : P) (overwrite : bool) : M path :=
    p <-- lift (default_ext [lit ".pkl"] (lit ".pkl") (get_path win cwd s)) ;;
    _ <-- create_folder p ;;
    q <-- (if overwrite then ret p else create_file_name p) ;;
    let (t, e) := pdump python_list in
    _ <-- write_file q (CBytes t) ;;
    match e with Some x => throw x | None => ret q end.
  (** loadersaver.py 851-867 load_python_list *)
  Definition load_python_list (s : text) : M P :=
    p <-- checked_path s ;; c <-- read_file p ;;
    lift (match c with CBytes t => pload t | _ => Err External end).

  (** *** Search *)
  (** Order of strings
      Used by loadersaver.py 899-917 (find_file). *)
  Fixpoint tleb (a b : text) : bool :=
    match a, b with
    | [], _ => true
    | _ :: _, [] => false
    | x :: a', y :: b' => if (code x <? code y)%nat then true else if (code y <? code x)%nat then false else tleb a' b'
    end.
  (** Insertion into a sorted list of names; used by loadersaver.py 899-917
      (find_file). *)
  Fixpoint tinsert (x : text) (l : list text) : list text :=
    match l with [] => [x] | y :: l' => if tleb x y then x :: l else y :: tinsert x l' end.
  (** sorted(names); used by loadersaver.py 899-917 (find_file). *)
  Definition tsort (l : list text) : list text := fold_right tinsert [] l.

  (** Every entry of a folder once; used by loadersaver.py 899-917 (find_file).
      *)
  Fixpoint dedup (l : list path) : list path :=
    match l with [] => [] | p :: l' => if existsb (path_eqb p) l' then dedup l' else p :: dedup l' end.
  (** The entries of a directory.
      Used by loadersaver.py 899-917 (find_file). *)
  Definition entries (f : FS) (d : path) : list path :=
    filter (fun p => match p with [] => false | _ => path_eqb (parent p) d end) (dedup (map fst f)).
  (** Whether a name matches a pattern (without '**'); Path.glob compares the
      names in the parent directory. *)
  Variable fnmatch : text -> text -> bool.
  (** loadersaver.py 899-917 find_file *)
  Definition find_file (s : text) : M (list text) :=
    let p := resolve cwd (correct_text s) in
    match pname p with
    | [] => throw ValueError
    | pat => f <-- get ;;
             match filter (fun q => fnmatch pat (pname q)) (entries f (parent p)) with
             | [] => throw FileNotFoundError
             | files => ret (tsort (map posix files))
             end
    end.
End Losa.
