(** HDF5 files as h5py shows them, and the functions of losa/loadersaver.py
    on an open file. *)
From Coq Require Import Ascii String.
From Verif Require Import Base Text Fs Json.
Local Open Scope Z_scope.

(** An n-dimensional array: its shape and the value at each index.
    Used by loadersaver.py 325-329 (squeeze), loadersaver.py 283-329
    (slice_dataset), loadersaver.py 274-329 (load_open) and others. *)
Record ndarr (T : Type) := { nshape : list Z; nval : list Z -> T }.
Arguments nshape {T}. Arguments nval {T}. Arguments Build_ndarr {T}.
(** An operation on every element of an array; used by loadersaver.py 283-329
    (slice_dataset), loadersaver.py 432-437 (scale8), loadersaver.py 84-106
    (load_image). *)
Definition ndmap {A B} (f : A -> B) (a : ndarr A) : ndarr B :=
  {| nshape := nshape a; nval := fun i => f (nval a i) |}.

(** All indices of a shape, last axis fastest.
    Used by loadersaver.py 432-437 (scale8). *)
Fixpoint indices (s : list Z) : list (list Z) :=
  match s with
  | [] => [[]]
  | n :: s' => flat_map (fun i => map (cons i) (indices s')) (zrange 0 n)
  end.

Section Hdf.
  Context {T : Type}.

  (** A dataset of an HDF file: type and values; used by loadersaver.py 572-605
      (save_hdf_file), loadersaver.py 645-654 (stream_options), loadersaver.py
      608-656 (open_hdf_stream) and others. *)
  Record dset := { dtype : text; darr : ndarr T }.

  (** Objects: datasets and groups.  A group is the list of its links in h5py's
      iteration order; the links are hard, soft (or external) to an object
      given in place, or soft to nothing.  No object has two hard links.
      Used by loadersaver.py 332-355 (load_hdf_object). *)
  Inductive hobj := HData (d : dset) | HGroup (g : hitems)
  with hitems := HNil
  | HHard (name : text) (o : hobj) (rest : hitems)
  | HSoft (name : text) (o : hobj) (rest : hitems)
  | HBroken (name : text) (rest : hitems).

  (** list(group.keys())
      Used by discorpy/losa/loadersaver.py 133-147 (info_keys), loadersaver.py
      196-209 (find_keys). *)
  Fixpoint hnames (g : hitems) : list text :=
    match g with
    | HNil => [] | HHard n _ r => n :: hnames r | HSoft n _ r => n :: hnames r
    | HBroken n r => n :: hnames r
    end.

  (** group[name] for one name; None is KeyError.
      Used by discorpy/losa/loadersaver.py 133-147 (info_keys), loadersaver.py
      148-159 (info_entry), loadersaver.py 196-209 (find_keys) and others. *)
  Fixpoint hfind (g : hitems) (c : text) : option hobj :=
    match g with
    | HNil => None
    | HHard n o r => if teqb c n then Some o else hfind r c
    | HSoft n o r => if teqb c n then Some o else hfind r c
    | HBroken n r => if teqb c n then None else hfind r c
    end.
  (** file[key] for a key given by its components; used by
      discorpy/losa/loadersaver.py 133-147 (info_keys), loadersaver.py 148-159
      (info_entry), loadersaver.py 196-209 (find_keys) and others. *)
  Fixpoint hget (o : hobj) (cs : list text) : option hobj :=
    match cs with
    | [] => Some o
    | c :: cs' => match o with
                  | HGroup g => match hfind g c with Some o' => hget o' cs' | None => None end
                  | HData _ => None
                  end
    end.
  (** The components of a key path: empty ones and '.' are ignored.
      Used by loadersaver.py 572-605 (save_hdf_file), loadersaver.py 645-654
      (stream_options), loadersaver.py 608-656 (open_hdf_stream) and others.
      *)
  Definition comps (k : text) : list text :=
    filter (fun c => negb (teqb c [] || teqb c (lit "."))) (split_slash [] k).
  (** file[key]; None is KeyError.
      Used by discorpy/losa/loadersaver.py 133-147 (info_keys), loadersaver.py
      148-159 (info_entry), loadersaver.py 196-209 (find_keys) and others. *)
  Definition lookup (root : hitems) (k : text) : option hobj := hget (HGroup root) (comps k).

  (** '/'; used by discorpy/losa/loadersaver.py 133-147 (info_keys),
      loadersaver.py 196-209 (find_keys), loadersaver.py 237-245
      (get_key_items). *)
  Definition slash : ascii := "/"%char.
  (** A key from its components; used by loadersaver.py 109-168
      (get_hdf_information), loadersaver.py 171-234 (find_hdf_key). *)
  Definition keytext (cs : list text) : text := join [slash] cs.

  (** file.visit(..) / visititems(..): every object below the root reached by
      hard links, parents first, with the path from the root.
      (visititems in loadersaver.py 109-168, 171-234.) *)
  Fixpoint hvisit (pre : list text) (o : hobj) : list (list text * hobj) :=
    match o with HData _ => [] | HGroup g => hvisit_items pre g end
  with hvisit_items (pre : list text) (g : hitems) : list (list text * hobj) :=
    match g with
    | HNil => []
    | HHard n o r => ((pre ++ [n]), o) :: hvisit (pre ++ [n]) o ++ hvisit_items pre r
    | HSoft _ _ r => hvisit_items pre r
    | HBroken _ r => hvisit_items pre r
    end.

  (** Models discorpy/losa/loadersaver.py 133-147: keys of one visited object. *)
  Definition info_keys (root : hitems) (key : text) : list text :=
    match lookup root key with
    | Some (HGroup g) => match hnames g with
                         | [] => [key]
                         | names => map (fun k2 => key ++ slash :: k2) names
                         end
    | Some (HData _) => [slash :: key]
    | None => [key]
    end.
  (** loadersaver.py 148-159: shape and type of one listed key. *)
  Definition info_entry (root : hitems) (key : text) : option (list Z) * option text :=
    match lookup root key with
    | Some (HData d) => (Some (nshape (darr d)), Some (dtype d))
    | _ => (None, None)
    end.
  (** loadersaver.py 109-168 get_hdf_information on an open file (printing
      omitted). *)
  Definition get_hdf_information (root : hitems) : list text * list (option (list Z)) * list (option text) :=
    let keys := map (fun v => keytext (fst v)) (hvisit_items [] root) in
    let list_key := flat_map (info_keys root) keys in
    (list_key, map (fun k => fst (info_entry root k)) list_key,
               map (fun k => snd (info_entry root k)) list_key).

  (** loadersaver.py 196-209 *)
  Definition find_keys (root : hitems) (key : text) : list text :=
    match lookup root key with
    | Some (HGroup g) => match hnames g with
                         | [] => [key]
                         | names => map (fun k2 => key ++ slash :: k2) names
                         end
    | Some (HData _) => [slash :: key]
    | None => []
    end.
  (** loadersaver.py 210-224: the loop with its three accumulators. *)
  Fixpoint find_loop (root : hitems) (pattern : text) (l : list text)
      (acc : list text * list (option (list Z)) * list (option text)) :=
    match l with
    | [] => acc
    | key :: l' =>
        let '(ks, ss, ts) := acc in
        find_loop root pattern l'
          (if contains pattern key then
             match lookup root key with
             | Some (HData d) => (ks ++ [key], ss ++ [Some (nshape (darr d))], ts ++ [Some (dtype d)])
             | _ => (ks ++ [key], ss ++ [None], ts ++ [None])
             end
           else acc)
    end.
  (** loadersaver.py 171-234 find_hdf_key on an open file. *)
  Definition find_hdf_key (root : hitems) (pattern : text) :=
    let keys := map (fun v => keytext (fst v)) (hvisit_items [] root) in
    find_loop root pattern (flat_map (find_keys root) keys) ([], [], []).

  (** loadersaver.py 237-245 _get_key; [name] is obj.name without the leading
      slash. *)
  Fixpoint get_key_items (name : text) (g : hitems) : option text :=
    match g with
    | HNil => None
    | HHard n (HData _) r => if teqb n (lit "data") then Some (slash :: name ++ slash :: n) else get_key_items name r
    | HSoft n (HData _) r => if teqb n (lit "data") then Some (slash :: name ++ slash :: n) else get_key_items name r
    | HHard _ _ r => get_key_items name r
    | HSoft _ _ r => get_key_items name r
    | HBroken _ r => get_key_items name r
    end.
  (** _get_key on one object of the file (loadersaver.py 237-245). *)
  Definition get_key (v : list text * hobj) : option text :=
    match snd v with HGroup g => get_key_items (keytext (fst v)) g | HData _ => None end.
  (** ifile.visititems(_get_key): the first result that is not None.
      Used by loadersaver.py 274-329 (load_open). *)
  Fixpoint first_some {A B} (f : A -> option B) (l : list A) : option B :=
    match l with [] => None | a :: l' => match f a with Some b => Some b | None => first_some f l' end end.
  (** hdf_file.visititems(_get_key): the first key found (loadersaver.py
      274-277). *)
  Definition auto_key (root : hitems) : option text := first_some get_key (hvisit_items [] root).

  (** *** load_hdf_file *)
  (** The index argument: None, an int, a tuple or list of ints, another type.
      Used by loadersaver.py 283-329 (slice_dataset), loadersaver.py 274-329
      (load_open), loadersaver.py 248-329 (load_hdf_file). *)
  Inductive hindex := INone | IInt (i : Z) | ISeq (l : list Z) | IOther.

  (** range(start, stop, step); ValueError for step 0.
      Used by loadersaver.py 305-315 (list_index). *)
  Definition pyrange (start stop step : Z) : res (list Z) :=
    if step =? 0 then Err ValueError
    else if 0 <? step then Ok (zrange_step start stop step)
    else Ok (map (fun k => start + step * k) (zrange 0 ((start - stop - step - 1) / (- step)))).
  (** loadersaver.py 305-315 *)
  Definition list_index (l : list Z) : res (list Z) :=
    match l with
    | [start; stop; step] => pyrange start stop step
    | [start; stop] => Ok (zrange start stop)
    | _ => Ok l
    end.

  (** Shape with one extent replaced; used by loadersaver.py 283-329
      (slice_dataset), loadersaver.py 325-329 (squeeze). *)
  Fixpoint set_nth (k : nat) (x : Z) (l : list Z) : list Z :=
    match l, k with
    | [], _ => []
    | _ :: l', O => x :: l'
    | y :: l', S k' => y :: set_nth k' x l'
    end.
  (** Shape with one extent inserted; used by loadersaver.py 283-329
      (slice_dataset), loadersaver.py 431-441 (prepare_image), loadersaver.py
      84-106 (load_image). *)
  Fixpoint ins_nth (k : nat) (x : Z) (l : list Z) : list Z :=
    match k, l with
    | O, _ => x :: l
    | S k', y :: l' => y :: ins_nth k' x l'
    | S _, [] => [x]
    end.
  (** Shape with one extent removed; used by loadersaver.py 283-329
      (slice_dataset), loadersaver.py 431-441 (prepare_image), loadersaver.py
      84-106 (load_image). *)
  Fixpoint del_nth (k : nat) (l : list Z) : list Z :=
    match l, k with [], _ => [] | _ :: l', O => l' | y :: l', S k' => y :: del_nth k' l' end.
  (** shape[k]; used by loadersaver.py 283-329 (slice_dataset), loadersaver.py
      431-441 (prepare_image), loadersaver.py 84-106 (load_image). *)
  Definition dim (s : list Z) (k : nat) : Z := nth k s 0.

  (** dataset[.., i, ..] with an int at axis k; negative counts from the end.
      Used by loadersaver.py 283-329 (slice_dataset). *)
  Definition take_int (a : ndarr T) (k : nat) (i : Z) : res (ndarr T) :=
    let n := dim (nshape a) k in
    let j := if i <? 0 then i + n else i in
    if (j <? 0) || (n <=? j) then Err IndexError
    else Ok {| nshape := del_nth k (nshape a); nval := fun idx => nval a (ins_nth k j idx) |}.
  (** h5py accepts a list of indices only if it is increasing; used by
      loadersaver.py 283-329 (slice_dataset). *)
  Fixpoint increasing (l : list Z) : bool :=
    match l with a :: (b :: _) as l' => (a <? b) && increasing l' | _ => true end.
  (** dataset[.., list, ..] with a list at axis k; h5py raises (the class
      depends on its version) unless the list is strictly increasing and in
      range.
      Used by loadersaver.py 283-329 (slice_dataset). *)
  Definition take_list (a : ndarr T) (k : nat) (l : list Z) : res (ndarr T) :=
    if increasing l && forallb (fun i => (0 <=? i) && (i <? dim (nshape a) k)) l
    then Ok {| nshape := set_nth k (Z.of_nat (List.length l)) (nshape a);
               nval := fun idx => nval a (set_nth k (nth (Z.to_nat (nth k idx 0)) l 0) idx) |}
    else Err External.
  (** np.swapaxes(mat, k, 0)[0] for an array with extent >= 1 at axis k.
      Used by loadersaver.py 325-329 (squeeze). *)
  Definition swap_first (a : ndarr T) (k : nat) : ndarr T :=
    match k with
    | O => {| nshape := tl (nshape a); nval := fun idx => nval a (0 :: idx) |}
    | S _ =>
        {| nshape := tl (set_nth k (hd 0 (nshape a)) (nshape a));
           nval := fun idx => nval a (set_nth k 0 (nth (pred k) idx 0 :: idx)) |}
    end.
  (** mat.shape[axis]
      Used by loadersaver.py 325-329 (squeeze). *)
  Definition shape_at (a : ndarr T) (k : nat) : res Z :=
    match nth_error (nshape a) k with Some n => Ok n | None => Err IndexError end.

  (** loadersaver.py 325-329 *)
  Definition squeeze (mat : ndarr T) (axis : nat) : res (ndarr T) :=
    n <- shape_at mat axis ;;
    let mat := if n =? 1 then swap_first mat axis else mat in
    n2 <- shape_at mat axis ;;
    if n2 =? 0 then Err ValueError else Ok mat.

  (** loadersaver.py 283-329: [idata] is the dataset's array, [f32] the
      conversion np.float32.  np.clip(axis, 0, 2) selects the axis. *)
  Definition slice_dataset (f32 : T -> T) (idata : ndarr T) (index : hindex) (axis : Z) : res (ndarr T) :=
    match List.length (nshape idata) with
    | 2%nat => Ok idata
    | 3%nat =>
        let axis := Z.to_nat (Z.min (Z.max axis 0) 2) in
        match index with
        | INone => Ok (ndmap f32 idata)
        | IInt i => mat <- take_int idata axis i ;;
                    squeeze (ndmap f32 mat) (Nat.min axis 1)
        | ISeq l => li <- list_index l ;;
                    mat <- take_list idata axis li ;;
                    squeeze (ndmap f32 mat) axis
        | IOther => Err AttributeError
        end
    | _ => Err ValueError
    end.

  (** loadersaver.py 274-329: load_hdf_file on an open file. *)
  Definition load_open (f32 : T -> T) (root : hitems) (key_path : option text) (index : hindex) (axis : Z)
    : res (ndarr T) :=
    key <- match key_path with
           | Some k => Ok k
           | None => match auto_key root with Some k => Ok k | None => Err ValueError end
           end ;;
    match lookup root key with
    | None => Err ValueError
    | Some (HGroup _) => Err AttributeError   (* a group has no shape *)
    | Some (HData d) => slice_dataset f32 (darr d) index axis
    end.

  (** *** Writing *)
  (** (loadersaver.py 572-605, create_dataset.) *)
  Fixpoint happend (g : hitems) (n : text) (o : hobj) : hitems :=
    match g with
    | HNil => HHard n o HNil
    | HHard m p r => HHard m p (happend r n o)
    | HSoft m p r => HSoft m p (happend r n o)
    | HBroken m r => HBroken m (happend r n o)
    end.
  (** A new object below new intermediate groups.
      Used by loadersaver.py 572-605 (save_hdf_file), loadersaver.py 645-654
      (stream_options), loadersaver.py 608-656 (open_hdf_stream) and others.
      *)
  Fixpoint chain (cs : list text) (o : hobj) : hobj :=
    match cs with [] => o | c :: cs' => HGroup (HHard c (chain cs' o) HNil) end.
  (** group.create_group / create_dataset: intermediate groups are created;
      an existing name or a dataset on the way is an error.  (The place in the
      iteration order is not modelled: new links go last.)
      Used by loadersaver.py 572-605 (save_hdf_file), loadersaver.py 645-654
      (stream_options), loadersaver.py 608-656 (open_hdf_stream) and others.
      *)
  Fixpoint hcreate (cs : list text) (o : hobj) (g : hitems) {struct g} : res hitems :=
    match cs with
    | [] => Err ValueError
    | c :: cs' =>
        match g with
        | HNil => Ok (HHard c (chain cs' o) HNil)
        | HHard n p r =>
            if teqb c n then
              match cs', p with
              | [], _ => Err ValueError
              | _ :: _, HGroup g' => g'' <- hcreate cs' o g' ;; Ok (HHard n (HGroup g'') r)
              | _ :: _, HData _ => Err ValueError
              end
            else r' <- hcreate cs o r ;; Ok (HHard n p r')
        | HSoft n p r => if teqb c n then Err ValueError else r' <- hcreate cs o r ;; Ok (HSoft n p r')
        | HBroken n r => if teqb c n then Err ValueError else r' <- hcreate cs o r ;; Ok (HBroken n r')
        end
    end.
End Hdf.
Arguments dset : clear implicits. Arguments hobj : clear implicits. Arguments hitems : clear implicits.
