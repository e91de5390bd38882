(** Exceptions, Python ranges/slices and generic list helpers. *)
From Coq Require Export List ZArith Lia Bool.
From Coq Require Import ZifyBool FinFun.
Export ListNotations.
Local Open Scope Z_scope.

(** Python exception classes that the modelled code can raise.  [External]
    marks calls into a library routine outside the domain we model.
    Used by utility.py 492-514 (vstatus), preprocessing.py 485-507
    (slope_from), loadersaver.py 870-896 (pkl_job) and others. *)
Inductive exn :=
| ValueError | IndexError | TypeError | ZeroDivisionError | KeyError
| FileNotFoundError | AttributeError | UnboundLocalError | LinAlgError
| OSError | OverflowError | External.

(** Result of a Python call: a value, or a raised exception.
    Used by postprocessing.py 151-185 (unwarp_image_forward),
    postprocessing.py 188-229 (unwarp_slice_backward), postprocessing.py
    255-313 (unwarp_chunk_slices_backward) and others. *)
Inductive res (A : Type) := Ok (a : A) | Err (e : exn).
Arguments Ok {A} a. Arguments Err {A} e.

(** Statements in sequence: an exception ends the function (every function of
    postprocessing.py 36-492, processing.py 47-1651, preprocessing.py 50-1404,
    linepattern.py 46-761, utility.py 41-514, loadersaver.py 47-917). *)
Definition bind {A B} (m : res A) (f : A -> res B) : res B :=
  match m with Ok a => f a | Err e => Err e end.
Notation "x <- m ;; k" := (bind m (fun x => k))
  (at level 61, m at next level, right associativity).
Notation "' p <- m ;; k" := (bind m (fun p => k))
  (at level 61, p pattern, m at next level, right associativity).

(** A pure statement after one that may raise; used by processing.py 194-246
    (calc_metric). *)
Definition res_map {A B} (f : A -> B) (m : res A) : res B :=
  match m with Ok a => Ok (f a) | Err e => Err e end.

(** Whether a call returns; only used in statements about the functions of
    loadersaver.py 47-917. *)
Definition is_ok {A} (m : res A) : bool :=
  match m with Ok _ => true | Err _ => false end.

(** A loop or comprehension whose body may raise; used by postprocessing.py
    316-351 (calc_residual_hor), postprocessing.py 354-388 (calc_residual_ver),
    processing.py 47-77 (para_fit_hor) and others. *)
Fixpoint mapM {A B} (f : A -> res B) (l : list A) : res (list B) :=
  match l with
  | [] => Ok []
  | a :: l' => b <- f a ;; bs <- mapM f l' ;; Ok (b :: bs)
  end.

(** [range(a, b)] of Python.
    Used by postprocessing.py 188-229 (unwarp_slice_backward),
    postprocessing.py 255-313 (unwarp_chunk_slices_backward), processing.py
    312-323 (missing_error) and others. *)
Definition zrange (a b : Z) : list Z :=
  map (fun k => a + Z.of_nat k) (seq 0 (Z.to_nat (b - a))).

(** [range(a, b, s)] for s > 0.
    Used by utility.py 146-189 (make_chessboard), processing.py 637-638
    (default_refs). *)
Definition zrange_step (a b s : Z) : list Z :=
  map (fun k => a + s * Z.of_nat k) (seq 0 (Z.to_nat ((b - a + s - 1) / s))).

Lemma zrange_length a b : List.length (zrange a b) = Z.to_nat (b - a).
Proof. unfold zrange. now rewrite map_length, seq_length. Qed.

Lemma in_zrange a b x : In x (zrange a b) <-> a <= x < b.
Proof.
  unfold zrange. rewrite in_map_iff. split.
  - intros [k [<- Hk]]. apply in_seq in Hk. lia.
  - intros H. exists (Z.to_nat (x - a)). split; [lia|]. apply in_seq. lia.
Qed.

Lemma in_zrange_step a b s x : 0 < s ->
  In x (zrange_step a b s) <-> exists k, 0 <= k /\ x = a + s * k /\ x < b.
Proof.
  intros Hs. unfold zrange_step. rewrite in_map_iff. split.
  - intros [k [<- Hk]]. apply in_seq in Hk. exists (Z.of_nat k).
    repeat split; try lia.
    assert (Z.of_nat k < (b - a + s - 1) / s) by lia.
    assert (s * ((b - a + s - 1) / s) <= b - a + s - 1)
      by (apply Z.mul_div_le; lia).
    nia.
  - intros [k [Hk [-> Hb]]]. exists (Z.to_nat k). split; [lia|].
    apply in_seq. split; [lia|].
    assert (k < (b - a + s - 1) / s); [|lia].
    assert (H : b - a + s - 1 < s * ((b - a + s - 1) / s) + s)
      by (pose proof (Z.mod_pos_bound (b - a + s - 1) s Hs);
          pose proof (Z.div_mod (b - a + s - 1) s ltac:(lia)); lia).
    nia.
Qed.

Lemma zrange_nth a b k d : (k < Z.to_nat (b - a))%nat ->
  nth k (zrange a b) d = a + Z.of_nat k.
Proof.
  intros H. unfold zrange.
  rewrite (nth_indep _ d (a + Z.of_nat 0)) by (rewrite map_length, seq_length; lia).
  rewrite (map_nth (fun k => a + Z.of_nat k)). now rewrite seq_nth by lia.
Qed.

Lemma zrange_nil a b : b <= a -> zrange a b = [].
Proof. intros H. unfold zrange. replace (Z.to_nat (b - a)) with O by lia. reflexivity. Qed.

Lemma zrange_nodup a b : NoDup (zrange a b).
Proof.
  unfold zrange. apply Injective_map_NoDup; [|apply seq_NoDup].
  intros x y; lia.
Qed.

(** Normalisation of one slice bound for an axis of length [n]:
    negative bounds count from the end, then clip to [0, n].
    Used by postprocessing.py 188-229 (unwarp_slice_backward),
    postprocessing.py 255-313 (unwarp_chunk_slices_backward), linepattern.py
    512-567 (get_tilted_profile) and others. *)
Definition slice_bound (n i : Z) : Z :=
  if i <? 0 then Z.max 0 (i + n) else Z.min i n.

(** int16 conversion of an integer value: two's complement wrap-around.
    Used by postprocessing.py 188-229 (unwarp_slice_backward),
    postprocessing.py 255-313 (unwarp_chunk_slices_backward), processing.py
    546-612 (calc_coef_backward_from_forward) and others. *)
Definition wrap16 (z : Z) : Z := (z + 32768) mod 65536 - 32768.

Lemma wrap16_id z : -32768 <= z <= 32767 -> wrap16 z = z.
Proof. intros H. unfold wrap16. rewrite Z.mod_small; lia. Qed.

(** int8 wrap / uint8 wrap.
    Used by loadersaver.py 432-437 (scale8). *)
Definition wrap_u8 (z : Z) : Z := z mod 256.

(** A list index as Python sees it: negative counts from the end.
    Used by utility.py 139-140 (line_rows), utility.py 141-142 (line_cols),
    processing.py 113-145 (find_cod_coarse) and others. *)
Definition pyget {A} (l : list A) (i : Z) : res A :=
  let n := Z.of_nat (List.length l) in
  let j := if i <? 0 then i + n else i in
  if (j <? 0) || (n <=? j) then Err IndexError
  else match nth_error l (Z.to_nat j) with Some a => Ok a | None => Err IndexError end.

(** Last element of a list, if any; only used in statements (loadersaver.py
    754-776). *)
Definition last_opt {A} (l : list A) : option A :=
  match rev l with [] => None | a :: _ => Some a end.

(** The last element of a list satisfying a test.
    Used by loadersaver.py 829-848 (load_metadata_json). *)
Definition find_last {A} (f : A -> bool) (l : list A) : option A :=
  find f (rev l).

Lemma find_last_snoc {A} (f : A -> bool) l a :
  find_last f (l ++ [a]) = if f a then Some a else find_last f l.
Proof. unfold find_last. rewrite rev_app_distr. reflexivity. Qed.

(** Position of the first element with a property; only used in statements
    (loadersaver.py 171-234). *)
Fixpoint index_of {A} (f : A -> bool) (l : list A) : option nat :=
  match l with
  | [] => None
  | a :: l' => if f a then Some O else option_map S (index_of f l')
  end.
