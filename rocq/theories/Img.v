(** Images, slicing of rows, and linear interpolation. *)
From Coq Require Import ZArith.
From Verif Require Import Base Num.
Local Open Scope Z_scope.

(** A 2-D array: height, width, and pixel (row, column).  Only in-range
    pixels are meaningful.
    Used by postprocessing.py 111-148 (unwarp_image_backward),
    postprocessing.py 151-185 (unwarp_image_forward), postprocessing.py
    188-229 (unwarp_slice_backward) and others. *)
Record image (T : Type) := mkimg { ih : Z; iw : Z; px : Z -> Z -> T }.
Arguments mkimg {T}. Arguments ih {T}. Arguments iw {T}. Arguments px {T}.

(** A 3-D array.
    Used by postprocessing.py 188-229 (unwarp_slice_backward),
    postprocessing.py 255-313 (unwarp_chunk_slices_backward),
    postprocessing.py 281-283 (unwarp_chunk_entry). *)
Record volume (T : Type) := mkvol { vd : Z; vh : Z; vw : Z; vx : Z -> Z -> Z -> T }.
Arguments mkvol {T}. Arguments vd {T}. Arguments vh {T}. Arguments vw {T}. Arguments vx {T}.

(** mat[i, j] is inside the array; only used in statements (postprocessing.py
    111-148 and every function on images). *)
Definition in_img {T} (m : image T) (i j : Z) : Prop :=
  0 <= i < ih m /\ 0 <= j < iw m.

(** np.array_equal(a, b); only used in statements (postprocessing.py 111-148 and
    every function on images). *)
Definition img_eq {T} (a b : image T) : Prop :=
  ih a = ih b /\ iw a = iw b /\ forall i j, in_img a i j -> px a i j = px b i j.

(** mat3D[k]
    Used by postprocessing.py 188-229 (unwarp_slice_backward),
    postprocessing.py 255-313 (unwarp_chunk_slices_backward). *)
Definition vplane {T} (v : volume T) (k : Z) : image T :=
  mkimg (vh v) (vw v) (fun i j => vx v k i j).

(** mat[a:b, :] with Python slice semantics.
    Used by postprocessing.py 188-229 (unwarp_slice_backward),
    postprocessing.py 255-313 (unwarp_chunk_slices_backward), linepattern.py
    512-567 (get_tilted_profile). *)
Definition row_slice {T} (m : image T) (a b : Z) : image T :=
  let a' := slice_bound (ih m) a in
  let b' := slice_bound (ih m) b in
  mkimg (Z.max 0 (b' - a')) (iw m) (fun i j => px m (a' + i) j).

(** scipy.ndimage mode='reflect' (d c b a | a b c d | d c b a) on an axis of
    length n >= 1.
    (map_coordinates in postprocessing.py 147, 227, 251, 491.) *)
Definition reflect (n i : Z) : Z :=
  let m := i mod (2 * n) in if m <? n then m else 2 * n - 1 - m.

Lemma reflect_id n i : 0 <= i < n -> reflect n i = i.
Proof.
  intros H. unfold reflect. rewrite Z.mod_small by lia.
  destruct (Z.ltb_spec i n); lia.
Qed.
Lemma reflect_range n i : 0 < n -> 0 <= reflect n i < n.
Proof.
  intros H. unfold reflect.
  pose proof (Z.mod_pos_bound i (2 * n) ltac:(lia)).
  destruct (Z.ltb_spec (i mod (2 * n)) n); lia.
Qed.
Lemma reflect_top n : 0 < n -> reflect n n = n - 1.
Proof.
  intros H. unfold reflect. rewrite Z.mod_small by lia.
  destruct (Z.ltb_spec n n); lia.
Qed.

Section Interp.
  Context {T : Type} {N : Num T}.
  Local Open Scope num_scope.
  (** scipy.ndimage.map_coordinates(m, (y, x), order=1, mode='reflect') at one
      coordinate pair: bilinear interpolation of the array extended by
      reflection.  Weights as in scipy's spline code for order 1 (1-t, t).
      (map_coordinates in postprocessing.py 147, 227, 251, 491.) *)
  Definition bilinear (m : image T) (y x : T) : T :=
    let i := nfloor y in let j := nfloor x in
    let ty := y -! nofZ i in let tx := x -! nofZ j in
    let q a b := px m (reflect (ih m) a) (reflect (iw m) b) in
    (n1 -! ty) *! (n1 -! tx) *! q i j
    +! (n1 -! ty) *! tx *! q i (j + 1)%Z
    +! ty *! (n1 -! tx) *! q (i + 1)%Z j
    +! ty *! tx *! q (i + 1)%Z (j + 1)%Z.
  (** The same followed by the conversion to the output dtype.
      (map_coordinates in postprocessing.py 147, 227, 251, 491.) *)
  Definition bilinear_cast (cast : T -> T) (m : image T) (y x : T) : T :=
    cast (bilinear m y x).
End Interp.
