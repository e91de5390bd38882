(** Model of discorpy/post/postprocessing.py. *)
From Coq Require Import ZArith.
From Verif Require Import Base Num Img.
Local Open Scope Z_scope.

(** dtype of an array of coordinates, as far as it changes what is stored.
    Used by postprocessing.py 36-64 (unwarp_dot_forward), postprocessing.py
    93-106 (unwarp_dot_backward), loadersaver.py 148-159 (info_entry) and
    others. *)
Inductive dtype := DInt | DF32 | DF64.

(** [enumerate]-style map.
    Used by utility.py 192-230 (find_point_to_point), utility.py 320-330
    (color_maps), utility.py 415-434 (cv2_maps) and others. *)
Fixpoint mapi_from {A B} (f : nat -> A -> B) (k : nat) (l : list A) : list B :=
  match l with [] => [] | a :: l' => f k a :: mapi_from f (S k) l' end.
(** enumerate in a comprehension; used by utility.py 192-230
    (find_point_to_point), utility.py 320-330 (color_maps), utility.py 415-434
    (cv2_maps) and others. *)
Definition mapi {A B} (f : nat -> A -> B) (l : list A) : list B := mapi_from f 0 l.

(** Row-major list of the pixel positions of an h x w array.
    Used by postprocessing.py 151-185 (unwarp_image_forward),
    postprocessing.py 444-459 (generate_perspective_map). *)
Definition grid (h w : Z) : list (Z * Z) :=
  flat_map (fun i => map (fun j => (i, j)) (zrange 0 w)) (zrange 0 h).

Section Post.
  Context {T : Type} {N : Num T}.
  Local Open Scope num_scope.

  (** A point is (y, x), as in the rows of discorpy's line arrays.
      Used by postprocessing.py 36-64 (unwarp_dot_forward), postprocessing.py
      93-106 (unwarp_dot_backward), postprocessing.py 316-388
      (residual_line_hor) and others. *)
  Definition point := (T * T)%type.
  (** A line: array of points with its dtype.
      Used by postprocessing.py 36-64 (unwarp_line_forward), postprocessing.py
      72-108 (unwarp_line_backward), processing.py 47-77 (para_fit_hor) and
      others. *)
  Definition line := (dtype * list point)%type.

  (** Assignment of a float into an array of the given dtype
      (integer arrays truncate towards zero).
      Used by postprocessing.py 36-64 (unwarp_dot_forward), postprocessing.py
      93-106 (unwarp_dot_backward), linepattern.py 155-192
      (sliding_window_slope). *)
  Definition store (d : dtype) (v : T) : T :=
    match d with DInt => nofZ (ntrunc v) | DF32 => nf32 v | DF64 => v end.

  (** np.sum of [factor * r ** i for i, factor in enumerate(list_fact)]:
      postprocessing.py lines 60, 68-69, 142-143, 177-178, 217-218, 292-293,
      297-298, 305-306. *)
  Definition radial (list_fact : list T) (r : T) : T :=
    nsum (mapi (fun i f => f *! npow r i) list_fact).

  (** postprocessing.py 36-64, body of the inner loop (lines 57-62): one dot.
      Scalars are taken to be computed in the number type T whatever the
      dtype of the line. *)
  Definition unwarp_dot_forward (d : dtype) (xcenter ycenter : T)
      (list_fact : list T) (dot : point) : point :=
    let xd := snd dot -! xcenter in
    let yd := fst dot -! ycenter in
    let rd := nsqrt (xd *! xd +! yd *! yd) in
    let factor := radial list_fact rd in
    (store d (ycenter +! factor *! yd), store d (xcenter +! factor *! xd)).

  (** postprocessing.py 36-64 *)
  Definition unwarp_line_forward (list_lines : list line) (xcenter ycenter : T)
      (list_fact : list T) : list line :=
    map (fun l : line =>
           (fst l, map (unwarp_dot_forward (fst l) xcenter ycenter list_fact) (snd l)))
        list_lines.

  (** postprocessing.py 67-69 *)
  Definition func_diff (ru rd : T) (list_fact : list T) : T :=
    npow (rd -! ru *! radial list_fact ru) 2.

  (** postprocessing.py 93-106.  [minimize f x0] stands for
      optimize.minimize(f, x0).x[0]. *)
  Definition unwarp_dot_backward (minimize : (T -> T) -> T -> T) (d : dtype)
      (xcenter ycenter : T) (list_fact : list T) (dot : point) : point :=
    let xd := snd dot -! xcenter in
    let yd := fst dot -! ycenter in
    let rd := nsqrt (xd *! xd +! yd *! yd) in
    let ru := minimize (fun r => func_diff r rd list_fact) rd in
    let factor := if negb (rd =?! n0) then ru /! rd else n0 in
    (store d (ycenter +! factor *! yd), store d (xcenter +! factor *! xd)).

  (** postprocessing.py 72-108 *)
  Definition unwarp_line_backward (minimize : (T -> T) -> T -> T)
      (list_lines : list line) (xcenter ycenter : T) (list_fact : list T) : list line :=
    map (fun l : line =>
           (fst l, map (unwarp_dot_backward minimize (fst l) xcenter ycenter list_fact) (snd l)))
        list_lines.

  (** The unclipped mapped position of pixel (row y, column x):
      postprocessing.py 138-145 / 173-182 / 214-220 / 302-309, one element of
      the arrays [xcenter + fact_mat * xu_mat], [ycenter + fact_mat * yu_mat]. *)
  Definition map_x (xcenter ycenter : T) (list_fact : list T) (y x : Z) : T :=
    let xu := nofZ x -! xcenter in
    let yu := nofZ y -! ycenter in
    let ru := nsqrt (npow xu 2 +! npow yu 2) in
    xcenter +! radial list_fact ru *! xu.
  (** The row coordinate in the same place (postprocessing.py 138-145 / 173-182
      / 214-220 / 302-309). *)
  Definition map_y (xcenter ycenter : T) (list_fact : list T) (y x : Z) : T :=
    let xu := nofZ x -! xcenter in
    let yu := nofZ y -! ycenter in
    let ru := nsqrt (npow xu 2 +! npow yu 2) in
    ycenter +! radial list_fact ru *! yu.

  (** postprocessing.py 144-145: the sampled coordinates (xd_mat, yd_mat). *)
  Definition coord_x (xcenter ycenter : T) (list_fact : list T) (w : Z) (y x : Z) : T :=
    nf32 (nclip (map_x xcenter ycenter list_fact y x) (nofZ 0) (nofZ (w - 1))).
  (** yd_mat (postprocessing.py 144-145). *)
  Definition coord_y (xcenter ycenter : T) (list_fact : list T) (h : Z) (y x : Z) : T :=
    nf32 (nclip (map_y xcenter ycenter list_fact y x) (nofZ 0) (nofZ (h - 1))).

  (** postprocessing.py 111-148.  [interp] is map_coordinates with the given
      order and mode at one coordinate pair (y, x), including the conversion
      to the dtype of the image. *)
  Definition unwarp_image_backward (interp : image T -> T -> T -> T)
      (mat : image T) (xcenter ycenter : T) (list_fact : list T) : image T :=
    mkimg (ih mat) (iw mat) (fun i j =>
      interp mat (coord_y xcenter ycenter list_fact (ih mat) i j)
                 (coord_x xcenter ycenter list_fact (iw mat) i j)).

  (** Assignment of one pixel.
      Used by postprocessing.py 151-185 (unwarp_image_forward). *)
  Definition set_px (m : image T) (i j : Z) (v : T) : image T :=
    mkimg (ih m) (iw m)
      (fun a b => if (a =? i)%Z && (b =? j)%Z then v else px m a b).

  (** Fancy-index assignment mat[ys, xs] = vs, element by element in order;
      negative indices count from the end, others out of range raise.
      Used by postprocessing.py 151-185 (unwarp_image_forward). *)
  Fixpoint scatter (m : image T) (ws : list (Z * Z * T)) : res (image T) :=
    match ws with
    | [] => Ok m
    | (i, j, v) :: ws' =>
        let i' := if (i <? 0)%Z then (i + ih m)%Z else i in
        let j' := if (j <? 0)%Z then (j + iw m)%Z else j in
        if (i' <? 0)%Z || (ih m <=? i')%Z || (j' <? 0)%Z || (iw m <=? j')%Z
        then Err IndexError
        else scatter (set_px m i' j' v) ws'
    end.

  (** postprocessing.py 179-182: rounded target of a pixel. *)
  Definition fwd_col (xcenter ycenter : T) (list_fact : list T) (w i j : Z) : Z :=
    nrint (nclip (map_x xcenter ycenter list_fact i j) (nofZ 0) (nofZ (w - 1))).
  (** The row of the target (postprocessing.py 179-182). *)
  Definition fwd_row (xcenter ycenter : T) (list_fact : list T) (h i j : Z) : Z :=
    nrint (nclip (map_y xcenter ycenter list_fact i j) (nofZ 0) (nofZ (h - 1))).

  (** postprocessing.py 151-185 *)
  Definition unwarp_image_forward (mat : image T) (xcenter ycenter : T)
      (list_fact : list T) : res (image T) :=
    scatter (mkimg (ih mat) (iw mat) (fun _ _ => n0))
      (map (fun ij =>
              (fwd_row xcenter ycenter list_fact (ih mat) (fst ij) (snd ij),
               fwd_col xcenter ycenter list_fact (iw mat) (fst ij) (snd ij),
               px mat (fst ij) (snd ij)))
           (grid (ih mat) (iw mat))).

  (** postprocessing.py 188-229.  Heights are taken such that int16 + 1 does
      not itself overflow differently between numpy versions; the int16 cast
      wraps (two's complement).  The result is stored in float32.
      [interp] = map_coordinates(order=1, mode='reflect').
      map_coordinates on an array without rows is outside the model. *)
  Definition unwarp_slice_backward (interp : image T -> T -> T -> T)
      (mat3D : volume T) (xcenter ycenter : T) (list_fact : list T) (index : Z)
      : res (image T) :=
    let depth := vd mat3D in let height := vh mat3D in let width := vw mat3D in
    let xd j := nclip (map_x xcenter ycenter list_fact index j) (nofZ 0) (nofZ (width - 1)) in
    let yd j := nclip (map_y xcenter ycenter list_fact index j) (nofZ 0) (nofZ (height - 1)) in
    let yd_list := map yd (zrange 0 width) in
    mn <- namin yd_list ;;
    mx <- namax yd_list ;;
    let yd_min := wrap16 (nfloor mn) in
    let yd_max := (wrap16 (nceil mx) + 1)%Z in
    let crop i := row_slice (vplane mat3D i) yd_min yd_max in
    if (0 <? depth)%Z && (ih (crop 0%Z) <=? 0)%Z then Err External else
    Ok (mkimg depth width (fun i j =>
          nf32 (interp (crop i) (yd j -! nofZ yd_min) (xd j)))).

  (** postprocessing.py 255-313, for a 3-D input (ndim < 3 raises ValueError,
      see [unwarp_chunk_entry]).  [start_index not in np.arange(height,
      dtype=np.int16)] is modelled for height <= 32768, where arange does not
      overflow.  The subtraction of yd_min from the float32 array is a float32
      subtraction. *)
  Definition unwarp_chunk_slices_backward (interp : image T -> T -> T -> T)
      (mat3D : volume T) (xcenter ycenter : T) (list_fact : list T)
      (start_index stop_index : Z) : res (volume T) :=
    let depth := vd mat3D in let height := vh mat3D in let width := vw mat3D in
    let stop := if (stop_index =? -1)%Z then height else stop_index in
    let in_list k := (0 <=? k)%Z && (k <? height)%Z in
    if negb (in_list start_index) || negb (in_list stop) then Err ValueError else
    let yd k j := nclip (map_y xcenter ycenter list_fact k j) (nofZ 0) (nofZ (height - 1)) in
    let yd_list1 := map (yd start_index) (zrange 0 width) in
    let yd_list2 := map (yd stop) (zrange 0 width) in
    mn <- namin yd_list1 ;;
    mx <- namax yd_list2 ;;
    let yd_min := wrap16 (nfloor mn) in
    let yd_max := (wrap16 (nceil mx) + 1)%Z in
    let nrow := Z.max 0 (stop + 1 - start_index) in
    let crop i := row_slice (vplane mat3D i) yd_min yd_max in
    if (0 <? depth)%Z && (0 <? nrow)%Z && (ih (crop 0%Z) <=? 0)%Z then Err External else
    Ok (mkvol depth nrow width (fun i k j =>
          let row := (start_index + k)%Z in
          interp (crop i)
            (nf32 (coord_y xcenter ycenter list_fact height row j -! nofZ yd_min))
            (coord_x xcenter ycenter list_fact width row j))).

  (** postprocessing.py 281-283: the ndim check of both slice functions.
      [inr] stands for a 3-D array, [inl] for one with fewer dimensions. *)
  Definition unwarp_chunk_entry (interp : image T -> T -> T -> T)
      (a : unit + volume T) xcenter ycenter list_fact start_index stop_index :=
    match a with
    | inl _ => Err ValueError
    | inr v => unwarp_chunk_slices_backward interp v xcenter ycenter list_fact
                 start_index stop_index
    end.

  (** postprocessing.py 316-388.  [polyfit1 xs ys] = np.polyfit(xs, ys, 1) as
      (slope, intercept); [argsort] = ndarray.argsort.  Lines are n x 2
      arrays; polyfit of an empty vector raises TypeError, and indexing
      [:, 0] of the empty data array raises IndexError. *)
  Definition residual_line_hor (polyfit1 : list T -> list T -> T * T)
      (xcenter ycenter : T) (ln : list point) : res (list (T * T)) :=
    let y_list := map (fun p => fst p -! ycenter) ln in
    let x_list := map (fun p => snd p -! xcenter) ln in
    match ln with
    | [] => Err TypeError
    | _ =>
      let '(a, b) := polyfit1 x_list y_list in
      let dist_list := map (fun xy =>
         nabs (a *! fst xy -! snd xy +! b) /! nsqrt (npow a 2 +! n1)) (combine x_list y_list) in
      let radi_list := map (fun xy => nsqrt (npow (fst xy) 2 +! npow (snd xy) 2))
                           (combine x_list y_list) in
      Ok (combine radi_list dist_list)
    end.

  (** One line of calc_residual_ver (postprocessing.py 354-388). *)
  Definition residual_line_ver (polyfit1 : list T -> list T -> T * T)
      (xcenter ycenter : T) (ln : list point) : res (list (T * T)) :=
    let y_list := map (fun p => fst p -! ycenter) ln in
    let x_list := map (fun p => snd p -! xcenter) ln in
    match ln with
    | [] => Err TypeError
    | _ =>
      let '(a, b) := polyfit1 y_list x_list in
      let dist_list := map (fun xy =>
         nabs (a *! snd xy -! fst xy +! b) /! nsqrt (npow a 2 +! n1)) (combine x_list y_list) in
      let radi_list := map (fun xy => nsqrt (npow (fst xy) 2 +! npow (snd xy) 2))
                           (combine x_list y_list) in
      Ok (combine radi_list dist_list)
    end.

  (** list_data[list_data[:, 0].argsort()], lines 350-351 / 387-388.
      Used by postprocessing.py 316-351 (calc_residual_hor), postprocessing.py
      354-388 (calc_residual_ver). *)
  Definition sort_residuals (argsort : list T -> list nat) (data : list (T * T))
      : res (list (T * T)) :=
    match data with
    | [] => Err IndexError
    | _ => Ok (map (fun k => nth k data (n0, n0)) (argsort (map fst data)))
    end.

  (** postprocessing.py 316-351 *)
  Definition calc_residual_hor
      (polyfit1 : list T -> list T -> T * T) (argsort : list T -> list nat)
      (list_ulines : list (list point)) (xcenter ycenter : T) : res (list (T * T)) :=
    ll <- mapM (residual_line_hor polyfit1 xcenter ycenter) list_ulines ;;
    sort_residuals argsort (concat ll).

  (** postprocessing.py 354-388 *)
  Definition calc_residual_ver
      (polyfit1 : list T -> list T -> T * T) (argsort : list T -> list nat)
      (list_ulines : list (list point)) (xcenter ycenter : T) : res (list (T * T)) :=
    ll <- mapM (residual_line_ver polyfit1 xcenter ycenter) list_ulines ;;
    sort_residuals argsort (concat ll).

  (** postprocessing.py 391-411; list_data is an n x 2 array. *)
  Definition check_distortion (list_data : list (T * T)) : res bool :=
    let res_list := map snd list_data in
    let k := Z.of_nat (List.length (filter (fun r => nofZ 1 <?! r) res_list)) in
    let n := Z.of_nat (List.length res_list) in
    if (n =? 0)%Z then Err ZeroDivisionError else
    Ok (nofQ 15 100 <?! (nofZ 1 *! nofZ k) /! nofZ n).

  (** postprocessing.py 438-439: one point. *)
  Definition persp_x (c : T*T*T*T*T*T*T*T) (y x : T) : T :=
    let '(c1, c2, c3, c4, c5, c6, c7, c8) := c in
    (c1 *! x +! c2 *! y +! c3) /! (c7 *! x +! c8 *! y +! n1).
  (** The row coordinate of the same point (postprocessing.py 438-439). *)
  Definition persp_y (c : T*T*T*T*T*T*T*T) (y x : T) : T :=
    let '(c1, c2, c3, c4, c5, c6, c7, c8) := c in
    (c4 *! x +! c5 *! y +! c6) /! (c7 *! x +! c8 *! y +! n1).

  (** Unpacking of eight coefficients (lines 430-432, 486-487).
      Used by postprocessing.py 414-441 (correct_perspective_line),
      postprocessing.py 444-459 (generate_perspective_map), postprocessing.py
      462-492 (correct_perspective_image). *)
  Definition unpack8 (l : list T) : res (T*T*T*T*T*T*T*T) :=
    match l with
    | [c1; c2; c3; c4; c5; c6; c7; c8] => Ok (c1, c2, c3, c4, c5, c6, c7, c8)
    | _ => Err ValueError
    end.

  (** postprocessing.py 414-441 *)
  Definition correct_perspective_line (list_lines : list (list point))
      (list_coef : list T) : res (list (list point)) :=
    c <- unpack8 list_coef ;;
    Ok (map (map (fun p : point => (persp_y c (fst p) (snd p), persp_x c (fst p) (snd p))))
            list_lines).

  (** postprocessing.py 444-459: flattened (y, x) index arrays. *)
  Definition generate_perspective_map (mat : image T) (list_coef : list T)
      : res (list (T * T)) :=
    c <- unpack8 list_coef ;;
    Ok (map (fun ij =>
          (nf32 (nclip (persp_y c (nofZ (fst ij)) (nofZ (snd ij))) (nofZ 0) (nofZ (ih mat - 1))),
           nf32 (nclip (persp_x c (nofZ (fst ij)) (nofZ (snd ij))) (nofZ 0) (nofZ (iw mat - 1)))))
        (grid (ih mat) (iw mat))).

  (** reshape of a flat array to (h, w).
      Used by postprocessing.py 462-492 (correct_perspective_image). *)
  Definition reshape (h w : Z) (l : list T) : res (image T) :=
    if (Z.of_nat (List.length l) =? h * w)%Z
    then Ok (mkimg h w (fun i j => nth (Z.to_nat (i * w + j)) l n0))
    else Err ValueError.

  (** postprocessing.py 462-492 *)
  Definition correct_perspective_image (interp : image T -> T -> T -> T)
      (mat : image T) (list_coef : list T) (map_index : option (list (T * T)))
      : res (image T) :=
    _ <- unpack8 list_coef ;;
    idx <- match map_index with
           | None => generate_perspective_map mat list_coef
           | Some m => Ok m
           end ;;
    reshape (ih mat) (iw mat) (map (fun yx => interp mat (fst yx) (snd yx)) idx).
End Post.
