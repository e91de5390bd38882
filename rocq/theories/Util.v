(** Model of discorpy/util/utility.py. *)
From Coq Require Import ZArith.
From Verif Require Import Base Num Img Post.
Local Open Scope Z_scope.

(** The [margin] argument: a number, or a tuple/list (utility.py 93-96, 131-134). *)
Inductive margin_arg := MScalar (m : Z) | MSeq (l : list Z).
(** [marg_ver, marg_hor = margin[0:2]] or the scalar twice.
    Used by utility.py 66-103 (make_dot_pattern), utility.py 106-143
    (make_line_pattern). *)
Definition margins (m : margin_arg) : res (Z * Z) :=
  match m with
  | MScalar a => Ok (a, a)
  | MSeq (a :: b :: _) => Ok (a, b)
  | MSeq _ => Err ValueError
  end.

(** The [pad] argument (utility.py 238-274): bool, int, tuple/list, other. *)
Inductive pad_arg := PadBool (b : bool) | PadInt (p : Z) | PadSeq (l : list Z) | PadOther.

(** A 2-D or 3-D (height x width x channels) array.
    Used by utility.py 278-342 (unwarp_color_image_backward), utility.py
    415-434 (cv2_maps), utility.py 380-436 (unwarp_image_backward_cv2). *)
Record cimage (T : Type) := mkcimg { ch : Z; cw : Z; cc : Z; cx : Z -> Z -> Z -> T }.
Arguments mkcimg {T}. Arguments ch {T}. Arguments cw {T}. Arguments cc {T}. Arguments cx {T}.
(** The two kinds of arrays the colour functions accept (mat.ndim) (utility.py
    278-342). *)
Inductive picture (T : Type) := Gray (m : image T) | Color (m : cimage T).
Arguments Gray {T}. Arguments Color {T}.
(** mat[:, :, k]
    Used by utility.py 278-342 (unwarp_color_image_backward). *)
Definition channel {T} (m : cimage T) (k : Z) : image T :=
  mkimg (ch m) (cw m) (fun i j => cx m i j k).
(** mat.shape[0]; used by utility.py 278-342 (unwarp_color_image_backward),
    utility.py 415-434 (cv2_maps). *)
Definition pic_h {T} (p : picture T) : Z := match p with Gray m => ih m | Color m => ch m end.
(** mat.shape[1]; used by utility.py 278-342 (unwarp_color_image_backward),
    utility.py 415-434 (cv2_maps). *)
Definition pic_w {T} (p : picture T) : Z := match p with Gray m => iw m | Color m => cw m end.

Section Util.
  Context {T : Type} {N : Num T}.
  Local Open Scope num_scope.

  (** utility.py 41-63 (width >= 0). *)
  Definition make_circle_mask (width : Z) (ratio : T) : image T :=
    let center := (width / 2)%Z in
    let radius := ratio *! nofZ center in
    mkimg width width (fun i j =>
      let y := (i - center)%Z in let x := (j - center)%Z in
      if nofZ (x * x + y * y)%Z <=?! radius *! radius then n1 else n0).

  (** mat[r0:r1, c0:c1] = v with Python slice semantics.
      Used by utility.py 139-140 (line_rows), utility.py 141-142 (line_cols),
      utility.py 173-179 (chess_cols). *)
  Definition fill (m : image T) (r0 r1 c0 c1 : Z) (v : T) : image T :=
    let a := slice_bound (ih m) r0 in let b := slice_bound (ih m) r1 in
    let c := slice_bound (iw m) c0 in let d := slice_bound (iw m) c1 in
    mkimg (ih m) (iw m) (fun i j =>
      if (a <=? i)%Z && (i <? b)%Z && (c <=? j)%Z && (j <? d)%Z then v else px m i j).

  (** mat[r0:r1:s, c0:c1:s] = v, s > 0.
      Used by utility.py 66-103 (make_dot_pattern). *)
  Definition fill_step (m : image T) (r0 r1 c0 c1 s : Z) (v : T) : image T :=
    let a := slice_bound (ih m) r0 in let b := slice_bound (ih m) r1 in
    let c := slice_bound (iw m) c0 in let d := slice_bound (iw m) c1 in
    mkimg (ih m) (iw m) (fun i j =>
      if existsb (Z.eqb i) (zrange_step a b s) && existsb (Z.eqb j) (zrange_step c d s)
      then v else px m i j).

  (** scipy.ndimage.binary_dilation(mat, structure=mask, iterations=1) for a
      square structure of n x n elements: the structure is placed with its
      element n//2 on every set pixel.
      Used by utility.py 66-103 (make_dot_pattern). *)
  Definition binary_dilation (mat mask : image T) : Z -> Z -> bool :=
    let n := ih mask in let c := (n / 2)%Z in
    fun i j => existsb (fun ab =>
        let y := (i - fst ab + c)%Z in let x := (j - snd ab + c)%Z in
        negb (px mask (fst ab) (snd ab) =?! n0)
        && ((0 <=? y)%Z && (y <? ih mat)%Z && (0 <=? x)%Z && (x <? iw mat)%Z)
        && negb (px mat y x =?! n0)) (grid n n).

  (** utility.py 66-103, integer arguments.  binary_dilation with an empty
      structure (images below 8 pixels) raises in scipy: [External]; with a zero
      distance the slice step raises before. *)
  Definition make_dot_pattern (height width dot_distance dot_size : Z) (margin : margin_arg)
      : res (image T) :=
    let dot_size := Z.min (Z.max dot_size 1) (Z.min height width / 8) in
    if (dot_distance <? dot_size)%Z then Err ValueError else
    'mm <- margins margin ;;
    let marg_ver := fst mm in let marg_hor := snd mm in
    let half_dot := (dot_size / 2 + 1)%Z in
    let mask := make_circle_mask dot_size n1 in
    if (dot_size <=? 0)%Z then Err External else
    let mat := fill_step (mkimg height width (fun _ _ => n0))
       (marg_ver + half_dot) (height - marg_ver - half_dot)
       (marg_hor + half_dot) (width - marg_hor - half_dot) dot_distance n1 in
    let dil := binary_dilation mat mask in
    Ok (mkimg height width (fun i j => n1 -! (if dil i j then n1 else n0))).

  (** np.arange(a, b, s) for s > 0; s = 0 raises, s < 0 is not modelled.
      Used by utility.py 106-143 (make_line_pattern). *)
  Definition arange (a b s : Z) : res (list Z) :=
    if (s =? 0)%Z then Err ZeroDivisionError else
    if (s <? 0)%Z then Err External else Ok (zrange_step a b s).

  (** utility.py 139-140: the loop over list_i. *)
  Fixpoint line_rows (m : image T) (list_i list_j : list Z) (size : Z) : res (image T) :=
    match list_i with
    | [] => Ok m
    | i :: rest =>
        j0 <- pyget list_j 0 ;;
        j1 <- pyget list_j (-1) ;;
        line_rows (fill m i (i + size)%Z j0 (j1 + size)%Z n1) rest list_j size
    end.
  (** utility.py 141-142: the loop over list_j. *)
  Fixpoint line_cols (m : image T) (list_i list_j : list Z) (size : Z) : res (image T) :=
    match list_j with
    | [] => Ok m
    | j :: rest =>
        i0 <- pyget list_i 0 ;;
        i1 <- pyget list_i (-1) ;;
        line_cols (fill m i0 (i1 + size)%Z j (j + size)%Z n1) list_i rest size
    end.
  (** utility.py 106-143, integer arguments. *)
  Definition make_line_pattern (height width line_distance line_size : Z) (margin : margin_arg)
      : res (image T) :=
    let line_size := Z.min (Z.max line_size 1) (Z.min height width / 8) in
    'mm <- margins margin ;;
    let marg_ver := fst mm in let marg_hor := snd mm in
    list_i <- arange marg_ver (height - marg_ver - line_size) line_distance ;;
    list_j <- arange marg_hor (width - marg_hor - line_size) line_distance ;;
    m1 <- line_rows (mkimg height width (fun _ _ => n0)) list_i list_j line_size ;;
    m2 <- line_cols m1 list_i list_j line_size ;;
    Ok (mkimg height width (fun i j => n1 -! px m2 i j)).

  (** utility.py 173-179 (flag true) and 181-187 (flag false): the inner loop
      over the cells of one row of cells, counter num1. *)
  Fixpoint chess_cols (m : image T) (i size : Z) (js : list Z) (num1 : Z) (white_first : bool) : image T :=
    match js with
    | [] => m
    | j :: rest =>
        let v := if (num1 mod 2 =? 0)%Z then (if white_first then n1 else n0)
                 else (if white_first then n0 else n1) in
        chess_cols (fill m i (i + size)%Z j (j + size)%Z v) i size rest (num1 + 1)%Z white_first
    end.
  (** utility.py 171-188: the outer loop, counter num. *)
  Fixpoint chess_rows (m : image T) (size : Z) (is js : list Z) (num : Z) : image T :=
    match is with
    | [] => m
    | i :: rest =>
        chess_rows (chess_cols m i size js 0 (num mod 2 =? 0)%Z) size rest js (num + 1)%Z
    end.
  (** utility.py 146-189, integer arguments, margin_grayscale a Python float
      (the product with a float32 array is float32); a zero step raises ValueError,
      a negative step is not modelled. *)
  Definition make_chessboard (height width size margin : Z) (margin_grayscale : T) : res (image T) :=
    let m := mkimg height width (fun _ _ => nf32 margin_grayscale) in
    if (size =? 0)%Z then Err ValueError else
    if (size <? 0)%Z then Err External else
    let is := zrange_step (size + margin) (height - margin - size) size in
    let js := zrange_step (size + margin) (width - margin - size) size in
    Ok (chess_rows m size is js 0).

  (** utility.py 192-230.  points = (row, column); [xy] is output_order == "xy". *)
  Definition find_point_to_point (points : T * T) (xcenter ycenter : T) (list_fact : list T)
      (xy : bool) : T * T :=
    let xi := snd points -! xcenter in
    let yi := fst points -! ycenter in
    let ri := nsqrt (xi *! xi +! yi *! yi) in
    let factor := nsum (mapi (fun i f => f *! npow ri i) list_fact) in
    let xo := xcenter +! factor *! xi in
    let yo := ycenter +! factor *! yi in
    if xy then (xo, yo) else (yo, xo).

  (** Python's min(a, b) / max(a, b): the first one unless the second is
      strictly smaller / larger.
      Used by utility.py 233-275 (calc_pad). *)
  Definition pymin (a b : T) : T := if b <?! a then b else a.
  (** max(a, b) of Python; used by utility.py 233-275 (calc_pad). *)
  Definition pymax (a b : T) : T := if a <?! b then b else a.

  (** utility.py 233-275.  [transform] is
      proc.transform_coef_backward_and_forward with the 40 x 40 reference
      points of lines 240-242. *)
  Definition calc_pad (transform : list T -> res (list T)) (pad : pad_arg)
      (height width : Z) (xcenter ycenter : T) (list_fact : list T) : res (Z * Z * Z * Z) :=
    match pad with
    | PadBool true =>
        list_tfact <- transform list_fact ;;
        let f p := find_point_to_point p xcenter ycenter list_tfact true in
        let '(xu_tl, yu_tl) := f (nofZ 0, nofZ 0) in
        let '(xu_tr, yu_tr) := f (nofZ 0, nofZ (width - 1)) in
        let '(xu_br, yu_br) := f (nofZ (height - 1), nofZ (width - 1)) in
        let '(xu_bl, yu_bl) := f (nofZ (height - 1), nofZ 0) in
        let l_val := pymin xu_tl xu_bl in
        let l_pad := if l_val <?! nofZ 0 then ntrunc (nopp l_val) else 0%Z in
        let r_val := pymax xu_tr xu_br in
        let r_pad := if nofZ width <?! r_val then ntrunc (r_val -! nofZ width) else 0%Z in
        let t_val := pymin yu_tl yu_tr in
        let t_pad := if t_val <?! nofZ 0 then ntrunc (nopp t_val) else 0%Z in
        let b_val := pymax yu_bl yu_br in
        let b_pad := if nofZ height <?! b_val then ntrunc (b_val -! nofZ height) else 0%Z in
        Ok (t_pad, b_pad, l_pad, r_pad)
    | PadBool false => Ok (0, 0, 0, 0)%Z
    | PadInt p => Ok (p, p, p, p)
    | PadSeq [t; b; l; r] => Ok (t, b, l, r)
    | PadSeq _ => Err ValueError
    | PadOther => Err ValueError
    end.

  (** np.pad of a 2-D array with widths ((t, b), (l, r)).  [padv] gives the
      values of the new border pixels according to pad_mode (0 for
      'constant').  Negative widths raise ValueError.
      Used by utility.py 278-342 (unwarp_color_image_backward), utility.py
      415-434 (cv2_maps). *)
  Definition np_pad (padv : image T -> Z * Z * Z * Z -> Z -> Z -> T) (m : image T)
      (w : Z * Z * Z * Z) : res (image T) :=
    let '(t, b, l, r) := w in
    if (t <? 0)%Z || (b <? 0)%Z || (l <? 0)%Z || (r <? 0)%Z then Err ValueError else
    Ok (mkimg (ih m + t + b)%Z (iw m + l + r)%Z (fun i j =>
      if (t <=? i)%Z && (i <? t + ih m)%Z && (l <=? j)%Z && (j <? l + iw m)%Z
      then px m (i - t) (j - l) else padv m w i j)).

  (** np.pad of a 3-D array with ((t, b), (l, r), (0, 0)): channel by channel.
      Used by utility.py 278-342 (unwarp_color_image_backward), utility.py
      415-434 (cv2_maps). *)
  Definition np_pad3 (padv : image T -> Z * Z * Z * Z -> Z -> Z -> T) (m : cimage T)
      (w : Z * Z * Z * Z) : res (cimage T) :=
    let '(t, b, l, r) := w in
    if (t <? 0)%Z || (b <? 0)%Z || (l <? 0)%Z || (r <? 0)%Z then Err ValueError else
    Ok (mkcimg (ch m + t + b)%Z (cw m + l + r)%Z (cc m) (fun i j k =>
      if (t <=? i)%Z && (i <? t + ch m)%Z && (l <=? j)%Z && (j <? l + cw m)%Z
      then cx m (i - t) (j - l) k else padv (channel m k) w i j)).

  (** Line 319: np.pad of a picture.
      Used by utility.py 278-342 (unwarp_color_image_backward), utility.py
      415-434 (cv2_maps). *)
  Definition pad_picture padv (p : picture T) (w : Z * Z * Z * Z) : res (picture T) :=
    match p with
    | Gray m => m' <- np_pad padv m w ;; Ok (Gray m')
    | Color m => m' <- np_pad3 padv m w ;; Ok (Color m')
    end.

  (** utility.py 320-330: the coordinate matrices (xd_mat, yd_mat). *)
  Definition color_maps (height width : Z) (xcenter0 ycenter0 : T) (l_pad t_pad : Z)
      (list_fact : list T) : image T * image T :=
    let xcenter := xcenter0 +! nofZ l_pad in
    let ycenter := ycenter0 +! nofZ t_pad in
    let xu j := nofZ j -! xcenter in
    let yu i := nofZ i -! ycenter in
    let ru i j := nsqrt (npow (xu j) 2 +! npow (yu i) 2) in
    let fact i j := nsum (mapi (fun k factor => factor *! npow (ru i j) k) list_fact) in
    (mkimg height width (fun i j =>
       nf32 (nclip (xcenter +! fact i j *! xu j) (nofZ 0) (nofZ (width - 1)))),
     mkimg height width (fun i j =>
       nf32 (nclip (ycenter +! fact i j *! yu i) (nofZ 0) (nofZ (height - 1))))).

  (** utility.py 278-342.  [interp] as in unwarp_image_backward. *)
  Definition unwarp_color_image_backward (interp : image T -> T -> T -> T)
      (padv : image T -> Z * Z * Z * Z -> Z -> Z -> T)
      (transform : list T -> res (list T)) (mat : picture T) (xcenter ycenter : T)
      (list_fact : list T) (pad : pad_arg) : res (picture T) :=
    'w <- calc_pad transform pad (pic_h mat) (pic_w mat) xcenter ycenter list_fact ;;
    let '(t_pad, b_pad, l_pad, r_pad) := w in
    mat_pad <- pad_picture padv mat w ;;
    let height := pic_h mat_pad in let width := pic_w mat_pad in
    let maps := color_maps height width xcenter ycenter l_pad t_pad list_fact in
    let sample m i j := interp m (px (snd maps) i j) (px (fst maps) i j) in
    match mat_pad with
    | Gray m => Ok (Gray (mkimg height width (sample m)))
    | Color m =>
        (* np.moveaxis of an empty list fails *)
        if (cc m <=? 0)%Z then Err ValueError else
        Ok (Color (mkcimg height width (cc m) (fun i j k => sample (channel m k) i j)))
    end.

  (** utility.py 415-434: padded image and the maps handed to cv2.remap. *)
  Definition cv2_maps (padv : image T -> Z * Z * Z * Z -> Z -> Z -> T)
      (transform : list T -> res (list T)) (mat : picture T) (xcenter ycenter : T)
      (list_fact : list T) (pad : pad_arg) : res (picture T * image T * image T) :=
    'w <- calc_pad transform pad (pic_h mat) (pic_w mat) xcenter ycenter list_fact ;;
    let '(t_pad, b_pad, l_pad, r_pad) := w in
    mat_pad <- pad_picture padv mat w ;;
    let height := pic_h mat_pad in let width := pic_w mat_pad in
    let xu j := nofZ j -! (xcenter +! nofZ l_pad) in
    let yu i := nofZ i -! (ycenter +! nofZ t_pad) in
    let ru i j := nsqrt (npow (xu j) 2 +! npow (yu i) 2) in
    let fact i j := nsum (mapi (fun k factor => factor *! npow (ru i j) k) list_fact) in
    Ok (mat_pad,
        mkimg height width (fun i j =>
          nf32 (nclip (xcenter +! nofZ l_pad +! fact i j *! xu j) (nofZ 0) (nofZ (width - 1)))),
        mkimg height width (fun i j =>
          nf32 (nclip (ycenter +! nofZ t_pad +! fact i j *! yu i) (nofZ 0) (nofZ (height - 1))))).

  (** utility.py 380-436; [remap mat xmat ymat] is cv2.remap with the chosen
      method and border (mapping_cv2, 345-377, OpenCV installed). *)
  Definition unwarp_image_backward_cv2 (remap : picture T -> image T -> image T -> picture T)
      padv transform mat xcenter ycenter list_fact pad : res (picture T) :=
    'm <- cv2_maps padv transform mat xcenter ycenter list_fact pad ;;
    let '(mat_pad, xd_mat, yd_mat) := m in
    Ok (remap mat_pad xd_mat yd_mat).

  (** utility.py 476-491: the maps used for a video. *)
  Definition video_maps (transform : list T -> res (list T)) (width0 height0 : Z)
      (xcenter0 ycenter0 : T) (list_fact : list T) (pad : pad_arg)
      : res ((Z * Z * Z * Z) * image T * image T) :=
    'w <- calc_pad transform pad height0 width0 xcenter0 ycenter0 list_fact ;;
    let '(t_pad, b_pad, l_pad, r_pad) := w in
    let width := (width0 + l_pad + r_pad)%Z in
    let height := (height0 + t_pad + b_pad)%Z in
    let xcenter := xcenter0 +! nofZ l_pad in
    let ycenter := ycenter0 +! nofZ t_pad in
    let xu j := nofZ j -! xcenter in
    let yu i := nofZ i -! ycenter in
    let ru i j := nsqrt (npow (xu j) 2 +! npow (yu i) 2) in
    let fact i j := nsum (mapi (fun k factor => factor *! npow (ru i j) k) list_fact) in
    Ok (w,
        mkimg height width (fun i j =>
          nf32 (nclip (xcenter +! fact i j *! xu j) (nofZ 0) (nofZ (width - 1)))),
        mkimg height width (fun i j =>
          nf32 (nclip (ycenter +! fact i j *! yu i) (nofZ 0) (nofZ (height - 1))))).

  (** The video loop, utility.py 492-514.  [reads k] is the result of the k-th
      cam_obj.read(); [key k] the value of cv2.waitKey after the k-th shown
      frame.  The state holds the number of reads so far, the frames shown
      (latest first), and how the loop stands. *)
  Inductive vstatus := Running | Released | Raised (e : exn).
  (** What unwarp_video_cv2 has done so far: frames read, frames shown, and
      where it stands (utility.py 492-514). *)
  Record vstate := mkv { v_reads : nat; v_shown : list (picture T); v_status : vstatus }.

  (** frame.ndim == 2 (utility.py 492-514). *)
  Definition is_gray (p : picture T) : bool := match p with Gray _ => true | Color _ => false end.
  (** Two frames of the same kind (utility.py 492-514). *)
  Definition same_dim (p q : picture T) : bool := Bool.eqb (is_gray p) (is_gray q).

  (** Line 502: [(pad is False) or (pad == 0)].
      (utility.py 492-514.) *)
  Definition no_pad (pad : pad_arg) : bool :=
    match pad with
    | PadBool b => negb b
    | PadInt p => (p =? 0)%Z
    | _ => false
    end.

  (** One iteration of the while loop (499-512).
      (utility.py 492-514.) *)
  Definition vstep (remap : picture T -> image T -> image T -> picture T) padv
      (reads : nat -> option (picture T)) (key : nat -> Z) (pad : pad_arg)
      (w : Z * Z * Z * Z) (xd yd : image T) (s : vstate) : vstate :=
    match v_status s with
    | Running =>
        let s1 n sh st := mkv n sh st in
        match reads (v_reads s) with
        | None => s1 (S (v_reads s)) (v_shown s) Running
        | Some frame =>
            let show u :=
              s1 (S (v_reads s)) (u :: v_shown s)
                 (if (key (List.length (v_shown s)) =? 27)%Z then Released else Running) in
            if no_pad pad then show (remap frame xd yd) else
            match reads O with
            | None => s1 (S (v_reads s)) (v_shown s) (Raised UnboundLocalError)
            | Some f0 =>
                if negb (same_dim f0 frame)
                then s1 (S (v_reads s)) (v_shown s) (Raised ValueError)
                else match pad_picture padv frame w with
                     | Err e => s1 (S (v_reads s)) (v_shown s) (Raised e)
                     | Ok fp => show (remap fp xd yd)
                     end
            end
        end
    | _ => s
    end.

  (** State after n iterations; the first read (492) is dropped.
      (utility.py 492-514.) *)
  Fixpoint vrun remap padv reads key pad w xd yd (n : nat) : vstate :=
    match n with
    | O => mkv 1 [] Running
    | S k => vstep remap padv reads key pad w xd yd (vrun remap padv reads key pad w xd yd k)
    end.

  (** The whole of unwarp_video_cv2 observed after n loop iterations.
      (utility.py 439-514.) *)
  Definition unwarp_video_cv2 remap padv transform reads key width0 height0
      xcenter ycenter list_fact pad (n : nat) : res vstate :=
    'm <- video_maps transform width0 height0 xcenter ycenter list_fact pad ;;
    let '(w, xd, yd) := m in
    Ok (vrun remap padv reads key pad w xd yd n).
End Util.
