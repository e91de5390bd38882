(** Model of discorpy/prep/preprocessing.py: functions on images
    (lines 50-558, 816-997).  Library routines (median filter, FFT
    filter, Otsu threshold, border clearing, opening, hole filling, labelling,
    region properties, Radon transform, np.polyfit, argsort) are parameters. *)
From Coq Require Import ZArith.
From Verif Require Import Base Num Img Post.
Local Open Scope Z_scope.

(** mat[a:b, c:d]
    Used by preprocessing.py 161-191 (select_roi), preprocessing.py 102-128
    (apply_fft_filter), linepattern.py 512-567 (get_tilted_profile). *)
Definition slice2 {T} (m : image T) (a b c d : Z) : image T :=
  let a' := slice_bound (ih m) a in let b' := slice_bound (ih m) b in
  let c' := slice_bound (iw m) c in let d' := slice_bound (iw m) d in
  mkimg (Z.max 0 (b' - a')) (Z.max 0 (d' - c')) (fun i j => px m (a' + i) (c' + j)).
(** An operation on every element of an array; used by preprocessing.py 67-73
    (normalize_by), preprocessing.py 194-213 (invert_dots_contrast),
    preprocessing.py 216-248 (binarization) and others. *)
Definition img_map {A B} (f : A -> B) (m : image A) : image B :=
  mkimg (ih m) (iw m) (fun i j => f (px m i j)).
(** All pixels, row by row (ndarray.flatten).
    Used by preprocessing.py 67-73 (normalize_by), preprocessing.py 194-213
    (invert_dots_contrast), preprocessing.py 308-329 (check_dot_size) and
    others. *)
Definition pixels {T} (m : image T) : list T := map (fun p => px m (fst p) (snd p)) (grid (ih m) (iw m)).

(** A bounding box, half open: rows r0..r1-1, columns c0..c1-1.
    Used by preprocessing.py 332-360 (select_dots_based_size),
    preprocessing.py 394-419 (select_dots_based_ratio), preprocessing.py
    422-457 (select_dots_based_distance). *)
Record box := mkbox { r0 : Z; r1 : Z; c0 : Z; c1 : Z }.
(** A pixel is inside a bounding box; used by preprocessing.py 332-360
    (select_dots_based_size), preprocessing.py 394-419
    (select_dots_based_ratio), preprocessing.py 422-457
    (select_dots_based_distance). *)
Definition in_box (b : box) (i j : Z) : bool := (r0 b <=? i) && (i <? r1 b) && (c0 b <=? j) && (j <? c1 b).
(** mat[dot]
    Used by preprocessing.py 332-360 (select_dots_based_size),
    preprocessing.py 394-419 (select_dots_based_ratio). *)
Definition crop {T} (m : image T) (b : box) : image T :=
  mkimg (Z.max 0 (r1 b - r0 b)) (Z.max 0 (c1 b - c0 b)) (fun i j => px m (r0 b + i) (c0 b + j)).
(** Positions with label k.
    Used by preprocessing.py 332-360 (select_dots_based_size),
    preprocessing.py 394-419 (select_dots_based_ratio), preprocessing.py
    422-457 (select_dots_based_distance) and others. *)
Definition region (lab : image Z) (k : Z) : list (Z * Z) :=
  filter (fun p => px lab (fst p) (snd p) =? k) (grid (ih lab) (iw lab)).
(** Smallest of some indices; used by preprocessing.py 332-360
    (select_dots_based_size), preprocessing.py 394-419
    (select_dots_based_ratio), preprocessing.py 422-457
    (select_dots_based_distance). *)
Definition zmin_list (l : list Z) : Z := match l with [] => 0 | x :: l' => fold_left Z.min l' x end.
(** Largest of some indices; used by preprocessing.py 332-360
    (select_dots_based_size), preprocessing.py 394-419
    (select_dots_based_ratio), preprocessing.py 422-457
    (select_dots_based_distance) and others. *)
Definition zmax_list (l : list Z) : Z := match l with [] => 0 | x :: l' => fold_left Z.max l' x end.
(** One element of ndi.find_objects; a label without pixels does not occur.
    Used by preprocessing.py 332-360 (select_dots_based_size),
    preprocessing.py 394-419 (select_dots_based_ratio), preprocessing.py
    422-457 (select_dots_based_distance). *)
Definition bbox (lab : image Z) (k : Z) : box :=
  let r := region lab k in
  match r with
  | [] => mkbox 0 0 0 0
  | _ => mkbox (zmin_list (map fst r)) (zmax_list (map fst r) + 1) (zmin_list (map snd r)) (zmax_list (map snd r) + 1)
  end.

Section PrepImg.
  Context {T : Type} {N : Num T}.
  Local Open Scope num_scope.
  Notation pnt := (T * T)%type.

  (** *** Sorting, median *)
  (** Stable insertion: sorted(.., key=key) and, for numbers, np.sort.
      Used by preprocessing.py 601-668 (group_dots_hor_lines),
      preprocessing.py 671-740 (group_dots_ver_lines), preprocessing.py
      1144-1226 (group_dots_hor_lines_based_polyfit) and others. *)
  Fixpoint insert_key {A} (key : A -> T) (x : A) (l : list A) : list A :=
    match l with
    | [] => [x]
    | y :: l' => if key x <?! key y then x :: l else y :: insert_key key x l'
    end.
  (** sorted(l, key=key), stable; used by preprocessing.py 601-668
      (group_dots_hor_lines), preprocessing.py 671-740 (group_dots_ver_lines),
      preprocessing.py 1144-1226 (group_dots_hor_lines_based_polyfit) and
      others. *)
  Definition sorted {A} (key : A -> T) (l : list A) : list A :=
    fold_left (fun acc x => insert_key key x acc) l [].
  (** np.sort of numbers; used by preprocessing.py 274-305 (calc_size_distance),
      preprocessing.py 422-457 (select_dots_based_distance), preprocessing.py
      816-853 (calculate_threshold) and others. *)
  Definition nsort (l : list T) : list T := sorted (fun x => x) l.
  (** np.median of a 1-D array (NaN when empty).
      Used by preprocessing.py 274-305 (calc_size_distance), preprocessing.py
      1144-1226 (group_dots_hor_lines_based_polyfit), preprocessing.py
      1323-1404 (group_dots_ver_lines_based_polyfit). *)
  Definition median (l : list T) : T :=
    let s := nsort l in let n := List.length l in
    match n with
    | O => n0 /! n0
    | _ => if Nat.even n then (nth (Nat.div2 n - 1) s n0 +! nth (Nat.div2 n) s n0) /! nofZ 2
           else nth (Nat.div2 n) s n0
    end.
  (** np.mean; used by preprocessing.py 67-73 (normalize_by), preprocessing.py
      485-507 (slope_from), preprocessing.py 601-668 (group_dots_hor_lines) and
      others. *)
  Definition mean (l : list T) : T := nsum l /! nofZ (Z.of_nat (List.length l)).

  (** *** Normalisation *)
  (** Element-wise mean_val * mat / mat_bck on arrays: never raises.
      Used by preprocessing.py 67-73 (normalize_by). *)
  Definition arr_muldiv (v : T) (mat bck : image T) : res (image T) :=
    Ok (mkimg (ih mat) (iw mat) (fun i j => v *! px mat i j /! px bck i j)).
  (** preprocessing.py 67-73 and 152-158, given the background. *)
  Definition normalize_by (mat mat_bck : image T) : res (image T) :=
    let mean_val := mean (pixels mat_bck) in
    match arr_muldiv mean_val mat mat_bck with
    | Err ZeroDivisionError =>
        arr_muldiv mean_val mat (img_map (fun v => if v =?! n0 then mean_val else v) mat_bck)
    | r => r
    end.
  (** preprocessing.py 50-73 normalization *)
  Definition normalization (median_filter : image T -> Z -> image T) (mat : image T) (size : Z) : res (image T) :=
    normalize_by mat (median_filter mat size).
  (** preprocessing.py 131-158 normalization_fft; [fft_filter] is
      _apply_fft_filter (102-128). *)
  Definition normalization_fft (fft_filter : image T -> T -> Z -> image T) (mat : image T) (sigma : T) (pad : Z)
    : res (image T) := normalize_by mat (fft_filter mat sigma pad).

  (** *** Region of interest, contrast, binarization *)
  (** preprocessing.py 161-191 _select_roi *)
  Definition select_roi (mat : image T) (ratio : T) (square : bool) : image T :=
    let height := ih mat in let width := iw mat in
    let ratio := nclip ratio (nofQ 5 100) n1 in
    if square then
      let c_hei := height / 2 in
      let c_wid := width / 2 in
      let radi := ntrunc (ratio *! nofZ (Z.min height width)) / 2 in
      slice2 mat (c_hei - radi) (c_hei + radi) (c_wid - radi) (c_wid + radi)
    else
      let depad_hei := ntrunc ((nofZ height -! ratio *! nofZ height) /! nofZ 2) in
      let depad_wid := ntrunc ((nofZ width -! ratio *! nofZ width) /! nofZ 2) in
      slice2 mat depad_hei (height - depad_hei) depad_wid (width - depad_wid).
  (** preprocessing.py 194-213 _invert_dots_contrast (np.max raises on an
      empty array). *)
  Definition invert_dots_contrast (mat : image T) : res (image T) :=
    let ratio := nsum (pixels mat) /! nofZ (ih mat * iw mat) in
    max_val <- namax (pixels mat) ;;
    Ok (if nofQ 1 2 <?! ratio then img_map (fun v => max_val -! v) mat else mat).
  (** preprocessing.py 216-248 binarization *)
  Definition binarization (median22 : image T -> image T) (otsu : image T -> T)
      (clear_border opening fill_holes : image T -> image T)
      (mat : image T) (ratio : T) (thres : option T) (denoise : bool) : res (image T) :=
    let mat := if denoise then median22 (img_map nabs mat) else mat in
    let thres := match thres with Some t => t | None => otsu (select_roi mat ratio false) end in
    let mat := img_map (fun v => if thres <?! v then n1 else n0) mat in
    mat <- invert_dots_contrast mat ;;
    Ok (fill_holes (opening (clear_border mat))).

  (** *** Labelled dots *)
  (** np.int16(mat)
      Used by preprocessing.py 274-305 (calc_size_distance), preprocessing.py
      332-360 (select_dots_based_size), preprocessing.py 394-419
      (select_dots_based_ratio) and others. *)
  Definition to_int16 (m : image T) : image T := img_map (fun v => nofZ (wrap16 (ntrunc v))) m.
  (** ndi.label: label image and number of labels. *)
  Variable label : image T -> image Z * Z.
  (** preprocessing.py 251-271 check_num_dots *)
  Definition check_num_dots (mat : image T) : bool :=
    let num_dots := snd (label mat) in if (num_dots <? 5 * 5)%Z then true else false.

  (** ndi.sum(mat, labels=lab, index=k) and one element of center_of_mass
      Used by preprocessing.py 274-305 (calc_size_distance). *)
  Definition label_sum (mat : image T) (lab : image Z) (k : Z) : T :=
    nsum (map (fun p => px mat (fst p) (snd p)) (region lab k)).
  (** One element of ndi.center_of_mass; used by preprocessing.py 274-305
      (calc_size_distance), preprocessing.py 422-457
      (select_dots_based_distance), preprocessing.py 460-508 (calc_hor_slope)
      and others. *)
  Definition center_of_mass (mat : image T) (lab : image Z) (k : Z) : pnt :=
    let r := region lab k in
    let s := label_sum mat lab k in
    (nsum (map (fun p => px mat (fst p) (snd p) *! nofZ (fst p)) r) /! s,
     nsum (map (fun p => px mat (fst p) (snd p) *! nofZ (snd p)) r) /! s).
  (** center_of_mass(mat, labels=mat_label, index=np.arange(1, num_dots + 1))
      Used by preprocessing.py 274-305 (calc_size_distance), preprocessing.py
      422-457 (select_dots_based_distance), preprocessing.py 460-508
      (calc_hor_slope) and others. *)
  Definition centers (mat : image T) (lab : image Z) (num : Z) : list pnt :=
    map (center_of_mass mat lab) (zrange 1 (num + 1)).
  (** np.sqrt((a0 - l[:, 0]) ** 2 + (a1 - l[:, 1]) ** 2)
      Used by preprocessing.py 274-305 (calc_size_distance), preprocessing.py
      422-457 (select_dots_based_distance). *)
  Definition distances (a : pnt) (l : list pnt) : list T :=
    map (fun b : pnt => nsqrt (npow (fst a -! fst b) 2 +! npow (snd a -! snd b) 2)) l.

  (** preprocessing.py 274-305 calc_size_distance *)
  Definition calc_size_distance (clear_border : image T -> image T) (mat : image T) (ratio : T) : res (T * T) :=
    let mat := select_roi mat ratio false in
    let mat := to_int16 (clear_border mat) in
    let (mat_label, num_dots) := label mat in
    let list_sum := map (label_sum mat mat_label) (zrange 1 (num_dots + 1)) in
    let dot_size := median list_sum in
    let list_cent := centers mat mat_label num_dots in
    list_dist <- mapM (fun dot => pyget (nsort (distances dot list_cent)) 1) list_cent ;;
    Ok (dot_size, median list_dist).

  (** preprocessing.py 308-329 _check_dot_size *)
  Definition check_dot_size (mat : image T) (min_size max_size : T) : bool :=
    let dot_size := nsum (pixels mat) in
    (min_size <=?! dot_size) && (dot_size <=?! max_size).
  (** mat1[j] = mat[j] for the accepted boxes
      Used by preprocessing.py 332-360 (select_dots_based_size),
      preprocessing.py 394-419 (select_dots_based_ratio), preprocessing.py
      422-457 (select_dots_based_distance). *)
  Definition paste (cast : T -> T) (mat : image T) (mat1 : image T) (b : box) : image T :=
    mkimg (ih mat1) (iw mat1) (fun i j => if in_box b i j then cast (px mat i j) else px mat1 i j).
  (** np.zeros_like; used by preprocessing.py 332-360 (select_dots_based_size),
      preprocessing.py 394-419 (select_dots_based_ratio), preprocessing.py
      422-457 (select_dots_based_distance). *)
  Definition zeros_like (m : image T) : image T := mkimg (ih m) (iw m) (fun _ _ => n0).
  (** preprocessing.py 332-360 select_dots_based_size *)
  Definition select_dots_based_size (mat : image T) (dot_size ratio : T) : image T :=
    let min_size := nmax (dot_size -! ratio *! dot_size) n0 in
    let max_size := dot_size +! ratio *! dot_size in
    let (mat_label, num) := label (to_int16 mat) in
    let list_dots := map (bbox mat_label) (zrange 1 (num + 1)) in
    let dots_selected := filter (fun dot => check_dot_size (crop mat dot) min_size max_size) list_dots in
    fold_left (paste (fun v => nofZ (wrap16 (ntrunc v))) mat) dots_selected (zeros_like mat).

  (** meas.regionprops(mat)[0]: minor and major axis length *)
  Variable axes : image T -> T * T.
  (** preprocessing.py 363-391 _check_axes_ratio *)
  Definition check_axes_ratio (mat : image T) (ratio : T) : bool :=
    let height := ih mat in let width := iw mat in
    if (height <? 2)%Z || (width <? 2)%Z then false else
    let (minor_axis, major_axis) := axes mat in
    if (1 <? height)%Z && (1 <? width)%Z then
      let val := nabs (major_axis /! minor_axis -! n1) in
      if val <?! ratio then true else false
    else false.
  (** preprocessing.py 394-419 select_dots_based_ratio *)
  Definition select_dots_based_ratio (mat : image T) (ratio : T) : image T :=
    let mat := to_int16 mat in
    let (mat_label, num) := label mat in
    let list_dots := map (bbox mat_label) (zrange 1 (num + 1)) in
    let dots_selected := filter (fun dot => check_axes_ratio (crop mat dot) ratio) list_dots in
    fold_left (paste (fun v => v) mat) dots_selected (zeros_like mat).

  (** preprocessing.py 451-455: the test for one dot with distances [dist].
      [a // b] is modelled as floor(a / b); numpy computes it from fmod, which
      in double precision can give one less when a / b rounds up to an integer
      (1.0 // 0.1 is 9).  For exact numbers the two agree. *)
  Definition distance_ok (dist : list T) (dot_dist ratio : T) : bool :=
    existsb (fun d =>
      let num := nofZ (nfloor (d /! dot_dist)) in
      let dist_error := (d -! num *! dot_dist) /! dot_dist in
      dist_error <?! ratio) dist.
  (** preprocessing.py 422-457 select_dots_based_distance *)
  Definition select_dots_based_distance (mat : image T) (dot_dist ratio : T) : image T :=
    let mat := to_int16 mat in
    let (mat_label, num_dots) := label mat in
    let list_dots := map (bbox mat_label) (zrange 1 (num_dots + 1)) in
    let list_cent := centers mat mat_label num_dots in
    let list_dist := map (fun dot => firstn 3 (skipn 1 (nsort (distances dot list_cent)))) list_cent in
    fold_left (fun mat1 jd => if distance_ok (snd jd) dot_dist ratio then paste (fun v => v) mat mat1 (fst jd) else mat1)
      (combine list_dots list_dist) (zeros_like mat).

  (** *** Slopes *)
  (** [radon_max m angles] is np.amax(radon(m, theta=angles, circle=False), axis=0). *)
  Variables (radon_max : image T -> list T -> list T) (tan_ cos_ : T -> T) (pi_ : T).
  Variable argsort : list T -> list nat.
  (** np.polyfit(x, y, 1)[0] *)
  Variable slope_fit : list T -> list T -> T.
  (** np.argmax after the first element: the first of the largest values; used
      by preprocessing.py 460-508 (calc_hor_slope), preprocessing.py 511-558
      (calc_ver_slope). *)
  Fixpoint argmax_from (i best : nat) (m : T) (l : list T) : nat :=
    match l with
    | [] => best
    | x :: l' => if m <?! x then argmax_from (S i) i x l' else argmax_from (S i) best m l'
    end.
  (** np.argmax; used by preprocessing.py 460-508 (calc_hor_slope),
      preprocessing.py 511-558 (calc_ver_slope). *)
  Definition nargmax (l : list T) : nat := match l with [] => O | x :: l' => argmax_from 1 0 x l' end.
  (** np.arange(-30.0, 31.0)
      Used by preprocessing.py 460-508 (calc_hor_slope), preprocessing.py
      511-558 (calc_ver_slope). *)
  Definition coarse_angles : list T := map nofZ (zrange (-30) 31).
  (** preprocessing.py 485-507 and 534-557: the dots near the line of the
      given slope through the dot nearest to the mean, and the final slope.
      Dots are (y, x); an empty array has one axis, so the column access
      ([calc_hor_slope]) or np.fliplr ([calc_ver_slope]) raises [err].  The
      float32 arrays of ones (496-501) multiplying numbers are left out. *)
  Definition slope_from (err : exn) (list_cent : list pnt) (line_slope dist_error : T) : res T :=
    match list_cent with
    | [] => Err err
    | _ =>
        let mean_x := mean (map snd list_cent) in
        let mean_y := mean (map fst list_cent) in
        let dist_mid := map (fun c : pnt => nsqrt (npow (mean_x -! snd c) 2 +! npow (mean_y -! fst c) 2)) list_cent in
        index_mid_dot <- pyget (map Z.of_nat (argsort dist_mid)) 0 ;;
        used_dot <- pyget list_cent index_mid_dot ;;
        let tmp := nsqrt (npow line_slope 2 +! n1) in
        let tmp2 := fst used_dot -! line_slope *! snd used_dot in
        let dots_selected := filter (fun c : pnt =>
          nabs (line_slope *! snd c -! fst c +! tmp2) /! tmp <?! dist_error) list_cent in
        Ok (if (1 <? Z.of_nat (List.length dots_selected))%Z
            then slope_fit (map snd dots_selected) (map fst dots_selected)
            else line_slope)
    end.
  (** preprocessing.py 460-508 calc_hor_slope *)
  Definition calc_hor_slope (clear_border : image T -> image T) (mat : image T) (ratio : T) : res T :=
    let radi := pi_ /! nofZ 180 in
    let mat := to_int16 (clear_border (select_roi mat ratio false)) in
    let list_angle := map (fun a => nofZ 90 +! a) coarse_angles in
    let best := nth (nargmax (radon_max mat list_angle)) list_angle n0 in
    let best_angle := nopp (best -! nofZ 90) in
    let dist_error := nofQ 1 2 *! nofZ (iw mat) *! (tan_ radi /! cos_ (best_angle *! radi)) in
    let (mat_label, num_dots) := label mat in
    let list_cent := map (fun c : pnt => (nopp (fst c), nopp (snd c))) (centers mat mat_label num_dots) in
    slope_from IndexError list_cent (tan_ (best_angle *! radi)) dist_error.
  (** preprocessing.py 511-558 calc_ver_slope *)
  Definition calc_ver_slope (clear_border : image T -> image T) (mat : image T) (ratio : T) : res T :=
    let radi := pi_ /! nofZ 180 in
    let mat := to_int16 (clear_border (select_roi mat ratio false)) in
    let list_angle := coarse_angles in
    let best_angle := nth (nargmax (radon_max mat list_angle)) list_angle n0 in
    let dist_error := nofQ 1 2 *! nofZ (iw mat) *! tan_ radi /! cos_ (best_angle *! radi) in
    let (mat_label, num_dots) := label mat in
    let list_cent := map (fun c : pnt => (snd c, fst c)) (centers mat mat_label num_dots) in
    slope_from ValueError list_cent (tan_ (best_angle *! radi)) dist_error.

  (** preprocessing.py 966-997 get_points_dot_pattern; [binarize] is
      binarization with the remaining arguments. *)
  Definition get_points_dot_pattern (binarize_fun : image T -> res (image T)) (mat : image T) (binarize : bool)
    : res (list pnt) :=
    mat <- (if binarize then binarize_fun mat
            else mx <- namax (pixels mat) ;; mn <- namin (pixels mat) ;;
                 if negb (mx =?! n1) || negb (mn =?! n0) then Err ValueError else Ok mat) ;;
    let (mat_label, num_dots) := label (to_int16 mat) in
    Ok (centers mat mat_label num_dots).

  (** *** Threshold *)
  (** list[a:b]
      Used by preprocessing.py 816-853 (calculate_threshold), linepattern.py
      136-151 (good_peak), linepattern.py 155-192 (sliding_window_slope) and
      others. *)
  Definition lslice {A} (l : list A) (a b : Z) : list A :=
    let n := Z.of_nat (List.length l) in
    let a' := slice_bound n a in let b' := slice_bound n b in
    firstn (Z.to_nat (b' - a')) (skipn (Z.to_nat a') l).
  (** preprocessing.py 816-853 calculate_threshold.  [zoom l m] is
      ndi.zoom(l, 1.0 * m / len(l), mode='nearest'); [fit1] is
      np.polyfit(.., .., 1) as (slope, intercept), which raises on empty
      input. *)
  Definition calculate_threshold (zoom : list T -> Z -> list T) (fit1 : list T -> list T -> res (T * T))
      (mat : image T) (bright : bool) (snr : T) : res T :=
    let size := Z.max (ih mat) (iw mat) in
    let list_sort := nsort (pixels mat) in
    let list_dsp := zoom list_sort size in
    let npoint := Z.of_nat (List.length list_dsp) in
    let xlist := map nofZ (zrange 0 npoint) in
    let ndrop := ntrunc (nofQ 1 4 *! nofZ npoint) in
    si <- fit1 (lslice xlist ndrop (- ndrop - 1)%Z) (lslice list_dsp ndrop (- ndrop - 1)%Z) ;;
    let (slope, intercept) := si : T * T in
    xlast <- pyget xlist (-1) ;;
    let y_end := intercept +! slope *! xlast in
    let noise_level := nabs (y_end -! intercept) in
    Ok (if bright then intercept -! noise_level *! snr *! nofQ 1 2
        else y_end +! noise_level *! snr *! nofQ 1 2).

  (** *** Parabolic mask *)
  (** A margin: a number, or a tuple/list.
      Used by preprocessing.py 856-918 (make_parabola_mask), preprocessing.py
      921-963 (remove_points_using_parabola_mask). *)
  Inductive margin := MOne (v : T) | MSeq (l : list T).
  (** margin as one number or margin[0], margin[-1]; used by preprocessing.py
      856-918 (make_parabola_mask). *)
  Definition margin_ends (m : margin) : res (T * T) :=
    match m with
    | MOne v => Ok (v, v)
    | MSeq l => a <- pyget l 0 ;; b <- pyget l (-1) ;; Ok (a, b)
    end.
  (** np.float32(bool array)
      Used by preprocessing.py 856-918 (make_parabola_mask). *)
  Definition bool01 (b : bool) : T := if b then n1 else n0.
  (** preprocessing.py 856-918 make_parabola_mask; [rot] is ndi.rotate(..,
      reshape=False).  Python float / 0 raises ZeroDivisionError. *)
  Definition make_parabola_mask (rot : image T -> T -> image T) (height width : Z)
      (hor_curviness ver_curviness : T) (hor_margin ver_margin : margin) (rotate : T) : res (image T) :=
    tb <- margin_ends ver_margin ;;
    let (top_margin, bot_margin) := tb : T * T in
    lr <- margin_ends hor_margin ;;
    let (left_margin, right_margin) := lr : T * T in
    if nofZ width <?! left_margin +! right_margin then Err ValueError else
    if nofZ height <?! top_margin +! bot_margin then Err ValueError else
    if (width =? 0)%Z then Err ZeroDivisionError else
    if (height =? 0)%Z then Err ZeroDivisionError else
    let mask_top y x := bool01 (ver_curviness /! nofZ width *! npow (nofZ x -! nofZ width /! nofZ 2) 2 +! top_margin <?! nofZ y) in
    let mask_bot y x := bool01 (nofZ y <?! nopp (ver_curviness /! nofZ width) *! npow (nofZ x -! nofZ width /! nofZ 2) 2 +! nofZ height -! bot_margin) in
    let mask_left y x := bool01 (hor_curviness /! nofZ height *! npow (nofZ y -! nofZ height /! nofZ 2) 2 +! left_margin <?! nofZ x) in
    let mask_right y x := bool01 (nofZ x <?! nopp (hor_curviness /! nofZ height) *! npow (nofZ y -! nofZ height /! nofZ 2) 2 +! nofZ width -! right_margin) in
    let mask := mkimg height width (fun y x => mask_bot y x *! mask_top y x *! mask_left y x *! mask_right y x) in
    let mask := if negb (rotate =?! n0) then img_map (fun v => nofZ (nrint v)) (rot mask rotate) else mask in
    Ok (img_map nf32 mask).
  (** mask[y, x] with integer arrays as indices (one element)
      Used by preprocessing.py 921-963 (remove_points_using_parabola_mask). *)
  Definition fancy {A} (m : image A) (y x : Z) : res A :=
    let y' := if (y <? 0)%Z then (y + ih m)%Z else y in
    let x' := if (x <? 0)%Z then (x + iw m)%Z else x in
    if (y' <? 0)%Z || (ih m <=? y')%Z || (x' <? 0)%Z || (iw m <=? x')%Z then Err IndexError else Ok (px m y' x').
  (** preprocessing.py 921-963 remove_points_using_parabola_mask.  np.int32
      truncates (coordinates are taken to fit 32 bits). *)
  Definition remove_points_using_parabola_mask (rot : image T -> T -> image T) (points : list pnt) (height width : Z)
      (hor_curviness ver_curviness : T) (hor_margin ver_margin : margin) (rotate : T) : res (list pnt) :=
    mask <- make_parabola_mask rot height width hor_curviness ver_curviness hor_margin ver_margin rotate ;;
    vals <- mapM (fun p : pnt => fancy mask (ntrunc (fst p)) (ntrunc (snd p))) points ;;
    Ok (map fst (filter (fun pv : pnt * T =>
          let y := ntrunc (fst (fst pv)) in let x := ntrunc (snd (fst pv)) in
          (0 <=? y)%Z && (y <? height)%Z && (0 <=? x)%Z && (x <? width)%Z && (snd pv =?! n1))
        (combine points vals))).
End PrepImg.
