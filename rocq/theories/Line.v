(** Model of discorpy/prep/linepattern.py.  External routines are parameters:
    np.polyfit, argsort, scipy's curve_fit, Gaussian filters, spline
    interpolation, skimage's radon, and the transcendental functions.  Input
    arrays hold floats unless stated otherwise.  The string options are
    booleans: every value other than the one tested for acts as the other
    branch. *)
From Coq Require Import ZArith.
From Verif Require Import Base Num Img Post PrepImg PrepPts Proc.
Local Open Scope Z_scope.

Section Line.
  Context {T : Type} {N : Num T}.
  Local Open Scope num_scope.
  Notation pnt := (T * T)%type.

  (** np.arange(n)
      Used by linepattern.py 46-72 (locate_subpixel_point), linepattern.py
      155-192 (sliding_window_slope), linepattern.py 237-253
      (normalize_profile). *)
  Definition iota (n : nat) : list T := map nofZ (zrange 0 (Z.of_nat n)).
  (** np.arange(start, stop, step); ValueError when the length is not a
      number ("arange: cannot compute length", "Maximum allowed size
      exceeded").  A zero step given as a Python float raises
      ZeroDivisionError instead.
      Used by linepattern.py 604-681 (get_cross_points_hor_lines),
      linepattern.py 684-761 (get_cross_points_ver_lines). *)
  Definition arange_chk (start stop step : T) : res (list T) :=
    let q := (stop -! start) /! step in
    if negb (q =?! q) || (step =?! n0) then Err ValueError else Ok (narange start stop step).
  (** np.linspace(0, stop, num)
      Used by linepattern.py 512-567 (get_tilted_profile). *)
  Definition linspace0 (stop : T) (num : Z) : list T :=
    let delta := stop -! n0 in
    let y := if (0 <? num - 1)%Z then
               let step := delta /! nofZ (num - 1) in
               map (fun k => if step =?! n0 then k /! nofZ (num - 1) *! delta else k *! step) (iota (Z.to_nat num))
             else map (fun k => k *! delta) (iota (Z.to_nat num)) in
    let y := map (fun v => v +! n0) y in
    if (1 <? num)%Z then removelast y ++ [stop] else y.

  Variable polyfit : list T -> list T -> nat -> res (list T).
  (** linepattern.py 46-72 locate_subpixel_point; an index is returned as a number *)
  Definition locate_subpixel_point (list_point : list T) (find_min : bool) : res T :=
    let num_point := List.length list_point in
    f <- polyfit (iota num_point) list_point 2 ;;
    match f with
    | [a; b; _] =>
        pos <- (if find_min then argmin list_point else argmax list_point) ;;
        Ok (if negb (a =?! n0) then
              let num := nopp b /! (nofZ 2 *! a) in
              if (n0 <=?! num) && (num <?! nofZ (Z.of_nat num_point)) then num else nofZ pos
            else nofZ pos)
    | _ => Err ValueError
    end.

  Variable exp_ : T -> T.
  (** [curve_fit xs ys]: the four parameters found by scipy's curve_fit for
      __gauss_function, or None when it raises (the code catches everything) *)
  Variable curve_fit : list T -> list T -> option (T * T * T * T).
  (** linepattern.py 75-77 __gauss_function *)
  Definition gauss_function (x a b c d : T) : T :=
    a *! exp_ (nopp (npow ((x -! c) /! (nofZ 2 *! npow b 2)) 2)) +! d.
  (** linepattern.py 80-102 _get_gauss_peak_fit: fitted data, position,
      offset, success *)
  Definition get_gauss_peak_fit (list_data : list T) : list T * T * T * bool :=
    let npoint := Z.of_nat (List.length list_data) in
    let list_x := map (fun i => nofZ (i - npoint / 2)) (zrange 0 npoint) in
    match curve_fit list_x list_data with
    | Some (a, b, c, d) => (map (fun x => gauss_function x a b c d) list_x, c, d, true)
    | None => (list_data, hd n0 list_x, n1, false)
    end.
  (** np.std
      Used by linepattern.py 136-151 (good_peak). *)
  Definition std (l : list T) : T :=
    let m := mean l in nsqrt (mean (map (fun v => npow (nabs (v -! m)) 2) l)).
  (** np.percentile(l, 80): linear interpolation between order statistics
      Used by linepattern.py 136-151 (good_peak). *)
  Definition percentile80 (l : list T) : T :=
    let s := nsort l in let n := Z.of_nat (List.length l) in
    let v := nofZ (n - 1) *! (nofZ 80 /! nofZ 100) in
    if nofZ (n - 1) <=?! v then nth (Z.to_nat (n - 1)) s n0 else
    let i := nfloor v in
    let a := nth (Z.to_nat i) s n0 in let b := nth (Z.to_nat (i + 1)) s n0 in
    let t := v -! nofZ i in
    if nofQ 1 2 <=?! t then b -! (b -! a) *! (n1 -! t) else a +! (b -! a) *! t.
  (** The test of one peak (linepattern.py 136-151). *)
  Definition good_peak (list_data : list T) (tol : T) (radius : Z) (use_offset : bool) (p : Z) : res bool :=
    let npoint := Z.of_nat (List.length list_data) in
    let half_radius := (radius / 2)%Z in
    let start := Z.max 0 (p - radius) in
    let stop := Z.min npoint (p + radius + 1) in
    if (3 <? stop - start)%Z then
      let list_sub := lslice list_data start stop in
      let sd := std list_sub in
      if negb (sd =?! n0) then
        mn <- namin list_sub ;;
        let list_norm := map (fun v => (v -! mn) /! sd) list_sub in
        let '(fit_data, del_x, offset, check) := get_gauss_peak_fit list_norm in
        let num := percentile80 (map (fun fd : T * T => nabs (fst fd -! snd fd)) (combine fit_data list_norm)) in
        Ok (if check && (nabs del_x <?! nofZ half_radius) && (num <?! tol)
            then if use_offset then nabs offset <?! tol else true
            else false)
      else Ok false
    else Ok false.
  (** scipy.ndimage.gaussian_filter1d(l, sigma) *)
  Variable gaussian_filter1d : list T -> T -> list T.
  (** The loop over the peaks.
      Used by linepattern.py 105-152 (select_good_peaks). *)
  Fixpoint filterM {A} (f : A -> res bool) (l : list A) : res (list A) :=
    match l with
    | [] => Ok []
    | a :: l' => b <- f a ;; r <- filterM f l' ;; Ok (if b : bool then a :: r else r)
    end.
  (** linepattern.py 105-152 select_good_peaks *)
  Definition select_good_peaks (list_data : list T) (peaks : list Z) (tol : T) (radius : Z) (sigma : T) (use_offset : bool)
    : res (list Z) :=
    let list_data := if n0 <?! sigma then gaussian_filter1d list_data sigma else list_data in
    filterM (good_peak list_data tol radius use_offset) peaks.

  (** np.pad(l, (r, r), 'edge')
      Used by linepattern.py 155-192 (sliding_window_slope). *)
  Definition pad_edge (l : list T) (r : Z) : list T :=
    repeat (hd n0 l) (Z.to_nat r) ++ l ++ repeat (last l n0) (Z.to_nat r).
  (** linepattern.py 155-192 sliding_window_slope.  [store]: assignment into
      np.zeros_like(list_data), which truncates when the data are integers *)
  Definition sliding_window_slope (store : T -> T) (list_data : list T) (size : Z) (norm : bool) : res (list T) :=
    let npoint := Z.of_nat (List.length list_data) in
    if (npoint <? 3)%Z then Err ValueError else
    let size := Z.min (Z.max size 3) npoint in
    let size := if (size mod 2 =? 0)%Z then (size + 1)%Z else size in
    let radius := (size / 2)%Z in
    let padded_data := pad_edge list_data radius in
    let x_list := iota (Z.to_nat size) in
    slopes <- mapM (fun i =>
        v <- polyfit x_list (lslice padded_data i (i + size)) 1 ;;
        a <- pyget v 0 ;; Ok (store a)) (zrange 0 npoint) ;;
    let slopes := map nabs slopes in
    Ok (if norm then
          let nmean := mean slopes in
          if negb (nmean =?! n0) then map (fun s => s /! nmean) slopes else slopes
        else slopes).

  Variable argsort : list T -> list nat.
  (** scipy.ndimage.gaussian_filter(l, 3) on a 1-D array *)
  Variable gaussian3_1d : list T -> list T.
  (** linepattern.py 237-253: background normalisation *)
  Definition normalize_profile (list_data : list T) : res (list T) :=
    let num_point := Z.of_nat (List.length list_data) in
    let xlist := iota (List.length list_data) in
    let order := argsort list_data in
    let sort_x := gather xlist order in
    let list_sort := gather list_data order in
    let ndrop := ntrunc (nofQ 1 4 *! nofZ num_point) in
    f <- polyfit (lslice xlist ndrop (- ndrop - 1)%Z) (lslice list_sort ndrop (- ndrop - 1)%Z) 1 ;;
    match f with
    | [a1; a0] =>
        let list_fit := map (fun x => a1 *! x +! a0) xlist in
        xlast <- pyget xlist (-1) ;;
        let l_thres := a0 in let u_thres := a1 *! xlast +! a0 in
        let list_sort := map (fun fs : T * T => if (l_thres <=?! fst fs) && (fst fs <=?! u_thres) then fst fs else snd fs)
                             (combine list_fit list_sort) in
        let nmean := mean (map nabs list_fit) in
        let backgr := gather list_sort (argsort sort_x) in
        Ok (map (fun db : T * T => if negb (snd db =?! n0) then fst db /! snd db else nmean *! n1) (combine list_data backgr))
    | _ => Err ValueError
    end.
  (** linepattern.py 256-261: the test of position i *)
  Definition is_extremum (list_data : list T) (radius : Z) (sensitive : T) (i : Z) : bool :=
    let val := nth (Z.to_nat i) list_data n0 in
    let list_sort := nsort (lslice list_data (i - radius) (i + radius + 1)) in
    let num1 := hd n0 list_sort -! val in
    let nmean := mean (lslice list_sort (- radius) (Z.of_nat (List.length list_sort))) in
    let num2 := if negb (nmean =?! n0) then nabs ((val -! nmean) /! nmean) else n0 in
    (num1 =?! n0) && (sensitive <?! num2).
  (** linepattern.py 229-253: the data searched, and the radius used *)
  Definition extrema_data (list_data : list T) (find_max denoise norm : bool) : res (list T) :=
    let list_data := if denoise then gaussian3_1d list_data else list_data in
    list_data <- (if find_max then mx <- namax list_data ;; Ok (map (fun v => mx -! v) list_data) else Ok list_data) ;;
    if norm then normalize_profile list_data else Ok list_data.
  (** radius = int(np.clip(radius, 1, num_point // 4)); used by linepattern.py
      195-274 (get_local_extrema_points). *)
  Definition extrema_radius (num_point radius : Z) : Z := Z.min (Z.max radius 1) (num_point / 4).
  (** Arguments of select_good_peaks given as keywords: tol, sigma, use_offset
      Used by linepattern.py 254-265 (extrema_points), linepattern.py 195-274
      (get_local_extrema_points), linepattern.py 302-375
      (calc_slope_distance_hor_lines) and others. *)
  Definition peak_args := (T * T * bool)%type.
  (** linepattern.py 254-265: the integer positions; [select] is None for
      select_peaks=False *)
  Definition extrema_points (list_data : list T) (radius : Z) (sensitive : T) (select : option peak_args) : res (list Z) :=
    let num_point := Z.of_nat (List.length list_data) in
    let points := filter (is_extremum list_data radius sensitive) (zrange radius (num_point - radius - 1)) in
    match select with
    | Some (tol, sigma, use_offset) =>
        mx <- namax list_data ;;
        select_good_peaks (map (fun v => mx -! v) list_data) points tol radius sigma use_offset
    | None => Ok points
    end.
  (** linepattern.py 195-274 get_local_extrema_points *)
  Definition get_local_extrema_points (list_data : list T) (find_max : bool) (radius : Z) (sensitive : T)
      (denoise norm subpixel : bool) (select : option peak_args) : res (list T) :=
    data <- extrema_data list_data find_max denoise norm ;;
    let radius := extrema_radius (Z.of_nat (List.length data)) radius in
    points <- extrema_points data radius sensitive select ;;
    if subpixel then
      mapM (fun i => s <- locate_subpixel_point (lslice data (i - 1) (i + 2)) true ;; Ok (nofZ (i - 1) +! s)) points
    else Ok (map nofZ points).

  (** linepattern.py 277-299 _make_circle_mask *)
  Definition make_circle_mask (width : Z) (ratio : T) : image T :=
    let center := (width / 2)%Z in
    let radius := ratio *! nofZ center in
    mkimg width width (fun i j =>
      let y := (i - center)%Z in let x := (j - center)%Z in
      if nofZ (x * x + y * y) <=?! radius *! radius then n1 else n0).

  (** *** Chessboard images *)
  (** np.gradient along an axis of length n >= 2: the value at position k
      Used by linepattern.py 570-601 (convert_chessboard_to_linepattern). *)
  Definition gradient1 (n : Z) (f : Z -> T) (k : Z) : T :=
    if (k =? 0)%Z then (f 1%Z -! f 0%Z) /! n1
    else if (k =? n - 1)%Z then (f (n - 1)%Z -! f (n - 2)%Z) /! n1
    else (f (k + 1)%Z -! f (k - 1)%Z) /! nofZ 2.
  (** np.pad(m[p:-p, p:-p], p, mode="edge"); an empty axis cannot be extended
      Used by linepattern.py 570-601 (convert_chessboard_to_linepattern). *)
  Definition replicate_border (p : Z) (m : image T) : res (image T) :=
    if ((ih m <=? 2 * p) || (iw m <=? 2 * p))%Z then Err ValueError else
    Ok (mkimg (ih m) (iw m) (fun i j => px m (Z.max p (Z.min i (ih m - p - 1))) (Z.max p (Z.min j (iw m - p - 1))))).
  (** scipy.ndimage.gaussian_filter(m, sigma, mode="nearest") *)
  Variable gaussian_nearest : image T -> T -> image T.
  (** linepattern.py 570-601 convert_chessboard_to_linepattern *)
  Definition convert_chessboard_to_linepattern (mat : image T) (smooth bright : bool) (sigma : T) : res (image T) :=
    let mat := if smooth then gaussian_nearest mat sigma else mat in
    if ((ih mat <? 2) || (iw mat <? 2))%Z then Err ValueError else
    let mat_line := mkimg (ih mat) (iw mat) (fun i j =>
      mean [nabs (gradient1 (ih mat) (fun k => px mat k j) i); nabs (gradient1 (iw mat) (fun k => px mat i k) j)]) in
    mat_line <- (if smooth then replicate_border 4 mat_line else replicate_border 2 mat_line) ;;
    mat_line <- (if bright then mx <- namax (pixels mat_line) ;; Ok (img_map (fun v => mx -! v) mat_line) else Ok mat_line) ;;
    let m := mean (pixels (img_map nabs mat_line)) in
    Ok (img_map (fun v => v /! m) mat_line).

  (** *** Slope and distance of lines *)
  (** [radon m angles]: the columns of skimage's radon(m, theta=angles, circle=True) *)
  Variable radon : image T -> list T -> list (list T).
  (** scipy.ndimage.gaussian_filter(m, 3) *)
  Variable gaussian3 : image T -> image T.
  Variables (tan_ sin_ cos_ arctan_ : T -> T) (pi_ : T).
  (** Product of two arrays, element by element; used by linepattern.py 302-375
      (calc_slope_distance_hor_lines), linepattern.py 378-449
      (calc_slope_distance_ver_lines). *)
  Definition img_mul (a b : image T) : image T := mkimg (ih a) (iw a) (fun i j => px a i j *! px b i j).
  (** The angle whose column has the largest maximum, and its column.
      Used by linepattern.py 302-375 (calc_slope_distance_hor_lines),
      linepattern.py 378-449 (calc_slope_distance_ver_lines). *)
  Definition best_column (mat : image T) (angles : list T) : res (T * list T) :=
    let sinogram := radon mat angles in
    list_max <- mapM namax sinogram ;;
    pos_max <- argmax list_max ;;
    angle <- pyget angles pos_max ;;
    column <- pyget sinogram pos_max ;;
    Ok (angle, column).
  (** Lines 371-374, 445-448: representative distance of neighbours
      Used by linepattern.py 302-375 (calc_slope_distance_hor_lines),
      linepattern.py 378-449 (calc_slope_distance_ver_lines). *)
  Definition typical_gap (list_ext_point : list T) : T :=
    let d := map nabs (ndiff list_ext_point) in
    if (3 <? Z.of_nat (List.length list_ext_point))%Z then median d else mean d.
  (** The region searched (lines 345-351, 419-425).
      Used by linepattern.py 302-375 (calc_slope_distance_hor_lines),
      linepattern.py 378-449 (calc_slope_distance_ver_lines). *)
  Definition line_roi (mat : image T) (ratio : T) (bright denoise chessboard : bool) : res (image T) :=
    mat <- (if chessboard then convert_chessboard_to_linepattern mat true true (nofZ 3) else Ok mat) ;;
    let mat := if denoise then gaussian3 mat else mat in
    let mat_roi := select_roi mat ratio true in
    if bright then mx <- namax (pixels mat_roi) ;; Ok (img_map (fun v => mx -! v) mat_roi) else Ok mat_roi.
  (** linepattern.py 302-375 calc_slope_distance_hor_lines *)
  Definition calc_slope_distance_hor_lines (mat : image T) (ratio search_range : T) (radius : Z) (sensitive : T)
      (bright denoise norm subpixel chessboard : bool) (select : option peak_args) : res (T * T) :=
    mat_roi <- line_roi mat ratio bright denoise chessboard ;;
    let angle_coarse := map (fun a => nofZ 90 +! a) (narange (nopp search_range) (search_range +! n1) n1) in
    let mask := make_circle_mask (ih mat_roi) (nofQ 92 100) in
    c1 <- best_column (img_mul mat_roi mask) angle_coarse ;;
    let best_angle1 := fst c1 in
    let angle_fine := narange (best_angle1 -! n1) (best_angle1 +! nofQ 105 100) (nofQ 5 100) in
    c2 <- best_column (img_mul mat_roi mask) angle_fine ;;
    let best_angle2 := nopp (fst c2 -! nofZ 90) in
    let slope := tan_ (best_angle2 *! pi_ /! nofZ 180) in
    list_ext_point <- get_local_extrema_points (snd c2) true radius sensitive denoise norm subpixel select ;;
    Ok (slope, typical_gap list_ext_point).
  (** linepattern.py 378-449 calc_slope_distance_ver_lines *)
  Definition calc_slope_distance_ver_lines (mat : image T) (ratio search_range : T) (radius : Z) (sensitive : T)
      (bright denoise norm subpixel chessboard : bool) (select : option peak_args) : res (T * T) :=
    mat_roi <- line_roi mat ratio bright denoise chessboard ;;
    let angle_coarse := narange (nopp search_range) (search_range +! n1) n1 in
    let mask := make_circle_mask (ih mat_roi) (nofQ 92 100) in
    c1 <- best_column (img_mul mat_roi mask) angle_coarse ;;
    let best_angle1 := fst c1 in
    let angle_fine := narange (best_angle1 -! n1) (best_angle1 +! nofQ 105 100) (nofQ 5 100) in
    c2 <- best_column (img_mul mat_roi mask) angle_fine ;;
    let best_angle2 := fst c2 in
    let slope := tan_ (best_angle2 *! pi_ /! nofZ 180) in
    list_ext_point <- get_local_extrema_points (snd c2) true radius sensitive denoise norm subpixel select ;;
    Ok (slope, typical_gap list_ext_point).

  (** *** Tilted profiles *)
  (** linepattern.py 452-509 _calc_index_range.  int() of an infinite or
      undefined value, which raises, is not modelled. *)
  Definition calc_index_range (height width : Z) (angle_deg : T) (horizontal : bool) : res (Z * Z) :=
    let angle := angle_deg *! pi_ /! nofZ 180 in
    if nabs angle_deg =?! nofZ 90 then Err ValueError else
    if horizontal then
      let (min_idx, max_idx) :=
        if n0 <?! angle_deg then (nceil (nofZ width *! tan_ angle), height - 1)%Z
        else (0, height - 1 - nfloor (nofZ width *! tan_ (nabs angle)))%Z in
      if ((min_idx <? 0) || (height <=? min_idx) || (max_idx <? 0) || (height <=? max_idx))%Z then Err ValueError
      else Ok (min_idx, max_idx)
    else
      let (min_idx, max_idx) :=
        if n0 <?! angle_deg then (0, width - 1 - nceil (nofZ height *! tan_ angle))%Z
        else (nfloor (nofZ height *! tan_ (nabs angle)), width - 1)%Z in
      if ((min_idx <? 0) || (width <=? min_idx) || (max_idx <? 0) || (width <=? max_idx))%Z then Err ValueError
      else Ok (min_idx, max_idx).
  (** scipy.ndimage.map_coordinates(m, .., order=3, mode='nearest') at (y, x) points *)
  Variable spline3 : image T -> list pnt -> list T.
  (** np.int16(np.floor(np.amin(l))), np.int16(np.ceil(np.amax(l))) + 1
      Used by linepattern.py 512-567 (get_tilted_profile). *)
  Definition crop_range (l : list T) : res (Z * Z) :=
    mn <- namin l ;; mx <- namax l ;;
    Ok (wrap16 (nfloor mn), wrap16 (wrap16 (nceil mx) + 1)).
  (** linepattern.py 512-567 get_tilted_profile (2-D input): x-positions,
      y-positions, intensities *)
  Definition get_tilted_profile (mat : image T) (index angle_deg : T) (horizontal : bool) : res (list T * list T * list T) :=
    let height := ih mat in let width := iw mat in
    r <- calc_index_range height width angle_deg horizontal ;;
    let (min_idx, max_idx) := r : Z * Z in
    let angle := angle_deg *! pi_ /! nofZ 180 in
    if (index <?! nofZ min_idx) || (nofZ max_idx <?! index) then Err ValueError else
    if horizontal then
      let rlist := linspace0 (nofZ (nfloor (nofZ width /! cos_ angle))) width in
      let xlist := map (fun r => r *! cos_ angle) rlist in
      let ylist := map (fun r => r *! sin_ (nopp angle)) rlist in
      let xlist := map (fun x => nclip x n0 (nofZ (width - 1))) xlist in
      let ylist := map (fun y => nclip (index +! y) n0 (nofZ (height - 1))) ylist in
      c <- crop_range ylist ;;
      let (ymin, ymax) := c : Z * Z in
      Ok (xlist, ylist, spline3 (row_slice mat ymin ymax) (combine (map (fun y => y -! nofZ ymin) ylist) xlist))
    else
      let rlist := linspace0 (nofZ (nfloor (nofZ height /! cos_ angle))) height in
      let ylist := map (fun r => r *! cos_ angle) rlist in
      let xlist := map (fun r => r *! sin_ angle) rlist in
      let xlist := map (fun x => nclip (index +! x) n0 (nofZ (width - 1))) xlist in
      let ylist := map (fun y => nclip y n0 (nofZ (height - 1))) ylist in
      c <- crop_range xlist ;;
      let (xmin, xmax) := c : Z * Z in
      Ok (xlist, ylist, spline3 (slice2 mat 0 (ih mat) xmin xmax) (combine ylist (map (fun x => x -! nofZ xmin) xlist))).

  (** *** Cross points *)
  (** preprocessing._apply_fft_filter *)
  Variable fft_filter : image T -> T -> Z -> image T.
  (** Lines 654-659, 734-739: the image searched
      Used by linepattern.py 604-681 (get_cross_points_hor_lines),
      linepattern.py 684-761 (get_cross_points_ver_lines). *)
  Definition cross_image (mat : image T) (norm bright denoise : bool) : res (image T) :=
    mat <- (if bright then mx <- namax (pixels mat) ;; Ok (img_map (fun v => mx -! v) mat) else Ok mat) ;;
    mat <- (if norm then normalization_fft fft_filter mat (nofZ 5) 100 else Ok mat) ;;
    Ok (if denoise then gaussian3 mat else mat).
  (** np.rad2deg
      Used by linepattern.py 604-681 (get_cross_points_hor_lines),
      linepattern.py 684-761 (get_cross_points_ver_lines). *)
  Definition rad2deg (x : T) : T := x *! (nofZ 180 /! pi_).
  (** The positions on one profile, as distances from its first point (lines
      668-677, 748-757).
      Used by linepattern.py 604-681 (get_cross_points_hor_lines),
      linepattern.py 684-761 (get_cross_points_ver_lines). *)
  Definition profile_points (xlist ylist profile : list T) (n : Z) (norm : bool) (radius : Z) (sensitive : T)
      (denoise subpixel chessboard : bool) (select : option peak_args) : res (list T) :=
    x0 <- pyget xlist 0 ;; x1 <- pyget xlist (-1) ;; y0 <- pyget ylist 0 ;; y1 <- pyget ylist (-1) ;;
    let scale := nsqrt (npow (x1 -! x0) 2 +! npow (y1 -! y0) 2) /! nofZ (n - 1) in
    profile <- (if chessboard then sliding_window_slope (fun v => v) profile 3 true else Ok profile) ;;
    rlist <- get_local_extrema_points profile true radius sensitive (negb denoise) (negb norm) subpixel select ;;
    Ok (map (fun r => r *! scale) rlist).
  (** linepattern.py 604-681 get_cross_points_hor_lines *)
  Definition get_cross_points_hor_lines (mat : image T) (slope_ver dist_ver ratio : T) (norm : bool) (offset : Z)
      (bright : bool) (radius : Z) (sensitive : T) (denoise subpixel chessboard : bool) (select : option peak_args)
    : res (list pnt) :=
    let height := ih mat in let width := iw mat in
    mat <- cross_image mat norm bright denoise ;;
    let angle := arctan_ slope_ver in
    r <- calc_index_range height width (rad2deg angle) false ;;
    let (min_row, max_row) := r : Z * Z in
    let offset := Z.min (Z.max offset 0) (Z.min height width / 3) in
    is_ <- arange_chk (nofZ (min_row + offset)) (nofZ (max_row - offset)) (ratio *! dist_ver) ;;
    ps <- mapM (fun i =>
        t <- get_tilted_profile mat i (rad2deg angle) false ;;
        let '(xlist, ylist, profile) := t in
        rlist <- profile_points xlist ylist profile height norm radius sensitive denoise subpixel chessboard select ;;
        x0 <- pyget xlist 0 ;; y0 <- pyget ylist 0 ;;
        let xlist1 := map (fun r => r *! sin_ angle +! x0) rlist in
        let ylist1 := map (fun r => r *! cos_ angle +! y0) rlist in
        Ok (combine ylist1 xlist1)) is_ ;;
    Ok (concat ps).
  (** linepattern.py 684-761 get_cross_points_ver_lines *)
  Definition get_cross_points_ver_lines (mat : image T) (slope_hor dist_hor ratio : T) (norm : bool) (offset : Z)
      (bright : bool) (radius : Z) (sensitive : T) (denoise subpixel chessboard : bool) (select : option peak_args)
    : res (list pnt) :=
    let height := ih mat in let width := iw mat in
    mat <- cross_image mat norm bright denoise ;;
    let angle := arctan_ slope_hor in
    r <- calc_index_range height width (nopp (rad2deg angle)) true ;;
    let (min_col, max_col) := r : Z * Z in
    let offset := Z.min (Z.max offset 0) (Z.min height width / 8) in
    is_ <- arange_chk (nofZ (min_col + offset)) (nofZ (max_col - offset)) (ratio *! dist_hor) ;;
    ps <- mapM (fun i =>
        t <- get_tilted_profile mat i (nopp (rad2deg angle)) true ;;
        let '(xlist, ylist, profile) := t in
        rlist <- profile_points xlist ylist profile width norm radius sensitive denoise subpixel chessboard select ;;
        x0 <- pyget xlist 0 ;; y0 <- pyget ylist 0 ;;
        let xlist1 := map (fun r => r *! cos_ angle +! x0) rlist in
        let ylist1 := map (fun r => r *! sin_ angle +! y0) rlist in
        Ok (combine ylist1 xlist1)) is_ ;;
    Ok (concat ps).
End Line.
