(** Model of discorpy/proc/processing.py, first part (lines 47-713): parabola
    fits, centre of distortion, undistorted intercepts, distortion
    coefficients.  Lines are lists of (y, x) points.  np.polyfit,
    np.linalg.lstsq and optimize.minimize are parameters.  Arithmetic on
    float32 and float64 arrays is not distinguished; assignments into float32
    arrays are ([nf32]). *)
From Coq Require Import ZArith.
From Verif Require Import Base Num Img Post PrepImg PrepPts.
Local Open Scope Z_scope.

Section Proc.
  Context {T : Type} {N : Num T}.
  Local Open Scope num_scope.
  Notation pnt := (T * T)%type.
  Notation coef := (T * T * T)%type.

  (** *** Array helpers *)
  (** np.sign (of 0 or NaN: the number itself)
      Used by processing.py 329-336 (func_opt), processing.py 403-406
      (spread_intercepts), processing.py 1139-1225
      (generate_4_source_target_perspective_points). *)
  Definition nsign (x : T) : T := if n0 <?! x then n1 else if x <?! n0 then nopp n1 else x.
  (** np.diff
      Used by processing.py 312-323 (missing_error), processing.py 349-411
      (calc_undistor_intercept). *)
  Fixpoint ndiff (l : list T) : list T :=
    match l with a :: (b :: _) as r => (b -! a) :: ndiff r | _ => [] end.
  (** np.argmax, np.argmin: first position; ValueError on an empty array
      Used by linepattern.py 46-72 (locate_subpixel_point). *)
  Definition argmax (l : list T) : res Z :=
    match l with [] => Err ValueError | _ => Ok (Z.of_nat (nargmax l)) end.
  (** np.argmin after the first element: the first of the smallest values; used
      by processing.py 194-246 (calc_metric), processing.py 349-411
      (calc_undistor_intercept), linepattern.py 46-72 (locate_subpixel_point).
      *)
  Fixpoint argmin_from (i best : nat) (m : T) (l : list T) : nat :=
    match l with
    | [] => best
    | x :: l' => if x <?! m then argmin_from (S i) i x l' else argmin_from (S i) best m l'
    end.
  (** np.argmin; an empty array raises ValueError; used by processing.py 194-246
      (calc_metric), processing.py 349-411 (calc_undistor_intercept),
      linepattern.py 46-72 (locate_subpixel_point). *)
  Definition argmin (l : list T) : res Z :=
    match l with [] => Err ValueError | x :: l' => Ok (Z.of_nat (argmin_from 1 0 x l')) end.
  (** np.arange(start, stop, step) on floats: start + i * ((start + step) - start)
      Used by processing.py 249-291 (find_cod_fine), linepattern.py 302-375
      (calc_slope_distance_hor_lines), linepattern.py 378-449
      (calc_slope_distance_ver_lines). *)
  Definition narange (start stop step : T) : list T :=
    map (fun i => start +! nofZ i *! ((start +! step) -! start))
        (zrange 0 (nceil ((stop -! start) /! step))).
  (** np.power(r, np.arange(n))
      Used by processing.py 414-475 (backward_rows_hor), processing.py 478-543
      (forward_rows_hor), processing.py 647-658 (transform_rows_forward) and
      others. *)
  Definition powers (n : nat) (r : T) : list T := map (npow r) (seq 0 n).
  (** Columns of a coefficient array.
      Used by processing.py 414-475 (backward_rows_hor), processing.py 478-543
      (forward_rows_hor), processing.py 700-705 (bailey_step) and others. *)
  Definition cf0 (c : coef) : T := fst (fst c).
  (** Second coefficient of a parabola, list_coef[:, 1]; used by processing.py
      113-145 (find_cod_coarse), processing.py 716-767
      (generate_non_perspective_parabola_coef), processing.py 770-794
      (find_cross_point_between_parabolas) and others. *)
  Definition cf1 (c : coef) : T := snd (fst c).
  (** Third coefficient of a parabola, list_coef[:, 2]; used by processing.py
      113-145 (find_cod_coarse), processing.py 194-246 (calc_metric),
      processing.py 312-323 (missing_error) and others. *)
  Definition cf2 (c : coef) : T := snd c.

  (** np.polyfit(x, y, deg): coefficients, highest power first *)
  Variable polyfit : list T -> list T -> nat -> res (list T).
  (** A quadratic fit stored in a row of a float32 array.
      Used by processing.py 47-77 (para_fit_hor), processing.py 80-110
      (para_fit_ver). *)
  Definition fit2 (xs ys : list T) : res coef :=
    v <- polyfit xs ys 2 ;;
    match v with [a; b; c] => Ok (nf32 a, nf32 b, nf32 c) | _ => Err ValueError end.
  (** np.polyfit(x, y, 1) unpacked into slope and intercept
      Used by processing.py 155-191 (calc_error), processing.py 700-705
      (bailey_step), processing.py 716-767
      (generate_non_perspective_parabola_coef) and others. *)
  Definition fit1 (xs ys : list T) : res (T * T) :=
    v <- polyfit xs ys 1 ;;
    match v with [a; b] => Ok (a, b) | _ => Err ValueError end.

  (** processing.py 47-77 _para_fit_hor (an empty line has one axis only, so
      taking its columns raises IndexError) *)
  Definition para_fit_hor (list_lines : list (list pnt)) (xcenter ycenter : T)
    : res (list coef * list (list pnt)) :=
    r <- mapM (fun line : list pnt =>
           match line with
           | [] => Err IndexError
           | _ =>
               c <- fit2 (map (fun p : pnt => snd p -! xcenter) line) (map (fun p : pnt => fst p -! ycenter) line) ;;
               Ok (c, map (fun p : pnt => (fst p -! ycenter, snd p -! xcenter)) line)
           end) list_lines ;;
    Ok (map fst r, map snd r).
  (** processing.py 80-110 _para_fit_ver *)
  Definition para_fit_ver (list_lines : list (list pnt)) (xcenter ycenter : T)
    : res (list coef * list (list pnt)) :=
    r <- mapM (fun line : list pnt =>
           match line with
           | [] => Err IndexError
           | _ =>
               c <- fit2 (map (fun p : pnt => fst p -! ycenter) line) (map (fun p : pnt => snd p -! xcenter) line) ;;
               Ok (c, map (fun p : pnt => (fst p -! ycenter, snd p -! xcenter)) line)
           end) list_lines ;;
    Ok (map fst r, map snd r).
  (** processing.py 1273-1296 update_center *)
  Definition update_center (list_lines : list (list pnt)) (xcenter ycenter : T) : list (list pnt) :=
    map (map (fun p : pnt => (fst p +! ycenter, snd p +! xcenter))) list_lines.

  (** *** Coarse centre *)
  (** np.argmax(np.abs(np.diff(np.sign(list_coef[:, 0])))) + 1
      Used by processing.py 113-145 (find_cod_coarse), processing.py 716-767
      (generate_non_perspective_parabola_coef). *)
  Definition sign_change (cs : list coef) : res Z :=
    p <- argmax (map nabs (ndiff (map (fun c => nsign (cf0 c)) cs))) ;; Ok (p + 1)%Z.
  (** processing.py 113-145 find_cod_coarse; the result is (xcenter, ycenter) *)
  Definition find_cod_coarse (list_hor_lines list_ver_lines : list (list pnt)) : res (T * T) :=
    h <- para_fit_hor list_hor_lines n0 n0 ;;
    v <- para_fit_ver list_ver_lines n0 n0 ;;
    let list_coef_hor := fst h in let list_coef_ver := fst v in
    pos_hor <- sign_change list_coef_hor ;;
    pos_ver <- sign_change list_coef_ver ;;
    h1 <- pyget list_coef_hor (pos_hor - 1) ;; h2 <- pyget list_coef_hor pos_hor ;;
    v1 <- pyget list_coef_ver (pos_ver - 1) ;; v2 <- pyget list_coef_ver pos_ver ;;
    let ycenter0 := (cf2 h1 +! cf2 h2) *! nofQ 1 2 in
    let xcenter0 := (cf2 v1 +! cf2 v2) *! nofQ 1 2 in
    let slope_hor := (cf1 h1 +! cf1 h2) *! nofQ 1 2 in
    let slope_ver := (cf1 v1 +! cf1 v2) *! nofQ 1 2 in
    let ycenter := (ycenter0 +! xcenter0 *! slope_hor) /! (n1 -! slope_hor *! slope_ver) in
    let xcenter := (xcenter0 +! ycenter0 *! slope_ver) /! (n1 -! slope_hor *! slope_ver) in
    Ok (xcenter, ycenter).

  (** *** Fine search *)
  (** [minimize f x0]: optimize.minimize(f, x0).x[0] *)
  Variable minimize : (T -> T) -> T -> T.
  (** processing.py 148-152 _func_dist *)
  Definition func_dist (x a b c : T) : T := npow x 2 +! npow (a *! npow x 2 +! b *! x +! c) 2.
  (** The point of a parabola found by the minimisation, as stored (lines
      175-188): position along the axis and value.
      Used by processing.py 155-191 (calc_error). *)
  Definition near_point (c : coef) : T * T :=
    let xm := minimize (fun x => func_dist x (cf0 c) (cf1 c) (cf2 c)) n0 in
    let ym := cf0 c *! npow xm 2 +! cf1 c *! xm +! cf2 c in
    (nf32 xm, nf32 ym).
  (** processing.py 155-191 _calc_error *)
  Definition calc_error (list_coef_hor list_coef_ver : list coef) : res T :=
    let list_hpoint := map near_point list_coef_hor in
    let list_vpoint := map near_point list_coef_ver in
    h <- fit1 (map fst list_hpoint) (map snd list_hpoint) ;;
    v <- fit1 (map fst list_vpoint) (map snd list_vpoint) ;;
    Ok (nabs (snd h) +! nabs (snd v)).
  (** Window of lines around the nearest one (lines 231-235, 391-395).
      Used by processing.py 194-246 (calc_metric), processing.py 349-411
      (calc_undistor_intercept). *)
  Definition near_window (most num_h num_v pos num : Z) : Z * Z :=
    let numuse := Z.min most (Z.min (num_h / 2 - 1) (num_v / 2 - 1)) in
    (Z.max 0 (pos - numuse), Z.min num (pos + numuse + 1)).
  (** processing.py 194-246 _calc_metric.  mat_metric has shape
      (len(list_xshift), len(list_yshift)) and is filled at [i, j] with i
      indexing list_yshift; both lists have one length here, other lengths
      raise IndexError. *)
  Definition calc_metric (list_hor_lines list_ver_lines : list (list pnt)) (xcenter ycenter : T)
      (list_xshift list_yshift : list T) : res (T * T) :=
    h <- para_fit_hor list_hor_lines xcenter ycenter ;;
    v <- para_fit_ver list_ver_lines xcenter ycenter ;;
    let (list_coef_hor, list_hor_lines) := h : list coef * list (list pnt) in
    let (list_coef_ver, list_ver_lines) := v : list coef * list (list pnt) in
    pos_hor <- argmin (map (fun c => nabs (cf2 c)) list_coef_hor) ;;
    pos_ver <- argmin (map (fun c => nabs (cf2 c)) list_coef_ver) ;;
    let num_hline := Z.of_nat (List.length list_hor_lines) in
    let num_vline := Z.of_nat (List.length list_ver_lines) in
    let (posh1, posh2) := near_window 5 num_hline num_vline pos_hor num_hline in
    let (posv1, posv2) := near_window 5 num_hline num_vline pos_ver num_vline in
    mat_metric <- mapM (fun pos_y => mapM (fun pos_x =>
        ch <- para_fit_hor (lslice list_hor_lines posh1 posh2) pos_x pos_y ;;
        cv <- para_fit_ver (lslice list_ver_lines posv1 posv2) pos_x pos_y ;;
        res_map nf32 (calc_error (fst ch) (fst cv))) list_xshift) list_yshift ;;
    if negb (List.length list_xshift =? List.length list_yshift)%nat then Err IndexError else
    k <- argmin (concat mat_metric) ;;
    let w := Z.of_nat (List.length list_yshift) in
    xshift <- pyget list_xshift (k mod w) ;;
    yshift <- pyget list_yshift (k / w) ;;
    Ok (xshift, yshift).
  (** processing.py 249-291 find_cod_fine *)
  Definition find_cod_fine (list_hor_lines list_ver_lines : list (list pnt)) (xcenter ycenter point_dist : T)
    : res (T * T) :=
    let step0 := nofZ 2 in
    let list_shift := narange (nopp point_dist) (point_dist +! step0) step0 in
    s1 <- calc_metric list_hor_lines list_ver_lines xcenter ycenter list_shift list_shift ;;
    let xcenter1 := xcenter +! fst s1 in
    let ycenter1 := ycenter +! snd s1 in
    let step := nofQ 1 2 in
    let list_shift := narange (nopp step0) (step0 +! step) step in
    s2 <- calc_metric list_hor_lines list_ver_lines xcenter1 ycenter1 list_shift list_shift ;;
    Ok (xcenter1 +! fst s2, ycenter1 +! snd s2).

  (** *** Undistorted intercepts *)
  (** One direction of processing.py 312-323: largest relative deviation of
      the line distances from a parabola. *)
  Definition missing_error (list_coef : list coef) : res T :=
    let list_dist := map nabs (ndiff (map cf2 list_coef)) in
    let list_index := map nofZ (zrange 0 (Z.of_nat (List.length list_dist))) in
    f <- polyfit list_index list_dist 2 ;;
    match f with
    | [f0; f1; f2] =>
        let list_fit := map (fun i => f0 *! npow i 2 +! f1 *! i +! f2) list_index in
        namax (map (fun df : T * T => nabs ((fst df -! snd df) /! snd df)) (combine list_dist list_fit))
    | _ => Err ValueError
    end.
  (** processing.py 294-326 _check_missing_lines *)
  Definition check_missing_lines (list_coef_hor list_coef_ver : list coef) (threshold : T) : res bool :=
    herror <- missing_error list_coef_hor ;;
    verror <- missing_error list_coef_ver ;;
    Ok ((threshold <?! herror) || (threshold <?! verror)).
  (** processing.py 329-336 _func_opt *)
  Definition func_opt (c0 : T) (indexc0 : Z) (list_inter : list T) (d0 : T) : T :=
    nsum (mapi (fun i c => npow (nsign c *! nofZ (Z.abs (Z.of_nat i - indexc0)) *! d0 +! c0 -! c) 2) list_inter).
  (** processing.py 339-346 _optimize_intercept *)
  Definition optimize_intercept (dist_hv : T) (pos_hv : Z) (list_inter : list T) : res T :=
    c0 <- pyget list_inter pos_hv ;;
    Ok (minimize (func_opt c0 pos_hv list_inter) dist_hv).
  (** processing.py 403-406 / 407-410: intercepts of one direction *)
  Definition spread_intercepts (list_coef : list coef) (pos : Z) (dist : T) : res (list T) :=
    cpos <- pyget list_coef pos ;;
    Ok (mapi (fun i c => nf32 (nsign (cf2 c) *! (nofZ (Z.abs (Z.of_nat i - pos)) *! dist) +! cf2 cpos)) list_coef).
  (** processing.py 349-411 _calc_undistor_intercept; the boolean tells
      whether the warning of lines 382-386 is issued. *)
  Definition calc_undistor_intercept (list_hor_lines list_ver_lines : list (list pnt)) (xcenter ycenter : T)
      (optimizing : bool) (threshold : T) : res (bool * (list T * list T)) :=
    h <- para_fit_hor list_hor_lines xcenter ycenter ;;
    v <- para_fit_ver list_ver_lines xcenter ycenter ;;
    let (list_coef_hor, list_hor_lines) := h : list coef * list (list pnt) in
    let (list_coef_ver, list_ver_lines) := v : list coef * list (list pnt) in
    check <- check_missing_lines list_coef_hor list_coef_ver threshold ;;
    pos_hor <- argmin (map (fun c => nabs (cf2 c)) list_coef_hor) ;;
    pos_ver <- argmin (map (fun c => nabs (cf2 c)) list_coef_ver) ;;
    let num_hline := Z.of_nat (List.length list_hor_lines) in
    let num_vline := Z.of_nat (List.length list_ver_lines) in
    let (posh1, posh2) := near_window 3 num_hline num_vline pos_hor num_hline in
    let (posv1, posv2) := near_window 3 num_hline num_vline pos_ver num_vline in
    let dist_hor := mean (map nabs (ndiff (lslice (map cf2 list_coef_hor) posh1 posh2))) in
    let dist_ver := mean (map nabs (ndiff (lslice (map cf2 list_coef_ver) posv1 posv2))) in
    dist_hor <- (if optimizing then optimize_intercept dist_hor pos_hor (map cf2 list_coef_hor) else Ok dist_hor) ;;
    dist_ver <- (if optimizing then optimize_intercept dist_ver pos_ver (map cf2 list_coef_ver) else Ok dist_ver) ;;
    list_hor_uc <- spread_intercepts list_coef_hor pos_hor dist_hor ;;
    list_ver_uc <- spread_intercepts list_coef_ver pos_ver dist_ver ;;
    Ok (check, (list_hor_uc, list_ver_uc)).

  (** *** Distortion coefficients *)
  (** np.linalg.lstsq(A, B)[0]; an empty row list is a 1-D array: LinAlgError *)
  Variable lstsq : list (list T) -> list T -> res (list T).
  (** np.linalg.lstsq on the collected rows (Amatrix, Bmatrix); used by
      processing.py 546-612 (calc_coef_backward_from_forward), processing.py
      615-674 (transform_coef_backward_and_forward). *)
  Definition solve_rows (rows : list (list T * T)) : res (list T) :=
    match rows with
    | [] => Err LinAlgError
    | _ => lstsq (map fst rows) (map snd rows)
    end.
  (** np.int16(np.clip(num_fact, 1, None)) as the length of np.arange
      Used by processing.py 546-612 (calc_coef_backward_from_forward). *)
  Definition num_factors (num_fact : Z) : nat := Z.to_nat (wrap16 (Z.max num_fact 1)).
  (** np.sqrt(xd * xd + yd * yd) of a dot; used by processing.py 414-475
      (backward_rows_hor), processing.py 478-543 (forward_rows_hor),
      linepattern.py 136-151 (good_peak) and others. *)
  Definition radius (p : pnt) : T :=
    let xd := snd p in let yd := fst p in nsqrt (xd *! xd +! yd *! yd).

  (** processing.py 414-475 calc_coef_backward (divisions are numpy float
      divisions and do not raise) *)
  Definition backward_rows_hor (n : nat) (list_coef : list coef) (list_uc : list T) (list_lines : list (list pnt))
    : list (list T * T) :=
    concat (map (fun cul : coef * T * list pnt =>
      let '(c, uc, line) := cul in
      map (fun p : pnt =>
        let Fb := (cf0 c *! snd p *! snd p +! cf2 c) /! uc in
        (powers n (radius p /! Fb), Fb)) line) (combine (combine list_coef list_uc) list_lines)).
  (** The rows of the vertical lines (processing.py 462-471). *)
  Definition backward_rows_ver (n : nat) (list_coef : list coef) (list_uc : list T) (list_lines : list (list pnt))
    : list (list T * T) :=
    concat (map (fun cul : coef * T * list pnt =>
      let '(c, uc, line) := cul in
      map (fun p : pnt =>
        let Fb := (cf0 c *! fst p *! fst p +! cf2 c) /! uc in
        (powers n (radius p /! Fb), Fb)) line) (combine (combine list_coef list_uc) list_lines)).
  (** The whole function (processing.py 414-475). *)
  Definition calc_coef_backward (list_hor_lines list_ver_lines : list (list pnt)) (xcenter ycenter : T)
      (num_fact : Z) (optimizing : bool) (threshold : T) : res (list T) :=
    let n := num_factors num_fact in
    cu <- calc_undistor_intercept list_hor_lines list_ver_lines xcenter ycenter optimizing threshold ;;
    let (list_hor_uc, list_ver_uc) := snd cu : list T * list T in
    h <- para_fit_hor list_hor_lines xcenter ycenter ;;
    v <- para_fit_ver list_ver_lines xcenter ycenter ;;
    solve_rows (backward_rows_hor n (fst h) list_hor_uc (snd h) ++ backward_rows_ver n (fst v) list_ver_uc (snd v)).

  (** processing.py 478-543 calc_coef_forward *)
  Definition forward_rows_hor (n : nat) (list_coef : list coef) (list_uc : list T) (list_lines : list (list pnt))
    : list (list T * T) :=
    concat (map (fun cul : coef * T * list pnt =>
      let '(c, uc, line) := cul in
      if negb (uc =?! n0) then
        concat (map (fun p : pnt =>
          let Fb := uc /! (cf0 c *! snd p *! snd p +! cf2 c) in
          if negb (Fb =?! n0) then [(powers n (radius p), Fb)] else []) line)
      else []) (combine (combine list_coef list_uc) list_lines)).
  (** The rows of the vertical lines (processing.py 528-539). *)
  Definition forward_rows_ver (n : nat) (list_coef : list coef) (list_uc : list T) (list_lines : list (list pnt))
    : list (list T * T) :=
    concat (map (fun cul : coef * T * list pnt =>
      let '(c, uc, line) := cul in
      if negb (uc =?! n0) then
        concat (map (fun p : pnt =>
          let Fb := uc /! (cf0 c *! fst p *! fst p +! cf2 c) in
          if negb (Fb =?! n0) then [(powers n (radius p), Fb)] else []) line)
      else []) (combine (combine list_coef list_uc) list_lines)).
  (** The whole function (processing.py 478-543). *)
  Definition calc_coef_forward (list_hor_lines list_ver_lines : list (list pnt)) (xcenter ycenter : T)
      (num_fact : Z) (optimizing : bool) (threshold : T) : res (list T) :=
    let n := num_factors num_fact in
    cu <- calc_undistor_intercept list_hor_lines list_ver_lines xcenter ycenter optimizing threshold ;;
    let (list_hor_uc, list_ver_uc) := snd cu : list T * list T in
    h <- para_fit_hor list_hor_lines xcenter ycenter ;;
    v <- para_fit_ver list_ver_lines xcenter ycenter ;;
    solve_rows (forward_rows_hor n (fst h) list_hor_uc (snd h) ++ forward_rows_ver n (fst v) list_ver_uc (snd v)).

  (** np.sum(list_fact * np.power(r, list_expo)) for a list of n coefficients
      Used by processing.py 647-658 (transform_rows_forward), processing.py
      659-670 (transform_rows_backward). *)
  Definition poly_value (list_fact : list T) (r : T) : T :=
    nsum (map (fun fp : T * T => fst fp *! snd fp) (combine list_fact (powers (List.length list_fact) r))).
  (** The row for one point of lines 589-598 and 600-609.
      Used by processing.py 546-612 (calc_coef_backward_from_forward). *)
  Definition inverse_row (n : nat) (list_fact : list T) (p : pnt) : list (list T * T) :=
    let r := radius p in
    let ffactor := poly_value list_fact r in
    if negb (ffactor =?! n0) then [(powers n (ffactor *! r), n1 /! ffactor)] else [].
  (** processing.py 546-612 calc_coef_backward_from_forward.  list_ffact has
      num_fact elements, the product with the powers would raise otherwise. *)
  Definition calc_coef_backward_from_forward (list_hor_lines list_ver_lines : list (list pnt)) (xcenter ycenter : T)
      (num_fact : Z) (optimizing : bool) (threshold : T) : res (list T * list T) :=
    let n := num_factors num_fact in
    list_ffact <- calc_coef_forward list_hor_lines list_ver_lines xcenter ycenter (wrap16 (Z.max num_fact 1)) optimizing threshold ;;
    if negb (List.length list_ffact =? n)%nat then Err ValueError else
    h <- para_fit_hor list_hor_lines xcenter ycenter ;;
    v <- para_fit_ver list_ver_lines xcenter ycenter ;;
    list_bfact <- solve_rows (concat (map (fun line => concat (map (inverse_row n list_ffact) line)) (snd h)) ++
                              concat (map (fun line => concat (map (inverse_row n list_ffact) line)) (snd v))) ;;
    Ok (list_ffact, list_bfact).

  (** processing.py 637-638: the default reference points *)
  Definition default_refs : list pnt :=
    flat_map (fun i => map (fun j => (nofZ i, nofZ j)) (zrange_step (-1000) 1000 50)) (zrange_step (-1000) 1000 50).
  (** processing.py 647-658: mapping = "forward" *)
  Definition transform_rows_forward (list_fact : list T) (ref_points : list pnt) : list (list T * T) :=
    concat (map (fun p : pnt =>
      let xu := snd p in let yu := fst p in
      let ru := nsqrt (xu *! xu +! yu *! yu) in
      let factor := poly_value list_fact ru in
      if negb (factor =?! n0) then
        let Fb := n1 /! factor in let rd := factor *! ru in
        [(powers (List.length list_fact) rd, Fb)]
      else []) ref_points).
  (** processing.py 659-670: any other mapping *)
  Definition transform_rows_backward (list_fact : list T) (ref_points : list pnt) : list (list T * T) :=
    concat (map (fun p : pnt =>
      let xd := snd p in let yd := fst p in
      let rd := nsqrt (xd *! xd +! yd *! yd) in
      let factor := poly_value list_fact rd in
      if negb (factor =?! n0) then
        let Fb := n1 /! factor in let ru := factor *! rd in
        [(powers (List.length list_fact) ru, Fb)]
      else []) ref_points).
  (** processing.py 615-674 transform_coef_backward_and_forward *)
  Definition transform_coef_backward_and_forward (list_fact : list T) (forward : bool) (ref_points : option (list pnt))
    : res (list T) :=
    refs <- match ref_points with
            | None => Ok default_refs
            | Some l => if (List.length l <? List.length list_fact)%nat then Err ValueError else Ok l
            end ;;
    solve_rows (if forward then transform_rows_forward list_fact refs else transform_rows_backward list_fact refs).

  (** *** Bailey's method *)
  (** processing.py 700-705 and 707-712: one update of the centre *)
  Definition bailey_step (list_hor_lines list_ver_lines : list (list pnt)) (cen : T * T) : res (T * T) :=
    let (xcenter, ycenter) := cen in
    h <- para_fit_hor list_hor_lines xcenter ycenter ;;
    v <- para_fit_ver list_ver_lines xcenter ycenter ;;
    ab1 <- fit1 (map cf2 (fst h)) (map cf0 (fst h)) ;;
    ab2 <- fit1 (map cf2 (fst v)) (map cf0 (fst v)) ;;
    let (a1, b1) := ab1 : T * T in let (a2, b2) := ab2 : T * T in
    Ok (xcenter -! b2 /! a2, ycenter -! b1 /! a1).
  (** The loop over the iterations (processing.py 706-712). *)
  Fixpoint bailey_loop (list_hor_lines list_ver_lines : list (list pnt)) (iteration : nat) (cen : T * T) : res (T * T) :=
    match iteration with
    | O => Ok cen
    | S k => c <- bailey_step list_hor_lines list_ver_lines cen ;; bailey_loop list_hor_lines list_ver_lines k c
    end.
  (** processing.py 677-713 find_cod_bailey *)
  Definition find_cod_bailey (list_hor_lines list_ver_lines : list (list pnt)) (iteration : Z) : res (T * T) :=
    c0 <- find_cod_coarse list_hor_lines list_ver_lines ;;
    c1 <- bailey_step list_hor_lines list_ver_lines c0 ;;
    bailey_loop list_hor_lines list_ver_lines (Z.to_nat iteration) c1.
End Proc.
