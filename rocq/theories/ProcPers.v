(** Model of discorpy/proc/processing.py, second part (lines 716-1651): grid
    regeneration, perspective correction, vanishing points.  Additional
    parameters: optimize.fsolve, np.roots, argsort. *)
From Coq Require Import ZArith.
From Verif Require Import Base Num Img Post PrepImg PrepPts Proc.
Local Open Scope Z_scope.

Section ProcPers.
  Context {T : Type} {N : Num T}.
  Local Open Scope num_scope.
  Notation pnt := (T * T)%type.
  Notation coef := (T * T * T)%type.
  Variable polyfit : list T -> list T -> nat -> res (list T).

  (** *** Parabola grids *)
  (** Average distance of the lines around position [pos] (lines 754-760).
      Used by processing.py 716-767 (generate_non_perspective_parabola_coef).
      *)
  Definition mean_distance (num_h num_v : Z) (cs : list coef) (pos : Z) : T :=
    let (p1, p2) := near_window 3 num_h num_v pos (Z.of_nat (List.length cs)) in
    mean (map nabs (ndiff (lslice (map cf2 cs) p1 p2))).
  (** processing.py 716-767 _generate_non_perspective_parabola_coef *)
  Definition generate_non_perspective_parabola_coef (list_hor_lines list_ver_lines : list (list pnt))
    : res (list coef * list coef * (T * T)) :=
    let num_hline := Z.of_nat (List.length list_hor_lines) in
    let num_vline := Z.of_nat (List.length list_ver_lines) in
    cen <- find_cod_bailey polyfit list_hor_lines list_ver_lines 2 ;;
    let (xcenter, ycenter) := cen : T * T in
    h <- para_fit_hor polyfit list_hor_lines xcenter ycenter ;;
    v <- para_fit_ver polyfit list_ver_lines xcenter ycenter ;;
    let list_coef_hor := fst h in let list_coef_ver := fst v in
    abh <- fit1 polyfit (map cf2 list_coef_hor) (map cf1 list_coef_hor) ;;
    abv <- fit1 polyfit (map cf2 list_coef_ver) (map (fun c => nopp (cf1 c)) list_coef_ver) ;;
    let (ah, bh) := abh : T * T in let (av, bv) := abv : T * T in
    let b0 := if nofQ 1 1000 <=?! nabs (ah -! av) then (ah *! bv -! av *! bh) /! (ah -! av)
              else (bh +! bv) *! nofQ 1 2 in
    let list_coef_hor := map (fun c : coef => (cf0 c, nf32 (b0 *! n1), cf2 c)) list_coef_hor in
    let list_coef_ver := map (fun c : coef => (cf0 c, nf32 (nopp b0 *! n1), cf2 c)) list_coef_ver in
    pos_hor <- sign_change list_coef_hor ;;
    pos_ver <- sign_change list_coef_ver ;;
    let dist_hor := mean_distance num_hline num_vline list_coef_hor pos_hor in
    let dist_ver := mean_distance num_hline num_vline list_coef_ver pos_ver in
    Ok (if dist_ver <?! dist_hor then
          (list_coef_hor,
           map (fun c : coef => (nf32 (cf0 c *! dist_hor /! dist_ver), cf1 c, nf32 (cf2 c *! dist_hor /! dist_ver))) list_coef_ver,
           (xcenter, ycenter))
        else
          (map (fun c : coef => (nf32 (cf0 c *! dist_ver /! dist_hor), cf1 c, nf32 (cf2 c *! dist_ver /! dist_hor))) list_coef_hor,
           list_coef_ver, (xcenter, ycenter))).

  (** [fsolve f (0, 0)]: optimize.fsolve on a system of two equations *)
  Variable fsolve : (T * T -> T * T) -> T * T -> T * T.
  (** processing.py 770-794 _find_cross_point_between_parabolas; result (x, y) *)
  Definition find_cross_point_between_parabolas (ch cv : coef) : T * T :=
    fsolve (fun xy : T * T => let (x, y) := xy in
      (cf0 ch *! npow x 2 +! cf1 ch *! x +! cf2 ch -! y, cf0 cv *! npow y 2 +! cf1 cv *! y +! cf2 cv -! x))
      (n0, n0).
  (** The two results of a double loop storing the same point at [i, j] and
      [j, i] of two float32 arrays (lines 838-843, 1035-1040, 1091-1096).
      Used by processing.py 797-844 (regenerate_grid_points_parabola),
      processing.py 1001-1041 (regenerate_from_coef), processing.py 1044-1097
      (generate_undistorted_perspective_lines). *)
  Definition cross_grid {A} (f : A -> A -> T * T) (hs vs : list A) : list (list pnt) * list (list pnt) :=
    (map (fun h => map (fun v => let p := f h v in (nf32 (fst p), nf32 (snd p))) vs) hs,
     map (fun v => map (fun h => let p := f h v in (nf32 (fst p), nf32 (snd p))) hs) vs).
  (** processing.py 797-844 regenerate_grid_points_parabola *)
  Definition regenerate_grid_points_parabola (list_hor_lines list_ver_lines : list (list pnt))
      (perspective find_center : bool) : res (list (list pnt) * list (list pnt)) :=
    r <- (if perspective then generate_non_perspective_parabola_coef list_hor_lines list_ver_lines
          else
            cen <- (if find_center then find_cod_bailey polyfit list_hor_lines list_ver_lines 2 else Ok (n0, n0)) ;;
            h <- para_fit_hor polyfit list_hor_lines (fst cen) (snd cen) ;;
            v <- para_fit_ver polyfit list_ver_lines (fst cen) (snd cen) ;;
            Ok (fst h, fst v, cen)) ;;
    let '(list_coef_hor, list_coef_ver, (xcenter, ycenter)) := r : list coef * list coef * (T * T) in
    Ok (cross_grid (fun ch cv => let (x, y) := find_cross_point_between_parabolas ch cv in (y +! ycenter, x +! xcenter))
          list_coef_hor list_coef_ver).

  (** *** Straight lines *)
  (** processing.py 847-879 _generate_linear_coef (xcenter = ycenter = 0: the
      only use).  Coefficients (slope, intercept) in float32. *)
  Definition linear_coef_hor (line : list pnt) : res (T * T) :=
    match line with
    | [] => Err IndexError
    | _ => ab <- fit1 polyfit (map (fun p : pnt => snd p -! n0) line) (map (fun p : pnt => fst p -! n0) line) ;;
           Ok (nf32 (fst ab), nf32 (snd ab))
    end.
  (** One vertical line of _generate_linear_coef (processing.py 847-879). *)
  Definition linear_coef_ver (line : list pnt) : res (T * T) :=
    match line with
    | [] => Err IndexError
    | _ => ab <- fit1 polyfit (map (fun p : pnt => fst p -! n0) line) (map (fun p : pnt => snd p -! n0) line) ;;
           Ok (nf32 (fst ab), nf32 (snd ab))
    end.
  (** The whole function _generate_linear_coef (processing.py 847-879). *)
  Definition generate_linear_coef (list_hor_lines list_ver_lines : list (list pnt)) : res (list (T * T) * list (T * T)) :=
    h <- mapM linear_coef_hor list_hor_lines ;;
    v <- mapM linear_coef_ver list_ver_lines ;;
    Ok (h, v).
  (** processing.py 882-902 _find_cross_point_between_lines; result (x, y).
      Numpy scalars: the division does not raise. *)
  Definition find_cross_point_between_lines (ch cv : T * T) : T * T :=
    let (a1, b1) := ch in let (a2, b2) := cv in
    let y := (a1 *! b2 +! b1) /! (n1 -! a1 *! a2) in
    let x := a2 *! y +! b2 in
    (x, y).
  (** [y, x] of a cross point
      Used by processing.py 1001-1041 (regenerate_from_coef), processing.py
      1044-1097 (generate_undistorted_perspective_lines), processing.py
      1340-1418 (correct_perspective_effect). *)
  Definition cross_yx (ch cv : T * T) : pnt := let (x, y) := find_cross_point_between_lines ch cv in (y, x).

  (** processing.py 1001-1041 regenerate_grid_points_linear, is_coef=True *)
  Definition regenerate_from_coef (list_coef_hor list_coef_ver : list (T * T)) : list (list pnt) * list (list pnt) :=
    cross_grid cross_yx list_coef_hor list_coef_ver.
  (** processing.py 1001-1041 regenerate_grid_points_linear, is_coef=False *)
  Definition regenerate_grid_points_linear (list_hor_lines list_ver_lines : list (list pnt))
    : res (list (list pnt) * list (list pnt)) :=
    c <- generate_linear_coef list_hor_lines list_ver_lines ;;
    Ok (regenerate_from_coef (fst c) (snd c)).

  (** *** Undistorted perspective lines *)
  (** scale: a named option (every other value acts as 'mean') or a float
      Used by processing.py 926-998 (calc_undistor_intercept_perspective),
      processing.py 1044-1097 (generate_undistorted_perspective_lines),
      processing.py 1100-1136 (generate_source_target_perspective_points) and
      others. *)
  Inductive scale_opt := ScMean | ScMedian | ScMin | ScMax | ScVal (v : T).
  (** processing.py 905-912 _func_opt_pers *)
  Definition func_opt_pers (c0 : T) (index_c0 : Z) (list_inter : list T) (d0 : T) : T :=
    nsum (mapi (fun i c => npow (nofZ (Z.of_nat i - index_c0) *! d0 +! c0 -! c) 2) list_inter).
  Variable minimize : (T -> T) -> T -> T.
  (** processing.py 915-923 _optimize_intercept_perspective *)
  Definition optimize_intercept_perspective (dist_hv : T) (pos_hv : Z) (list_inter : list T) : res T :=
    c0 <- pyget list_inter pos_hv ;;
    Ok (minimize (func_opt_pers c0 pos_hv list_inter) dist_hv).
  (** Distance of one direction (lines 962-976).
      Used by processing.py 926-998 (calc_undistor_intercept_perspective). *)
  Definition scaled_distance (scale : scale_opt) (inter : list T) (p1 p2 : Z) : res T :=
    let d := map nabs (ndiff (lslice inter p1 p2)) in
    match scale with
    | ScMax => namax d
    | ScMin => namin d
    | ScMedian => Ok (median d)
    | ScMean => Ok (mean d)
    | ScVal s => Ok (s *! mean d)
    end.
  (** processing.py 926-998 _calc_undistor_intercept_perspective *)
  Definition calc_undistor_intercept_perspective (list_hor_lines list_ver_lines : list (list pnt))
      (equal_dist : bool) (scale : scale_opt) (optimizing : bool) : res (list T * list T) :=
    c <- generate_linear_coef list_hor_lines list_ver_lines ;;
    let inter_hor := map snd (fst c) in let inter_ver := map snd (snd c) in
    let num_hline := Z.of_nat (List.length list_hor_lines) in
    let num_vline := Z.of_nat (List.length list_ver_lines) in
    let pos_hor := num_hline / 2 in let pos_ver := num_vline / 2 in
    let num_use := Z.min (Z.max (num_hline / 2 - 1) 1) (Z.max (num_vline / 2 - 1) 1) in
    dist_hor <- scaled_distance scale inter_hor (Z.max 0 (pos_hor - num_use)) (Z.min num_hline (pos_hor + num_use + 1)) ;;
    dist_ver <- scaled_distance scale inter_ver (Z.max 0 (pos_ver - num_use)) (Z.min num_vline (pos_ver + num_use + 1)) ;;
    dist_hor <- (if optimizing then optimize_intercept_perspective dist_hor pos_hor inter_hor else Ok dist_hor) ;;
    dist_ver <- (if optimizing then optimize_intercept_perspective dist_ver pos_ver inter_ver else Ok dist_ver) ;;
    let dist := match scale with
                | ScMax => nmax dist_hor dist_ver
                | ScMin => nmin dist_hor dist_ver
                | _ => (dist_hor +! dist_ver) *! nofQ 1 2
                end in
    let dist_hor := if equal_dist then dist else dist_hor in
    let dist_ver := if equal_dist then dist else dist_ver in
    (* list_coef[pos, 1] is read inside the loops, which do not run for n = 0 *)
    u_hor <- mapM (fun i => c <- pyget inter_hor pos_hor ;; Ok (nf32 (nofZ (i - pos_hor) *! dist_hor +! c))) (zrange 0 num_hline) ;;
    u_ver <- mapM (fun i => c <- pyget inter_ver pos_ver ;; Ok (nf32 (nofZ (i - pos_ver) *! dist_ver +! c))) (zrange 0 num_vline) ;;
    Ok (u_hor, u_ver).
  (** processing.py 1044-1097 generate_undistorted_perspective_lines *)
  Definition generate_undistorted_perspective_lines (list_hor_lines list_ver_lines : list (list pnt))
      (equal_dist : bool) (scale : scale_opt) (optimizing : bool) : res (list (list pnt) * list (list pnt)) :=
    c <- generate_linear_coef list_hor_lines list_ver_lines ;;
    let (list_coef_hor, list_coef_ver) := c : list (T * T) * list (T * T) in
    abh <- fit1 polyfit (map snd list_coef_hor) (map fst list_coef_hor) ;;
    abv <- fit1 polyfit (map snd list_coef_ver) (map (fun c => nopp (fst c)) list_coef_ver) ;;
    let (ah, bh) := abh : T * T in let (av, bv) := abv : T * T in
    let a0 := if nofQ 1 10000 <=?! nabs (ah -! av) then (ah *! bv -! av *! bh) /! (ah -! av)
              else (bh +! bv) *! nofQ 1 2 in
    u <- calc_undistor_intercept_perspective list_hor_lines list_ver_lines equal_dist scale optimizing ;;
    let list_coef_uhor := map (fun b => (nf32 (a0 *! n1), nf32 b)) (fst u) in
    let list_coef_uver := map (fun b => (nf32 (nopp a0 *! n1), nf32 b)) (snd u) in
    Ok (cross_grid cross_yx list_coef_uhor list_coef_uver).
  (** processing.py 1100-1136 generate_source_target_perspective_points *)
  Definition generate_source_target_perspective_points (list_hor_lines list_ver_lines : list (list pnt))
      (equal_dist : bool) (scale : scale_opt) (optimizing : bool) : res (list pnt * list pnt) :=
    s <- regenerate_grid_points_linear list_hor_lines list_ver_lines ;;
    t <- generate_undistorted_perspective_lines (fst s) (snd s) equal_dist scale optimizing ;;
    Ok (concat (fst s), concat (fst t)).

  (** *** Four points *)
  Variable argsort : list T -> list nat.
  Variables (cos_ arctan_ : T -> T).
  (** a[a[:, k].argsort()]
      Used by processing.py 1139-1225
      (generate_4_source_target_perspective_points). *)
  Definition sort_by (key : pnt -> T) (l : list pnt) : list pnt := gather l (argsort (map key l)).
  (** processing.py 1189-1210: the side lengths *)
  Definition side_lengths (scale : scale_opt) (equal_dist : bool) (p1 p2 p3 p4 : pnt) : T * T :=
    let d (p q : pnt) := nsqrt (npow (snd p -! snd q) 2 +! npow (fst p -! fst q) 2) in
    let dist12 := d p1 p2 in let dist13 := d p1 p3 in let dist24 := d p2 p4 in let dist34 := d p3 p4 in
    match scale with
    | ScMax =>
        let dist_h := nmax dist12 dist34 in let dist_v := nmax dist13 dist24 in
        if equal_dist then (nmax dist_v dist_h, nmax dist_v dist_h) else (dist_h, dist_v)
    | ScMin =>
        let dist_h := nmin dist12 dist34 in let dist_v := nmin dist13 dist24 in
        if equal_dist then (nmin dist_v dist_h, nmin dist_v dist_h) else (dist_h, dist_v)
    | _ =>
        let dist_h := (dist12 +! dist34) *! nofQ 1 2 in let dist_v := (dist13 +! dist24) *! nofQ 1 2 in
        let dist_h := match scale with ScVal s => dist_h *! s | _ => dist_h end in
        let dist_v := match scale with ScVal s => dist_v *! s | _ => dist_v end in
        if equal_dist then ((dist_v +! dist_h) *! nofQ 1 2, (dist_v +! dist_h) *! nofQ 1 2) else (dist_h, dist_v)
    end.
  (** processing.py 1139-1225 generate_4_source_target_perspective_points.
      Empty input raises ValueError (np.fliplr: "Input must be >= 2-d"; or the
      length test). *)
  Definition generate_4_source_target_perspective_points (points : list pnt) (xy_order : bool)
      (equal_dist : bool) (scale : scale_opt) : res (list pnt * list pnt) :=
    let points := map (fun p : pnt => (nf32 (fst p), nf32 (snd p))) points in
    let points := if xy_order then fliplr points else points in
    if negb (List.length points =? 4)%nat then Err ValueError else
    let list_sort := sort_by fst points in
    let p12 := sort_by snd (lslice list_sort 0 2) in
    let p34 := sort_by snd (lslice list_sort (-2) 4) in
    match p12, p34 with
    | [q1; q2], [q3; q4] =>
        let (y1, x1) := q1 in let (y2, x2) := q2 in let (y3, x3) := q3 in let (y4, x4) := q4 in
        let a12 := (y1 -! y2) /! (x1 -! x2) in
        let b12 := y1 -! a12 *! x1 in
        let a34 := (y3 -! y4) /! (x3 -! x4) in
        let b34 := y3 -! a34 *! x3 in
        let ah := (a12 +! a34) *! nofQ 1 2 in let bh := (b12 +! b34) *! nofQ 1 2 in
        let a13 := (x1 -! x3) /! (y1 -! y3) in
        let b13 := x1 -! a13 *! y1 in
        let a24 := (x2 -! x4) /! (y2 -! y4) in
        let b24 := x2 -! a24 *! y2 in
        let av := (a13 +! a24) *! nofQ 1 2 in let bv := (b13 +! b24) *! nofQ 1 2 in
        let a0 := nsign ah *! (nabs ah +! nabs av) *! nofQ 1 2 in
        let (dist_h, dist_v) := side_lengths scale equal_dist q1 q2 q3 q4 in
        let dist_h := dist_h *! nofQ 1 2 in let dist_v := dist_v *! nofQ 1 2 in
        let b1 := bh -! nabs (dist_v /! cos_ (arctan_ a0)) in
        let b2 := bh +! nabs (dist_v /! cos_ (arctan_ a0)) in
        let b3 := bv -! nabs (dist_h /! cos_ (arctan_ a0)) in
        let b4 := bv +! nabs (dist_h /! cos_ (arctan_ a0)) in
        let y1 := (a0 *! b3 +! b1) /! (n1 +! npow a0 2) in
        let x1 := nopp a0 *! y1 +! b3 in
        let y2 := (a0 *! b4 +! b1) /! (n1 +! npow a0 2) in
        let x2 := nopp a0 *! y2 +! b4 in
        let y3 := (a0 *! b3 +! b2) /! (n1 +! npow a0 2) in
        let x3 := nopp a0 *! y3 +! b3 in
        let y4 := (a0 *! b4 +! b2) /! (n1 +! npow a0 2) in
        let x4 := nopp a0 *! y4 +! b4 in
        Ok ([q1; q2; q3; q4], [(y1, x1); (y2, x2); (y3, x3); (y4, x4)])
    | _, _ => Err ValueError
    end.

  (** *** Perspective coefficients *)
  Variable lstsq : list (list T) -> list T -> res (list T).
  (** The two rows of lines 1262-1265 for a pair of (x, y) points.
      Used by processing.py 1228-1270 (calc_perspective_coefficients). *)
  Definition pers_rows (p1 p2 : T * T) : list (list T * T) :=
    [([fst p1; snd p1; n1; n0; n0; n0; nopp (fst p2) *! fst p1; nopp (fst p2) *! snd p1], fst p2);
     ([n0; n0; n0; fst p1; snd p1; n1; nopp (snd p2) *! fst p1; nopp (snd p2) *! snd p1], snd p2)].
  (** processing.py 1228-1270 calc_perspective_coefficients.  zip stops at the
      shorter list but B has all target coordinates: lstsq then raises
      LinAlgError.  np.fliplr of an empty list raises ValueError. *)
  Definition calc_perspective_coefficients (source_points target_points : list pnt) (forward : bool) : res (list T) :=
    let s_points := fliplr (if forward then source_points else target_points) in
    let t_points := fliplr (if forward then target_points else source_points) in
    match s_points, t_points with
    | [], _ | _, [] => Err ValueError
    | _, _ =>
        if (List.length s_points <? List.length t_points)%nat then Err LinAlgError else
        let rows := concat (map (fun st : (T * T) * (T * T) => pers_rows (fst st) (snd st)) (combine s_points t_points)) in
        lstsq (map fst rows) (map snd rows)
    end.

  (** *** Perspective effect on curved lines *)
  (** Used by processing.py 1299-1337 (get_representative_linear_coefs),
      processing.py 1340-1418 (correct_perspective_effect), processing.py
      1640-1650 (vanishing_loop) and others. *)
  Inductive rep_method := RMean | RMedian | RMax | RMin.
  (** processing.py 1299-1337 __get_representative_linear_coefs on the lines
      selected by the index array *)
  Definition get_representative_linear_coefs (sel : list coef) (method : rep_method) : res (T * T) :=
    match method with
    | RMedian => Ok (median (map cf1 sel), median (map cf2 sel))
    | RMax =>
        let list_sort := gather sel (argsort (map cf0 sel)) in
        first <- pyget list_sort 0 ;;
        c <- (if n0 <?! cf0 first then pyget list_sort (-1) else pyget list_sort 0) ;;
        Ok (cf1 c, cf2 c)
    | RMin =>
        let list_sort := gather sel (argsort (map cf0 sel)) in
        first <- pyget list_sort 0 ;;
        c <- (if n0 <?! cf0 first then pyget list_sort 0 else pyget list_sort (-1)) ;;
        Ok (cf1 c, cf2 c)
    | RMean => Ok (mean (map cf1 sel), mean (map cf2 sel))
    end.
  (** np.where(cond) is a tuple with one index array; the code tests the
      length of the tuple, not of the array (lines 1378-1401).
      Used by processing.py 1340-1418 (correct_perspective_effect). *)
  Definition representative (cond : coef -> bool) (cs : list coef) (method : rep_method) : res (T * T) :=
    let indices := [filter cond cs] in
    if (0 <? Z.of_nat (List.length indices))%Z then
      match indices with sel :: _ => get_representative_linear_coefs sel method | [] => Err ValueError end
    else Err ValueError.
  (** processing.py 1340-1418 correct_perspective_effect *)
  Definition correct_perspective_effect (list_hor_lines list_ver_lines : list (list pnt)) (xcenter ycenter : T)
      (method : rep_method) (scale : scale_opt) : res (list (list pnt) * list (list pnt)) :=
    h <- para_fit_hor polyfit list_hor_lines xcenter ycenter ;;
    v <- para_fit_ver polyfit list_ver_lines xcenter ycenter ;;
    let (list_coef_hor, list_hor_lines) := h : list coef * list (list pnt) in
    let (list_coef_ver, list_ver_lines) := v : list coef * list (list pnt) in
    if (List.length list_coef_hor <? 2)%nat then Err ValueError else
    if (List.length list_coef_ver <? 2)%nat then Err ValueError else
    bch1 <- representative (fun c => n0 <?! cf0 c) list_coef_hor method ;;
    bch2 <- representative (fun c => cf0 c <?! n0) list_coef_hor method ;;
    bcv1 <- representative (fun c => n0 <?! cf0 c) list_coef_ver method ;;
    bcv2 <- representative (fun c => cf0 c <?! n0) list_coef_ver method ;;
    let source_points := [cross_yx bch1 bcv1; cross_yx bch1 bcv2; cross_yx bch2 bcv1; cross_yx bch2 bcv2] in
    st <- generate_4_source_target_perspective_points source_points false false scale ;;
    pers_coef <- calc_perspective_coefficients (fst st) (snd st) true ;;
    corr_hor_lines <- correct_perspective_line list_hor_lines pers_coef ;;
    corr_ver_lines <- correct_perspective_line list_ver_lines pers_coef ;;
    Ok (update_center corr_hor_lines xcenter ycenter, update_center corr_ver_lines xcenter ycenter).

  (** *** Vanishing points *)
  (** np.roots; None when the result is complex *)
  Variable roots : list T -> option (list T).
  (** processing.py 1421-1445 _find_cross_point_between_parabolas_same_direction *)
  Definition same_direction_cross (p1 p2 : coef) : option (list T) :=
    roots [cf0 p1 -! cf0 p2; cf1 p1 -! cf1 p2; cf2 p1 -! cf2 p2].
  (** Value of a parabola; used by processing.py 1448-1543
      (find_center_based_vanishing_points), processing.py 1546-1607
      (find_center_2nd_way). *)
  Definition para_at (c : coef) (x : T) : T := cf0 c *! npow x 2 +! cf1 c *! x +! cf2 c.
  (** Lines 1493-1501, 1523-1531, 1573-1581, 1587-1595: the two points added
      for a pair of parabolas, as (position along the axis, value).
      Used by processing.py 1448-1543 (find_center_based_vanishing_points),
      processing.py 1546-1607 (find_center_2nd_way). *)
  Definition pair_points (p1 p2 : coef) : res (list (T * T)) :=
    match same_direction_cross p1 p2 with
    | None => Ok []
    | Some [t1; t2] => Ok [(t1, para_at p1 t1); (t2, para_at p2 t2)]
    | Some _ => Err ValueError
    end.
  (** Lines 1471-1488, 1504-1520: curves of one sign, sorted by |curvature|
      Used by processing.py 1448-1543 (find_center_based_vanishing_points). *)
  Definition curved (cond : coef -> bool) (cs : list coef) : list coef :=
    let sel := filter cond cs in gather sel (argsort (map (fun c => nabs (cf0 c)) sel)).
  (** Cross points of all pairs of parabolas with opposite curvatures
      (processing.py 1448-1543). *)
  Definition opposite_points (cs : list coef) : res (list (T * T)) :=
    let s1 := curved (fun c => n0 <?! cf0 c) cs in
    let s2 := curved (fun c => cf0 c <?! n0) cs in
    ps <- mapM (fun p : coef * coef => pair_points (fst p) (snd p)) (combine s1 s2) ;;
    Ok (concat ps).
  (** Lines 1533-1538, 1597-1602: crossing of the lines through the vanishing
      points
      Used by processing.py 1448-1543 (find_center_based_vanishing_points),
      processing.py 1546-1607 (find_center_2nd_way). *)
  Definition vanishing_center (hl vl : list (T * T)) : res (T * T) :=
    ab1 <- fit1 polyfit (map fst hl) (map snd hl) ;;
    ab2 <- fit1 polyfit (map fst vl) (map snd vl) ;;
    let (a1, b1) := ab1 : T * T in let (a2, b2) := ab2 : T * T in
    let ycenter := (a1 *! b2 +! b1) /! (n1 -! a1 *! a2) in
    Ok (a2 *! ycenter +! b2, ycenter).
  (** processing.py 1448-1543 find_center_based_vanishing_points *)
  Definition find_center_based_vanishing_points (list_hor_lines list_ver_lines : list (list pnt)) : res (T * T) :=
    h <- para_fit_hor polyfit list_hor_lines n0 n0 ;;
    v <- para_fit_ver polyfit list_ver_lines n0 n0 ;;
    xy_hlist <- opposite_points (fst h) ;;
    if (2 <? Z.of_nat (List.length xy_hlist))%Z then
      xy_vlist <- opposite_points (fst v) ;;
      if (2 <? Z.of_nat (List.length xy_vlist))%Z then vanishing_center xy_hlist xy_vlist
      else find_cod_bailey polyfit (snd h) (snd v) 2
    else find_cod_bailey polyfit (snd h) (snd v) 2.
  (** Lines 1570-1581, 1584-1595: every other line with the line of least curvature
      Used by processing.py 1546-1607 (find_center_2nd_way). *)
  Definition least_points (cs : list coef) : res (list (T * T)) :=
    pos_min <- argmin (map (fun c => nabs (cf0 c)) cs) ;;
    cmin <- pyget cs pos_min ;;
    let k := Z.to_nat pos_min in
    ps <- mapM (fun c => pair_points c cmin) (firstn k cs ++ skipn (S k) cs) ;;
    Ok (concat ps).
  (** processing.py 1546-1607 _find_center_based_vanishing_points_2nd_way *)
  Definition find_center_2nd_way (list_hor_lines list_ver_lines : list (list pnt)) : res (T * T) :=
    h <- para_fit_hor polyfit list_hor_lines n0 n0 ;;
    v <- para_fit_ver polyfit list_ver_lines n0 n0 ;;
    xy_hlist <- least_points (fst h) ;;
    if (2 <? Z.of_nat (List.length xy_hlist))%Z then
      xy_vlist <- least_points (fst v) ;;
      if (2 <? Z.of_nat (List.length xy_vlist))%Z then vanishing_center xy_hlist xy_vlist
      else find_cod_bailey polyfit (snd h) (snd v) 2
    else find_cod_bailey polyfit (snd h) (snd v) 2.
  (** processing.py 1640-1650: the iterations *)
  Fixpoint vanishing_loop (list_hor_lines list_ver_lines : list (list pnt)) (method : rep_method) (iteration : nat)
      (cen : T * T) : res (T * T) :=
    match iteration with
    | O => Ok cen
    | S k =>
        let (xcenter, ycenter) := cen in
        l1 <- correct_perspective_effect list_hor_lines list_ver_lines xcenter ycenter method ScMean ;;
        h1 <- para_fit_hor polyfit (fst l1) xcenter ycenter ;;
        v1 <- para_fit_ver polyfit (snd l1) xcenter ycenter ;;
        c1 <- find_center_2nd_way (snd h1) (snd v1) ;;
        vanishing_loop list_hor_lines list_ver_lines method k (xcenter +! fst c1, ycenter +! snd c1)
    end.
  (** processing.py 1610-1651 find_center_based_vanishing_points_iteration *)
  Definition find_center_based_vanishing_points_iteration (list_hor_lines list_ver_lines : list (list pnt))
      (iteration : Z) (method : rep_method) : res (T * T) :=
    c0 <- find_center_2nd_way list_hor_lines list_ver_lines ;;
    vanishing_loop list_hor_lines list_ver_lines method (Z.to_nat iteration) c0.
End ProcPers.
