(** Model of discorpy/prep/preprocessing.py: functions on point lists
    (lines 561-813, 1000-1404).  A point is (y, x).  [argsort] is
    ndarray.argsort; np.polyfit is a parameter returning the coefficients,
    highest power first, or raising. *)
From Coq Require Import ZArith.
From Verif Require Import Base Num Img Post PrepImg.
Local Open Scope Z_scope.

(** a[idx] for indices in range
    Used by preprocessing.py 654-658 (dots_not_in), preprocessing.py 601-668
    (group_dots_hor_lines), preprocessing.py 671-740 (group_dots_ver_lines)
    and others. *)
Definition gather {A} (l : list A) (idx : list nat) : list A :=
  flat_map (fun k => match nth_error l k with Some x => [x] | None => [] end) idx.
(** max(list) of lengths: np.max raises on an empty list.
    Used by preprocessing.py 601-668 (group_dots_hor_lines), preprocessing.py
    671-740 (group_dots_ver_lines), preprocessing.py 1213-1223
    (distinct_lines). *)
Definition max_len {A} (lines : list (list A)) : res Z :=
  match lines with
  | [] => Err ValueError
  | _ => Ok (zmax_list (map (fun l => Z.of_nat (List.length l)) lines))
  end.

Section PrepPts.
  Context {T : Type} {N : Num T}.
  Local Open Scope num_scope.
  Notation pnt := (T * T)%type.
  Variable argsort : list T -> list nat.

  (** preprocessing.py 561-598 _check_dot_on_line (dots have two coordinates) *)
  Definition check_dot_on_line (dot1 dot2 : pnt) (slope dot_dist ratio : T) (num_dot_miss : Z) : bool :=
    let dist_error := ratio *! dot_dist in
    let search_dist := nofZ num_dot_miss *! dot_dist in
    let xmin := snd dot1 -! search_dist in
    let xmax := snd dot1 +! search_dist in
    if (xmin <?! snd dot2) && (snd dot2 <?! xmax) then
      let ntemp1 := nsqrt (slope *! slope +! n1) in
      let ntemp2 := fst dot1 -! slope *! snd dot1 in
      let dist_d12 := nabs (slope *! snd dot2 -! fst dot2 +! ntemp2) /! ntemp1 in
      if dist_d12 <?! dist_error then true else false
    else false.

  (** The argument: a binary image (last axis longer than 2) or points.
      Used by preprocessing.py 601-668 (group_dots_hor_lines),
      preprocessing.py 671-740 (group_dots_ver_lines). *)
  Inductive dots_in := DImg (m : image T) | DPts (l : list pnt).

  (** preprocessing.py 643-653 / 714-724: one line; the state is
      (dot1, dots_selected, pos_get). *)
  Definition scan_line (check : pnt -> pnt -> bool) (d1 : pnt) (list_dots_left : list pnt) : list pnt * list nat :=
    let '(_, dots_selected, pos_get) :=
      fold_left (fun '(dot1, sel, pos) i =>
        match nth_error list_dots_left i with
        | Some dot2 => if check dot1 dot2 then (dot2, sel ++ [dot2], pos ++ [i]) else (dot1, sel, pos)
        | None => (dot1, sel, pos)
        end) (seq 1 (List.length list_dots_left - 1)) (d1, [d1], [0%nat]) in
    (dots_selected, pos_get).
  (** preprocessing.py 654-658: the dots not taken *)
  Definition dots_not_in (list_dots_left : list pnt) (pos_get : list nat) : list pnt :=
    let list_pos := seq 0 (List.length list_dots_left) in
    gather list_dots_left (filter (fun pos => negb (existsb (Nat.eqb pos) pos_get)) list_pos).

  (** preprocessing.py 642-661: the while loop; [fuel] bounds the number of
      lines and [External] (fuel used up) does not occur. *)
  Fixpoint group_hor_loop (check : pnt -> pnt -> bool) (fuel : nat) (list_dots_left : list pnt)
      (list_lines : list (list pnt)) : res (list (list pnt)) :=
    match list_dots_left with
    | d1 :: _ :: _ =>
        match fuel with
        | O => Err External
        | S k =>
            let (dots_selected, pos_get) := scan_line check d1 list_dots_left in
            group_hor_loop check k (dots_not_in list_dots_left pos_get)
              (if (1 <? Z.of_nat (List.length dots_selected))%Z then list_lines ++ [dots_selected] else list_lines)
        end
    | _ => Ok list_lines
    end.
  (** preprocessing.py 630-641, 700-712.  An image without dots gives an empty
      1-D array: list_dots_left[:, 1] raises IndexError, np.fliplr ValueError
      ([err]). *)
  Variable label : image T -> image Z * Z.
  (** The dots of the argument: given points, or the centres of the labelled
      dots of an image; used by preprocessing.py 601-668 (group_dots_hor_lines),
      preprocessing.py 671-740 (group_dots_ver_lines). *)
  Definition dots_of (err : exn) (mat : dots_in) : res (list pnt) :=
    match mat with
    | DImg m => let (mat_label, num_dots) := label (to_int16 m) in
                match centers m mat_label num_dots with
                | [] => Err err
                | l => Ok l
                end
    | DPts [] => Err ValueError
    | DPts l => Ok l
    end.
  (** preprocessing.py 601-668 group_dots_hor_lines *)
  Definition group_dots_hor_lines (mat : dots_in) (slope dot_dist ratio : T) (num_dot_miss : Z) (accepted_ratio : T)
    : res (list (list pnt)) :=
    list_dots <- dots_of IndexError mat ;;
    let list_dots_left := gather list_dots (argsort (map snd list_dots)) in
    list_lines <- group_hor_loop (fun d1 d2 => check_dot_on_line d1 d2 slope dot_dist ratio num_dot_miss)
                    (List.length list_dots_left) list_dots_left [] ;;
    m <- max_len list_lines ;;
    let len_accepted := ntrunc (accepted_ratio *! nofZ m) in
    let lines_selected := filter (fun l => (len_accepted <? Z.of_nat (List.length l))%Z) list_lines in
    Ok (sorted (fun l => mean (map fst l)) lines_selected).

  (** np.fliplr of an (N, 2) array
      Used by preprocessing.py 713-733 (group_ver_loop), preprocessing.py
      671-740 (group_dots_ver_lines), preprocessing.py 799-809
      (residual_left_ver). *)
  Definition fliplr (l : list pnt) : list pnt := map (fun p : pnt => (snd p, fst p)) l.
  (** preprocessing.py 713-733: the while loop of group_dots_ver_lines *)
  Fixpoint group_ver_loop (check : pnt -> pnt -> bool) (fuel : nat) (list_dots_left : list pnt)
      (list_lines : list (list pnt)) : res (list (list pnt)) :=
    match list_dots_left with
    | d1 :: _ :: _ =>
        match fuel with
        | O => Err External
        | S k =>
            let (dots_selected, pos_get) := scan_line check d1 list_dots_left in
            group_ver_loop check k (dots_not_in list_dots_left pos_get)
              (if (1 <? Z.of_nat (List.length dots_selected))%Z then list_lines ++ [fliplr dots_selected] else list_lines)
        end
    | _ => Ok list_lines
    end.
  (** preprocessing.py 671-740 group_dots_ver_lines *)
  Definition group_dots_ver_lines (mat : dots_in) (slope dot_dist ratio : T) (num_dot_miss : Z) (accepted_ratio : T)
    : res (list (list pnt)) :=
    list_dots <- dots_of ValueError mat ;;
    let list_dots := fliplr list_dots in
    let list_dots_left := gather list_dots (argsort (map snd list_dots)) in
    list_lines <- group_ver_loop (fun d1 d2 => check_dot_on_line d1 d2 slope dot_dist ratio num_dot_miss)
                    (List.length list_dots_left) list_dots_left [] ;;
    m <- max_len list_lines ;;
    let len_accepted := ntrunc (accepted_ratio *! nofZ m) in
    let lines_selected := filter (fun l => (len_accepted <? Z.of_nat (List.length l))%Z) list_lines in
    Ok (sorted (fun l => mean (map snd l)) lines_selected).

  (** *** Residual dots *)
  Variables (cos_ sin_ atan_ : T -> T).
  (** np.polyfit(x, y, order): coefficients, highest power first. *)
  Variable polyfit : list T -> list T -> nat -> res (list T).
  (** preprocessing.py 763-770: one horizontal line *)
  Definition residual_left_hor (slope residual : T) (list_ : list pnt) : res (list pnt) :=
    v <- polyfit (map snd list_) (map fst list_) 2 ;;
    match v with
    | [a2; a1; a0] =>
        let c := cos_ (atan_ slope) in
        Ok (filter (fun p : pnt =>
              nabs ((a2 *! npow (snd p) 2 +! a1 *! snd p +! a0 -! fst p) *! c) <?! residual) list_)
    | _ => Err ValueError
    end.
  (** preprocessing.py 743-775 remove_residual_dots_hor *)
  Definition remove_residual_dots_hor (list_lines : list (list pnt)) (slope residual : T) : res (list (list pnt)) :=
    lefts <- mapM (residual_left_hor slope residual) list_lines ;;
    match filter (fun l => (0 <? Z.of_nat (List.length l))%Z) lefts with
    | [] => Err ValueError
    | list_lines2 => Ok list_lines2
    end.
  (** preprocessing.py 799-809: one vertical line *)
  Definition residual_left_ver (slope residual : T) (list_ : list pnt) : res (list pnt) :=
    let list_ := fliplr list_ in
    v <- polyfit (map snd list_) (map fst list_) 2 ;;
    match v with
    | [a2; a1; a0] =>
        let c := cos_ (atan_ slope) in
        Ok (fliplr (filter (fun p : pnt =>
              nabs ((a2 *! npow (snd p) 2 +! a1 *! snd p +! a0 -! fst p) *! c) <?! residual) list_))
    | _ => Err ValueError
    end.
  (** preprocessing.py 778-813 remove_residual_dots_ver *)
  Definition remove_residual_dots_ver (list_lines : list (list pnt)) (slope residual : T) : res (list (list pnt)) :=
    lefts <- mapM (residual_left_ver slope residual) list_lines ;;
    match filter (fun l => (0 <? Z.of_nat (List.length l))%Z) lefts with
    | [] => Err ValueError
    | list_lines2 => Ok list_lines2
    end.

  (** *** Rotation, subsets *)
  Variable pi_ : T.
  (** preprocessing.py 1000-1025 rotate_points, for an array of N points
      (an empty plain list would raise at points[:, 1]) *)
  Definition rotate_points (points : list pnt) (angle : T) (degree_unit : bool) : list pnt :=
    let angle := if degree_unit then angle *! (pi_ /! nofZ 180) else angle in
    map (fun p : pnt =>
      let x := snd p in let y := fst p in
      (x *! sin_ angle +! y *! cos_ angle, x *! cos_ angle -! y *! sin_ angle)) points.
  (** preprocessing.py 1028-1047 remove_subset_points (no NaN) *)
  Definition pnt_eqb (a b : pnt) : bool := (fst a =?! fst b) && (snd a =?! snd b).
  (** The whole function (preprocessing.py 1028-1047). *)
  Definition remove_subset_points (selected_points points : list pnt) : list pnt :=
    filter (fun pair => negb (existsb (pnt_eqb pair) selected_points)) points.

  (** *** Polynomial-fit grouping *)
  (** np.poly1d(v)(x): Horner
      Used by preprocessing.py 1050-1077 (get_nearby_hor_points),
      preprocessing.py 1229-1256 (get_nearby_ver_points). *)
  Definition poly1d (v : list T) (x : T) : T := fold_left (fun acc a => acc *! x +! a) v n0.
  (** preprocessing.py 1050-1077 _get_nearby_hor_points *)
  Definition get_nearby_hor_points (current_points points : list pnt) (residual : T) (order : nat) : res (list pnt) :=
    v <- polyfit (map snd current_points) (map fst current_points) order ;;
    Ok (filter (fun p : pnt => nabs (fst p -! poly1d v (snd p)) <=?! residual) points).
  (** preprocessing.py 1229-1256 _get_nearby_ver_points *)
  Definition get_nearby_ver_points (current_points points : list pnt) (residual : T) (order : nat) : res (list pnt) :=
    v <- polyfit (map fst current_points) (map snd current_points) order ;;
    Ok (filter (fun p : pnt => nabs (snd p -! poly1d v (fst p)) <=?! residual) points).

  (** np.unique(a, axis=0): distinct rows in lexicographic order
      Used by preprocessing.py 1120-1141 (nearby_hor_loop), preprocessing.py
      1299-1320 (nearby_ver_loop). *)
  Definition lex_ltb (a b : pnt) : bool :=
    (fst a <?! fst b) || ((fst a =?! fst b) && (snd a <?! snd b)).
  (** Insertion into a sorted list of rows without repetition; used by
      preprocessing.py 1120-1141 (nearby_hor_loop), preprocessing.py 1299-1320
      (nearby_ver_loop). *)
  Fixpoint insert_row (x : pnt) (l : list pnt) : list pnt :=
    match l with
    | [] => [x]
    | y :: l' => if pnt_eqb x y then l else if lex_ltb x y then x :: l else y :: insert_row x l'
    end.
  (** np.unique(points, axis=0); used by preprocessing.py 1120-1141
      (nearby_hor_loop), preprocessing.py 1299-1320 (nearby_ver_loop). *)
  Definition unique_rows (l : list pnt) : list pnt := fold_right insert_row [] l.

  (** preprocessing.py 1120-1141: the loop of _get_nearby_hor_points_iter;
      [fuel] bounds the iterations ([External] when used up). *)
  Fixpoint nearby_hor_loop (fuel : nat) (points : list pnt) (search_dist overlap residual : T) (order : nat)
      (xr_curr xr_next xl_curr xl_next : T) (selected_points : list pnt) : res (list pnt) :=
    match fuel with
    | O => Err External
    | S k =>
        let xr_next1 := xr_next +! overlap in let xr_curr1 := xr_curr -! overlap in
        let xl_next1 := xl_next -! overlap in let xl_curr1 := xl_curr +! overlap in
        let near := filter (fun p : pnt => let x := snd p in
          ((x <=?! xr_next1) && (xr_curr1 <?! x)) || ((xl_next1 <=?! x) && (x <?! xl_curr1))) points in
        match near with
        | [] => Ok selected_points
        | _ =>
            nearby_points <- get_nearby_hor_points selected_points near residual order ;;
            match nearby_points with
            | [] => Ok selected_points
            | _ => nearby_hor_loop k points search_dist overlap residual order
                     xr_next (xr_next +! search_dist) xl_next (xl_next -! search_dist)
                     (unique_rows (selected_points ++ nearby_points))
            end
        end
    end.
  (** preprocessing.py 1080-1141 _get_nearby_hor_points_iter *)
  Definition get_nearby_hor_points_iter (fuel : nat) (initial_points points : list pnt) (x_left x_right search_dist residual
      overlap_ratio : T) (order : nat) : res (list pnt) :=
    let overlap_ratio := nclip overlap_ratio n0 n1 in
    let overlap := search_dist *! overlap_ratio in
    let xr_curr := x_right in let xr_next := xr_curr +! search_dist in
    let xl_curr := x_left in let xl_next := xl_curr -! search_dist in
    nearby_hor_loop fuel points search_dist overlap residual order xr_curr xr_next xl_curr xl_next initial_points.
  (** preprocessing.py 1299-1320: the loop of _get_nearby_ver_points_iter *)
  Fixpoint nearby_ver_loop (fuel : nat) (points : list pnt) (search_dist overlap residual : T) (order : nat)
      (yr_curr yr_next yl_curr yl_next : T) (selected_points : list pnt) : res (list pnt) :=
    match fuel with
    | O => Err External
    | S k =>
        let yr_next1 := yr_next +! overlap in let yr_curr1 := yr_curr -! overlap in
        let yl_next1 := yl_next -! overlap in let yl_curr1 := yl_curr +! overlap in
        let near := filter (fun p : pnt => let y := fst p in
          ((y <=?! yr_next1) && (yr_curr1 <?! y)) || ((yl_next1 <=?! y) && (y <?! yl_curr1))) points in
        match near with
        | [] => Ok selected_points
        | _ =>
            nearby_points <- get_nearby_ver_points selected_points near residual order ;;
            match nearby_points with
            | [] => Ok selected_points
            | _ => nearby_ver_loop k points search_dist overlap residual order
                     yr_next (yr_next +! search_dist) yl_next (yl_next -! search_dist)
                     (unique_rows (selected_points ++ nearby_points))
            end
        end
    end.
  (** preprocessing.py 1259-1320 _get_nearby_ver_points_iter *)
  Definition get_nearby_ver_points_iter (fuel : nat) (initial_points points : list pnt) (y_left y_right search_dist residual
      overlap_ratio : T) (order : nat) : res (list pnt) :=
    let overlap_ratio := nclip overlap_ratio n0 n1 in
    let overlap := search_dist *! overlap_ratio in
    let yr_curr := y_right in let yr_next := yr_curr +! search_dist in
    let yl_curr := y_left in let yl_next := yl_curr -! search_dist in
    nearby_ver_loop fuel points search_dist overlap residual order yr_curr yr_next yl_curr yl_next initial_points.

  (** preprocessing.py 1198-1212: the loop over the groups; [selected_points]
      survives from one group to the next. *)
  Fixpoint polyfit_hor_loop (fuel : nat) (points : list pnt) (angle search_dist residual overlap_ratio : T) (order : nat)
      (groups : list (list pnt)) (selected_points : list pnt) (list_lines : list (list pnt)) : res (list (list pnt)) :=
    match groups with
    | [] => Ok list_lines
    | current_points :: groups' =>
        selected_points <-
          (if (2 <? Z.of_nat (List.length current_points))%Z then
             first <- pyget current_points 0 ;; last <- pyget current_points (-1) ;;
             get_nearby_hor_points_iter fuel current_points points (snd first) (snd last) search_dist residual overlap_ratio order
           else Ok selected_points) ;;
        if (2 <? Z.of_nat (List.length selected_points))%Z then
          let selected_points := rotate_points selected_points (nopp angle) false in
          let selected_points := gather selected_points (argsort (map snd selected_points)) in
          polyfit_hor_loop fuel points angle search_dist residual overlap_ratio order groups' selected_points (list_lines ++ [selected_points])
        else polyfit_hor_loop fuel points angle search_dist residual overlap_ratio order groups' selected_points list_lines
    end.
  (** [abs(b - a) > d] for the consecutive values (np.diff, np.where), as the
      list ids.
      Used by preprocessing.py 1213-1223 (distinct_lines). *)
  Fixpoint jumps (i : nat) (d : T) (vals : list T) : list nat :=
    match vals with
    | a :: (b :: _) as r => if d <?! nabs (b -! a) then i :: jumps (S i) d r else jumps (S i) d r
    | _ => []
    end.
  (** preprocessing.py 1213-1223, 1391-1401: long lines, without repeated ones *)
  Definition distinct_lines (line_dist accepted_ratio : T) (key : list pnt -> T) (list_lines : list (list pnt))
    : res (list (list pnt)) :=
    m <- max_len list_lines ;;
    let len_accepted := wrap16 (ntrunc (accepted_ratio *! nofZ m)) in
    let lines_selected := filter (fun l => (len_accepted <? Z.of_nat (List.length l))%Z) list_lines in
    let ids := jumps 0 (nofQ 1 10 *! line_dist) (map key lines_selected) in
    Ok (match ids with
        | [] => lines_selected
        | _ => let ids := 0%nat :: map S ids in
               map snd (filter (fun il => existsb (Nat.eqb (fst il)) ids)
                 (combine (seq 0 (List.length lines_selected)) lines_selected))
        end).
  (** preprocessing.py 1144-1226 group_dots_hor_lines_based_polyfit *)
  Definition group_dots_hor_lines_based_polyfit (fuel : nat) (points : list pnt) (slope line_dist ratio : T) (num_dot_miss : Z)
      (accepted_ratio overlap_ratio : T) (order : nat) : res (list (list pnt)) :=
    let angle := nopp (atan_ slope) in
    let num_points := Z.of_nat (List.length points) in
    if (num_points =? 0)%Z then Err ValueError else
    let points := rotate_points points angle false in
    let points := gather points (argsort (map snd points)) in
    let x_list := map snd points in
    x_min <- pyget x_list 0 ;; x_max <- pyget x_list (-1) ;;
    let x_mid := (x_min +! x_max) *! nofQ 1 2 in
    let num_dot_miss := Z.min (Z.max num_dot_miss 1) num_points in
    let search_dist := nofZ num_dot_miss *! line_dist +! nofQ 1 2 *! line_dist in
    let x_start := nclip (x_mid -! search_dist) x_min x_max in
    let x_stop := nclip (x_mid +! search_dist) x_min x_max in
    let selected_points := filter (fun p : pnt => (x_start <=?! snd p) && (snd p <=?! x_stop)) points in
    list_lines <-
      match selected_points with
      | [] => Ok []
      | _ =>
          grouped_points <- group_dots_hor_lines (DPts selected_points) n0 line_dist ratio num_dot_miss accepted_ratio ;;
          let residual := ratio *! line_dist in
          polyfit_hor_loop fuel points angle search_dist residual overlap_ratio order grouped_points selected_points []
      end ;;
    lines_selected <- distinct_lines line_dist accepted_ratio (fun l => median (map fst l)) list_lines ;;
    Ok (sorted (fun l => mean (map fst l)) lines_selected).
  (** preprocessing.py 1377-1390: the loop over the groups *)
  Fixpoint polyfit_ver_loop (fuel : nat) (points : list pnt) (angle search_dist residual overlap_ratio : T) (order : nat)
      (groups : list (list pnt)) (selected_points : list pnt) (list_lines : list (list pnt)) : res (list (list pnt)) :=
    match groups with
    | [] => Ok list_lines
    | current_points :: groups' =>
        selected_points <-
          (if (2 <? Z.of_nat (List.length current_points))%Z then
             first <- pyget current_points 0 ;; last <- pyget current_points (-1) ;;
             get_nearby_ver_points_iter fuel current_points points (fst first) (fst last) search_dist residual overlap_ratio order
           else Ok selected_points) ;;
        if (2 <? Z.of_nat (List.length selected_points))%Z then
          let selected_points := rotate_points selected_points (nopp angle) false in
          let selected_points := gather selected_points (argsort (map fst selected_points)) in
          polyfit_ver_loop fuel points angle search_dist residual overlap_ratio order groups' selected_points (list_lines ++ [selected_points])
        else polyfit_ver_loop fuel points angle search_dist residual overlap_ratio order groups' selected_points list_lines
    end.
  (** preprocessing.py 1323-1404 group_dots_ver_lines_based_polyfit *)
  Definition group_dots_ver_lines_based_polyfit (fuel : nat) (points : list pnt) (slope line_dist ratio : T) (num_dot_miss : Z)
      (accepted_ratio overlap_ratio : T) (order : nat) : res (list (list pnt)) :=
    let angle := atan_ slope in
    let num_points := Z.of_nat (List.length points) in
    if (num_points =? 0)%Z then Err ValueError else
    let points := rotate_points points angle false in
    let points := gather points (argsort (map fst points)) in
    let y_list := map fst points in
    y_min <- pyget y_list 0 ;; y_max <- pyget y_list (-1) ;;
    let y_mid := (y_min +! y_max) *! nofQ 1 2 in
    let num_dot_miss := Z.min (Z.max num_dot_miss 1) num_points in
    let search_dist := nofZ num_dot_miss *! line_dist +! nofQ 1 2 *! line_dist in
    let y_start := nclip (y_mid -! search_dist) y_min y_max in
    let y_stop := nclip (y_mid +! search_dist) y_min y_max in
    let selected_points := filter (fun p : pnt => (y_start <=?! fst p) && (fst p <=?! y_stop)) points in
    list_lines <-
      match selected_points with
      | [] => Ok []
      | _ =>
          grouped_points <- group_dots_ver_lines (DPts selected_points) n0 line_dist ratio num_dot_miss accepted_ratio ;;
          let residual := ratio *! line_dist in
          polyfit_ver_loop fuel points angle search_dist residual overlap_ratio order grouped_points selected_points []
      end ;;
    lines_selected <- distinct_lines line_dist accepted_ratio (fun l => median (map snd l)) list_lines ;;
    Ok (sorted (fun l => mean (map snd l)) lines_selected).
End PrepPts.
