(** Specification vocabulary for the perspective properties, independent of
    the model of the code (of which only the type of the scale option is used). *)
From Coq Require Import Reals ZArith List Lra Permutation.
From Verif Require Import Base Num Spec Lsq ProcSpec PrepSpec ProcPers.
Import ListNotations.
Local Open Scope R_scope.

(** n lines of m points, and the same points as m lines of n points. *)
Definition transposed {A} (n m : nat) (g h : list (list A)) : Prop :=
  length g = n /\ (forall r, In r g -> length r = m) /\ length h = m /\ (forall r, In r h -> length r = n) /\
  forall i j d, (i < n)%nat -> (j < m)%nat -> nth j (nth i g []) d = nth i (nth j h []) d.
(** Point j of line i. *)
Definition at_ (g : list (list pt)) (i j : nat) : pt := nth j (nth i g []) (0, 0).
(** Straight lines (slope, intercept): y = a x + b, or x = a y + b. *)
Definition on_hor (c : R * R) (p : pt) : Prop := py p = fst c * pxc p + snd c.
Definition on_ver (c : R * R) (p : pt) : Prop := pxc p = fst c * py p + snd c.
(** The straight line fitted to the points, stored with [st]. *)
Definition line_hor (st : R -> R) (polyfit : list R -> list R -> nat -> res (list R)) (line : list pt) (c : R * R) : Prop :=
  line <> [] /\ exists a b, polyfit (map pxc line) (map py line) 1%nat = Ok [a; b] /\ c = (st a, st b).
Definition line_ver (st : R -> R) (polyfit : list R -> list R -> nat -> res (list R)) (line : list pt) (c : R * R) : Prop :=
  line <> [] /\ exists a b, polyfit (map py line) (map pxc line) 1%nat = Ok [a; b] /\ c = (st a, st b).

(** Scalar product. *)
Definition pdot (p q : pt) : R := py p * py q + pxc p * pxc q.
(** The corner with v down and w to the right of o. *)
Definition lattice (o v w : pt) (i j : nat) : pt := padd o (padd (pscale (INR i) v) (pscale (INR j) w)).
(** Average, middle value, smallest and largest member. *)
Definition least (l : list R) (x : R) : Prop := In x l /\ forall y, In y l -> x <= y.
Definition greatest (l : list R) (x : R) : Prop := In x l /\ forall y, In y l -> y <= x.
(** The distance d of neighbouring lines according to the scale option, g
    being the measured distances. *)
Definition distance_for (scale : @scale_opt R) (g : list R) (d : R) : Prop :=
  g <> [] /\
  match scale with
  | ScMean => d = average g | ScVal s => d = s * average g
  | ScMedian => is_median g d | ScMin => least g d | ScMax => greatest g d
  end.
(** Squared deviation of the intercepts from a progression with distance x
    through the middle one. *)
Definition middle (l : list R) : R := nth (Nat.div2 (length l)) l 0.
Definition progression_error (l : list R) (x : R) : R :=
  Rsum (map (fun i => ((INR i - INR (Nat.div2 (length l))) * x + middle l - nth i l 0) ^ 2) (seq 0 (length l))).
(** The distance used for lines with the given intercepts: from the n lines
    on either side of the middle one, and, if asked for, optimised. *)
Definition line_step (minimize : (R -> R) -> R -> R) (scale : @scale_opt R) (opt : bool) (n : nat) (l : list R) (d : R) : Prop :=
  exists d0, distance_for scale (gaps (around (Nat.div2 (length l)) n l)) d0 /\
  (opt = false -> d = d0) /\
  (opt = true -> exists f, (forall x, f x = progression_error l x) /\ d = minimize f d0).
(** One distance from two. *)
Definition common_step (scale : @scale_opt R) (d e : R) : R :=
  match scale with ScMax => Rmax d e | ScMin => Rmin d e | _ => (d + e) / 2 end.
(** Number of lines used on either side of the middle. *)
Definition used (nh nv : nat) : nat := Nat.min (Nat.max (Nat.div2 nh - 1) 1) (Nat.max (Nat.div2 nv - 1) 1).
(** The common slope of the undistorted horizontal lines, from the lines
    measured: the slope of a measured line is fitted as a linear function of
    its intercept (with the sign changed for the vertical lines) and the two
    functions agree at the common slope; if they are almost parallel, it is
    the average of their values at intercept 0. *)
Definition common_slope (polyfit : list R -> list R -> nat -> res (list R)) (ch cv : list (R * R)) (a : R) : Prop :=
  exists ah bh av bv, polyfit (map snd ch) (map fst ch) 1%nat = Ok [ah; bh] /\
    polyfit (map snd cv) (map (fun c => - fst c) cv) 1%nat = Ok [av; bv] /\
    (1 / 10000 <= Rabs (ah - av) -> exists x, a = ah * x + bh /\ a = av * x + bv) /\
    (Rabs (ah - av) < 1 / 10000 -> a = (bh + bv) / 2).

(** Lines y = a x + b, one for each b of bs, and lines x = - a y + c, one for
    each c of cs: the former at right angles to the latter. *)
Definition parallel_hor (a : R) (bs : list R) (lh : list (list pt)) : Prop :=
  Forall2 (fun b line => (forall p, In p line -> on_hor (a, b) p) /\ distinct_values 2 (map pxc line)) bs lh.
Definition parallel_ver (a : R) (cs : list R) (lv : list (list pt)) : Prop :=
  Forall2 (fun c line => (forall p, In p line -> on_ver (- a, c) p) /\ distinct_values 2 (map py line)) cs lv.

(** q1 q2 above q3 q4; q1 left of q2, q3 left of q4. *)
Definition corners (q1 q2 q3 q4 : pt) : Prop :=
  py q1 < py q3 /\ py q1 < py q4 /\ py q2 < py q3 /\ py q2 < py q4 /\ pxc q1 < pxc q2 /\ pxc q3 < pxc q4.

(** Side lengths of the target rectangle for these corners. *)
Definition pick (scale : @scale_opt R) (d e : R) : R :=
  match scale with ScMax => Rmax d e | ScMin => Rmin d e | ScVal s => (d + e) / 2 * s | _ => (d + e) / 2 end.
Definition sides (scale : @scale_opt R) (equal : bool) (q1 q2 q3 q4 : pt) : R * R :=
  let h := pick scale (dist q1 q2) (dist q3 q4) in let v := pick scale (dist q1 q3) (dist q2 q4) in
  if equal then (Rabs (common_step scale v h), Rabs (common_step scale v h)) else (Rabs h, Rabs v).
(** p1 p2 p3 p4 are the corners of a rectangle: p1 p2 is one side, p1 p3
    another, p4 is opposite to p1. *)
Definition rectangle (p1 p2 p3 p4 : pt) : Prop := psub p2 p1 = psub p4 p3 /\ pdot (psub p2 p1) (psub p3 p1) = 0.
(** Slope and intercept of the straight line through two points. *)
Definition hor_slope (p q : pt) : R := (py q - py p) / (pxc q - pxc p).
Definition hor_inter (p q : pt) : R := py p - hor_slope p q * pxc p.
Definition ver_slope (p q : pt) : R := (pxc q - pxc p) / (py q - py p).
Definition ver_inter (p q : pt) : R := pxc p - ver_slope p q * py p.
Definition mid (p q : pt) : pt := pscale (1 / 2) (padd p q).
(** The direction of the target rectangle, its centre and side lengths. *)
Definition slope0 (q1 q2 q3 q4 : pt) : R :=
  let ah := (hor_slope q1 q2 + hor_slope q3 q4) / 2 in let av := (ver_slope q1 q3 + ver_slope q2 q4) / 2 in
  sgn ah * (Rabs ah + Rabs av) / 2.
Definition target_of (a : R) (c : pt) (hv : R * R) (p1 p2 p3 p4 : pt) : Prop :=
  let s := sqrt (1 + a ^ 2) in let e := pscale (fst hv / 2 / s) (a, 1) in let f := pscale (snd hv / 2 / s) (1, - a) in
  p1 = psub (psub c e) f /\ p2 = psub (padd c e) f /\ p3 = padd (psub c e) f /\ p4 = padd (padd c e) f.

(** a1 x + a2 y + a3 etc.: the projective map with coefficients c (8 numbers). *)
Definition proj_map (c : list R) : mat3 :=
  M3 (nth 0 c 0) (nth 1 c 0) (nth 2 c 0) (nth 3 c 0) (nth 4 c 0) (nth 5 c 0) (nth 6 c 0) (nth 7 c 0) 1.

(** The map with coefficients c sends p to q. *)
Definition sends (c : list R) (p q : pt) : Prop := length c = 8%nat /\ den (proj_map c) p <> 0 /\ proj (proj_map c) p = q.
(** Not on one straight line. *)
Definition area (p q r : pt) : R := (pxc q - pxc p) * (py r - py p) - (pxc r - pxc p) * (py q - py p).
Definition triangle (p q r : pt) : Prop := area p q r <> 0.
(** Four points, no three of them on one line. *)
Definition general_position (p1 p2 p3 p4 : pt) : Prop :=
  triangle p1 p2 p3 /\ triangle p4 p2 p3 /\ triangle p1 p4 p3 /\ triangle p1 p2 p4.

(** np.roots for polynomials of degree at most two: both real roots, None for
    complex ones, and at most one root when the leading coefficient is zero. *)
Definition roots_oracle (roots : list R -> option (list R)) : Prop :=
  (forall a b c, a <> 0 -> b ^ 2 - 4 * a * c < 0 -> roots [a; b; c] = None) /\
  (forall a b c, a <> 0 -> 0 <= b ^ 2 - 4 * a * c ->
     exists r s, roots [a; b; c] = Some [r; s] /\ forall x, a * x ^ 2 + b * x + c = a * (x - r) * (x - s)) /\
  (forall b c, exists l, roots [0; b; c] = Some l /\ (length l <= 1)%nat).

(** In any arithmetic: the parabolas fitted to lines with points, coordinates
    relative to (x, y), stored as float32. *)
Definition parabolas_hor {T} {N : Num T} (polyfit : list T -> list T -> nat -> res (list T)) (x y : T) (lines : list (list (T * T))) (cs : list (T * T * T)) : Prop :=
  Forall2 (fun line c => line <> [] /\ exists u v w, c = (nf32 u, nf32 v, nf32 w) /\
    polyfit (map (fun p => nsub (snd p) x) line) (map (fun p => nsub (fst p) y) line) 2%nat = Ok [u; v; w]) lines cs.
Definition parabolas_ver {T} {N : Num T} (polyfit : list T -> list T -> nat -> res (list T)) (x y : T) (lines : list (list (T * T))) (cs : list (T * T * T)) : Prop :=
  Forall2 (fun line c => line <> [] /\ exists u v w, c = (nf32 u, nf32 v, nf32 w) /\
    polyfit (map (fun p => nsub (fst p) y) line) (map (fun p => nsub (snd p) x) line) 2%nat = Ok [u; v; w]) lines cs.
(** No parabola opens one of the ways. *)
Definition one_sided {T} {N : Num T} (cs : list (T * T * T)) : Prop :=
  (forall c, In c cs -> nltb n0 (fst (fst c)) = false) \/ (forall c, In c cs -> nltb (fst (fst c)) n0 = false).

(** The parabola y = a x^2 + b x + c at x. *)
Definition parabola (c : R * R * R) (x : R) : R := fst (fst c) * x ^ 2 + snd (fst c) * x + snd c.
(** The solver finds a point (x, y) at which y is within e of the parabola c
    and x within e of the parabola d. *)
Definition solved_within (e : R) (fsolve : (R * R -> R * R) -> R * R -> R * R) (c d : R * R * R) : Prop :=
  forall F s, (forall x y, F (x, y) = (parabola c x - y, parabola d y - x)) ->
  Rabs (fst (F (fsolve F s))) <= e /\ Rabs (snd (F (fsolve F s))) <= e.

(** Number of lines before and after position w. *)
Definition before (w : R) (cs : list R) : nat := length (filter (fun c => if Rlt_dec c w then true else false) cs).
Definition after (w : R) (cs : list R) : nat := length (filter (fun c => if Rlt_dec w c then true else false) cs).

(** Regular parabolas: all with the same slope b at the centre (-b for the
    vertical ones), the two directions scaled to the same line distance.
    Slopes are fitted as linear functions of the intercept, agreeing at b; if
    those are almost parallel b is the average of their values at 0. *)
Definition regular_slope (polyfit : list R -> list R -> nat -> res (list R)) (ch cv : list (R * R * R)) (b : R) : Prop :=
  exists ah bh av bv, polyfit (map snd ch) (map (fun c : R * R * R => snd (fst c)) ch) 1%nat = Ok [ah; bh] /\
    polyfit (map snd cv) (map (fun c : R * R * R => - snd (fst c)) cv) 1%nat = Ok [av; bv] /\
    (1 / 1000 <= Rabs (ah - av) -> exists x, b = ah * x + bh /\ b = av * x + bv) /\
    (Rabs (ah - av) < 1 / 1000 -> b = (bh + bv) / 2).
(** Average distance of the lines next to the change of curvature sign. *)
Definition central_distance (n : nat) (cs : list (R * R * R)) (d : R) : Prop :=
  exists i, main_change cs i /\ d = average (gaps (around (S i) n (map snd cs))).
Definition regular (b f : R) (c : R * R * R) : R * R * R := (fst (fst c) * f, b, snd c * f).
