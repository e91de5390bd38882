(** Specification vocabulary for the calibration properties, independent of
    the model of the code. *)
From Coq Require Import Reals ZArith List Lra.
From Flocq Require Import Core.
From Verif Require Import Base Num Spec Lsq.
Import ListNotations.
Local Open Scope R_scope.

(** Exact real arithmetic, with [st] applied wherever the code stores into a
    float32 array: [Rst f32] stores binary32 numbers, [Rexact] stores exactly. *)
Definition Rst (st : R -> R) : Num R := {|
  nadd := Rplus; nsub := Rminus; nmul := Rmult; ndiv := Rdiv; nopp := Ropp; nabs := Rabs; nsqrt := sqrt;
  npow := pow; nleb := Rle_bool; nltb := Rlt_bool; neqb := Req_bool;
  nofZ := IZR; nofQ := fun p q => IZR p / IZR q;
  nfloor := Zfloor; nceil := Zceil; ntrunc := Ztrunc;
  nrint := ZnearestE; nf32 := st |}.
Definition Rexact : Num R := Rst (fun x => x).

(** np.polyfit and np.linalg.lstsq return a least-squares solution. *)
Definition polyfit_oracle (f : list R -> list R -> nat -> res (list R)) : Prop :=
  forall xs ys deg, xs <> [] -> length xs = length ys ->
  exists v, f xs ys deg = Ok v /\ polyfit_spec deg xs ys v.
Definition lstsq_oracle (f : list (list R) -> list R -> res (list R)) : Prop :=
  forall n rows ys, rows <> [] -> length rows = length ys -> (forall r, In r rows -> length r = n) ->
  exists v, f rows ys = Ok v /\ is_lsq n rows ys v.
(** optimize.minimize finds the minimum of a quadratic function, from any
    starting point. *)
Definition minimize_oracle (f : (R -> R) -> R -> R) : Prop :=
  forall g A B C x0, 0 < A -> (forall x, g x = A * x ^ 2 + B * x + C) -> forall x, g (f g x0) <= g x.

(** Enough distinct numbers to determine a polynomial with n coefficients. *)
Definition distinct_values (n : nat) (l : list R) : Prop :=
  exists d, NoDup d /\ (forall x, In x d -> In x l) /\ (n <= length d)%nat.
(** Points of a horizontal (vertical) line of a grid under the ideal parabolic
    distortion of strength k about the centre (yc, xc): the line at ordinate
    (abscissa) c becomes a parabola whose curvature is proportional to its
    distance from the centre. *)
Definition ideal_hor (k xc yc c : R) (line : list (R * R)) : Prop :=
  (forall p, In p line -> py p = k * (c - yc) * (pxc p - xc) ^ 2 + c) /\ distinct_values 3 (map pxc line).
Definition ideal_ver (k xc yc d : R) (line : list (R * R)) : Prop :=
  (forall p, In p line -> pxc p = k * (d - xc) * (py p - yc) ^ 2 + d) /\ distinct_values 3 (map py line).

(** Neighbours in a list. *)
Definition adjacent {A} (l : list A) (a b : A) : Prop := exists l1 l2, l = l1 ++ a :: b :: l2.

(** Signs: -1, 0 or 1. *)
Definition sgn (x : R) : R := if Rlt_dec 0 x then 1 else if Rlt_dec x 0 then -1 else 0.
(** The least-squares parabola y = a x^2 + b x + c of the points of a line
    (x = a y^2 + b y + c for a vertical line), stored with [st]. *)
Definition fitted_hor (st : R -> R) (line : list (R * R)) (c : R * R * R) : Prop :=
  exists u v w, polyfit_spec 2 (map pxc line) (map py line) [u; v; w] /\ c = (st u, st v, st w).
Definition fitted_ver (st : R -> R) (line : list (R * R)) (c : R * R * R) : Prop :=
  exists u v w, polyfit_spec 2 (map py line) (map pxc line) [u; v; w] /\ c = (st u, st v, st w).
(** Curvature, slope and intercept of parabola number i. *)
Definition curv (cs : list (R * R * R)) (i : nat) : R := fst (fst (nth i cs (0, 0, 0))).
Definition slope (cs : list (R * R * R)) (i : nat) : R := snd (fst (nth i cs (0, 0, 0))).
Definition inter (cs : list (R * R * R)) (i : nat) : R := snd (nth i cs (0, 0, 0)).
(** The curvature sign changes most between parabolas i and i + 1, for the
    first time. *)
Definition sign_jump (cs : list (R * R * R)) (i : nat) : R := Rabs (sgn (curv cs (S i)) - sgn (curv cs i)).
Definition main_change (cs : list (R * R * R)) (i : nat) : Prop :=
  (S i < length cs)%nat /\ (forall j, (S j < length cs)%nat -> sign_jump cs j <= sign_jump cs i) /\
  (forall j, (j < i)%nat -> sign_jump cs j < sign_jump cs i).

(** Position of the first smallest value. *)
Definition first_min (l : list R) (k : nat) : Prop :=
  (k < length l)%nat /\ (forall j, (j < length l)%nat -> nth k l 0 <= nth j l 0) /\ (forall j, (j < k)%nat -> nth k l 0 < nth j l 0).
(** Members at most n positions away from position i. *)
Definition around {A} (i n : nat) (l : list A) : list A := skipn (i - n) (firstn (i + n + 1) l).
(** The search for the centre, given [polyfit] and a routine [nearest] for
    the point of y = a x^2 + b x + c nearest to the origin. *)
Section Search.
  Variable st : R -> R.
  Variable polyfit : list R -> list R -> nat -> res (list R).
  Variable nearest : R -> R -> R -> R.
  (** Parabolas fitted to the lines, coordinates relative to (x, y). *)
  Definition fits_hor (x y : R) (lines : list (list (R * R))) (cs : list (R * R * R)) : Prop :=
    Forall2 (fun line c => exists u v w, c = (st u, st v, st w) /\
      polyfit (map (fun p => pxc p - x) line) (map (fun p => py p - y) line) 2%nat = Ok [u; v; w]) lines cs.
  Definition fits_ver (x y : R) (lines : list (list (R * R))) (cs : list (R * R * R)) : Prop :=
    Forall2 (fun line c => exists u v w, c = (st u, st v, st w) /\
      polyfit (map (fun p => py p - y) line) (map (fun p => pxc p - x) line) 2%nat = Ok [u; v; w]) lines cs.
  (** Intercept of the straight line through the points of the parabolas
      nearest to the origin. *)
  Definition nearest_line (cs : list (R * R * R)) (b : R) : Prop :=
    exists a, polyfit (map (fun c : R * R * R => st (nearest (fst (fst c)) (snd (fst c)) (snd c))) cs)
                      (map (fun c : R * R * R => let x := nearest (fst (fst c)) (snd (fst c)) (snd c) in
                                st (fst (fst c) * x ^ 2 + snd (fst c) * x + snd c)) cs) 1%nat = Ok [a; b].
  (** Error e of the candidate centre (x, y). *)
  Definition centre_error (lh lv : list (list (R * R))) (x y e : R) : Prop :=
    exists ch cv bh bv, fits_hor x y lh ch /\ fits_ver x y lv cv /\ nearest_line ch bh /\ nearest_line cv bv /\
    e = st (Rabs bh + Rabs bv).
  (** The lines used when searching around (x, y): those next to the line
      nearest to (x, y), at most [most] on either side. *)
  Definition central (most : nat) (lh lv : list (list (R * R))) (x y : R) (ch cv : list (list (R * R))) : Prop :=
    exists fh fv i j, fits_hor x y lh fh /\ fits_ver x y lv fv /\
    first_min (map (fun c : R * R * R => Rabs (snd c)) fh) i /\ first_min (map (fun c : R * R * R => Rabs (snd c)) fv) j /\
    let n := Nat.min most (Nat.min (Nat.div2 (length lh) - 1) (Nat.div2 (length lv) - 1)) in
    ch = around i n lh /\ cv = around j n lv.
  (** (x', y') is best among the candidate centres (x + s, y + t), s and t in [g]. *)
  Definition best_centre (g : R -> Prop) (lh lv : list (list (R * R))) (x y x' y' : R) : Prop :=
    exists ch cv, central 5 lh lv x y ch cv /\ g (x' - x) /\ g (y' - y) /\
    exists e, centre_error ch cv x' y' e /\
    forall s t, g s -> g t -> exists e', centre_error ch cv (x + s) (y + t) e' /\ e <= e'.
End Search.
(** Where on the parabola y = a x^2 + b x + c the routine [minimize], started
    at 0, finds the smallest squared distance from the origin. *)
Definition nearest_by (minimize : (R -> R) -> R -> R) (a b c : R) : R := minimize (fun x => x ^ 2 + (a * x ^ 2 + b * x + c) ^ 2) 0.
(** start, start + step, ... below stop *)
Definition grid_of (start stop step s : R) : Prop := exists i, (0 <= i)%Z /\ s = start + IZR i * step /\ s < stop.

(** Strictly increasing or strictly decreasing values. *)
Definition strictly_monotone (l : list R) : Prop :=
  (forall i j, (i < j < length l)%nat -> nth i l 0 < nth j l 0) \/
  (forall i j, (i < j < length l)%nat -> nth j l 0 < nth i l 0).
(** a, a + e, a + 2 e, ... *)
Definition equidistant (a e : R) (l : list R) : Prop := forall i, (i < length l)%nat -> nth i l 0 = a + INR i * e.
(** Distances of neighbours. *)
Fixpoint gaps (l : list R) : list R :=
  match l with a :: (b :: _) as r => Rabs (b - a) :: gaps r | _ => [] end.
Definition average (l : list R) : R := Rsum l / INR (length l).

(** A straight line of the grid parallel to an axis. *)
Definition straight_hor (c : R) (line : list (R * R)) : Prop :=
  (forall p, In p line -> py p = c) /\ distinct_values 3 (map pxc line).
Definition straight_ver (d : R) (line : list (R * R)) : Prop :=
  (forall p, In p line -> pxc p = d) /\ distinct_values 3 (map py line).
(** The coefficients 1, 0, ..., 0. *)
Definition unit_coef (n : nat) : list R := 1 :: repeat 0 (n - 1).
