(** Specification vocabulary: ordinary mathematics, independent of the model
    of the code.  Points are (y, x) pairs, as in discorpy's line arrays. *)
From Coq Require Import Reals ZArith List Lra.
From Flocq Require Import Core.
From Verif Require Import Img.
Import ListNotations.
Local Open Scope R_scope.

(** a0 + a1 r + a2 r^2 + ... (Horner form). *)
Fixpoint poly (a : list R) (r : R) : R :=
  match a with [] => 0 | a0 :: a' => a0 + r * poly a' r end.

Definition pt := (R * R)%type.
Definition py (p : pt) := fst p.
Definition pxc (p : pt) := snd p.
Definition dist (p q : pt) : R :=
  sqrt ((py p - py q) * (py p - py q) + (pxc p - pxc q) * (pxc p - pxc q)).
Definition swap (p : pt) : pt := (pxc p, py p).
Definition padd (p q : pt) : pt := (py p + py q, pxc p + pxc q).
Definition psub (p q : pt) : pt := (py p - py q, pxc p - pxc q).
Definition pscale (k : R) (p : pt) : pt := (k * py p, k * pxc p).

(** The radial distortion model: a point at distance r from the centre moves
    along its ray by the factor F(r). *)
Definition radial_map (fact : list R) (c p : pt) : pt :=
  padd c (pscale (poly fact (dist p c)) (psub p c)).

(** Rotation of p about c; (cs, sn) is the cosine/sine pair. *)
Definition rotate_about (c : pt) (cs sn : R) (p : pt) : pt :=
  padd c (sn * pxc (psub p c) + cs * py (psub p c),
          cs * pxc (psub p c) - sn * py (psub p c)).

(** Nearest point of [lo, hi] (lo <= hi). *)
Definition clamp (x lo hi : R) : R := Rmax lo (Rmin x hi).

(** Sums. *)
Fixpoint Rsum (l : list R) : R := match l with [] => 0 | a :: l' => a + Rsum l' end.
Fixpoint sum_n (n : nat) (f : Z -> R) : R :=
  match n with O => 0 | S k => sum_n k f + f (Z.of_nat k) end.
(** Sum of f 0 ... f (n-1). *)
Definition sumZ (n : Z) (f : Z -> R) : R := sum_n (Z.to_nat n) f.

(** Linear interpolation kernel and bilinear sample of an image as the
    kernel-weighted sum of all its pixels. *)
Definition tent (t : R) : R := Rmax 0 (1 - Rabs t).
Definition lin_sample (m : image R) (y x : R) : R :=
  sumZ (ih m) (fun i => sumZ (iw m) (fun j =>
    tent (y - IZR i) * tent (x - IZR j) * px m i j)).

(** Projective map of the 3x3 matrix [[c1 c2 c3][c4 c5 c6][c7 c8 c9]]
    acting on (x, y). *)
Record mat3 := M3 { c1 : R; c2 : R; c3 : R; c4 : R; c5 : R; c6 : R; c7 : R; c8 : R; c9 : R }.
Definition den (m : mat3) (p : pt) : R := c7 m * pxc p + c8 m * py p + c9 m.
Definition proj (m : mat3) (p : pt) : pt :=
  ((c4 m * pxc p + c5 m * py p + c6 m) / den m p,
   (c1 m * pxc p + c2 m * py p + c3 m) / den m p).
Definition mul3 (a b : mat3) : mat3 :=
  M3 (c1 a * c1 b + c2 a * c4 b + c3 a * c7 b)
     (c1 a * c2 b + c2 a * c5 b + c3 a * c8 b)
     (c1 a * c3 b + c2 a * c6 b + c3 a * c9 b)
     (c4 a * c1 b + c5 a * c4 b + c6 a * c7 b)
     (c4 a * c2 b + c5 a * c5 b + c6 a * c8 b)
     (c4 a * c3 b + c5 a * c6 b + c6 a * c9 b)
     (c7 a * c1 b + c8 a * c4 b + c9 a * c7 b)
     (c7 a * c2 b + c8 a * c5 b + c9 a * c8 b)
     (c7 a * c3 b + c8 a * c6 b + c9 a * c9 b).
(** Three points on one straight line. *)
Definition collinear (p q r : pt) : Prop :=
  (pxc q - pxc p) * (py r - py p) = (pxc r - pxc p) * (py q - py p).
(** Distance of a point to the line v = a u + b (u the abscissa). *)
Definition line_dist (a b u v : R) : R := Rabs (a * u - v + b) / sqrt (a * a + 1).

(** k is the number of elements satisfying P. *)
Inductive count_occ_pred {A} (P : A -> Prop) : list A -> nat -> Prop :=
| cop_nil : count_occ_pred P [] 0
| cop_yes a l n : P a -> count_occ_pred P l n -> count_occ_pred P (a :: l) (S n)
| cop_no a l n : ~ P a -> count_occ_pred P l n -> count_occ_pred P (a :: l) n.
