(** Vocabulary for chessboard images. *)
From Coq Require Import Reals ZArith List.
From Verif Require Import Base Img.
Import ListNotations.
Local Open Scope R_scope.

(** Mean of the absolute central differences in both directions. *)
Definition edge_strength (m : image R) (i j : Z) : R :=
  (Rabs (px m (i + 1) j - px m (i - 1) j) / 2 + Rabs (px m i (j + 1) - px m i (j - 1)) / 2) / 2.
(** The nearest number between lo and hi. *)
Definition into (lo hi i : Z) : Z := Z.max lo (Z.min i hi).
(** Edge strengths, those of the outer p pixels taken from the nearest pixel further inside. *)
Definition edges (p : Z) (m : image R) (i j : Z) : R :=
  edge_strength m (into p (ih m - 1 - p) i) (into p (iw m - 1 - p) j).
(** A smoothing filter under a change of brightness and contrast. *)
Definition affine_image (a b : R) (m : image R) : image R := mkimg (ih m) (iw m) (fun i j => a * px m i j + b).

(** *** Slope and distance of lines *)
(** The pixels of the central square of side 2 k inside the disc of radius
    92% of k, changed by f; 0 outside the disc. *)
Definition central_disc (m : image R) (k : Z) (f : R -> R) : image R :=
  mkimg (2 * k) (2 * k) (fun i j =>
    if Rle_dec (IZR ((i - k) * (i - k) + (j - k) * (j - k))) ((92 / 100 * IZR k) ^ 2)
    then f (px m (ih m / 2 - k + i) (iw m / 2 - k + j)) else 0).
(** top is the largest pixel of that square. *)
Definition square_top (m : image R) (k : Z) (top : R) : Prop :=
  let inside i j := (0 <= i < 2 * k /\ 0 <= j < 2 * k)%Z in
  let v i j := px m (ih m / 2 - k + i)%Z (iw m / 2 - k + j)%Z in
  (exists i j, inside i j /\ v i j = top) /\ forall i j, inside i j -> v i j <= top.
(** Angles of the coarse search: whole degrees from -range, below range + 1. *)
Definition coarse (range a : R) : Prop := exists k : Z, (0 <= k)%Z /\ a = - range + IZR k /\ a < range + 1.
(** Angles of the fine search: one degree either side of c in steps of 0.05. *)
Definition fine (c a : R) : Prop := exists k : Z, (0 <= k <= 40)%Z /\ a = c - 1 + IZR k / 20.
(** a is the smallest of the angles whose projection reaches the largest value. *)
Definition strongest (projection : R -> list R) (angles : R -> Prop) (a : R) : Prop :=
  angles a /\ exists w, In w (projection a) /\ (forall v, In v (projection a) -> v <= w) /\
  forall b v, angles b -> In v (projection b) -> v <= w /\ (b < a -> v < w).
(** Distances of neighbours. *)
Definition gaps (l : list R) : list R :=
  map (fun i => Rabs (nth (S i) l 0 - nth i l 0)) (seq 0 (length l - 1)).
