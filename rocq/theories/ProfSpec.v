(** Vocabulary for tilted line profiles. *)
From Coq Require Import Reals ZArith List.
From Flocq Require Import Core.
From Verif Require Import Base Img LineSpec.
Import ListNotations.
Local Open Scope R_scope.

Definition radians (deg : R) : R := deg * PI / 180.
(** Distance of the k-th of n points from the first one: n points spread over
    the whole number of pixels in the length of the line across n pixels. *)
Definition along (n : Z) (a : R) (k : Z) : R := IZR k * IZR (Zfloor (IZR n / cos a)) / IZR (n - 1).
(** Points at distance t on the line through (0, index) tilted
    counter-clockwise (rows count downwards), and on the line through
    (index, 0) tilted counter-clockwise from the column direction. *)
Definition hor_x (a t : R) : R := t * cos a.
Definition hor_y (index a t : R) : R := index - t * sin a.
Definition ver_x (index a t : R) : R := index + t * sin a.
Definition ver_y (a t : R) : R := t * cos a.
(** Indices for which the line can be taken. *)
Definition hor_index_ok (h w : Z) (a index : R) : Prop :=
  if Rlt_dec 0 a then IZR (Zceil (IZR w * tan a)) <= index <= IZR (h - 1)
  else 0 <= index <= IZR (h - 1 - Zfloor (IZR w * tan (- a))).
Definition ver_index_ok (h w : Z) (a index : R) : Prop :=
  if Rlt_dec 0 a then 0 <= index <= IZR (w - 1 - Zceil (IZR h * tan a))
  else IZR (Zfloor (IZR h * tan (- a))) <= index <= IZR (w - 1).
(** An interpolation routine: one value per point, depending on the pixels of
    the image only. *)
Definition spline_local (spline : image R -> list (R * R) -> list R) : Prop :=
  (forall m ps, length (spline m ps) = length ps) /\
  (forall m m' ps, img_eq m m' -> spline m ps = spline m' ps).
(** At a pixel it returns the pixel. *)
Definition spline_exact (spline : image R -> list (R * R) -> list R) : Prop :=
  forall m ps k i j, in_img m i j -> nth_error ps k = Some (IZR i, IZR j) -> nth_error (spline m ps) k = Some (px m i j).
Definition degrees (a : R) : R := a * 180 / PI.
(** Distance between neighbouring samples used for the positions reported: the
    distance from the first to the last of the n sampled points over n-1. *)
Definition pitch (xs ys : list R) (n : Z) : R :=
  sqrt ((sample xs (size xs - 1) - sample xs 0) ^ 2 + (sample ys (size ys - 1) - sample ys 0) ^ 2) / IZR (n - 1).
