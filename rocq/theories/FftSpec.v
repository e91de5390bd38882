(** Vocabulary for the Fourier filter: discrete Fourier transforms as finite
    sums, and the filter as a weighted sum of the pixels of the extended image. *)
From Coq Require Import Reals ZArith List.
From Verif Require Import Base Img Spec.
Import ListNotations.
Local Open Scope R_scope.

(** 2 pi (u a / h + v b / w) *)
Definition phase (h w u v a b : Z) : R := 2 * PI * (IZR (u * a) / IZR h + IZR (v * b) / IZR w).
Definition sum2 (h w : Z) (f : Z -> Z -> R) : R := sumZ h (fun i => sumZ w (fun j => f i j)).
(** F is the 2-D discrete Fourier transform / its inverse. *)
Definition is_dft (F : image (R * R) -> image (R * R)) : Prop := forall m,
  ih (F m) = ih m /\ iw (F m) = iw m /\ forall u v, in_img m u v -> px (F m) u v =
    (sum2 (ih m) (iw m) (fun a b => fst (px m a b) * cos (phase (ih m) (iw m) u v a b) + snd (px m a b) * sin (phase (ih m) (iw m) u v a b)),
     sum2 (ih m) (iw m) (fun a b => snd (px m a b) * cos (phase (ih m) (iw m) u v a b) - fst (px m a b) * sin (phase (ih m) (iw m) u v a b))).
Definition is_idft (F : image (R * R) -> image (R * R)) : Prop := forall m,
  ih (F m) = ih m /\ iw (F m) = iw m /\ forall a b, in_img m a b -> px (F m) a b =
    (sum2 (ih m) (iw m) (fun u v => fst (px m u v) * cos (phase (ih m) (iw m) u v a b) - snd (px m u v) * sin (phase (ih m) (iw m) u v a b)) / IZR (ih m * iw m),
     sum2 (ih m) (iw m) (fun u v => snd (px m u v) * cos (phase (ih m) (iw m) u v a b) + fst (px m u v) * sin (phase (ih m) (iw m) u v a b)) / IZR (ih m * iw m)).
(** A padding mode reads inside the array, and the array itself where it is. *)
Definition pad_ok (ext : Z -> Z -> Z) : Prop := forall n i, (1 <= n)%Z -> (0 <= ext n i < n)%Z /\ ((0 <= i < n)%Z -> ext n i = i).
(** Gaussian weight of the frequency (u, v), centred in the array. *)
Definition gauss (h w : Z) (sigma : R) (u v : Z) : R :=
  exp (- ((IZR u - (IZR h - 1) / 2) ^ 2 + (IZR v - (IZR w - 1) / 2) ^ 2) / (2 * sigma ^ 2)).
Definition sign (i : Z) : R := if Z.even i then 1 else -1.
(** Weight, in a filtered pixel, of the pixel s rows and t columns before it. *)
Definition kernel (h w : Z) (sigma : R) (s t : Z) : R :=
  sign (s + t) / IZR (h * w) * sum2 h w (fun u v => gauss h w sigma u v * cos (phase h w u v s t)).
