(** Specification of border clearing (skimage.segmentation.clear_border with
    its defaults) for images of 0s and 1s: an object is a maximal set of set
    pixels connected through edges or corners; objects that reach the first or
    last row or column are removed. *)
From Coq Require Import Reals ZArith List.
From Verif Require Import Base Num Img Spec PrepSpec.
Local Open Scope Z_scope.

Definition adjacent8 (p q : Z * Z) : Prop := Z.abs (fst p - fst q) <= 1 /\ Z.abs (snd p - snd q) <= 1.
Inductive connected8 (m : image R) : Z * Z -> Z * Z -> Prop :=
| conn8_refl p : set_pixel m p -> connected8 m p p
| conn8_step p q r : connected8 m p q -> adjacent8 q r -> set_pixel m r -> connected8 m p r.
Definition border_pixel (m : image R) (p : Z * Z) : Prop :=
  fst p = 0 \/ fst p = ih m - 1 \/ snd p = 0 \/ snd p = iw m - 1.
Definition cleared (m m' : image R) : Prop :=
  ih m' = ih m /\ iw m' = iw m /\
  forall p, in_img m (fst p) (snd p) ->
    let reaches := exists q, connected8 m p q /\ border_pixel m q in
    (reaches -> px m' (fst p) (snd p) = 0%R) /\ (~ reaches -> px m' (fst p) (snd p) = px m (fst p) (snd p)).
