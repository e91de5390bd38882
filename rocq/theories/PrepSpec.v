(** Specification vocabulary for discorpy/prep/preprocessing.py, independent
    of the model. *)
From Coq Require Import Reals ZArith List Sorting.Sorted Permutation.
From Flocq Require Import Core.
From Verif Require Import Img Spec Lsq.
Import ListNotations.
Local Open Scope R_scope.

(** *** Lines of dots *)
(** q is within [reach] of p along x, and within [tol] of the line of the
    given slope through p. *)
Definition same_line (slope reach tol : R) (p q : pt) : Prop :=
  Rabs (pxc q - pxc p) < reach /\ line_dist slope (py p - slope * pxc p) (pxc q) (py q) < tol.
Definition translate (t p : pt) : pt := padd t p.

(** One pass over dots in order, starting at the dot [e]: a dot is taken
    exactly if it passes the test against the dot taken last. *)
Inductive pass {A} (test : A -> A -> Prop) : A -> list A -> list A -> list A -> Prop :=
| pass_nil e : pass test e [] [] []
| pass_take e d l taken left : test e d -> pass test d l taken left -> pass test e (d :: l) (d :: taken) left
| pass_skip e d l taken left : ~ test e d -> pass test e l taken left -> pass test e (d :: l) taken (d :: left).
(** Repeated passes until at most one dot is left; each pass makes a group
    (possibly a single dot). *)
Inductive passes {A} (test : A -> A -> Prop) : list A -> list (list A) -> list A -> Prop :=
| passes_none : passes test [] [] []
| passes_one d : passes test [d] [] [d]
| passes_more d d' l taken left groups rest :
    pass test d (d' :: l) taken left -> passes test left groups rest ->
    passes test (d :: d' :: l) ((d :: taken) :: groups) rest.

(** Consecutive elements are related. *)
Fixpoint chain {A} (r : A -> A -> Prop) (l : list A) : Prop :=
  match l with
  | a :: (b :: _) as l' => r a b /\ chain r l'
  | _ => True
  end.
(** The elements of l satisfying P, in order. *)
Inductive selects {A} (P : A -> Prop) : list A -> list A -> Prop :=
| sel_nil : selects P [] []
| sel_yes a l s : P a -> selects P l s -> selects P (a :: l) (a :: s)
| sel_no a l s : ~ P a -> selects P l s -> selects P (a :: l) s.
(** l is a sub-multiset of m. *)
Definition submultiset {A} (l m : list A) : Prop := exists r, Permutation m (l ++ r).

Definition Rmean (l : list R) : R := Rsum l / INR (length l).

(** Rotation by a (radians) of a point (y, x). *)
Definition rot1 (a : R) (p : R * R) : R * R :=
  (snd p * sin a + fst p * cos a, snd p * cos a - fst p * sin a).
(** s' is s plus points of the pool near a polynomial fitted to s (abscissa
    u, ordinate w), repeatedly, starting from init. *)
Inductive grown (u w : pt -> R) (tol : R) (order : nat) (pool init : list pt) : list pt -> Prop :=
| grown_init : grown u w tol order pool init init
| grown_more s v new s' : grown u w tol order pool init s ->
    polyfit_spec order (map u s) (map w s) v ->
    (forall p, In p new -> In p pool /\ Rabs (w p - poly (rev v) (u p)) <= tol) ->
    (forall p, In p s' <-> In p s \/ In p new) -> NoDup s' ->
    grown u w tol order pool init s'.
(** The points of sp within reach of the middle of their x-range. *)
Definition central (reach : R) (sp sel : list (R * R)) : Prop :=
  exists lo hi, (exists p, In p sp /\ snd p = lo) /\ (exists p, In p sp /\ snd p = hi) /\
    (forall p, In p sp -> lo <= snd p <= hi) /\
    selects (fun p => Rabs (snd p - (lo + hi) / 2) <= reach) sp sel.

(** *** Dots in images *)
(** 4-neighbours and connected set pixels. *)
Definition adjacent (p q : Z * Z) : Prop := (Z.abs (fst p - fst q) + Z.abs (snd p - snd q) = 1)%Z.
Definition set_pixel (m : image R) (p : Z * Z) : Prop := in_img m (fst p) (snd p) /\ px m (fst p) (snd p) <> 0.
Inductive connected (m : image R) : Z * Z -> Z * Z -> Prop :=
| conn_refl p : set_pixel m p -> connected m p p
| conn_step p q r : connected m p q -> adjacent q r -> set_pixel m r -> connected m p r.
(** ndi.label: the pixels of value 1..n are the set pixels, and two set
    pixels have the same label exactly if they are connected. *)
Definition labelling (m : image R) (lab : image Z) (n : Z) : Prop :=
  ih lab = ih m /\ iw lab = iw m /\ (0 <= n)%Z /\
  (forall p, in_img m (fst p) (snd p) ->
     (0 <= px lab (fst p) (snd p) <= n)%Z /\ (px lab (fst p) (snd p) <> 0%Z <-> px m (fst p) (snd p) <> 0)) /\
  (forall k, (1 <= k <= n)%Z -> exists p, in_img m (fst p) (snd p) /\ px lab (fst p) (snd p) = k) /\
  (forall p q, set_pixel m p -> set_pixel m q ->
     (px lab (fst p) (snd p) = px lab (fst q) (snd q) <-> connected m p q)).
Definition label_spec (label : image R -> image Z * Z) : Prop :=
  forall m, (0 <= ih m)%Z -> (0 <= iw m)%Z -> labelling m (fst (label m)) (snd (label m)).
(** p carries the label k. *)
Definition labelled (lab : image Z) (k : Z) (p : Z * Z) : Prop := in_img lab (fst p) (snd p) /\ px lab (fst p) (snd p) = k.
(** (i, j) is in the smallest axis-parallel box around the pixels labelled k. *)
Definition in_hull (lab : image Z) (k i j : Z) : Prop :=
  (exists p q, labelled lab k p /\ labelled lab k q /\ (fst p <= i <= fst q)%Z) /\
  (exists p q, labelled lab k p /\ labelled lab k q /\ (snd p <= j <= snd q)%Z).
(** That box, half open: rows a..b-1, columns c..d-1. *)
Definition hull_box (lab : image Z) (k a b c d : Z) : Prop :=
  (a < b)%Z /\ (c < d)%Z /\ forall i j, in_hull lab k i j <-> (a <= i < b /\ c <= j < d)%Z.
Definition subimage (m : image R) (a b c d : Z) : image R :=
  mkimg (b - a) (d - c) (fun i j => px m (a + i)%Z (c + j)%Z).
(** Sum of all pixels. *)
Definition img_sum (m : image R) : R := sumZ (ih m) (fun i => sumZ (iw m) (fun j => px m i j)).
(** Pixels are 16-bit integers; pixels are 0 or 1. *)
Definition int16_image (m : image R) : Prop :=
  forall i j, in_img m i j -> exists z, (-32768 <= z <= 32767)%Z /\ px m i j = IZR z.
Definition binary_image (m : image R) : Prop := forall i j, in_img m i j -> px m i j = 0 \/ px m i j = 1.
(** Brightness-weighted mass and centre of the pixels labelled k. *)
Definition part (m : image R) (lab : image Z) (k i j : Z) : R := if Z.eq_dec (px lab i j) k then px m i j else 0.
Definition moment (m : image R) (lab : image Z) (k : Z) (w : Z -> Z -> R) : R :=
  sumZ (ih m) (fun i => sumZ (iw m) (fun j => part m lab k i j * w i j)).
Definition mass (m : image R) (lab : image Z) (k : Z) : R := moment m lab k (fun _ _ => 1).
Definition centroid (m : image R) (lab : image Z) (k : Z) : pt :=
  (moment m lab k (fun i _ => IZR i) / mass m lab k, moment m lab k (fun _ j => IZR j) / mass m lab k).
(** The distances of dot k to the other dots, in ascending order. *)
Definition neighbour_distances (m : image R) (lab : image Z) (n k : Z) (ds : list R) : Prop :=
  exists js, NoDup js /\ (forall j, In j js <-> (1 <= j <= n /\ j <> k)%Z) /\
    Permutation ds (map (fun j => dist (centroid m lab k) (centroid m lab j)) js) /\ StronglySorted Rle ds.
(** Median. *)
Definition is_median (l : list R) (v : R) : Prop :=
  exists s, Permutation s l /\ StronglySorted Rle s /\
    exists k, (length l = 2 * k + 1)%nat /\ v = nth k s 0 \/
              (length l = 2 * k + 2)%nat /\ v = (nth k s 0 + nth (S k) s 0) / 2.

Local Open Scope Z_scope.
(** *** Masks *)
(** Strictly inside the four parabolas. *)
Definition inside_parabolas (height width : Z) (hc vc left right top bot : R) (y x : Z) : Prop :=
  let H := IZR height in let W := IZR width in let Y := IZR y in let X := IZR x in
  (top + vc / W * (X - W / 2) ^ 2 < Y)%R /\ (Y < H - bot - vc / W * (X - W / 2) ^ 2)%R /\
  (left + hc / H * (Y - H / 2) ^ 2 < X)%R /\ (X < W - right - hc / H * (Y - H / 2) ^ 2)%R.
(** *** Removing points *)
Definition indexable (height width : Z) (p : R * R) : Prop :=
  - height <= Ztrunc (fst p) < height /\ - width <= Ztrunc (snd p) < width.
