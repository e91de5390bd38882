(** Specification vocabulary for grouping by polynomial fits, independent of
    the model. *)
From Coq Require Import Reals ZArith List Sorting.Sorted Permutation.
From Verif Require Import Img Spec Lsq PrepSpec ProcSpec.
Import ListNotations.
Local Open Scope R_scope.

(** The medians of the chosen coordinate of two lines are more than d apart. *)
Definition lines_apart (key : pt -> R) (d : R) (r r' : list pt) : Prop :=
  exists m m', is_median (map key r) m /\ is_median (map key r') m' /\ d < Rabs (m' - m).
(** The lines of a list that are apart from the one listed before them; the
    line before the first is p. *)
Inductive after_jump {A} (apart : A -> A -> Prop) : A -> list A -> list A -> Prop :=
| jump_nil p : after_jump apart p [] []
| jump_yes p r l k : apart p r -> after_jump apart r l k -> after_jump apart p (r :: l) (r :: k)
| jump_no p r l k : ~ apart p r -> after_jump apart r l k -> after_jump apart p (r :: l) k.
(** Removal of repeated lines: the first line of the list, and each line apart
    from the one before it; but if no line is apart from the one before it,
    all of them. *)
Inductive without_repeats {A} (apart : A -> A -> Prop) : list A -> list A -> Prop :=
| all_kept l : chain (fun a b => ~ apart a b) l -> without_repeats apart l l
| some_kept a l k : after_jump apart a l k -> k <> [] -> without_repeats apart (a :: l) (a :: k).
