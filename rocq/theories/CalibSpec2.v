(** Specification vocabulary for the behaviour of the calibration under a
    change of origin, of pixel size and of the names of the axes. *)
From Coq Require Import Reals ZArith List.
From Verif Require Import Base Spec.
Import ListNotations.
Local Open Scope R_scope.

(** All dots moved by dy and dx. *)
Definition shift_lines (dx dy : R) (lines : list (list (R * R))) : list (list (R * R)) := map (map (fun p => (fst p + dy, snd p + dx))) lines.
(** All coordinates multiplied by s. *)
Definition scale_lines (s : R) (lines : list (list (R * R))) : list (list (R * R)) := map (map (fun p => (s * fst p, s * snd p))) lines.
(** Abscissa and ordinate exchanged. *)
Definition swap_lines (lines : list (list (R * R))) : list (list (R * R)) := map (map (fun p => (snd p, fst p))) lines.
(** G is the polynomial F for distances measured in units s times smaller:
    each power of the distance has its coefficient divided by that power of
    s. *)
Definition rescaled_poly (s : R) (F G : list R) : Prop := length G = length F /\ forall i, nth i G 0 = nth i F 0 / s ^ i.
