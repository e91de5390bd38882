(** Specification vocabulary for the check of missing lines. *)
From Coq Require Import Reals ZArith List.
From Verif Require Import Base Spec Lsq ProcSpec.
Import ListNotations.
Local Open Scope R_scope.

(** The distances of neighbouring lines, as a function of their position, are
    fitted by a parabola; one of them differs from it by more than the fraction thr. *)
Definition irregular (thr : R) (intercepts : list R) : Prop :=
  let g := gaps intercepts in
  exists a b c, polyfit_spec 2 (map INR (seq 0 (length g))) g [a; b; c] /\
  exists i, (i < length g)%nat /\ let p := a * INR i ^ 2 + b * INR i + c in thr < Rabs ((nth i g 0 - p) / p).
