(** Specification vocabulary for the fitted distortion coefficients,
    independent of the model of the code. *)
From Coq Require Import Reals ZArith List Lra.
From Flocq Require Import Core.
From Verif Require Import Base Spec ProcSpec.
Import ListNotations.
Local Open Scope R_scope.

(** A dot p of a line whose fitted parabola about the centre (yc, xc) is
    a t^2 + b t + c and whose undistorted position is u: its distance r from
    the centre and the factor by which it has to be moved away from the centre
    to come to lie on the undistorted line. *)
Definition hor_sample (xc yc : R) (c : R * R * R) (u : R) (p : R * R) : R * R :=
  (dist p (yc, xc), u / (fst (fst c) * (pxc p - xc) ^ 2 + snd c)).
Definition ver_sample (xc yc : R) (c : R * R * R) (u : R) (p : R * R) : R * R :=
  (dist p (yc, xc), u / (fst (fst c) * (py p - yc) ^ 2 + snd c)).
(** The same seen from the undistorted point: its distance from the centre and
    the factor which moves it to the dot. *)
Definition inverse_sample (s : R * R) : R * R := (fst s * snd s, / snd s).
(** All dots of some lines with parabolas cs and undistorted positions us. *)
Definition line_samples (s : R * R * R -> R -> R * R -> R * R) (cs : list (R * R * R)) (us : list R) (lines : list (list (R * R)))
  : list (R * R) :=
  concat (map (fun cul => map (s (fst (fst cul)) (snd (fst cul))) (snd cul)) (combine (combine cs us) lines)).
(** Dots on an undistorted line through the centre cannot be used. *)
Definition usable (l : list (R * R)) : list (R * R) := filter (fun s => negb (Req_bool (snd s) 0)) l.
(** Sum of squared deviations of the polynomial F from the wanted factors. *)
Definition fit_error (F : list R) (l : list (R * R)) : R := Rsum (map (fun s => (poly F (fst s) - snd s) ^ 2) l).
(** F has n coefficients and the smallest deviation of all such polynomials. *)
Definition best_poly (n : nat) (l : list (R * R)) (F : list R) : Prop :=
  length F = n /\ forall G, length G = n -> fit_error F l <= fit_error G l.

(** Lines measured as parabolas (curvature, distance) symmetric about the
    centre. *)
Definition bent_hor (xc yc : R) (ac : R * R) (line : list (R * R)) : Prop :=
  (forall p, In p line -> py p - yc = fst ac * (pxc p - xc) ^ 2 + snd ac) /\ distinct_values 3 (map pxc line).
Definition bent_ver (xc yc : R) (ac : R * R) (line : list (R * R)) : Prop :=
  (forall p, In p line -> pxc p - xc = fst ac * (py p - yc) ^ 2 + snd ac) /\ distinct_values 3 (map py line).
(** The radial map of F about the centre moves the dots of each line onto the
    horizontal (vertical) straight line at distance u from the centre. *)
Definition straightens_hor (F : list R) (xc yc : R) (us : list R) (lines : list (list (R * R))) : Prop :=
  Forall2 (fun u line => forall p, In p line -> py (radial_map F (yc, xc) p) = yc + u) us lines.
Definition straightens_ver (F : list R) (xc yc : R) (us : list R) (lines : list (list (R * R))) : Prop :=
  Forall2 (fun u line => forall p, In p line -> pxc (radial_map F (yc, xc) p) = xc + u) us lines.
(** The radial map of B about the centre bends the straight lines at distance
    u into the measured lines: each dot is the image of a point q of the
    straight line, on the same side of the centre. *)
Definition bends_hor (B : list R) (xc yc : R) (us : list R) (lines : list (list (R * R))) : Prop :=
  Forall2 (fun u line => forall p, In p line -> exists q, py q = yc + u /\ radial_map B (yc, xc) q = p /\ 0 < poly B (dist q (yc, xc))) us lines.
Definition bends_ver (B : list R) (xc yc : R) (us : list R) (lines : list (list (R * R))) : Prop :=
  Forall2 (fun u line => forall p, In p line -> exists q, pxc q = xc + u /\ radial_map B (yc, xc) q = p /\ 0 < poly B (dist q (yc, xc))) us lines.
