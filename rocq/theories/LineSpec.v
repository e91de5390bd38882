(** Specification vocabulary for the line-pattern properties, independent of
    the model of the code. *)
From Coq Require Import Reals ZArith List Lra Sorted Permutation.
From Flocq Require Import Core.
From Verif Require Import Base Spec Lsq ProcSpec.
Import ListNotations.
Local Open Scope R_scope.

(** Sample number i of a profile. *)
Definition sample (l : list R) (i : Z) : R := nth (Z.to_nat i) l 0.
Definition size {A} (l : list A) : Z := Z.of_nat (length l).
(** The samples at distance at most r from position i, the first and last
    sample being repeated beyond the ends. *)
Definition edge_window (l : list R) (i r : Z) : list R :=
  map (fun k => sample l (Z.max 0 (Z.min (i + k) (size l - 1)))) (zrange (- r) (r + 1)).
(** 0, 1, ..., n - 1 *)
Definition abscissae (n : Z) : list R := map IZR (zrange 0 n).
(** s is the slope of the least-squares straight line of the window. *)
Definition window_slope (l : list R) (i r : Z) (s : R) : Prop :=
  exists b, polyfit_spec 1 (abscissae (2 * r + 1)) (edge_window l i r) [s; b].
(** Half width of the window used for [size]: the window is at least 3
    samples, at most the profile, and odd. *)
Definition window_radius (n requested : Z) : Z := (Z.min (Z.max requested 3) n / 2)%Z.
(** Position of the first largest value. *)
Definition first_largest (l : list R) (k : nat) : Prop :=
  (k < length l)%nat /\ (forall j, (j < length l)%nat -> nth j l 0 <= nth k l 0) /\ (forall j, (j < k)%nat -> nth j l 0 < nth k l 0).

(** *** Peaks *)
(** The samples at distance at most r from position p. *)
Definition near_window (l : list R) (p r : Z) : list R := map (sample l) (zrange (Z.max 0 (p - r)) (Z.min (size l) (p + r + 1))).
Definition deviation (w : list R) : R := sqrt (average (map (fun v => (v - average w) ^ 2) w)).
(** The samples relative to the smallest one, in units of the deviation. *)
Definition rescaled (w ws : list R) : Prop :=
  exists m, In m w /\ (forall v, In v w -> m <= v) /\ ws = map (fun v => (v - m) / deviation w) w.
(** -(n/2), ..., n - 1 - n/2 *)
Definition centred_abscissae (n : Z) : list R := map (fun i => IZR (i - n / 2)) (zrange 0 n).
Definition gauss (exp_ : R -> R) (a b c d x : R) : R := a * exp_ (- ((x - c) / (2 * b ^ 2)) ^ 2) + d.
(** The 80th percentile: interpolation between the sorted values. *)
Definition percentile_80 (l : list R) (q : R) : Prop :=
  exists s, Permutation s l /\ StronglySorted Rle s /\
  let x := 8 / 10 * IZR (size l - 1) in let i := (Zfloor x) in
  q = sample s i + (x - IZR i) * (sample s (i + 1) - sample s i).
Section Peaks.
  Variable exp_ : R -> R.
  Variable curve_fit : list R -> list R -> option (R * R * R * R).
  (** Position p is a good peak of l. *)
  Definition good_peak_spec (l : list R) (tol : R) (r : Z) (use_offset : bool) (p : Z) : Prop :=
    let w := near_window l p r in
    (3 < size w)%Z /\ (exists u v, In u w /\ In v w /\ u <> v) /\
    exists ws a b c d q, rescaled w ws /\ curve_fit (centred_abscissae (size w)) ws = Some (a, b, c, d) /\
    Rabs c < IZR (r / 2) /\
    percentile_80 (map (fun xv => Rabs (gauss exp_ a b c d (fst xv) - snd xv)) (combine (centred_abscissae (size w)) ws)) q /\ q < tol /\
    (use_offset = true -> Rabs d < tol).
End Peaks.
(** Number of members below t. *)
Definition count_below (t : R) (l : list R) : nat := length (filter (fun v => if Rlt_dec v t then true else false) l).

(** *** Local extrema *)
(** The average of the r largest members. *)
Definition upper_level (w : list R) (r : nat) (m : R) : Prop :=
  exists s, Permutation s w /\ StronglySorted Rle s /\ m = average (skipn (length w - r) s).
Definition relative_depth (v m : R) : R := if Req_EM_T m 0 then 0 else Rabs ((v - m) / m).
(** Sample i is smallest within distance r, and deeper than [sensitive]
    relative to the average of the r largest of these samples. *)
Definition local_minimum (l : list R) (r : Z) (sensitive : R) (i : Z) : Prop :=
  (forall j, (i - r <= j <= i + r)%Z -> sample l i <= sample l j) /\
  exists m, upper_level (near_window l i r) (Z.to_nat r) m /\ sensitive < relative_depth (sample l i) m.
(** The radius used: at least 1, at most a quarter of the profile. *)
Definition search_radius (n requested : Z) : Z := Z.min (Z.max requested 1) (n / 4).
(** Background normalisation: a straight line is fitted to the middle half of
    the sorted samples; every sample is divided by the value of the line at the
    sample's rank (and replaced by the mean magnitude of the line where this
    value is zero). *)
Definition background_normalised (l l' : list R) : Prop :=
  exists s rank a1 a0, Permutation s l /\ StronglySorted Rle s /\
  (forall i, (0 <= i < size l)%Z -> (0 <= rank i < size l)%Z /\ sample s (rank i) = sample l i) /\
  (forall i j, (0 <= i < size l)%Z -> (0 <= j < size l)%Z -> rank i = rank j -> i = j) /\
  (let d := (size l / 4)%Z in let middle := zrange d (size l - d - 1) in
   polyfit_spec 1 (map IZR middle) (map (sample s) middle) [a1; a0]) /\
  size l' = size l /\
  let line := fun k => a1 * IZR k + a0 in
  forall i, (0 <= i < size l)%Z -> sample l' i =
    if Req_EM_T (line (rank i)) 0 then average (map (fun k => Rabs (line k)) (zrange 0 (size l))) else sample l i / line (rank i).
