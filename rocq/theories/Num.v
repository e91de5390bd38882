(** Numbers: the scalar operations of numpy used by discorpy, with a real
    instance (every operation followed by a rounding function) and a
    binary64 instance on the kernel's primitive floats. *)
From Coq Require Import Floats Reals Lra.
From Flocq Require Import Core.
From Verif Require Import Base.
Local Open Scope Z_scope.

(** The arithmetic of Python floats and numpy arrays, one element at a time:
    what the numeric code of postprocessing.py 36-492, processing.py 47-1651,
    preprocessing.py 50-1404, linepattern.py 46-761 and utility.py 41-514 uses
    of it. *)
Class Num (T : Type) := {
  nadd : T -> T -> T; nsub : T -> T -> T; nmul : T -> T -> T; ndiv : T -> T -> T;
  nopp : T -> T; nabs : T -> T; nsqrt : T -> T;
  npow : T -> nat -> T;
  nleb : T -> T -> bool; nltb : T -> T -> bool; neqb : T -> T -> bool;
  nofZ : Z -> T;               (* conversion of a Python int *)
  nofQ : Z -> Z -> T;          (* a decimal literal p/q *)
  nfloor : T -> Z; nceil : T -> Z; ntrunc : T -> Z;
  nrint : T -> Z;              (* np.round: half to even *)
  nf32 : T -> T                (* np.float32 *)
}.

Declare Scope num_scope.
Delimit Scope num_scope with num.
Infix "+!" := nadd (at level 50, left associativity) : num_scope.
Infix "-!" := nsub (at level 50, left associativity) : num_scope.
Infix "*!" := nmul (at level 40, left associativity) : num_scope.
Infix "/!" := ndiv (at level 40, left associativity) : num_scope.
Infix "<=?!" := nleb (at level 70) : num_scope.
Infix "<?!" := nltb (at level 70) : num_scope.
Infix "=?!" := neqb (at level 70) : num_scope.

Section Derived.
  Context {T : Type} {N : Num T}.
  Local Open Scope num_scope.
  (** The literal 0; used by postprocessing.py 93-106 (unwarp_dot_backward),
      postprocessing.py 151-185 (unwarp_image_forward), utility.py 41-63
      (make_circle_mask) and others. *)
  Definition n0 : T := nofZ 0.
  (** The literal 1; used by postprocessing.py 316-388 (residual_line_hor),
      postprocessing.py 438-439 (persp_x), utility.py 41-63 (make_circle_mask)
      and others. *)
  Definition n1 : T := nofZ 1.
  (** np.maximum / np.minimum (no NaN).
      Used by processing.py 926-998 (calc_undistor_intercept_perspective),
      processing.py 1189-1210 (side_lengths), preprocessing.py 332-360
      (select_dots_based_size) and others. *)
  Definition nmax (a b : T) : T := if a <?! b then b else a.
  (** np.minimum, min of two numbers; used by processing.py 926-998
      (calc_undistor_intercept_perspective), processing.py 1189-1210
      (side_lengths), loadersaver.py 432-437 (scale8). *)
  Definition nmin (a b : T) : T := if b <?! a then b else a.
  (** np.clip(x, lo, hi) = minimum(maximum(x, lo), hi).
      Used by postprocessing.py 144-145 (coord_x), postprocessing.py 179-182
      (fwd_col), postprocessing.py 188-229 (unwarp_slice_backward) and others.
      *)
  Definition nclip (x lo hi : T) : T := nmin (nmax x lo) hi.
  (** np.sum of a 1-D array / over axis 0: left to right.  (numpy switches to
      a pairwise order above 8 terms; only the order of additions differs.)
      Used by utility.py 192-230 (find_point_to_point), utility.py 320-330
      (color_maps), utility.py 415-434 (cv2_maps) and others. *)
  Definition nsum (l : list T) : T := fold_left nadd l n0.
  (** np.amin / np.amax: ValueError on an empty array.
      Used by postprocessing.py 188-229 (unwarp_slice_backward),
      postprocessing.py 255-313 (unwarp_chunk_slices_backward),
      preprocessing.py 966-997 (get_points_dot_pattern) and others. *)
  Definition namin (l : list T) : res T :=
    match l with [] => Err ValueError | a :: l' => Ok (fold_left nmin l' a) end.
  (** np.max; an empty array raises ValueError; used by postprocessing.py
      188-229 (unwarp_slice_backward), postprocessing.py 255-313
      (unwarp_chunk_slices_backward), processing.py 312-323 (missing_error) and
      others. *)
  Definition namax (l : list T) : res T :=
    match l with [] => Err ValueError | a :: l' => Ok (fold_left nmax l' a) end.
  (** a > b (used for comparisons written that way, e.g. processing.py 148-191).
      *)
  Definition ngtb (a b : T) := b <?! a.
  (** a >= b (used for comparisons written that way, e.g. preprocessing.py
      308-329). *)
  Definition ngeb (a b : T) := b <=?! a.
End Derived.

(** *** Reals with a rounding function *)
(** Used by loadersaver.py 283-329 (slice_dataset), loadersaver.py 274-329
    (load_open). *)
Definition f32 (x : R) : R := round radix2 (FLT_exp (-149) 24) ZnearestE x.
(** Rounding to float64, the type of the arrays of postprocessing.py 36-492 and
    processing.py 47-1651. *)
Definition f64 (x : R) : R := round radix2 (FLT_exp (-1074) 53) ZnearestE x.

(** Real numbers with every operation rounded by rnd: the arithmetic of all
    numeric code (postprocessing.py 36-492, processing.py 47-1651) when rnd
    rounds to float64. *)
Definition Rnum (rnd : R -> R) : Num R := {|
  nadd := fun a b => rnd (a + b)%R; nsub := fun a b => rnd (a - b)%R;
  nmul := fun a b => rnd (a * b)%R; ndiv := fun a b => rnd (a / b)%R;
  nopp := Ropp; nabs := Rabs; nsqrt := fun a => rnd (sqrt a);
  npow := fun a n => rnd (a ^ n)%R;
  nleb := Rle_bool; nltb := Rlt_bool; neqb := Req_bool;
  nofZ := IZR; nofQ := fun p q => rnd (IZR p / IZR q)%R;
  nfloor := Zfloor; nceil := Zceil; ntrunc := Ztrunc; nrint := ZnearestE;
  nf32 := f32 |}.

(** Exact real arithmetic.
    (All numeric code; an idealisation.) *)
Definition Rex : Num R := Rnum (fun x => x).

(** The two roundings that a theorem "in exact or in IEEE double arithmetic
    (without overflow)" ranges over.
    (All numeric code.) *)
Definition exact_or_double (rnd : R -> R) : Prop :=
  (forall x, rnd x = x) \/ (forall x, rnd x = f64 x).

(** *** Primitive binary64 *)
(** np.floor / int (postprocessing.py 221-222, 300-301) *)
Definition sf_floor (f : spec_float) : Z :=
  match f with
  | S754_finite s m e =>
      let v := if s then Zneg m else Zpos m in
      if 0 <=? e then v * 2 ^ e else v / 2 ^ (- e)
  | _ => 0
  end.
(** Sign change of a binary64 number; helper of np.ceil and rounding towards
    zero (postprocessing.py 222, 301). *)
Definition sf_opp (f : spec_float) : spec_float :=
  match f with
  | S754_finite s m e => S754_finite (negb s) m e
  | x => x
  end.
(** np.round to an integer, ties to even (postprocessing.py 179-182). *)
Definition sf_rint (f : spec_float) : Z :=
  match f with
  | S754_finite s m e =>
      let v := if s then Zneg m else Zpos m in
      if 0 <=? e then v * 2 ^ e else
        let d := 2 ^ (- e) in
        let q := v / d in let r := v mod d in
        if 2 * r <? d then q else if d <? 2 * r then q + 1
        else if Z.even q then q else q + 1
  | _ => 0
  end.
(** An int used as a float (postprocessing.py 36-492). *)
Definition f_ofZ (z : Z) : PrimFloat.float :=
  SF2Prim (binary_normalize 53 1024 z 0 false).
(** np.float32(x) (postprocessing.py 144-145). *)
Definition f_f32 (x : PrimFloat.float) : PrimFloat.float :=
  match Prim2SF x with
  | S754_finite s m e =>
      SF2Prim (binary_normalize 24 128 (if s then Zneg m else Zpos m) e s)
  | f => SF2Prim f
  end.
(** x ** n for a small literal n (postprocessing.py 36-64). *)
Fixpoint f_pow (x : PrimFloat.float) (n : nat) : PrimFloat.float :=
  match n with O => 1%float | S O => x | S k => (f_pow x k * x)%float end.

(** The arithmetic of the machine, for running the model of all numeric code
    (postprocessing.py 36-492, processing.py 47-1651) on concrete numbers. *)
Definition FloatNum : Num PrimFloat.float := {|
  nadd := PrimFloat.add; nsub := PrimFloat.sub; nmul := PrimFloat.mul;
  ndiv := PrimFloat.div; nopp := PrimFloat.opp; nabs := PrimFloat.abs;
  nsqrt := PrimFloat.sqrt; npow := f_pow;
  nleb := PrimFloat.leb; nltb := PrimFloat.ltb; neqb := PrimFloat.eqb;
  nofZ := f_ofZ; nofQ := fun p q => (f_ofZ p / f_ofZ q)%float;
  nfloor := fun x => sf_floor (Prim2SF x);
  nceil := fun x => - sf_floor (sf_opp (Prim2SF x));
  ntrunc := fun x => let f := Prim2SF x in
     match f with S754_finite true _ _ => - sf_floor (sf_opp f) | _ => sf_floor f end;
  nrint := fun x => sf_rint (Prim2SF x);
  nf32 := f_f32 |}.
