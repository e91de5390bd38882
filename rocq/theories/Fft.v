(** Model of the Fourier filter in discorpy/prep/preprocessing.py (lines
    76-128).  np.exp, fft2 and ifft2 are parameters; a complex number is a pair
    (real part, imaginary part). *)
From Coq Require Import ZArith.
From Verif Require Import Base Num Img PrepImg.
Local Open Scope Z_scope.

Section Fft.
  Context {T : Type} {N : Num T}.
  Local Open Scope num_scope.
  Variable exp_ : T -> T.
  Variables fft2 ifft2 : image (T * T) -> image (T * T).
  (** Index read by np.pad for position i on an axis of length n: the padding
      mode (modes that copy values: 'reflect', 'symmetric', 'edge', 'wrap'). *)
  Variable pad_mode : Z -> Z -> Z.

  (** preprocessing.py 76-99 _make_window; the k-th value of
      np.ogrid[-c:n - c] is -c + k. *)
  Definition make_window (height width : Z) (sigma : T) : image T :=
    let xcenter := (nofZ width -! n1) /! nofZ 2 in
    let ycenter := (nofZ height -! n1) /! nofZ 2 in
    let num := nofZ 2 *! sigma *! sigma in
    mkimg height width (fun i j =>
      let y := nopp ycenter +! nofZ i in
      let x := nopp xcenter +! nofZ j in
      exp_ (nopp (x *! x /! num +! y *! y /! num))).
  (** np.pad(mat, ((pad, pad), (pad, pad)), mode=mode) of a non-empty image,
      pad >= 0
      Used by preprocessing.py 102-128 (apply_fft_filter). *)
  Definition pad_image (mat : image T) (pad : Z) : image T :=
    mkimg (ih mat + 2 * pad) (iw mat + 2 * pad)
      (fun i j => px mat (pad_mode (ih mat) (i - pad)) (pad_mode (iw mat) (j - pad))).
  (** np.power(-1.0, x + y)
      Used by preprocessing.py 102-128 (apply_fft_filter). *)
  Definition matsign (i j : Z) : T := if Z.even (j + i) then n1 else nopp n1.
  (** preprocessing.py 102-128 _apply_fft_filter, for non-empty images and
      pad >= 0 (otherwise np.pad or fft2 raises) *)
  Definition apply_fft_filter (mat : image T) (sigma : T) (pad : Z) : image T :=
    let mat := pad_image mat pad in
    let height := ih mat in let width := iw mat in
    let window := make_window height width sigma in
    let f := fft2 (mkimg height width (fun i j => (px mat i j *! matsign i j, n0))) in
    let g := mkimg height width (fun i j => (fst (px f i j) *! px window i j, snd (px f i j) *! px window i j)) in
    let r := ifft2 g in
    let mat := mkimg height width (fun i j => fst (px r i j) *! matsign i j) in
    slice2 mat pad (height - pad) pad (width - pad).
End Fft.
(** np.pad mode 'reflect': d c b | a b c d | c b a, repeated as needed; a single
    value is repeated.
    (preprocessing.py 102-128.) *)
Definition pad_reflect (n i : Z) : Z :=
  if n <=? 1 then 0 else let m := i mod (2 * (n - 1)) in if m <? n then m else 2 * (n - 1) - m.
(** Mode 'edge'.
    (preprocessing.py 102-128.) *)
Definition pad_edge (n i : Z) : Z := Z.max 0 (Z.min i (n - 1)).
