(** Property theorems for discorpy/post/postprocessing.py (C01 - C15).
    Vocabulary: Spec.v (mathematics), Lsq.v (least squares), Post.v (model). *)
From Coq Require Import Reals ZArith List Lra Lia Bool Permutation Sorted.
From Flocq Require Import Core.
From Verif Require Import Base Num Img Spec Lsq LsqEx Sorting Post NumFacts PostLines PostLines2
  PostImg PostImg2 PostPersp PostExtra.
Local Open Scope R_scope.

(** ** C01 *)
Theorem C01_forward_points : forall lines xc yc fact,
  Forall (fun l => fst l = DF64) lines ->
  Forall2 (fun l u => fst u = DF64 /\
             Forall2 (fun p q => q = radial_map fact (yc, xc) p) (snd l) (snd u))
    lines (@unwarp_line_forward R Rex lines xc yc fact).
Proof. exact forward_points. Qed.
Print Assumptions C01_forward_points.

(** What the radial model means: centre fixed, ray kept, distance scaled. *)
Theorem C01_radial_geometry : forall fact c p,
  radial_map fact c c = c /\
  dist (radial_map fact c p) c = Rabs (poly fact (dist p c)) * dist p c /\
  collinear c p (radial_map fact c p).
Proof.
  intros fact c p. split; [apply radial_center|]. split; [apply radial_dist|].
  unfold collinear, radial_map, padd, pscale, psub, py, pxc. cbn [fst snd]. ring.
Qed.
Print Assumptions C01_radial_geometry.

Theorem C01_identity : forall lines xc yc n,
  Forall (fun l => fst l = DF64) lines ->
  @unwarp_line_forward R Rex lines xc yc (1 :: repeat 0 n) = lines.
Proof. exact forward_identity. Qed.
Print Assumptions C01_identity.

Theorem C01_translate : forall lines xc yc fact t,
  Forall (fun l => fst l = DF64) lines ->
  @unwarp_line_forward R Rex (map_lines (fun p => padd p t) lines) (xc + pxc t) (yc + py t) fact =
  map_lines (fun p => padd p t) (@unwarp_line_forward R Rex lines xc yc fact).
Proof. exact forward_translate. Qed.
Print Assumptions C01_translate.

Theorem C01_rotate : forall lines xc yc fact cs sn,
  Forall (fun l => fst l = DF64) lines -> cs * cs + sn * sn = 1 ->
  @unwarp_line_forward R Rex (map_lines (rotate_about (yc, xc) cs sn) lines) xc yc fact =
  map_lines (rotate_about (yc, xc) cs sn) (@unwarp_line_forward R Rex lines xc yc fact).
Proof. exact forward_rotate. Qed.
Print Assumptions C01_rotate.

(** A concrete case: F(r) = 1 + r, centre (0,0), point (3,4) at distance 5. *)
Example C01_case : @unwarp_line_forward R Rex [(DF64, [(3, 4)])] 0 0 [1; 1] = [(DF64, [(18, 24)])].
Proof.
  rewrite forward_eq_map by (repeat constructor). unfold map_lines, radial_map, padd, pscale, psub, dist, py, pxc.
  cbn [map fst snd poly].
  replace ((3 - 0) * (3 - 0) + (4 - 0) * (4 - 0)) with (5 * 5) by ring.
  rewrite sqrt_square by lra. repeat f_equal; ring.
Qed.

(** ** C02 *)
Theorem C02_dtype : forall lines xc yc fact,
  Forall2 (fun l u => fst u = fst l /\
             Forall2 (fun p q =>
               let r := radial_map fact (yc, xc) p in
               match fst l with
               | DInt => q = (IZR (Ztrunc (py r)), IZR (Ztrunc (pxc r)))
               | DF32 => q = (f32 (py r), f32 (pxc r))
               | DF64 => q = r
               end) (snd l) (snd u))
    lines (@unwarp_line_forward R Rex lines xc yc fact).
Proof. exact forward_points_dtype. Qed.
Print Assumptions C02_dtype.

(** The loss can be as close to one pixel as one likes. *)
Theorem C02_int_loss : forall eps, 0 < eps ->
  exists p fact, let q := radial_map fact (0, 0) p in
   (exists a b, p = (IZR a, IZR b)) /\
   exists r, @unwarp_line_forward R Rex [(DInt, [p])] 0 0 fact = [(DInt, [r])] /\
     pxc q - pxc r > 1 - eps.
Proof. exact int_loss. Qed.
Print Assumptions C02_int_loss.

(** ** C03 *)
Theorem C03_backward_points : forall minimize lines xc yc fact,
  Forall (fun l => fst l = DF64) lines ->
  Forall2 (fun l u => fst u = DF64 /\
     Forall2 (fun p q =>
       let c := (yc, xc) in let rd := dist p c in
       let ru := minimize (fun u => (rd - u * poly fact u) ^ 2) rd in
       (p = c -> q = c) /\
       (p <> c -> q = padd c (pscale (ru / rd) (psub p c))) /\
       ((rd - ru * poly fact ru) ^ 2 = 0 -> 0 <= ru -> radial_map fact c q = p))
       (snd l) (snd u))
    lines (@unwarp_line_backward R Rex minimize lines xc yc fact).
Proof. exact backward_lines. Qed.
Print Assumptions C03_backward_points.

(** A minimiser that reaches zero: F(r) = 2, exact minimum at rd / 2. *)
Example C03_case : radial_map [2] (0, 0)
  (@unwarp_dot_backward R Rex (fun _ rd => rd / 2) DF64 0 0 [2] (3, 4)) = (3, 4).
Proof.
  apply (backward_point (fun _ rd => rd / 2) 0 0 [2] (3, 4)).
  - cbv beta zeta. cbn [poly]. field.
  - pose proof (dist_pos (3, 4) (0, 0)). lra.
Qed.

(** ** C04 *)
Theorem C04_sampling : forall interp mat xc yc fact,
  (0 < ih mat)%Z -> (0 < iw mat)%Z ->
  let out := @unwarp_image_backward R Rex interp mat xc yc fact in
  ih out = ih mat /\ iw out = iw mat /\
  forall i j, in_img mat i j ->
    let p := radial_map fact (yc, xc) (zpt i j) in
    px out i j = interp mat (f32 (clamp (py p) 0 (IZR (ih mat - 1))))
                            (f32 (clamp (pxc p) 0 (IZR (iw mat - 1)))).
Proof. exact image_backward_sampling. Qed.
Print Assumptions C04_sampling.

Theorem C04_positions : forall rnd interp mat xc yc fact,
  (0 < ih mat <= 2 ^ 24 + 1)%Z -> (0 < iw mat <= 2 ^ 24 + 1)%Z ->
  let out := @unwarp_image_backward R (Rnum rnd) interp mat xc yc fact in
  ih out = ih mat /\ iw out = iw mat /\
  forall i j, in_img mat i j -> exists y x,
    0 <= y <= IZR (ih mat - 1) /\ 0 <= x <= IZR (iw mat - 1) /\ px out i j = interp mat y x.
Proof. exact image_backward_positions. Qed.
Print Assumptions C04_positions.

(** At such a position the order-1 interpolation is the kernel-weighted sum of
    the pixels. *)
Theorem C04_bilinear : forall m y x,
  0 <= y <= IZR (ih m - 1) -> 0 <= x <= IZR (iw m - 1) ->
  @bilinear R Rex m y x = lin_sample m y x.
Proof. exact bilinear_lin_sample. Qed.
Print Assumptions C04_bilinear.

Theorem C04_range : forall rnd cast mat xc yc fact lo hi,
  (0 < ih mat)%Z -> (0 < iw mat)%Z ->
  (forall a b, a <= b -> cast a <= cast b) -> cast lo = lo -> cast hi = hi ->
  (forall i j, in_img mat i j -> lo <= px mat i j <= hi) ->
  let out := @unwarp_image_backward R (Rnum rnd) (@bilinear_cast R Rex cast) mat xc yc fact in
  forall i j, in_img mat i j -> lo <= px out i j <= hi.
Proof. exact image_backward_bounds. Qed.
Print Assumptions C04_range.

Theorem C04_constant : forall rnd cast mat xc yc fact c,
  (0 < ih mat)%Z -> (0 < iw mat)%Z ->
  (forall a b, a <= b -> cast a <= cast b) -> cast c = c ->
  (forall i j, in_img mat i j -> px mat i j = c) ->
  forall i j, in_img mat i j ->
    px (@unwarp_image_backward R (Rnum rnd) (@bilinear_cast R Rex cast) mat xc yc fact) i j = c.
Proof. exact backward_constant. Qed.
Print Assumptions C04_constant.

(** The conversion to float32 is a cast as required by C04_range. *)
Example C04_case : (forall a b, a <= b -> f32 a <= f32 b) /\ f32 0 = 0 /\ f32 255 = 255.
Proof. split; [exact f32_mono|]. split; [apply (f32_int 0)|apply (f32_int 255)]; lia. Qed.

(** ** C05 (colour images: see Props_Util) *)
Theorem C05_backward_identity : forall cast mat xc yc n,
  (ih mat <= 2 ^ 24 + 1)%Z -> (iw mat <= 2 ^ 24 + 1)%Z ->
  (forall i j, in_img mat i j -> cast (px mat i j) = px mat i j) ->
  img_eq (@unwarp_image_backward R Rex (@bilinear_cast R Rex cast) mat xc yc (1 :: repeat 0 n)) mat.
Proof. exact image_backward_identity. Qed.
Print Assumptions C05_backward_identity.

Theorem C05_forward_identity : forall mat xc yc n,
  exists out, @unwarp_image_forward R Rex mat xc yc (1 :: repeat 0 n) = Ok out /\ img_eq out mat.
Proof. exact image_forward_identity. Qed.
Print Assumptions C05_forward_identity.

(** ** C06 *)
Theorem C06_linear : forall rnd m1 m2 a b xc yc fact, ih m1 = ih m2 -> iw m1 = iw m2 ->
  forall i j, in_img m1 i j ->
  px (@unwarp_image_backward R (Rnum rnd) (@bilinear R Rex)
        (mkimg (ih m1) (iw m1) (fun i j => a * px m1 i j + b * px m2 i j)) xc yc fact) i j =
  a * px (@unwarp_image_backward R (Rnum rnd) (@bilinear R Rex) m1 xc yc fact) i j +
  b * px (@unwarp_image_backward R (Rnum rnd) (@bilinear R Rex) m2 xc yc fact) i j.
Proof. exact image_backward_linear. Qed.
Print Assumptions C06_linear.

(** ** C07 *)
Theorem C07_forward_image : forall mat xc yc fact,
  let tgt i j := let p := radial_map fact (yc, xc) (zpt i j) in
                 (ZnearestE (clamp (py p) 0 (IZR (ih mat - 1))),
                  ZnearestE (clamp (pxc p) 0 (IZR (iw mat - 1)))) in
  exists out, @unwarp_image_forward R Rex mat xc yc fact = Ok out /\
    ih out = ih mat /\ iw out = iw mat /\
    forall i j,
      (px out i j = 0 /\ forall a b, in_img mat a b -> tgt a b <> (i, j)) \/
      (exists a b, in_img mat a b /\ tgt a b = (i, j) /\ px out i j = px mat a b /\
         forall a' b', in_img mat a' b' -> tgt a' b' = (i, j) -> lex_le (a', b') (a, b)).
Proof. exact image_forward_exact. Qed.
Print Assumptions C07_forward_image.

(** The same for every rounding of the coordinate arithmetic. *)
Theorem C07_forward_image_rounded : forall rnd mat xc yc fact,
  let tgt i j := (@fwd_row R (Rnum rnd) xc yc fact (ih mat) i j,
                  @fwd_col R (Rnum rnd) xc yc fact (iw mat) i j) in
  exists out, @unwarp_image_forward R (Rnum rnd) mat xc yc fact = Ok out /\
    ih out = ih mat /\ iw out = iw mat /\
    forall i j,
      (px out i j = 0 /\ forall a b, in_img mat a b -> tgt a b <> (i, j)) \/
      (exists a b, in_img mat a b /\ tgt a b = (i, j) /\ px out i j = px mat a b /\
         forall a' b', in_img mat a' b' -> tgt a' b' = (i, j) -> lex_le (a', b') (a, b)).
Proof. exact image_forward_gen. Qed.
Print Assumptions C07_forward_image_rounded.

(** ** C08 *)
Theorem C08_slice : forall v xc yc fact index,
  (0 < vh v <= 32767)%Z -> (0 < vw v)%Z -> (0 <= vd v)%Z ->
  let P j := radial_map fact (yc, xc) (zpt index j) in
  exists out, @unwarp_slice_backward R Rex (@bilinear R Rex) v xc yc fact index = Ok out /\
    ih out = vd v /\ iw out = vw v /\
    forall i j, (0 <= i < vd v)%Z -> (0 <= j < vw v)%Z ->
      px out i j = f32 (lin_sample (vplane v i) (clamp (py (P j)) 0 (IZR (vh v - 1)))
                                   (clamp (pxc (P j)) 0 (IZR (vw v - 1)))).
Proof. exact slice_backward_exact. Qed.
Print Assumptions C08_slice.

(** Cropping is harmless also when the positions are computed in binary64. *)
Theorem C08_slice_double : forall rnd v xc yc fact index, exact_or_double rnd ->
  (0 < vh v <= 32767)%Z -> (0 < vw v)%Z -> (0 <= vd v)%Z ->
  let Y j := clamp (@map_y R (Rnum rnd) xc yc fact index j) 0 (IZR (vh v - 1)) in
  let X j := clamp (@map_x R (Rnum rnd) xc yc fact index j) 0 (IZR (vw v - 1)) in
  exists out, @unwarp_slice_backward R (Rnum rnd) (@bilinear R Rex) v xc yc fact index = Ok out /\
    ih out = vd v /\ iw out = vw v /\
    forall i j, (0 <= i < vd v)%Z -> (0 <= j < vw v)%Z ->
      px out i j = f32 (lin_sample (vplane v i) (Y j) (X j)).
Proof. exact slice_backward_gen. Qed.
Print Assumptions C08_slice_double.

(** ** C09 *)
Theorem C09_chunk_rows : forall rnd v xc yc fact start stop, exact_or_double rnd ->
  (vh v <= 32767)%Z -> (0 < vw v <= 2 ^ 24 + 1)%Z -> (0 <= vd v)%Z ->
  (0 <= start <= stop)%Z -> (stop < vh v)%Z ->
  (forall k j, (start <= k <= stop)%Z -> (0 <= j < vw v)%Z ->
     @map_y R (Rnum rnd) xc yc fact start j <= @map_y R (Rnum rnd) xc yc fact k j
       <= @map_y R (Rnum rnd) xc yc fact stop j) ->
  exists out, @unwarp_chunk_slices_backward R (Rnum rnd) (@bilinear R Rex) v xc yc fact start stop = Ok out /\
    vd out = vd v /\ vh out = (stop - start + 1)%Z /\ vw out = vw v /\
    forall i k j, (0 <= i < vd v)%Z -> (0 <= k <= stop - start)%Z -> (0 <= j < vw v)%Z ->
      vx out i k j =
      px (@unwarp_image_backward R (Rnum rnd) (@bilinear R Rex) (vplane v i) xc yc fact) (start + k) j.
Proof. exact chunk_rows. Qed.
Print Assumptions C09_chunk_rows.

(** The monotonicity condition holds for identity coefficients. *)
Example C09_case : forall k j, (1 <= k <= 3)%Z ->
  @map_y R Rex 2 2 [1] 1 j <= @map_y R Rex 2 2 [1] k j <= @map_y R Rex 2 2 [1] 3 j.
Proof.
  intros k j Hk. rewrite !map_y_R. change [1] with (1 :: repeat 0 0). rewrite !radial_identity.
  unfold zpt, py. cbn [fst]. split; apply IZR_le; lia.
Qed.

(** Without monotonicity the rows can differ. *)
Theorem C09_monotone_needed :
  exists out, @unwarp_chunk_slices_backward R Rex (@bilinear R Rex) nonmono_vol 0 2 [4; -2] 0 4 = Ok out
    /\ vx out 0 1 0 <> px (@unwarp_image_backward R Rex (@bilinear R Rex)
                            (vplane nonmono_vol 0) 0 2 [4; -2]) 1 0.
Proof. exact chunk_nonmonotone. Qed.
Print Assumptions C09_monotone_needed.

(** ** C10.  [inl tt] is an array with fewer than three dimensions. *)
Theorem C10_accepted_ranges : forall rnd interp a xc yc fact start stop,
  (forall v, a = inr v -> (0 < vw v)%Z) ->
  (@unwarp_chunk_entry R (Rnum rnd) interp a xc yc fact start stop = Err ValueError <->
   a = inl tt \/ exists v, a = inr v /\
     (~ (0 <= start <= vh v - 1)%Z \/ ~ (0 <= stop <= vh v - 1)%Z)).
Proof. exact chunk_value_error. Qed.
Print Assumptions C10_accepted_ranges.

Example C10_minus_one : forall v, (0 < vw v)%Z ->
  @unwarp_chunk_entry R Rex (@bilinear R Rex) (inr v) 0 0 [1] 0 (-1) = Err ValueError.
Proof.
  intros v Hw. apply chunk_value_error; [intros v' [= <-]; exact Hw|].
  right. exists v. split; [reflexivity|]. right. lia.
Qed.

(** ** C11 *)
Theorem C11_tall_refuted :
  exists out, @unwarp_slice_backward R Rex (@bilinear R Rex) tall_vol 0 0 [1] 40000 = Ok out /\
    px out 0 0 = vx tall_vol 0 24464 0 /\ px out 0 0 <> vx tall_vol 0 40000 0.
Proof. exact slice_tall_wrong. Qed.
Print Assumptions C11_tall_refuted.

(** ** C12 *)
Theorem C12_residual_hor : forall polyfit1 argsort lines xc yc data,
  polyfit1_spec polyfit1 -> argsort_spec argsort ->
  @calc_residual_hor R Rex polyfit1 argsort lines xc yc = Ok data ->
  exists fits,
    Forall2 (fun ln ab => ln <> [] /\ polyfit_spec 1 (map pxc ln) (map py ln) [fst ab; snd ab])
      lines fits /\
    Permutation data (concat (map (line_resid yc xc) (combine lines fits))) /\
    StronglySorted (fun a b => fst a <= fst b) data.
Proof. exact residual_hor_spec. Qed.
Print Assumptions C12_residual_hor.

(** It succeeds exactly when there is a line and no line is empty. *)
Theorem C12_residual_total : forall polyfit1 argsort lines xc yc rnd,
  (lines <> [] /\ Forall (fun ln => ln <> []) lines <->
   exists data, @calc_residual_hor R (Rnum rnd) polyfit1 argsort lines xc yc = Ok data).
Proof. exact residual_hor_total. Qed.
Print Assumptions C12_residual_total.
Theorem C12_no_lines : forall rnd polyfit1 argsort xc yc,
  @calc_residual_hor R (Rnum rnd) polyfit1 argsort [] xc yc = Err IndexError /\
  @calc_residual_ver R (Rnum rnd) polyfit1 argsort [] xc yc = Err IndexError.
Proof. intros. split; reflexivity. Qed.
Print Assumptions C12_no_lines.

(** [line_dist] is the Euclidean distance to the line v = a u + b. *)
Theorem C12_line_dist_meaning : forall a b u v,
  (forall s, line_dist a b u v <= sqrt ((u - s) * (u - s) + (v - (a * s + b)) * (v - (a * s + b)))) /\
  (exists s, line_dist a b u v = sqrt ((u - s) * (u - s) + (v - (a * s + b)) * (v - (a * s + b)))).
Proof. exact line_dist_is_distance. Qed.
Print Assumptions C12_line_dist_meaning.

Theorem C12_nonneg : forall polyfit1 argsort lines xc yc data,
  polyfit1_spec polyfit1 -> argsort_spec argsort ->
  @calc_residual_hor R Rex polyfit1 argsort lines xc yc = Ok data ->
  Forall (fun d => 0 <= fst d /\ 0 <= snd d) data /\ length data = length (concat lines).
Proof. exact residual_hor_nonneg. Qed.
Print Assumptions C12_nonneg.

Theorem C12_collinear : forall polyfit1 argsort lines xc yc data,
  polyfit1_spec polyfit1 -> argsort_spec argsort ->
  @calc_residual_hor R Rex polyfit1 argsort lines xc yc = Ok data ->
  Forall (fun ln => exists al be, Forall (fun p => py p = al * pxc p + be) ln) lines ->
  Forall (fun d => snd d = 0) data.
Proof. exact residual_hor_collinear. Qed.
Print Assumptions C12_collinear.

Theorem C12_center : forall polyfit1 argsort lines xc yc xc' yc' data data',
  polyfit1_spec polyfit1 -> argsort_spec argsort ->
  Forall (fun ln => exists p q, In p ln /\ In q ln /\ pxc p <> pxc q) lines ->
  @calc_residual_hor R Rex polyfit1 argsort lines xc yc = Ok data ->
  @calc_residual_hor R Rex polyfit1 argsort lines xc' yc' = Ok data' ->
  Permutation (map snd data) (map snd data').
Proof. exact residual_hor_center. Qed.
Print Assumptions C12_center.

Theorem C12_ver_is_hor_swapped : forall rnd polyfit1 argsort lines xc yc,
  @calc_residual_ver R (Rnum rnd) polyfit1 argsort lines xc yc =
  @calc_residual_hor R (Rnum rnd) polyfit1 argsort (map (map swap) lines) yc xc.
Proof. exact residual_ver_hor. Qed.
Print Assumptions C12_ver_is_hor_swapped.

(** Fits and sorts meeting the hypotheses exist. *)
Example C12_case : polyfit1_spec fit1 /\ argsort_spec (@argsort_ins R Rex).
Proof. split; [exact fit1_ok|apply argsort_ins_ok]. Qed.

(** ** C13 *)
Theorem C13_check_distortion : forall rnd data k, exact_or_double rnd ->
  (Z.of_nat (length data) <= 2 ^ 50)%Z -> data <> [] ->
  count_occ_pred (fun d => 1 < snd d) data k ->
  exists b, @check_distortion R (Rnum rnd) data = Ok b /\
    (b = true <-> (20 * k > 3 * length data)%nat).
Proof. exact check_distortion_spec. Qed.
Print Assumptions C13_check_distortion.

Theorem C13_empty : forall rnd, @check_distortion R (Rnum rnd) [] = Err ZeroDivisionError.
Proof. exact check_distortion_empty. Qed.
Print Assumptions C13_empty.

Example C13_case : count_occ_pred (fun d => 1 < snd d) [(0, 2); (5, 1); (6, 1/2)] 1.
Proof. repeat ((apply cop_yes; [cbn; lra|]) || (apply cop_no; [cbn; lra|]) || constructor). Qed.

(** ** C14 *)
Theorem C14_perspective_line : forall lines c out,
  @correct_perspective_line R Rex lines c = Ok out <->
  length c = 8%nat /\ out = map (map (proj (coef_mat c))) lines.
Proof. exact perspective_line_coefs. Qed.
Print Assumptions C14_perspective_line.

Theorem C14_arity : forall rnd lines coefs,
  length coefs <> 8%nat <-> @correct_perspective_line R (Rnum rnd) lines coefs = Err ValueError.
Proof. exact perspective_line_arity. Qed.
Print Assumptions C14_arity.

Theorem C14_collinear : forall c lines out,
  @correct_perspective_line R Rex lines c = Ok out ->
  Forall2 (fun l u => length u = length l /\
     forall i j k, (i < length l)%nat -> (j < length l)%nat -> (k < length l)%nat ->
       let p n := nth n l (0, 0) in let q n := nth n u (0, 0) in
       den (coef_mat c) (p i) <> 0 -> den (coef_mat c) (p j) <> 0 -> den (coef_mat c) (p k) <> 0 ->
       collinear (p i) (p j) (p k) -> collinear (q i) (q j) (q k)) lines out.
Proof. exact perspective_collinear. Qed.
Print Assumptions C14_collinear.

Theorem C14_compose : forall a b lines l1 l2,
  @correct_perspective_line R Rex lines b = Ok l1 ->
  @correct_perspective_line R Rex l1 a = Ok l2 ->
  Forall (Forall (fun p => den (coef_mat b) p <> 0 /\
                           den (coef_mat a) (proj (coef_mat b) p) <> 0)) lines ->
  c9 (mul3 (coef_mat a) (coef_mat b)) <> 0 ->
  @correct_perspective_line R Rex lines (mat_coefs (mul3 (coef_mat a) (coef_mat b))) = Ok l2.
Proof. exact perspective_compose. Qed.
Print Assumptions C14_compose.

Theorem C14_inverse : forall a b k lines l1,
  mul3 (coef_mat a) (coef_mat b) = M3 k 0 0 0 k 0 0 0 k -> k <> 0 ->
  length a = 8%nat ->
  Forall (Forall (fun p => den (coef_mat b) p <> 0 /\
                           den (coef_mat a) (proj (coef_mat b) p) <> 0)) lines ->
  @correct_perspective_line R Rex lines b = Ok l1 ->
  @correct_perspective_line R Rex l1 a = Ok lines.
Proof. exact perspective_inverse. Qed.
Print Assumptions C14_inverse.

(** x -> x/(1+x) and its inverse x -> x/(1-x), on a line of two points. *)
Example C14_case :
  let a := [1; 0; 0; 0; 1; 0; -1; 0] in let b := [1; 0; 0; 0; 1; 0; 1; 0] in
  mul3 (coef_mat a) (coef_mat b) = M3 1 0 0 0 1 0 0 0 1 /\
  Forall (Forall (fun p => den (coef_mat b) p <> 0 /\
                           den (coef_mat a) (proj (coef_mat b) p) <> 0)) [[(0, 1); (2, 3)]].
Proof.
  cbn zeta. split.
  - unfold mul3, coef_mat. cbn. f_equal; ring.
  - repeat constructor; unfold den, proj, den, coef_mat, py, pxc; cbn; try lra.
Qed.

(** ** C15 *)
Theorem C15_perspective_image : forall mat c,
  (0 <= ih mat <= 2 ^ 24 + 1)%Z -> (0 <= iw mat <= 2 ^ 24 + 1)%Z -> length c = 8%nat ->
  let P i j := proj (coef_mat c) (zpt i j) in
  exists out, @correct_perspective_image R Rex (@bilinear R Rex) mat c None = Ok out /\
    ih out = ih mat /\ iw out = iw mat /\
    forall i j, (0 <= i < ih mat)%Z -> (0 <= j < iw mat)%Z ->
      px out i j = lin_sample mat (f32 (clamp (py (P i j)) 0 (IZR (ih mat - 1))))
                                  (f32 (clamp (pxc (P i j)) 0 (IZR (iw mat - 1)))).
Proof. exact perspective_image_exact. Qed.
Print Assumptions C15_perspective_image.

Theorem C15_range : forall rnd mat c lo hi out,
  (0 <= ih mat <= 2 ^ 24 + 1)%Z -> (0 <= iw mat <= 2 ^ 24 + 1)%Z ->
  (forall i j, in_img mat i j -> lo <= px mat i j <= hi) ->
  @correct_perspective_image R (Rnum rnd) (@bilinear R Rex) mat c None = Ok out ->
  forall i j, in_img out i j -> lo <= px out i j <= hi.
Proof. exact perspective_image_bounds. Qed.
Print Assumptions C15_range.

Theorem C15_identity : forall mat,
  (0 <= ih mat <= 2 ^ 24 + 1)%Z -> (0 <= iw mat <= 2 ^ 24 + 1)%Z ->
  exists out, @correct_perspective_image R Rex (@bilinear R Rex) mat [1;0;0;0;1;0;0;0] None = Ok out
    /\ img_eq out mat.
Proof. exact perspective_image_identity. Qed.
Print Assumptions C15_identity.

Theorem C15_arity : forall rnd interp mat c m, length c <> 8%nat ->
  @correct_perspective_image R (Rnum rnd) interp mat c m = Err ValueError.
Proof. exact perspective_image_arity. Qed.
Print Assumptions C15_arity.

Theorem C15_map_irrelevant : forall rnd interp mat c c' m,
  length c = 8%nat -> length c' = 8%nat ->
  @correct_perspective_image R (Rnum rnd) interp mat c (Some m)
  = @correct_perspective_image R (Rnum rnd) interp mat c' (Some m).
Proof. exact perspective_image_map_irrelevant. Qed.
Print Assumptions C15_map_irrelevant.

Theorem C15_map_same : forall rnd interp mat mat' c m,
  ih mat' = ih mat -> iw mat' = iw mat ->
  @generate_perspective_map R (Rnum rnd) mat' c = Ok m ->
  @correct_perspective_image R (Rnum rnd) interp mat c (Some m)
  = @correct_perspective_image R (Rnum rnd) interp mat c None.
Proof. exact perspective_image_map_same. Qed.
Print Assumptions C15_map_same.
(** A map with another number of points is refused; with the right number the
    pixels are the samples at its points, row by row. *)
Theorem C15_map_size : forall rnd interp mat c m, length c = 8%nat ->
  (Z.of_nat (length m) <> ih mat * iw mat -> @correct_perspective_image R (Rnum rnd) interp mat c (Some m) = Err ValueError)%Z /\
  (Z.of_nat (length m) = ih mat * iw mat -> exists out, @correct_perspective_image R (Rnum rnd) interp mat c (Some m) = Ok out /\
    ih out = ih mat /\ iw out = iw mat /\
    forall i j, 0 <= i < ih mat -> 0 <= j < iw mat -> let p := nth (Z.to_nat (i * iw mat + j)) m (0, 0)%R in px out i j = interp mat (fst p) (snd p))%Z.
Proof.
  intros rnd interp mat c m Lc. do 8 (destruct c as [|? c]; [discriminate|]). destruct c; [|discriminate].
  unfold correct_perspective_image, reshape. cbn [unpack8 bind]. rewrite map_length. split; intros H.
  - destruct (Z.eqb_spec (Z.of_nat (length m)) (ih mat * iw mat)%Z); [contradiction|reflexivity].
  - rewrite (proj2 (Z.eqb_eq _ _) H). eexists. split; [reflexivity|]. split; [reflexivity|]. split; [reflexivity|].
    intros i j Hi Hj. cbn [px]. rewrite (nth_indep _ _ (interp mat (fst (0, 0)%R) (snd (0, 0)%R))) by (rewrite map_length; nia).
    exact (map_nth (fun yx : R * R => interp mat (fst yx) (snd yx)) m (0, 0)%R (Z.to_nat (i * iw mat + j))).
Qed.
Print Assumptions C15_map_size.
