(** Property theorems for discorpy/util/utility.py (C16 - C24) and the colour
    part of C05.  Vocabulary: Spec.v; prog / in_disk / stripe / cell_of
    (UtilFacts.v); padded / corner / until_esc (UtilFacts2.v). *)
From Coq Require Import Reals ZArith List Lra Lia Bool.
From Flocq Require Import Core.
From Verif Require Import Base Num Img Spec Post NumFacts PostLines PostImg PostImg2 PostPersp Util
  UtilFacts UtilFacts2.
Local Open Scope Z_scope.

(** ** C16 *)
Theorem C16_circle_mask : forall width ratio,
  let m := @make_circle_mask R Rex width ratio in let c := width / 2 in
  ih m = width /\ iw m = width /\
  forall i j, in_img m i j ->
    (px m i j = 1%R /\
     ((IZR i - IZR c) ^ 2 + (IZR j - IZR c) ^ 2 <= (ratio * IZR c) ^ 2)%R) \/
    (px m i j = 0%R /\
     ~ ((IZR i - IZR c) ^ 2 + (IZR j - IZR c) ^ 2 <= (ratio * IZR c) ^ 2)%R).
Proof.
  intros width ratio. cbv zeta. split; [reflexivity|split; [reflexivity|]]. intros i j _.
  rewrite circle_mask_R. cbv zeta.
  replace ((IZR i - IZR (width / 2)) ^ 2 + (IZR j - IZR (width / 2)) ^ 2)%R
    with (IZR ((i - width / 2) * (i - width / 2) + (j - width / 2) * (j - width / 2)))
    by (rewrite plus_IZR, !mult_IZR, !minus_IZR; ring).
  replace ((ratio * IZR (width / 2)) ^ 2)%R with (ratio * IZR (width / 2) * (ratio * IZR (width / 2)))%R by ring.
  destruct (Rle_dec _ _); tauto.
Qed.
Print Assumptions C16_circle_mask.

Theorem C16_symmetry : forall {T} {N : Num T} width ratio i j,
  let m := make_circle_mask width ratio in
  px m j i = px m i j /\
  (width mod 2 = 1 -> px m (width - 1 - i) j = px m i j /\ px m i (width - 1 - j) = px m i j).
Proof.
  intros T N width ratio i j. split; [apply circle_mask_sym|apply circle_mask_flip].
Qed.
Print Assumptions C16_symmetry.

(** For an even width the mask is not symmetric under flips. *)
Example C16_even : px (@make_circle_mask R Rex 2 1%R) 0 1 = 1%R /\
                   px (@make_circle_mask R Rex 2 1%R) (2 - 1 - 0) 0 = 1%R /\
                   px (@make_circle_mask R Rex 2 1%R) 0 0 = 0%R.
Proof.
  rewrite !circle_mask_R. cbv zeta.
  change (2 / 2) with 1. cbn -[IZR].
  repeat split; destruct (Rle_dec _ _); lra.
Qed.

(** ** C17 *)
(** The margin argument gives the vertical and the horizontal margin: one
    number for both or a sequence which starts with the two. *)
Definition margin_is (m : margin_arg) (mv mh : Z) : Prop := m = MScalar mv /\ mh = mv \/ exists l, m = MSeq (mv :: mh :: l).
Lemma margins_spec m mv mh : margin_is m mv mh <-> margins m = Ok (mv, mh).
Proof.
  unfold margin_is. split.
  - intros [[-> ->]|[l ->]]; reflexivity.
  - destruct m as [a|[|a [|b l]]]; cbn; intros H; try discriminate; injection H as <- <-; [left; auto|right; eauto].
Qed.
Lemma margins_err m e : margins m = Err e <-> (exists l, m = MSeq l /\ (length l < 2)%nat) /\ e = ValueError.
Proof.
  destruct m as [a|[|a [|b l]]]; cbn; split; try discriminate; try (intros [[l' [H L]] E]; try discriminate; injection H as <-; cbn in L; try lia; now subst).
  - intros H. injection H as <-. split; [|reflexivity]. exists []. auto.
  - intros H. injection H as <-. split; [|reflexivity]. exists [a]. auto.
Qed.
Theorem C17_dot_pattern : forall h w d s m mv mh,
  margin_is m mv mh -> 0 <= mv -> 0 <= mh ->
  let n := Z.min (Z.max s 1) (Z.min h w / 8) in 1 <= n <= d ->
  exists out, @make_dot_pattern R Rex h w d s m = Ok out /\ ih out = h /\ iw out = w /\
    forall i j, in_img out i j ->
      let dark := exists gy gx,
          prog (mv + n / 2 + 1) (h - mv - n / 2 - 1) d gy /\
          prog (mh + n / 2 + 1) (w - mh - n / 2 - 1) d gx /\ in_disk n i j gy gx in
      (px out i j = 0%R /\ dark) \/ (px out i j = 1%R /\ ~ dark).
Proof. intros h w d s m mv mh Hm. apply dot_pattern_ok. now apply margins_spec. Qed.
Print Assumptions C17_dot_pattern.

Theorem C17_margin_blank : forall h w d s m mv mh out,
  margin_is m mv mh -> 0 <= mv -> 0 <= mh ->
  1 <= Z.min (Z.max s 1) (Z.min h w / 8) <= d ->
  @make_dot_pattern R Rex h w d s m = Ok out ->
  forall i j, in_img out i j -> i <= mv \/ h - mv - 1 <= i \/ j <= mh \/ w - mh - 1 <= j ->
  px out i j = 1%R.
Proof.
  intros h w d s m mv mh out Hm Hv Hh Hn E i j Hij Hb. apply margins_spec in Hm.
  destruct (dot_pattern_ok h w d s m mv mh Hm Hv Hh Hn) as [o [Eo [_ [_ H]]]].
  assert (o = out) by congruence. subst o.
  destruct (H i j Hij) as [[_ [gy [gx [P1 [P2 [[W1 W2] _]]]]]]|[P _]]; [exfalso|exact P].
  unfold clip_size in *.
  pose proof (dot_margin _ d _ _ gy i (proj1 Hn) ltac:(lia) P1 W1).
  pose proof (dot_margin _ d _ _ gx j (proj1 Hn) ltac:(lia) P2 W2). lia.
Qed.
Print Assumptions C17_margin_blank.

Theorem C17_dots_disjoint : forall n d ay by_ ax bx i j gy gx gy' gx', 1 <= n <= d ->
  prog ay by_ d gy -> prog ax bx d gx -> prog ay by_ d gy' -> prog ax bx d gx' ->
  in_window n i j gy gx -> in_window n i j gy' gx' -> gy = gy' /\ gx = gx'.
Proof. exact dot_windows_disjoint. Qed.
Print Assumptions C17_dots_disjoint.

Theorem C17_error : forall h w d s m,
  @make_dot_pattern R Rex h w d s m = Err ValueError <->
  d < Z.min (Z.max s 1) (Z.min h w / 8) \/ exists l, m = MSeq l /\ (length l < 2)%nat.
Proof. intros h w d s m. rewrite dot_pattern_error, margins_err. unfold clip_size. tauto. Qed.
Print Assumptions C17_error.

(** 32 x 32 image, dots of size 3 every 6 pixels, margin 5: (7, 7) is a grid
    point; (7, 8) lies in its disk, (8, 8) does not. *)
Example C17_case : prog (5 + 3 / 2 + 1) (32 - 5 - 3 / 2 - 1) 6 7 /\ in_disk 3 7 8 7 7 /\
  ~ in_disk 3 8 8 7 7 /\ 1 <= Z.min (Z.max 3 1) (Z.min 32 32 / 8) <= 6.
Proof.
  split; [exists 0; cbn; lia|]. unfold in_disk, in_window. cbn. lia.
Qed.

(** ** C18 *)
Theorem C18_line_pattern : forall h w d s m mv mh,
  margin_is m mv mh -> 0 <= mv -> 0 <= mh -> 0 < d ->
  let n := Z.min (Z.max s 1) (Z.min h w / 8) in 1 <= n ->
  ((exists x, stripe h mv n d x) <-> (exists x, stripe w mh n d x)) ->
  exists out, @make_line_pattern R Rex h w d s m = Ok out /\ ih out = h /\ iw out = w /\
    forall i j, in_img out i j ->
      let dark := (on_stripe h mv n d i /\ within_stripes w mh n d j) \/
                  (on_stripe w mh n d j /\ within_stripes h mv n d i) in
      (px out i j = 0%R /\ dark) \/ (px out i j = 1%R /\ ~ dark).
Proof. intros h w d s m mv mh Hm. apply line_pattern_ok. now apply margins_spec. Qed.
Print Assumptions C18_line_pattern.

Theorem C18_margin_blank : forall h w d s m mv mh out,
  margin_is m mv mh -> 0 <= mv -> 0 <= mh -> 0 < d ->
  1 <= Z.min (Z.max s 1) (Z.min h w / 8) ->
  @make_line_pattern R Rex h w d s m = Ok out ->
  forall i j, in_img out i j -> i < mv \/ h - mv <= i \/ j < mh \/ w - mh <= j ->
  px out i j = 1%R.
Proof.
  intros h w d s m mv mh out Hm Hv Hh Hd Hn E i j Hij Hb. apply margins_spec in Hm.
  destruct (Classical_Prop.classic ((exists x, stripe h mv (clip_size s h w) d x) <-> (exists x, stripe w mh (clip_size s h w) d x))) as [C|NC].
  - destruct (line_pattern_ok h w d s m mv mh Hm Hv Hh Hd Hn C) as [o [Eo [_ [_ H]]]].
    assert (o = out) by congruence. subst o.
    destruct (H i j Hij) as [[_ [[A B]|[A B]]]|[P _]]; [exfalso|exfalso|exact P].
    + pose proof (stripe_margin h mv _ d i Hv Hd (or_introl A)).
      pose proof (stripe_margin w mh _ d j Hh Hd (or_intror B)). lia.
    + pose proof (stripe_margin w mh _ d j Hh Hd (or_introl A)).
      pose proof (stripe_margin h mv _ d i Hv Hd (or_intror B)). lia.
  - pose proof (line_pattern_index_error h w d s m mv mh Hm Hd NC). congruence.
Qed.
Print Assumptions C18_margin_blank.

Theorem C18_transpose : forall h w d s mv mh out,
  0 <= mv -> 0 <= mh -> 0 < d -> 1 <= Z.min (Z.max s 1) (Z.min h w / 8) ->
  @make_line_pattern R Rex h w d s (MSeq [mv; mh]) = Ok out ->
  exists out', @make_line_pattern R Rex w h d s (MSeq [mh; mv]) = Ok out' /\
    ih out' = iw out /\ iw out' = ih out /\
    forall i j, in_img out i j -> px out' j i = px out i j.
Proof. exact line_pattern_transpose. Qed.
Print Assumptions C18_transpose.

Theorem C18_index_error : forall h w d s m mv mh,
  margin_is m mv mh -> 0 < d ->
  let n := Z.min (Z.max s 1) (Z.min h w / 8) in
  ~ ((exists x, stripe h mv n d x) <-> (exists x, stripe w mh n d x)) ->
  @make_line_pattern R Rex h w d s m = Err IndexError.
Proof. intros h w d s m mv mh Hm. apply line_pattern_index_error. now apply margins_spec. Qed.
Print Assumptions C18_index_error.

(** 20 x 100 image with margin 12: no row fits but columns do. *)
Example C18_case :
  @make_line_pattern R Rex 20 100 8 2 (MScalar 12) = Err IndexError /\
  (exists x, stripe 40 4 2 8 x) /\ (exists x, stripe 100 4 2 8 x).
Proof.
  split.
  - apply (C18_index_error 20 100 8 2 (MScalar 12) 12 12 (or_introl (conj eq_refl eq_refl)) ltac:(lia)).
    intros [_ H]. destruct H as [x [k [K1 [-> K2]]]].
    + exists 12, 0. cbn. lia.
    + change (Z.min (Z.max 2 1) (Z.min 20 100 / 8)) with 2 in K2. lia.
  - split; exists 4, 0; cbn; lia.
Qed.

(** ** C19 *)
Theorem C19_chessboard : forall h w size mg g, 0 < size -> 0 <= mg ->
  exists out, @make_chessboard R Rex h w size mg g = Ok out /\ ih out = h /\ iw out = w /\
    forall i j, in_img out i j ->
      (forall a b, cell_of h size mg i a -> cell_of w size mg j b ->
         px out i j = if Z.even (a + b) then 1%R else 0%R) /\
      ((~ exists a b, cell_of h size mg i a /\ cell_of w size mg j b) -> px out i j = f32 g).
Proof. exact chessboard_ok. Qed.
Print Assumptions C19_chessboard.

Theorem C19_zero_size : forall {T} {N : Num T} h w mg g, make_chessboard h w 0 mg g = Err ValueError.
Proof. reflexivity. Qed.
Print Assumptions C19_zero_size.
Theorem C19_margin : forall h w size mg g out, 0 < size -> 0 <= mg ->
  @make_chessboard R Rex h w size mg g = Ok out ->
  forall i j, in_img out i j -> i < size + mg \/ h - mg <= i + 1 \/ j < size + mg \/ w - mg <= j + 1 ->
  px out i j = f32 g.
Proof.
  intros h w size mg g out Hs Hm E i j Hij Hb.
  destruct (chessboard_ok h w size mg g Hs Hm) as [o [Eo [_ [_ H]]]].
  assert (o = out) by congruence. subst o. apply (H i j Hij).
  intros [a [b [[A1 [A2 A3]] [B1 [B2 B3]]]]].
  assert (0 <= size * a) by nia. assert (0 <= size * b) by nia.
  rewrite Z.mul_add_distr_l in A2, B2. lia.
Qed.
Print Assumptions C19_margin.

Example C19_case : cell_of 50 8 4 20 1 /\ cell_of 50 8 4 12 0 /\ ~ (exists k, cell_of 50 8 4 45 k).
Proof.
  unfold cell_of. split; [lia|]. split; [lia|]. intros [k H]. lia.
Qed.

(** ** C20 *)
Theorem C20_point_lookup : forall p xc yc fact,
  @find_point_to_point R Rex p xc yc fact false = radial_map fact (yc, xc) p /\
  @find_point_to_point R Rex p xc yc fact true = swap (radial_map fact (yc, xc) p).
Proof. exact point_R. Qed.
Print Assumptions C20_point_lookup.

Theorem C20_same_as_line : forall p xc yc fact,
  @unwarp_line_forward R Rex [(DF64, [p])] xc yc fact =
  [(DF64, [@find_point_to_point R Rex p xc yc fact false])].
Proof. exact point_line. Qed.
Print Assumptions C20_same_as_line.

Theorem C20_inverse : forall p xc yc ff fb,
  let r := dist p (yc, xc) in
  (0 <= poly ff r)%R -> (poly fb (poly ff r * r) * poly ff r = 1)%R ->
  @find_point_to_point R Rex (@find_point_to_point R Rex p xc yc ff false) xc yc fb false = p.
Proof.
  intros p xc yc ff fb. cbv zeta. intros Hp Hi.
  rewrite !(fun p f => proj1 (point_R p xc yc f)).
  unfold radial_map at 1. rewrite (radial_dist ff (yc, xc) p), Rabs_pos_eq by assumption.
  set (k := poly fb _) in *. unfold radial_map. set (q := poly ff _) in *.
  unfold padd, pscale, psub, py, pxc. cbn [fst snd]. destruct p as [y x]. cbn [fst snd].
  f_equal.
  - replace (yc + k * (yc + q * (y - yc) - yc))%R with (yc + (k * q) * (y - yc))%R by ring. rewrite Hi. ring.
  - replace (xc + k * (xc + q * (x - xc) - xc))%R with (xc + (k * q) * (x - xc))%R by ring. rewrite Hi. ring.
Qed.
Print Assumptions C20_inverse.

(** F = 2, B = 1/2. *)
Example C20_case : (0 <= poly [2] 5)%R /\ (poly [/ 2] (poly [2] 5 * 5) * poly [2] 5 = 1)%R.
Proof. cbn. split; [lra|field]. Qed.

(** ** C21 *)
Section C21.
  Context {T : Type} {N : Num T}.
  Variables (interp : image T -> T -> T -> T) (padv : image T -> Z * Z * Z * Z -> Z -> Z -> T)
    (transform : list T -> res (list T)) (p : picture T) (xc yc : T) (fact : list T).
  Notation unwarp := (unwarp_color_image_backward interp padv transform p xc yc fact).
  Notation unwarp_cv2 remap := (unwarp_image_backward_cv2 remap padv transform p xc yc fact).

  Theorem C21_forms : forall remap,
    (unwarp (PadBool false) = unwarp (PadSeq [0; 0; 0; 0]) /\
     unwarp_cv2 remap (PadBool false) = unwarp_cv2 remap (PadSeq [0; 0; 0; 0])) /\
    (forall k, unwarp (PadInt k) = unwarp (PadSeq [k; k; k; k]) /\
               unwarp_cv2 remap (PadInt k) = unwarp_cv2 remap (PadSeq [k; k; k; k])) /\
    (forall l, length l <> 4%nat -> unwarp (PadSeq l) = Err ValueError /\
                                    unwarp_cv2 remap (PadSeq l) = Err ValueError) /\
    (unwarp PadOther = Err ValueError /\ unwarp_cv2 remap PadOther = Err ValueError).
  Proof.
    intros remap. split; [|split; [|split]].
    - split; reflexivity.
    - split; reflexivity.
    - intros l Hl.
      assert (E : calc_pad transform (PadSeq l) (pic_h p) (pic_w p) xc yc fact = Err ValueError).
      { destruct l as [|a [|b [|c [|d [|e l]]]]]; try reflexivity. destruct Hl. reflexivity. }
      destruct (color_pad_error interp padv transform p xc yc fact _ _ E) as [A B]. auto.
    - split; reflexivity.
  Qed.

  (** (top, bottom, left, right): the output is that much larger. *)
  Theorem C21_shape : forall t b l r, 0 <= t -> 0 <= b -> 0 <= l -> 0 <= r ->
    match p with Gray _ => True | Color m => 0 < cc m end ->
    exists out, unwarp (PadSeq [t; b; l; r]) = Ok out /\
      pic_h out = pic_h p + t + b /\ pic_w out = pic_w p + l + r.
  Proof.
    intros t b l r Ht Hb Hl Hr Hc. destruct p as [m|m].
    - destruct (color_gray interp padv transform m xc yc fact (PadSeq [t; b; l; r]) t b l r) as [m' [P E]]; auto.
      eexists. split; [exact E|]. destruct P as [P1 [P2 _]]. cbn. auto.
    - destruct (color_color interp padv transform m xc yc fact (PadSeq [t; b; l; r]) t b l r) as [o [E [_ [H1 [H2 _]]]]]; auto.
      eexists. split; [exact E|]. cbn. auto.
  Qed.

  Theorem C21_negative : forall t b l r, t < 0 \/ b < 0 \/ l < 0 \/ r < 0 ->
    unwarp (PadSeq [t; b; l; r]) = Err ValueError.
  Proof. exact (color_negative interp padv transform p xc yc fact). Qed.
End C21.
Print Assumptions C21_forms.
Print Assumptions C21_shape.
Print Assumptions C21_negative.

(** Automatic padding: corner by corner, on the sides the corner belongs to. *)
Theorem C21_auto : forall transform h w xc yc fact tfact,
  transform fact = Ok tfact ->
  exists t b l r, @calc_pad R Rex transform (PadBool true) h w xc yc fact = Ok (t, b, l, r) /\
    (0 <= t /\ 0 <= b /\ 0 <= l /\ 0 <= r)%Z /\
    (forall row col, (row = 0 \/ row = h - 1)%Z -> (col = 0 \/ col = w - 1)%Z ->
      let q := corner tfact xc yc row col in
      (col = 0%Z -> (-1 < pxc q + IZR l)%R) /\
      (row = 0%Z -> (-1 < py q + IZR t)%R) /\
      (col = (w - 1)%Z -> (pxc q + IZR l < IZR (w + l + r - 1) + 2)%R) /\
      (row = (h - 1)%Z -> (py q + IZR t < IZR (h + t + b - 1) + 2)%R)).
Proof. exact auto_pad. Qed.
Print Assumptions C21_auto.

(** On all four sides, when the centre is in the image and the fitted model
    does not turn points around. *)
Theorem C21_auto_all : forall transform h w xc yc fact tfact,
  transform fact = Ok tfact -> (0 <= xc <= IZR (w - 1))%R -> (0 <= yc <= IZR (h - 1))%R ->
  (forall r, (0 <= r)%R -> (0 <= poly tfact r)%R) ->
  exists t b l r, @calc_pad R Rex transform (PadBool true) h w xc yc fact = Ok (t, b, l, r) /\
    (0 <= t /\ 0 <= b /\ 0 <= l /\ 0 <= r)%Z /\
    (forall row col, (row = 0 \/ row = h - 1)%Z -> (col = 0 \/ col = w - 1)%Z ->
      let q := corner tfact xc yc row col in
      (-1 < pxc q + IZR l < IZR (w + l + r - 1) + 2)%R /\
      (-1 < py q + IZR t < IZR (h + t + b - 1) + 2)%R).
Proof. exact auto_pad_all. Qed.
Print Assumptions C21_auto_all.

(** A model that enlarges by 2 about (5, 5) of an 11 x 11 image: the corners go
    to -5 and 15, and the margins are 5 at top/left and 4 at bottom/right. *)
Example C21_case :
  @calc_pad R Rex (fun _ => Ok [2%R]) (PadBool true) 11 11 5%R 5%R [] = Ok (5, 4, 5, 4).
Proof.
  unfold calc_pad. cbn [bind].
  rewrite !(fun p => proj2 (point_R p 5%R 5%R [2%R])). unfold swap, radial_map, padd, pscale, psub, py, pxc.
  cbn [poly fst snd]. rewrite !pymin_R, !pymax_R. unnum. cbn [Z.sub Z.add Z.opp Z.pos_sub Pos.pred_double].
  replace (5 + (2 + dist (IZR 0, IZR 0) (5, 5) * 0) * (IZR 0 - 5))%R with (-5)%R by ring.
  replace (5 + (2 + dist (IZR 10, IZR 0) (5, 5) * 0) * (IZR 0 - 5))%R with (-5)%R by ring.
  replace (5 + (2 + dist (IZR 0, IZR 10) (5, 5) * 0) * (IZR 0 - 5))%R with (-5)%R by ring.
  replace (5 + (2 + dist (IZR 0, IZR 10) (5, 5) * 0) * (IZR 10 - 5))%R with 15%R by ring.
  replace (5 + (2 + dist (IZR 10, IZR 10) (5, 5) * 0) * (IZR 10 - 5))%R with 15%R by ring.
  replace (5 + (2 + dist (IZR 10, IZR 0) (5, 5) * 0) * (IZR 10 - 5))%R with 15%R by ring.
  rewrite !Rmin_left, !Rmax_left by lra. rewrite !Rlt_bool_true by lra.
  replace (- - 5)%R with (IZR 5) by ring. replace (15 - 11)%R with (IZR 4) by ring.
  now rewrite !Ztrunc_IZR.
Qed.

(** ** C22 *)
Theorem C22_gray : forall {T} {N : Num T} interp padv transform m xc yc fact t b l r,
  0 <= t -> 0 <= b -> 0 <= l -> 0 <= r ->
  exists m', padded padv m (t, b, l, r) m' /\
    unwarp_color_image_backward interp padv transform (Gray m) xc yc fact (PadSeq [t; b; l; r]) =
    Ok (Gray (unwarp_image_backward interp m' (nadd xc (nofZ l)) (nadd yc (nofZ t)) fact)).
Proof. intros. now apply color_gray. Qed.
Print Assumptions C22_gray.

Theorem C22_channels : forall {T} {N : Num T} interp padv transform m xc yc fact pad t b l r,
  calc_pad transform pad (ch m) (cw m) xc yc fact = Ok (t, b, l, r) ->
  0 <= t -> 0 <= b -> 0 <= l -> 0 <= r -> 0 < cc m ->
  exists out, unwarp_color_image_backward interp padv transform (Color m) xc yc fact pad = Ok (Color out) /\
    cc out = cc m /\ ch out = ch m + t + b /\ cw out = cw m + l + r /\
    forall k, unwarp_color_image_backward interp padv transform (Gray (channel m k)) xc yc fact pad =
              Ok (Gray (channel out k)).
Proof. intros T N interp. exact (color_color interp). Qed.
Print Assumptions C22_channels.
(** A colour image without channels is refused. *)
Theorem C22_no_channels : forall {T} {N : Num T} interp padv transform m xc yc fact pad t b l r,
  calc_pad transform pad (ch m) (cw m) xc yc fact = Ok (t, b, l, r) ->
  0 <= t -> 0 <= b -> 0 <= l -> 0 <= r -> cc m <= 0 ->
  unwarp_color_image_backward interp padv transform (Color m) xc yc fact pad = Err ValueError.
Proof.
  intros T N interp padv transform m xc yc fact pad t b l r E Ht Hb Hl Hr Hc. unfold unwarp_color_image_backward. cbn [pic_h pic_w]. rewrite E. cbn [bind].
  unfold pad_picture, np_pad3. replace ((t <? 0) || (b <? 0) || (l <? 0) || (r <? 0))%Z%bool with false by (symmetry; lia).
  cbn [bind pic_h pic_w cc ch cw]. destruct (Z.leb_spec (cc m) 0) as [_|?]; [reflexivity|lia].
Qed.
Print Assumptions C22_no_channels.

(** Without padding, the result of unwarp_image_backward itself. *)
Theorem C22_no_padding : forall rnd interp padv transform m xc yc fact,
  rnd xc = xc -> rnd yc = yc ->
  (forall a b y x, img_eq a b -> 0 < ih a -> 0 < iw a -> interp a y x = interp b y x) ->
  exists out, @unwarp_color_image_backward R (Rnum rnd) interp padv transform (Gray m) xc yc fact (PadBool false)
              = Ok (Gray out) /\
    img_eq out (@unwarp_image_backward R (Rnum rnd) interp m xc yc fact).
Proof.
  intros rnd interp padv transform m xc yc fact Hx Hy Hi.
  destruct (@color_gray R (Rnum rnd) interp padv transform m xc yc fact (PadBool false) 0 0 0 0 eq_refl)
    as [m' [[P1 [P2 [P3 _]]] E]]; try lia.
  eexists. split; [exact E|].
  change (@nadd R (Rnum rnd) xc (@nofZ R (Rnum rnd) 0)) with (rnd (xc + 0)%R).
  change (@nadd R (Rnum rnd) yc (@nofZ R (Rnum rnd) 0)) with (rnd (yc + 0)%R).
  rewrite !Rplus_0_r, Hx, Hy. rewrite !Z.add_0_r in *.
  split; [exact P1|split; [exact P2|]]. intros i j Hij.
  unfold unwarp_image_backward in *. cbn [px ih iw] in *.
  destruct Hij as [I1 I2]. cbn [ih iw] in I1, I2. rewrite P1, P2. apply Hi; [|lia|lia].
  split; [assumption|split; [assumption|]]. intros a b [A B].
  rewrite P1 in A. rewrite P2 in B. specialize (P3 a b (conj A B)).
  now rewrite !Z.add_0_r in P3.
Qed.
Print Assumptions C22_no_padding.

(** Linear interpolation looks at pixels of the image only. *)
Example C22_case : forall cast a b y x, img_eq a b -> 0 < ih a -> 0 < iw a ->
  @bilinear_cast R Rex cast a y x = @bilinear_cast R Rex cast b y x.
Proof.
  intros cast a b y x [H1 [H2 H3]] Ha Hw. unfold bilinear_cast, bilinear. rewrite <- H1, <- H2.
  rewrite !H3; [reflexivity|split; apply reflect_range; lia..].
Qed.

(** ** C05, colour images *)
Theorem C05_color_identity : forall cast padv transform m xc yc n,
  ch m <= 2 ^ 24 + 1 -> cw m <= 2 ^ 24 + 1 -> 0 < cc m ->
  (forall i j k, 0 <= i < ch m -> 0 <= j < cw m -> cast (cx m i j k) = cx m i j k) ->
  exists out, @unwarp_color_image_backward R Rex (@bilinear_cast R Rex cast) padv transform (Color m) xc yc
                (1%R :: repeat 0%R n) (PadBool false) = Ok (Color out) /\
    cc out = cc m /\ ch out = ch m /\ cw out = cw m /\
    forall i j k, 0 <= i < ch m -> 0 <= j < cw m -> cx out i j k = cx m i j k.
Proof.
  intros cast padv transform m xc yc n Hh Hw Hc Hcast.
  destruct (@color_color R Rex (@bilinear_cast R Rex cast) padv transform m xc yc (1%R :: repeat 0%R n)
    (PadBool false) 0 0 0 0 eq_refl) as [out [E [Ec [Eh [Ew H]]]]]; try lia.
  exists out. split; [exact E|]. split; [exact Ec|]. split; [lia|split; [lia|]].
  intros i j k Hi Hj. specialize (H k).
  destruct (C22_no_padding (fun x => x) (@bilinear_cast R Rex cast) padv transform (channel m k) xc yc
    (1%R :: repeat 0%R n) eq_refl eq_refl (C22_case cast)) as [o [Eo [O1 [O2 O3]]]].
  fold Rex in Eo. rewrite H in Eo. injection Eo as Eo. subst o.
  assert (I : img_eq (@unwarp_image_backward R Rex (@bilinear_cast R Rex cast) (channel m k) xc yc (1%R :: repeat 0%R n)) (channel m k)).
  { apply image_backward_identity; [exact Hh|exact Hw|]. intros a b [A B]. now apply Hcast. }
  destruct I as [_ [_ I]]. change (cx out i j k) with (px (channel out k) i j).
  rewrite O3.
  - apply I. now split.
  - unfold in_img. cbn [channel ih iw]. lia.
Qed.
Print Assumptions C05_color_identity.

Theorem C05_gray_identity : forall cast padv transform m xc yc n,
  ih m <= 2 ^ 24 + 1 -> iw m <= 2 ^ 24 + 1 ->
  (forall i j, in_img m i j -> cast (px m i j) = px m i j) ->
  exists out, @unwarp_color_image_backward R Rex (@bilinear_cast R Rex cast) padv transform (Gray m) xc yc
                (1%R :: repeat 0%R n) (PadBool false) = Ok (Gray out) /\ img_eq out m.
Proof.
  intros cast padv transform m xc yc n Hh Hw Hcast.
  destruct (C22_no_padding (fun x => x) (@bilinear_cast R Rex cast) padv transform m xc yc
    (1%R :: repeat 0%R n) eq_refl eq_refl (C22_case cast)) as [o [Eo [O1 [O2 O3]]]].
  exists o. split; [exact Eo|].
  destruct (image_backward_identity cast m xc yc n Hh Hw Hcast) as [I1 [I2 I3]].
  split; [now rewrite O1|split; [now rewrite O2|]]. intros i j Hij.
  rewrite O3 by assumption. apply I3. destruct Hij as [A B]. rewrite O1 in A. rewrite O2 in B. split; assumption.
Qed.
Print Assumptions C05_gray_identity.

(** ** C23 *)
Theorem C23_cv2_maps : forall {T} {N : Num T} interp padv transform p xc yc fact pad mp xd yd,
  cv2_maps padv transform p xc yc fact pad = Ok (mp, xd, yd) ->
  (forall remap, unwarp_image_backward_cv2 remap padv transform p xc yc fact pad = Ok (remap mp xd yd)) /\
  ih xd = pic_h mp /\ iw xd = pic_w mp /\ ih yd = pic_h mp /\ iw yd = pic_w mp /\
  match mp with
  | Gray m => unwarp_color_image_backward interp padv transform p xc yc fact pad =
              Ok (Gray (mkimg (ih m) (iw m) (fun i j => interp m (px yd i j) (px xd i j))))
  | Color m => 0 < cc m ->
               unwarp_color_image_backward interp padv transform p xc yc fact pad =
               Ok (Color (mkcimg (ch m) (cw m) (cc m)
                    (fun i j k => interp (channel m k) (px yd i j) (px xd i j))))
  end.
Proof. intros T N interp. exact (cv2_maps_color interp). Qed.
Print Assumptions C23_cv2_maps.

Theorem C23_video_maps : forall {T} {N : Num T} padv transform p xc yc fact pad mp xd yd,
  cv2_maps padv transform p xc yc fact pad = Ok (mp, xd, yd) ->
  exists w, video_maps transform (pic_w p) (pic_h p) xc yc fact pad = Ok (w, xd, yd) /\
    pad_picture padv p w = Ok mp.
Proof. intros T N padv. exact (video_maps_cv2 padv). Qed.
Print Assumptions C23_video_maps.

Example C23_case : forall (padv : image R -> Z * Z * Z * Z -> Z -> Z -> R) transform (m : image R),
  exists mp xd yd, @cv2_maps R Rex padv transform (Gray m) 1%R 2%R [1%R] (PadInt 3) = Ok (mp, xd, yd).
Proof. intros. eexists _, _, _. reflexivity. Qed.

(** ** C24 *)
(** No padding is asked for. *)
Definition unpadded (pad : pad_arg) : Prop := pad = PadBool false \/ pad = PadInt 0.
(** Both frames are grey, or both have channels. *)
Definition same_kind {T} (f g : picture T) : Prop := match f, g with Gray _, Gray _ | Color _, Color _ => True | _, _ => False end.
Lemma no_pad_spec pad : if no_pad pad then unpadded pad else ~ unpadded pad.
Proof.
  unfold unpadded. destruct pad as [[|]|p|l|]; cbn [no_pad negb]; try (intros [H|H]; discriminate); [now left|].
  destruct (Z.eqb_spec p 0) as [->|N]; [now right|]. intros [H|H]; [discriminate|]. now injection H.
Qed.
Lemma same_kind_spec {T} (f g : picture T) : if same_dim f g then same_kind f g else ~ same_kind f g.
Proof. destruct f, g; cbn; auto. Qed.
Lemma video_frames {T} padv (remap : picture T -> image T -> image T -> picture T) (reads : nat -> option (picture T)) pad w xd yd (corr : picture T -> picture T) :
  (forall k f, (1 <= k)%nat -> reads k = Some f ->
    (unpadded pad /\ corr f = remap f xd yd) \/
    (~ unpadded pad /\ (exists f0, reads O = Some f0 /\ same_kind f0 f) /\ exists fp, pad_picture padv f w = Ok fp /\ corr f = remap fp xd yd)) ->
  forall k f, (1 <= k)%nat -> reads k = Some f ->
    (no_pad pad = true /\ corr f = remap f xd yd) \/
    (no_pad pad = false /\ (exists f0, reads O = Some f0 /\ is_gray f0 = is_gray f) /\ exists fp, pad_picture padv f w = Ok fp /\ corr f = remap fp xd yd).
Proof.
  intros H k f Hk Hf. pose proof (no_pad_spec pad) as NP. destruct (H k f Hk Hf) as [[U E]|[U [[f0 [E0 K]] E]]].
  - left. split; [|exact E]. destruct (no_pad pad); [reflexivity|contradiction].
  - right. split; [destruct (no_pad pad); [contradiction|reflexivity]|]. split; [|exact E]. exists f0. split; [exact E0|].
    pose proof (same_kind_spec f0 f) as SK. unfold same_dim in SK. destruct (Bool.eqb_spec (is_gray f0) (is_gray f)); [assumption|contradiction].
Qed.
Theorem C24_frames_shown : forall {T} padv remap reads key pad w xd yd
    (corr : picture T -> picture T),
  (forall k f, (1 <= k)%nat -> reads k = Some f ->
    (unpadded pad /\ corr f = remap f xd yd) \/
    (~ unpadded pad /\
     (exists f0, reads O = Some f0 /\ same_kind f0 f) /\
     exists fp, pad_picture padv f w = Ok fp /\ corr f = remap fp xd yd)) ->
  forall n, let s := vrun remap padv reads key pad w xd yd n in
    rev (v_shown s) = map corr (until_esc key 0 (somes (map reads (seq 1 n)))) /\
    ((v_status s = Running /\ ~ escaped key (length (v_shown s)) /\ v_reads s = S n) \/
     (v_status s = Released /\ escaped key (length (v_shown s)))).
Proof. intros T padv remap reads key pad w xd yd corr H n. apply video_shown. exact (video_frames padv remap reads pad w xd yd corr H). Qed.
Print Assumptions C24_frames_shown.

Theorem C24_never_returns : forall {T} padv remap reads key pad w xd yd
    (corr : picture T -> picture T),
  (forall k f, (1 <= k)%nat -> reads k = Some f ->
    (unpadded pad /\ corr f = remap f xd yd) \/
    (~ unpadded pad /\
     (exists f0, reads O = Some f0 /\ same_kind f0 f) /\
     exists fp, pad_picture padv f w = Ok fp /\ corr f = remap fp xd yd)) ->
  (forall i, key i <> 27) ->
  forall n, v_status (vrun remap padv reads key pad w xd yd n) = Running /\
            v_reads (vrun remap padv reads key pad w xd yd n) = S n.
Proof. intros T padv remap reads key pad w xd yd corr H. exact (video_never_returns padv remap reads key pad w xd yd corr (video_frames padv remap reads pad w xd yd corr H)). Qed.
Print Assumptions C24_never_returns.

Theorem C24_first_read_fails : forall {T} padv remap (reads : nat -> option (picture T)) key pad w xd yd k f,
  ~ unpadded pad -> reads O = None -> (1 <= k)%nat -> reads k = Some f ->
  (forall j, (1 <= j < k)%nat -> reads j = None) ->
  forall n, (k <= n)%nat ->
    v_status (vrun remap padv reads key pad w xd yd n) = Raised UnboundLocalError /\
    v_shown (vrun remap padv reads key pad w xd yd n) = [].
Proof.
  intros T padv remap reads key pad w xd yd k f U. apply (video_unbound padv). pose proof (no_pad_spec pad) as NP. destruct (no_pad pad); [contradiction|reflexivity].
Qed.
Print Assumptions C24_first_read_fails.

(** With padding, a frame with another number of axes than the first ends the
    function with ValueError; the frames before it have been shown. *)
Lemma vrun_reads {T} padv remap (reads : nat -> option (picture T)) key pad w xd yd n : (v_reads (vrun remap padv reads key pad w xd yd n) <= S n)%nat.
Proof.
  induction n as [|n IH]; [cbn; lia|]. cbn [vrun]. unfold vstep. set (s := vrun remap padv reads key pad w xd yd n) in *. destruct (v_status s); try lia.
  destruct (reads (v_reads s)) as [f|]; [|cbn; lia]. destruct (no_pad pad); [cbn; lia|]. destruct (reads O) as [f0|]; [|cbn; lia].
  destruct (negb (same_dim f0 f)); [cbn; lia|]. destruct (pad_picture padv f w); cbn; lia.
Qed.
Lemma vrun_prefix {T} padv remap (reads reads' : nat -> option (picture T)) key pad w xd yd k : (1 <= k)%nat -> (forall j, (j < k)%nat -> reads j = reads' j) ->
  forall n, (n < k)%nat -> vrun remap padv reads key pad w xd yd n = vrun remap padv reads' key pad w xd yd n.
Proof.
  intros Hk H n. induction n as [|n IH]; intros Hn; [reflexivity|]. cbn [vrun]. rewrite IH by lia. unfold vstep.
  pose proof (vrun_reads padv remap reads' key pad w xd yd n). rewrite !H by lia. reflexivity.
Qed.
Theorem C24_other_kind : forall {T} padv remap (reads : nat -> option (picture T)) key pad w xd yd (corr : picture T -> picture T) f0 k f,
  ~ unpadded pad -> reads O = Some f0 -> (1 <= k)%nat -> reads k = Some f -> ~ same_kind f0 f ->
  (forall j g, (1 <= j < k)%nat -> reads j = Some g -> same_kind f0 g /\ exists gp, pad_picture padv g w = Ok gp /\ corr g = remap gp xd yd) ->
  (forall i, key i <> 27) ->
  forall n, (k <= n)%nat -> let s := vrun remap padv reads key pad w xd yd n in
    v_status s = Raised ValueError /\ rev (v_shown s) = map corr (somes (map reads (seq 1 (k - 1)))).
Proof.
  intros T padv remap reads key pad w xd yd corr f0 k f U E0 Hk Ek NK H K n Hn.
  set (reads' := fun j => if (j <? k)%nat then reads j else None).
  assert (Hr : forall j, (j < k)%nat -> reads j = reads' j) by (intros j Hj; unfold reads'; now rewrite (proj2 (Nat.ltb_lt _ _) Hj)).
  assert (F : forall j g, (1 <= j)%nat -> reads' j = Some g ->
    (unpadded pad /\ corr g = remap g xd yd) \/
    (~ unpadded pad /\ (exists f0, reads' O = Some f0 /\ same_kind f0 g) /\ exists fp, pad_picture padv g w = Ok fp /\ corr g = remap fp xd yd)).
  { intros j g Hj Hg. right. unfold reads' in Hg. destruct (Nat.ltb_spec j k) as [Lj|]; [|discriminate].
    destruct (H j g (conj Hj Lj) Hg) as [SK P]. split; [exact U|]. split; [|exact P]. exists f0. split; [|exact SK]. rewrite <- Hr by lia. exact E0. }
  pose proof (C24_never_returns padv remap reads' key pad w xd yd corr F K (k - 1)) as [A1 A2].
  pose proof (proj1 (C24_frames_shown padv remap reads' key pad w xd yd corr F (k - 1))) as A3. cbn zeta in A3.
  rewrite until_esc_all in A3 by (intros; apply K).
  assert (Q : vrun remap padv reads key pad w xd yd (k - 1) = vrun remap padv reads' key pad w xd yd (k - 1)) by (apply (vrun_prefix padv remap reads reads' key pad w xd yd k Hk Hr); lia).
  rewrite <- Q in A1, A2, A3.
  replace (map reads' (seq 1 (k - 1))) with (map reads (seq 1 (k - 1))) in A3 by (apply map_ext_in; intros j Hj; apply in_seq in Hj; apply Hr; lia).
  assert (S1 : forall n, (k <= n)%nat -> v_status (vrun remap padv reads key pad w xd yd n) = Raised ValueError /\ v_shown (vrun remap padv reads key pad w xd yd n) = v_shown (vrun remap padv reads key pad w xd yd (k - 1))).
  { clear n Hn. induction n as [|n IH]; intros Hn; [lia|]. cbn [vrun]. destruct (Nat.eq_dec k (S n)) as [E|E].
    - subst k. replace (S n - 1)%nat with n in * by lia. unfold vstep. rewrite A1, A2, Ek. pose proof (no_pad_spec pad) as NP. destruct (no_pad pad); [contradiction|].
      rewrite E0. pose proof (same_kind_spec f0 f) as SK. destruct (same_dim f0 f); [contradiction|]. cbn [negb v_status v_shown]. auto.
    - destruct (IH ltac:(lia)) as [B1 B2]. unfold vstep. rewrite B1. auto. }
  intros s. destruct (S1 n Hn) as [B1 B2]. split; [exact B1|]. unfold s. rewrite B2. exact A3.
Qed.
Print Assumptions C24_other_kind.
Example C24_other_kind_case : forall (f0 f1 : image R) f2 (padv : image R -> Z * Z * Z * Z -> Z -> Z -> R) xd yd,
  let reads := fun k => nth k [Some (Gray f0); Some (Gray f1); Some (Color f2)] None in
  let s := vrun (fun p _ _ => p) padv reads (fun _ => 0) (PadInt 1) (1, 1, 1, 1) xd yd 3 in
  v_status s = Raised ValueError /\ length (v_shown s) = 1%nat.
Proof. intros. split; reflexivity. Qed.

(** A stream of three frames, ESC after the second shown one: the first frame
    is dropped, two are shown. *)
Example C24_case : forall (f0 f1 f2 : picture R) remap padv w xd yd,
  let reads := fun k => nth k [Some f0; Some f1; None; Some f2] None in
  let key := fun i => nth i [0; 27] 0 in
  let s := @vrun R remap padv reads key (PadBool false) w xd yd 6 in
  rev (v_shown s) = [remap f1 xd yd; remap f2 xd yd] /\ v_status s = Released.
Proof. intros. split; reflexivity. Qed.
(** The whole function: with a camera whose frames have the announced size and
    one kind, the first of which can be read, the frames shown are what
    unwarp_image_backward_cv2 makes of the frames read after the first, in
    order, up to and including the first one answered by ESC. *)
Theorem C24_stream : forall {T} {N : Num T} padv transform remap reads key w0 h0 xc yc fact pad
    (corr : picture T -> picture T) f0,
  reads O = Some f0 ->
  (forall k f, reads k = Some f -> pic_w f = w0 /\ pic_h f = h0 /\ same_kind f0 f /\
     unwarp_image_backward_cv2 remap padv transform f xc yc fact pad = Ok (corr f)) ->
  (* cv2.remap does not tell a picture from its copy with no border *)
  (forall f fp x y, pad_picture padv f (0, 0, 0, 0) = Ok fp -> remap fp x y = remap f x y) ->
  forall n, exists s, unwarp_video_cv2 remap padv transform reads key w0 h0 xc yc fact pad n = Ok s /\
    rev (v_shown s) = map corr (until_esc key 0 (somes (map reads (seq 1 n)))) /\
    ((v_status s = Running /\ ~ escaped key (length (v_shown s)) /\ v_reads s = S n) \/
     (v_status s = Released /\ escaped key (length (v_shown s)))).
Proof.
  intros T N padv transform remap reads key w0 h0 xc yc fact pad corr f0 H0 H RM n.
  assert (V : exists w xd yd, video_maps transform w0 h0 xc yc fact pad = Ok (w, xd, yd) /\
     forall k f, reads k = Some f -> exists fp, pad_picture padv f w = Ok fp /\ corr f = remap fp xd yd).
  { destruct (H O f0 H0) as [<- [<- [_ E]]]. unfold unwarp_image_backward_cv2 in E.
    destruct (cv2_maps padv transform f0 xc yc fact pad) as [[[mp xd] yd]|] eqn:M; [|discriminate].
    destruct (video_maps_cv2 padv transform _ _ _ _ _ _ _ _ M) as [w [V _]]. exists w, xd, yd. split; [exact V|].
    intros k f Hf. destruct (H k f Hf) as [Hw [Hh [_ E']]]. unfold unwarp_image_backward_cv2 in E'.
    destruct (cv2_maps padv transform f xc yc fact pad) as [[[mp' xd'] yd']|] eqn:M'; [|discriminate].
    destruct (video_maps_cv2 padv transform _ _ _ _ _ _ _ _ M') as [w' [V' P']]. rewrite Hw, Hh, V in V'. injection V' as <- <- <-.
    exists mp'. split; [exact P'|]. cbn [bind] in E'. injection E' as <-. reflexivity. }
  destruct V as [w [xd [yd [V K]]]]. unfold unwarp_video_cv2. rewrite V. cbn [bind]. eexists. split; [reflexivity|].
  apply video_shown. intros k f _ Hf. destruct (K k f Hf) as [fp [P C]]. destruct (no_pad pad) eqn:NP; [left|right].
  - split; [reflexivity|]. rewrite C. apply RM. unfold video_maps in V.
    assert (CP : calc_pad transform pad h0 w0 xc yc fact = Ok (0, 0, 0, 0)).
    { destruct pad as [b|p|l|]; cbn [no_pad] in NP; try discriminate.
      - destruct b; [discriminate|]. reflexivity.
      - apply Z.eqb_eq in NP. subst. reflexivity. }
    rewrite CP in V. cbn [bind] in V. injection V as <- _ _. exact P.
  - split; [reflexivity|]. split; [|exists fp; auto]. exists f0. split; [exact H0|]. destruct (H k f Hf) as [_ [_ [G _]]].
    pose proof (same_kind_spec f0 f) as SK. unfold same_dim in SK. destruct (Bool.eqb_spec (is_gray f0) (is_gray f)); [assumption|contradiction].
Qed.
Print Assumptions C24_stream.
Example C24_stream_case : forall (f0 f1 : image R) (padv : image R -> Z * Z * Z * Z -> Z -> Z -> R),
  ih f0 = 2 -> iw f0 = 3 -> ih f1 = 2 -> iw f1 = 3 ->
  exists s, @unwarp_video_cv2 R Rex (fun p x _ => Gray (mkimg (pic_h p) (pic_w p) (px x))) padv (fun l => Ok l)
    (fun k => nth k [Some (Gray f0); None; Some (Gray f1)] None) (fun _ => 0) 3 2 1%R 1%R [1%R] (PadInt 0) 4 = Ok s /\
  length (v_shown s) = 1%nat.
Proof.
  intros f0 f1 padv A B C D.
  set (remap := fun (p : picture R) (x _ : image R) => Gray (mkimg (pic_h p) (pic_w p) (px x))).
  destruct (@C24_stream R Rex padv (fun l => Ok l) remap (fun k => nth k [Some (Gray f0); None; Some (Gray f1)] None) (fun _ => 0) 3 2 1%R 1%R [1%R]
    (PadInt 0) (fun p => match @unwarp_image_backward_cv2 R Rex remap padv (fun l => Ok l) p 1%R 1%R [1%R] (PadInt 0) with Ok q => q | _ => p end) (Gray f0))
    with (n := 4%nat) as [s [E [S _]]].
  - reflexivity.
  - intros k f Hf. destruct k as [|[|[|k]]]; cbn in Hf; try discriminate; try (destruct k; discriminate); injection Hf as <-; cbn [pic_w pic_h same_kind]; auto.
  - intros [f|f] fp x y E; cbn in E; injection E as <-; unfold remap; cbn [pic_h pic_w ih iw ch cw]; rewrite !Z.add_0_r; reflexivity.
  - exists s. split; [exact E|]. rewrite <- rev_length, S. reflexivity.
Qed.
