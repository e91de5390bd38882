(** Proofs about point lookup, padding, colour images and video (util/utility.py). *)
From Coq Require Import Reals ZArith List Lra Lia Bool ZifyBool.
From Flocq Require Import Core.
From Verif Require Import Base Num Img Spec Post NumFacts PostLines PostImg PostImg2 PostPersp Util.
Local Open Scope R_scope.

(** ** Point lookup *)
Lemma point_R p xc yc fact :
  @find_point_to_point R Rex p xc yc fact false = radial_map fact (yc, xc) p /\
  @find_point_to_point R Rex p xc yc fact true = swap (radial_map fact (yc, xc) p).
Proof.
  unfold find_point_to_point.
  unfold radial_map, swap, padd, pscale, psub, dist, py, pxc. cbn [fst snd].
  set (r := nsqrt _).
  change (nsum (mapi (fun (i : nat) (f : R) => nmul f (npow r i)) fact)) with (@radial R Rex fact r).
  rewrite radial_R. unfold r. unnum.
  replace ((snd p - xc) * (snd p - xc) + (fst p - yc) * (fst p - yc))
    with ((fst p - yc) * (fst p - yc) + (snd p - xc) * (snd p - xc)) by ring.
  split; reflexivity.
Qed.

Lemma point_line p xc yc fact :
  @unwarp_line_forward R Rex [(DF64, [p])] xc yc fact =
  [(DF64, [@find_point_to_point R Rex p xc yc fact false])].
Proof. rewrite (proj1 (point_R p xc yc fact)). now rewrite forward_eq_map by (repeat constructor). Qed.

(** ** Padding *)
Lemma trunc_bounds x : 0 <= x -> (0 <= Ztrunc x)%Z /\ IZR (Ztrunc x) <= x < IZR (Ztrunc x) + 1.
Proof.
  intros H. rewrite Ztrunc_floor by assumption. split; [|split; [apply Zfloor_lb|apply Zfloor_ub]].
  apply Zfloor_lub. assumption.
Qed.

Lemma pymin_R a b : @pymin R Rex a b = Rmin a b.
Proof.
  unfold pymin. unnum. destruct (Rlt_bool_spec b a); unfold Rmin; destruct (Rle_dec a b); lra.
Qed.
Lemma pymax_R a b : @pymax R Rex a b = Rmax a b.
Proof.
  unfold pymax. unnum. destruct (Rlt_bool_spec a b); unfold Rmax; destruct (Rle_dec a b); lra.
Qed.

(** Positions (x, y) of the corners under a polynomial model. *)
Definition corner (fact : list R) (xc yc : R) (r c : Z) : pt := radial_map fact (yc, xc) (IZR r, IZR c).

Lemma lpad v : let p := if Rlt_bool v (IZR 0) then Ztrunc (Ropp v) else 0%Z in
  (0 <= p)%Z /\ -1 < v + IZR p.
Proof.
  cbv zeta. destruct (Rlt_bool_spec v (IZR 0)) as [H|H]; cbn in H.
  - destruct (trunc_bounds (- v)) as [A B]; [lra|]. split; [assumption|lra].
  - split; [lia|]. cbn. lra.
Qed.
Lemma rpad v w : let p := if Rlt_bool (IZR w) v then Ztrunc (v - IZR w) else 0%Z in
  (0 <= p)%Z /\ v < IZR (w + p) + 1.
Proof.
  cbv zeta. rewrite plus_IZR. destruct (Rlt_bool_spec (IZR w) v) as [H|H].
  - destruct (trunc_bounds (v - IZR w)) as [A B]; [lra|]. split; [assumption|lra].
  - split; [lia|]. cbn. lra.
Qed.

Lemma auto_pad transform h w xc yc fact tfact :
  transform fact = Ok tfact ->
  exists t b l r, @calc_pad R Rex transform (PadBool true) h w xc yc fact = Ok (t, b, l, r) /\
    (0 <= t /\ 0 <= b /\ 0 <= l /\ 0 <= r)%Z /\
    (forall row col, (row = 0 \/ row = h - 1)%Z -> (col = 0 \/ col = w - 1)%Z ->
      let q := corner tfact xc yc row col in
      (col = 0%Z -> -1 < pxc q + IZR l) /\
      (row = 0%Z -> -1 < py q + IZR t) /\
      (col = (w - 1)%Z -> pxc q + IZR l < IZR (w + l + r - 1) + 2) /\
      (row = (h - 1)%Z -> py q + IZR t < IZR (h + t + b - 1) + 2)).
Proof.
  intros Ht. unfold calc_pad. rewrite Ht. cbn [bind].
  rewrite !(fun p => proj2 (point_R p xc yc tfact)). unfold swap.
  set (tl := radial_map _ _ (_ 0%Z, _ 0%Z)). set (tr := radial_map _ _ (_ 0%Z, _ (w - 1)%Z)).
  set (br := radial_map _ _ (_ (h - 1)%Z, _ (w - 1)%Z)). set (bl := radial_map _ _ (_ (h - 1)%Z, _ 0%Z)).
  rewrite !pymin_R, !pymax_R.
  destruct (lpad (Rmin (pxc tl) (pxc bl))) as [L1 L2].
  destruct (lpad (Rmin (py tl) (py tr))) as [T1 T2].
  destruct (rpad (Rmax (pxc tr) (pxc br)) w) as [R1 R2].
  destruct (rpad (Rmax (py bl) (py br)) h) as [B1 B2].
  unnum.
  eexists _, _, _, _. split; [reflexivity|]. split; [tauto|].
  match type of L2 with -1 < _ + IZR ?x => set (l := x) in * end.
  match type of T2 with -1 < _ + IZR ?x => set (t := x) in * end.
  match type of R2 with _ < IZR (_ + ?x) + _ => set (r := x) in * end.
  match type of B2 with _ < IZR (_ + ?x) + _ => set (b := x) in * end.
  pose proof (Rmin_l (pxc tl) (pxc bl)). pose proof (Rmin_r (pxc tl) (pxc bl)).
  pose proof (Rmin_l (py tl) (py tr)). pose proof (Rmin_r (py tl) (py tr)).
  pose proof (Rmax_l (pxc tr) (pxc br)). pose proof (Rmax_r (pxc tr) (pxc br)).
  pose proof (Rmax_l (py bl) (py br)). pose proof (Rmax_r (py bl) (py br)).
  rewrite plus_IZR in R2, B2.
  intros row col Hrow Hcol. cbv zeta. unfold corner.
  rewrite !minus_IZR, !plus_IZR.
  repeat split; intros E.
  - subst col. destruct Hrow; subst row; [fold tl|fold bl]; lra.
  - subst row. destruct Hcol; subst col; [fold tl|fold tr]; lra.
  - subst col. destruct Hrow; subst row; [fold tr|fold br]; lra.
  - subst row. destruct Hcol; subst col; [fold bl|fold br]; lra.
Qed.

(** With the centre in the image and a non-negative factor, every corner is
    bounded on all four sides. *)
Lemma auto_pad_all transform h w xc yc fact tfact :
  transform fact = Ok tfact -> 0 <= xc <= IZR (w - 1) -> 0 <= yc <= IZR (h - 1) ->
  (forall r, 0 <= r -> 0 <= poly tfact r) ->
  exists t b l r, @calc_pad R Rex transform (PadBool true) h w xc yc fact = Ok (t, b, l, r) /\
    (0 <= t /\ 0 <= b /\ 0 <= l /\ 0 <= r)%Z /\
    (forall row col, (row = 0 \/ row = h - 1)%Z -> (col = 0 \/ col = w - 1)%Z ->
      let q := corner tfact xc yc row col in
      -1 < pxc q + IZR l < IZR (w + l + r - 1) + 2 /\
      -1 < py q + IZR t < IZR (h + t + b - 1) + 2).
Proof.
  intros Ht Hx Hy HF.
  destruct (auto_pad transform h w xc yc fact tfact Ht) as [t [b [l [r [E [[P1 [P2 [P3 P4]]] H]]]]]].
  exists t, b, l, r. split; [exact E|]. split; [tauto|].
  intros row col Hrow Hcol. cbv zeta in *.
  apply IZR_le in P1. apply IZR_le in P2. apply IZR_le in P3. apply IZR_le in P4.
  assert (Hq : forall row col, 0 <= poly tfact (dist (IZR row, IZR col) (yc, xc))) by
    (intros; apply HF; unfold dist; apply sqrt_pos).
  rewrite !minus_IZR, !plus_IZR in *.
  assert (X : forall row col, pxc (corner tfact xc yc row col) =
     xc + poly tfact (dist (IZR row, IZR col) (yc, xc)) * (IZR col - xc)) by reflexivity.
  assert (Y : forall row col, py (corner tfact xc yc row col) =
     yc + poly tfact (dist (IZR row, IZR col) (yc, xc)) * (IZR row - yc)) by reflexivity.
  pose proof (Hq row col) as Q0.
  destruct (H row col Hrow Hcol) as [A1 [A2 [A3 A4]]].
  split.
  - destruct Hcol as [E0|E0].
    + split; [auto|]. rewrite X, E0.
      assert (poly tfact (dist (IZR row, IZR 0) (yc, xc)) * (IZR 0 - xc) <= 0).
      { rewrite E0 in Q0. nra. } lra.
    + split; [|auto]. rewrite X, E0, minus_IZR.
      assert (0 <= poly tfact (dist (IZR row, IZR w - 1) (yc, xc)) * (IZR w - 1 - xc)).
      { rewrite E0, minus_IZR in Q0. apply Rmult_le_pos; lra. } lra.
  - destruct Hrow as [E0|E0].
    + split; [auto|]. rewrite Y, E0.
      assert (poly tfact (dist (IZR 0, IZR col) (yc, xc)) * (IZR 0 - yc) <= 0).
      { rewrite E0 in Q0. nra. } lra.
    + split; [|auto]. rewrite Y, E0, minus_IZR.
      assert (0 <= poly tfact (dist (IZR h - 1, IZR col) (yc, xc)) * (IZR h - 1 - yc)).
      { rewrite E0, minus_IZR in Q0. apply Rmult_le_pos; lra. } lra.
Qed.

(** ** Colour images *)
Section ColorGen.
  Context {T : Type} {N : Num T}.
  Variables (interp : image T -> T -> T -> T) (padv : image T -> Z * Z * Z * Z -> Z -> Z -> T)
    (transform : list T -> res (list T)).

  (** [m'] is [m] with t, b, l, r rows and columns added around it. *)
  Definition padded (m : image T) (w : Z * Z * Z * Z) (m' : image T) : Prop :=
    let '(t, b, l, r) := w in
    ih m' = (ih m + t + b)%Z /\ iw m' = (iw m + l + r)%Z /\
    (forall i j, in_img m i j -> px m' (i + t) (j + l) = px m i j) /\
    (forall i j, ~ in_img m (i - t) (j - l) -> px m' i j = padv m w i j).

  Lemma np_pad_padded m t b l r : (0 <= t)%Z -> (0 <= b)%Z -> (0 <= l)%Z -> (0 <= r)%Z ->
    exists m', np_pad padv m (t, b, l, r) = Ok m' /\ padded m (t, b, l, r) m'.
  Proof.
    intros. unfold np_pad.
    replace ((t <? 0) || (b <? 0) || (l <? 0) || (r <? 0))%Z with false by (symmetry; lia).
    eexists. split; [reflexivity|]. unfold padded. cbn [ih iw px].
    split; [reflexivity|split; [reflexivity|split]].
    - intros i j [Hi Hj].
      replace ((t <=? i + t) && (i + t <? t + ih m) && (l <=? j + l) && (j + l <? l + iw m))%Z with true by (symmetry; lia).
      f_equal; ring.
    - intros i j Hn. unfold in_img in Hn.
      replace ((t <=? i) && (i <? t + ih m) && (l <=? j) && (j <? l + iw m))%Z with false by (symmetry; lia).
      reflexivity.
  Qed.

  Lemma color_gray m xc yc fact pad t b l r :
    calc_pad transform pad (ih m) (iw m) xc yc fact = Ok (t, b, l, r) ->
    (0 <= t)%Z -> (0 <= b)%Z -> (0 <= l)%Z -> (0 <= r)%Z ->
    exists m', padded m (t, b, l, r) m' /\
      unwarp_color_image_backward interp padv transform (Gray m) xc yc fact pad =
      Ok (Gray (unwarp_image_backward interp m' (nadd xc (nofZ l)) (nadd yc (nofZ t)) fact)).
  Proof.
    intros E Ht Hb Hl Hr. destruct (np_pad_padded m t b l r Ht Hb Hl Hr) as [m' [Em' P]].
    exists m'. split; [exact P|]. unfold unwarp_color_image_backward. cbn [pic_h pic_w].
    rewrite E. cbn [bind]. unfold pad_picture. rewrite Em'. cbn [bind pic_h pic_w]. reflexivity.
  Qed.

  Lemma color_color m xc yc fact pad t b l r :
    calc_pad transform pad (ch m) (cw m) xc yc fact = Ok (t, b, l, r) ->
    (0 <= t)%Z -> (0 <= b)%Z -> (0 <= l)%Z -> (0 <= r)%Z -> (0 < cc m)%Z ->
    exists out, unwarp_color_image_backward interp padv transform (Color m) xc yc fact pad = Ok (Color out) /\
      cc out = cc m /\ ch out = (ch m + t + b)%Z /\ cw out = (cw m + l + r)%Z /\
      forall k, unwarp_color_image_backward interp padv transform (Gray (channel m k)) xc yc fact pad =
                Ok (Gray (channel out k)).
  Proof.
    intros E Ht Hb Hl Hr Hc.
    unfold unwarp_color_image_backward. cbn [pic_h pic_w]. rewrite E. cbn [bind].
    unfold pad_picture, np_pad3, np_pad.
    replace ((t <? 0) || (b <? 0) || (l <? 0) || (r <? 0))%Z with false by (symmetry; lia).
    cbn [bind pic_h pic_w cc ch cw ih iw channel].
    destruct (Z.leb_spec (cc m) 0) as [?|_]; [lia|].
    eexists. split; [reflexivity|]. cbn [cc ch cw].
    split; [reflexivity|split; [reflexivity|split; [reflexivity|]]].
    intros k. rewrite E. cbn [bind pic_h pic_w ih iw].
    replace ((t <? 0) || (b <? 0) || (l <? 0) || (r <? 0))%Z with false by (symmetry; lia).
    reflexivity.
  Qed.

  Lemma color_empty m xc yc fact pad t b l r :
    calc_pad transform pad (ch m) (cw m) xc yc fact = Ok (t, b, l, r) ->
    (cc m <= 0)%Z ->
    unwarp_color_image_backward interp padv transform (Color m) xc yc fact pad = Err ValueError.
  Proof.
    intros E Hc. unfold unwarp_color_image_backward. cbn [pic_h pic_w]. rewrite E. cbn [bind].
    unfold pad_picture, np_pad3.
    destruct ((t <? 0) || (b <? 0) || (l <? 0) || (r <? 0))%Z; [reflexivity|].
    cbn [bind cc pic_h pic_w]. destruct (Z.leb_spec (cc m) 0) as [_|?]; [reflexivity|lia].
  Qed.

  (** Errors of the pad argument reach the caller. *)
  Lemma color_pad_error p xc yc fact pad e :
    calc_pad transform pad (pic_h p) (pic_w p) xc yc fact = Err e ->
    unwarp_color_image_backward interp padv transform p xc yc fact pad = Err e /\
    forall remap, unwarp_image_backward_cv2 remap padv transform p xc yc fact pad = Err e.
  Proof.
    intros E. unfold unwarp_color_image_backward, unwarp_image_backward_cv2, cv2_maps.
    rewrite E. split; reflexivity.
  Qed.

  Lemma color_negative p xc yc fact t b l r :
    (t < 0 \/ b < 0 \/ l < 0 \/ r < 0)%Z ->
    unwarp_color_image_backward interp padv transform p xc yc fact (PadSeq [t; b; l; r]) = Err ValueError.
  Proof.
    intros H. unfold unwarp_color_image_backward, calc_pad. cbn [bind].
    unfold pad_picture, np_pad, np_pad3.
    replace ((t <? 0) || (b <? 0) || (l <? 0) || (r <? 0))%Z with true by (symmetry; lia).
    now destruct p.
  Qed.

  (** The three implementations use the same coordinate maps. *)
  Lemma cv2_maps_color p xc yc fact pad mp xd yd :
    cv2_maps padv transform p xc yc fact pad = Ok (mp, xd, yd) ->
    (forall remap, unwarp_image_backward_cv2 remap padv transform p xc yc fact pad = Ok (remap mp xd yd)) /\
    ih xd = pic_h mp /\ iw xd = pic_w mp /\ ih yd = pic_h mp /\ iw yd = pic_w mp /\
    match mp with
    | Gray m => unwarp_color_image_backward interp padv transform p xc yc fact pad =
                Ok (Gray (mkimg (ih m) (iw m) (fun i j => interp m (px yd i j) (px xd i j))))
    | Color m => (0 < cc m)%Z ->
                 unwarp_color_image_backward interp padv transform p xc yc fact pad =
                 Ok (Color (mkcimg (ch m) (cw m) (cc m)
                      (fun i j k => interp (channel m k) (px yd i j) (px xd i j))))
    end.
  Proof.
    unfold cv2_maps, unwarp_image_backward_cv2, unwarp_color_image_backward.
    destruct (calc_pad transform pad (pic_h p) (pic_w p) xc yc fact) as [[[[t b] l] r]|e] eqn:E; [|discriminate].
    cbn [bind]. destruct (pad_picture padv p (t, b, l, r)) as [q|e] eqn:Eq; [|discriminate].
    cbn [bind]. intros H. injection H as <- <- <-. split.
    { intros remap. unfold cv2_maps. rewrite E. cbn [bind]. rewrite Eq. reflexivity. }
    cbn [ih iw]. do 4 (split; [reflexivity|]).
    destruct q as [m|m].
    - reflexivity.
    - intros Hc. destruct (Z.leb_spec (cc m) 0) as [?|_]; [lia|]. reflexivity.
  Qed.

  Lemma video_maps_cv2 p xc yc fact pad mp xd yd :
    cv2_maps padv transform p xc yc fact pad = Ok (mp, xd, yd) ->
    exists w, video_maps transform (pic_w p) (pic_h p) xc yc fact pad = Ok (w, xd, yd) /\
      pad_picture padv p w = Ok mp.
  Proof.
    unfold cv2_maps, video_maps.
    destruct (calc_pad transform pad (pic_h p) (pic_w p) xc yc fact) as [[[[t b] l] r]|e] eqn:E; [|discriminate].
    cbn [bind]. destruct (pad_picture padv p (t, b, l, r)) as [q|e] eqn:Eq; [|discriminate].
    cbn [bind]. intros H. injection H as <- <- <-. exists (t, b, l, r).
    assert (D : pic_h q = (pic_h p + t + b)%Z /\ pic_w q = (pic_w p + l + r)%Z).
    { unfold pad_picture, np_pad, np_pad3 in Eq. destruct p as [m|m];
      destruct ((t <? 0) || (b <? 0) || (l <? 0) || (r <? 0))%Z; try discriminate;
      cbn [bind] in Eq; injection Eq as <-; split; reflexivity. }
    destruct D as [D1 D2]. rewrite D1, D2. split; [reflexivity|exact Eq].
  Qed.

  (** ** Video *)
  Variable (remap : picture T -> image T -> image T -> picture T).

  Lemma pad_zero_image m : exists m', np_pad padv m (0, 0, 0, 0)%Z = Ok m' /\ ih m' = ih m /\ iw m' = iw m /\
    forall i j, in_img m i j -> px m' i j = px m i j.
  Proof.
    destruct (np_pad_padded m 0 0 0 0) as [m' [E [P1 [P2 [P3 P4]]]]]; try lia.
    exists m'. split; [exact E|]. split; [lia|split; [lia|]]. intros i j Hij.
    specialize (P3 i j Hij). now rewrite !Z.add_0_r in P3.
  Qed.
End ColorGen.

(** Specification of the display: the frames read so far, and cutting a list
    after the first element whose key is ESC. *)
Definition somes {A} (l : list (option A)) : list A :=
  flat_map (fun o => match o with Some a => [a] | None => [] end) l.
Fixpoint until_esc {A} (key : nat -> Z) (i : nat) (l : list A) : list A :=
  match l with
  | [] => []
  | x :: l' => x :: (if (key i =? 27)%Z then [] else until_esc key (S i) l')
  end.
Definition escaped (key : nat -> Z) (n : nat) : Prop := exists i, (i < n)%nat /\ key i = 27%Z.

Lemma somes_app {A} (l l' : list (option A)) : somes (l ++ l') = somes l ++ somes l'.
Proof. unfold somes. now rewrite flat_map_app. Qed.

Lemma until_esc_app_stop {A} key (l l' : list A) : forall i,
  (exists k, (i <= k < i + length l)%nat /\ key k = 27%Z) ->
  until_esc key i (l ++ l') = until_esc key i l.
Proof.
  induction l as [|x l IH]; intros i [k [Hk Ek]]; cbn [length] in Hk; [lia|].
  cbn [app until_esc]. destruct (Z.eqb_spec (key i) 27) as [E|E]; [reflexivity|].
  f_equal. apply IH. exists k. split; [|assumption].
  assert (k <> i) by (intros ->; congruence). lia.
Qed.
Lemma until_esc_all {A} key (l : list A) : forall i,
  (forall k, (i <= k < i + length l)%nat -> key k <> 27%Z) -> until_esc key i l = l.
Proof.
  induction l as [|x l IH]; intros i H; cbn [until_esc]; [reflexivity|].
  destruct (Z.eqb_spec (key i) 27) as [E|E].
  - exfalso. apply (H i); [cbn; lia|assumption].
  - f_equal. apply IH. intros k Hk. apply H. cbn. lia.
Qed.
Lemma until_esc_last {A} key (l : list A) x : forall i,
  (forall k, (i <= k < i + length l)%nat -> key k <> 27%Z) -> until_esc key i (l ++ [x]) = l ++ [x].
Proof.
  induction l as [|y l IH]; intros i H; cbn [app until_esc].
  - now destruct (key i =? 27)%Z.
  - destruct (Z.eqb_spec (key i) 27) as [E|E].
    + exfalso. apply (H i); [cbn; lia|assumption].
    + f_equal. apply IH. intros k Hk. apply H. cbn. lia.
Qed.
Lemma escaped_dec key n : escaped key n \/ ~ escaped key n.
Proof.
  induction n as [|n IH].
  - right. intros [i [H _]]. lia.
  - destruct IH as [[i [H E]]|H]; [left; exists i; split; [lia|assumption]|].
    destruct (Z.eq_dec (key n) 27) as [E|E].
    + left. exists n. split; [lia|assumption].
    + right. intros [i [Hi Ei]]. apply H. exists i. split; [|assumption].
      assert (i <> n) by (intros ->; congruence). lia.
Qed.
Lemma until_esc_length {A} key (l : list A) : (length (until_esc key 0 l) <= length l)%nat.
Proof.
  generalize 0%nat. induction l as [|x l IH]; intros i; cbn [until_esc length]; [lia|].
  destruct (key i =? 27)%Z; cbn [length]; [lia|]. specialize (IH (S i)). lia.
Qed.
Lemma until_esc_idem {A} key (l : list A) n :
  escaped key n -> (n <= length (until_esc key 0 l))%nat ->
  forall l', until_esc key 0 (l ++ l') = until_esc key 0 l.
Proof.
  intros [i [Hi E]] Hn l'. apply until_esc_app_stop. exists i. split; [|assumption].
  pose proof (until_esc_length key l). lia.
Qed.

Section Video.
  Context {T : Type}.
  Variables (padv : image T -> Z * Z * Z * Z -> Z -> Z -> T)
    (remap : picture T -> image T -> image T -> picture T)
    (reads : nat -> option (picture T)) (key : nat -> Z) (pad : pad_arg)
    (w : Z * Z * Z * Z) (xd yd : image T).

  (** The corrected version of a frame. *)
  Variable corr : picture T -> picture T.

  Notation run := (vrun remap padv reads key pad w xd yd).

  (** No frame is refused: no padding, or the first read gave a frame and all
      the frames are like it and can be padded. *)
  Hypothesis corr_ok : forall k f, (1 <= k)%nat -> reads k = Some f ->
    (no_pad pad = true /\ corr f = remap f xd yd) \/
    (no_pad pad = false /\
     (exists f0, reads O = Some f0 /\ is_gray f0 = is_gray f) /\
     exists fp, pad_picture padv f w = Ok fp /\ corr f = remap fp xd yd).

  Lemma vstep_ok s f : v_status s = Running -> (1 <= v_reads s)%nat -> reads (v_reads s) = Some f ->
    vstep remap padv reads key pad w xd yd s =
    mkv (S (v_reads s)) (corr f :: v_shown s)
        (if (key (length (v_shown s)) =? 27)%Z then Released else Running).
  Proof.
    intros Hs H1 Hf. unfold vstep. rewrite Hs, Hf.
    destruct (corr_ok _ _ H1 Hf) as [[Hp ->]|[Hp [[f0 [E0 G]] [fp [Ep ->]]]]]; rewrite Hp.
    - reflexivity.
    - rewrite E0. unfold same_dim. rewrite G, eqb_reflx. cbn [negb]. now rewrite Ep.
  Qed.

  Lemma video_shown n :
    rev (v_shown (run n)) = map corr (until_esc key 0 (somes (map reads (seq 1 n)))) /\
    ((v_status (run n) = Running /\ ~ escaped key (length (v_shown (run n))) /\ v_reads (run n) = S n) \/
     (v_status (run n) = Released /\ escaped key (length (v_shown (run n))))).
  Proof.
    induction n as [|n [IH1 IH2]].
    - cbn. split; [reflexivity|]. left. split; [reflexivity|]. split; [|reflexivity]. intros [i [H _]]. lia.
    - cbn [vrun]. set (s := run n) in *. rewrite seq_S, map_app, somes_app. cbn [Nat.add map].
      assert (Hlen : length (v_shown s) = length (until_esc key 0 (somes (map reads (seq 1 n))))).
      { now rewrite <- rev_length, IH1, map_length. }
      destruct IH2 as [[Hs [He Hr]]|[Hs He]].
      + assert (Hno : until_esc key 0 (somes (map reads (seq 1 n))) = somes (map reads (seq 1 n))).
        { destruct (escaped_dec key (length (somes (map reads (seq 1 n))))) as [[i [Hi E]]|H].
          - (* an ESC within the list would have cut after it *)
            exfalso. apply He. rewrite Hlen. clear -E Hi.
            enough (forall (l : list (picture T)) j, (j <= i < j + length l)%nat ->
              exists k, (k < length (until_esc key j l))%nat /\ key (j + k)%nat = 27%Z) as Q.
            { destruct (Q (somes (map reads (seq 1 n))) O ltac:(lia)) as [k [K1 K2]]. exists k. auto. }
            induction l as [|x l IH]; intros j Hj; cbn [length] in Hj; [lia|].
            cbn [until_esc]. destruct (Z.eqb_spec (key j) 27) as [Ej|Ej].
            + exists O. cbn. rewrite Nat.add_0_r. split; [lia|assumption].
            + assert (j <> i) by (intros ->; congruence).
              destruct (IH (S j) ltac:(lia)) as [k [K1 K2]]. exists (S k). cbn [length].
              split; [lia|]. now rewrite Nat.add_succ_r.
          - apply until_esc_all. intros k Hk E. apply H. exists k. split; [lia|assumption]. }
        rewrite Hno in *.
        destruct (reads (S n)) as [f|] eqn:Ef.
        * assert (Hf : reads (v_reads s) = Some f) by (rewrite Hr; exact Ef).
          rewrite (vstep_ok s f Hs ltac:(lia) Hf). cbn [v_shown v_status v_reads rev].
          cbn [somes flat_map]. rewrite app_nil_r. split.
          -- rewrite until_esc_last.
             ++ rewrite map_app. cbn [map]. now rewrite IH1.
             ++ intros k Hk E. apply He. exists k. split; [lia|assumption].
          -- cbn [length]. destruct (Z.eqb_spec (key (length (v_shown s))) 27) as [E|E].
             ++ right. split; [reflexivity|]. exists (length (v_shown s)). split; [lia|assumption].
             ++ left. split; [reflexivity|]. split; [|lia]. intros [i [Hi Ei]]. apply He. exists i.
                assert (i <> length (v_shown s)) by (intros ->; congruence). split; [lia|assumption].
        * assert (Est : vstep remap padv reads key pad w xd yd s = mkv (S (v_reads s)) (v_shown s) Running).
          { unfold vstep. rewrite Hs, Hr, Ef. reflexivity. }
          rewrite Est. cbn [v_shown v_status v_reads somes flat_map]. rewrite app_nil_r. split.
          -- now rewrite Hno.
          -- left. split; [reflexivity|]. split; [assumption|lia].
      + assert (Est : vstep remap padv reads key pad w xd yd s = s) by (unfold vstep; now rewrite Hs).
        rewrite Est. split; [|now right].
        rewrite (until_esc_idem key _ (length (v_shown s)) He) by lia. exact IH1.
  Qed.

  Lemma video_never_returns : (forall i, key i <> 27%Z) ->
    forall n, v_status (run n) = Running /\ v_reads (run n) = S n.
  Proof.
    intros H n. destruct (proj2 (video_shown n)) as [[A [_ B]]|[_ [i [_ E]]]]; [auto|].
    destruct (H i E).
  Qed.
End Video.

(** A failing first read with padding requested. *)
Lemma video_unbound {T} padv remap (reads : nat -> option (picture T)) key pad w xd yd k f :
  no_pad pad = false -> reads O = None -> (1 <= k)%nat -> reads k = Some f ->
  (forall j, (1 <= j < k)%nat -> reads j = None) ->
  forall n, (k <= n)%nat ->
    v_status (vrun remap padv reads key pad w xd yd n) = Raised UnboundLocalError /\
    v_shown (vrun remap padv reads key pad w xd yd n) = [].
Proof.
  intros Hp H0 Hk Hf Hj.
  assert (Hpre : forall n, (n < k)%nat -> vrun remap padv reads key pad w xd yd n = mkv (S n) [] Running).
  { induction n as [|n IH]; intros Hn; [reflexivity|]. cbn [vrun]. rewrite IH by lia.
    unfold vstep. cbn [v_status v_reads v_shown]. now rewrite Hj by lia. }
  intros n Hn. induction n as [|n IH]; [lia|]. cbn [vrun].
  destruct (Nat.eq_dec k (S n)) as [E|E].
  - subst k. rewrite Hpre by lia. unfold vstep. cbn [v_status v_reads v_shown].
    rewrite Hf, Hp, H0. auto.
  - destruct (IH ltac:(lia)) as [A B]. unfold vstep. rewrite A. auto.
Qed.
