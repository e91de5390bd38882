(** Proofs about perspective correction of images. *)
From Coq Require Import Reals ZArith List Lra Lia Bool.
From Flocq Require Import Core.
From Verif Require Import Base Num Img Spec Post NumFacts PostLines PostLines2 PostImg PostImg2.
Local Open Scope R_scope.

Lemma flat_map_nth {A B} (f : A -> list B) n l i j a b :
  (forall x, In x l -> length (f x) = n) -> (i < length l)%nat -> (j < n)%nat ->
  nth (i * n + j) (flat_map f l) b = nth j (f (nth i l a)) b.
Proof.
  revert i. induction l as [|x l IH]; cbn [length flat_map]; intros i Hl Hi Hj; [lia|].
  destruct i as [|i].
  - rewrite app_nth1; [reflexivity|]. rewrite (Hl x (or_introl eq_refl)). lia.
  - rewrite app_nth2 by (rewrite (Hl x (or_introl eq_refl)); lia).
    rewrite (Hl x (or_introl eq_refl)).
    replace (S i * n + j - n)%nat with (i * n + j)%nat by lia.
    rewrite (IH i); [reflexivity| |lia|assumption]. intros y Hy. apply Hl. now right.
Qed.

Lemma flat_map_length_const {A B} (f : A -> list B) n l :
  (forall x, In x l -> length (f x) = n) -> length (flat_map f l) = (length l * n)%nat.
Proof.
  induction l as [|x l IH]; cbn [length flat_map]; intros H; [reflexivity|].
  rewrite app_length, (H x (or_introl eq_refl)), IH; [lia|].
  intros y Hy. apply H. now right.
Qed.

Lemma grid_length h w : (0 <= h)%Z -> (0 <= w)%Z ->
  Z.of_nat (length (grid h w)) = (h * w)%Z.
Proof.
  intros Hh Hw. unfold grid. rewrite (flat_map_length_const _ (Z.to_nat w)).
  - rewrite zrange_length. lia.
  - intros x _. rewrite map_length, zrange_length. lia.
Qed.

Lemma grid_nth h w i j d : (0 <= i < h)%Z -> (0 <= j < w)%Z ->
  nth (Z.to_nat (i * w + j)) (grid h w) d = (i, j).
Proof.
  intros Hi Hj. replace (Z.to_nat (i * w + j)) with (Z.to_nat i * Z.to_nat w + Z.to_nat j)%nat by nia.
  unfold grid. rewrite (flat_map_nth _ (Z.to_nat w) _ _ _ 0%Z).
  - rewrite (zrange_nth 0 h) by lia.
    rewrite nth_indep with (d' := ((0 + Z.of_nat (Z.to_nat i))%Z, 0%Z))
      by (rewrite map_length, zrange_length; lia).
    rewrite map_nth with (f := fun j0 => ((0 + Z.of_nat (Z.to_nat i))%Z, j0)).
    rewrite zrange_nth by lia. f_equal; lia.
  - intros x _. rewrite map_length, zrange_length. lia.
  - rewrite zrange_length. lia.
  - lia.
Qed.

Lemma nth_map_in {A B} (f : A -> B) l k d d' : (k < length l)%nat ->
  nth k (map f l) d' = f (nth k l d).
Proof. intros H. rewrite nth_indep with (d' := f d) by now rewrite map_length. apply map_nth. Qed.

(** General shape: any rounding, any interpolation. *)
Lemma perspective_image_gen rnd interp mat c (Hh : (0 <= ih mat)%Z) (Hw : (0 <= iw mat)%Z) :
  length c = 8%nat ->
  exists c8' out, @unpack8 R c = Ok c8' /\
    @correct_perspective_image R (Rnum rnd) interp mat c None = Ok out /\
    ih out = ih mat /\ iw out = iw mat /\
    forall i j, (0 <= i < ih mat)%Z -> (0 <= j < iw mat)%Z ->
      px out i j = interp mat
        (f32 (clamp (@persp_y R (Rnum rnd) c8' (IZR i) (IZR j)) 0 (IZR (ih mat - 1))))
        (f32 (clamp (@persp_x R (Rnum rnd) c8' (IZR i) (IZR j)) 0 (IZR (iw mat - 1)))).
Proof.
  intros Hc. do 9 (destruct c as [|? c]; [try discriminate|]); [|discriminate].
  eexists. eexists. split; [reflexivity|].
  unfold correct_perspective_image, generate_perspective_map. cbn [unpack8 bind].
  unfold reshape. rewrite !map_length. rewrite grid_length by lia.
  rewrite Z.eqb_refl. split; [reflexivity|]. cbn [ih iw px].
  split; [reflexivity|split; [reflexivity|]].
  intros i j Hi Hj.
  assert (Hl : (Z.to_nat (i * iw mat + j) < length (grid (ih mat) (iw mat)))%nat).
  { apply Nat2Z.inj_lt. rewrite grid_length by lia. nia. }
  rewrite map_map.
  rewrite (nth_map_in _ _ _ (0%Z, 0%Z)) by assumption.
  rewrite grid_nth by assumption. cbn [fst snd].
  f_equal.
  - assert (Hp : 0 <= IZR (ih mat - 1)) by (apply IZR_pred_pos; lia).
    now rewrite <- (nclip_R rnd).
  - assert (Hp : 0 <= IZR (iw mat - 1)) by (apply IZR_pred_pos; lia).
    now rewrite <- (nclip_R rnd).
Qed.

Definition coef_mat (c : list R) : mat3 :=
  M3 (nth 0 c 0) (nth 1 c 0) (nth 2 c 0) (nth 3 c 0) (nth 4 c 0) (nth 5 c 0)
     (nth 6 c 0) (nth 7 c 0) 1.

Lemma f32_clamp_range v n : (0 <= n <= 2 ^ 24)%Z -> 0 <= f32 (clamp v 0 (IZR n)) <= IZR n.
Proof.
  intros H. apply f32_range; [|lia]. apply clamp_range. apply IZR_le. lia.
Qed.

Lemma perspective_image_exact mat c :
  (0 <= ih mat <= 2 ^ 24 + 1)%Z -> (0 <= iw mat <= 2 ^ 24 + 1)%Z -> length c = 8%nat ->
  let P i j := proj (coef_mat c) (zpt i j) in
  exists out, @correct_perspective_image R Rex (@bilinear R Rex) mat c None = Ok out /\
    ih out = ih mat /\ iw out = iw mat /\
    forall i j, (0 <= i < ih mat)%Z -> (0 <= j < iw mat)%Z ->
      px out i j = lin_sample mat (f32 (clamp (py (P i j)) 0 (IZR (ih mat - 1))))
                                  (f32 (clamp (pxc (P i j)) 0 (IZR (iw mat - 1)))).
Proof.
  intros Hh Hw Hc. cbn zeta.
  destruct (perspective_image_gen (fun x => x) (@bilinear R Rex) mat c (proj1 Hh) (proj1 Hw) Hc)
    as [c8' [out [E8 [Eo [Eh [Ew H]]]]]].
  exists out. split; [exact Eo|]. split; [exact Eh|]. split; [exact Ew|].
  intros i j Hi Hj. rewrite (H i j Hi Hj).
  rewrite bilinear_lin_sample; [|apply f32_clamp_range; lia|apply f32_clamp_range; lia].
  do 9 (destruct c as [|? c]; [try discriminate|]); [|discriminate].
  cbn [unpack8] in E8. injection E8 as <-. 
  unfold proj, den, zpt, persp_y, persp_x, coef_mat, py, pxc.
  cbn [fst snd nth c1 c2 c3 c4 c5 c6 c7 c8 c9]. unnum. reflexivity.
Qed.

Lemma perspective_image_bounds rnd mat c lo hi out :
  (0 <= ih mat <= 2 ^ 24 + 1)%Z -> (0 <= iw mat <= 2 ^ 24 + 1)%Z ->
  (forall i j, in_img mat i j -> lo <= px mat i j <= hi) ->
  @correct_perspective_image R (Rnum rnd) (@bilinear R Rex) mat c None = Ok out ->
  forall i j, in_img out i j -> lo <= px out i j <= hi.
Proof.
  intros Hh Hw Hb E i j Hij.
  destruct (Nat.eq_dec (length c) 8) as [Hc|NE].
  - destruct (perspective_image_gen rnd (@bilinear R Rex) mat c (proj1 Hh) (proj1 Hw) Hc)
      as [c8' [out' [E8 [Eo [Eh [Ew H]]]]]].
    assert (out' = out) by congruence. subst out'.
    destruct Hij as [Hi Hj]. rewrite Eh in Hi. rewrite Ew in Hj.
    rewrite (H i j Hi Hj). apply bilinear_bounds; try lia; assumption.
  - unfold correct_perspective_image in E.
    do 8 (destruct c as [|? c]; [discriminate|]). destruct c; [now contradiction NE|discriminate].
Qed.

Lemma perspective_image_identity mat :
  (0 <= ih mat <= 2 ^ 24 + 1)%Z -> (0 <= iw mat <= 2 ^ 24 + 1)%Z ->
  exists out, @correct_perspective_image R Rex (@bilinear R Rex) mat [1;0;0;0;1;0;0;0] None = Ok out
    /\ img_eq out mat.
Proof.
  intros Hh Hw.
  destruct (perspective_image_gen (fun x => x) (@bilinear R Rex) mat [1;0;0;0;1;0;0;0] (proj1 Hh) (proj1 Hw) eq_refl)
    as [c8' [out [E8 [Eo [Eh [Ew H]]]]]].
  exists out. split; [exact Eo|]. split; [exact Eh|split; [exact Ew|]].
  intros i j [Hi Hj]. rewrite Eh in Hi. rewrite Ew in Hj. rewrite (H i j Hi Hj).
  cbn [unpack8] in E8. injection E8 as <-.
  unfold persp_y, persp_x. unnum.
  replace ((0 * IZR j + 1 * IZR i + 0) / (0 * IZR j + 0 * IZR i + 1)) with (IZR i) by field.
  replace ((1 * IZR j + 0 * IZR i + 0) / (0 * IZR j + 0 * IZR i + 1)) with (IZR j) by field.
  rewrite !clamp_id by (split; apply IZR_le; lia).
  rewrite !f32_int by lia. apply bilinear_int. split; lia.
Qed.

Lemma perspective_image_arity rnd interp mat c m : length c <> 8%nat ->
  @correct_perspective_image R (Rnum rnd) interp mat c m = Err ValueError.
Proof.
  intros H. unfold correct_perspective_image.
  do 8 (destruct c as [|? c]; [reflexivity|]). destruct c; [now contradiction H|reflexivity].
Qed.

Lemma perspective_image_map_irrelevant rnd interp mat c c' m :
  length c = 8%nat -> length c' = 8%nat ->
  @correct_perspective_image R (Rnum rnd) interp mat c (Some m)
  = @correct_perspective_image R (Rnum rnd) interp mat c' (Some m).
Proof.
  intros H H'. unfold correct_perspective_image.
  do 9 (destruct c as [|? c]; [try discriminate|]); [|discriminate].
  do 9 (destruct c' as [|? c']; [try discriminate|]); [|discriminate]. reflexivity.
Qed.

Lemma perspective_image_map_same rnd interp mat mat' c m :
  ih mat' = ih mat -> iw mat' = iw mat ->
  @generate_perspective_map R (Rnum rnd) mat' c = Ok m ->
  @correct_perspective_image R (Rnum rnd) interp mat c (Some m)
  = @correct_perspective_image R (Rnum rnd) interp mat c None.
Proof.
  intros E1 E2 H. unfold correct_perspective_image.
  assert (Hg : @generate_perspective_map R (Rnum rnd) mat c = Ok m).
  { rewrite <- H. unfold generate_perspective_map. now rewrite E1, E2. }
  rewrite Hg. reflexivity.
Qed.
