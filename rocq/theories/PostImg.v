(** Proofs about the image functions of postprocessing.py. *)
From Coq Require Import Reals ZArith List Lra Lia Bool.
From Flocq Require Import Core.
From Verif Require Import Base Num Img Spec Post NumFacts PostLines.
Local Open Scope R_scope.

Definition zpt (i j : Z) : pt := (IZR i, IZR j).

Lemma map_x_R xc yc fact i j :
  @map_x R Rex xc yc fact i j = pxc (radial_map fact (yc, xc) (zpt i j)).
Proof.
  unfold map_x. rewrite radial_R. unnum. unfold zpt. unpt. f_equal. f_equal. f_equal. f_equal. ring.
Qed.
Lemma map_y_R xc yc fact i j :
  @map_y R Rex xc yc fact i j = py (radial_map fact (yc, xc) (zpt i j)).
Proof.
  unfold map_y. rewrite radial_R. unnum. unfold zpt. unpt. f_equal. f_equal. f_equal. f_equal. ring.
Qed.

Lemma IZR_pred_pos n : (0 < n)%Z -> 0 <= IZR (n - 1).
Proof. intros H. apply IZR_le. lia. Qed.

Lemma coord_x_range rnd xc yc fact w i j : (0 < w <= 2 ^ 24 + 1)%Z ->
  0 <= @coord_x R (Rnum rnd) xc yc fact w i j <= IZR (w - 1).
Proof.
  intros H. unfold coord_x. cbn [nf32 nofZ Rnum]. pose proof (IZR_pred_pos w ltac:(lia)).
  rewrite nclip_R by assumption. apply f32_range; [|lia]. now apply clamp_range.
Qed.
Lemma coord_y_range rnd xc yc fact h i j : (0 < h <= 2 ^ 24 + 1)%Z ->
  0 <= @coord_y R (Rnum rnd) xc yc fact h i j <= IZR (h - 1).
Proof.
  intros H. unfold coord_y. cbn [nf32 nofZ Rnum]. pose proof (IZR_pred_pos h ltac:(lia)).
  rewrite nclip_R by assumption. apply f32_range; [|lia]. now apply clamp_range.
Qed.

Lemma coord_x_R xc yc fact w i j : (0 < w)%Z ->
  @coord_x R Rex xc yc fact w i j =
  f32 (clamp (pxc (radial_map fact (yc, xc) (zpt i j))) 0 (IZR (w - 1))).
Proof.
  intros H. unfold coord_x. rewrite map_x_R. cbn [nf32 nofZ Rex Rnum].
  pose proof (IZR_pred_pos w H). unfold Rex. now rewrite nclip_R.
Qed.
Lemma coord_y_R xc yc fact h i j : (0 < h)%Z ->
  @coord_y R Rex xc yc fact h i j =
  f32 (clamp (py (radial_map fact (yc, xc) (zpt i j))) 0 (IZR (h - 1))).
Proof.
  intros H. unfold coord_y. rewrite map_y_R. cbn [nf32 nofZ Rex Rnum].
  pose proof (IZR_pred_pos h H). unfold Rex. now rewrite nclip_R.
Qed.

(** Bilinear interpolation stays between bounds of the pixels. *)
Lemma lerp_bounds t a b lo hi : 0 <= t <= 1 -> lo <= a <= hi -> lo <= b <= hi ->
  lo <= (1 - t) * a + t * b <= hi.
Proof. intros. split; nra. Qed.

Lemma frac_range x : 0 <= x - IZR (Zfloor x) <= 1.
Proof. pose proof (Zfloor_lb x). pose proof (Zfloor_ub x). lra. Qed.

Lemma bilinear_bounds (m : image R) y x lo hi : (0 < ih m)%Z -> (0 < iw m)%Z ->
  (forall i j, in_img m i j -> lo <= px m i j <= hi) ->
  lo <= @bilinear R Rex m y x <= hi.
Proof.
  intros Hh Hw Hb. unfold bilinear. unnum.
  set (i := Zfloor y). set (j := Zfloor x).
  pose proof (frac_range y) as Hty. pose proof (frac_range x) as Htx. fold i in Hty. fold j in Htx.
  set (ty := y - IZR i) in *. set (tx := x - IZR j) in *.
  assert (Hq : forall a b, lo <= px m (reflect (ih m) a) (reflect (iw m) b) <= hi).
  { intros a b. apply Hb. split; now apply reflect_range. }
  set (q := fun a b => px m (reflect (ih m) a) (reflect (iw m) b)).
  change (lo <= (1 - ty) * (1 - tx) * q i j + (1 - ty) * tx * q i (j + 1)%Z
     + ty * (1 - tx) * q (i + 1)%Z j + ty * tx * q (i + 1)%Z (j + 1)%Z <= hi).
  replace ((1 - ty) * (1 - tx) * q i j + (1 - ty) * tx * q i (j + 1)%Z
     + ty * (1 - tx) * q (i + 1)%Z j + ty * tx * q (i + 1)%Z (j + 1)%Z)
    with ((1 - ty) * ((1 - tx) * q i j + tx * q i (j + 1)%Z)
          + ty * ((1 - tx) * q (i + 1)%Z j + tx * q (i + 1)%Z (j + 1)%Z)) by ring.
  apply lerp_bounds; [assumption| |]; apply lerp_bounds; auto; apply Hq.
Qed.

(** ** C04 *)
Lemma image_backward_sampling interp mat xc yc fact :
  (0 < ih mat)%Z -> (0 < iw mat)%Z ->
  let out := @unwarp_image_backward R Rex interp mat xc yc fact in
  ih out = ih mat /\ iw out = iw mat /\
  forall i j, in_img mat i j ->
    let p := radial_map fact (yc, xc) (zpt i j) in
    px out i j = interp mat (f32 (clamp (py p) 0 (IZR (ih mat - 1))))
                            (f32 (clamp (pxc p) 0 (IZR (iw mat - 1)))).
Proof.
  intros Hh Hw. cbn zeta. repeat split. intros i j _. unfold unwarp_image_backward. cbn [px].
  now rewrite coord_x_R, coord_y_R.
Qed.

Lemma image_backward_positions rnd interp mat xc yc fact :
  (0 < ih mat <= 2 ^ 24 + 1)%Z -> (0 < iw mat <= 2 ^ 24 + 1)%Z ->
  let out := @unwarp_image_backward R (Rnum rnd) interp mat xc yc fact in
  ih out = ih mat /\ iw out = iw mat /\
  forall i j, in_img mat i j -> exists y x,
    0 <= y <= IZR (ih mat - 1) /\ 0 <= x <= IZR (iw mat - 1) /\ px out i j = interp mat y x.
Proof.
  intros Hh Hw. cbn zeta. repeat split. intros i j _. do 2 eexists.
  split; [|split; [|reflexivity]]; [apply coord_y_range|apply coord_x_range]; assumption.
Qed.

Lemma image_backward_bounds rnd cast mat xc yc fact lo hi :
  (0 < ih mat)%Z -> (0 < iw mat)%Z ->
  (forall a b, a <= b -> cast a <= cast b) -> cast lo = lo -> cast hi = hi ->
  (forall i j, in_img mat i j -> lo <= px mat i j <= hi) ->
  let out := @unwarp_image_backward R (Rnum rnd) (@bilinear_cast R Rex cast) mat xc yc fact in
  forall i j, in_img mat i j -> lo <= px out i j <= hi.
Proof.
  intros Hh Hw Hm Hlo Hhi Hb. cbn zeta. intros i j _. unfold unwarp_image_backward. cbn [px].
  unfold bilinear_cast.
  pose proof (bilinear_bounds mat (@coord_y R (Rnum rnd) xc yc fact (ih mat) i j)
    (@coord_x R (Rnum rnd) xc yc fact (iw mat) i j) lo hi Hh Hw Hb) as [H1 H2].
  rewrite <- Hlo, <- Hhi. split; apply Hm; assumption.
Qed.

Lemma image_backward_lin rnd mat xc yc fact :
  (0 < ih mat <= 2 ^ 24 + 1)%Z -> (0 < iw mat <= 2 ^ 24 + 1)%Z ->
  forall i j, in_img mat i j -> 
  px (@unwarp_image_backward R (Rnum rnd) (@bilinear R Rex) mat xc yc fact) i j =
  lin_sample mat (@coord_y R (Rnum rnd) xc yc fact (ih mat) i j)
                 (@coord_x R (Rnum rnd) xc yc fact (iw mat) i j).
Proof.
  intros Hh Hw i j _. unfold unwarp_image_backward. cbn [px].
  apply bilinear_lin_sample; [now apply coord_y_range|now apply coord_x_range].
Qed.

(** ** C05 *)
Lemma bilinear_int (m : image R) i j : in_img m i j ->
  @bilinear R Rex m (IZR i) (IZR j) = px m i j.
Proof.
  intros [Hi Hj]. unfold bilinear. unnum. rewrite !Zfloor_IZR.
  replace (IZR i - IZR i) with 0 by ring. replace (IZR j - IZR j) with 0 by ring.
  rewrite (reflect_id _ i), (reflect_id _ j) by lia. ring.
Qed.

Lemma image_backward_identity cast mat xc yc n :
  (ih mat <= 2 ^ 24 + 1)%Z -> (iw mat <= 2 ^ 24 + 1)%Z ->
  (forall i j, in_img mat i j -> cast (px mat i j) = px mat i j) ->
  img_eq (@unwarp_image_backward R Rex (@bilinear_cast R Rex cast) mat xc yc (1 :: repeat 0 n)) mat.
Proof.
  intros Hh Hw Hc. split; [reflexivity|split; [reflexivity|]]. intros i j [Hi Hj].
  cbn [ih iw unwarp_image_backward] in Hi, Hj. unfold unwarp_image_backward. cbn [px].
  rewrite coord_x_R, coord_y_R by lia. rewrite radial_identity. unfold zpt, py, pxc. cbn [fst snd].
  rewrite !clamp_id by (split; apply IZR_le; lia).
  rewrite !f32_int by lia. unfold bilinear_cast. rewrite bilinear_int by (split; assumption).
  apply Hc. split; assumption.
Qed.

(** ** C06 *)
Lemma bilinear_linear (m1 m2 : image R) a b y x : ih m1 = ih m2 -> iw m1 = iw m2 ->
  @bilinear R Rex (mkimg (ih m1) (iw m1) (fun i j => a * px m1 i j + b * px m2 i j)) y x =
  a * @bilinear R Rex m1 y x + b * @bilinear R Rex m2 y x.
Proof. intros Hh Hw. unfold bilinear. cbn [ih iw px]. rewrite <- Hh, <- Hw. unnum. ring. Qed.

Lemma image_backward_linear rnd m1 m2 a b xc yc fact : ih m1 = ih m2 -> iw m1 = iw m2 ->
  forall i j, in_img m1 i j ->
  px (@unwarp_image_backward R (Rnum rnd) (@bilinear R Rex)
        (mkimg (ih m1) (iw m1) (fun i j => a * px m1 i j + b * px m2 i j)) xc yc fact) i j =
  a * px (@unwarp_image_backward R (Rnum rnd) (@bilinear R Rex) m1 xc yc fact) i j +
  b * px (@unwarp_image_backward R (Rnum rnd) (@bilinear R Rex) m2 xc yc fact) i j.
Proof.
  intros Hh Hw i j _. unfold unwarp_image_backward. cbn [px ih iw].
  rewrite bilinear_linear by assumption. now rewrite <- Hh, <- Hw.
Qed.

(** ** C07 *)
Definition lex_le (p q : Z * Z) : Prop :=
  (fst p < fst q \/ (fst p = fst q /\ snd p <= snd q))%Z.

Lemma scatter_ok {T} ws (m : image T) :
  Forall (fun w => (0 <= fst (fst w) < ih m)%Z /\ (0 <= snd (fst w) < iw m)%Z) ws ->
  exists out, scatter m ws = Ok out /\ ih out = ih m /\ iw out = iw m /\
    forall i j, px out i j =
      match find_last (fun w => Z.eqb (fst (fst w)) i && Z.eqb (snd (fst w)) j) ws with
      | Some w => snd w | None => px m i j end.
Proof.
  revert m. induction ws as [|[[a b] v] ws IH]; intros m HF.
  - exists m. repeat split.
  - inversion HF as [|? ? [Ha Hb] HF']; subst. cbn [fst snd] in Ha, Hb.
    cbn [scatter]. cbv zeta.
    replace (a <? 0)%Z with false by (symmetry; apply Z.ltb_ge; lia).
    replace (b <? 0)%Z with false by (symmetry; apply Z.ltb_ge; lia).
    replace (a <? 0)%Z with false by (symmetry; apply Z.ltb_ge; lia).
    replace (b <? 0)%Z with false by (symmetry; apply Z.ltb_ge; lia).
    replace (ih m <=? a)%Z with false by (symmetry; apply Z.leb_gt; lia).
    replace (iw m <=? b)%Z with false by (symmetry; apply Z.leb_gt; lia).
    cbn [orb].
    destruct (IH (set_px m a b v) HF') as [out [E [Eh [Ew Hpx]]]].
    exists out. split; [exact E|split; [exact Eh|split; [exact Ew|]]].
    intros i j. rewrite Hpx. clear.
    unfold find_last. cbn [rev].
    assert (Hsn : forall l f (w : Z * Z * T), find f (l ++ [w]) =
        match find f l with Some x => Some x | None => if f w then Some w else None end).
    { induction l as [|x l IHl]; intros f w; cbn; [reflexivity|]. destruct (f x); auto. }
    rewrite Hsn. destruct (find _ (rev ws)) as [w|]; [reflexivity|].
    cbn [fst snd set_px px]. rewrite (Z.eqb_sym i a), (Z.eqb_sym j b).
    destruct (Z.eqb a i && Z.eqb b j); reflexivity.
Qed.

Lemma in_grid h w i j : In (i, j) (grid h w) <-> (0 <= i < h /\ 0 <= j < w)%Z.
Proof.
  unfold grid. rewrite in_flat_map. split.
  - intros [x [Hx Hin]]. apply in_zrange in Hx. apply in_map_iff in Hin.
    destruct Hin as [y [[= <- <-] Hy]]. apply in_zrange in Hy. lia.
  - intros [Hi Hj]. exists i. rewrite in_zrange. split; [lia|].
    apply in_map_iff. exists j. split; [reflexivity|]. now apply in_zrange.
Qed.

(** The row-major list is sorted lexicographically. *)
Lemma grid_sorted h w l1 p l2 q : grid h w = l1 ++ p :: l2 -> In q l2 -> lex_le p q.
Proof.
  unfold grid.
  assert (Hrow : forall (i : Z) (l1 : list (Z * Z)) p l2 q, map (fun j => (i, j)) (zrange 0 w) = l1 ++ p :: l2 ->
            In q l2 -> fst p = i /\ fst q = i /\ (snd p < snd q)%Z).
  { intros i l1' p' l2' q' E Hq. apply map_eq_app in E. destruct E as [u [v [E [E1 E2]]]].
    apply map_eq_cons in E2. destruct E2 as [a [v' [-> [<- <-]]]].
    apply in_map_iff in Hq. destruct Hq as [b [<- Hb]]. cbn. repeat split.
    clear -E Hb. apply in_split in Hb. destruct Hb as [s [t ->]].
    assert (Ha : nth (length u) (zrange 0 w) 0%Z = a)
      by (rewrite E; rewrite app_nth2 by lia; now rewrite Nat.sub_diag).
    assert (Hb : nth (length u + S (length s)) (zrange 0 w) 0%Z = b).
    { rewrite E, app_nth2 by lia. replace (length u + S (length s) - length u)%nat with (S (length s)) by lia.
      cbn [nth]. rewrite app_nth2 by lia. now rewrite Nat.sub_diag. }
    assert (Hlen : length (zrange 0 w) = (length u + S (length s + S (length t)))%nat)
      by (rewrite E, app_length; cbn; rewrite app_length; cbn; lia).
    rewrite zrange_length in Hlen.
    rewrite zrange_nth in Ha, Hb by lia. lia. }
  assert (Hgen : forall (is : list Z) (l1 : list (Z * Z)) p l2 q, (forall a b s t, is = s ++ a :: t -> In b t -> (a < b)%Z) ->
     flat_map (fun i => map (fun j => (i, j)) (zrange 0 w)) is = l1 ++ p :: l2 ->
     In q l2 -> lex_le p q).
  { intros is. induction is as [|i is IH]; intros l1' p' l2' q' Hinc E Hq.
    - destruct l1'; discriminate.
    - cbn [flat_map] in E.
      (* p' is either in the first row or later *)
      destruct (Nat.lt_ge_cases (length l1') (length (map (fun j => (i, j)) (zrange 0 w)))) as [Hlt|Hge].
      + assert (Hsplit : exists r, map (fun j => (i, j)) (zrange 0 w) = l1' ++ p' :: r /\
                  l2' = r ++ flat_map (fun i => map (fun j => (i, j)) (zrange 0 w)) is).
        { revert E Hlt. generalize (map (fun j => (i, j)) (zrange 0 w)). intros row.
          revert row. induction l1' as [|z l1' IHl]; intros row E Hlt.
          - destruct row as [|r0 row]; [cbn in Hlt; lia|]. cbn in E. injection E as -> <-.
            exists row. auto.
          - destruct row as [|r0 row]; [cbn in Hlt; lia|]. cbn in E. injection E as -> E.
            destruct (IHl row E ltac:(cbn in Hlt; lia)) as [r [-> ->]]. exists r. auto. }
        destruct Hsplit as [r [Er ->]]. apply in_app_or in Hq. destruct Hq as [Hq|Hq].
        * destruct (Hrow i l1' p' r q' Er Hq) as [? [? ?]]. right. split; [congruence|lia].
        * left. assert (fst p' = i).
          { assert (Hin : In p' (map (fun j => (i, j)) (zrange 0 w))) by (rewrite Er; apply in_elt).
            apply in_map_iff in Hin. destruct Hin as [? [<- _]]. reflexivity. }
          apply in_flat_map in Hq. destruct Hq as [i' [Hi' Hq]].
          apply in_map_iff in Hq. destruct Hq as [? [<- _]]. cbn.
          rewrite H. apply (Hinc i i' [] is); [reflexivity|assumption].
      + assert (Hsplit : exists r, l1' = map (fun j => (i, j)) (zrange 0 w) ++ r /\
                  flat_map (fun i => map (fun j => (i, j)) (zrange 0 w)) is = r ++ p' :: l2').
        { revert E Hge. generalize (map (fun j => (i, j)) (zrange 0 w)). intros row.
          revert l1'. induction row as [|r0 row IHr]; intros l1' E Hge.
          - exists l1'. auto.
          - destruct l1' as [|z l1']; [cbn in Hge; lia|]. cbn in E. injection E as -> E.
            destruct (IHr l1' E ltac:(cbn in Hge; lia)) as [r [-> Er]]. exists r. auto. }
        destruct Hsplit as [r [_ Er]]. apply (IH r p' l2' q'); try assumption.
        intros a b s t Es. apply (Hinc a b (i :: s) t). now rewrite Es. }
  intros E Hq. apply (Hgen (zrange 0 h) l1 p l2 q); try assumption.
  clear. intros a b s t E Hb. apply in_split in Hb. destruct Hb as [u [v ->]].
  assert (Ha : nth (length s) (zrange 0 h) 0%Z = a)
    by (rewrite E; rewrite app_nth2 by lia; now rewrite Nat.sub_diag).
  assert (Hb : nth (length s + S (length u)) (zrange 0 h) 0%Z = b).
  { rewrite E, app_nth2 by lia. replace (length s + S (length u) - length s)%nat with (S (length u)) by lia.
    cbn [nth]. rewrite app_nth2 by lia. now rewrite Nat.sub_diag. }
  assert (Hlen : length (zrange 0 h) = (length s + S (length u + S (length v)))%nat)
    by (rewrite E, app_length; cbn; rewrite app_length; cbn; lia).
  rewrite zrange_length in Hlen.
  rewrite zrange_nth in Ha, Hb by lia. lia.
Qed.

Lemma find_last_spec {A} (f : A -> bool) l :
  match find_last f l with
  | Some a => exists l1 l2, l = l1 ++ a :: l2 /\ f a = true /\ forall b, In b l2 -> f b = false
  | None => forall b, In b l -> f b = false
  end.
Proof.
  unfold find_last. remember (rev l) as r eqn:Er.
  assert (El : l = rev r) by (rewrite Er; now rewrite rev_involutive).
  subst l. clear Er. rename r into l.
  induction l as [|a l IH]; cbn; [tauto|].
  destruct (f a) eqn:E.
  - exists (rev l), []. repeat split; auto. intros b [].
  - destruct (find f l) as [b|].
    + destruct IH as [l1 [l2 [-> [Hb Hl2]]]]. exists l1, (l2 ++ [a]). split.
      * now rewrite <- app_assoc.
      * split; [assumption|]. intros c Hc. apply in_app_or in Hc. destruct Hc as [Hc|[<-|[]]]; auto.
    + intros b Hb. apply in_app_or in Hb. destruct Hb as [Hb|[<-|[]]]; auto.
Qed.

Lemma fwd_row_range rnd xc yc fact h i j : (0 < h)%Z ->
  (0 <= @fwd_row R (Rnum rnd) xc yc fact h i j < h)%Z.
Proof.
  intros H. unfold fwd_row. cbn [nrint nofZ Rnum]. pose proof (IZR_pred_pos h H) as Hp.
  rewrite nclip_R by assumption. pose proof (clamp_range (@map_y R (Rnum rnd) xc yc fact i j) _ _ Hp) as [H1 H2].
  set (v := clamp _ _ _) in *.
  assert ((ZnearestE 0 <= ZnearestE v)%Z) by (apply Znearest_monotone || (apply (Zrnd_le ZnearestE)); lra).
  assert ((ZnearestE v <= ZnearestE (IZR (h - 1)))%Z) by (apply (Zrnd_le ZnearestE); lra).
  rewrite (Zrnd_IZR ZnearestE 0) in *. rewrite (Zrnd_IZR ZnearestE) in *. lia.
Qed.
Lemma fwd_col_range rnd xc yc fact w i j : (0 < w)%Z ->
  (0 <= @fwd_col R (Rnum rnd) xc yc fact w i j < w)%Z.
Proof.
  intros H. unfold fwd_col. cbn [nrint nofZ Rnum]. pose proof (IZR_pred_pos w H) as Hp.
  rewrite nclip_R by assumption. pose proof (clamp_range (@map_x R (Rnum rnd) xc yc fact i j) _ _ Hp) as [H1 H2].
  set (v := clamp _ _ _) in *.
  assert ((ZnearestE 0 <= ZnearestE v)%Z) by (apply (Zrnd_le ZnearestE); lra).
  assert ((ZnearestE v <= ZnearestE (IZR (w - 1)))%Z) by (apply (Zrnd_le ZnearestE); lra).
  rewrite (Zrnd_IZR ZnearestE 0) in *. rewrite (Zrnd_IZR ZnearestE) in *. lia.
Qed.

Lemma image_forward_gen rnd mat xc yc fact :
  let tgt i j := (@fwd_row R (Rnum rnd) xc yc fact (ih mat) i j,
                  @fwd_col R (Rnum rnd) xc yc fact (iw mat) i j) in
  exists out, @unwarp_image_forward R (Rnum rnd) mat xc yc fact = Ok out /\
    ih out = ih mat /\ iw out = iw mat /\
    forall i j,
      (px out i j = 0 /\ forall a b, in_img mat a b -> tgt a b <> (i, j)) \/
      (exists a b, in_img mat a b /\ tgt a b = (i, j) /\ px out i j = px mat a b /\
         forall a' b', in_img mat a' b' -> tgt a' b' = (i, j) -> lex_le (a', b') (a, b)).
Proof.
  cbn zeta. unfold unwarp_image_forward.
  set (ws := map _ (grid (ih mat) (iw mat))).
  assert (HF : Forall (fun w => (0 <= fst (fst w) < ih mat)%Z /\ (0 <= snd (fst w) < iw mat)%Z) ws).
  { rewrite Forall_forall. intros w Hw. apply in_map_iff in Hw. destruct Hw as [[a b] [<- Hin]].
    apply in_grid in Hin. cbn [fst snd]. split; [apply fwd_row_range|apply fwd_col_range]; lia. }
  destruct (scatter_ok ws (mkimg (ih mat) (iw mat) (fun _ _ => @n0 R (Rnum rnd))) HF)
    as [out [E [Eh [Ew Hpx]]]].
  exists out. split; [exact E|]. split; [exact Eh|]. split; [exact Ew|].
  intros i j. rewrite Hpx. cbn [px].
  pose proof (find_last_spec (fun w : Z * Z * R => Z.eqb (fst (fst w)) i && Z.eqb (snd (fst w)) j) ws) as Hfl.
  destruct (find_last _ ws) as [w|].
  - right. destruct Hfl as [l1 [l2 [El [Hw Hl2]]]].
    unfold ws in El. apply map_eq_app in El. destruct El as [g1 [g2 [Eg [E1 E2]]]].
    apply map_eq_cons in E2. destruct E2 as [[a b] [g3 [-> [<- <-]]]].
    cbn [fst snd] in Hw. apply andb_true_iff in Hw. destruct Hw as [Ha Hb].
    apply Z.eqb_eq in Ha, Hb.
    assert (Hab : in_img mat a b).
    { assert (Hin : In (a, b) (grid (ih mat) (iw mat))) by (rewrite Eg; apply in_elt).
      apply in_grid in Hin. exact Hin. }
    exists a, b. split; [exact Hab|]. split; [f_equal; assumption|]. split; [reflexivity|].
    intros a' b' Hin' Et'.
    pose proof (f_equal fst Et') as Ea'. pose proof (f_equal snd Et') as Eb'. cbn [fst snd] in Ea', Eb'.
    assert (Hg : In (a', b') (g1 ++ (a, b) :: g3)) by (rewrite <- Eg; now apply in_grid).
    apply in_app_or in Hg. destruct Hg as [Hg|[Hg|Hg]].
    + apply in_split in Hg. destruct Hg as [s [t ->]].
      apply (grid_sorted (ih mat) (iw mat) s (a', b') (t ++ (a, b) :: g3)).
      * rewrite Eg. now rewrite <- app_assoc.
      * apply in_elt.
    + injection Hg as <- <-. right. cbn. lia.
    + exfalso. specialize (Hl2 (@fwd_row R (Rnum rnd) xc yc fact (ih mat) a' b',
        @fwd_col R (Rnum rnd) xc yc fact (iw mat) a' b', px mat a' b')).
      cbn [fst snd] in Hl2. rewrite Ea', Eb', !Z.eqb_refl in Hl2. cbn [andb] in Hl2.
      discriminate Hl2. apply in_map_iff. exists (a', b'). cbn [fst snd]. rewrite Ea', Eb'. auto.
  - left. split; [reflexivity|]. intros a b Hin Et.
    pose proof (f_equal fst Et) as Ea. pose proof (f_equal snd Et) as Eb. cbn [fst snd] in Ea, Eb.
    specialize (Hfl (@fwd_row R (Rnum rnd) xc yc fact (ih mat) a b,
        @fwd_col R (Rnum rnd) xc yc fact (iw mat) a b, px mat a b)).
    cbn [fst snd] in Hfl. rewrite Ea, Eb, !Z.eqb_refl in Hfl. cbn [andb] in Hfl.
    discriminate Hfl. apply in_map_iff. exists (a, b). cbn [fst snd]. rewrite Ea, Eb.
    split; [reflexivity|]. apply in_grid. exact Hin.
Qed.

Lemma fwd_R (mat : image R) xc yc fact i j : in_img mat i j ->
  (@fwd_row R Rex xc yc fact (ih mat) i j, @fwd_col R Rex xc yc fact (iw mat) i j) =
  (ZnearestE (clamp (py (radial_map fact (yc, xc) (zpt i j))) 0 (IZR (ih mat - 1))),
   ZnearestE (clamp (pxc (radial_map fact (yc, xc) (zpt i j))) 0 (IZR (iw mat - 1)))).
Proof.
  intros [Hi Hj]. unfold fwd_row, fwd_col. rewrite map_x_R, map_y_R.
  cbn [nrint nofZ Rex Rnum]. unfold Rex.
  rewrite !nclip_R by (apply IZR_pred_pos; lia). reflexivity.
Qed.

Lemma image_forward_identity mat xc yc n :
  exists out, @unwarp_image_forward R Rex mat xc yc (1 :: repeat 0 n) = Ok out /\ img_eq out mat.
Proof.
  destruct (image_forward_gen (fun x => x) mat xc yc (1 :: repeat 0 n)) as [out [E [Eh [Ew H]]]].
  exists out. split; [exact E|]. split; [exact Eh|]. split; [exact Ew|].
  intros i j [Hi Hj]. rewrite Eh in Hi. rewrite Ew in Hj.
  assert (Ht : forall a b, in_img mat a b ->
     (@fwd_row R Rex xc yc (1 :: repeat 0 n) (ih mat) a b,
      @fwd_col R Rex xc yc (1 :: repeat 0 n) (iw mat) a b) = (a, b)).
  { intros a b Hab. rewrite fwd_R by assumption. rewrite radial_identity.
    unfold zpt, py, pxc. cbn [fst snd]. destruct Hab as [Ha Hb].
    rewrite !clamp_id by (split; apply IZR_le; lia). now rewrite !(Zrnd_IZR ZnearestE). }
  destruct (H i j) as [[_ Hno]|[a [b [Hab [Htab [Hv _]]]]]].
  - exfalso. apply (Hno i j); [split; assumption|]. apply Ht. split; assumption.
  - unfold Rex in Ht. rewrite Ht in Htab by assumption. injection Htab as -> ->. exact Hv.
Qed.
