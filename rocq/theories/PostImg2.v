(** Proofs about slices, chunks and perspective correction of images. *)
From Coq Require Import Reals ZArith List Lra Lia Bool.
From Flocq Require Import Core.
From Verif Require Import Base Num Img Spec Post NumFacts PostLines PostLines2 PostImg.
Local Open Scope R_scope.

Lemma Zfloor_sub y a : Zfloor (y - IZR a) = (Zfloor y - a)%Z.
Proof.
  apply Zfloor_imp. pose proof (Zfloor_lb y). pose proof (Zfloor_ub y).
  rewrite plus_IZR, minus_IZR. lra.
Qed.

Lemma slice_bound_id n a : (0 <= a <= n)%Z -> slice_bound n a = a.
Proof. intros H. unfold slice_bound. destruct (Z.ltb_spec a 0); lia. Qed.

Lemma row_slice_ih {T} (m : image T) a b : (0 <= a <= b)%Z -> (b <= ih m)%Z ->
  ih (row_slice m a b) = (b - a)%Z.
Proof.
  intros H1 H2. unfold row_slice. cbn [ih]. rewrite !slice_bound_id by lia. lia.
Qed.

(** Interpolating in the cropped rows is interpolating in the whole image. *)
Lemma bilinear_crop (m : image R) a b y x :
  (0 <= a < b)%Z -> (b <= ih m)%Z -> IZR a <= y <= IZR (b - 1) ->
  @bilinear R Rex (row_slice m a b) (y - IZR a) x = @bilinear R Rex m y x.
Proof.
  intros Hab Hb [Hy1 Hy2].
  assert (Ei : ih (row_slice m a b) = (b - a)%Z) by (apply row_slice_ih; lia).
  assert (Ew : iw (row_slice m a b) = iw m) by reflexivity.
  assert (Epx : forall i j, px (row_slice m a b) i j = px m (a + i) j).
  { intros i j. unfold row_slice. cbn [px]. now rewrite slice_bound_id by lia. }
  unfold bilinear. rewrite Ei, Ew, !Epx. unnum. rewrite Zfloor_sub.
  set (i := Zfloor y).
  assert (Hi : IZR i <= y < IZR i + 1).
  { unfold i. split; [apply Zfloor_lb|apply Zfloor_ub]. }
  assert (Hia : (a <= i)%Z) by (unfold i; apply Zfloor_lub; lra).
  assert (Hib : (i <= b - 1)%Z) by (apply le_IZR; lra).
  rewrite (reflect_id (b - a) (i - a)) by lia. rewrite (reflect_id (ih m) i) by lia.
  replace (a + (i - a))%Z with i by lia.
  replace (y - IZR a - IZR (i - a)) with (y - IZR i) by (rewrite minus_IZR; ring).
  destruct (Z.eq_dec i (b - 1)) as [E|NE].
  - assert (y = IZR i) by (rewrite E in *; lra). rewrite H. 
    replace (IZR i - IZR i) with 0 by ring. ring.
  - rewrite (reflect_id (b - a) (i - a + 1)) by lia. rewrite (reflect_id (ih m) (i + 1)) by lia.
    replace (a + (i - a + 1))%Z with (i + 1)%Z by lia. reflexivity.
Qed.

(** The clipped row position is fixed by the rounding function. *)
Lemma clip_fixed rnd v n : exact_or_double rnd -> (0 <= n <= 2 ^ 53)%Z ->
  rnd (clamp (rnd v) 0 (IZR n)) = clamp (rnd v) 0 (IZR n).
Proof.
  intros [H|H] Hn; rewrite !H; [reflexivity|].
  unfold clamp, Rmin, Rmax. destruct (Rle_dec (f64 v) (IZR n)).
  - destruct (Rle_dec 0 (f64 v)); [apply f64_idem|apply (f64_int 0); lia].
  - destruct (Rle_dec 0 (IZR n)); [apply f64_int; lia|apply (f64_int 0); lia].
Qed.

Lemma rnd_sub_int rnd y k : exact_or_double rnd -> rnd y = y -> 0 <= IZR k <= y -> y < 16777216 ->
  rnd (y - IZR k) = y - IZR k.
Proof.
  intros [H|H] Hy Hk Hl; rewrite H in *; [reflexivity|]. now apply f64_sub_int.
Qed.

Lemma map_y_shape rnd xc yc fact i j : exists v, @map_y R (Rnum rnd) xc yc fact i j = rnd v.
Proof. unfold map_y. cbn [nadd Rnum]. eexists. reflexivity. Qed.

Lemma nonempty_namin rnd l : l <> [] -> exists m, @namin R (Rnum rnd) l = Ok m.
Proof. destruct l; [congruence|]. intros _. eexists. reflexivity. Qed.
Lemma nonempty_namax rnd l : l <> [] -> exists m, @namax R (Rnum rnd) l = Ok m.
Proof. destruct l; [congruence|]. intros _. eexists. reflexivity. Qed.
Lemma zrange_nonempty w : (0 < w)%Z -> zrange 0 w <> [].
Proof.
  intros H E. assert (In 0%Z (zrange 0 w)) by (apply in_zrange; lia). now rewrite E in H0.
Qed.
Lemma map_nonempty {A B} (f : A -> B) l : l <> [] -> map f l <> [].
Proof. destruct l; [congruence|discriminate]. Qed.

(** ** C08 *)
Lemma slice_backward_gen rnd v xc yc fact index : exact_or_double rnd ->
  (0 < vh v <= 32767)%Z -> (0 < vw v)%Z -> (0 <= vd v)%Z ->
  let Y j := clamp (@map_y R (Rnum rnd) xc yc fact index j) 0 (IZR (vh v - 1)) in
  let X j := clamp (@map_x R (Rnum rnd) xc yc fact index j) 0 (IZR (vw v - 1)) in
  exists out, @unwarp_slice_backward R (Rnum rnd) (@bilinear R Rex) v xc yc fact index = Ok out /\
    ih out = vd v /\ iw out = vw v /\
    forall i j, (0 <= i < vd v)%Z -> (0 <= j < vw v)%Z ->
      px out i j = f32 (lin_sample (vplane v i) (Y j) (X j)).
Proof.
  intros Hr Hh Hw Hd. cbn zeta. unfold unwarp_slice_backward.
  assert (Hph : 0 <= IZR (vh v - 1)) by (apply IZR_pred_pos; lia).
  assert (Hpw : 0 <= IZR (vw v - 1)) by (apply IZR_pred_pos; lia).
  set (Y := fun j => clamp (@map_y R (Rnum rnd) xc yc fact index j) 0 (IZR (vh v - 1))).
  assert (EY : forall j, @nclip R (Rnum rnd) (@map_y R (Rnum rnd) xc yc fact index j)
            (@nofZ R (Rnum rnd) 0) (@nofZ R (Rnum rnd) (vh v - 1)) = Y j)
    by (intros j; apply nclip_R; exact Hph).
  assert (EX : forall j, @nclip R (Rnum rnd) (@map_x R (Rnum rnd) xc yc fact index j)
            (@nofZ R (Rnum rnd) 0) (@nofZ R (Rnum rnd) (vw v - 1)) =
            clamp (@map_x R (Rnum rnd) xc yc fact index j) 0 (IZR (vw v - 1)))
    by (intros j; apply nclip_R; exact Hpw).
  rewrite (map_ext _ Y EY).
  assert (Hne : map Y (zrange 0 (vw v)) <> []) by (apply map_nonempty, zrange_nonempty; lia).
  destruct (nonempty_namin rnd _ Hne) as [mn Emn]. destruct (nonempty_namax rnd _ Hne) as [mx Emx].
  rewrite Emn, Emx. cbn [bind].
  apply namin_spec in Emn. apply namax_spec in Emx.
  destruct Emn as [Hin1 Hmn]. destruct Emx as [Hin2 Hmx].
  assert (HYr : forall j, 0 <= Y j <= IZR (vh v - 1)) by (intros; now apply clamp_range).
  assert (Hmnr : 0 <= mn <= IZR (vh v - 1)).
  { apply in_map_iff in Hin1. destruct Hin1 as [j [<- _]]. apply HYr. }
  assert (Hmxr : 0 <= mx <= IZR (vh v - 1)).
  { apply in_map_iff in Hin2. destruct Hin2 as [j [<- _]]. apply HYr. }
  cbn [nfloor nceil Rnum].
  assert (Hfl : (0 <= Zfloor mn)%Z) by (apply Zfloor_lub; lra).
  assert (Hce : (Zceil mx <= vh v - 1)%Z) by (apply Zceil_glb; lra).
  assert (Hle : mn <= mx).
  { apply Rle_trans with (Y 0%Z); [apply Hmn|apply Hmx]; apply in_map, in_zrange; lia. }
  assert (Hfc : (Zfloor mn <= Zceil mx)%Z).
  { apply le_IZR. pose proof (Zfloor_lb mn). pose proof (Zceil_ub mx). lra. }
  rewrite !wrap16_id by lia.
  replace (ih (row_slice (vplane v 0) (Zfloor mn) (Zceil mx + 1)) <=? 0)%Z with false.
  2:{ symmetry. apply Z.leb_gt. rewrite row_slice_ih; cbn [ih vplane]; lia. }
  rewrite andb_false_r.
  eexists. split; [reflexivity|]. cbn [ih iw px]. split; [reflexivity|split; [reflexivity|]].
  intros i j Hi Hj.
  rewrite (EX j), (EY j). cbn [nf32 nsub nofZ Rnum]. f_equal.
  assert (HYj : IZR (Zfloor mn) <= Y j <= IZR (Zceil mx + 1 - 1)).
  { assert (mn <= Y j <= mx).
    { split; [apply Hmn|apply Hmx]; apply in_map, in_zrange; lia. }
    replace (Zceil mx + 1 - 1)%Z with (Zceil mx) by lia.
    pose proof (Zfloor_lb mn). pose proof (Zceil_ub mx). lra. }
  assert (HYfix : rnd (Y j) = Y j).
  { unfold Y. destruct (map_y_shape rnd xc yc fact index j) as [u ->].
    apply clip_fixed; [assumption|lia]. }
  rewrite (rnd_sub_int rnd (Y j)); try assumption.
  - rewrite bilinear_crop; [|lia|cbn [ih vplane]; lia|assumption].
    apply bilinear_lin_sample; cbn [ih iw vplane]; [apply HYr|now apply clamp_range].
  - split; [apply IZR_le; lia|lra].
  - apply Rle_lt_trans with (IZR (vh v - 1)); [apply HYr|].
    apply IZR_lt. lia.
Qed.

Lemma slice_backward_exact v xc yc fact index :
  (0 < vh v <= 32767)%Z -> (0 < vw v)%Z -> (0 <= vd v)%Z ->
  let P j := radial_map fact (yc, xc) (zpt index j) in
  exists out, @unwarp_slice_backward R Rex (@bilinear R Rex) v xc yc fact index = Ok out /\
    ih out = vd v /\ iw out = vw v /\
    forall i j, (0 <= i < vd v)%Z -> (0 <= j < vw v)%Z ->
      px out i j = f32 (lin_sample (vplane v i) (clamp (py (P j)) 0 (IZR (vh v - 1)))
                                   (clamp (pxc (P j)) 0 (IZR (vw v - 1)))).
Proof.
  intros Hh Hw Hd. cbn zeta.
  destruct (slice_backward_gen (fun x => x) v xc yc fact index (or_introl (fun x => eq_refl)) Hh Hw Hd)
    as [out [E [Eh [Ew H]]]].
  exists out. split; [exact E|]. split; [exact Eh|]. split; [exact Ew|].
  intros i j Hi Hj. rewrite (H i j Hi Hj).
  now rewrite <- (map_y_R xc yc fact index j), <- (map_x_R xc yc fact index j).
Qed.

(** ** C10 *)
Lemma chunk_value_error rnd interp a xc yc fact start stop :
  (forall v, a = inr v -> (0 < vw v)%Z) ->
  (@unwarp_chunk_entry R (Rnum rnd) interp a xc yc fact start stop = Err ValueError <->
   a = inl tt \/ exists v, a = inr v /\
     (~ (0 <= start <= vh v - 1)%Z \/ ~ (0 <= stop <= vh v - 1)%Z)).
Proof.
  intros Hw. destruct a as [[]|v]; cbn [unwarp_chunk_entry].
  - split; auto.
  - specialize (Hw v eq_refl). unfold unwarp_chunk_slices_backward.
    set (st := if (stop =? -1)%Z then vh v else stop).
    assert (Hst : (negb ((0 <=? start)%Z && (start <? vh v)%Z) || negb ((0 <=? st)%Z && (st <? vh v)%Z) = true) <->
        (~ (0 <= start <= vh v - 1)%Z \/ ~ (0 <= stop <= vh v - 1)%Z)).
    { unfold st. destruct (Z.eqb_spec stop (-1)) as [->|NE]; lia. }
    destruct (negb _ || negb _) eqn:E.
    + split; [intros _|auto]. right. exists v. split; [reflexivity|]. now apply Hst.
    + assert (Hno : ~ (~ (0 <= start <= vh v - 1)%Z \/ ~ (0 <= stop <= vh v - 1)%Z))
        by (rewrite <- Hst; discriminate).
      split.
      * match goal with |- context [namin ?l] =>
          destruct (nonempty_namin rnd l) as [mn Emn];
            [apply map_nonempty, zrange_nonempty; lia|] end.
        match goal with |- context [namax ?l] =>
          destruct (nonempty_namax rnd l) as [mx Emx];
            [apply map_nonempty, zrange_nonempty; lia|] end.
        rewrite Emn, Emx. cbn [bind]. destruct (_ && _ && _); discriminate.
      * intros [H|[v' [[= <-] H]]]; [discriminate|contradiction].
Qed.

(** ** C09 *)
Lemma chunk_rows rnd v xc yc fact start stop : exact_or_double rnd ->
  (vh v <= 32767)%Z -> (0 < vw v <= 2 ^ 24 + 1)%Z -> (0 <= vd v)%Z ->
  (0 <= start <= stop)%Z -> (stop < vh v)%Z ->
  (forall k j, (start <= k <= stop)%Z -> (0 <= j < vw v)%Z ->
     @map_y R (Rnum rnd) xc yc fact start j <= @map_y R (Rnum rnd) xc yc fact k j
       <= @map_y R (Rnum rnd) xc yc fact stop j) ->
  exists out, @unwarp_chunk_slices_backward R (Rnum rnd) (@bilinear R Rex) v xc yc fact start stop = Ok out /\
    vd out = vd v /\ vh out = (stop - start + 1)%Z /\ vw out = vw v /\
    forall i k j, (0 <= i < vd v)%Z -> (0 <= k <= stop - start)%Z -> (0 <= j < vw v)%Z ->
      vx out i k j =
      px (@unwarp_image_backward R (Rnum rnd) (@bilinear R Rex) (vplane v i) xc yc fact) (start + k) j.
Proof.
  intros Hr Hh Hw Hd Hss Hst Hmono. unfold unwarp_chunk_slices_backward.
  assert (Hph : 0 <= IZR (vh v - 1)) by (apply IZR_pred_pos; lia).
  set (Y := fun k j => clamp (@map_y R (Rnum rnd) xc yc fact k j) 0 (IZR (vh v - 1))).
  assert (EY : forall k j, @nclip R (Rnum rnd) (@map_y R (Rnum rnd) xc yc fact k j)
            (@nofZ R (Rnum rnd) 0) (@nofZ R (Rnum rnd) (vh v - 1)) = Y k j)
    by (intros k j; apply nclip_R; exact Hph).
  destruct (Z.eqb_spec stop (-1)) as [E|_]; [lia|].
  replace (negb ((0 <=? start)%Z && (start <? vh v)%Z) || negb ((0 <=? stop)%Z && (stop <? vh v)%Z))
    with false by (symmetry; lia).
  rewrite (map_ext _ (Y start) (EY start)), (map_ext _ (Y stop) (EY stop)).
  destruct (nonempty_namin rnd (map (Y start) (zrange 0 (vw v)))) as [mn Emn];
    [apply map_nonempty, zrange_nonempty; lia|].
  destruct (nonempty_namax rnd (map (Y stop) (zrange 0 (vw v)))) as [mx Emx];
    [apply map_nonempty, zrange_nonempty; lia|].
  rewrite Emn, Emx. cbn [bind].
  apply namin_spec in Emn. apply namax_spec in Emx.
  destruct Emn as [Hin1 Hmn]. destruct Emx as [Hin2 Hmx].
  assert (HYr : forall k j, 0 <= Y k j <= IZR (vh v - 1)) by (intros; now apply clamp_range).
  assert (Hmnr : 0 <= mn <= IZR (vh v - 1)).
  { apply in_map_iff in Hin1. destruct Hin1 as [j [<- _]]. apply HYr. }
  assert (Hmxr : 0 <= mx <= IZR (vh v - 1)).
  { apply in_map_iff in Hin2. destruct Hin2 as [j [<- _]]. apply HYr. }
  cbn [nfloor nceil Rnum].
  assert (Hfl : (0 <= Zfloor mn)%Z) by (apply Zfloor_lub; lra).
  assert (Hce : (Zceil mx <= vh v - 1)%Z) by (apply Zceil_glb; lra).
  assert (HYb : forall k j, (start <= k <= stop)%Z -> (0 <= j < vw v)%Z -> mn <= Y k j <= mx).
  { intros k j Hk Hj. destruct (Hmono k j Hk Hj) as [M1 M2]. split.
    - apply Rle_trans with (Y start j); [apply Hmn, in_map, in_zrange; lia|].
      unfold Y. now apply clamp_mono.
    - apply Rle_trans with (Y stop j); [unfold Y; now apply clamp_mono|].
      apply Hmx, in_map, in_zrange; lia. }
  assert (Hle : mn <= mx).
  { destruct (HYb start 0%Z ltac:(lia) ltac:(lia)). lra. }
  assert (Hfc : (Zfloor mn <= Zceil mx)%Z).
  { apply le_IZR. pose proof (Zfloor_lb mn). pose proof (Zceil_ub mx). lra. }
  rewrite !wrap16_id by lia.
  replace (ih (row_slice (vplane v 0) (Zfloor mn) (Zceil mx + 1)) <=? 0)%Z with false.
  2:{ symmetry. apply Z.leb_gt. rewrite row_slice_ih; cbn [ih vplane]; lia. }
  rewrite andb_false_r.
  eexists. split; [reflexivity|]. cbn [vd vh vw vx].
  split; [reflexivity|split; [lia|split; [reflexivity|]]].
  intros i k j Hi Hk Hj.
  assert (EC : @coord_y R (Rnum rnd) xc yc fact (vh v) (start + k) j = f32 (Y (start + k)%Z j)).
  { unfold coord_y. now rewrite EY. }
  unfold unwarp_image_backward. cbn [px ih iw vplane]. rewrite EC.
  destruct (HYb (start + k)%Z j ltac:(lia) ltac:(lia)) as [Hb1 Hb2].
  set (y := Y (start + k)%Z j) in *.
  assert (Hfy : IZR (Zfloor mn) <= f32 y <= IZR (Zceil mx + 1 - 1)).
  { replace (Zceil mx + 1 - 1)%Z with (Zceil mx) by lia. split.
    - rewrite <- (f32_int (Zfloor mn)) by lia. apply f32_mono.
      pose proof (Zfloor_lb mn). lra.
    - rewrite <- (f32_int (Zceil mx)) by lia. apply f32_mono.
      pose proof (Zceil_ub mx). lra. }
  assert (Hsub : @nf32 R (Rnum rnd) (@nsub R (Rnum rnd) (f32 y) (@nofZ R (Rnum rnd) (Zfloor mn)))
               = f32 y - IZR (Zfloor mn)).
  { cbn [nf32 nsub nofZ Rnum].
    assert (Hlt : f32 y < 16777216).
    { apply Rle_lt_trans with (IZR (Zceil mx + 1 - 1)); [lra|]. apply IZR_lt. lia. }
    assert (H0 : 0 <= IZR (Zfloor mn)) by (apply IZR_le; lia).
    assert (Hs : f32 (f32 y - IZR (Zfloor mn)) = f32 y - IZR (Zfloor mn)).
    { apply f32_sub_int; [apply f32_idem|lra|assumption]. }
    assert (Hrs : rnd (f32 y - IZR (Zfloor mn)) = f32 y - IZR (Zfloor mn)).
    { destruct Hr as [Hr|Hr]; rewrite Hr; [reflexivity|]. now apply f64_of_f32. }
    now rewrite Hrs. }
  rewrite Hsub. apply bilinear_crop; [lia|cbn [ih vplane]; lia|assumption].
Qed.

(** Without monotonicity the chunk can differ from the unwarped projection. *)
Definition nonmono_vol : volume R := mkvol 1 5 1 (fun _ r _ => IZR r).

Lemma sqrt_sum_0_sq a : sqrt (0 ^ 2 + a ^ 2) = Rabs a.
Proof. replace (0 ^ 2 + a ^ 2) with (Rsqr a) by (unfold Rsqr; ring). apply sqrt_Rsqr_abs. Qed.

Lemma nonmono_map_y k : @map_y R Rex 0 2 [4; -2] k 0 =
  2 + (4 - 2 * Rabs (IZR k - 2)) * (IZR k - 2).
Proof.
  unfold map_y. rewrite radial_R. unnum. replace (IZR 0 - 0) with 0 by (cbn; ring).
  rewrite sqrt_sum_0_sq. cbn [poly]. ring.
Qed.

Lemma chunk_nonmonotone :
  exists out, @unwarp_chunk_slices_backward R Rex (@bilinear R Rex) nonmono_vol 0 2 [4; -2] 0 4 = Ok out
    /\ vx out 0 1 0 <> px (@unwarp_image_backward R Rex (@bilinear R Rex)
                            (vplane nonmono_vol 0) 0 2 [4; -2]) 1 0.
Proof.
  assert (E0 : @map_y R Rex 0 2 [4; -2] 0 0 = 2).
  { rewrite nonmono_map_y. rewrite Rabs_left by lra. lra. }
  assert (E1 : @map_y R Rex 0 2 [4; -2] 1 0 = 0).
  { rewrite nonmono_map_y. rewrite Rabs_left by lra. lra. }
  assert (E4 : @map_y R Rex 0 2 [4; -2] 4 0 = 2).
  { rewrite nonmono_map_y. rewrite Rabs_right by lra. lra. }
  assert (Hc : forall v, 0 <= v <= 4 -> @nclip R Rex v (@nofZ R Rex 0) (@nofZ R Rex (5 - 1)) = v).
  { intros v Hv. unfold Rex. cbn [nofZ Rnum Z.sub Z.add Z.opp Z.pos_sub].
    rewrite nclip_R by (cbn; lra). apply clamp_id. cbn. lra. }
  unfold unwarp_chunk_slices_backward. cbn [vd vh vw nonmono_vol].
  change (4 =? -1)%Z with false. cbn iota.
  change (negb ((0 <=? 0)%Z && (0 <? 5)%Z) || negb ((0 <=? 4)%Z && (4 <? 5)%Z)) with false. cbn iota.
  change (zrange 0 1) with [0%Z]. cbn [map namin namax fold_left bind].
  rewrite E0, E4, (Hc 2) by lra. cbn [nfloor nceil Rex Rnum].
  rewrite (Zfloor_IZR 2), (Zceil_IZR 2).
  change (wrap16 2) with 2%Z.
  change ((0 <? 1)%Z && (0 <? Z.max 0 (4 + 1 - 0))%Z &&
    (ih (row_slice (vplane nonmono_vol 0) 2 (2 + 1)) <=? 0)%Z) with false. cbn iota.
  eexists. split; [reflexivity|]. cbn [vx].
  assert (Ey : @coord_y R Rex 0 2 [4; -2] 5 1 0 = 0).
  { unfold coord_y. rewrite E1, Hc by lra. cbn [nf32 Rex Rnum]. apply (f32_int 0). lia. }
  change (0 + 1)%Z with 1%Z. rewrite Ey.
  assert (Ex : @coord_x R Rex 0 2 [4; -2] 1 1 0 = 0).
  { pose proof (coord_x_range (fun x => x) 0 2 [4; -2] 1 1 0 ltac:(lia)) as H.
    cbn in H. unfold Rex. cbn. lra. }
  rewrite Ex. unfold unwarp_image_backward. cbn [px ih iw vplane vh vw nonmono_vol].
  rewrite Ey, Ex.
  (* full image: row 0; cropped: row 2 *)
  rewrite (bilinear_int (vplane nonmono_vol 0) 0 0) by (split; cbn; lia).
  cbn [nf32 nsub nofZ Rex Rnum].
  replace (0 - 2) with (IZR (-2)) by (cbn; lra). rewrite f32_int by lia.
  unfold bilinear. unnum. rewrite (Zfloor_IZR (-2)), (Zfloor_IZR 0).
  cbn [ih iw row_slice vplane vh vw nonmono_vol px vx slice_bound].
  change (reflect (Z.max 0 (slice_bound 5 (2 + 1) - slice_bound 5 2)) (-2)) with 0%Z.
  change (slice_bound 5 2 + 0)%Z with 2%Z. cbn. lra.
Qed.

(** ** C11 *)
Definition tall_vol : volume R := mkvol 1 50000 1 (fun _ r _ => IZR r).

Lemma slice_tall_wrong :
  exists out, @unwarp_slice_backward R Rex (@bilinear R Rex) tall_vol 0 0 [1] 40000 = Ok out /\
    px out 0 0 = vx tall_vol 0 24464 0 /\ px out 0 0 <> vx tall_vol 0 40000 0.
Proof.
  assert (Ey : @map_y R Rex 0 0 [1] 40000 0 = 40000).
  { rewrite map_y_R. change [1] with (1 :: repeat 0 0). now rewrite radial_identity. }
  assert (Ex : @map_x R Rex 0 0 [1] 40000 0 = 0).
  { rewrite map_x_R. change [1] with (1 :: repeat 0 0). now rewrite radial_identity. }
  unfold unwarp_slice_backward. cbn [vd vh vw tall_vol].
  change (zrange 0 1) with [0%Z]. cbn [map namin namax fold_left bind].
  rewrite Ey.
  assert (Hc : @nclip R Rex 40000 (@nofZ R Rex 0) (@nofZ R Rex (50000 - 1)) = 40000).
  { unfold Rex. change (@nofZ R (Rnum (fun x => x)) 0) with 0.
    change (@nofZ R (Rnum (fun x => x)) (50000 - 1)) with 49999.
    rewrite nclip_R by lra. apply clamp_id. lra. }
  rewrite Hc. cbn [nfloor nceil Rex Rnum].
  rewrite (Zfloor_IZR 40000), (Zceil_IZR 40000).
  change (wrap16 40000) with (-25536)%Z.
  change ((0 <? 1)%Z && (ih (row_slice (vplane tall_vol 0) (-25536) (-25536 + 1)) <=? 0)%Z) with false.
  cbn iota. eexists. split; [reflexivity|].
  assert (Hv : px (mkimg 1 1 (fun i j : Z => f32 (@bilinear R Rex
     (row_slice (vplane tall_vol i) (-25536) (-25536 + 1))
     (@nclip R Rex (@map_y R Rex 0 0 [1] 40000 j) (@nofZ R Rex 0) (@nofZ R Rex (50000 - 1)) - IZR (-25536))
     (@nclip R Rex (@map_x R Rex 0 0 [1] 40000 j) (@nofZ R Rex 0) (@nofZ R Rex (1 - 1)))))) 0 0 = 24464).
  { cbn [px]. rewrite Ey, Hc, Ex.
    assert (Hx0 : @nclip R Rex 0 (@nofZ R Rex 0) (@nofZ R Rex (1 - 1)) = 0).
    { unfold Rex. change (@nofZ R (Rnum (fun x => x)) 0) with 0.
      change (@nofZ R (Rnum (fun x => x)) (1 - 1)) with 0.
      rewrite nclip_R by lra. apply clamp_id. lra. }
    rewrite Hx0. replace (40000 - IZR (-25536)) with (IZR 65536) by lra.
    unfold bilinear. unnum. rewrite (Zfloor_IZR 65536), (Zfloor_IZR 0).
    cbn [ih iw row_slice vplane vh vw tall_vol px vx].
    change (slice_bound 50000 (-25536)) with 24464%Z.
    change (slice_bound 50000 (-25536 + 1)) with 24465%Z.
    change (reflect (Z.max 0 (24465 - 24464)) 65536) with 0%Z.
    change (24464 + 0)%Z with 24464%Z.
    replace (65536 - 65536) with 0 by ring. replace (0 - 0) with 0 by ring.
    match goal with |- f32 ?e = _ => replace e with (IZR 24464) by ring end.
    apply f32_int. lia. }
  split.
  - etransitivity; [exact Hv|]. reflexivity.
  - intros E. assert (24464 = 40000); [|lra]. rewrite <- Hv. exact E.
Qed.
