(** Theorems C94: transposing the image exchanges horizontal and vertical. *)
From Coq Require Import Reals ZArith List Lra Lia Psatz Sorted Permutation.
From Flocq Require Import Core.
From Verif Require Import Base Num NumFacts Sorting Img Spec Lsq ProcSpec Post PostImg PrepImg PrepImgFacts2 PrepFacts4 Props_Prep Proc ProcFacts2 ProcFacts5 Line LineFacts LineFacts2 LineFacts3 LineFacts4 LineFacts5 Props_Line Props_Line2 Props_Line3 Props_Line4 LineSpec ProfSpec.
Import ListNotations.
Local Open Scope R_scope.
Local Existing Instance Rex.

(** *** C94 *)
(** Rows and columns exchanged. *)
Definition transpose {T} (m : image T) : image T := mkimg (iw m) (ih m) (fun i j => px m j i).
Definition swap {A B} (p : A * B) : B * A := (snd p, fst p).
Definition swap_profile {T} (r : res (list T * list T * list T)) : res (list T * list T * list T) :=
  match r with Ok (xs, ys, prof) => Ok (ys, xs, prof) | Err e => Err e end.
Definition swap_points {T} (r : res (list (T * T))) : res (list (T * T)) :=
  match r with Ok ps => Ok (map swap ps) | Err e => Err e end.
(** Image filters and an interpolation that treat rows and columns alike. *)
Definition alike (f : image R -> image R) : Prop := forall m m', (1 <= ih m)%Z -> (1 <= iw m)%Z -> img_eq m' (transpose m) -> img_eq (f m') (transpose (f m)).
Definition spline_alike (spline : image R -> list (R * R) -> list R) : Prop :=
  forall m m' ps, img_eq m' (transpose m) -> spline m' (map swap ps) = spline m ps.

Lemma radians_opp d : radians (- d) = - radians d. Proof. unfold radians. lra. Qed.
Lemma hor_index_dec h w a i : hor_index_ok h w a i \/ ~ hor_index_ok h w a i.
Proof. unfold hor_index_ok. destruct (Rlt_dec 0 a); match goal with |- (?x <= ?y <= ?z) \/ _ => destruct (Rle_dec x y), (Rle_dec y z); lra end. Qed.
Lemma ver_index_dec h w a i : ver_index_ok h w a i \/ ~ ver_index_ok h w a i.
Proof. unfold ver_index_ok. destruct (Rlt_dec 0 a); match goal with |- (?x <= ?y <= ?z) \/ _ => destruct (Rle_dec x y), (Rle_dec y z); lra end. Qed.
Lemma slice_tr (mat mat' : image R) lo hi : img_eq mat' (transpose mat) -> (0 <= ih mat)%Z -> (0 <= iw mat)%Z ->
  img_eq (slice2 mat' 0 (ih mat') lo hi) (transpose (row_slice mat lo hi)).
Proof.
  intros (E1 & E2 & E3) Hh Hw. cbn [transpose ih iw] in E1, E2.
  assert (S0 : slice_bound (ih mat') 0 = 0%Z) by (unfold slice_bound; cbn [Z.ltb Z.compare]; lia).
  assert (S1 : slice_bound (ih mat') (ih mat') = ih mat') by (unfold slice_bound; destruct (Z.ltb_spec (ih mat') 0); lia).
  unfold slice2, row_slice, transpose. rewrite S0, S1. cbn [ih iw px]. rewrite E2. split; [cbn [ih]; lia|]. split; [reflexivity|].
  intros i j [Hi Hj]. cbn [ih iw px] in *.
  assert (X : forall v, (0 <= slice_bound (ih mat) v <= ih mat)%Z) by (intros v; unfold slice_bound; destruct (Z.ltb_spec v 0); lia).
  pose proof (X lo) as X1. pose proof (X hi) as X2. rewrite E3; [reflexivity|]. unfold in_img. lia.
Qed.
Lemma combine_swap {A B} (l : list A) (k : list B) : map swap (combine l k) = combine k l.
Proof. revert k. induction l as [|x l IH]; intros [|y k]; cbn; [reflexivity..|]. now rewrite IH. Qed.

(** The profile along a tilted row is the profile of the transposed image
    along the column tilted the other way. *)
Theorem C94_profile : forall spline mat mat' index deg, spline_alike spline -> img_eq mat' (transpose mat) ->
  (1 <= ih mat)%Z -> (1 <= iw mat)%Z -> Rabs deg < 90 ->
  hor_index_ok (ih mat) (iw mat) (radians deg) index -> ver_index_ok (ih mat') (iw mat') (radians (- deg)) index ->
  tilted_profile spline mat' index (- deg) false = swap_profile (tilted_profile spline mat index deg true).
Proof.
  intros spline mat mat' index deg SA TR Hh Hw Hd H1 H2. pose proof TR as (E1 & E2 & E3). cbn [transpose ih iw] in E1, E2.
  rewrite hor_ok by assumption. rewrite ver_ok by (try assumption; try lia; rewrite Rabs_Ropp; assumption). cbn zeta. rewrite radians_opp, E1, E2.
  assert (A : forall k, along (iw mat) (- radians deg) k = along (iw mat) (radians deg) k) by (intros k; unfold along; now rewrite cos_neg).
  set (ys := map (fun k => clamp (hor_y index (radians deg) (along (iw mat) (radians deg) k)) 0 (IZR (ih mat - 1))) (zrange 0 (iw mat))).
  set (xs := map (fun k => clamp (hor_x (radians deg) (along (iw mat) (radians deg) k)) 0 (IZR (iw mat - 1))) (zrange 0 (iw mat))).
  replace (map (fun k => clamp (ver_x index (- radians deg) (along (iw mat) (- radians deg) k)) 0 (IZR (ih mat - 1))) (zrange 0 (iw mat))) with ys
    by (apply map_ext; intros k; rewrite A; unfold hor_y, ver_x; rewrite sin_neg; f_equal; ring).
  replace (map (fun k => clamp (ver_y (- radians deg) (along (iw mat) (- radians deg) k)) 0 (IZR (iw mat - 1))) (zrange 0 (iw mat))) with xs
    by (apply map_ext; intros k; rewrite A; unfold hor_x, ver_y; rewrite cos_neg; reflexivity).
  destruct (crop_range ys) as [[lo hi]|e]; [|reflexivity]. cbn [bind swap_profile]. do 2 f_equal.
  rewrite <- E1, <- (combine_swap (map _ ys) xs). apply SA. apply slice_tr; [assumption|lia|lia].
Qed.
(** Which lines are accepted: the upward tilted row is accepted less often than
    its mirror image, the others more often, and the two agree when the tilt
    over the whole width is a whole number of pixels. *)
Definition whole (x : R) : Prop := exists k, x = IZR k.
Theorem C94_accepted : forall (h w : Z) a index, (1 <= w)%Z -> - PI / 2 < a < PI / 2 ->
  (0 < a -> hor_index_ok h w a index -> ver_index_ok w h (- a) index) /\
  (a <= 0 -> ver_index_ok w h (- a) index -> hor_index_ok h w a index) /\
  (whole (IZR w * tan a) -> (hor_index_ok h w a index <-> ver_index_ok w h (- a) index)).
Proof.
  intros h w a index Hw Ha. assert (T : tan (- a) = - tan a) by apply tan_neg.
  assert (FC : forall x, (Zfloor x <= Zceil x)%Z) by (intros x; apply le_IZR; pose proof (Zfloor_lb x); pose proof (Zceil_ub x); lra).
  unfold hor_index_ok, ver_index_ok. rewrite Ropp_involutive. repeat split.
  - intros p. destruct (Rlt_dec 0 a); [|lra]. destruct (Rlt_dec 0 (- a)); [lra|]. pose proof (IZR_le _ _ (FC (IZR w * tan a))). lra.
  - intros p. destruct (Rlt_dec 0 a); [lra|]. destruct (Rlt_dec 0 (- a)).
    + pose proof (IZR_le _ _ (FC (IZR w * tan (- a)))). rewrite !minus_IZR in *. lra.
    + assert (a = 0) by lra. subst a. rewrite Ropp_0, tan_0, Rmult_0_r in *. rewrite Zfloor_IZR. intros H. rewrite Z.sub_0_r. exact H.
  - destruct H as [k Hk]. destruct (Rlt_dec 0 a), (Rlt_dec 0 (- a)); try lra; rewrite ?T in *; rewrite ?Ropp_mult_distr_r_reverse, ?Hk, <- ?opp_IZR, ?Zfloor_IZR, ?Zceil_IZR in *; try tauto.
    assert (a = 0) by lra. subst a. rewrite tan_0, Rmult_0_r in Hk. apply eq_IZR in Hk. subst k. rewrite Z.sub_0_r. tauto.
  - destruct H as [k Hk]. destruct (Rlt_dec 0 a), (Rlt_dec 0 (- a)); try lra; rewrite ?T in *; rewrite ?Ropp_mult_distr_r_reverse, ?Hk, <- ?opp_IZR, ?Zfloor_IZR, ?Zceil_IZR in *; try tauto.
    assert (a = 0) by lra. subst a. rewrite tan_0, Rmult_0_r in Hk. apply eq_IZR in Hk. subst k. rewrite Z.sub_0_r. tauto.
Qed.
Lemma namax_same (l l' : list R) : (forall v, In v l <-> In v l') -> namax l = namax l'.
Proof.
  intros H. destruct (namax l) as [x|e] eqn:E, (namax l') as [x'|e'] eqn:E'.
  - unfold Rex in E, E'. apply namax_spec in E, E'. destruct E as [I B], E' as [I' B']. f_equal. apply Rle_antisym; [apply B'|apply B]; now apply H.
  - destruct l' as [|y l']; [|discriminate]. destruct l as [|x0 l]; [discriminate|]. exfalso. apply (in_nil (a := x0)). apply H. now left.
  - destruct l as [|y l]; [|discriminate]. destruct l' as [|x0 l']; [discriminate|]. exfalso. apply (in_nil (a := x0)). apply H. now left.
  - destruct l as [|y l]; [|discriminate]. destruct l' as [|x0 l']; [congruence|discriminate].
Qed.
Lemma grid_nodup h w : NoDup (grid h w).
Proof.
  unfold grid. generalize (zrange_nodup 0 h). generalize (zrange 0 h) as l. induction l as [|i l IH]; intros H; cbn [flat_map]; [constructor|].
  inversion H as [|? ? H1 H2]; subst. 
  assert (X : NoDup (map (fun j => (i, j)) (zrange 0 w))) by (apply FinFun.Injective_map_NoDup; [intros a b E; now injection E|apply zrange_nodup]).
  specialize (IH H2). assert (Y : forall p, In p (map (fun j => (i, j)) (zrange 0 w)) -> ~ In p (flat_map (fun i => map (fun j => (i, j)) (zrange 0 w)) l)).
  { intros p Hp Hq. apply in_map_iff in Hp. destruct Hp as [j [<- _]]. apply in_flat_map in Hq. destruct Hq as [i' [Hi Hq]]. apply in_map_iff in Hq. destruct Hq as [j' [E _]]. injection E as -> ->. contradiction. }
  induction (map (fun j => (i, j)) (zrange 0 w)) as [|p k IHk]; cbn [app]; [assumption|]. inversion X; subst. constructor.
  - rewrite in_app_iff. intros [?|?]; [contradiction|]. apply (Y p); [now left|assumption].
  - apply IHk; [assumption|]. intros q Hq. apply Y. now right.
Qed.
Lemma pixels_tr (m m' : image R) : img_eq m' (transpose m) -> Permutation (pixels m) (pixels m').
Proof.
  intros (E1 & E2 & E3). cbn [transpose ih iw px] in E1, E2, E3. unfold pixels.
  replace (map (fun p => px m' (fst p) (snd p)) (grid (ih m') (iw m'))) with (map (fun p => px m (fst p) (snd p)) (map swap (grid (ih m') (iw m')))).
  2: { rewrite map_map. apply map_ext_in. intros [i j] H. apply in_grid in H. cbn [swap fst snd]. symmetry. apply E3. exact H. }
  rewrite E1, E2. apply Permutation_map. apply NoDup_Permutation.
  - apply grid_nodup.
  - apply FinFun.Injective_map_NoDup; [|apply grid_nodup]. intros [a b] [c d] H. injection H as -> ->. reflexivity.
  - intros [i j]. rewrite in_grid, in_map_iff. split.
    + intros H. exists (j, i). split; [reflexivity|]. apply in_grid. tauto.
    + intros [[a b] [H1 H2]]. injection H1 as <- <-. apply in_grid in H2. tauto.
Qed.
(** The image searched. *)
Definition tr_res (mat : image R) (r r' : res (image R)) : Prop :=
  match r, r' with Ok m, Ok m' => ih m = ih mat /\ iw m = iw mat /\ img_eq m' (transpose m) | Err e, Err e' => e = e' | _, _ => False end.
Lemma image_tr gaussian3 fft mat mat' norm bright denoise : alike gaussian3 -> same_shape gaussian3 ->
  alike (fun m => fft m 5 100%Z) -> same_shape (fun m => fft m 5 100%Z) -> (1 <= ih mat)%Z -> (1 <= iw mat)%Z ->
  img_eq mat' (transpose mat) -> tr_res mat (cross_image gaussian3 fft mat norm bright denoise) (cross_image gaussian3 fft mat' norm bright denoise).
Proof.
  intros G GS F FS Hh Hw TR. unfold cross_image.
  assert (X : tr_res mat (if bright then mx <- namax (pixels mat) ;; Ok (img_map (fun v => nsub mx v) mat) else Ok mat)
                     (if bright then mx <- namax (pixels mat') ;; Ok (img_map (fun v => nsub mx v) mat') else Ok mat')).
  { destruct bright; [|repeat split; apply TR]. rewrite <- (namax_same (pixels mat) (pixels mat')).
    2: { intros v. split; apply Permutation_in; [|apply Permutation_sym]; apply pixels_tr; assumption. }
    destruct (namax (pixels mat)) as [mx|e]; [|reflexivity]. cbn [bind tr_res].
    destruct TR as (E1 & E2 & E3). split; [reflexivity|]. split; [reflexivity|]. split; [exact E1|]. split; [exact E2|]. intros i j H. cbn [img_map transpose ih iw px] in *. f_equal. apply E3. exact H. }
  destruct (if bright then _ else _) as [m|e] in X |- *; destruct (if bright then _ else _) as [m'|e'] in X |- *; cbn [tr_res] in X; try contradiction; [|subst; reflexivity]. cbn [bind].
  destruct X as (X1 & X2 & X).
  assert (Y : tr_res mat (if norm then normalization_fft fft m (nofZ 5) 100 else Ok m) (if norm then normalization_fft fft m' (nofZ 5) 100 else Ok m')).
  { destruct norm; [|repeat split; try assumption; apply X]. pose proof (F m m' ltac:(lia) ltac:(lia) X) as Y. cbn beta in Y. unfold normalization_fft, normalize_by, arr_muldiv.
    cbn [tr_res]. change (@nofZ R Rex 5) with 5. rewrite (mean_perm _ _ (pixels_tr _ _ Y)). pose proof Y as (F1 & F2 & F3). pose proof X as (E1 & E2 & E3). cbn [transpose ih iw px] in *.
    split; [exact X1|]. split; [exact X2|]. split; [exact E1|]. split; [exact E2|]. intros i j H. cbn [px transpose]. destruct (FS m') as [S1 S2]. unfold in_img in *. cbn [ih iw] in H. rewrite E3, F3 by (rewrite ?S1, ?S2; assumption). reflexivity. }
  destruct (if norm then _ else _) as [n|e] in Y |- *; destruct (if norm then _ else _) as [n'|e'] in Y |- *; cbn [tr_res] in Y; try contradiction; [|subst; reflexivity]. cbn [bind tr_res].
  destruct Y as (Y1 & Y2 & Y). destruct denoise; [|repeat split; try assumption; apply Y]. destruct (GS n) as [S1 S2]. split; [lia|]. split; [lia|]. apply G; [lia|lia|exact Y].
Qed.
Lemma pyget_err {A} (l : list A) i e : pyget l i = Err e -> e = IndexError.
Proof. unfold pyget. repeat (match goal with |- context[if ?b then _ else _] => destruct b | |- context[match ?b with _ => _ end] => destruct b end); congruence. Qed.
Lemma points_tr polyfit exp_ cf gf argsort g3 xs ys prof n norm radius sens denoise sp cb sel :
  @profile_points R Rex polyfit exp_ cf gf argsort g3 ys xs prof n norm radius sens denoise sp cb sel =
  @profile_points R Rex polyfit exp_ cf gf argsort g3 xs ys prof n norm radius sens denoise sp cb sel.
Proof.
  unfold profile_points.
  destruct (pyget xs 0) as [x0|] eqn:A1; destruct (pyget ys 0) as [y0|] eqn:A3; destruct (pyget xs (-1)) as [x1|] eqn:A2; destruct (pyget ys (-1)) as [y1|] eqn:A4; cbn [bind];
    repeat match goal with H : pyget _ _ = Err _ |- _ => apply pyget_err in H; subst end; try reflexivity.
  assert (C : nadd (npow (nsub y1 y0) 2) (npow (nsub x1 x0) 2) = nadd (npow (nsub x1 x0) 2) (npow (nsub y1 y0) 2)) by apply Rplus_comm.
  cbn zeta. rewrite C. reflexivity.
Qed.
Lemma range_tr h w d : (1 <= w)%Z -> Rabs d < 90 -> whole (IZR w * tan (radians d)) -> calc_index_range tan PI h w (- d) true = calc_index_range tan PI w h d false.
Proof.
  intros Hw Hd [k Hk]. rewrite range_hor by (rewrite Rabs_Ropp; assumption). rewrite range_ver by assumption. rewrite radians_opp, Ropp_involutive, tan_neg.
  set (a := radians d) in *. destruct (Rlt_dec 0 a), (Rlt_dec 0 (- a)); try lra; rewrite ?Ropp_mult_distr_r_reverse, ?Hk, <- ?opp_IZR, ?Zfloor_IZR, ?Zceil_IZR; try reflexivity.
  assert (a = 0) by lra. rewrite H, tan_0, Rmult_0_r in Hk. apply eq_IZR in Hk. subst k. rewrite Z.sub_0_r. reflexivity.
Qed.
Lemma range_hor_in h w d m M : (1 <= h)%Z -> (1 <= w)%Z -> Rabs d < 90 -> calc_index_range tan PI h w d true = Ok (m, M) -> forall i, IZR m <= i <= IZR M -> hor_index_ok h w (radians d) i.
Proof.
  intros Hh Hw Hd. rewrite range_hor by assumption. unfold hor_index_ok. destruct (Rlt_dec 0 (radians d)); cbv iota beta; destruct (_ || _)%bool; intros H; try discriminate; apply Ok_inj in H; injection H as <- <-; auto.
Qed.
Lemma range_ver_in h w d m M : (1 <= h)%Z -> (1 <= w)%Z -> Rabs d < 90 -> calc_index_range tan PI h w d false = Ok (m, M) -> forall i, IZR m <= i <= IZR M -> ver_index_ok h w (radians d) i.
Proof.
  intros Hh Hw Hd. rewrite range_ver by assumption. unfold ver_index_ok. destruct (Rlt_dec 0 (radians d)); cbv iota beta; destruct (_ || _)%bool; intros H; try discriminate; apply Ok_inj in H; injection H as <- <-; auto.
Qed.
Lemma swap_concat {A B} (l : list (list (A * B))) : map swap (concat l) = concat (map (map swap) l).
Proof. apply concat_map. Qed.
Lemma mapM_swap {A} (f g : A -> res (list (R * R))) l : (forall x, In x l -> g x = swap_points (f x)) ->
  mapM g l = match mapM f l with Ok r => Ok (map (map swap) r) | Err e => Err e end.
Proof.
  induction l as [|x l IH]; intros H; cbn [mapM]; [reflexivity|]. rewrite H by now left. destruct (f x) as [y|e]; cbn [bind swap_points]; [|reflexivity].
  rewrite IH by (intros z Hz; apply H; now right). destruct (mapM f l); reflexivity.
Qed.
(** Cross points: horizontal lines of the transposed image are the vertical
    lines of the image, with the coordinates exchanged. *)
Theorem C94_cross_points : forall polyfit exp_ cf gf argsort g3 gaussian3 spline fft mat mat' slope dist ratio norm offset bright radius sens denoise sp cb sel,
  spline_alike spline -> alike gaussian3 -> same_shape gaussian3 ->
  alike (fun m => fft m 5 100%Z) -> same_shape (fun m => fft m 5 100%Z) ->
  img_eq mat' (transpose mat) -> (1 <= ih mat)%Z -> (1 <= iw mat)%Z -> 0 < ratio * dist ->
  whole (IZR (iw mat) * slope) -> (offset <= Z.min (ih mat) (iw mat) / 8)%Z ->
  hor_lines polyfit exp_ cf gf argsort g3 gaussian3 spline fft mat' slope dist ratio norm offset bright radius sens denoise sp cb sel =
  swap_points (ver_lines polyfit exp_ cf gf argsort g3 gaussian3 spline fft mat slope dist ratio norm offset bright radius sens denoise sp cb sel).
Proof.
  intros pf ex cf gf as_ g3 G3 spl fft mat mat' slope dist ratio norm offset br radius sens dn sp cb sel SA G GS F FS TR Hh Hw Hs Wh Ho.
  pose proof (image_tr G3 fft mat mat' norm br dn G GS F FS Hh Hw TR) as IT. pose proof TR as (E1 & E2 & _). cbn [transpose ih iw] in E1, E2.
  unfold get_cross_points_hor_lines, get_cross_points_ver_lines. cbn zeta.
  destruct (image_ok G3 fft mat norm br dn GS Hh Hw) as [img (Ei & Ih & Iw)]. rewrite Ei in *.
  destruct (cross_image G3 fft mat' norm br dn) as [img'|e]; [|contradiction]. cbn [tr_res] in IT. destruct IT as (_ & _ & IT). cbn [bind].
  destruct (deg_rad slope) as [D1 D2]. cbn zeta in D1, D2. set (d := rad2deg PI (atan slope)) in *.
  change (@nopp R Rex d) with (- d).
  rewrite E1, E2, <- (range_tr (ih mat) (iw mat) d Hw D2) by (rewrite D1, tan_atan; assumption).
  assert (D4 : Rabs (- d) < 90) by (rewrite Rabs_Ropp; assumption).
  destruct (calc_index_range tan PI (ih mat) (iw mat) (- d) true) as [[m M]|e] eqn:Er; [|reflexivity]. cbn [bind].
  assert (M3 : (Z.min (ih mat) (iw mat) / 8 <= Z.min (ih mat) (iw mat) / 3)%Z) by (apply Z.div_le_lower_bound; [lia|]; pose proof (Z.mul_div_le (Z.min (ih mat) (iw mat)) 8 ltac:(lia)); assert (0 <= Z.min (ih mat) (iw mat) / 8)%Z by (apply Z.div_pos; lia); lia).
  assert (O1 : (0 <= Z.min (ih mat) (iw mat) / 8)%Z) by (apply Z.div_pos; lia).
  rewrite (Z.min_comm (iw mat) (ih mat)). rewrite !Z.min_l by lia. set (off := Z.max offset 0). assert (O : (0 <= off)%Z) by (unfold off; lia).
  destruct (arange_R (IZR (m + off)) (IZR (M - off)) (ratio * dist) Hs) as [is_ [Ea Hi]].
  change (arange_chk (IZR (m + off)) (IZR (M - off)) (ratio * dist)) with (@arange_chk R Rex (nofZ (m + off)) (nofZ (M - off)) (nmul ratio dist)) in Ea. rewrite Ea. cbn [bind].
  match goal with |- context[swap_points (bind (mapM ?f is_) _)] => match goal with |- bind (mapM ?g is_) _ = _ => rewrite (mapM_swap f g is_) end end.
  - destruct (mapM _ is_) as [r|e]; cbn [bind swap_points]; [|reflexivity]. now rewrite swap_concat.
  - intros i Hin. apply Hi in Hin. destruct Hin as [k (Hk & Ek & Hl)].
    assert (B : IZR m <= i <= IZR M). { rewrite plus_IZR in Ek. rewrite minus_IZR in Hl. apply IZR_le in O, Hk. cbn in O, Hk. nra. }
    pose proof IT as (F1 & F2 & _). cbn [transpose ih iw] in F1, F2.
    assert (I1 : hor_index_ok (ih img) (iw img) (radians (- d)) i) by (rewrite Ih, Iw; eapply range_hor_in; eauto).
    assert (I2 : ver_index_ok (ih img') (iw img') (radians (- - d)) i).
    { rewrite F1, F2, Ih, Iw, Ropp_involutive. rewrite range_tr in Er by (try assumption; rewrite D1, tan_atan; assumption). eapply range_ver_in; eauto. }
    pose proof (C94_profile spl img img' i (- d) SA IT ltac:(lia) ltac:(lia) D4 I1 I2) as P. rewrite Ropp_involutive in P. rewrite P.
    destruct (tilted_profile spl img i (- d) true) as [[[xs ys] prof]|e]; cbn [bind swap_profile]; [|reflexivity].
    rewrite points_tr. destruct (profile_points _ _ _ _ _ _ xs ys prof _ _ _ _ _ _ _ _) as [rl|e]; cbn [bind]; [|reflexivity].
    destruct (pyget xs 0) as [x0|] eqn:A1; destruct (pyget ys 0) as [y0|] eqn:A2; cbn [bind]; repeat match goal with H : pyget _ _ = Err _ |- _ => apply pyget_err in H; subst end; try reflexivity.
    cbn [swap_points]. now rewrite combine_swap.
Qed.
(** When the tilt is not a whole number of pixels the symmetry fails: at slope
    1/2 in 3 columns, row 4 of 6 rows is the last accepted in one
    orientation, and column 4 is refused in the other. *)
Theorem C94_symmetry_refuted : exists deg, Rabs deg < 90 /\ forall spline f, spline_local spline ->
  let mat := mkimg 6 3 f in
  (exists p, tilted_profile spline mat 4 deg true = Ok p) /\ tilted_profile spline (transpose mat) 4 (- deg) false = Err ValueError.
Proof.
  destruct (deg_rad (1 / 2)) as [D1 D2]. cbn zeta in D1, D2. set (d := rad2deg PI (atan (1 / 2))) in *.
  exists (- d). assert (D4 : Rabs (- d) < 90) by (rewrite Rabs_Ropp; assumption). split; [assumption|]. intros spline f SL mat.
  assert (P : 0 < atan (1 / 2)) by (rewrite <- atan_0; apply atan_increasing; lra).
  assert (FL : Zfloor (3 * (1 / 2)) = 1%Z) by (apply Zfloor_imp; simpl; lra).
  assert (CL : Zceil (3 * (1 / 2)) = 2%Z) by (apply Zceil_imp; simpl; lra).
  split.
  - apply (C61_accepted spline mat 4 (- d) true); [cbn; lia|cbn; lia|assumption|]. unfold hor_index_ok. rewrite radians_opp, D1, Ropp_involutive, tan_atan. cbn [mat ih iw].
    destruct (Rlt_dec 0 (- atan (1 / 2))); [lra|]. rewrite FL. simpl. lra.
  - rewrite Ropp_involutive. apply (C61_accepted spline (transpose mat) 4 d false); [cbn; lia|cbn; lia|assumption|]. unfold ver_index_ok. rewrite D1, tan_atan. cbn [mat transpose ih iw].
    destruct (Rlt_dec 0 (atan (1 / 2))); [|lra]. rewrite CL. simpl. lra.
Qed.
(** Cases meeting the hypotheses. *)
Lemma transpose_eq (m : image R) : img_eq (transpose m) (transpose m).
Proof. split; [reflexivity|]. split; [reflexivity|]. reflexivity. Qed.
Lemma nearest_alike : spline_alike nearest.
Proof.
  intros m m' ps (E1 & E2 & E3). unfold nearest. rewrite map_map. apply map_ext. intros [y x]. unfold nearest_px. cbn [swap fst snd]. cbn [transpose ih iw px] in E1, E2, E3.
  rewrite E1, E2, Bool.andb_comm.
  destruct (_ && _)%bool eqn:B; [|reflexivity]. apply Bool.andb_true_iff in B. destruct B as [B1 B2]. apply Bool.andb_true_iff in B1, B2. apply E3. unfold in_img. lia.
Qed.
Example C94_profile_ex : forall f, let mat := mkimg 6 4 f in
  tilted_profile nearest (transpose mat) 5 (-45) false = swap_profile (tilted_profile nearest mat 5 45 true) /\ exists p, tilted_profile nearest mat 5 45 true = Ok p.
Proof.
  intros f mat. split; [|apply C61_ex].
  assert (A : radians 45 = PI / 4) by (unfold radians; field). pose proof PI_RGT_0 as P0.
  assert (T : tan (PI / 4) = 1) by (unfold tan; rewrite sin_cos_PI4; apply Rinv_r; rewrite cos_PI4; apply Rgt_not_eq; apply Rdiv_lt_0_compat; [lra|apply sqrt_lt_R0; lra]).
  assert (D1 : Rabs 45 < 90) by (rewrite Rabs_pos_eq; lra).
  assert (H : hor_index_ok 6 4 (radians 45) 5) by (rewrite A; unfold hor_index_ok; destruct (Rlt_dec 0 (PI / 4)); [|lra]; rewrite T, Rmult_1_r, Zceil_IZR; simpl; lra).
  replace (-45) with (- (45)) by lra.
  apply (C94_profile nearest mat (transpose mat) 5 45 nearest_alike (transpose_eq mat)); [cbn; lia|cbn; lia|assumption|exact H|].
  rewrite radians_opp. assert (B : - PI / 2 < radians 45 < PI / 2) by (rewrite A; lra).
  apply (proj1 (C94_accepted 6 4 (radians 45) 5 ltac:(lia) B)); [rewrite A; lra|exact H].
Qed.
Example C94_cross_points_ex : forall exp_ cf gf radius sens sp cb sel, let mat := mkimg 17 100 (fun i j => IZR ((i + j) mod 10)) in
  exists ps, ver_lines pf_R exp_ cf gf (@argsort_ins R Rexact) (fun l => l) (fun m => m) nearest (fun m _ _ => m) mat (1 / 20) 6 0.3 true 2 true radius sens true sp cb sel = Ok ps /\
  hor_lines pf_R exp_ cf gf (@argsort_ins R Rexact) (fun l => l) (fun m => m) nearest (fun m _ _ => m) (transpose mat) (1 / 20) 6 0.3 true 2 true radius sens true sp cb sel = Ok (map swap ps).
Proof.
  intros exp_ cf gf radius sens sp cb sel mat.
  assert (H1 : (5 <= ih mat <= 32767)%Z) by (cbn; lia). assert (H2 : (5 <= iw mat <= 32767)%Z) by (cbn; lia).
  destruct (proj1 (C62_vertical_lines pf_R exp_ cf gf (@argsort_ins R Rexact) (fun l => l) (fun m => m) nearest (fun m _ _ => m) mat (1 / 20) 6 0.3 true 2 true radius sens true sp cb sel
    pf_R_ok (argsort_ins_ok (fun x => x)) (fun _ => eq_refl) (fun _ => conj eq_refl eq_refl) (proj1 nearest_ok) H1 H2 ltac:(lra))) as [ps E].
  { exists 0. unfold hor_index_ok. change (ih mat) with 17%Z. change (iw mat) with 100%Z. rewrite <- atan_opp.
    assert (P : atan (- (1 / 20)) < 0) by (rewrite <- atan_0; apply atan_increasing; lra). destruct (Rlt_dec 0 (atan (- (1 / 20)))); [exfalso; lra|].
    rewrite <- atan_opp, Ropp_involutive, tan_atan. replace (Zfloor (100 * (1 / 20))) with 5%Z by (symmetry; apply Zfloor_imp; cbn; lra). cbn. lra. }
  exists ps. split; [exact E|].
  rewrite (C94_cross_points pf_R exp_ cf gf (@argsort_ins R Rexact) (fun l => l) (fun m => m) nearest (fun m _ _ => m) mat (transpose mat) (1 / 20) 6 0.3 true 2 true radius sens true sp cb sel).
  - rewrite E. reflexivity.
  - exact nearest_alike.
  - intros m m' _ _ H. exact H.
  - split; reflexivity.
  - intros m m' _ _ H. exact H.
  - split; reflexivity.
  - apply transpose_eq.
  - lia.
  - lia.
  - lra.
  - exists 5%Z. change (iw mat) with 100%Z. lra.
  - change (2 <= 2)%Z. lia.
Qed.
Print Assumptions C94_profile.
Print Assumptions C94_accepted.
Print Assumptions C94_cross_points.
Print Assumptions C94_symmetry_refuted.
Print Assumptions C94_cross_points_ex.
