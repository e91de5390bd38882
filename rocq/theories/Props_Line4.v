(** Theorems C62, C91: cross points of a line pattern. *)
From Coq Require Import Floats.
From Coq Require Import Reals ZArith List Lra Lia Psatz Sorted Permutation.
From Flocq Require Import Core.
From Verif Require Import Base Num NumFacts Sorting Img Spec Lsq ProcSpec Post PrepImg PrepImgFacts2 Props_Prep Proc ProcFacts2 ProcFacts5 Line LineFacts LineFacts2 LineFacts3 LineFacts4 LineFacts5 Props_Line Props_Line2 Props_Line3 LineSpec ProfSpec.
Import ListNotations.
Local Open Scope R_scope.
Local Existing Instance Rex.

(** The two functions with the true trigonometric functions, given the
    least-squares fit, the Gaussian peak fit, smoothing, sorting, interpolation
    and FFT filter. *)
Notation hor_lines pf ex cf gf as_ g3 G3 sp fft := (@get_cross_points_hor_lines R Rex pf ex cf gf as_ g3 G3 tan sin cos atan PI sp fft).
Notation ver_lines pf ex cf gf as_ g3 G3 sp fft := (@get_cross_points_ver_lines R Rex pf ex cf gf as_ g3 G3 tan sin cos atan PI sp fft).
Definition same_shape {T} (f : image T -> image T) : Prop := forall m, ih (f m) = ih m /\ iw (f m) = iw m.

(** *** C62 *)
Lemma image_ok {T} {N : Num T} gaussian3 fft (mat : image T) norm bright denoise : same_shape gaussian3 -> (1 <= ih mat)%Z -> (1 <= iw mat)%Z ->
  exists img, cross_image gaussian3 fft mat norm bright denoise = Ok img /\ ih img = ih mat /\ iw img = iw mat.
Proof.
  intros G Hh Hw. unfold cross_image.
  assert (X : exists m, (if bright then mx <- namax (pixels mat) ;; Ok (img_map (fun v => nsub mx v) mat) else Ok mat) = Ok m /\ ih m = ih mat /\ iw m = iw mat).
  { destruct bright; [|exists mat; auto]. destruct (namax (pixels mat)) as [mx|e] eqn:E; [eexists; split; [reflexivity|auto]|].
    destruct (pixels mat) as [|v l] eqn:Ep; [|discriminate]. exfalso. apply (in_nil (a := px mat 0 0)). rewrite <- Ep. apply in_pixels. exists 0%Z, 0%Z. repeat split; lia. }
  destruct X as [m [-> [H1 H2]]]. cbn [bind].
  assert (Y : exists m', (if norm then normalization_fft fft m (nofZ 5) 100 else Ok m) = Ok m' /\ ih m' = ih mat /\ iw m' = iw mat).
  { destruct norm; [|exists m; auto]. destruct (proj2 (C55_formula T N (fun m _ => m) fft m 0%Z (nofZ 5) 100%Z)) as [out (E & h1 & h2 & _)]. exists out. split; [exact E|]. lia. }
  destruct Y as [m' [-> [H3 H4]]]. cbn [bind]. eexists. split; [reflexivity|]. destruct denoise; [destruct (G m') as [h1 h2]; lia|auto].
Qed.
(** In exact arithmetic every profile requested is accepted: the functions
    return whenever some index is, and raise ValueError otherwise. *)
Theorem C62_horizontal_lines : forall polyfit exp_ cf gf argsort g3 gaussian3 spline fft mat slope dist ratio norm offset bright radius sens denoise sp cb sel,
  polyfit_oracle polyfit -> argsort_spec argsort -> (forall q, length (g3 q) = length q) -> same_shape gaussian3 -> spline_local spline ->
  (5 <= ih mat <= 32767)%Z -> (5 <= iw mat <= 32767)%Z -> 0 < ratio * dist ->
  ((exists index, ver_index_ok (ih mat) (iw mat) (atan slope) index) ->
     exists ps, hor_lines polyfit exp_ cf gf argsort g3 gaussian3 spline fft mat slope dist ratio norm offset bright radius sens denoise sp cb sel = Ok ps) /\
  (~ (exists index, ver_index_ok (ih mat) (iw mat) (atan slope) index) ->
     hor_lines polyfit exp_ cf gf argsort g3 gaussian3 spline fft mat slope dist ratio norm offset bright radius sens denoise sp cb sel = Err ValueError).
Proof.
  intros pf ex cf gf as_ g3 G3 sp0 fft mat slope dist ratio norm off br radius sens dn sp cb sel PF AS G GS SL Hh Hw Hs.
  destruct (image_ok G3 fft mat norm br dn GS ltac:(lia) ltac:(lia)) as [img (EI & Ih & Iw)]. split; intros H.
  - now apply (hor_total pf ex cf gf as_ g3 G3 sp0 fft PF AS G SL mat img).
  - unfold get_cross_points_hor_lines. rewrite EI. cbn [bind]. cbn zeta. destruct (deg_rad slope) as [D1 D2]. cbn zeta in D1, D2.
    destruct (calc_index_range tan PI (ih mat) (iw mat) (rad2deg PI (atan slope)) false) as [[m M]|e] eqn:E.
    + exfalso. apply H. pose proof E as E2. rewrite range_ver, D1 in E2 by assumption.
      exists (if Rlt_dec 0 (atan slope) then IZR 0 else IZR M). rewrite <- D1. apply (range_ver_iff _ _ _ _ _ D2 E). rewrite D1.
      destruct (Rlt_dec 0 (atan slope)) as [p|p]; match type of E2 with (if ?b then _ else _) = _ => destruct b eqn:B; [discriminate|] end; injection E2 as E3 E4;
      rewrite !Bool.orb_false_iff, !Z.ltb_ge, !Z.leb_gt in B; split; apply IZR_le; lia.
    + cbn [bind]. rewrite range_ver in E by assumption.
      match type of E with (let '(_, _) := ?p in _) = _ => destruct p as [m M] end. match type of E with (if ?b then _ else _) = _ => destruct b end; [|discriminate]. injection E as <-. reflexivity.
Qed.
Print Assumptions C62_horizontal_lines.
Theorem C62_vertical_lines : forall polyfit exp_ cf gf argsort g3 gaussian3 spline fft mat slope dist ratio norm offset bright radius sens denoise sp cb sel,
  polyfit_oracle polyfit -> argsort_spec argsort -> (forall q, length (g3 q) = length q) -> same_shape gaussian3 -> spline_local spline ->
  (5 <= ih mat <= 32767)%Z -> (5 <= iw mat <= 32767)%Z -> 0 < ratio * dist ->
  ((exists index, hor_index_ok (ih mat) (iw mat) (- atan slope) index) ->
     exists ps, ver_lines polyfit exp_ cf gf argsort g3 gaussian3 spline fft mat slope dist ratio norm offset bright radius sens denoise sp cb sel = Ok ps) /\
  (~ (exists index, hor_index_ok (ih mat) (iw mat) (- atan slope) index) ->
     ver_lines polyfit exp_ cf gf argsort g3 gaussian3 spline fft mat slope dist ratio norm offset bright radius sens denoise sp cb sel = Err ValueError).
Proof.
  intros pf ex cf gf as_ g3 G3 sp0 fft mat slope dist ratio norm off br radius sens dn sp cb sel PF AS G GS SL Hh Hw Hs.
  destruct (image_ok G3 fft mat norm br dn GS ltac:(lia) ltac:(lia)) as [img (EI & Ih & Iw)]. split; intros H.
  - now apply (ver_total pf ex cf gf as_ g3 G3 sp0 fft PF AS G SL mat img).
  - unfold get_cross_points_ver_lines. rewrite EI. cbn [bind]. cbn zeta. destruct (deg_rad slope) as [D1 D2]. cbn zeta in D1, D2.
    change (nopp (rad2deg PI (atan slope))) with (- rad2deg PI (atan slope)). set (d := - rad2deg PI (atan slope)).
    assert (D3 : radians d = - atan slope) by (unfold d; rewrite radians_opp, D1; reflexivity). assert (D4 : Rabs d < 90) by (unfold d; rewrite Rabs_Ropp; assumption).
    destruct (calc_index_range tan PI (ih mat) (iw mat) d true) as [[m M]|e] eqn:E.
    + exfalso. apply H. pose proof E as E2. rewrite range_hor, D3 in E2 by assumption.
      exists (if Rlt_dec 0 (- atan slope) then IZR m else IZR 0). rewrite <- D3. apply (range_hor_iff _ _ _ _ _ D4 E). rewrite D3.
      destruct (Rlt_dec 0 (- atan slope)) as [p|p]; match type of E2 with (if ?b then _ else _) = _ => destruct b eqn:B; [discriminate|] end; injection E2 as E3 E4;
      rewrite !Bool.orb_false_iff, !Z.ltb_ge, !Z.leb_gt in B; split; apply IZR_le; lia.
    + cbn [bind]. rewrite range_hor in E by assumption.
      match type of E with (let '(_, _) := ?p in _) = _ => destruct p as [m M] end. match type of E with (if ?b then _ else _) = _ => destruct b end; [|discriminate]. injection E as <-. reflexivity.
Qed.
Print Assumptions C62_vertical_lines.
(** In double precision np.arange can pass the end of the range: with the
    default ratio 0.3 and lines 6 pixels apart it asks for row
    16.000000000000004 of an image with rows 0-16, and the whole call fails,
    although every real-number index is in range. *)
Definition ulp_slope : PrimFloat.float := (-0.065)%float.
Theorem C62_doubles_refuted : forall polyfit exp_ cf gf argsort g3 gaussian3 tan_ sin_ cos_ arctan_ pi_ spline fft (mat : image PrimFloat.float) norm bright radius sens denoise sp cb sel,
  same_shape gaussian3 -> ih mat = 17%Z -> iw mat = 100%Z ->
  @calc_index_range PrimFloat.float FloatNum tan_ pi_ 17 100 (@nopp _ FloatNum (@rad2deg _ FloatNum pi_ (arctan_ ulp_slope))) true = Ok (7, 16)%Z ->
  forall ps, @get_cross_points_ver_lines PrimFloat.float FloatNum polyfit exp_ cf gf argsort g3 gaussian3 tan_ sin_ cos_ arctan_ pi_ spline fft
    mat ulp_slope 6%float 0.3%float norm 0 bright radius sens denoise sp cb sel <> Ok ps.
Proof.
  intros pf ex cf gf as_ g3 G3 tan_ sin_ cos_ arctan_ pi_ sp0 fft mat norm br radius sens dn sp cb sel GS Hh Hw ER ps E.
  unfold get_cross_points_ver_lines in E.
  destruct (image_ok (N := FloatNum) G3 fft mat norm br dn GS ltac:(lia) ltac:(lia)) as [img (EI & Ih & Iw)]. rewrite EI in E. cbn [bind] in E. cbn zeta in E.
  rewrite Hh, Hw, ER in E. cbn [bind] in E.
  match type of E with context[@arange_chk _ FloatNum ?a ?b ?c] => assert (A : exists l, @arange_chk _ FloatNum a b c = Ok (l ++ [0x1.0000000000001p+4%float])) by (exists [7; 8.8000000000000007; 10.600000000000001; 12.400000000000002; 14.200000000000003]%float; vm_compute; reflexivity) end.
  destruct A as [l A]. rewrite A in E. cbn [bind] in E.
  match type of E with context[mapM ?f (l ++ ?e)] => destruct (mapM f (l ++ e)) as [pss|e'] eqn:Em; [|discriminate] end.
  apply mapM_inv in Em. destruct (Forall2_In_l _ _ _ 0x1.0000000000001p+4%float Em) as [pl [_ Ei]]; [apply in_or_app; right; now left|].
  rewrite (C61_out_of_range tan_ sin_ cos_ pi_ sp0 img _ _ true 7 16) in Ei; [discriminate| |right; reflexivity].
  rewrite Ih, Iw, Hh, Hw. exact ER.
Qed.
Print Assumptions C62_doubles_refuted.
(** The hypothesis on the range holds with -0.0649.. for arctan(-0.065), 0.065
    for its tangent and the double nearest to pi. *)
Example C62_doubles_ex :
  @calc_index_range PrimFloat.float FloatNum (fun _ => 0.065%float) 0x1.921fb54442d18p+1%float 17 100
    (@nopp _ FloatNum (@rad2deg _ FloatNum 0x1.921fb54442d18p+1%float (-0.064908711892182)%float)) true = Ok (7, 16)%Z.
Proof. vm_compute. reflexivity. Qed.
(** The same call returns in exact arithmetic. *)
Example C62_ex : forall exp_ cf gf fft radius sens sp cb sel, let mat := mkimg 17 100 (fun i j => IZR ((i + j) mod 10)) in
  exists ps, ver_lines pf_R exp_ cf gf (@argsort_ins R Rexact) (fun l => l) (fun m => m) nearest fft mat (-0.065) 6 0.3 true 0 true radius sens true sp cb sel = Ok ps.
Proof.
  intros exp_ cf gf fft radius sens sp cb sel mat.
  assert (H1 : (5 <= ih mat <= 32767)%Z) by (cbn; lia). assert (H2 : (5 <= iw mat <= 32767)%Z) by (cbn; lia).
  apply (C62_vertical_lines pf_R exp_ cf gf (@argsort_ins R Rexact) (fun l => l) (fun m => m) nearest fft mat (-0.065) 6 0.3 true 0 true radius sens true sp cb sel);
    [exact pf_R_ok|apply (argsort_ins_ok (fun x => x))|reflexivity|split; reflexivity|apply nearest_ok|assumption|assumption|lra|].
  exists 7. unfold hor_index_ok. change (ih mat) with 17%Z. change (iw mat) with 100%Z. rewrite <- atan_opp.
  assert (P : 0 < atan (- -0.065)) by (rewrite <- atan_0; apply atan_increasing; lra). destruct (Rlt_dec 0 (atan (- -0.065))); [|contradiction].
  rewrite tan_atan. replace (Zceil (100 * - -0.065)) with 7%Z by (symmetry; apply Zceil_imp; cbn; lra). cbn. lra.
Qed.


(** *** C91 *)
(** The image that is searched: inverted if the background is bright, then
    divided by its background, then smoothed. *)
Theorem C91_image : forall gaussian3 fft mat (norm bright denoise : bool),
  (forall m m', img_eq m m' -> fft m 5 100%Z = fft m' 5 100%Z) -> (forall m m', img_eq m m' -> gaussian3 m = gaussian3 m') ->
  (1 <= ih mat)%Z -> (1 <= iw mat)%Z ->
  exists top, (exists i j, in_img mat i j /\ px mat i j = top) /\ (forall i j, in_img mat i j -> px mat i j <= top) /\
  let inverted := mkimg (ih mat) (iw mat) (fun i j => if bright then top - px mat i j else px mat i j) in
  let bck := fft inverted 5 100%Z in
  let normalised := mkimg (ih mat) (iw mat) (fun i j => if norm then average (pixels bck) * px inverted i j / px bck i j else px inverted i j) in
  exists img, cross_image gaussian3 fft mat norm bright denoise = Ok img /\ img_eq img (if denoise then gaussian3 normalised else normalised).
Proof.
  intros G3 fft mat norm br dn FE GE Hh Hw.
  destruct (namax (pixels mat)) as [top|e] eqn:Et.
  2: { exfalso. destruct (pixels mat) as [|v l] eqn:Ep; [|discriminate]. apply (in_nil (a := px mat 0 0)). rewrite <- Ep. apply in_pixels. exists 0%Z, 0%Z. repeat split; lia. }
  pose proof Et as Es. unfold Rex in Es. apply namax_spec in Es. destruct Es as [I B]. apply in_pixels in I. destruct I as (i0 & j0 & H0 & E0).
  exists top. split; [exists i0, j0; auto|]. split; [intros i j Hij; apply B; apply in_pixels; eauto|]. cbn zeta.
  set (inv := mkimg (ih mat) (iw mat) (fun i j => if br then top - px mat i j else px mat i j)).
  unfold cross_image. rewrite Et. cbn [bind].
  assert (X : exists m, (if br then Ok (img_map (fun v => nsub top v) mat) else Ok mat) = Ok m /\ img_eq m inv).
  { unfold inv. destruct br; (eexists; split; [reflexivity|]); (split; [reflexivity|split; [reflexivity|]]); intros; reflexivity. }
  destruct X as [m [-> Em]]. cbn [bind]. pose proof (FE m inv Em) as Fm. destruct Em as (e1 & e2 & e3).
  set (bck := fft inv 5 100%Z) in *.
  set (nm := mkimg (ih mat) (iw mat) (fun i j => if norm then average (pixels bck) * px inv i j / px bck i j else px inv i j)).
  assert (Y : exists m', (if norm then normalization_fft fft m (nofZ 5) 100 else Ok m) = Ok m' /\ img_eq m' nm).
  { unfold nm. destruct norm.
    - destruct (proj2 (C55_formula R Rex (fun m _ => m) fft m 0%Z (nofZ 5) 100%Z)) as [out (E & h1 & h2 & h3)]. exists out. split; [exact E|].
      cbn zeta in h3. change (@nofZ R Rex 5) with 5 in h3. rewrite Fm in h3. split; [cbn; rewrite h1, e1; reflexivity|]. split; [cbn; rewrite h2, e2; reflexivity|].
      intros i j Hij. cbn [px]. rewrite h3. rewrite mean_average. cbn [nmul ndiv Rex Rnum]. rewrite e3 by (unfold in_img in *; rewrite <- h1, <- h2; assumption). reflexivity.
    - exists m. split; [reflexivity|]. split; [cbn; rewrite e1; reflexivity|]. split; [cbn; rewrite e2; reflexivity|]. intros i j Hij. cbn [px]. apply e3; assumption. }
  destruct Y as [m' [-> En]]. cbn [bind]. eexists. split; [reflexivity|]. destruct dn; [|assumption]. rewrite (GE m' nm En). split; [reflexivity|split; [reflexivity|reflexivity]].
Qed.
Print Assumptions C91_image.
(** The points reported: a line is taken at every step from the first to the
    last accepted index; on the profile extracted along it the local maxima are
    found (of the slopes, for a chessboard); a maximum at position p of the
    profile gives the point p times the pitch along the line. *)
Definition clip_offset (offset limit : Z) : Z := Z.max 0 (Z.min offset limit).
Definition found polyfit exp_ cf gf argsort g3 (prof : list R) norm radius sens denoise subpixel (chessboard : bool) select (pos : list R) : Prop :=
  exists prof', (if chessboard then sliding_window_slope polyfit as_float prof 3 true = Ok prof' else prof' = prof) /\
  get_local_extrema_points polyfit exp_ cf gf argsort g3 prof' true radius sens (negb denoise) (negb norm) subpixel select = Ok pos.
Lemma rad2deg_degrees a : rad2deg PI a = degrees a.
Proof. unfold rad2deg, degrees. cbn [nmul ndiv nofZ Rex Rnum]. field. apply PI_neq0. Qed.
Lemma clip_eq offset limit : (0 <= limit)%Z -> Z.min (Z.max offset 0) limit = clip_offset offset limit.
Proof. unfold clip_offset. lia. Qed.
Theorem C91_vertical_lines : forall polyfit exp_ cf gf argsort g3 gaussian3 spline fft mat slope dist ratio norm offset bright radius sens denoise sp cb sel ps,
  same_shape gaussian3 -> (1 <= ih mat)%Z -> (1 <= iw mat)%Z -> 0 < ratio * dist ->
  ver_lines polyfit exp_ cf gf argsort g3 gaussian3 spline fft mat slope dist ratio norm offset bright radius sens denoise sp cb sel = Ok ps ->
  exists img first last, cross_image gaussian3 fft mat norm bright denoise = Ok img /\
  (forall i, hor_index_ok (ih mat) (iw mat) (- atan slope) i <-> IZR first <= i <= IZR last) /\
  let off := clip_offset offset (Z.min (ih mat) (iw mat) / 8) in
  forall y x, In (y, x) ps <-> exists k index xs ys prof pos p, (0 <= k)%Z /\ index = IZR (first + off) + IZR k * (ratio * dist) /\ index < IZR (last - off) /\
    tilted_profile spline img index (- degrees (atan slope)) true = Ok (xs, ys, prof) /\
    found polyfit exp_ cf gf argsort g3 prof norm radius sens denoise sp cb sel pos /\ In p pos /\
    x = p * pitch xs ys (iw mat) * cos (atan slope) /\ y = index + slope * x.
Proof.
  intros pf ex cf gf as_ g3 G3 sp0 fft mat slope dist ratio norm offset br radius sens dn sp cb sel ps GS Hh Hw Hs E.
  destruct (image_ok G3 fft mat norm br dn GS Hh Hw) as [img (EI & Ih & Iw)].
  destruct (ver_points pf ex cf gf as_ g3 G3 sp0 fft mat img slope dist ratio norm offset br radius sens dn sp cb sel ps Hh Hw EI Ih Iw Hs E) as (m & M & ER & K).
  exists img, m, M. split; [assumption|]. destruct (deg_rad slope) as [D1 D2]. cbn zeta in D1, D2.
  assert (D3 : radians (- rad2deg PI (atan slope)) = - atan slope) by (rewrite radians_opp, D1; reflexivity).
  assert (D4 : Rabs (- rad2deg PI (atan slope)) < 90) by (rewrite Rabs_Ropp; assumption).
  split; [rewrite <- D3; apply (range_hor_iff _ _ _ _ _ D4 ER)|].
  cbn zeta in *. rewrite clip_eq in K by (apply Z.div_pos; lia). set (off := clip_offset offset _) in *.
  assert (T : forall x, x * sin (atan slope) = slope * (x * cos (atan slope))).
  { intros x. assert (C : cos (atan slope) <> 0) by (destruct (atan_bound slope); apply Rgt_not_eq, cos_gt_0; lra).
    replace slope with (tan (atan slope)) at 2 by apply tan_atan. unfold tan. field. assumption. }
  intros y x. rewrite K. split.
  - intros (k & index & xs & ys & prof & pos & p & K1 & K2 & K3 & Et & Es & Hp & Eq). exists k, index, xs, ys, prof, pos, p.
    pose proof Et as Et2. apply C61_horizontal in Et2; [|lia|lia|assumption]. destruct Et2 as (_ & _ & X0 & Y0 & _). rewrite X0, Y0 in Eq. injection Eq as -> ->.
    rewrite rad2deg_degrees in Et. rewrite T. repeat split; try assumption; try exact Es; ring.
  - intros (k & index & xs & ys & prof & pos & p & K1 & K2 & K3 & Et & Es & Hp & Ex & Ey). exists k, index, xs, ys, prof, pos, p.
    rewrite <- rad2deg_degrees in Et.
    pose proof Et as Et2. apply C61_horizontal in Et2; [|lia|lia|assumption]. destruct Et2 as (_ & _ & X0 & Y0 & _). rewrite X0, Y0.
    repeat split; try assumption. rewrite T. subst y x. f_equal; ring.
Qed.
Print Assumptions C91_vertical_lines.
Theorem C91_horizontal_lines : forall polyfit exp_ cf gf argsort g3 gaussian3 spline fft mat slope dist ratio norm offset bright radius sens denoise sp cb sel ps,
  same_shape gaussian3 -> (1 <= ih mat)%Z -> (1 <= iw mat)%Z -> 0 < ratio * dist ->
  hor_lines polyfit exp_ cf gf argsort g3 gaussian3 spline fft mat slope dist ratio norm offset bright radius sens denoise sp cb sel = Ok ps ->
  exists img first last, cross_image gaussian3 fft mat norm bright denoise = Ok img /\
  (forall i, ver_index_ok (ih mat) (iw mat) (atan slope) i <-> IZR first <= i <= IZR last) /\
  let off := clip_offset offset (Z.min (ih mat) (iw mat) / 3) in
  forall y x, In (y, x) ps <-> exists k index xs ys prof pos p, (0 <= k)%Z /\ index = IZR (first + off) + IZR k * (ratio * dist) /\ index < IZR (last - off) /\
    tilted_profile spline img index (degrees (atan slope)) false = Ok (xs, ys, prof) /\
    found polyfit exp_ cf gf argsort g3 prof norm radius sens denoise sp cb sel pos /\ In p pos /\
    y = p * pitch xs ys (ih mat) * cos (atan slope) /\ x = index + slope * y.
Proof.
  intros pf ex cf gf as_ g3 G3 sp0 fft mat slope dist ratio norm offset br radius sens dn sp cb sel ps GS Hh Hw Hs E.
  destruct (image_ok G3 fft mat norm br dn GS Hh Hw) as [img (EI & Ih & Iw)].
  destruct (hor_points pf ex cf gf as_ g3 G3 sp0 fft mat img slope dist ratio norm offset br radius sens dn sp cb sel ps Hh Hw EI Ih Iw Hs E) as (m & M & ER & K).
  exists img, m, M. split; [assumption|]. destruct (deg_rad slope) as [D1 D2]. cbn zeta in D1, D2.
  split; [rewrite <- D1; apply (range_ver_iff _ _ _ _ _ D2 ER)|].
  cbn zeta in *. rewrite clip_eq in K by (apply Z.div_pos; lia). set (off := clip_offset offset _) in *.
  assert (T : forall x, x * sin (atan slope) = slope * (x * cos (atan slope))).
  { intros x. assert (C : cos (atan slope) <> 0) by (destruct (atan_bound slope); apply Rgt_not_eq, cos_gt_0; lra).
    replace slope with (tan (atan slope)) at 2 by apply tan_atan. unfold tan. field. assumption. }
  intros y x. rewrite K. split.
  - intros (k & index & xs & ys & prof & pos & p & K1 & K2 & K3 & Et & Es & Hp & Eq). exists k, index, xs, ys, prof, pos, p.
    pose proof Et as Et2. apply C61_vertical in Et2; [|lia|lia|assumption]. destruct Et2 as (_ & _ & X0 & Y0 & _). rewrite X0, Y0 in Eq. injection Eq as -> ->.
    rewrite rad2deg_degrees in Et. rewrite T. repeat split; try assumption; try exact Es; ring.
  - intros (k & index & xs & ys & prof & pos & p & K1 & K2 & K3 & Et & Es & Hp & Ex & Ey). exists k, index, xs, ys, prof, pos, p.
    rewrite <- rad2deg_degrees in Et.
    pose proof Et as Et2. apply C61_vertical in Et2; [|lia|lia|assumption]. destruct Et2 as (_ & _ & X0 & Y0 & _). rewrite X0, Y0.
    repeat split; try assumption. rewrite T. subst x y. f_equal; ring.
Qed.
Print Assumptions C91_horizontal_lines.
(** Sample p of a profile lies at distance p * (sampling step) on the line; the
    point reported for it lies before it, by up to sqrt 2 * p / (n - 1). *)
Theorem C91_displacement : forall spline img index deg (horizontal : bool) xs ys prof p, (2 <= ih img)%Z -> (2 <= iw img)%Z -> Rabs deg < 90 -> 0 <= p ->
  tilted_profile spline img index deg horizontal = Ok (xs, ys, prof) ->
  let n := if horizontal then iw img else ih img in
  0 <= p * along n (radians deg) 1 - p * pitch xs ys n <= sqrt 2 * p / IZR (n - 1).
Proof.
  intros sp img index d hor xs ys prof p Hh Hw Hd Hp E n.
  assert (P : along n (radians d) 1 - sqrt 2 / IZR (n - 1) <= pitch xs ys n <= along n (radians d) 1).
  { destruct hor; [now apply (pitch_hor sp img index d xs ys prof)|now apply (pitch_ver sp img index d xs ys prof)]. }
  split; [nra|]. unfold Rdiv in *. replace (sqrt 2 * p * / IZR (n - 1)) with (p * (sqrt 2 * / IZR (n - 1))) by ring. nra.
Qed.
Print Assumptions C91_displacement.
(** With slope 0 the displacement is p / (n - 1): what is seen at column
    p + p / (n - 1) is reported at column p. *)
Theorem C91_zero_slope : forall spline img index (horizontal : bool) xs ys prof k, (2 <= ih img)%Z -> (2 <= iw img)%Z ->
  tilted_profile spline img index 0 horizontal = Ok (xs, ys, prof) ->
  let n := if horizontal then iw img else ih img in (0 <= k < n - 1)%Z ->
  pitch xs ys n = 1 /\ sample (if horizontal then xs else ys) k = IZR k + IZR k / IZR (n - 1).
Proof.
  intros sp img index hor xs ys prof k Hh Hw E n Hk.
  assert (A : radians 0 = 0) by (unfold radians, Rdiv; ring). assert (R0 : Rabs 0 < 90) by (rewrite Rabs_R0; lra).
  assert (AL : forall n j, (2 <= n)%Z -> along n 0 j = IZR j + IZR j / IZR (n - 1)).
  { intros n' j Hn. unfold along. rewrite cos_0. replace (IZR n' / 1) with (IZR n') by field. rewrite Zfloor_IZR. rewrite minus_IZR. field. rewrite <- minus_IZR. apply not_0_IZR. lia. }
  assert (B : forall n j, (2 <= n)%Z -> (0 <= j < n - 1)%Z -> IZR j + IZR j / IZR (n - 1) <= IZR (n - 1)).
  { intros n' j Hn Hj. assert (W : 0 < IZR (n' - 1)) by (apply IZR_lt; lia). assert (IZR j / IZR (n' - 1) <= 1).
    { apply Rmult_le_reg_r with (IZR (n' - 1)); [assumption|]. unfold Rdiv. rewrite Rmult_assoc, Rinv_l by lra. rewrite Rmult_1_r, Rmult_1_l. apply IZR_le. lia. }
    assert (IZR j <= IZR (n' - 1) - 1) by (rewrite <- minus_IZR; apply IZR_le; lia). lra. }
  destruct hor.
  - destruct (C61_horizontal sp img index 0 xs ys prof ltac:(lia) ltac:(lia) R0 E) as (Sx & Sy & X0 & Y0 & K). cbn zeta in K. rewrite A in K. split.
    + destruct (K (iw img - 1)%Z ltac:(lia)) as (_ & K2 & K3 & K4 & K5 & K6 & _). destruct (K 0%Z ltac:(lia)) as (_ & J2 & _). rewrite Y0 in J2.
      rewrite along_last in K3, K5 by lia. unfold hor_x, hor_y in *. rewrite cos_0, sin_0 in *. rewrite !Rmult_0_r, Rminus_0_r in K5.
      replace (IZR (iw img) / 1) with (IZR (iw img)) in K3 by field. rewrite Zfloor_IZR, Rmult_1_r in K3.
      rewrite Rmin_right in K3 by (apply IZR_le; lia). rewrite Rmin_left in K5 by lra.
      unfold pitch, n. rewrite Sx, Sy, X0, Y0, K3, K5. replace ((IZR (iw img - 1) - 0) ^ 2 + (index - index) ^ 2) with (Rsqr (IZR (iw img - 1))) by (unfold Rsqr; ring).
      rewrite sqrt_Rsqr by (apply IZR_le; lia). field. apply not_0_IZR. lia.
    + destruct (K k ltac:(lia)) as (_ & _ & K3 & _). rewrite K3. unfold hor_x. rewrite cos_0, Rmult_1_r, AL by lia. apply Rmin_left. now apply B.
  - destruct (C61_vertical sp img index 0 xs ys prof ltac:(lia) ltac:(lia) R0 E) as (Sx & Sy & X0 & Y0 & K). cbn zeta in K. rewrite A in K. split.
    + destruct (K (ih img - 1)%Z ltac:(lia)) as (_ & K2 & K3 & K4 & K5 & K6 & _). destruct (K 0%Z ltac:(lia)) as (J2 & _). rewrite X0 in J2.
      rewrite along_last in K3, K5 by lia. unfold ver_x, ver_y in *. rewrite cos_0, sin_0 in *. rewrite !Rmult_0_r, Rplus_0_r in K5.
      replace (IZR (ih img) / 1) with (IZR (ih img)) in K3 by field. rewrite Zfloor_IZR, Rmult_1_r in K3.
      rewrite Rmin_right in K3 by (apply IZR_le; lia). rewrite Rmax_right in K5 by lra.
      unfold pitch, n. rewrite Sx, Sy, X0, Y0, K3, K5. replace ((index - index) ^ 2 + (IZR (ih img - 1) - 0) ^ 2) with (Rsqr (IZR (ih img - 1))) by (unfold Rsqr; ring).
      rewrite sqrt_Rsqr by (apply IZR_le; lia). field. apply not_0_IZR. lia.
    + destruct (K k ltac:(lia)) as (_ & _ & K3 & _). rewrite K3. unfold ver_y. rewrite cos_0, Rmult_1_r, AL by lia. apply Rmin_left. now apply B.
Qed.
Print Assumptions C91_zero_slope.
(** Every point lies in the image, up to one pixel at the far edges. *)
Theorem C91_inside_vertical_lines : forall polyfit exp_ cf gf argsort g3 gaussian3 spline fft mat slope dist ratio norm offset bright radius sens denoise sp cb sel ps,
  polyfit_oracle polyfit -> argsort_spec argsort -> (forall q, length (g3 q) = length q) -> same_shape gaussian3 -> spline_local spline ->
  (5 <= ih mat <= 32767)%Z -> (5 <= iw mat <= 32767)%Z -> 0 < ratio * dist ->
  ver_lines polyfit exp_ cf gf argsort g3 gaussian3 spline fft mat slope dist ratio norm offset bright radius sens denoise sp cb sel = Ok ps ->
  forall y x, In (y, x) ps -> 0 <= y <= IZR (ih mat) /\ 0 <= x <= IZR (iw mat).
Proof.
  intros pf ex cf gf as_ g3 G3 sp0 fft mat slope dist ratio norm offset br radius sens dn sp cb sel ps PF AS G GS SL Hh Hw Hs E y x Hin.
  destruct (C91_vertical_lines pf ex cf gf as_ g3 G3 sp0 fft mat slope dist ratio norm offset br radius sens dn sp cb sel ps GS ltac:(lia) ltac:(lia) Hs E) as (img & m & M & EI & HI & K).
  destruct (image_ok G3 fft mat norm br dn GS ltac:(lia) ltac:(lia)) as [img' (EI' & Ih & Iw)]. rewrite EI in EI'. apply Ok_inj in EI'. subst img'.
  cbn zeta in K. apply K in Hin. destruct Hin as (k & index & xs & ys & prof & pos & p & K1 & K2 & K3 & Et & Fo & Hp & Ex & Ey).
  destruct (deg_rad slope) as [D1 D2]. cbn zeta in D1, D2. rewrite rad2deg_degrees in D1, D2.
  set (d := - degrees (atan slope)) in *. assert (D3 : radians d = - atan slope) by (unfold d; rewrite radians_opp, D1; reflexivity). assert (D4 : Rabs d < 90) by (unfold d; rewrite Rabs_Ropp; assumption).
  destruct (C61_horizontal sp0 img index d xs ys prof ltac:(lia) ltac:(lia) D4 Et) as (Sx & Sy & X0 & Y0 & J). cbn zeta in J. rewrite D3 in J.
  destruct (C61_band_horizontal sp0 img index d xs ys prof ltac:(lia) ltac:(lia) D4 Et) as (lo & hi & band & _ & _ & _ & _ & _ & _ & Eprof).
  assert (Sp : size prof = iw mat). { rewrite Eprof. unfold size. rewrite (proj1 SL), combine_length, map_length. unfold size in Sx, Sy. lia. }
  destruct (searched_ok pf ex cf gf as_ g3 prof norm radius sens dn sp cb sel PF AS G ltac:(lia)) as [pos' [Spos B]].
  assert (pos' = pos) by (apply (searched_unique pf ex cf gf as_ g3 prof norm radius sens dn sp cb sel); [exact Spos|exact Fo]). subst pos'. specialize (B p Hp). rewrite Sp in B.
  pose proof (pitch_hor sp0 img index d xs ys prof ltac:(lia) ltac:(lia) D4 Et) as [_ P]. rewrite D3, Iw in P.
  destruct (cos_pos_deg d D4) as [Ba Hc]. rewrite D3 in Ba, Hc. rewrite cos_neg in Hc.
  destruct (along_bounds (iw mat) (- atan slope) (iw mat - 1) ltac:(lia) Ba ltac:(lia)) as (A0 & A1 & _). rewrite cos_neg in A1.
  assert (W : 0 < IZR (iw mat - 1)) by (apply IZR_lt; lia).
  assert (PP : 0 <= pitch xs ys (iw mat)). { unfold pitch. apply Rmult_le_pos; [apply sqrt_pos|]. left. now apply Rinv_0_lt_compat. }
  set (L := along (iw mat) (- atan slope) (iw mat - 1)) in *.
  assert (AL : along (iw mat) (- atan slope) 1 * IZR (iw mat - 1) = L) by (unfold L, along; field; lra).
  set (r := p * pitch xs ys (iw mat)) in *. assert (R0 : 0 <= r) by (unfold r; nra). assert (RL : r <= L) by (unfold r; nra).
  assert (Xb : 0 <= x <= IZR (iw mat)) by (subst x; nra). split; [|assumption].
  destruct (J 0%Z ltac:(lia)) as (_ & J0 & _). rewrite Y0, Ih in J0. destruct (J (iw img - 1)%Z ltac:(lia)) as (_ & J2 & _ & _ & _ & J6 & _).
  rewrite ?Iw, ?Ih in J2; rewrite ?Iw, ?Ih in J6. fold L in J6. unfold hor_y in J6. rewrite sin_neg, Ropp_mult_distr_r_reverse in J6.
  assert (T : slope * x = r * sin (atan slope)). { subst x. replace slope with (tan (atan slope)) at 1 by apply tan_atan. unfold tan. field. lra. }
  rewrite Ey, T. rewrite minus_IZR in J0, J2. set (s := sin (atan slope)) in *.
  destruct (Rle_dec 0 s) as [q|q].
  - assert (0 <= r * s <= L * s) by (clear - R0 RL q; nra). lra.
  - assert (L * s <= r * s <= 0) by nra. lra.
Qed.
Print Assumptions C91_inside_vertical_lines.
Theorem C91_inside_horizontal_lines : forall polyfit exp_ cf gf argsort g3 gaussian3 spline fft mat slope dist ratio norm offset bright radius sens denoise sp cb sel ps,
  polyfit_oracle polyfit -> argsort_spec argsort -> (forall q, length (g3 q) = length q) -> same_shape gaussian3 -> spline_local spline ->
  (5 <= ih mat <= 32767)%Z -> (5 <= iw mat <= 32767)%Z -> 0 < ratio * dist ->
  hor_lines polyfit exp_ cf gf argsort g3 gaussian3 spline fft mat slope dist ratio norm offset bright radius sens denoise sp cb sel = Ok ps ->
  forall y x, In (y, x) ps -> 0 <= y <= IZR (ih mat) /\ -1 <= x <= IZR (iw mat - 1).
Proof.
  intros pf ex cf gf as_ g3 G3 sp0 fft mat slope dist ratio norm offset br radius sens dn sp cb sel ps PF AS G GS SL Hh Hw Hs E y x Hin.
  destruct (C91_horizontal_lines pf ex cf gf as_ g3 G3 sp0 fft mat slope dist ratio norm offset br radius sens dn sp cb sel ps GS ltac:(lia) ltac:(lia) Hs E) as (img & m & M & EI & HI & K).
  destruct (image_ok G3 fft mat norm br dn GS ltac:(lia) ltac:(lia)) as [img' (EI' & Ih & Iw)]. rewrite EI in EI'. apply Ok_inj in EI'. subst img'.
  cbn zeta in K. apply K in Hin. destruct Hin as (k & index & xs & ys & prof & pos & p & K1 & K2 & K3 & Et & Fo & Hp & Ex & Ey).
  destruct (deg_rad slope) as [D1 D2]. cbn zeta in D1, D2. rewrite rad2deg_degrees in D1, D2.
  set (d := degrees (atan slope)) in *.
  destruct (C61_vertical sp0 img index d xs ys prof ltac:(lia) ltac:(lia) D2 Et) as (Sx & Sy & X0 & Y0 & J). cbn zeta in J. rewrite D1 in J.
  destruct (C61_band_vertical sp0 img index d xs ys prof ltac:(lia) ltac:(lia) D2 Et) as (lo & hi & band & _ & _ & _ & _ & _ & _ & Eprof).
  assert (Sp : size prof = ih mat). { rewrite Eprof. unfold size. rewrite (proj1 SL), combine_length, map_length. unfold size in Sx, Sy. lia. }
  destruct (searched_ok pf ex cf gf as_ g3 prof norm radius sens dn sp cb sel PF AS G ltac:(lia)) as [pos' [Spos B]].
  assert (pos' = pos) by (apply (searched_unique pf ex cf gf as_ g3 prof norm radius sens dn sp cb sel); [exact Spos|exact Fo]). subst pos'. specialize (B p Hp). rewrite Sp in B.
  pose proof (pitch_ver sp0 img index d xs ys prof ltac:(lia) ltac:(lia) D2 Et) as [_ P]. rewrite D1, Ih in P.
  destruct (cos_pos_deg d D2) as [Ba Hc]. rewrite D1 in Ba, Hc.
  destruct (along_bounds (ih mat) (atan slope) (ih mat - 1) ltac:(lia) Ba ltac:(lia)) as (A0 & A1 & _).
  assert (W : 0 < IZR (ih mat - 1)) by (apply IZR_lt; lia).
  assert (PP : 0 <= pitch xs ys (ih mat)). { unfold pitch. apply Rmult_le_pos; [apply sqrt_pos|]. left. now apply Rinv_0_lt_compat. }
  set (L := along (ih mat) (atan slope) (ih mat - 1)) in *.
  assert (AL : along (ih mat) (atan slope) 1 * IZR (ih mat - 1) = L) by (unfold L, along; field; lra).
  set (r := p * pitch xs ys (ih mat)) in *. assert (R0 : 0 <= r) by (unfold r; nra). assert (RL : r <= L) by (unfold r; nra).
  split; [subst y; nra|].
  destruct (J 0%Z ltac:(lia)) as (J0 & _). rewrite X0, Iw in J0. destruct (J (ih img - 1)%Z ltac:(lia)) as (J2 & _ & _ & _ & _ & J6 & _).
  rewrite ?Iw, ?Ih in J2; rewrite ?Iw, ?Ih in J6. fold L in J6. unfold ver_x in J6.
  assert (T : slope * y = r * sin (atan slope)). { subst y. replace slope with (tan (atan slope)) at 1 by apply tan_atan. unfold tan. field. lra. }
  rewrite Ey, T. set (s := sin (atan slope)) in *.
  destruct (Rle_dec 0 s) as [q|q].
  - assert (0 <= r * s <= L * s) by (clear - R0 RL q; nra). lra.
  - assert (L * s <= r * s <= 0) by nra. lra.
Qed.
Print Assumptions C91_inside_horizontal_lines.
(** A bright vertical line in column 16 of a 12 x 21 image is reported in
    column 15 (double precision, nearest pixel, no background, no smoothing). *)
Definition nearest_f (m : image PrimFloat.float) (ps : list (PrimFloat.float * PrimFloat.float)) : list PrimFloat.float :=
  map (fun p => px m (@nfloor _ FloatNum (fst p + 0.5)%float) (@nfloor _ FloatNum (snd p + 0.5)%float)) ps.
Example C91_shift_ex : forall exp_ cf gf,
  @get_cross_points_ver_lines PrimFloat.float FloatNum (fun _ _ _ => Err ValueError) exp_ cf gf (@argsort_ins _ FloatNum) (fun l => l) (fun m => m)
    (fun _ => 0%float) (fun _ => 0%float) (fun _ => 1%float) (fun _ => 0%float) 0x1.921fb54442d18p+1%float nearest_f (fun m _ _ => mkimg (ih m) (iw m) (fun _ _ => 1%float))
    (mkimg 12 21 (fun _ j => if (j =? 16)%Z then 1%float else 0%float)) 0%float 5%float 1%float true 0 false 3 0.1%float true false false None =
  Ok [(0, 15); (5, 15); (10, 15)]%float.
Proof. intros. vm_compute. reflexivity. Qed.
