(** Facts about cross points in exact arithmetic. *)
From Coq Require Import Reals ZArith List Lra Lia Psatz Sorted Permutation.
From Flocq Require Import Core.
From Verif Require Import Base Num NumFacts Sorting Img Spec Lsq ProcSpec Post PrepImg Proc ProcFacts ProcFacts2 Line LineFacts LineFacts2 LineFacts3 LineFacts4 Props_Line Props_Line2 Props_Line3 LineSpec ProfSpec.
Import ListNotations.
Local Open Scope R_scope.
Local Existing Instance Rex.

Lemma range_hor_ok h w d : (1 <= h)%Z -> (1 <= w)%Z -> Rabs d < 90 -> (exists index, hor_index_ok h w (radians d) index) ->
  exists m M, calc_index_range tan PI h w d true = Ok (m, M) /\ forall index, IZR m <= index <= IZR M -> hor_index_ok h w (radians d) index.
Proof.
  intros Hh Hw Hd [index Hok]. set (a := radians d) in *. destruct (cos_pos_deg d Hd) as [Ba Hc]. fold a in Ba, Hc.
  assert (W1 : 1 <= IZR w) by (apply IZR_le; lia).
  rewrite range_hor by assumption. fold a. unfold hor_index_ok in *. destruct (Rlt_dec 0 a) as [p|p].
  - assert (T : 0 < tan a) by (apply tan_gt_0; lra). assert (m0 : (0 <= Zceil (IZR w * tan a))%Z) by (apply le_IZR; pose proof (Zceil_ub (IZR w * tan a)); simpl; nra).
    assert (m1 : (Zceil (IZR w * tan a) <= h - 1)%Z) by (apply le_IZR; lra).
    destruct (Z.ltb_spec (Zceil (IZR w * tan a)) 0); [lia|]. destruct (Z.leb_spec h (Zceil (IZR w * tan a))); [lia|]. destruct (Z.ltb_spec (h - 1) 0); [lia|]. destruct (Z.leb_spec h (h - 1)); [lia|].
    cbn [orb]. eexists _, _. split; [reflexivity|auto].
  - assert (T : 0 <= tan (- a)) by (apply tan_nonneg; lra). assert (m0 : (0 <= Zfloor (IZR w * tan (- a)))%Z) by (apply Zfloor_lub; simpl; nra).
    assert (m1 : (0 <= h - 1 - Zfloor (IZR w * tan (- a)))%Z) by (apply le_IZR; lra).
    destruct (Z.leb_spec h 0); [lia|]. destruct (Z.ltb_spec (h - 1 - Zfloor (IZR w * tan (- a))) 0); [lia|]. destruct (Z.leb_spec h (h - 1 - Zfloor (IZR w * tan (- a)))); [lia|].
    cbn [orb Z.ltb Z.compare]. eexists _, _. split; [reflexivity|auto].
Qed.
Lemma range_ver_ok h w d : (1 <= h)%Z -> (1 <= w)%Z -> Rabs d < 90 -> (exists index, ver_index_ok h w (radians d) index) ->
  exists m M, calc_index_range tan PI h w d false = Ok (m, M) /\ forall index, IZR m <= index <= IZR M -> ver_index_ok h w (radians d) index.
Proof.
  intros Hh Hw Hd [index Hok]. set (a := radians d) in *. destruct (cos_pos_deg d Hd) as [Ba Hc]. fold a in Ba, Hc.
  assert (W1 : 1 <= IZR h) by (apply IZR_le; lia).
  rewrite range_ver by assumption. fold a. unfold ver_index_ok in *. destruct (Rlt_dec 0 a) as [p|p].
  - assert (T : 0 < tan a) by (apply tan_gt_0; lra). assert (m0 : (0 <= Zceil (IZR h * tan a))%Z) by (apply le_IZR; pose proof (Zceil_ub (IZR h * tan a)); simpl; nra).
    assert (m1 : (0 <= w - 1 - Zceil (IZR h * tan a))%Z) by (apply le_IZR; lra).
    destruct (Z.leb_spec w 0); [lia|]. destruct (Z.ltb_spec (w - 1 - Zceil (IZR h * tan a)) 0); [lia|]. destruct (Z.leb_spec w (w - 1 - Zceil (IZR h * tan a))); [lia|].
    cbn [orb Z.ltb Z.compare]. eexists _, _. split; [reflexivity|auto].
  - assert (T : 0 <= tan (- a)) by (apply tan_nonneg; lra). assert (m0 : (0 <= Zfloor (IZR h * tan (- a)))%Z) by (apply Zfloor_lub; simpl; nra).
    assert (m1 : (Zfloor (IZR h * tan (- a)) <= w - 1)%Z) by (apply le_IZR; lra).
    destruct (Z.ltb_spec (Zfloor (IZR h * tan (- a))) 0); [lia|]. destruct (Z.leb_spec w (Zfloor (IZR h * tan (- a)))); [lia|]. destruct (Z.ltb_spec (w - 1) 0); [lia|]. destruct (Z.leb_spec w (w - 1)); [lia|].
    cbn [orb]. eexists _, _. split; [reflexivity|auto].
Qed.
Lemma arange_R start stop step : 0 < step -> exists l, arange_chk start stop step = Ok l /\
  forall i, In i l <-> exists k, (0 <= k)%Z /\ i = start + IZR k * step /\ i < stop.
Proof.
  intros Hs. unfold arange_chk, narange. change (@n0 R Rex) with 0. cbn [neqb nsub ndiv nadd nmul nofZ nceil Rex Rnum].
  rewrite Req_bool_true by reflexivity. rewrite Req_bool_false by lra. cbn [negb orb]. eexists. split; [reflexivity|].
  set (q := (stop - start) / step). assert (Q : stop = start + q * step) by (unfold q; field; lra).
  intros i. rewrite in_map_iff. split.
  - intros [k [<- Hk]]. apply in_zrange in Hk. exists k. split; [lia|]. replace (start + step - start) with step by ring. split; [reflexivity|].
    assert (IZR k < q). { apply Rnot_le_lt. intros H. assert (Zceil q <= k)%Z by now apply Zceil_glb. lia. } rewrite Q. nra.
  - intros [k (Hk & -> & Hl)]. exists k. replace (start + step - start) with step by ring. split; [reflexivity|]. apply in_zrange. split; [assumption|].
    apply lt_IZR. apply Rlt_le_trans with q; [|apply Zceil_ub]. rewrite Q in Hl. nra.
Qed.
Lemma deg_rad s : let d := rad2deg PI (atan s) in radians d = atan s /\ Rabs d < 90.
Proof.
  cbn zeta. pose proof PI_RGT_0. pose proof (atan_bound s) as B. unfold rad2deg, radians. cbn [nmul ndiv nofZ Rex Rnum].
  split; [field; lra|]. assert (E : atan s * (180 / PI) = (atan s / PI) * 180) by (field; lra). rewrite E.
  assert (- (1/2) < atan s / PI < 1/2). { split; apply Rmult_lt_reg_r with PI; try lra; unfold Rdiv; rewrite (Rmult_assoc (atan s)), Rinv_l by lra; lra. }
  apply Rabs_def1; lra.
Qed.
Lemma radians_opp d : radians (- d) = - radians d.
Proof. unfold radians, Rdiv. ring. Qed.
Lemma pyget0 (l : list R) : (1 <= size l)%Z -> pyget l 0 = Ok (sample l 0).
Proof. intros H. change 0%Z with (Z.of_nat 0) at 1. rewrite (pyget_nth l 0 0) by (unfold size in H; lia). reflexivity. Qed.
Lemma pygetlast (l : list R) : (1 <= size l)%Z -> pyget l (-1) = Ok (sample l (size l - 1)).
Proof.
  intros H. unfold pyget. fold (size l). change (-1 <? 0)%Z with true. cbv beta iota zeta.
  destruct (Z.ltb_spec (-1 + size l) 0) as [|_]; [lia|]. destruct (Z.leb_spec (size l) (-1 + size l)) as [|_]; [lia|]. cbn [orb].
  replace (-1 + size l)%Z with (size l - 1)%Z by lia. rewrite sample_nth_error by lia. reflexivity.
Qed.
Section Cross.
  Variable polyfit : list R -> list R -> nat -> res (list R).
  Variable exp_ : R -> R.
  Variable cf : list R -> list R -> option (R * R * R * R).
  Variable gf : list R -> R -> list R.
  Variable argsort : list R -> list nat.
  Variable g3 : list R -> list R.
  Variable gaussian3 : image R -> image R.
  Variable spline : image R -> list (R * R) -> list R.
  Variable fft : image R -> R -> Z -> image R.
  Let EXT := get_local_extrema_points polyfit exp_ cf gf argsort g3.
  Let PP := profile_points polyfit exp_ cf gf argsort g3.
  (** What is searched on one profile. *)
  Definition searched (prof : list R) norm radius sens denoise subpixel (chessboard : bool) select (pos : list R) : Prop :=
    exists prof', (if chessboard then sliding_window_slope polyfit as_float prof 3 true = Ok prof' else prof' = prof) /\
    EXT prof' true radius sens (negb denoise) (negb norm) subpixel select = Ok pos.
  Lemma points_ok xs ys prof n norm radius sens denoise sp cb sel r : (1 <= size xs)%Z -> (1 <= size ys)%Z ->
    PP xs ys prof n norm radius sens denoise sp cb sel = Ok r <->
    exists pos, searched prof norm radius sens denoise sp cb sel pos /\ r = map (fun p => p * pitch xs ys n) pos.
  Proof.
    intros Hx Hy. unfold PP, profile_points. rewrite !pyget0, !pygetlast by assumption. cbn [bind].
    cbn [nsqrt nadd nsub npow nmul ndiv nofZ Rex Rnum]. fold (pitch xs ys n).
    split.
    - intros H. destruct cb.
      + change (fun v : R => v) with as_float in H. destruct (sliding_window_slope polyfit as_float prof 3 true) as [prof'|e] eqn:E; [|discriminate]. cbn [bind] in H.
        fold EXT in H. destruct (EXT prof' true radius sens (negb denoise) (negb norm) sp sel) as [pos|e] eqn:E2; [|discriminate]. cbn [bind] in H. apply Ok_inj in H. subst r.
        exists pos. split; [exists prof'; auto|reflexivity].
      + cbn [bind] in H. fold EXT in H. destruct (EXT prof true radius sens (negb denoise) (negb norm) sp sel) as [pos|e] eqn:E2; [|discriminate]. cbn [bind] in H. apply Ok_inj in H. subst r.
        exists pos. split; [exists prof; auto|reflexivity].
    - intros [pos [[prof' [E1 E2]] ->]]. destruct cb.
      + change (fun v : R => v) with as_float. rewrite E1. cbn [bind]. fold EXT. rewrite E2. reflexivity.
      + subst prof'. cbn [bind]. fold EXT. rewrite E2. reflexivity.
  Qed.
  Lemma searched_ok prof norm radius sens denoise sp cb sel : polyfit_oracle polyfit -> argsort_spec argsort -> (forall q, length (g3 q) = length q) -> (5 <= size prof)%Z ->
    exists pos, searched prof norm radius sens denoise sp cb sel pos /\ forall p, In p pos -> 0 <= p < IZR (size prof - 1).
  Proof.
    intros PF AS G Hn.
    assert (X : exists prof', (if cb then sliding_window_slope polyfit as_float prof 3 true = Ok prof' else prof' = prof) /\ size prof' = size prof).
    { destruct cb; [|exists prof; auto]. destruct (C59_error polyfit prof 3 true PF) as [_ X]. destruct (X ltac:(lia)) as [prof' E].
      destruct (C59_slopes polyfit prof 3 true prof' PF E) as (_ & _ & L & _). exists prof'. split; [assumption|]. unfold size in *; lia. }
    destruct X as [prof' [E L]].
    destruct (C60_total polyfit exp_ cf gf argsort g3 prof' true radius sens (negb denoise) (negb norm) sp sel PF AS G ltac:(lia)) as [v [Ev Bv]].
    exists v. split; [exists prof'; auto|]. intros p Hp. specialize (Bv p Hp). set (r := search_radius (size prof') radius) in *.
    assert (Hr : (1 <= r)%Z). { unfold r, search_radius. assert (1 <= size prof' / 4)%Z by (apply Z.div_le_lower_bound; lia). lia. }
    rewrite L in Bv. assert (0 <= IZR (r - 1)) by (apply IZR_le; lia). assert (IZR (size prof - r) <= IZR (size prof - 1)) by (apply IZR_le; lia). lra.
  Qed.
  Lemma searched_unique prof norm radius sens denoise sp cb sel p q : searched prof norm radius sens denoise sp cb sel p -> searched prof norm radius sens denoise sp cb sel q -> p = q.
  Proof.
    intros [a [Ea Ep]] [b [Eb Eq]]. assert (a = b) by (destruct cb; [rewrite Ea in Eb; now apply Ok_inj in Eb|congruence]). subst b. rewrite Ep in Eq. now apply Ok_inj in Eq.
  Qed.
  Lemma searched_total prof norm radius sens denoise sp cb sel : polyfit_oracle polyfit -> argsort_spec argsort -> (forall q, length (g3 q) = length q) -> (5 <= size prof)%Z ->
    exists pos, searched prof norm radius sens denoise sp cb sel pos.
  Proof. intros PF AS G Hn. destruct (searched_ok prof norm radius sens denoise sp cb sel PF AS G Hn) as [pos [Hp _]]. eauto. Qed.
  Let HOR := get_cross_points_hor_lines polyfit exp_ cf gf argsort g3 gaussian3 tan sin cos atan PI spline fft.
  Let VER := get_cross_points_ver_lines polyfit exp_ cf gf argsort g3 gaussian3 tan sin cos atan PI spline fft.
  Let CI := cross_image gaussian3 fft.
  Lemma mapM_inv {A B} (f : A -> res B) l bs : mapM f l = Ok bs -> Forall2 (fun a b => f a = Ok b) l bs.
  Proof.
    revert bs. induction l as [|a l IH]; intros bs H; cbn [mapM] in H; [apply Ok_inj in H; subst; constructor|].
    destruct (f a) as [b|e] eqn:E; [|discriminate]. cbn [bind] in H. destruct (mapM f l) as [bs'|e]; [|discriminate]. cbn [bind] in H. apply Ok_inj in H. subst. constructor; auto.
  Qed.
  Lemma Forall2_In_r {A B} (P : A -> B -> Prop) l bs b : Forall2 P l bs -> In b bs -> exists a, In a l /\ P a b.
  Proof. intros F H. induction F as [|x y l bs Hxy F IH]; [destruct H|]. destruct H as [->|H]; [exists x; split; [now left|assumption]|]. destruct (IH H) as [a [Ha Pa]]. exists a. split; [now right|assumption]. Qed.
  Lemma Forall2_In_l {A B} (P : A -> B -> Prop) l bs a : Forall2 P l bs -> In a l -> exists b, In b bs /\ P a b.
  Proof. intros F H. induction F as [|x y l bs Hxy F IH]; [destruct H|]. destruct H as [->|H]; [exists y; split; [now left|assumption]|]. destruct (IH H) as [b [Hb Pb]]. exists b. split; [now right|assumption]. Qed.
  Lemma range_hor_iff h w d m M : Rabs d < 90 -> calc_index_range tan PI h w d true = Ok (m, M) -> forall index, hor_index_ok h w (radians d) index <-> IZR m <= index <= IZR M.
  Proof.
    intros Hd E index. rewrite range_hor in E by assumption. unfold hor_index_ok. destruct (Rlt_dec 0 (radians d));
    match type of E with (if ?b then _ else _) = _ => destruct b; [discriminate|] end; injection E as <- <-; reflexivity.
  Qed.
  Lemma range_ver_iff h w d m M : Rabs d < 90 -> calc_index_range tan PI h w d false = Ok (m, M) -> forall index, ver_index_ok h w (radians d) index <-> IZR m <= index <= IZR M.
  Proof.
    intros Hd E index. rewrite range_ver in E by assumption. unfold ver_index_ok. destruct (Rlt_dec 0 (radians d));
    match type of E with (if ?b then _ else _) = _ => destruct b; [discriminate|] end; injection E as <- <-; reflexivity.
  Qed.
  Lemma in_combine_maps {A} (f g : A -> R) l q : In q (combine (map f l) (map g l)) <-> exists p, In p l /\ q = (f p, g p).
  Proof.
    induction l as [|p l IH]; cbn [map combine]; [split; [intros []|intros [? [[] _]]]|]. split.
    - intros [<-|H]; [exists p; split; [now left|reflexivity]|]. apply IH in H. destruct H as [p' [h1 h2]]. exists p'. split; [now right|assumption].
    - intros [p' [[->|H] ->]]; [now left|]. right. apply IH. eauto.
  Qed.
  (** Where the points come from. *)
  Lemma ver_points mat img slope dist ratio norm offset bright radius sens denoise sp cb sel ps :
    (1 <= ih mat)%Z -> (1 <= iw mat)%Z -> CI mat norm bright denoise = Ok img -> ih img = ih mat -> iw img = iw mat -> 0 < ratio * dist ->
    VER mat slope dist ratio norm offset bright radius sens denoise sp cb sel = Ok ps ->
    exists m M, calc_index_range tan PI (ih mat) (iw mat) (- rad2deg PI (atan slope)) true = Ok (m, M) /\
    let off := Z.min (Z.max offset 0) (Z.min (ih mat) (iw mat) / 8) in
    forall q, In q ps <-> exists k index xs ys prof pos p, (0 <= k)%Z /\ index = IZR (m + off) + IZR k * (ratio * dist) /\ index < IZR (M - off) /\
      tilted_profile spline img index (- rad2deg PI (atan slope)) true = Ok (xs, ys, prof) /\
      searched prof norm radius sens denoise sp cb sel pos /\ In p pos /\
      let r := p * pitch xs ys (iw mat) in q = (r * sin (atan slope) + sample ys 0, r * cos (atan slope) + sample xs 0).
  Proof.
    intros Hh Hw EI Ih Iw Hs E. unfold VER, get_cross_points_ver_lines in E. fold CI in E. rewrite EI in E. cbn [bind] in E. cbn zeta in E.
    change (nopp (rad2deg PI (atan slope))) with (- rad2deg PI (atan slope)) in E.
    destruct (deg_rad slope) as [D1 D2].
    destruct (calc_index_range tan PI (ih mat) (iw mat) (- rad2deg PI (atan slope)) true) as [[m M]|e] eqn:Er; [|discriminate]. cbn [bind] in E.
    exists m, M. split; [reflexivity|]. cbn zeta. set (off := Z.min (Z.max offset 0) _) in *.
    destruct (arange_R (IZR (m + off)) (IZR (M - off)) (ratio * dist) Hs) as [is_ [Ea Hi]].
    match type of E with context[arange_chk ?a ?b ?c] => change (arange_chk a b c) with (arange_chk (IZR (m + off)) (IZR (M - off)) (ratio * dist)) in E end. rewrite Ea in E. cbn [bind] in E.
    match type of E with context[mapM ?f is_] => destruct (mapM f is_) as [pss|e] eqn:Em; [|discriminate] end. cbn [bind] in E. apply Ok_inj in E. subst ps.
    apply mapM_inv in Em.
    assert (Q : forall index pl, (t <- tilted_profile spline img index (- rad2deg PI (atan slope)) true ;;
        let '(xlist, ylist, profile) := t in
        rlist <- profile_points polyfit exp_ cf gf argsort g3 xlist ylist profile (iw mat) norm radius sens denoise sp cb sel ;;
        x0 <- pyget xlist 0 ;; y0 <- pyget ylist 0 ;;
        let xlist1 := map (fun r => nadd (nmul r (cos (atan slope))) x0) rlist in
        let ylist1 := map (fun r => nadd (nmul r (sin (atan slope))) y0) rlist in
        Ok (combine ylist1 xlist1)) = Ok pl -> forall q, In q pl <-> exists xs ys prof pos p, tilted_profile spline img index (- rad2deg PI (atan slope)) true = Ok (xs, ys, prof) /\
          searched prof norm radius sens denoise sp cb sel pos /\ In p pos /\
          let r := p * pitch xs ys (iw mat) in q = (r * sin (atan slope) + sample ys 0, r * cos (atan slope) + sample xs 0)).
    { intros index pl Ei q. destruct (tilted_profile spline img index (- rad2deg PI (atan slope)) true) as [[[xs ys] prof]|e] eqn:Et; [|discriminate]. cbn [bind] in Ei.
      pose proof Et as Et2. apply C61_horizontal in Et2; [|lia|lia|rewrite Rabs_Ropp; assumption]. destruct Et2 as (Sx & Sy & _ & _ & _).
      destruct (PP xs ys prof (iw mat) norm radius sens denoise sp cb sel) as [rl|e] eqn:Ep; pose proof Ep as Ep0; unfold PP in Ep0; rewrite Ep0 in Ei; [|discriminate]. cbn [bind] in Ei.
      rewrite !pyget0 in Ei by lia. cbn [bind] in Ei. apply Ok_inj in Ei. subst pl. rewrite in_combine_maps. split.
      - apply points_ok in Ep; [|lia|lia]. destruct Ep as [pos [Spos ->]]. intros [r [Hr ->]]. apply in_map_iff in Hr. destruct Hr as [p [<- Hp]].
        exists xs, ys, prof, pos, p. repeat split; assumption.
      - intros (xs' & ys' & prof' & pos & p & E' & Spos & Hp & Eq). injection E' as <- <- <-. cbn zeta in Eq.
        assert (Ep' : PP xs ys prof (iw mat) norm radius sens denoise sp cb sel = Ok (map (fun p => p * pitch xs ys (iw mat)) pos)) by (apply points_ok; [lia|lia|]; eauto).
        rewrite Ep in Ep'. apply Ok_inj in Ep'. subst rl. exists (p * pitch xs ys (iw mat)). split; [|exact Eq]. apply in_map_iff. eauto. }
    intros q. split.
    - intros Hq. apply in_concat in Hq. destruct Hq as [pl [Hpl Hq]]. destruct (Forall2_In_r _ _ _ _ Em Hpl) as [index [Hin Ei]]. apply Hi in Hin. destruct Hin as [k (K1 & K2 & K3)].
      apply (Q index pl Ei) in Hq. destruct Hq as (xs & ys & prof & pos & p & H). exists k, index, xs, ys, prof, pos, p. auto.
    - intros (k & index & xs & ys & prof & pos & p & K1 & K2 & K3 & H). assert (Hin : In index is_) by (apply Hi; eauto).
      destruct (Forall2_In_l _ _ _ _ Em Hin) as [pl [Hpl Ei]]. apply in_concat. exists pl. split; [assumption|]. apply (Q index pl Ei). exists xs, ys, prof, pos, p. exact H.
  Qed.
  Lemma hor_points mat img slope dist ratio norm offset bright radius sens denoise sp cb sel ps :
    (1 <= ih mat)%Z -> (1 <= iw mat)%Z -> CI mat norm bright denoise = Ok img -> ih img = ih mat -> iw img = iw mat -> 0 < ratio * dist ->
    HOR mat slope dist ratio norm offset bright radius sens denoise sp cb sel = Ok ps ->
    exists m M, calc_index_range tan PI (ih mat) (iw mat) (rad2deg PI (atan slope)) false = Ok (m, M) /\
    let off := Z.min (Z.max offset 0) (Z.min (ih mat) (iw mat) / 3) in
    forall q, In q ps <-> exists k index xs ys prof pos p, (0 <= k)%Z /\ index = IZR (m + off) + IZR k * (ratio * dist) /\ index < IZR (M - off) /\
      tilted_profile spline img index (rad2deg PI (atan slope)) false = Ok (xs, ys, prof) /\
      searched prof norm radius sens denoise sp cb sel pos /\ In p pos /\
      let r := p * pitch xs ys (ih mat) in q = (r * cos (atan slope) + sample ys 0, r * sin (atan slope) + sample xs 0).
  Proof.
    intros Hh Hw EI Ih Iw Hs E. unfold HOR, get_cross_points_hor_lines in E. fold CI in E. rewrite EI in E. cbn [bind] in E. cbn zeta in E.
    destruct (deg_rad slope) as [D1 D2].
    destruct (calc_index_range tan PI (ih mat) (iw mat) (rad2deg PI (atan slope)) false) as [[m M]|e] eqn:Er; [|discriminate]. cbn [bind] in E.
    exists m, M. split; [reflexivity|]. cbn zeta. set (off := Z.min (Z.max offset 0) _) in *.
    destruct (arange_R (IZR (m + off)) (IZR (M - off)) (ratio * dist) Hs) as [is_ [Ea Hi]].
    match type of E with context[arange_chk ?a ?b ?c] => change (arange_chk a b c) with (arange_chk (IZR (m + off)) (IZR (M - off)) (ratio * dist)) in E end. rewrite Ea in E. cbn [bind] in E.
    match type of E with context[mapM ?f is_] => destruct (mapM f is_) as [pss|e] eqn:Em; [|discriminate] end. cbn [bind] in E. apply Ok_inj in E. subst ps.
    apply mapM_inv in Em.
    assert (Q : forall index pl, (t <- tilted_profile spline img index (rad2deg PI (atan slope)) false ;;
        let '(xlist, ylist, profile) := t in
        rlist <- profile_points polyfit exp_ cf gf argsort g3 xlist ylist profile (ih mat) norm radius sens denoise sp cb sel ;;
        x0 <- pyget xlist 0 ;; y0 <- pyget ylist 0 ;;
        let xlist1 := map (fun r => nadd (nmul r (sin (atan slope))) x0) rlist in
        let ylist1 := map (fun r => nadd (nmul r (cos (atan slope))) y0) rlist in
        Ok (combine ylist1 xlist1)) = Ok pl -> forall q, In q pl <-> exists xs ys prof pos p, tilted_profile spline img index (rad2deg PI (atan slope)) false = Ok (xs, ys, prof) /\
          searched prof norm radius sens denoise sp cb sel pos /\ In p pos /\
          let r := p * pitch xs ys (ih mat) in q = (r * cos (atan slope) + sample ys 0, r * sin (atan slope) + sample xs 0)).
    { intros index pl Ei q. destruct (tilted_profile spline img index (rad2deg PI (atan slope)) false) as [[[xs ys] prof]|e] eqn:Et; [|discriminate]. cbn [bind] in Ei.
      pose proof Et as Et2. apply C61_vertical in Et2; [|lia|lia|assumption]. destruct Et2 as (Sx & Sy & _ & _ & _).
      destruct (PP xs ys prof (ih mat) norm radius sens denoise sp cb sel) as [rl|e] eqn:Ep; pose proof Ep as Ep0; unfold PP in Ep0; rewrite Ep0 in Ei; [|discriminate]. cbn [bind] in Ei.
      rewrite !pyget0 in Ei by lia. cbn [bind] in Ei. apply Ok_inj in Ei. subst pl. rewrite in_combine_maps. split.
      - apply points_ok in Ep; [|lia|lia]. destruct Ep as [pos [Spos ->]]. intros [r [Hr ->]]. apply in_map_iff in Hr. destruct Hr as [p [<- Hp]].
        exists xs, ys, prof, pos, p. repeat split; assumption.
      - intros (xs' & ys' & prof' & pos & p & E' & Spos & Hp & Eq). injection E' as <- <- <-. cbn zeta in Eq.
        assert (Ep' : PP xs ys prof (ih mat) norm radius sens denoise sp cb sel = Ok (map (fun p => p * pitch xs ys (ih mat)) pos)) by (apply points_ok; [lia|lia|]; eauto).
        rewrite Ep in Ep'. apply Ok_inj in Ep'. subst rl. exists (p * pitch xs ys (ih mat)). split; [|exact Eq]. apply in_map_iff. eauto. }
    intros q. split.
    - intros Hq. apply in_concat in Hq. destruct Hq as [pl [Hpl Hq]]. destruct (Forall2_In_r _ _ _ _ Em Hpl) as [index [Hin Ei]]. apply Hi in Hin. destruct Hin as [k (K1 & K2 & K3)].
      apply (Q index pl Ei) in Hq. destruct Hq as (xs & ys & prof & pos & p & H). exists k, index, xs, ys, prof, pos, p. auto.
    - intros (k & index & xs & ys & prof & pos & p & K1 & K2 & K3 & H). assert (Hin : In index is_) by (apply Hi; eauto).
      destruct (Forall2_In_l _ _ _ _ Em Hin) as [pl [Hpl Ei]]. apply in_concat. exists pl. split; [assumption|]. apply (Q index pl Ei). exists xs, ys, prof, pos, p. exact H.
  Qed.
  (** No error. *)
  Hypothesis PF : polyfit_oracle polyfit.
  Hypothesis AS : argsort_spec argsort.
  Hypothesis G3 : forall q, length (g3 q) = length q.
  Hypothesis SL : spline_local spline.
  Lemma ver_total mat img slope dist ratio norm offset bright radius sens denoise sp cb sel :
    (5 <= ih mat <= 32767)%Z -> (5 <= iw mat <= 32767)%Z -> CI mat norm bright denoise = Ok img -> ih img = ih mat -> iw img = iw mat -> 0 < ratio * dist ->
    (exists index, hor_index_ok (ih mat) (iw mat) (- atan slope) index) ->
    exists ps, VER mat slope dist ratio norm offset bright radius sens denoise sp cb sel = Ok ps.
  Proof.
    intros Hh Hw EI Ih Iw Hs Hok. unfold VER, get_cross_points_ver_lines. fold CI. rewrite EI. cbn [bind]. cbn zeta.
    change (nopp (rad2deg PI (atan slope))) with (- rad2deg PI (atan slope)).
    destruct (deg_rad slope) as [D1 D2]. cbn zeta in D1, D2. set (d := - rad2deg PI (atan slope)). assert (D3 : radians d = - atan slope) by (unfold d; rewrite radians_opp, D1; reflexivity).
    assert (D4 : Rabs d < 90) by (unfold d; rewrite Rabs_Ropp; assumption). rewrite <- D3 in Hok.
    destruct (range_hor_ok (ih mat) (iw mat) d ltac:(lia) ltac:(lia) D4 Hok) as (m & M & -> & HI). cbn [bind].
    set (off := Z.min _ _). assert (O : (0 <= off)%Z) by (unfold off; assert (0 <= Z.min (ih mat) (iw mat) / 8)%Z by (apply Z.div_pos; lia); lia).
    destruct (arange_R (IZR (m + off)) (IZR (M - off)) (ratio * dist) Hs) as [is_ [Ea Hi]]. match goal with |- context[arange_chk ?a ?b ?c] => change (arange_chk a b c) with (arange_chk (IZR (m + off)) (IZR (M - off)) (ratio * dist)) end. rewrite Ea. cbn [bind].
    match goal with |- context[mapM ?f is_] => destruct (mapM_spec f (fun _ _ => True) is_) as [pss [Em _]] end.
    - intros index Hin. apply Hi in Hin. destruct Hin as [k (Hk & Ek & Hl)].
      assert (IO : hor_index_ok (ih img) (iw img) (radians d) index).
      { rewrite Ih, Iw. apply HI. rewrite plus_IZR in Ek. rewrite minus_IZR in Hl. apply IZR_le in O, Hk. cbn in O, Hk. nra. }
      destruct (C61_accepted spline img index d true ltac:(lia) ltac:(lia) D4) as [A _]. destruct (A IO) as [[[xs ys] prof] Et]. rewrite Et. cbn [bind].
      pose proof Et as Et2. apply C61_horizontal in Et2; [|lia|lia|assumption]. destruct Et2 as (Sx & Sy & _ & _ & _).
      destruct (C61_band_horizontal spline img index d xs ys prof ltac:(lia) ltac:(lia) D4 Et) as (lo & hi & band & _ & _ & _ & _ & _ & _ & Eprof).
      assert (Sp : size prof = iw img). { rewrite Eprof. unfold size. rewrite (proj1 SL), combine_length, map_length. unfold size in Sx, Sy. lia. }
      destruct (searched_total prof norm radius sens denoise sp cb sel PF AS G3 ltac:(lia)) as [pos Spos].
      assert (Er : PP xs ys prof (iw mat) norm radius sens denoise sp cb sel = Ok (map (fun p => p * pitch xs ys (iw mat)) pos)) by (apply points_ok; [lia|lia|]; eauto).
      unfold PP in Er. rewrite Er. cbn [bind]. rewrite !pyget0 by lia. cbn [bind]. eexists. split; [reflexivity|exact I].
    - rewrite Em. cbn [bind]. eexists. reflexivity.
  Qed.
  Lemma hor_total mat img slope dist ratio norm offset bright radius sens denoise sp cb sel :
    (5 <= ih mat <= 32767)%Z -> (5 <= iw mat <= 32767)%Z -> CI mat norm bright denoise = Ok img -> ih img = ih mat -> iw img = iw mat -> 0 < ratio * dist ->
    (exists index, ver_index_ok (ih mat) (iw mat) (atan slope) index) ->
    exists ps, HOR mat slope dist ratio norm offset bright radius sens denoise sp cb sel = Ok ps.
  Proof.
    intros Hh Hw EI Ih Iw Hs Hok. unfold HOR, get_cross_points_hor_lines. fold CI. rewrite EI. cbn [bind]. cbn zeta.
    destruct (deg_rad slope) as [D1 D2]. cbn zeta in D1, D2. set (d := rad2deg PI (atan slope)) in *. rewrite <- D1 in Hok.
    destruct (range_ver_ok (ih mat) (iw mat) d ltac:(lia) ltac:(lia) D2 Hok) as (m & M & -> & HI). cbn [bind].
    set (off := Z.min _ _). assert (O : (0 <= off)%Z) by (unfold off; assert (0 <= Z.min (ih mat) (iw mat) / 3)%Z by (apply Z.div_pos; lia); lia).
    destruct (arange_R (IZR (m + off)) (IZR (M - off)) (ratio * dist) Hs) as [is_ [Ea Hi]]. match goal with |- context[arange_chk ?a ?b ?c] => change (arange_chk a b c) with (arange_chk (IZR (m + off)) (IZR (M - off)) (ratio * dist)) end. rewrite Ea. cbn [bind].
    match goal with |- context[mapM ?f is_] => destruct (mapM_spec f (fun _ _ => True) is_) as [pss [Em _]] end.
    - intros index Hin. apply Hi in Hin. destruct Hin as [k (Hk & Ek & Hl)].
      assert (IO : ver_index_ok (ih img) (iw img) (radians d) index).
      { rewrite Ih, Iw. apply HI. rewrite plus_IZR in Ek. rewrite minus_IZR in Hl. apply IZR_le in O, Hk. cbn in O, Hk. nra. }
      destruct (C61_accepted spline img index d false ltac:(lia) ltac:(lia) D2) as [A _]. destruct (A IO) as [[[xs ys] prof] Et]. rewrite Et. cbn [bind].
      pose proof Et as Et2. apply C61_vertical in Et2; [|lia|lia|assumption]. destruct Et2 as (Sx & Sy & _ & _ & _).
      destruct (C61_band_vertical spline img index d xs ys prof ltac:(lia) ltac:(lia) D2 Et) as (lo & hi & band & _ & _ & _ & _ & _ & _ & Eprof).
      assert (Sp : size prof = ih img). { rewrite Eprof. unfold size. rewrite (proj1 SL), combine_length, map_length. unfold size in Sx, Sy. lia. }
      destruct (searched_total prof norm radius sens denoise sp cb sel PF AS G3 ltac:(lia)) as [pos Spos].
      assert (Er : PP xs ys prof (ih mat) norm radius sens denoise sp cb sel = Ok (map (fun p => p * pitch xs ys (ih mat)) pos)) by (apply points_ok; [lia|lia|]; eauto).
      unfold PP in Er. rewrite Er. cbn [bind]. rewrite !pyget0 by lia. cbn [bind]. eexists. split; [reflexivity|exact I].
    - rewrite Em. cbn [bind]. eexists. reflexivity.
  Qed.
End Cross.

(** Clipping the end of a line. *)
Lemma clipped_length c s L X Y : 0 <= L -> c ^ 2 + s ^ 2 = 1 -> 0 <= X -> X <= L * c <= X + 1 -> Rabs Y <= L * Rabs s <= Rabs Y + 1 ->
  L - sqrt 2 <= sqrt (X ^ 2 + Y ^ 2) <= L.
Proof.
  intros HL H1 HX Hx Hy. rewrite <- (pow2_abs Y), <- (pow2_abs s) in *. set (Z := Rabs Y) in *. set (t := Rabs s) in *.
  assert (HZ : 0 <= Z) by apply Rabs_pos. clearbody Z t. set (D := sqrt (X ^ 2 + Z ^ 2)).
  assert (D2 : D * D = X ^ 2 + Z ^ 2) by (apply sqrt_sqrt; nra). assert (D0 : 0 <= D) by apply sqrt_pos.
  assert (LL : L * L = (L * c) ^ 2 + (L * t) ^ 2) by (replace ((L * c) ^ 2 + (L * t) ^ 2) with (L * L * (c ^ 2 + t ^ 2)) by ring; rewrite H1; ring).
  set (A := L * c) in *. set (B := L * t) in *. clearbody A B. split.
  - set (q := sqrt 2). assert (Q2 : q * q = 2) by (apply sqrt_sqrt; lra). assert (Q0 : 0 <= q) by apply sqrt_pos.
    assert (K : X * (A - X) + Z * (B - Z) <= D * q).
    { apply Rsqr_incr_0_var; [|nra]. unfold Rsqr. replace (D * q * (D * q)) with ((D * D) * (q * q)) by ring. rewrite D2, Q2.
      assert (0 <= (A - X) <= 1) by lra. assert (0 <= B - Z <= 1) by lra. set (u := A - X) in *. set (v := B - Z) in *.
      apply Rle_trans with ((X ^ 2 + Z ^ 2) * (u ^ 2 + v ^ 2)); [assert (0 <= (X * v - Z * u) ^ 2) by apply pow2_ge_0; nra|].
      apply Rmult_le_compat_l; nra. }
    assert (L <= D + q); [|lra]. apply Rsqr_incr_0_var; [|lra]. unfold Rsqr. rewrite LL.
    assert ((A - X) ^ 2 <= 1) by nra. assert ((B - Z) ^ 2 <= 1) by nra. nra.
  - apply Rsqr_incr_0_var; [|lra]. unfold Rsqr. rewrite D2, LL. nra.
Qed.
Lemma along_last n a : (2 <= n)%Z -> along n a (n - 1) = IZR (Zfloor (IZR n / cos a)).
Proof. intros H. unfold along. field. apply not_0_IZR. lia. Qed.
(** Reported and sampled distance. *)
Lemma pitch_hor spline mat index d xs ys prof : (2 <= ih mat)%Z -> (2 <= iw mat)%Z -> Rabs d < 90 ->
  tilted_profile spline mat index d true = Ok (xs, ys, prof) ->
  along (iw mat) (radians d) 1 - sqrt 2 / IZR (iw mat - 1) <= pitch xs ys (iw mat) <= along (iw mat) (radians d) 1.
Proof.
  intros Hh Hw Hd E. destruct (C61_horizontal spline mat index d xs ys prof ltac:(lia) ltac:(lia) Hd E) as (Sx & Sy & X0 & Y0 & K). cbn zeta in K.
  destruct (cos_pos_deg d Hd) as [Ba Hc]. set (a := radians d) in *. set (w := iw mat) in *. set (h := ih mat) in *.
  destruct (K (w - 1)%Z ltac:(lia)) as (K1 & K2 & K3 & K4 & K5 & K6 & K7).
  destruct (K 0%Z ltac:(lia)) as (_ & J2 & _). rewrite Y0 in J2.
  destruct (along_bounds w a (w - 1) ltac:(lia) Ba ltac:(lia)) as (A0 & _). rewrite along_last in K3, K4, K5, K6, K7, A0 by lia.
  set (L := IZR (Zfloor (IZR w / cos a))) in *.
  assert (W : 0 < IZR (w - 1)) by (apply IZR_lt; lia).
  assert (C : L - sqrt 2 <= sqrt ((sample xs (w - 1) - 0) ^ 2 + (sample ys (w - 1) - index) ^ 2) <= L).
  { unfold hor_x, hor_y in *. apply (clipped_length (cos a) (sin a)); [assumption|pose proof (sin2_cos2 a) as T; unfold Rsqr in T; nra|lra|lra|].
    destruct (Rlt_dec 0 a) as [p|p].
    - rewrite (K7 p). assert (0 <= sin a) by (left; apply sin_gt_0; lra). replace (index - L * sin a - index) with (- (L * sin a)) by ring. rewrite Rabs_Ropp.
      rewrite Rabs_pos_eq by nra. rewrite Rabs_pos_eq by assumption. lra.
    - assert (S0 : sin a <= 0). { destruct (Req_EM_T a 0) as [->|]; [rewrite sin_0; lra|]. left. apply sin_lt_0_var; lra. }
      rewrite (Rabs_left1 (sin a)) by assumption. assert (LS : L * sin a <= 0) by nra.
      assert (Y1 : index <= sample ys (w - 1)) by (rewrite K5; apply Rmin_glb; lra). rewrite Rabs_pos_eq by lra. lra. }
  unfold pitch. rewrite Sx, Sy, X0, Y0. unfold along. rewrite Rmult_1_l. fold L. unfold Rdiv.
  assert (0 < / IZR (w - 1)) by now apply Rinv_0_lt_compat. split; [rewrite <- Rmult_minus_distr_r|]; apply Rmult_le_compat_r; lra.
Qed.
Lemma pitch_ver spline mat index d xs ys prof : (2 <= ih mat)%Z -> (2 <= iw mat)%Z -> Rabs d < 90 ->
  tilted_profile spline mat index d false = Ok (xs, ys, prof) ->
  along (ih mat) (radians d) 1 - sqrt 2 / IZR (ih mat - 1) <= pitch xs ys (ih mat) <= along (ih mat) (radians d) 1.
Proof.
  intros Hh Hw Hd E. destruct (C61_vertical spline mat index d xs ys prof ltac:(lia) ltac:(lia) Hd E) as (Sx & Sy & X0 & Y0 & K). cbn zeta in K.
  destruct (cos_pos_deg d Hd) as [Ba Hc]. set (a := radians d) in *. set (w := iw mat) in *. set (h := ih mat) in *.
  destruct (K (h - 1)%Z ltac:(lia)) as (K1 & K2 & K3 & K4 & K5 & K6 & K7).
  destruct (K 0%Z ltac:(lia)) as (J2 & _). rewrite X0 in J2.
  destruct (along_bounds h a (h - 1) ltac:(lia) Ba ltac:(lia)) as (A0 & _). rewrite along_last in K3, K4, K5, K6, K7, A0 by lia.
  set (L := IZR (Zfloor (IZR h / cos a))) in *.
  assert (W : 0 < IZR (h - 1)) by (apply IZR_lt; lia).
  assert (C : L - sqrt 2 <= sqrt ((sample xs (h - 1) - index) ^ 2 + (sample ys (h - 1) - 0) ^ 2) <= L).
  { rewrite Rplus_comm. unfold ver_x, ver_y in *. apply (clipped_length (cos a) (sin a)); [assumption|pose proof (sin2_cos2 a) as T; unfold Rsqr in T; nra|lra|lra|].
    destruct (Rlt_dec 0 a) as [p|p].
    - rewrite (K7 p). assert (0 <= sin a) by (left; apply sin_gt_0; lra). replace (index + L * sin a - index) with (L * sin a) by ring.
      rewrite Rabs_pos_eq by nra. rewrite Rabs_pos_eq by assumption. lra.
    - assert (S0 : sin a <= 0). { destruct (Req_EM_T a 0) as [->|]; [rewrite sin_0; lra|]. left. apply sin_lt_0_var; lra. }
      rewrite (Rabs_left1 (sin a)) by assumption. assert (LS : L * sin a <= 0) by nra.
      assert (Y1 : sample xs (h - 1) <= index) by (rewrite K5; apply Rmax_lub; lra). rewrite Rabs_left1 by lra. lra. }
  unfold pitch. rewrite Sx, Sy, X0, Y0. unfold along. rewrite Rmult_1_l. fold L. unfold Rdiv.
  assert (0 < / IZR (h - 1)) by now apply Rinv_0_lt_compat. split; [rewrite <- Rmult_minus_distr_r|]; apply Rmult_le_compat_r; lra.
Qed.
