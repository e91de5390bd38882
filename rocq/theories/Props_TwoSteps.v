(** C133: a tilted plane photographed through a distorting lens is recovered by
    correcting first the lens and then the perspective.  Vocabulary: Spec.v,
    Props_Scene.v ([photograph], [steep], [on_detector]), Props_Tilt.v
    ([camera], [seen_row], [seen_col], [place]), Props_Marks.v ([answer],
    [mismatch]), Props_Mono.v ([increasing_radius]). *)
From Coq Require Import Reals ZArith List Lra Lia.
From Flocq Require Import Core.
From Verif Require Import Base Num NumFacts Spec Lsq LsqEx ProcSpec PersSpec PrepSpec Img Post PostPersp PostLines PostImg Proc ProcPers ProcFacts5 RoundFacts Props_Round Props_RoundPers Props_Mono Props_Scene Props_Marks Props_Tilt.
From Verif Require Props_Noise Props_Slice.
Import ListNotations.
Local Open Scope R_scope.

(** *** Lines *)
(** The minimiser finds the radius below M which the lens moves to r F(r). *)
Definition solves (minimize : (R -> R) -> R -> R) (fact : list R) (M : R) : Prop :=
  forall r, 0 <= r <= M -> let u := answer minimize fact (r * poly fact r) in 0 <= u <= M /\ mismatch fact (r * poly fact r) u = 0.
Lemma increasing_unique fact M r s : increasing_radius fact M -> 0 <= r <= M -> 0 <= s <= M -> r * poly fact r = s * poly fact s -> r = s.
Proof.
  intros H Hr Hs E. destruct (Rtotal_order r s) as [L|[L|L]]; [|exact L|]; [pose proof (H r s ltac:(lra) L ltac:(lra))|pose proof (H s r ltac:(lra) L ltac:(lra))]; lra.
Qed.
Lemma lens_radius fact M c t : increasing_radius fact M -> dist t c <= M -> dist (radial_map fact c t) c = dist t c * poly fact (dist t c) /\ (t <> c -> 0 < dist t c /\ 0 < poly fact (dist t c)).
Proof.
  intros H Ht. pose proof (PostLines.dist_pos t c) as D. unfold radial_map. rewrite dist_scale. destruct (Req_dec (dist t c) 0) as [E|E].
  - rewrite E. split; [ring|]. intros N. exfalso. apply N. now apply dist_zero_eq.
  - assert (Dt : 0 < dist t c) by lra. pose proof (H 0 (dist t c) ltac:(lra) Dt Ht) as P. rewrite Rmult_0_l in P.
    assert (Pp : 0 < poly fact (dist t c)) by (apply Rmult_lt_reg_l with (dist t c); lra). split; [rewrite Rabs_pos_eq by lra; ring|]. intros _. split; assumption.
Qed.
Lemma lens_undone minimize fact M xc yc (t : pt) : increasing_radius fact M -> solves minimize fact M -> dist t (yc, xc) <= M ->
  @unwarp_dot_backward R Rex minimize DF64 xc yc fact (radial_map fact (yc, xc) t) = t.
Proof.
  intros Hi Hs Ht. set (c := (yc, xc)) in *. destruct (lens_radius fact M c t Hi Ht) as [Er Hp]. set (p := radial_map fact c t) in *.
  destruct (backward_point minimize xc yc fact p) as (Z & N & _). cbv zeta in Z, N. fold c in Z, N.
  pose proof (PostLines.dist_pos t c) as D. destruct (Req_dec (dist t c) 0) as [E|E].
  { apply dist_zero_eq in E. assert (Ep : p = c) by (unfold p; rewrite E; apply center_fixed). rewrite E. exact (Z Ep). }
  destruct (Hp ltac:(intros ->; rewrite dist_self in E; lra)) as [Dt Pt]. assert (Dp : 0 < dist p c) by (rewrite Er; now apply Rmult_lt_0_compat).
  assert (Np : p <> c) by (intros X; rewrite X, dist_self in Dp; lra). refine (eq_trans (N Np) _). clear Z N.
  destruct (Hs (dist t c) ltac:(lra)) as [U Mm]. rewrite <- Er in U, Mm. fold (answer minimize fact (dist p c)). set (u := answer minimize fact (dist p c)) in *.
  assert (Eu : u = dist t c).
  { apply (increasing_unique fact M); [exact Hi|exact U|lra|]. unfold mismatch in Mm. destruct (Req_dec (dist p c - u * poly fact u) 0) as [Q|Q]; [lra|]. apply Rabs_no_R0 in Q. contradiction. }
  rewrite Eu. unfold p at 2. unfold radial_map. rewrite scale_twice. replace (dist t c / dist p c * poly fact (dist t c)) with 1 by (rewrite Er; field; split; lra). apply ray_self.
Qed.
(** Lines of points seen through the lens are recovered exactly. *)
Theorem C133_lines : forall minimize fact M xc yc (lines : list (list pt)), increasing_radius fact M -> solves minimize fact M ->
  (forall l p, In l lines -> In p l -> dist p (yc, xc) <= M) ->
  @unwarp_line_backward R Rex minimize (map (fun l => (DF64, map (radial_map fact (yc, xc)) l)) lines) xc yc fact = map (fun l => (DF64, l)) lines.
Proof.
  intros minimize fact M xc yc lines Hi Hs Hl. unfold unwarp_line_backward. rewrite map_map. apply map_ext_in. intros l Il. cbn [fst snd]. f_equal.
  refine (eq_trans (map_map _ _ l) _). refine (eq_trans _ (map_id l)). apply map_ext_in. intros p Ip. apply (lens_undone minimize fact M); [exact Hi|exact Hs|]. now apply (Hl l).
Qed.
Print Assumptions C133_lines.

(** *** Pictures *)
(** The pixels of the frame that can contribute to pixel q of the flat picture:
    less than a pixel, and the rounding of positions, away from its position. *)
Definition around (mat : image R) (c : list R) (q : pt) (k l : Z) : Prop :=
  let e := proj (coef_mat c) q in
  in_img mat k l /\ Rabs (IZR k - py e) < 1 + (bound_y c q + two (-24) * IZR (ih mat - 1) + two (-150)) /\
  Rabs (IZR l - pxc e) < 1 + (bound_x c q + two (-24) * IZR (iw mat - 1) + two (-150)).
Lemma const_sample h w v y x : (0 < h)%Z -> (0 < w)%Z -> 0 <= y <= IZR (h - 1) -> 0 <= x <= IZR (w - 1) -> lin_sample (mkimg h w (fun _ _ => v)) y x = v.
Proof.
  intros Hh Hw Hy Hx. pose proof (Props_Slice.sample_range (mkimg h w (fun _ _ => v)) y x v v Hh Hw Hy Hx) as H. cbn [px] in H. specialize (H ltac:(intros; lra)). lra.
Qed.
(** The picture corrected twice shows at pixel q what the lens showed of the
    point proj c q, up to the error E of the first correction (C110) and the
    change D of the view around that point. *)
Theorem C133_scene : forall rnd mat light view L xc yc fact c, exact_or_double rnd -> (length fact <= 1000)%nat -> length c = 8%nat ->
  (0 < ih mat <= 2 ^ 24 + 1)%Z -> (0 < iw mat <= 2 ^ 24 + 1)%Z -> 0 <= L -> steep L light -> photograph mat light ->
  seen_through (radial_map fact (yc, xc)) view light ->
  exists out, @correct_perspective_image R (Rnum rnd) (@bilinear R Rex) (@unwarp_image_backward R (Rnum rnd) (@bilinear R Rex) mat xc yc fact) c None = Ok out /\
    ih out = ih mat /\ iw out = iw mat /\
    forall i j E D, in_img mat i j -> let q := (IZR i, IZR j) in let e := proj (coef_mat c) q in on_detector mat e -> resolved c q ->
      (forall k l, around mat c q k l -> let z := (IZR k, IZR l) in on_detector mat (radial_map fact (yc, xc) z) /\
         rounding_bound fact yc (dist z (yc, xc)) + rounding_bound fact xc (dist z (yc, xc)) <= E /\ Rabs (view z - view e) <= D) ->
      Rabs (px out i j - view e) <= L * (1 + (E + two (-24) * IZR (ih mat + iw mat - 2) + 2 * two (-150))) + D.
Proof.
  intros rnd mat light view L xc yc fact c Hr Hn Lc Hh Hw HL St Ph Se. set (m1 := @unwarp_image_backward R (Rnum rnd) (@bilinear R Rex) mat xc yc fact).
  assert (H1 : ih m1 = ih mat) by reflexivity. assert (W1 : iw m1 = iw mat) by reflexivity.
  destruct (Props_Noise.perspective_same_positions rnd m1 m1 c (conj eq_refl eq_refl) Lc ltac:(rewrite H1; exact Hh) ltac:(rewrite W1; exact Hw) Hr) as [o [o2 [Y [X [Eo [_ [[S1 S2] [_ [P B]]]]]]]]].
  exists o. split; [exact Eo|]. split; [congruence|]. split; [congruence|]. intros i j E D I q e De Rs N.
  destruct (P i j ltac:(unfold in_img; rewrite H1, W1; exact I)) as [-> [_ [Ry Rx]]]. specialize (B i j). cbv zeta in B. fold q in B. fold e in B. destruct (B Rs) as [By Bx]. rewrite H1 in Ry, By. rewrite W1 in Rx, Bx.
  destruct (clamp_on _ _ De) as [C1 C2]. rewrite C1 in By. rewrite C2 in Bx. set (T := L * (1 + (E + two (-24) * IZR (ih mat + iw mat - 2) + 2 * two (-150))) + D).
  assert (K : forall k l, in_img m1 k l -> Rabs (Y i j - IZR k) < 1 -> Rabs (X i j - IZR l) < 1 -> Rabs (px m1 k l - view e) <= T).
  { intros k l Ik Hk Hl. assert (Ik' : in_img mat k l) by exact Ik. destruct (N k l) as (Dz & Rz & Vz).
    { split; [exact Ik'|]. fold e. split.
      - replace (IZR k - py e) with (- (Y i j - IZR k) + (Y i j - py e)) by ring. eapply Rle_lt_trans; [apply Rabs_triang|]. rewrite Rabs_Ropp. lra.
      - replace (IZR l - pxc e) with (- (X i j - IZR l) + (X i j - pxc e)) by ring. eapply Rle_lt_trans; [apply Rabs_triang|]. rewrite Rabs_Ropp. lra. }
    pose proof (C110_scene rnd mat light view L xc yc fact Hr Hn Hh Hw HL St Ph Se k l Ik' Dz) as A. cbv zeta in A. fold m1 in A. set (z := (IZR k, IZR l)) in *.
    replace (px m1 k l - view e) with ((px m1 k l - view z) + (view z - view e)) by ring. eapply Rle_trans; [apply Rabs_triang|]. unfold T. apply Rplus_le_compat; [|exact Vz].
    eapply Rle_trans; [exact A|]. apply Rmult_le_compat_l; [exact HL|]. lra. }
  assert (Cs := const_sample (ih m1) (iw m1) (view e) (Y i j) (X i j) ltac:(lia) ltac:(lia) Ry Rx).
  apply Rabs_le. split.
  - pose proof (Props_Noise.sample_below (mkimg (ih m1) (iw m1) (fun _ _ => view e)) m1 T (Y i j) (X i j) (conj eq_refl eq_refl) ltac:(cbn [ih]; lia) ltac:(cbn [iw]; lia) Ry Rx) as Q.
    assert (Nb : Props_Noise.below_near (mkimg (ih m1) (iw m1) (fun _ _ => view e)) m1 T (Y i j) (X i j)).
    { intros k l Ik Hk Hl. cbn [px]. specialize (K k l Ik Hk Hl). apply Rabs_le_inv in K. lra. }
    specialize (Q Nb). lra.
  - pose proof (Props_Noise.sample_below m1 (mkimg (ih m1) (iw m1) (fun _ _ => view e)) T (Y i j) (X i j) (conj eq_refl eq_refl) ltac:(lia) ltac:(lia) Ry Rx) as Q.
    assert (Nb : Props_Noise.below_near m1 (mkimg (ih m1) (iw m1) (fun _ _ => view e)) T (Y i j) (X i j)).
    { intros k l Ik Hk Hl. cbn [px]. specialize (K k l Ik Hk Hl). apply Rabs_le_inv in K. lra. }
    specialize (Q Nb). lra.
Qed.
Print Assumptions C133_scene.

(** *** The documented chain *)
(** Dots of a grid on a tilted plane, measured through the lens: correct the
    lines, find the perspective, correct the picture twice. *)
Theorem C133_chain : forall rnd polyfit minimize minimize' lstsq m fact M xc yc (lh lv : list (list pt)) eq scale opt,
  exact_or_double rnd -> polyfit_oracle polyfit -> lstsq_oracle lstsq -> increasing_radius fact M -> solves minimize fact M -> (length fact <= 1000)%nat ->
  (2 <= length lh)%nat -> (2 <= length lv)%nat -> camera m (length lh) (length lv) ->
  (forall i, (i < length lh)%nat -> seen_row m i (nth i lh [])) -> (forall j, (j < length lv)%nat -> seen_col m j (nth j lv [])) ->
  (forall l p, In l (lh ++ lv) -> In p l -> dist p (yc, xc) <= M) ->
  let lens := radial_map fact (yc, xc) in
  let measured := fun lines : list (list pt) => map (fun l => (DF64, map lens l)) lines in
  let corrected := fun lines => map snd (@unwarp_line_backward R Rex minimize (measured lines) xc yc fact) in
  exists src tgt o v w,
    @generate_source_target_perspective_points R Rexact polyfit minimize' (corrected lh) (corrected lv) eq scale opt = Ok (src, tgt) /\
    tgt = map (place o v w) (grid_points (length lh) (length lv)) /\ pdot v w = 0 /\ (eq = true -> pdot v v = pdot w w) /\
    (v <> (0, 0) -> w <> (0, 0) -> (exists p, den m p <> 0 /\ place o v w p = (0, 0)) ->
     exists c, @calc_perspective_coefficients R Rexact lstsq src tgt false = Ok c /\
     forall mat light plane L, (0 < ih mat <= 2 ^ 24 + 1)%Z -> (0 < iw mat <= 2 ^ 24 + 1)%Z -> 0 <= L -> steep L light -> photograph mat light ->
       (forall p, den m p <> 0 -> light (lens (proj m p)) = plane p) ->
       exists out, @correct_perspective_image R (Rnum rnd) (@bilinear R Rex) (@unwarp_image_backward R (Rnum rnd) (@bilinear R Rex) mat xc yc fact) c None = Ok out /\
       ih out = ih mat /\ iw out = iw mat /\
       forall i j p E D, in_img mat i j -> let q := (IZR i, IZR j) in q = place o v w p -> den m p <> 0 -> on_detector mat (proj m p) -> resolved c q ->
         (forall k l, around mat c q k l -> let z := (IZR k, IZR l) in on_detector mat (lens z) /\
            rounding_bound fact yc (dist z (yc, xc)) + rounding_bound fact xc (dist z (yc, xc)) <= E /\ Rabs (light (lens z) - plane p) <= D) ->
         Rabs (px out i j - plane p) <= L * (1 + (E + two (-24) * IZR (ih mat + iw mat - 2) + 2 * two (-150))) + D).
Proof.
  intros rnd polyfit minimize minimize' lstsq m fact M xc yc lh lv eq scale opt Hr PF LS Hi Hs Hn Lh Lv C Hrow Hcol Hm lens measured corrected.
  assert (Back : forall lines, (forall l p, In l lines -> In p l -> dist p (yc, xc) <= M) -> corrected lines = lines).
  { intros lines Hl. unfold corrected, measured, lens. rewrite (C133_lines minimize fact M xc yc lines Hi Hs Hl). rewrite map_map. cbn [snd]. apply map_id. }
  rewrite (Back lh), (Back lv) by (intros l p Il; apply Hm, in_or_app; tauto).
  destruct (C113_points polyfit minimize' m lh lv eq scale opt PF Lh Lv C Hrow Hcol) as [o [v [w [O [Q E]]]]].
  do 2 eexists. exists o, v, w. split; [exact E|]. split; [reflexivity|]. split; [exact O|]. split; [exact Q|].
  intros Nv Nw P0.
  assert (X : cross2 v w <> 0).
  { intros Z. assert (S : pdot v v * pdot w w = 0).
    { transitivity (pdot v w * pdot v w + cross2 v w * cross2 v w); [unfold pdot, cross2; ring|rewrite O, Z; ring]. }
    assert (N : forall u : pt, pdot u u = 0 -> u = (0, 0)).
    { intros [a b] H. unfold pdot, py, pxc in H. cbn [fst snd] in H. pose proof (Rle_0_sqr a). pose proof (Rle_0_sqr b). unfold Rsqr in *.
      f_equal; apply Rsqr_0_uniq; unfold Rsqr; lra. }
    apply Rmult_integral in S. destruct S as [S|S]; apply N in S; contradiction. }
  destruct (C113_backward lstsq m (length lh) (length lv) o v w LS Lh Lv C X P0) as [c [Ec S]]. exists c. split; [exact Ec|].
  intros mat light plane L Hh Hw HL St Ph Li.
  assert (L8 : length c = 8%nat) by (destruct P0 as [p [D _]]; exact (proj1 (S p D))).
  destruct (C133_scene rnd mat light (fun q => light (lens q)) L xc yc fact c Hr Hn L8 Hh Hw HL St Ph (fun q => eq_refl)) as [out [Eo [E1 [E2 B]]]].
  exists out. split; [exact Eo|]. split; [exact E1|]. split; [exact E2|]. intros i j p E0 D I q Eq Dp On Rs N. specialize (B i j E0 D I). cbv zeta in B. fold q in B.
  destruct (S p Dp) as [_ [_ Ps]]. change (proj_map c) with (coef_mat c) in Ps. rewrite <- Eq in Ps. rewrite Ps in B. rewrite (Li p Dp) in B. exact (B On Rs N).
Qed.
Print Assumptions C133_chain.

(** *** A case *)
(** The tilted grid of C113_case seen through a barrel lens with centre (0, 0),
    in a picture of five by five pixels which gets brighter downwards. *)
Definition barrel_lens : list R := [1; - (1 / 100)].
Definition barrel_min (_ : R -> R) (rd : R) : R := 50 - sqrt (2500 - 100 * rd).
Lemma barrel_increasing : increasing_radius barrel_lens 40.
Proof. intros r s Hr Hs HM. unfold barrel_lens. cbn [poly]. nra. Qed.
Lemma barrel_solves : solves barrel_min barrel_lens 40.
Proof.
  intros r Hr. cbv zeta. assert (E : answer barrel_min barrel_lens (r * poly barrel_lens r) = r).
  { unfold answer, barrel_min, barrel_lens. cbn [poly]. replace (2500 - 100 * _) with ((50 - r) * (50 - r)) by field. rewrite sqrt_square by lra. ring. }
  rewrite E. split; [exact Hr|]. unfold mismatch. rewrite Rminus_eq_0. apply Rabs_R0.
Qed.
Lemma barrel_inside k l : (0 <= k < 5)%Z -> (0 <= l < 5)%Z -> let q := radial_map barrel_lens (0, 0) (IZR k, IZR l) in 0 <= py q <= 4 /\ 0 <= pxc q <= 4.
Proof.
  intros Hk Hl q. unfold q, radial_map, padd, pscale, psub, py, pxc. cbn [fst snd]. set (r := dist (IZR k, IZR l) (0, 0)).
  assert (K : 0 <= IZR k <= 4) by (split; apply IZR_le; lia). assert (K' : 0 <= IZR l <= 4) by (split; apply IZR_le; lia).
  assert (P : 0 <= r <= 10).
  { split; [apply PostLines.dist_pos|]. unfold r, dist, py, pxc. cbn [fst snd]. rewrite <- (sqrt_square 10) by lra. apply sqrt_le_1_alt. nra. }
  assert (B : 0 <= poly barrel_lens r <= 1) by (unfold barrel_lens; cbn [poly]; lra). nra.
Qed.
Lemma near_lines (p : pt) : Rabs (py p) <= 2 -> Rabs (pxc p) <= 2 -> dist p (0, 0) <= 40.
Proof.
  intros Hy Hx. unfold dist. rewrite <- (sqrt_square 40) by lra. apply sqrt_le_1_alt. unfold py, pxc in *. cbn [fst snd]. apply Rabs_le_inv in Hy. apply Rabs_le_inv in Hx. nra.
Qed.
Lemma box_bound (n : nat) (f : Z -> Z -> R) : exists B, forall k l, (0 <= k < Z.of_nat n)%Z -> (0 <= l < Z.of_nat n)%Z -> f k l <= B.
Proof.
  assert (one : forall (g : Z -> R) n, exists B, forall l, (0 <= l < Z.of_nat n)%Z -> g l <= B).
  { intros g. induction n0 as [|n0 [B IH]]; [exists 0; intros; lia|]. exists (Rmax B (g (Z.of_nat n0))). intros l Hl.
    destruct (Z.eq_dec l (Z.of_nat n0)) as [->|N]; [apply Rmax_r|]. eapply Rle_trans; [apply IH; lia|apply Rmax_l]. }
  assert (H : forall m, exists B, forall k l, (0 <= k < Z.of_nat m)%Z -> (0 <= l < Z.of_nat n)%Z -> f k l <= B).
  { induction m as [|m [B IH]]; [exists 0; intros; lia|]. destruct (one (f (Z.of_nat m)) n) as [B' H']. exists (Rmax B B'). intros k l Hk Hl.
    destruct (Z.eq_dec k (Z.of_nat m)) as [->|N]; [eapply Rle_trans; [now apply H'|apply Rmax_r]|]. eapply Rle_trans; [apply IH; lia|apply Rmax_l]. }
  exact (H n).
Qed.
Example C133_chain_ex : let lh := [[(0, 2); (0, 0); (0, 1)]; [(1, 3 / 2); (1, 0)]] in let lv := [[(0, 0); (1, 0)]; [(1, 3 / 2); (0, 2)]] in
  let corrected := fun lines : list (list pt) => map snd (@unwarp_line_backward R Rex barrel_min (map (fun l => (DF64, map (radial_map barrel_lens (0, 0)) l)) lines) 0 0 barrel_lens) in
  let mat := mkimg 5 5 (fun i _ => IZR i) in
  exists src tgt c out E, @generate_source_target_perspective_points R Rexact pf_R min_R (corrected lh) (corrected lv) false ScMean false = Ok (src, tgt) /\
    tgt = [(0, 0); (0, 2); (1, 0); (1, 2)] /\ @calc_perspective_coefficients R Rexact ls_R src tgt false = Ok c /\
    @correct_perspective_image R (Rnum f64) (@bilinear R Rex) (@unwarp_image_backward R (Rnum f64) (@bilinear R Rex) mat 0 0 barrel_lens) c None = Ok out /\
    Rabs (px out 0 0 - 0) <= 1 * (1 + (E + two (-24) * IZR 8 + 2 * two (-150))) + 4.
Proof.
  intros lh lv corrected mat. destruct C113_case as (Cam & Rows & Cols & Gen & Sh & _). fold lh in Rows, Gen. fold lv in Cols, Gen.
  assert (Near : forall l p, In l (lh ++ lv) -> In p l -> dist p (0, 0) <= 40).
  { intros l p Il Ip. apply near_lines; cbn in Il; repeat destruct Il as [<-|Il]; try contradiction; cbn in Ip; repeat destruct Ip as [<-|Ip]; try contradiction; unfold py, pxc; cbn [fst snd]; rewrite Rabs_pos_eq; lra. }
  destruct (C133_chain f64 pf_R barrel_min min_R ls_R tilted barrel_lens 40 0 0 lh lv false ScMean false (or_intror (fun x => eq_refl)) pf_R_ok ls_R_ok barrel_increasing barrel_solves
    ltac:(cbn; lia) ltac:(cbn; lia) ltac:(cbn; lia) Cam Rows Cols Near) as (src & tgt & o & v & w & G & Et & _ & _ & H).
  fold corrected in G.
  assert (Back : forall lines, (forall l p, In l lines -> In p l -> dist p (0, 0) <= 40) -> corrected lines = lines).
  { intros lines Hl. unfold corrected. rewrite (C133_lines barrel_min barrel_lens 40 0 0 lines barrel_increasing barrel_solves Hl). rewrite map_map. cbn [snd]. apply map_id. }
  assert (G' : @generate_source_target_perspective_points R Rexact pf_R min_R lh lv false ScMean false = Ok (src, tgt)).
  { refine (eq_trans _ G). apply (f_equal2 (fun a b => @generate_source_target_perspective_points R Rexact pf_R min_R a b false ScMean false)); symmetry; apply Back; intros l p Il; apply Near, in_or_app; tauto. }
  rewrite Gen in G'. injection G' as Es Et'. rewrite <- Et' in Et.
  unfold grid_points, lh, lv in Et. cbn [length seq map concat app INR] in Et. injection Et as T1 T2 T3 T4 T5 T6 T7 T8.
  unfold place, padd, pscale, py, pxc in T1, T2, T3, T4, T5, T6, T7, T8. destruct o as [oy ox], v as [vy vx], w as [wy wx]. cbn [fst snd] in T1, T2, T3, T4, T5, T6, T7, T8.
  destruct H as (c & Ec & Hc).
  { intros X. injection X. intros. lra. }
  { intros X. injection X. intros. lra. }
  { exists (0, 0). split; [exact (proj1 Sh)|]. unfold place, padd, pscale, py, pxc. cbn [fst snd]. apply f_equal2; lra. }
  destruct (Hc mat (fun p => py p) (fun p => py (radial_map barrel_lens (0, 0) (proj tilted p))) 1) as (out & Eo & _ & _ & B).
  { cbn; lia. } { cbn; lia. } { lra. } { intros p q. rewrite Rmult_1_l. pose proof (Rabs_pos (pxc q - pxc p)). lra. } { intros i j _. reflexivity. } { intros p _. reflexivity. }
  destruct (box_bound 5 (fun k l => rounding_bound barrel_lens 0 (dist (IZR k, IZR l) (0, 0)) + rounding_bound barrel_lens 0 (dist (IZR k, IZR l) (0, 0)))) as [E HE].
  exists src, tgt, c, out, E. split; [exact G|]. split; [now rewrite <- Et'|]. split; [exact Ec|]. split; [exact Eo|].
  specialize (B 0%Z 0%Z (0, 0) E 4 ltac:(unfold in_img; cbn; lia)). cbv zeta in B. destruct Sh as [Dn Pr]. rewrite Pr in B.
  assert (Z0 : radial_map barrel_lens (0, 0) (0, 0) = (0, 0)) by apply center_fixed. rewrite Z0 in B. change (IZR (ih mat + iw mat - 2)) with 8 in B. change (IZR 8) with 8.
  change (py (0, 0)) with 0 in B. apply B; clear B.
  - unfold place, padd, pscale, py, pxc. cbn [fst snd]. apply f_equal2; lra.
  - exact Dn.
  - unfold on_detector, py, pxc. cbn [fst snd ih iw mat]. change (IZR (5 - 1)) with 4. lra.
  - unfold resolved, terms, den, py, pxc. cbn [fst snd]. cbn [c9 coef_mat]. rewrite !Rmult_0_r, !Rplus_0_l, Rabs_R0, Rabs_R1. assert (two (-48) <= 1) by (change 1 with (bpow radix2 0); apply bpow_le; lia). lra.
  - intros k l (I & _ & _). unfold in_img in I. cbn [ih iw mat] in I. pose proof (barrel_inside k l (proj1 I) (proj2 I)) as Q. cbv zeta in Q. split; [|split].
    + unfold on_detector. cbn [ih iw mat]. change (IZR (5 - 1)) with 4. exact Q.
    + apply HE; cbn; lia.
    + rewrite Rminus_0_r, Rabs_pos_eq; lra.
Qed.
