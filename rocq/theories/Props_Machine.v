(** C117: the corrections in machine arithmetic. *)
From Coq Require Import ZArith Floats Reals List Lra Lia.
From Flocq Require Import Core.
From Verif Require Import Base Num NumFacts Spec Lsq Img Post PostImg PostPersp PostLines2 PostExtra RoundFacts Props_Post Props_Round Props_Scene Props_RoundPers MachFacts.
Import ListNotations.
Local Open Scope R_scope.

(** *** Specification *)
(** A finite machine number of at most 2^k. *)
Definition within (k : Z) (x : PrimFloat.float) : Prop := finite x /\ Rabs (FR x) <= two k.
(** The numbers that machine numbers stand for. *)
Definition FRp (p : PrimFloat.float * PrimFloat.float) : pt := (FR (fst p), FR (snd p)).
Definition within_pt (k : Z) (p : PrimFloat.float * PrimFloat.float) : Prop := within k (fst p) /\ within k (snd p).

Lemma within_rep k x : within k x -> rep k x (FR x). Proof. intros [H1 H2]. now apply rep_FR. Qed.
Lemma double_f64 : exact_or_double f64. Proof. right. reflexivity. Qed.
Lemma f64_pos x : 0 <= x -> 0 <= f64 x.
Proof. intros H. unfold f64. rewrite <- (round_0 radix2 (FLT_exp (-1074) 53) ZnearestE). now apply round_le; [apply FLT_exp_valid|apply valid_rnd_N|]. Qed.

Section Mach.
  Variable pw : PrimFloat.float -> nat -> PrimFloat.float.
  Hypothesis HP : pow_ok pw.
  Let N := Mach pw.

  (** The factor. *)
  Lemma sum_rep k x v : (0 <= k <= 22)%Z -> rep k x v -> forall fs i acc a, Forall (within 200) fs -> (i + length fs <= 32)%nat -> rep (882 + Z.of_nat i) acc a ->
    rep (882 + Z.of_nat (i + length fs))
      (fold_left PrimFloat.add (mapi_from (fun i f => PrimFloat.mul f (pw x i)) i fs) acc)
      (fold_left (fun a b => f64 (a + b)) (mapi_from (fun i f => f64 (f * f64 (v ^ i))) i (map FR fs)) a).
  Proof.
    intros Hk Hx. induction fs as [|f fs IH]; intros i acc a Hf Hn Ha; cbn [mapi_from fold_left map length] in *.
    - rewrite Nat.add_0_r. exact Ha.
    - inversion_clear Hf as [|? ? H1 H2]. replace (i + S (length fs))%nat with (S i + length fs)%nat by lia. apply IH; [exact H2|lia|].
      replace (882 + Z.of_nat (S i))%Z with (882 + Z.of_nat i + 1)%Z by lia. apply rep_add; [lia|exact Ha|].
      apply (rep_le (200 + k * Z.of_nat i)); [nia|]. apply rep_mul; [nia|now apply within_rep|]. apply rep_pow; [exact HP|lia|nia|exact Hx].
  Qed.
  Lemma radial_rep fs x v : Forall (within 200) fs -> (length fs <= 32)%nat -> rep 22 x v ->
    rep 914 (@radial _ N fs x) (@radial R (Rnum f64) (map FR fs) v).
  Proof.
    intros Hf Hn Hx. apply (rep_le (882 + Z.of_nat (0 + length fs))); [lia|]. unfold radial, nsum. cbn [nadd nmul npow N Mach Rnum].
    apply (sum_rep 22); [lia|exact Hx|exact Hf|lia|]. apply (rep_le 0); [lia|]. apply (int_rep 0 0); lia.
  Qed.
  Lemma radius_rep dx dy a b : rep 21 dx a -> rep 21 dy b ->
    rep 22 (PrimFloat.sqrt (PrimFloat.add (PrimFloat.mul dx dx) (PrimFloat.mul dy dy))) (f64 (sqrt (f64 (f64 (a * a) + f64 (b * b))))).
  Proof.
    intros Ha Hb. apply rep_sqrt; [lia|apply f64_pos, Rplus_le_le_0_compat; apply f64_pos, Rle_0_sqr|]. change (22 + 22)%Z with 44%Z.
    apply (rep_le (42 + 1)); [lia|]. apply rep_add; [lia| |]; apply (rep_mul 21 21); try lia; assumption.
  Qed.
  Lemma radius_pow_rep dx dy a b : rep 21 dx a -> rep 21 dy b ->
    rep 22 (PrimFloat.sqrt (PrimFloat.add (pw dx 2) (pw dy 2))) (f64 (sqrt (f64 (f64 (a ^ 2) + f64 (b ^ 2))))).
  Proof.
    intros Ha Hb. apply rep_sqrt; [lia|apply f64_pos, Rplus_le_le_0_compat; apply f64_pos, pow2_ge_0|]. change (22 + 22)%Z with 44%Z.
    apply (rep_le (42 + 1)); [lia|]. apply rep_add; [lia| |]; apply (rep_pow pw 21 _ _ 2); try exact HP; try lia; assumption.
  Qed.
  Lemma centred_rep f d c fv dv cv : rep 914 f fv -> rep 21 d dv -> rep 20 c cv -> rep 936 (PrimFloat.add c (PrimFloat.mul f d)) (f64 (cv + f64 (fv * dv))).
  Proof.
    intros Hf Hd Hc. apply (rep_add 935); [lia|apply (rep_le 20); [lia|exact Hc]|]. apply (rep_mul 914 21); [lia|exact Hf|exact Hd].
  Qed.
  (** One dot: the machine computes the rounded model. *)
  Lemma dot_rep xc yc fs p : within 20 xc -> within 20 yc -> Forall (within 200) fs -> (length fs <= 32)%nat -> within_pt 20 p ->
    let q := @unwarp_dot_forward _ N DF64 xc yc fs p in
    let v := @unwarp_dot_forward R (Rnum f64) DF64 (FR xc) (FR yc) (map FR fs) (FRp p) in
    rep 936 (fst q) (fst v) /\ rep 936 (snd q) (snd v).
  Proof.
    intros Hx Hy Hf Hn [Py Px]. destruct p as [y x]. unfold FRp. cbn [fst snd] in *. apply within_rep in Hx, Hy, Py, Px.
    pose proof (rep_sub 20 _ _ _ _ ltac:(lia) Px Hx) as Dx. pose proof (rep_sub 20 _ _ _ _ ltac:(lia) Py Hy) as Dy. change (20 + 1)%Z with 21%Z in Dx, Dy.
    pose proof (radial_rep fs _ _ Hf Hn (radius_rep _ _ _ _ Dx Dy)) as Rd.
    cbv zeta. unfold unwarp_dot_forward, store. cbn [fst snd nadd nsub nmul nsqrt N Mach Rnum] in *. split; apply centred_rep; assumption.
  Qed.
  (** One sampled position. *)
  Lemma clip_rep k l n x v : (0 <= l <= 53)%Z -> (0 < n)%Z -> (n - 1 <= 2 ^ l)%Z -> rep k x v ->
    rep l (@nclip _ N x (@nofZ _ N 0) (@nofZ _ N (n - 1))) (@nclip R (Rnum f64) v (IZR 0) (IZR (n - 1))).
  Proof.
    intros Hl Hn Hb Hx. pose proof (int_rep 0 l ltac:(lia) ltac:(lia)) as R0. pose proof (int_rep (n - 1) l ltac:(lia) ltac:(lia)) as Rn.
    assert (R1 : Rabs (@nclip R (Rnum f64) v (IZR 0) (IZR (n - 1))) <= bpow radix2 l).
    { rewrite (nclip_R f64) by (apply IZR_le; lia). assert (0 <= clamp v 0 (IZR (n - 1)) <= IZR (n - 1)) as C by (apply clamp_range; apply IZR_le; lia).
      rewrite Rabs_pos_eq by lra. destruct Rn as [_ [_ Rn]]. rewrite Rabs_pos_eq in Rn by (apply IZR_le; lia). lra. }
    unfold nclip, nmin, nmax in *. cbn [nltb nofZ N Mach Rnum FloatNum] in *. rewrite (ltb_rep k l _ _ _ _ Hx R0).
    destruct (Rlt_bool v (IZR 0)).
    - rewrite (ltb_rep l l _ _ _ _ Rn R0). destruct (Rlt_bool (IZR (n - 1)) (IZR 0)); assumption.
    - rewrite (ltb_rep l k _ _ _ _ Rn Hx). destruct (Rlt_bool (IZR (n - 1)) v); [exact Rn|]. destruct Hx as [X1 [X2 _]]. split; [exact X1|]. now split.
  Qed.
  Lemma coord_rep xc yc fs h w i j : within 20 xc -> within 20 yc -> Forall (within 200) fs -> (length fs <= 32)%nat ->
    (0 < h <= 2 ^ 20)%Z -> (0 < w <= 2 ^ 20)%Z -> (0 <= i < h)%Z -> (0 <= j < w)%Z ->
    rep 20 (@coord_y _ N xc yc fs h i j) (@coord_y R (Rnum f64) (FR xc) (FR yc) (map FR fs) h i j) /\
    rep 20 (@coord_x _ N xc yc fs w i j) (@coord_x R (Rnum f64) (FR xc) (FR yc) (map FR fs) w i j).
  Proof.
    intros Hx Hy Hf Hn Hh Hw Hi Hj. apply within_rep in Hx, Hy.
    pose proof (int_rep i 20 ltac:(lia) ltac:(lia)) as Ri. pose proof (int_rep j 20 ltac:(lia) ltac:(lia)) as Rj.
    pose proof (rep_sub 20 _ _ _ _ ltac:(lia) Rj Hx) as Dx. pose proof (rep_sub 20 _ _ _ _ ltac:(lia) Ri Hy) as Dy. change (20 + 1)%Z with 21%Z in Dx, Dy.
    pose proof (radial_rep fs _ _ Hf Hn (radius_pow_rep _ _ _ _ Dx Dy)) as Rd.
    unfold coord_y, coord_x. split; apply rep_f32; try lia; (eapply clip_rep; [lia|lia|lia|]); apply centred_rep; assumption.
  Qed.
  (** One quotient. *)
  Lemma linear_rep a b c x y : within 100 a -> within 100 b -> within 100 c -> rep 20 x (FR x) -> rep 20 y (FR y) ->
    rep 122 (PrimFloat.add (PrimFloat.add (PrimFloat.mul a x) (PrimFloat.mul b y)) c) (f64 (f64 (f64 (FR a * FR x) + f64 (FR b * FR y)) + FR c)).
  Proof.
    intros Ha Hb Hc Hx Hy. apply within_rep in Ha, Hb, Hc. apply (rep_add 121); [lia| |apply (rep_le 100); [lia|exact Hc]].
    apply (rep_add 120); [lia| |]; apply (rep_mul 100 20); try lia; assumption.
  Qed.
  Lemma one_within : within 100 (@n1 _ N) /\ FR (@n1 _ N) = 1.
  Proof.
    destruct (int_rep 1 0 ltac:(lia) ltac:(lia)) as [A [B C]]. change (f_ofZ 1) with (@n1 _ N) in *.
    split; [|exact B]. split; [exact A|]. rewrite B. rewrite Rabs_R1. change 1 with (two 0). unfold two. apply bpow_le. lia.
  Qed.
  Lemma den_away g h p : two (-48) * terms g h 1 p <= Rabs (g * pxc p + h * py p + 1) -> two (-49) <= Rabs (f64 (f64 (f64 (g * pxc p) + f64 (h * py p)) + 1)).
  Proof.
    intros HD. destruct (Props_RoundPers.sum_near f64 double_f64 g h 1 p) as [_ B].
    assert (Hg : 1 <= terms g h 1 p). { unfold terms. rewrite Rabs_R1. pose proof (Rabs_pos (g * pxc p)). pose proof (Rabs_pos (h * py p)). lra. }
    set (D := g * pxc p + h * py p + 1) in *. set (D' := f64 _) in *. set (S := terms g h 1 p) in *. clearbody D D' S.
    set (v := bpow radix2 (-52)) in *. assert (Vp : 0 < v) by apply bpow_gt_0.
    assert (Vs : v <= / 1024) by (unfold v; apply Rle_trans with (bpow radix2 (-10)); [apply bpow_le; lia|cbn; lra]).
    assert (V48 : two (-48) = 16 * v) by (unfold two, v; change (-48)%Z with (4 + -52)%Z; rewrite bpow_plus; reflexivity).
    assert (V49 : two (-49) = 8 * v) by (unfold two, v; change (-49)%Z with (3 + -52)%Z; rewrite bpow_plus; reflexivity).
    assert (G : gam v 3 <= 13 / 4 * v).
    { unfold gam. cbn [pow]. replace ((1 + v) * ((1 + v) * ((1 + v) * 1)) - 1) with (v * (3 + 3 * v + v * v)) by ring. rewrite (Rmult_comm (13 / 4)). apply Rmult_le_compat_l; nra. }
    assert (U : 2 * bpow radix2 (-1022) <= / 64).
    { change (2 * bpow radix2 (-1022)) with (IZR radix2 * bpow radix2 (-1022)). rewrite <- (bpow_plus_1 radix2). apply Rle_trans with (bpow radix2 (-6)); [apply bpow_le; lia|cbn; lra]. }
    pose proof (bpow_gt_0 radix2 (-1022)) as Up.
    assert (E : Rabs (D' - D) <= 4 * v * S).
    { eapply Rle_trans; [exact B|]. apply Rle_trans with (13 / 4 * v * (S + / 64)); [apply Rmult_le_compat; [apply gam_pos; lra|lra|exact G|lra]|]. nra. }
    assert (Rabs D <= Rabs D' + Rabs (D' - D)). { replace D with (D' + - (D' - D)) at 1 by ring. eapply Rle_trans; [apply Rabs_triang|]. rewrite Rabs_Ropp. lra. }
    rewrite V48 in HD. rewrite V49. nra.
  Qed.
  Lemma quot_rep a b c g h y x : within 100 a -> within 100 b -> within 100 c -> within 100 g -> within 100 h -> within 20 y -> within 20 x ->
    two (-48) * terms (FR g) (FR h) 1 (FR y, FR x) <= Rabs (FR g * FR x + FR h * FR y + 1) ->
    rep 171 (PrimFloat.div (PrimFloat.add (PrimFloat.add (PrimFloat.mul a x) (PrimFloat.mul b y)) c) (PrimFloat.add (PrimFloat.add (PrimFloat.mul g x) (PrimFloat.mul h y)) (@n1 _ N)))
      (f64 (f64 (f64 (f64 (FR a * FR x) + f64 (FR b * FR y)) + FR c) / f64 (f64 (f64 (FR g * FR x) + f64 (FR h * FR y)) + 1))).
  Proof.
    intros Ha Hb Hc Hg Hh Hy Hx HD. apply within_rep in Hx, Hy.
    pose proof (linear_rep _ _ _ _ _ Ha Hb Hc Hx Hy) as Nu. pose proof (linear_rep _ _ _ _ _ Hg Hh (proj1 one_within) Hx Hy) as De. rewrite (proj2 one_within) in De.
    apply (rep_div 122 (-49)); [lia|exact Nu|apply De|apply De|]. exact (den_away (FR g) (FR h) (FR y, FR x) HD).
  Qed.
End Mach.

(** *** Theorems *)
(** Points: coordinates and centre up to 2^20, at most 32 coefficients of at
    most 2^200 each.  Every computed coordinate is a finite number, the one of
    the rounded model, and as close to the exact model as C107 says. *)
Theorem C117_points : forall pw lines xc yc fact, pow_ok pw -> within 20 xc -> within 20 yc -> Forall (within 200) fact -> (length fact <= 32)%nat ->
  Forall (fun l => fst l = DF64 /\ Forall (within_pt 20) (snd l)) lines ->
  Forall2 (fun l u => fst u = DF64 /\ Forall2 (fun p q => finite (fst q) /\ finite (snd q) /\
      FRp q = @unwarp_dot_forward R (Rnum f64) DF64 (FR xc) (FR yc) (map FR fact) (FRp p) /\
      let c := (FR yc, FR xc) in let e := radial_map (map FR fact) c (FRp p) in
      Rabs (FR (fst q) - py e) <= rounding_bound (map FR fact) (FR yc) (dist (FRp p) c) /\
      Rabs (FR (snd q) - pxc e) <= rounding_bound (map FR fact) (FR xc) (dist (FRp p) c)) (snd l) (snd u))
    lines (@unwarp_line_forward _ (Mach pw) lines xc yc fact).
Proof.
  intros pw lines xc yc fact HP Hx Hy Hf Hn Hl. unfold unwarp_line_forward.
  induction Hl as [|[d pts] lines [Hd Hp] _ IH]; cbn [map fst snd] in *; constructor; [clear IH|exact IH]. subst d. split; [reflexivity|]. cbn [fst snd].
  induction Hp as [|p pts Hp _ IH]; cbn [map]; constructor; [clear IH|exact IH].
  destruct (dot_rep pw HP xc yc fact p Hx Hy Hf Hn Hp) as [[Y1 [Y2 _]] [X1 [X2 _]]].
  split; [exact Y1|]. split; [exact X1|]. split; [unfold FRp at 1; rewrite Y2, X2; now destruct (unwarp_dot_forward _ _ _ _ (FRp p))|].
  cbv zeta. rewrite Y2, X2.
  pose proof (C107_points f64 [(DF64, [FRp p])] (FR xc) (FR yc) (map FR fact) double_f64 ltac:(rewrite map_length; lia) ltac:(repeat constructor)) as C.
  cbn [unwarp_line_forward map fst snd] in C. inversion_clear C as [|? ? ? ? [_ C1] _]. cbn [snd] in C1. inversion_clear C1 as [|? ? ? ? C2 _]. exact C2.
Qed.
Print Assumptions C117_points.

(** Images: all sampled positions are finite and lie in the image, whatever the
    interpolation does with them, and are as close to the model as C107 says. *)
Theorem C117_positions : forall pw (mat : image PrimFloat.float) xc yc fact, pow_ok pw -> within 20 xc -> within 20 yc -> Forall (within 200) fact -> (length fact <= 32)%nat ->
  (0 < ih mat <= 2 ^ 20)%Z -> (0 < iw mat <= 2 ^ 20)%Z -> exists Y X : Z -> Z -> PrimFloat.float,
  (forall interp i j, px (@unwarp_image_backward _ (Mach pw) interp mat xc yc fact) i j = interp mat (Y i j) (X i j)) /\
  forall i j, in_img mat i j -> let c := (FR yc, FR xc) in let e := radial_map (map FR fact) c (IZR i, IZR j) in let r := dist (IZR i, IZR j) c in
    finite (Y i j) /\ finite (X i j) /\ 0 <= FR (Y i j) <= IZR (ih mat - 1) /\ 0 <= FR (X i j) <= IZR (iw mat - 1) /\
    Rabs (FR (Y i j) - clamp (py e) 0 (IZR (ih mat - 1))) <= rounding_bound (map FR fact) (FR yc) r + two (-24) * IZR (ih mat - 1) + two (-150) /\
    Rabs (FR (X i j) - clamp (pxc e) 0 (IZR (iw mat - 1))) <= rounding_bound (map FR fact) (FR xc) r + two (-24) * IZR (iw mat - 1) + two (-150).
Proof.
  intros pw mat xc yc fact HP Hx Hy Hf Hn Hh Hw.
  exists (@coord_y _ (Mach pw) xc yc fact (ih mat)), (@coord_x _ (Mach pw) xc yc fact (iw mat)). split; [reflexivity|].
  intros i j [Hi Hj]. cbv zeta.
  destruct (coord_rep pw HP xc yc fact (ih mat) (iw mat) i j Hx Hy Hf Hn Hh Hw Hi Hj) as [[Y1 [Y2 _]] [X1 [X2 _]]].
  destruct (positions_bound f64 (FR xc) (FR yc) (map FR fact) (ih mat) (iw mat) i j double_f64 ltac:(rewrite map_length; lia) ltac:(lia) ltac:(lia)) as [BY BX].
  assert (Rg : forall n v, (0 < n <= 2 ^ 20)%Z -> 0 <= f32 (@nclip R (Rnum f64) v (IZR 0) (IZR (n - 1))) <= IZR (n - 1)).
  { intros n v H. rewrite nclip_R by (apply IZR_le; lia). apply f32_clamp_range; lia. }
  split; [exact Y1|]. split; [exact X1|]. rewrite Y2, X2. split; [apply Rg; exact Hh|]. split; [apply Rg; exact Hw|]. split; [exact BY|exact BX].
Qed.
Print Assumptions C117_positions.

(** Perspective: coefficients up to 2^100, and the denominator not lost to
    cancellation. *)
Theorem C117_perspective_points : forall pw lines c, length c = 8%nat -> Forall (within 100) c -> Forall (Forall (within_pt 20)) lines ->
  Forall (Forall (fun p => resolved (map FR c) (FRp p))) lines ->
  exists out, @correct_perspective_line _ (Mach pw) lines c = Ok out /\
    Forall2 (Forall2 (fun p q => finite (fst q) /\ finite (snd q) /\ let e := proj (coef_mat (map FR c)) (FRp p) in
      Rabs (FR (fst q) - py e) <= bound_y (map FR c) (FRp p) /\ Rabs (FR (snd q) - pxc e) <= bound_x (map FR c) (FRp p))) lines out.
Proof.
  intros pw lines c Hc Fc Fl Fr. do 8 (destruct c as [|? c]; [discriminate|]). destruct c; [|discriminate]. clear Hc.
  repeat match goal with H : Forall _ (_ :: _) |- _ => let A := fresh "W" in inversion H as [|? ? A ?]; clear H; subst end.
  unfold correct_perspective_line. cbn [unpack8 bind]. eexists. split; [reflexivity|].
  induction lines as [|l lines IH]; cbn [map]; constructor; [clear IH|inversion_clear Fl; inversion_clear Fr; now apply IH].
  inversion_clear Fl as [|? ? Hl _]. inversion_clear Fr as [|? ? Hr _].
  induction l as [|p l IH]; cbn [map]; constructor; [clear IH|inversion_clear Hl; inversion_clear Hr; now apply IH].
  inversion_clear Hl as [|? ? [Py Px] _]. inversion_clear Hr as [|? ? HD _]. cbv zeta.
  unfold resolved, bound_y, bound_x, coef_mat, den, proj in *. cbn [map nth Spec.c1 c2 c3 c4 c5 c6 c7 c8] in *. destruct p as [y x]. unfold FRp in *. cbn [fst snd] in *.
  match goal with |- context [@persp_y _ _ (?a1, ?a2, ?a3, ?a4, ?a5, ?a6, ?a7, ?a8) _ _] =>
    destruct (quot_rep pw a4 a5 a6 a7 a8 y x ltac:(assumption) ltac:(assumption) ltac:(assumption) ltac:(assumption) ltac:(assumption) Py Px HD) as [Y1 [Y2 _]];
    destruct (quot_rep pw a1 a2 a3 a7 a8 y x ltac:(assumption) ltac:(assumption) ltac:(assumption) ltac:(assumption) ltac:(assumption) Py Px HD) as [X1 [X2 _]] end.
  split; [exact Y1|]. split; [exact X1|].
  unfold persp_y, persp_x in *. cbn [nadd nmul ndiv Mach] in *. rewrite Y2, X2. split; exact (quot_near f64 double_f64 _ _ _ _ _ (FR y, FR x) HD).
Qed.
Print Assumptions C117_perspective_points.
Theorem C117_perspective_positions : forall pw (mat : image PrimFloat.float) c, length c = 8%nat -> Forall (within 100) c ->
  (0 < ih mat <= 2 ^ 20)%Z -> (0 < iw mat <= 2 ^ 20)%Z -> exists Y X : Z -> Z -> PrimFloat.float,
  (forall interp, exists out, @correct_perspective_image _ (Mach pw) interp mat c None = Ok out /\ ih out = ih mat /\ iw out = iw mat /\
     forall i j, in_img mat i j -> px out i j = interp mat (Y i j) (X i j)) /\
  forall i j, in_img mat i j -> let p := (IZR i, IZR j) in let e := proj (coef_mat (map FR c)) p in resolved (map FR c) p ->
    finite (Y i j) /\ finite (X i j) /\ 0 <= FR (Y i j) <= IZR (ih mat - 1) /\ 0 <= FR (X i j) <= IZR (iw mat - 1) /\
    Rabs (FR (Y i j) - clamp (py e) 0 (IZR (ih mat - 1))) <= bound_y (map FR c) p + two (-24) * IZR (ih mat - 1) + two (-150) /\
    Rabs (FR (X i j) - clamp (pxc e) 0 (IZR (iw mat - 1))) <= bound_x (map FR c) p + two (-24) * IZR (iw mat - 1) + two (-150).
Proof.
  intros pw mat c Hc Fc Hh Hw. do 8 (destruct c as [|? c]; [discriminate|]). destruct c; [|discriminate]. clear Hc.
  repeat match goal with H : Forall _ (_ :: _) |- _ => let A := fresh "W" in inversion H as [|? ? A ?]; clear H; subst end.
  match goal with |- context [[?a1; ?a2; ?a3; ?a4; ?a5; ?a6; ?a7; ?a8]] => set (t := (a1, a2, a3, a4, a5, a6, a7, a8)) end.
  exists (fun i j => @nf32 _ (Mach pw) (@nclip _ (Mach pw) (@persp_y _ (Mach pw) t (@nofZ _ (Mach pw) i) (@nofZ _ (Mach pw) j)) (@nofZ _ (Mach pw) 0) (@nofZ _ (Mach pw) (ih mat - 1)))),
    (fun i j => @nf32 _ (Mach pw) (@nclip _ (Mach pw) (@persp_x _ (Mach pw) t (@nofZ _ (Mach pw) i) (@nofZ _ (Mach pw) j)) (@nofZ _ (Mach pw) 0) (@nofZ _ (Mach pw) (iw mat - 1)))).
  split.
  - intros interp. unfold correct_perspective_image, generate_perspective_map. cbn [unpack8 bind]. fold t.
    unfold reshape. rewrite !map_length. rewrite grid_length by lia. rewrite Z.eqb_refl. eexists. split; [reflexivity|]. cbn [ih iw px].
    split; [reflexivity|split; [reflexivity|]]. intros i j [Hi Hj].
    assert (Hl : (Z.to_nat (i * iw mat + j) < length (grid (ih mat) (iw mat)))%nat).
    { apply Nat2Z.inj_lt. rewrite grid_length by lia. nia. }
    rewrite map_map, (nth_map_in _ _ _ (0%Z, 0%Z)) by assumption. rewrite grid_nth by assumption. cbn [fst snd]. reflexivity.
  - intros i j [Hi Hj] p e HD.
    assert (OfZ : forall n k, (0 <= n < k)%Z -> (k <= 2 ^ 20)%Z -> within 20 (f_ofZ n) /\ FR (f_ofZ n) = IZR n).
    { intros n k H1 H2. destruct (int_rep n 20 ltac:(lia) ltac:(lia)) as [A [B C]]. split; [|exact B]. split; [exact A|]. rewrite B. exact C. }
    destruct (OfZ i (ih mat) Hi ltac:(lia)) as [Wi Ei]. destruct (OfZ j (iw mat) Hj ltac:(lia)) as [Wj Ej].
    unfold resolved, bound_y, bound_x, coef_mat, den, proj in *. cbn [map nth Spec.c1 c2 c3 c4 c5 c6 c7 c8] in *.
    unfold t, persp_y, persp_x. cbn [nadd nmul ndiv nofZ Mach FloatNum].
    assert (K : forall a b c0 g h n, within 100 a -> within 100 b -> within 100 c0 -> within 100 g -> within 100 h ->
      two (-48) * terms (FR g) (FR h) 1 p <= Rabs (FR g * pxc p + FR h * py p + 1) -> (0 < n <= 2 ^ 20)%Z ->
      let x := @nf32 _ (Mach pw) (@nclip _ (Mach pw) (PrimFloat.div (PrimFloat.add (PrimFloat.add (PrimFloat.mul a (f_ofZ j)) (PrimFloat.mul b (f_ofZ i))) c0)
                 (PrimFloat.add (PrimFloat.add (PrimFloat.mul g (f_ofZ j)) (PrimFloat.mul h (f_ofZ i))) (@n1 _ (Mach pw)))) (f_ofZ 0) (f_ofZ (n - 1))) in
      finite x /\ 0 <= FR x <= IZR (n - 1) /\
      Rabs (FR x - clamp ((FR a * pxc p + FR b * py p + FR c0) / (FR g * pxc p + FR h * py p + 1)) 0 (IZR (n - 1))) <= quotient_bound (FR a) (FR b) (FR c0) (FR g) (FR h) p + two (-24) * IZR (n - 1) + two (-150)).
    { intros a b c0 g h n Ha Hb Hc Hg Hh' HD' Hn x.
      pose proof (quot_rep pw a b c0 g h (f_ofZ i) (f_ofZ j) Ha Hb Hc Hg Hh' Wi Wj) as Q. rewrite Ei, Ej in Q. specialize (Q HD').
      pose proof (clip_rep pw 171 20 n _ _ ltac:(lia) ltac:(lia) ltac:(lia) Q) as C. rewrite nclip_R in C by (apply IZR_le; lia).
      apply rep_f32 in C; [|lia]. destruct C as [C1 [C2 _]]. split; [exact C1|]. unfold x. cbn [nf32 Mach FloatNum nofZ] in *. rewrite C2.
      split; [apply f32_clamp_range; lia|]. apply clipped_bound; [lia|]. exact (quot_near f64 double_f64 _ _ _ _ _ p HD'). }
    match goal with |- context [Spec.proj] => fail 1 | _ => idtac end.
    match goal with |- context [quotient_bound (FR ?a4) (FR ?a5) (FR ?a6) (FR ?a7) (FR ?a8) p + two (-24) * IZR (ih mat - 1)] =>
      destruct (K a4 a5 a6 a7 a8 (ih mat) ltac:(assumption) ltac:(assumption) ltac:(assumption) ltac:(assumption) ltac:(assumption) HD Hh) as [Y1 [Y2 Y3]] end.
    match goal with |- context [quotient_bound (FR ?a1) (FR ?a2) (FR ?a3) (FR ?a7) (FR ?a8) p + two (-24) * IZR (iw mat - 1)] =>
      destruct (K a1 a2 a3 a7 a8 (iw mat) ltac:(assumption) ltac:(assumption) ltac:(assumption) ltac:(assumption) ltac:(assumption) HD Hw) as [X1 [X2 X3]] end.
    split; [exact Y1|]. split; [exact X1|]. split; [exact Y2|]. split; [exact X2|]. split; [exact Y3|exact X3].
Qed.
Print Assumptions C117_perspective_positions.

(** Where numerator and denominator vanish together the position is no number,
    and clipping does not repair it. *)
Theorem C117_nan_refuted : exists c : list PrimFloat.float, length c = 8%nat /\ Forall (within 100) c /\ forall pw,
  forall mat : image PrimFloat.float, (1 <= ih mat)%Z -> (2 <= iw mat)%Z -> exists Y X : Z -> Z -> PrimFloat.float,
  (forall interp, exists out, @correct_perspective_image _ (Mach pw) interp mat c None = Ok out /\
     forall i j, in_img mat i j -> px out i j = interp mat (Y i j) (X i j)) /\
  PrimFloat.is_nan (X 0%Z 1%Z) = true.
Proof.
  exists [1; 0; -1; 0; 1; 0; -1; 0]%float. split; [reflexivity|].
  assert (P100 : 1 <= two 100) by (change 1 with (two 0); unfold two; apply bpow_le; lia).
  assert (W0 : within 100 0%float). { split; [reflexivity|]. change (FR 0%float) with 0. rewrite Rabs_R0. lra. }
  assert (W1 : within 100 1%float). { destruct (one_within exact_pow) as [A _]. change (@n1 _ (Mach exact_pow)) with 1%float in A. exact A. }
  assert (W2 : within 100 (-1)%float).
  { destruct (int_rep (-1) 0 ltac:(lia) ltac:(lia)) as [A [B C]]. change (f_ofZ (-1)) with (-1)%float in *. split; [exact A|]. rewrite B. cbn in C. change (IZR radix2) with 2 in *. unfold two in *. lra. }
  split; [repeat (apply Forall_cons; [assumption|]); apply Forall_nil|]. intros pw mat Hh Hw.
  set (t := (1, 0, -1, 0, 1, 0, -1, 0)%float).
  exists (fun i j => @nf32 _ (Mach pw) (@nclip _ (Mach pw) (@persp_y _ (Mach pw) t (@nofZ _ (Mach pw) i) (@nofZ _ (Mach pw) j)) (@nofZ _ (Mach pw) 0) (@nofZ _ (Mach pw) (ih mat - 1)))),
    (fun i j => @nf32 _ (Mach pw) (@nclip _ (Mach pw) (@persp_x _ (Mach pw) t (@nofZ _ (Mach pw) i) (@nofZ _ (Mach pw) j)) (@nofZ _ (Mach pw) 0) (@nofZ _ (Mach pw) (iw mat - 1)))).
  split.
  - intros interp. unfold correct_perspective_image, generate_perspective_map. cbn [unpack8 bind]. fold t.
    unfold reshape. rewrite !map_length. rewrite grid_length by lia. rewrite Z.eqb_refl. eexists. split; [reflexivity|]. cbn [ih iw px].
    intros i j [Hi Hj].
    assert (Hl : (Z.to_nat (i * iw mat + j) < length (grid (ih mat) (iw mat)))%nat).
    { apply Nat2Z.inj_lt. rewrite grid_length by lia. nia. }
    rewrite map_map, (nth_map_in _ _ _ (0%Z, 0%Z)) by assumption. rewrite grid_nth by assumption. cbn [fst snd]. reflexivity.
  - assert (E : @persp_x _ (Mach pw) t (@nofZ _ (Mach pw) 0) (@nofZ _ (Mach pw) 1) = PrimFloat.nan) by reflexivity.
    cbv beta. rewrite E. unfold nclip, nmin, nmax. cbn [nltb Mach nofZ nf32 FloatNum]. change (PrimFloat.ltb nan (f_ofZ 0)) with false. cbv iota.
    assert (L : forall x, PrimFloat.ltb x nan = false).
    { intros x. rewrite FloatAxioms.ltb_spec. change (Prim2SF nan) with S754_nan. now destruct (Prim2SF x). }
    now rewrite L.
Qed.
Print Assumptions C117_nan_refuted.

(** The hypotheses are met by ordinary numbers. *)
Example C117_case : pow_ok exact_pow /\ Forall (within 200) [1; 0x1p-10; -0x1p-20]%float /\ within 20 1023.5%float /\ within_pt 20 (12, 2047.25)%float /\
  @unwarp_line_forward _ (Mach exact_pow) [(DF64, [(1023.5, 2047.5)%float])] 1023.5%float 1023.5%float [1; 0x1p-10; -0x1p-20]%float = [(DF64, [(1023.5, 2047.5)%float])].
Proof.
  split; [exact exact_pow_ok|].
  assert (K : forall m e k, (Z.abs m < 2 ^ 53)%Z -> (Z.abs m <= 2 ^ (k - e))%Z -> (-1074 <= e <= k)%Z -> (k <= 1000)%Z -> within k (SF2Prim (SpecFloat.binary_normalize 53 1024 m e false))).
  { intros m e k H1 H2 H3 H4.
    assert (B : Rabs (F2R (Float radix2 m e)) <= two k).
    { unfold F2R. cbn [Fnum Fexp]. rewrite Rabs_mult, <- abs_IZR, (Rabs_pos_eq (bpow radix2 e)) by apply bpow_ge_0.
      replace k with (k - e + e)%Z by lia. unfold two. rewrite bpow_plus. apply Rmult_le_compat_r; [apply bpow_ge_0|]. rewrite <- IZR_Zpower by lia. now apply IZR_le. }
    destruct (normal_rep m e false _ eq_refl) as [A1 A2]; [apply (f64_lt k); [lia|exact B]|]. split; [exact A1|]. rewrite A2. apply f64_le; [lia|exact B]. }
  split; [|split; [|split; [split|]]].
  - apply Forall_cons; [apply (K 1%Z 0%Z 200%Z); lia|]. apply Forall_cons; [apply (K 1%Z (-10)%Z 200%Z); lia|]. apply Forall_cons; [apply (K (-1)%Z (-20)%Z 200%Z); lia|apply Forall_nil].
  - apply (K 2047%Z (-1)%Z 20%Z); lia.
  - apply (K 12%Z 0%Z 20%Z); lia.
  - apply (K 8189%Z (-2)%Z 20%Z); lia.
  - vm_compute. reflexivity.
Qed.
