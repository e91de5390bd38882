(** C123: the calibration treats left and right, and up and down, alike. *)
From Coq Require Import Reals ZArith List Lia Lra Permutation FunctionalExtensionality.
From Flocq Require Import Core.
From Verif Require Import Base Num NumFacts Spec Lsq PolyUniq LsqEx Post PrepImg Proc ProcSpec ProcFacts ProcFacts2 ProcFacts3 ProcFacts4 ProcFacts5 LineFacts PrepFacts PrepFacts4 PersFacts8 CalibSpec CalibSpec2 CalibFacts Props_Proc Props_Calib Props_Calib2 Props_Calib3 Props_DotOrder MirrorFacts.
Import ListNotations.
Local Open Scope R_scope.

Lemma flip_nearest s t cs : is_sign s -> one_nearest cs -> one_nearest (map (flip s t) cs).
Proof.
  intros Hs [k [Hk H]]. exists k. rewrite map_length. split; [exact Hk|]. intros j Hj Ne. specialize (H j Hj Ne).
  assert (N : forall i, (i < length cs)%nat -> Rabs (snd (nth i (map (flip s t) cs) (0, 0, 0))) = Rabs (snd (nth i cs (0, 0, 0)))).
  { intros i Hi. rewrite (nth_indep _ _ (flip s t (0, 0, 0))) by now rewrite map_length. rewrite map_nth. now apply is_sign_abs. }
  now rewrite !N.
Qed.
Lemma mirror_dist sy sx p xc yc : is_sign sy -> is_sign sx -> dist (mirror_dot sy sx p) (sy * yc, sx * xc) = dist p (yc, xc).
Proof. intros Hy Hx. unfold dist, mirror_dot, py, pxc. cbn [fst snd]. f_equal. destruct Hy as [->| ->], Hx as [->| ->]; ring. Qed.
Lemma mirror_hor_sample sy sx xc yc c u p : is_sign sy -> is_sign sx ->
  hor_sample (sx * xc) (sy * yc) (flip sy sx c) (sy * u) (mirror_dot sy sx p) = hor_sample xc yc c u p.
Proof.
  intros Hy Hx. unfold hor_sample. rewrite mirror_dist by assumption. f_equal. unfold flip, mirror_dot, pxc. cbn [fst snd].
  set (d := fst (fst c) * (snd p - xc) ^ 2 + snd c). replace (_ * (_ - _) ^ 2 + sy * snd c) with (sy * d) by (unfold d; destruct Hx as [->| ->]; ring).
  unfold Rdiv. rewrite Rinv_mult. destruct Hy as [->| ->]; [rewrite Rinv_1; ring|]. replace (/ -1) with (-1) by (field; lra). ring.
Qed.
Lemma mirror_ver_sample sy sx xc yc c u p : is_sign sy -> is_sign sx ->
  ver_sample (sx * xc) (sy * yc) (flip sx sy c) (sx * u) (mirror_dot sy sx p) = ver_sample xc yc c u p.
Proof.
  intros Hy Hx. unfold ver_sample. rewrite mirror_dist by assumption. f_equal. unfold flip, mirror_dot, py. cbn [fst snd].
  set (d := fst (fst c) * (fst p - yc) ^ 2 + snd c). replace (_ * (_ - _) ^ 2 + sx * snd c) with (sx * d) by (unfold d; destruct Hy as [->| ->]; ring).
  unfold Rdiv. rewrite Rinv_mult. destruct Hx as [->| ->]; [rewrite Rinv_1; ring|]. replace (/ -1) with (-1) by (field; lra). ring.
Qed.
Lemma mirror_samples (f g : R * R * R -> R -> R * R -> R * R) h s sy sx cs us lines :
  (forall c u p, f (h c) (s * u) (mirror_dot sy sx p) = g c u p) ->
  line_samples f (map h cs) (map (Rmult s) us) (mirror_lines sy sx lines) = line_samples g cs us lines.
Proof.
  intros H. unfold line_samples, mirror_lines. revert us lines.
  induction cs as [|c cs IH]; intros [|u us] [|a lines]; cbn [map combine concat]; try reflexivity.
  rewrite IH. f_equal. cbn [fst snd]. rewrite map_map. apply map_ext. intros p. apply H.
Qed.
Lemma backwards_samples f r cs us lines : length cs = length us -> length us = length lines ->
  Permutation (line_samples f cs us lines) (line_samples f (backwards r cs) (backwards r us) (backwards r lines)).
Proof.
  intros L1 L2. destruct r; cbn [backwards]; [|reflexivity]. unfold line_samples. rewrite (combine_rev cs us L1), (combine_rev (combine cs us) lines) by (rewrite combine_length; lia).
  rewrite map_rev. apply PrepFacts.concat_perm, Permutation_rev.
Qed.

Lemma backwards_length {A} r (l : list A) : length (backwards r l) = length l.
Proof. destruct r; [apply rev_length|reflexivity]. Qed.
Lemma mirror_length sy sx l : length (mirror_lines sy sx l) = length l.
Proof. apply map_length. Qed.

Lemma back_dir st minimize r nh nv opt cs : (2 <= nh)%Z -> (2 <= nv)%Z -> (r = true -> one_nearest cs) ->
  one_dir st minimize nh nv opt (backwards r cs) = res_map (backwards r) (one_dir st minimize nh nv opt cs).
Proof.
  intros Hh Hv H. destruct r; cbn [backwards]; [apply rev_dir; auto|]. now destruct (one_dir st minimize nh nv opt cs).
Qed.
Lemma back_missing st polyfit r cs : polyfit_oracle polyfit -> (2 <= length cs)%nat -> @missing_error R (Rst st) polyfit (backwards r cs) = @missing_error R (Rst st) polyfit cs.
Proof. intros PF L. destruct r; [|reflexivity]. now apply (rev_missing st polyfit PF). Qed.
Lemma back_hor st polyfit r l xc yc cs s : @para_fit_hor R (Rst st) polyfit l xc yc = Ok (cs, s) -> @para_fit_hor R (Rst st) polyfit (backwards r l) xc yc = Ok (backwards r cs, backwards r s).
Proof. destruct r; [|auto]. apply (rev_hor st polyfit). Qed.
Lemma back_ver st polyfit r l xc yc cs s : @para_fit_ver R (Rst st) polyfit l xc yc = Ok (cs, s) -> @para_fit_ver R (Rst st) polyfit (backwards r l) xc yc = Ok (backwards r cs, backwards r s).
Proof. destruct r; [|auto]. apply (rev_ver st polyfit). Qed.

(** A calibration photograph turned over: the coordinates of all dots and of
    the centre change their sign in one direction or in both (sy, sx), and the
    horizontal or the vertical lines, or both, are listed from the other end
    (rh, rv).  The undistorted positions change their sign and their order
    likewise, the warning and the coefficients are the same, where the dots
    determine them.  Lines may be listed from the other end if one of them is
    nearest to the centre: see C123_tie_refuted. *)
Theorem C123_mirrored : forall st polyfit minimize lstsq sy sx rh rv lh lv xc yc num_fact opt thr w uh uv ch cv,
  odd_rounding st -> polyfit_oracle polyfit -> lstsq_oracle lstsq -> (num_fact <= 32767)%Z -> is_sign sy -> is_sign sx ->
  (2 <= length lh)%nat -> (2 <= length lv)%nat -> spread_hor 3 lh -> spread_ver 3 lv ->
  @calc_undistor_intercept R (Rst st) polyfit minimize lh lv xc yc opt thr = Ok (w, (uh, uv)) ->
  fits_hor st polyfit xc yc lh ch -> fits_ver st polyfit xc yc lv cv ->
  (rh = true -> one_nearest ch) -> (rv = true -> one_nearest cv) ->
  let n := Z.to_nat (Z.max 1 num_fact) in
  let samples := line_samples (hor_sample xc yc) ch uh lh ++ line_samples (ver_sample xc yc) cv uv lv in
  let lh' := backwards rh (mirror_lines sy sx lh) in let lv' := backwards rv (mirror_lines sy sx lv) in
  let xc' := sx * xc in let yc' := sy * yc in
  @calc_undistor_intercept R (Rst st) polyfit minimize lh' lv' xc' yc' opt thr =
    Ok (w, (backwards rh (map (Rmult sy) uh), backwards rv (map (Rmult sx) uv))) /\
  (distinct_values n (map fst (usable samples)) -> exists F,
    @calc_coef_forward R (Rst st) polyfit minimize lstsq lh lv xc yc num_fact opt thr = Ok F /\
    @calc_coef_forward R (Rst st) polyfit minimize lstsq lh' lv' xc' yc' num_fact opt thr = Ok F) /\
  (distinct_values n (map fst (map inverse_sample samples)) -> exists B,
    @calc_coef_backward R (Rst st) polyfit minimize lstsq lh lv xc yc num_fact opt thr = Ok B /\
    @calc_coef_backward R (Rst st) polyfit minimize lstsq lh' lv' xc' yc' num_fact opt thr = Ok B) /\
  (forall F B, distinct_values n (map fst (usable samples)) ->
    @calc_coef_backward_from_forward R (Rst st) polyfit minimize lstsq lh lv xc yc num_fact opt thr = Ok (F, B) ->
    distinct_values n (map (fun p => dist p (yc, xc) * poly F (dist p (yc, xc))) (filter (fun p => negb (Req_bool (poly F (dist p (yc, xc))) 0)) (concat lh ++ concat lv))) ->
    @calc_coef_backward_from_forward R (Rst st) polyfit minimize lstsq lh' lv' xc' yc' num_fact opt thr = Ok (F, B)).
Proof.
  intros st polyfit minimize lstsq sy sx rh rv lh lv xc yc num_fact opt thr w uh uv ch cv ODD PF LS NF Hy Hx Lh Lv Sh Sv EU Fh Fv Nh Nv n samples lh' lv' xc' yc'.
  destruct (call_parts st polyfit minimize lh lv xc yc opt thr) as [w' [uh' [uv' [ch' [cv' [sh [sv [E' [Eh Ev]]]]]]]]].
  { intros e X. pose proof (eq_trans (eq_sym EU) X). discriminate. }
  pose proof (fits_hor_fun st polyfit _ _ _ _ _ Fh (para_hor_fits _ _ _ _ _ _ _ Eh)) as <-.
  pose proof (fits_ver_fun st polyfit _ _ _ _ _ Fv (para_ver_fits _ _ _ _ _ _ _ Ev)) as <-. clear E' w' uh' uv'.
  pose proof (eq_trans (flip_hor st ODD polyfit PF lh sy sx xc yc Hy Hx Sh) (f_equal _ Eh)) as Eh'. cbn [res_map fst snd] in Eh'. apply (back_hor st polyfit rh) in Eh'.
  pose proof (eq_trans (flip_ver st ODD polyfit PF lv sy sx xc yc Hy Hx Sv) (f_equal _ Ev)) as Ev'. cbn [res_map fst snd] in Ev'. apply (back_ver st polyfit rv) in Ev'.
  fold lh' xc' yc' in Eh'. fold lv' xc' yc' in Ev'. set (sh' := backwards rh (mirror_lines sy sx sh)) in Eh'. set (sv' := backwards rv (mirror_lines sy sx sv)) in Ev'.
  assert (Lch : length ch = length lh) by (symmetry; exact (Forall2_length _ _ _ Fh)). assert (Lcv : length cv = length lv) by (symmetry; exact (Forall2_length _ _ _ Fv)).
  assert (LU : length uh = length ch /\ length uv = length cv).
  { destruct (undistor_intercept_ok st polyfit minimize lh lv xc yc opt thr w uh uv Lh Lv EU) as [c1 [c2 [F1 [F2 [_ [[p1 [d1 [_ [L1 _]]]] [p2 [d2 [_ [L2 _]]]]]]]]]].
    rewrite (fits_hor_fun st polyfit _ _ _ _ _ Fh F1), (fits_ver_fun st polyfit _ _ _ _ _ Fv F2). auto. }
  assert (EU' : @calc_undistor_intercept R (Rst st) polyfit minimize lh' lv' xc' yc' opt thr = Ok (w, (backwards rh (map (Rmult sy) uh), backwards rv (map (Rmult sx) uv)))).
  { apply (undistor_dirs st polyfit minimize lh lv xc yc opt thr ch cv sh sv w uh uv Eh Ev) in EU. destruct EU as [Ec [U1 U2]].
    apply (undistor_dirs st polyfit minimize lh' lv' xc' yc' opt thr _ _ sh' sv' _ _ _ Eh' Ev'). unfold lh', lv'. rewrite !backwards_length, !mirror_length.
    split; [|split].
    - unfold check_missing_lines in *. change (NMi st) with (Rst st) in *. rewrite !back_missing by (try assumption; rewrite map_length; lia).
      pose proof (flip_missing st polyfit sy sx ch Hy) as M1. pose proof (flip_missing st polyfit sx sy cv Hx) as M2. change (NMi st) with (Rst st) in *. now rewrite M1, M2.
    - rewrite back_dir; [|lia|lia|intros Q; now apply flip_nearest, Nh]. rewrite flip_dir by assumption. now rewrite U1.
    - rewrite back_dir; [|lia|lia|intros Q; now apply flip_nearest, Nv]. rewrite flip_dir by assumption. now rewrite U2. }
  split; [exact EU'|].
  assert (PS : Permutation samples (line_samples (hor_sample xc' yc') (backwards rh (map (flip sy sx) ch)) (backwards rh (map (Rmult sy) uh)) lh' ++
    line_samples (ver_sample xc' yc') (backwards rv (map (flip sx sy) cv)) (backwards rv (map (Rmult sx) uv)) lv')).
  { unfold samples. apply Permutation_app.
    - rewrite <- (mirror_samples (hor_sample xc' yc') (hor_sample xc yc) (flip sy sx) sy sy sx ch uh lh) by (intros; now apply mirror_hor_sample).
      apply backwards_samples; rewrite ?map_length, ?mirror_length; lia.
    - rewrite <- (mirror_samples (ver_sample xc' yc') (ver_sample xc yc) (flip sx sy) sx sy sx cv uv lv) by (intros; now apply mirror_ver_sample).
      apply backwards_samples; rewrite ?map_length, ?mirror_length; lia. }
  assert (SF : distinct_values n (map fst (usable samples)) -> exists F,
    @calc_coef_forward R (Rst st) polyfit minimize lstsq lh lv xc yc num_fact opt thr = Ok F /\
    @calc_coef_forward R (Rst st) polyfit minimize lstsq lh' lv' xc' yc' num_fact opt thr = Ok F).
  { intros D. destruct (solve_total st lstsq LS n (usable samples) (distinct_nonempty num_fact _ D)) as [F EF]. exists F. split.
    - exact (eq_trans (forward_call st polyfit minimize lstsq lh lv xc yc num_fact opt thr NF w uh uv ch cv sh sv EU Eh Ev) EF).
    - refine (eq_trans (forward_call st polyfit minimize lstsq _ _ _ _ num_fact opt thr NF w _ _ _ _ sh' sv' EU' Eh' Ev') _).
      exact (perm_solve st lstsq LS n _ _ F (usable_perm _ _ PS) EF D). }
  split; [exact SF|]. split.
  { intros D. destruct (solve_total st lstsq LS n (map inverse_sample samples) (distinct_nonempty num_fact _ D)) as [F EF]. exists F. split.
    - exact (eq_trans (backward_call st polyfit minimize lstsq lh lv xc yc num_fact opt thr NF w uh uv ch cv sh sv EU Eh Ev) EF).
    - refine (eq_trans (backward_call st polyfit minimize lstsq _ _ _ _ num_fact opt thr NF w _ _ _ _ sh' sv' EU' Eh' Ev') _).
      exact (perm_solve st lstsq LS n _ _ F (Permutation_map inverse_sample PS) EF D). }
  intros F B D1 H D2. destruct (SF D1) as [F' [EF EG]].
  pose proof (C97_backward_from_forward st polyfit minimize lstsq lh lv xc yc num_fact opt thr F B LS NF H) as [EF' _].
  pose proof (Ok_inj _ _ (eq_trans (eq_sym EF) EF')) as ->.
  assert (LF : length F = n).
  { destruct (C97_forward_least_squares st polyfit minimize lstsq lh lv xc yc num_fact opt thr w uh uv F LS NF EU EF) as [? [? [_ [_ [L _]]]]]. exact L. }
  pose proof (both_call st polyfit minimize lstsq lh lv xc yc num_fact opt thr F ch cv sh sv NF EF LF Eh Ev) as C1.
  pose proof (both_call st polyfit minimize lstsq lh' lv' xc' yc' num_fact opt thr F _ _ sh' sv' NF EG LF Eh' Ev') as C2.
  pose proof (eq_trans (eq_sym C1) H) as C3. clear C1.
  match type of C3 with bind ?x _ = _ => destruct x as [B'|] eqn:EB; [|discriminate C3] end.
  cbn [bind] in C3. apply Ok_inj in C3. apply pair_equal_spec in C3. destruct C3 as [_ ->].
  assert (D3 : distinct_values n (map fst (inverse_samples xc yc F (concat lh ++ concat lv)))) by (rewrite inverse_radii; exact D2).
  refine (eq_trans C2 _).
  assert (IP : Permutation (inverse_samples xc yc F (concat lh ++ concat lv)) (inverse_samples xc' yc' F (concat lh' ++ concat lv'))).
  { unfold inverse_samples. apply Permutation_map, usable_perm.
    replace (map (fun p => (dist p (yc, xc), poly F (dist p (yc, xc)))) (concat lh ++ concat lv)) with
      (map (fun p => (dist p (yc', xc'), poly F (dist p (yc', xc')))) (concat (mirror_lines sy sx lh) ++ concat (mirror_lines sy sx lv))).
    2: { unfold mirror_lines. rewrite <- !concat_map, <- map_app, map_map. apply map_ext. intros p. unfold xc', yc'. now rewrite mirror_dist by assumption. }
    apply Permutation_map, Permutation_app; apply PrepFacts.concat_perm; unfold lh', lv'; [destruct rh|destruct rv]; cbn [backwards]; try reflexivity; apply Permutation_rev. }
  refine (eq_trans (f_equal (fun r => bind r _) (perm_solve st lstsq LS n _ _ B IP EB D3)) _). reflexivity.
Qed.
Print Assumptions C123_mirrored.

(** *** The centre *)
(** One place where the curvature changes its sign most. *)
Definition one_change (cs : list (R * R * R)) : Prop :=
  exists i, (S i < length cs)%nat /\ forall j, (S j < length cs)%nat -> j <> i -> sign_jump cs j < sign_jump cs i.
Lemma nth_flip s t cs i : nth i (map (flip s t) cs) (0, 0, 0) = flip s t (nth i cs (0, 0, 0)).
Proof.
  assert (Z : flip s t (0, 0, 0) = (0, 0, 0)) by (unfold flip; cbn [fst snd]; f_equal; [f_equal|]; ring).
  rewrite <- Z at 1. apply map_nth.
Qed.
Lemma curv_flip s t cs i : curv (map (flip s t) cs) i = s * curv cs i.
Proof. unfold curv. now rewrite nth_flip. Qed.
Lemma slope_flip s t cs i : slope (map (flip s t) cs) i = s * t * slope cs i.
Proof. unfold slope. now rewrite nth_flip. Qed.
Lemma inter_flip s t cs i : inter (map (flip s t) cs) i = s * inter cs i.
Proof. unfold inter. now rewrite nth_flip. Qed.
Lemma jump_flip s t cs i : is_sign s -> sign_jump (map (flip s t) cs) i = sign_jump cs i.
Proof. intros Hs. unfold sign_jump. rewrite !curv_flip, !sgn_sign by assumption. rewrite <- Rmult_minus_distr_l. now apply is_sign_abs. Qed.
Lemma jump_rev cs i : (S i < length cs)%nat -> sign_jump (rev cs) i = sign_jump cs (length cs - 2 - i).
Proof.
  intros H. unfold sign_jump, curv. rewrite !rev_nth by lia. rewrite Rabs_minus_sym. replace (length cs - S i)%nat with (S (length cs - 2 - i)) by lia.
  replace (length cs - S (S i))%nat with (length cs - 2 - i)%nat by lia. reflexivity.
Qed.
Lemma main_unique cs i j : main_change cs i -> main_change cs j -> i = j.
Proof.
  intros [Hi [M1 M2]] [Hj [N1 N2]]. destruct (Nat.lt_trichotomy i j) as [L|[E|L]]; [|assumption|].
  - specialize (N2 i L). specialize (M1 j Hj). lra.
  - specialize (M2 j L). specialize (N1 i Hi). lra.
Qed.
Lemma main_flip s t cs i : is_sign s -> main_change cs i -> main_change (map (flip s t) cs) i.
Proof.
  intros Hs [Hi [M1 M2]]. repeat split; rewrite ?map_length; [exact Hi| |]; intros j Hj; rewrite !jump_flip by assumption; auto.
Qed.
Lemma main_rev cs i : one_change cs -> main_change cs i -> main_change (rev cs) (length cs - 2 - i).
Proof.
  intros [k [Hk U]] [Hi [M1 _]].
  assert (K : k = i) by (destruct (Nat.eq_dec k i) as [|Ne]; [assumption|]; specialize (U i Hi ltac:(auto)); specialize (M1 k Hk); lra). subst k.
  split; [rewrite rev_length; lia|].
  assert (Q : forall j, (S j < length cs)%nat -> j <> (length cs - 2 - i)%nat -> sign_jump (rev cs) j < sign_jump (rev cs) (length cs - 2 - i)).
  { intros j Hj Ne. rewrite !jump_rev by lia. replace (length cs - 2 - (length cs - 2 - i))%nat with i by lia. apply U; lia. }
  split; rewrite ?rev_length; intros j Hj.
  - destruct (Nat.eq_dec j (length cs - 2 - i)) as [->|Ne]; [lra|]. left. now apply Q.
  - apply Q; lia.
Qed.
Lemma flip_change s t cs : is_sign s -> one_change cs -> one_change (map (flip s t) cs).
Proof. intros Hs [i [Hi U]]. exists i. rewrite map_length. split; [exact Hi|]. intros j Hj Ne. rewrite !jump_flip by assumption. now apply U. Qed.
Lemma change_mirrored r s t cs i i' : is_sign s -> (r = true -> one_change cs) -> main_change cs i -> main_change (backwards r (map (flip s t) cs)) i' ->
  let cs' := backwards r (map (flip s t) cs) in
  inter cs' i' + inter cs' (S i') = s * (inter cs i + inter cs (S i)) /\ slope cs' i' + slope cs' (S i') = s * t * (slope cs i + slope cs (S i)).
Proof.
  intros Hs U Mi Mi' cs'. pose proof (main_flip s t cs i Hs Mi) as Mf. destruct r; cbn [backwards] in *.
  - pose proof (main_rev _ i (flip_change s t cs Hs (U eq_refl)) Mf) as Mr. rewrite (main_unique _ _ _ Mi' Mr). rewrite map_length. destruct Mi as [Hi _].
    unfold cs', inter, slope. rewrite !rev_nth by (rewrite map_length; lia). rewrite map_length.
    replace (length cs - S (length cs - 2 - i))%nat with (S i) by lia. replace (length cs - S (S (length cs - 2 - i)))%nat with i by lia.
    rewrite !nth_flip. unfold flip. cbn [fst snd]. split; ring.
  - rewrite (main_unique _ _ _ Mi' Mf). unfold cs'. rewrite !inter_flip, !slope_flip. split; ring.
Qed.
Section Centre.
  Variable st : R -> R.
  Hypothesis ODD : odd_rounding st.
  Local Instance NCe : Num R := Rst st.
  Variable polyfit : list R -> list R -> nat -> res (list R).
  Hypothesis PF : polyfit_oracle polyfit.
  Variables (sy sx : R) (rh rv : bool) (lh lv : list (list (R * R))).
  Hypothesis Hy : is_sign sy.
  Hypothesis Hx : is_sign sx.
  Hypothesis Sh : spread_hor 3 lh.
  Hypothesis Sv : spread_ver 3 lv.
  Let lh' := backwards rh (mirror_lines sy sx lh).
  Let lv' := backwards rv (mirror_lines sy sx lv).
  Lemma mirrored_fits x y : exists ch cv sh sv sh' sv', para_fit_hor polyfit lh x y = Ok (ch, sh) /\ para_fit_ver polyfit lv x y = Ok (cv, sv) /\
    para_fit_hor polyfit lh' (sx * x) (sy * y) = Ok (backwards rh (map (flip sy sx) ch), sh') /\ para_fit_ver polyfit lv' (sx * x) (sy * y) = Ok (backwards rv (map (flip sx sy) cv), sv') /\
    length ch = length lh /\ length cv = length lv /\ fits_hor st polyfit x y lh ch /\ fits_ver st polyfit x y lv cv.
  Proof.
    destruct (hor_order st polyfit PF lh lh x y) as [ch [sh [_ [Eh [_ _]]]]]; [unfold reordered; clear; induction lh; constructor; [reflexivity|assumption]|exact Sh|].
    destruct (ver_order st polyfit PF lv lv x y) as [cv [sv [_ [Ev [_ _]]]]]; [unfold reordered; clear; induction lv; constructor; [reflexivity|assumption]|exact Sv|].
    exists ch, cv, sh, sv, (backwards rh (mirror_lines sy sx sh)), (backwards rv (mirror_lines sy sx sv)). split; [exact Eh|]. split; [exact Ev|].
    split; [apply (back_hor st); exact (eq_trans (flip_hor st ODD polyfit PF lh sy sx x y Hy Hx Sh) (f_equal _ Eh))|].
    split; [apply (back_ver st); exact (eq_trans (flip_ver st ODD polyfit PF lv sy sx x y Hy Hx Sv) (f_equal _ Ev))|].
    pose proof (para_hor_fits _ _ _ _ _ _ _ Eh) as Fh. pose proof (para_ver_fits _ _ _ _ _ _ _ Ev) as Fv.
    split; [symmetry; exact (Forall2_length _ _ _ Fh)|]. split; [symmetry; exact (Forall2_length _ _ _ Fv)|]. auto.
  Qed.
  Lemma coarse_mirrored ch cv X Y : (2 <= length lh)%nat -> (2 <= length lv)%nat -> fits_hor st polyfit 0 0 lh ch -> fits_ver st polyfit 0 0 lv cv ->
    (rh = true -> one_change ch) -> (rv = true -> one_change cv) ->
    find_cod_coarse polyfit lh lv = Ok (X, Y) -> find_cod_coarse polyfit lh' lv' = Ok (sx * X, sy * Y).
  Proof.
    intros Lh Lv Fh Fv Uh Uv E. destruct (mirrored_fits 0 0) as [ch0 [cv0 [sh [sv [sh' [sv' [Eh [Ev [Eh' [Ev' [L1 [L2 [F1 F2]]]]]]]]]]]]].
    rewrite !Rmult_0_r in *.
    pose proof (fits_hor_fun st polyfit _ _ _ _ _ Fh F1) as <-. pose proof (fits_ver_fun st polyfit _ _ _ _ _ Fv F2) as <-.
    destruct (coarse_spec st polyfit lh lv ch sh cv sv Eh Ev) as [i [j [Mi [Mj C]]]]; [lia|lia|].
    destruct (coarse_spec st polyfit lh' lv' _ sh' _ sv' Eh' Ev') as [i' [j' [Mi' [Mj' C']]]]; [rewrite backwards_length, map_length; lia|rewrite backwards_length, map_length; lia|].
    cbn zeta in C, C'. pose proof (Ok_inj _ _ (eq_trans (eq_sym C) E)) as Q. apply pair_equal_spec in Q. destruct Q as [<- <-].
    destruct (change_mirrored rh sy sx ch i i' Hy Uh Mi Mi') as [I1 P1]. destruct (change_mirrored rv sx sy cv j j' Hx Uv Mj Mj') as [I2 P2].
    refine (eq_trans C' _). rewrite I1, P1, I2, P2.
    set (mh := slope ch i + slope ch (S i)). set (mv := slope cv j + slope cv (S j)). set (y0 := inter ch i + inter ch (S i)). set (x0 := inter cv j + inter cv (S j)).
    replace (1 - sy * sx * mh / 2 * (sx * sy * mv / 2)) with (1 - mh / 2 * (mv / 2)) by (destruct Hx as [->| ->], Hy as [->| ->]; field).
    f_equal. unfold Rdiv. generalize (/ (1 - mh * / 2 * (mv * / 2))). intros q. f_equal; destruct Hx as [->| ->], Hy as [->| ->]; ring.
  Qed.

  (** The straight line through (intercept, curvature) of mirrored parabolas. *)
  Lemma fit1_mirrored r s t (cs : list (R * R * R)) : is_sign s -> distinct_values 2 (map snd cs) -> exists a b,
    fit1 polyfit (map cf2 cs) (map cf0 cs) = Ok (a, b) /\
    fit1 polyfit (map cf2 (backwards r (map (flip s t) cs))) (map cf0 (backwards r (map (flip s t) cs))) = Ok (a, s * b).
  Proof.
    intros Hs D. pose proof (is_sign_sq s Hs) as Q. set (cs' := backwards r (map (flip s t) cs)).
    assert (N : cs <> []) by (intros ->; destruct D as [d [_ [I L]]]; destruct d as [|x d]; [cbn in L; lia|]; destruct (I x (or_introl eq_refl))).
    assert (P : Permutation (map (flip s t) cs) cs') by (unfold cs'; destruct r; [apply Permutation_rev|reflexivity]).
    assert (N' : cs' <> []) by (intros E; rewrite E in P; apply Permutation_sym, Permutation_nil in P; destruct cs; [congruence|discriminate]).
    assert (D' : distinct_values 2 (map snd cs')).
    { apply (distinct_perm _ (map snd (map (flip s t) cs))); [now apply Permutation_map|].
      replace (map snd (map (flip s t) cs)) with (map (Rmult s) (map snd cs)) by (rewrite !map_map; reflexivity).
      apply distinct_values_map; [|exact D]. intros x y E. apply Rmult_eq_reg_l in E; [exact E|]. destruct Hs; lra. }
    destruct (PF (map cf2 cs) (map cf0 cs) 1%nat) as [v [Ev Pv]]; [destruct cs; [congruence|discriminate]|now rewrite !map_length|].
    destruct (PF (map cf2 cs') (map cf0 cs') 1%nat) as [w [Ew Pw]]; [destruct cs'; [congruence|discriminate]|now rewrite !map_length|].
    destruct v as [|a [|b [|]]]; try (destruct Pv as [X _]; discriminate X). exists a, b. unfold fit1. rewrite Ev, Ew. split; [reflexivity|].
    assert (T : polyfit_spec 1 (map cf2 cs') (map cf0 cs') [a; s * b]).
    { destruct Pv as [_ M]. split; [reflexivity|]. intros u Lu. destruct u as [|x [|y [|]]]; try discriminate. 
      assert (SE : forall x y, sqerr (map (pow_row 1) (map cf2 cs')) (map cf0 cs') [x; y] = sqerr (map (pow_row 1) (map cf2 cs)) (map cf0 cs) [x; s * y]).
      { intros p q. assert (G : forall l : list (R * R * R), sqerr (map (pow_row 1) (map cf2 l)) (map cf0 l) [p; q] = Rsum (map (fun c => (p * cf2 c + q - cf0 c) ^ 2) l)).
        { unfold sqerr. induction l as [|c l IH]; [reflexivity|]. cbn [map combine Rsum]. rewrite IH. cbn [fst snd pow_row dot]. f_equal. ring. }
        assert (G' : forall l : list (R * R * R), sqerr (map (pow_row 1) (map cf2 l)) (map cf0 l) [p; s * q] = Rsum (map (fun c => (p * cf2 c + s * q - cf0 c) ^ 2) l)).
        { unfold sqerr. induction l as [|c l IH]; [reflexivity|]. cbn [map combine Rsum]. rewrite IH. cbn [fst snd pow_row dot]. f_equal. ring. }
        rewrite G, G'. rewrite <- (Rsum_perm _ _ (Permutation_map _ P)), map_map. f_equal. apply map_ext. intros c. unfold flip, cf2, cf0. cbn [fst snd]. destruct Hs as [->| ->]; ring. }
      rewrite !SE. replace (s * (s * b)) with b by (rewrite <- Rmult_assoc, Q; ring). now apply M. }
    rewrite (polyfit_same 1 _ _ _ _ Pw T); [reflexivity|now rewrite !map_length|exact D'].
  Qed.
  (** The lines of a direction do not all meet on an axis through any point. *)
  Hypothesis Ah : forall x y ch, fits_hor st polyfit x y lh ch -> distinct_values 2 (map snd ch).
  Hypothesis Av : forall x y cv, fits_ver st polyfit x y lv cv -> distinct_values 2 (map snd cv).
  Lemma step_mirrored x y : bailey_step polyfit lh' lv' (sx * x, sy * y) = res_map (fun c => (sx * fst c, sy * snd c)) (bailey_step polyfit lh lv (x, y)).
  Proof.
    destruct (mirrored_fits x y) as [ch [cv [sh [sv [sh' [sv' [Eh [Ev [Eh' [Ev' [_ [_ [F1 F2]]]]]]]]]]]]].
    unfold bailey_step. rewrite Eh, Ev, Eh', Ev'. cbn [bind fst snd].
    destruct (fit1_mirrored rh sy sx ch Hy (Ah x y ch F1)) as [a1 [b1 [E1 E1']]]. destruct (fit1_mirrored rv sx sy cv Hx (Av x y cv F2)) as [a2 [b2 [E2 E2']]].
    rewrite E1, E1', E2, E2'. cbn [bind res_map fst snd nsub ndiv NCe Rst]. f_equal. unfold Rdiv. f_equal; ring.
  Qed.
  Lemma bailey_mirrored ch cv iteration : (2 <= length lh)%nat -> (2 <= length lv)%nat -> fits_hor st polyfit 0 0 lh ch -> fits_ver st polyfit 0 0 lv cv ->
    (rh = true -> one_change ch) -> (rv = true -> one_change cv) ->
    find_cod_bailey polyfit lh' lv' iteration = res_map (fun c => (sx * fst c, sy * snd c)) (find_cod_bailey polyfit lh lv iteration).
  Proof.
    intros Lh Lv Fh Fv Uh Uv. unfold find_cod_bailey.
    assert (C : exists X Y, find_cod_coarse polyfit lh lv = Ok (X, Y)).
    { destruct (mirrored_fits 0 0) as [ch0 [cv0 [sh [sv [sh' [sv' [Eh [Ev [_ [_ [L1 [L2 _]]]]]]]]]]]].
      destruct (coarse_spec st polyfit lh lv ch0 sh cv0 sv Eh Ev) as [i [j [_ [_ C]]]]; [lia|lia|]. eexists _, _. exact C. }
    destruct C as [X [Y C]]. rewrite C, (coarse_mirrored ch cv X Y Lh Lv Fh Fv Uh Uv C). cbn [bind]. rewrite step_mirrored.
    destruct (bailey_step polyfit lh lv (X, Y)) as [c|]; [|reflexivity]. cbn [bind res_map]. clear Fh Fv Uh Uv C.
    generalize (Z.to_nat iteration). intros k. revert c. induction k as [|k IH]; intros [x y]; cbn [bailey_loop fst snd]; [reflexivity|].
    rewrite step_mirrored. destruct (bailey_step polyfit lh lv (x, y)) as [c|]; [|reflexivity]. cbn [bind res_map]. apply IH.
  Qed.
End Centre.

(** The rough centre of the mirrored photograph is the mirrored centre.  The
    parabolas are those of the uncentred lines.  Lines may be listed from the
    other end if there is one place where the curvature changes its sign most. *)
Theorem C123_coarse_centre : forall st polyfit sy sx rh rv lh lv ch cv X Y,
  odd_rounding st -> polyfit_oracle polyfit -> is_sign sy -> is_sign sx ->
  (2 <= length lh)%nat -> (2 <= length lv)%nat -> spread_hor 3 lh -> spread_ver 3 lv ->
  fits_hor st polyfit 0 0 lh ch -> fits_ver st polyfit 0 0 lv cv -> (rh = true -> one_change ch) -> (rv = true -> one_change cv) ->
  @find_cod_coarse R (Rst st) polyfit lh lv = Ok (X, Y) ->
  @find_cod_coarse R (Rst st) polyfit (backwards rh (mirror_lines sy sx lh)) (backwards rv (mirror_lines sy sx lv)) = Ok (sx * X, sy * Y).
Proof.
  intros st polyfit sy sx rh rv lh lv ch cv X Y ODD PF Hy Hx Lh Lv Sh Sv Fh Fv Uh Uv E.
  exact (coarse_mirrored st ODD polyfit PF sy sx rh rv lh lv Hy Hx Sh Sv ch cv X Y Lh Lv Fh Fv Uh Uv E).
Qed.
Print Assumptions C123_coarse_centre.
(** So is the centre found by Bailey's method, with any number of iterations,
    if the lines of a direction do not all pass through one point of an axis
    through a candidate centre. *)
Theorem C123_bailey_centre : forall st polyfit sy sx rh rv lh lv ch cv iteration,
  odd_rounding st -> polyfit_oracle polyfit -> is_sign sy -> is_sign sx ->
  (2 <= length lh)%nat -> (2 <= length lv)%nat -> spread_hor 3 lh -> spread_ver 3 lv ->
  fits_hor st polyfit 0 0 lh ch -> fits_ver st polyfit 0 0 lv cv -> (rh = true -> one_change ch) -> (rv = true -> one_change cv) ->
  (forall x y c, fits_hor st polyfit x y lh c -> distinct_values 2 (map snd c)) ->
  (forall x y c, fits_ver st polyfit x y lv c -> distinct_values 2 (map snd c)) ->
  @find_cod_bailey R (Rst st) polyfit (backwards rh (mirror_lines sy sx lh)) (backwards rv (mirror_lines sy sx lv)) iteration =
  match @find_cod_bailey R (Rst st) polyfit lh lv iteration with
  | Ok (X, Y) => Ok (sx * X, sy * Y)
  | Err e => Err e
  end.
Proof.
  intros st polyfit sy sx rh rv lh lv ch cv it ODD PF Hy Hx Lh Lv Sh Sv Fh Fv Uh Uv Ah Av.
  pose proof (bailey_mirrored st ODD polyfit PF sy sx rh rv lh lv Hy Hx Sh Sv Ah Av ch cv it Lh Lv Fh Fv Uh Uv) as Q. change (NCe st) with (Rst st) in Q. rewrite Q.
  destruct (@find_cod_bailey R (Rst st) polyfit lh lv it) as [[X Y]|e]; reflexivity.
Qed.
Print Assumptions C123_bailey_centre.

(** *** Cases *)
(** Rounding to single precision is odd. *)
Lemma f32_odd : odd_rounding f32.
Proof. intros x. apply round_NE_opp. Qed.
Example C123_rounding : odd_rounding f32 /\ odd_rounding (fun x => x).
Proof. split; [exact f32_odd|]. now intros x. Qed.

(** Lines at -4, -2, 0, 2, 4 from the centre (20, 10), bent outwards; dots at
    -1, 0, 1 along each line. *)
Definition mi_cs : list (R * R) := [(-4/3, -4); (-2/3, -2); (0, 0); (2/3, 2); (4/3, 4)].
Definition mi_hor : list (list (R * R)) := map (fun c : R * R => [(20 + snd c * 4/3, 9); (20 + snd c, 10); (20 + snd c * 4/3, 11)]) mi_cs.
Definition mi_ver : list (list (R * R)) := map (fun c : R * R => [(19, 10 + snd c * 4/3); (20, 10 + snd c); (21, 10 + snd c * 4/3)]) mi_cs.
Lemma mi_bent : Forall2 (bent_hor 10 20) mi_cs mi_hor /\ Forall2 (bent_ver 10 20) mi_cs mi_ver.
Proof.
  split; unfold mi_ver, mi_hor, mi_cs; cbn [map fst snd]; repeat (apply Forall2_cons || apply Forall2_nil); (split;
    [intros p [<-|[<-|[<-|[]]]]; unfold py, pxc; cbn [fst snd]; field|unfold py, pxc; cbn [map fst snd]; distinct_lit]).
Qed.
Lemma mi_positions opt : @calc_undistor_intercept R Rexact pf_R min_R mi_hor mi_ver 10 20 opt (1/10) = Ok (false, ([-4; -2; 0; 2; 4], [-4; -2; 0; 2; 4])).
Proof.
  destruct mi_bent as [Bh Bv].
  assert (E : equidistant (-4) 2 (map snd mi_cs)) by (intros [|[|[|[|[|i]]]]] H; cbn in H; try lia; cbn; ring).
  apply (bent_positions pf_R min_R mi_cs mi_cs _ _ 10 20 opt (1/10) (-4) 2 (-4) 2 pf_R_ok min_R_ok Bh Bv); try assumption; cbn; try lia; lra.
Qed.
Lemma mi_fits : fits_hor (fun x => x) pf_R 10 20 mi_hor (map triple mi_cs) /\ fits_ver (fun x => x) pf_R 10 20 mi_ver (map triple mi_cs).
Proof.
  destruct mi_bent as [Bh Bv]. split.
  - pose proof (para_hor_exact (fun x => x) pf_R pf_R_ok 10 20 _ _ (bent_on_hor 10 20 _ _ Bh)) as E. apply para_hor_fits in E. rewrite (stored (fun x => x)) in E; auto.
  - pose proof (para_ver_exact (fun x => x) pf_R pf_R_ok 10 20 _ _ (bent_on_ver 10 20 _ _ Bv)) as E. apply para_ver_fits in E. rewrite (stored (fun x => x)) in E; auto.
Qed.
Lemma mi_spread : spread_hor 3 mi_hor /\ spread_ver 3 mi_ver.
Proof.
  destruct mi_bent as [Bh Bv]. split; unfold spread_hor, spread_ver; apply Forall_forall; intros line Hl; apply (In_nth _ _ []) in Hl; destruct Hl as [i [Hi <-]].
  - exact (proj2 (F2_nth _ _ _ i (0, 0) [] Bh Hi)).
  - exact (proj2 (F2_nth _ _ _ i (0, 0) [] Bv Hi)).
Qed.
Lemma mi_nearest : one_nearest (map triple mi_cs).
Proof.
  exists 2%nat. split; [cbn; lia|]. intros j Hj Ne. cbn in Hj. unfold triple, mi_cs. cbn [map fst snd nth]. rewrite Rabs_R0. apply Rabs_pos_lt.
  destruct j as [|[|[|[|[|j]]]]]; try lia; cbn [nth snd]; lra.
Qed.
Lemma mi_enough : distinct_values 2 (map fst (usable (line_samples (hor_sample 10 20) (map triple mi_cs) [-4; -2; 0; 2; 4] mi_hor ++ line_samples (ver_sample 10 20) (map triple mi_cs) [-4; -2; 0; 2; 4] mi_ver))).
Proof.
  exists [2; 4]. split; [repeat constructor; cbn [In]; intuition lra|]. split; [|cbn; lia].
  assert (Dd : forall a d, 0 <= d -> a = d -> dist (20 + a, 10) (20, 10) = d).
  { intros a d Hd ->. unfold dist, py, pxc. cbn [fst snd]. match goal with |- sqrt ?e = _ => replace e with (d * d) by ring end. now apply sqrt_square. }
  assert (Q : In (2, 1) (line_samples (hor_sample 10 20) (map triple mi_cs) [-4; -2; 0; 2; 4] mi_hor) /\ In (4, 1) (line_samples (hor_sample 10 20) (map triple mi_cs) [-4; -2; 0; 2; 4] mi_hor)).
  { unfold line_samples, mi_hor, mi_cs, triple, hor_sample, pxc. cbn [map combine concat app fst snd]. split.
    - do 10 right. left. f_equal; [apply Dd; lra|field].
    - do 13 right. left. f_equal; [apply Dd; lra|field]. }
  destruct Q as [Q1 Q2]. intros x [<-|[<-|[]]].
  - apply (in_map fst _ (2, 1)). apply usable_in. split; [apply in_or_app; now left|]. cbn. lra.
  - apply (in_map fst _ (4, 1)). apply usable_in. split; [apply in_or_app; now left|]. cbn. lra.
Qed.
(** This photograph upside down, its rows listed from the top again. *)
Example C123_upside_down : exists F,
  @calc_coef_forward R Rexact pf_R min_R ls_R mi_hor mi_ver 10 20 2 false (1/10) = Ok F /\
  @calc_coef_forward R Rexact pf_R min_R ls_R (rev (mirror_lines (-1) 1 mi_hor)) (mirror_lines (-1) 1 mi_ver) (1 * 10) (-1 * 20) 2 false (1/10) = Ok F /\
  length F = 2%nat /\ rev (mirror_lines (-1) 1 mi_hor) <> mi_hor.
Proof.
  destruct mi_fits as [Fh Fv]. destruct mi_spread as [Sh Sv].
  destruct (C123_mirrored (fun x => x) pf_R min_R ls_R (-1) 1 true false mi_hor mi_ver 10 20 2 false (1/10) false [-4; -2; 0; 2; 4] [-4; -2; 0; 2; 4] _ _
    ltac:(now intros x) pf_R_ok ls_R_ok ltac:(lia) ltac:(now right) ltac:(now left) ltac:(cbn; lia) ltac:(cbn; lia) Sh Sv (mi_positions false) Fh Fv (fun _ => mi_nearest) ltac:(discriminate)) as [_ [SF _]].
  destruct (SF mi_enough) as [F [E1 E2]]. exists F. split; [exact E1|]. split; [exact E2|]. split.
  - destruct (C97_forward_least_squares (fun x => x) pf_R min_R ls_R mi_hor mi_ver 10 20 2 false (1/10) _ _ _ F ls_R_ok ltac:(lia) (mi_positions false) E1) as [? [? [_ [_ [L _]]]]]. exact L.
  - unfold mirror_lines, mirror_dot, mi_hor, mi_cs. cbn [map rev app fst snd]. intros H. apply (f_equal (fun l => fst (nth 0 (nth 0 l []) (0, 0)))) in H. cbn in H. lra.
Qed.
(** The grid of C27 turned by 180 degrees, its lines listed from the other end:
    the centre (1, 2) becomes (-1, -2). *)
Example C123_turned : @find_cod_bailey R Rexact pf_R (rev (mirror_lines (-1) (-1) (grid_hor 1 1 2 [3; 5] [0; 1; 5])))
  (rev (mirror_lines (-1) (-1) (grid_ver 1 1 2 [2; 4] [0; 1; 5]))) 2 = Ok (-1 * 1, -1 * 2).
Proof.
  assert (D3 : distinct_values 3 [0; 1; 5]) by distinct_lit.
  assert (Fh := grid_hor_ideal 1 1 2 [3; 5] [0; 1; 5] D3). assert (Fv := grid_ver_ideal 1 1 2 [2; 4] [0; 1; 5] D3).
  assert (OC : forall u w X Y (a b : R), one_change (map (ideal_coef 1 u w X Y) [a; b])).
  { intros. exists 0%nat. split; [cbn; lia|]. intros j Hj Ne. cbn in Hj. lia. }
  assert (EH : forall X Y, @fits_hor (fun x => x) pf_R X Y (grid_hor 1 1 2 [3; 5] [0; 1; 5]) (map (ideal_coef 1 1 2 X Y) [3; 5])).
  { intros X Y. exact (para_hor_fits _ _ _ _ _ _ _ (ideal_fit_hor pf_R pf_R_ok 1 1 2 X Y _ _ Fh)). }
  assert (EV : forall X Y, @fits_ver (fun x => x) pf_R X Y (grid_ver 1 1 2 [2; 4] [0; 1; 5]) (map (ideal_coef 1 2 1 Y X) [2; 4])).
  { intros X Y. exact (para_ver_fits _ _ _ _ _ _ _ (ideal_fit_ver pf_R pf_R_ok 1 1 2 X Y _ _ Fv)). }
  assert (DI : forall u w X Y a b, a <> b -> distinct_values 2 (map snd (map (ideal_coef 1 u w X Y) [a; b]))).
  { intros u w X Y a b Ne. eexists. split; [|split; [intros x Hx; exact Hx|now rewrite !map_length]]. cbn [map ideal_coef snd].
    constructor; [|constructor; [intros []|constructor]]. intros [E|[]]. apply Ne. pose proof (pow2_ge_0 (X - u)) as Q. nra. }
  refine (eq_trans (C123_bailey_centre (fun x => x) pf_R (-1) (-1) true true _ _ _ _ 2 _ pf_R_ok _ _ _ _ _ _ (EH 0 0) (EV 0 0) (fun _ => OC _ _ _ _ _ _) (fun _ => OC _ _ _ _ _ _) _ _) _).
  - now intros x.
  - now right.
  - now right.
  - cbn. lia.
  - cbn. lia.
  - apply Forall_forall. intros line Hl. apply (In_nth _ _ []) in Hl. destruct Hl as [i [Hi <-]]. exact (proj2 (F2_nth _ _ _ i 0 [] Fh Hi)).
  - apply Forall_forall. intros line Hl. apply (In_nth _ _ []) in Hl. destruct Hl as [i [Hi <-]]. exact (proj2 (F2_nth _ _ _ i 0 [] Fv Hi)).
  - intros x y c Hc. rewrite (fits_hor_fun (fun x => x) pf_R _ _ _ _ _ Hc (EH x y)). apply DI. lra.
  - intros x y c Hc. rewrite (fits_ver_fun (fun x => x) pf_R _ _ _ _ _ Hc (EV x y)). apply DI. lra.
  - pose proof C27_ex as C. change Rexact with (Rst (fun x => x)) in C. rewrite C. reflexivity.
Qed.

(** Two lines equally near to the centre, rows at -3, -1, 1, 4 and columns at
    -3, -1, 1, 3: reading the rows from the other end changes the undistorted
    positions, because the first of the two nearest rows is kept in place and
    the spacing is taken around it. *)
Definition tie_row (c : R) : list (R * R) := [(c, -1); (c, 0); (c, 1)].
Definition tie_col (c : R) : list (R * R) := [(-1, c); (0, c); (1, c)].
Lemma one_dir_total st minimize nh nv cs : cs <> [] -> exists u, one_dir st minimize nh nv false cs = Ok u.
Proof.
  intros H. unfold one_dir. destruct (argmin (map (fun c => nabs (cf2 c)) cs)) as [p|] eqn:E; [|destruct cs; [congruence|discriminate]].
  destruct (argmin_map_first st _ _ _ E) as [k [-> [_ Hk]]]. cbn [bind]. destruct (near_window 3 nh nv (Z.of_nat k) _) as [a b]. cbn [bind].
  unfold spread_intercepts. rewrite (pyget_nth cs k (0, 0, 0) Hk). cbn [bind]. eauto.
Qed.
Lemma missing_total st polyfit cs : polyfit_oracle polyfit -> (2 <= length cs)%nat -> exists e, @missing_error R (Rst st) polyfit cs = Ok e.
Proof.
  intros PF L. unfold missing_error. set (ld := map nabs (ndiff (map cf2 cs))).
  assert (Ll : (1 <= length ld)%nat) by (unfold ld; rewrite map_length; destruct cs as [|a [|b cs]]; cbn in *; lia).
  set (xs := map nofZ (zrange 0 (Z.of_nat (length ld)))). assert (Lx : length xs = length ld) by (unfold xs; rewrite map_length, zrange_length; lia).
  destruct (PF xs ld 2%nat) as [v [Ev [Lv _]]]; [destruct xs; [cbn in Lx; lia|discriminate]|exact Lx|]. rewrite Ev. cbn [bind].
  destruct (len3 v Lv) as [a [b [c ->]]]. clearbody ld xs. destruct ld as [|d ld]; [cbn in Ll; lia|]. destruct xs as [|x xs]; [discriminate|]. cbn [map combine namax]. eauto.
Qed.
Lemma undistor_lengths polyfit minimize lh lv xc yc opt thr w uh uv : @calc_undistor_intercept R Rexact polyfit minimize lh lv xc yc opt thr = Ok (w, (uh, uv)) ->
  (2 <= length lh)%nat -> (2 <= length lv)%nat -> length uh = length lh /\ length uv = length lv.
Proof.
  intros E Lh Lv. destruct (undistor_intercept_ok (fun x => x) polyfit minimize lh lv xc yc opt thr w uh uv Lh Lv E) as [c1 [c2 [F1 [F2 [_ [[p1 [d1 [_ [L1 _]]]] [p2 [d2 [_ [L2 _]]]]]]]]]].
  rewrite L1, L2. split; symmetry; [exact (Forall2_length _ _ _ F1)|exact (Forall2_length _ _ _ F2)].
Qed.
Lemma tie_call polyfit cs ds : polyfit_oracle polyfit -> length cs = 4%nat -> length ds = 4%nat -> exists w uh uv,
  @calc_undistor_intercept R Rexact polyfit min_R (map tie_row cs) (map tie_col ds) 0 0 false (1/10) = Ok (w, (uh, uv)) /\
  forall k, first_min (map Rabs cs) k -> nth 0 uh 0 = sgn (nth 0 cs 0) * (IZR (Z.abs (0 - Z.of_nat k)) * average (gaps (around k 1 cs))) + nth k cs 0 /\
    nth 3 uh 0 = sgn (nth 3 cs 0) * (IZR (Z.abs (3 - Z.of_nat k)) * average (gaps (around k 1 cs))) + nth k cs 0.
Proof.
  intros PF Lc Ld.
  assert (Bh : Forall2 (bent_hor 0 0) (map (fun c => (0, c)) cs) (map tie_row cs)).
  { clear. induction cs as [|c cs IH]; cbn [map]; constructor; [|exact IH]. split; [|unfold tie_row, pxc; cbn [map snd]; distinct_lit].
    intros p [<-|[<-|[<-|[]]]]; unfold py, pxc; cbn [fst snd]; ring. }
  assert (Bv : Forall2 (bent_ver 0 0) (map (fun c => (0, c)) ds) (map tie_col ds)).
  { clear. induction ds as [|c ds IH]; cbn [map]; constructor; [|exact IH]. split; [|unfold tie_col, py; cbn [map fst]; distinct_lit].
    intros p [<-|[<-|[<-|[]]]]; unfold py, pxc; cbn [fst snd]; ring. }
  pose proof (para_hor_exact (fun x => x) polyfit PF 0 0 _ _ (bent_on_hor 0 0 _ _ Bh)) as Eh. pose proof (para_ver_exact (fun x => x) polyfit PF 0 0 _ _ (bent_on_ver 0 0 _ _ Bv)) as Ev.
  rewrite (stored (fun x => x)) in Eh by auto. rewrite (stored (fun x => x)) in Ev by auto.
  set (ch := map triple (map (fun c => (0, c)) cs)) in *. set (cv := map triple (map (fun c => (0, c)) ds)) in *.
  assert (L1 : length ch = 4%nat) by (unfold ch; rewrite !map_length; exact Lc). assert (L2 : length cv = 4%nat) by (unfold cv; rewrite !map_length; exact Ld).
  assert (IC : map snd ch = cs) by (unfold ch; rewrite !map_map; cbn; apply map_id).
  destruct (missing_total (fun x => x) polyfit ch PF ltac:(lia)) as [e1 M1]. destruct (missing_total (fun x => x) polyfit cv PF ltac:(lia)) as [e2 M2].
  destruct (one_dir_total (fun x => x) min_R (Z.of_nat (length (map tie_row cs))) (Z.of_nat (length (map tie_col ds))) ch) as [uh U1]; [destruct ch; [discriminate|discriminate]|].
  destruct (one_dir_total (fun x => x) min_R (Z.of_nat (length (map tie_row cs))) (Z.of_nat (length (map tie_col ds))) cv) as [uv U2]; [destruct cv; [discriminate|discriminate]|].
  assert (CM : exists w, @check_missing_lines R Rexact polyfit ch cv (1/10) = Ok w) by (unfold check_missing_lines; change Rexact with (Rst (fun x => x)); rewrite M1, M2; cbn [bind]; eauto).
  destruct CM as [w CM].
  assert (E : @calc_undistor_intercept R Rexact polyfit min_R (map tie_row cs) (map tie_col ds) 0 0 false (1/10) = Ok (w, (uh, uv))).
  { exact (proj2 (undistor_dirs (fun x => x) polyfit min_R _ _ 0 0 false (1/10) ch cv _ _ w uh uv Eh Ev) (conj CM (conj U1 U2))). }
  exists w, uh, uv. split; [exact E|]. intros k Fk.
  destruct (undistor_intercept_ok (fun x => x) polyfit min_R (map tie_row cs) (map tie_col ds) 0 0 false (1/10) w uh uv) as [c1 [c2 [F1 [F2 [_ [[p [d [Fp [_ [Hu [Hd _]]]]]] _]]]]]]; [rewrite map_length; lia|rewrite map_length; lia|exact E|].
  pose proof (fits_hor_fun (fun x => x) polyfit _ _ _ _ _ F1 (para_hor_fits _ _ _ _ _ _ _ Eh)) as ->.
  rewrite !map_length, Lc, Ld in Hd. cbn [Nat.div2 Nat.sub Nat.min] in Hd. specialize (Hd eq_refl). rewrite IC in *.
  assert (p = k) as ->.
  { destruct Fp as [P1 [P2 P3]], Fk as [K1 [K2 K3]]. destruct (Nat.lt_trichotomy p k) as [G|[G|G]]; [|assumption|].
    - specialize (K3 p G). specialize (P2 k K1). lra.
    - specialize (P3 k G). specialize (K2 p P1). lra. }
  assert (IN : forall i, inter ch i = nth i cs 0) by (intros i; unfold inter; rewrite <- IC; symmetry; exact (map_nth snd ch (0, 0, 0) i)).
  rewrite Hd in Hu. rewrite (Hu 0%nat), (Hu 3%nat) by lia. rewrite !IN. split; reflexivity.
Qed.
Theorem C123_tie_refuted : forall polyfit, polyfit_oracle polyfit -> exists lh lv w uh uv w' uh' uv',
  spread_hor 3 lh /\ spread_ver 3 lv /\
  @calc_undistor_intercept R Rexact polyfit min_R lh lv 0 0 false (1/10) = Ok (w, (uh, uv)) /\
  @calc_undistor_intercept R Rexact polyfit min_R (rev lh) lv 0 0 false (1/10) = Ok (w', (uh', uv')) /\ last uh 0 = 3 /\ hd 0 uh' = 7/2.
Proof.
  intros polyfit PF. destruct (tie_call polyfit [-3; -1; 1; 4] [-3; -1; 1; 3] PF eq_refl eq_refl) as [w [uh [uv [E H]]]].
  destruct (tie_call polyfit [4; 1; -1; -3] [-3; -1; 1; 3] PF eq_refl eq_refl) as [w' [uh' [uv' [E' H']]]].
  exists (map tie_row [-3; -1; 1; 4]), (map tie_col [-3; -1; 1; 3]), w, uh, uv, w', uh', uv'.
  split; [apply Forall_forall; intros l Hl; apply in_map_iff in Hl; destruct Hl as [c [<- _]]; unfold tie_row, pxc; cbn [map snd]; distinct_lit|].
  split; [apply Forall_forall; intros l Hl; apply in_map_iff in Hl; destruct Hl as [c [<- _]]; unfold tie_col, py; cbn [map fst]; distinct_lit|].
  split; [exact E|]. split; [exact E'|].
  assert (A : Rabs 4 = 4 /\ Rabs 3 = 3 /\ Rabs 2 = 2 /\ Rabs 1 = 1 /\ Rabs (-1) = 1 /\ Rabs (-3) = 3).
  { repeat split; try (rewrite Rabs_right by lra; lra); rewrite Rabs_left by lra; lra. }
  destruct A as [A4 [A3 [A2 [A1 [B1 B3]]]]].
  assert (M : first_min (map Rabs [-3; -1; 1; 4]) 1).
  { cbn [map]. rewrite A4, A1, B1, B3. split; [cbn; lia|]. split; intros [|[|[|[|j]]]] Hj; cbn in Hj; try lia; cbn [nth]; lra. }
  assert (M' : first_min (map Rabs [4; 1; -1; -3]) 1).
  { cbn [map]. rewrite A4, A1, B1, B3. split; [cbn; lia|]. split; intros [|[|[|[|j]]]] Hj; cbn in Hj; try lia; cbn [nth]; lra. }
  specialize (H 1%nat M). specialize (H' 1%nat M'). destruct H as [_ H]. destruct H' as [H' _].
  destruct (undistor_lengths polyfit _ _ _ _ _ _ _ _ _ _ E) as [L1 _]; [cbn; lia|cbn; lia|]. destruct (undistor_lengths polyfit _ _ _ _ _ _ _ _ _ _ E') as [L2 _]; [cbn; lia|cbn; lia|].
  destruct uh as [|a [|b [|c [|d [|]]]]]; try discriminate. destruct uh' as [|a' [|b' [|c' [|d' [|]]]]]; try discriminate.
  cbn [last hd nth] in *. unfold around in *. cbn [Nat.sub Nat.add firstn skipn gaps] in *. unfold average in *. cbn [Rsum length] in *. change (Z.abs (3 - Z.of_nat 1)) with 2%Z in H. change (Z.abs (0 - Z.of_nat 1)) with 1%Z in H'.
  rewrite sgn_pos in H, H' by lra. replace (-1 - -3) with 2 in H by ring. replace (1 - -1) with 2 in H by ring. replace (1 - 4) with (-3) in H' by ring. replace (-1 - 1) with (-2) in H' by ring.
  rewrite ?A2 in H. rewrite B3 in H'. rewrite (Rabs_left (-2)) in H' by lra. cbn [INR] in *. split; lra.
Qed.
Print Assumptions C123_tie_refuted.
