(** C98, continued: the unit of length and the names of the axes. *)
From Coq Require Import Reals ZArith List Lia Lra Permutation.
From Flocq Require Import Core.
From Verif Require Import Base Num Spec Lsq PolyUniq LsqEx Post PrepImg Proc ProcSpec ProcFacts ProcFacts2 ProcFacts3 ProcFacts4 ProcFacts5 LineFacts PersFacts8 CalibSpec CalibSpec2 CalibFacts Props_Proc Props_Calib Props_Calib2.
Import ListNotations.
Local Open Scope R_scope.

(** *** Best polynomials *)
Lemma best_lsq n l F : best_poly n l F -> is_lsq n (map (fun p => @powers R Rexact n (fst p)) l) (map snd l) F.
Proof.
  intros [LF M].
  assert (Q : forall G, length G = n -> sqerr (map (fun p => @powers R Rexact n (fst p)) l) (map snd l) G = fit_error G l).
  { intros G LG. unfold sqerr, fit_error. clear -LG. induction l as [|t l IH]; [reflexivity|].
    cbn [map combine Rsum fst snd]. rewrite IH. do 3 f_equal. subst n. apply (dot_powers_R (fun x => x)). }
  split; [exact LF|]. intros u Lu. rewrite !Q by assumption. now apply M.
Qed.
Lemma best_values n l F G : best_poly n l F -> best_poly n l G -> forall p, In p l -> poly F (fst p) = poly G (fst p).
Proof.
  intros HF HG p Hp. pose proof (proj1 HF) as LF. pose proof (proj1 HG) as LG. apply best_lsq in HF. apply best_lsq in HG.
  assert (LL : length (map (fun p => @powers R Rexact n (fst p)) l) = length (map snd l)) by now rewrite !map_length.
  pose proof (lsq_fitted_unique n _ _ F G LL HF HG (@powers R Rexact n (fst p)) (in_map (fun p => @powers R Rexact n (fst p)) _ _ Hp)) as Q.
  rewrite <- LF in Q at 1. rewrite <- LG in Q. pose proof (dot_powers_R (fun x => x) F (fst p)) as D1. pose proof (dot_powers_R (fun x => x) G (fst p)) as D2.
  exact (eq_trans (eq_sym D1) (eq_trans Q D2)).
Qed.
Lemma best_unique n l F G : best_poly n l F -> best_poly n l G -> distinct_values n (map fst l) -> F = G.
Proof.
  intros HF HG D. pose proof (best_values n l F G HF HG) as V. destruct HF as [LF _], HG as [LG _].
  apply (poly_unique F G (map fst l)); [lia|now rewrite LF|]. intros x Hx. apply in_map_iff in Hx. destruct Hx as [p [<- Hp]]. now apply V.
Qed.
Lemma fit_error_perm F l m : Permutation l m -> fit_error F l = fit_error F m.
Proof. intros P. unfold fit_error. induction P; cbn [map Rsum]; lra. Qed.
Lemma best_perm n l m F : Permutation l m -> best_poly n l F -> best_poly n m F.
Proof. intros P [L M]. split; [exact L|]. intros G LG. rewrite <- !(fit_error_perm _ _ _ P). now apply M. Qed.

(** *** Coefficients for another unit of length *)
Fixpoint rescale (s k : R) (F : list R) : list R := match F with [] => [] | a :: F' => a / k :: rescale s (k * s) F' end.
Lemma rescale_length s F : forall k, length (rescale s k F) = length F.
Proof. induction F as [|a F IH]; intros k; cbn [rescale length]; [reflexivity|]. now rewrite IH. Qed.
Lemma rescale_nth s F : forall k i, nth i (rescale s k F) 0 = nth i F 0 / (k * s ^ i).
Proof.
  induction F as [|a F IH]; intros k [|i]; cbn [rescale nth].
  - unfold Rdiv. ring.
  - unfold Rdiv. ring.
  - f_equal. cbn. ring.
  - rewrite IH. f_equal. cbn. ring.
Qed.
Lemma rescale_poly s r F : s <> 0 -> forall k, k <> 0 -> poly (rescale s k F) (s * r) = poly F r / k.
Proof.
  intros Hs. induction F as [|a F IH]; intros k Hk; cbn [rescale poly]; [unfold Rdiv; ring|].
  rewrite IH by (apply Rmult_integral_contrapositive_currified; assumption). field. auto.
Qed.
Lemma rescaled_is s F G : rescaled_poly s F G <-> G = rescale s 1 F.
Proof.
  split.
  - intros [L H]. apply (nth_ext _ _ 0 0); [now rewrite rescale_length|]. intros i _. rewrite H, rescale_nth. f_equal. ring.
  - intros ->. split; [apply rescale_length|]. intros i. rewrite rescale_nth. f_equal. ring.
Qed.
Lemma rescaled_value s F G r : 0 < s -> rescaled_poly s F G -> poly G (s * r) = poly F r.
Proof. intros Hs H. apply rescaled_is in H. subst G. rewrite rescale_poly by lra. field. Qed.
Definition scale_sample (s : R) (p : R * R) : R * R := (s * fst p, snd p).
Lemma scale_error s F l : 0 < s -> fit_error (rescale s 1 F) (map (scale_sample s) l) = fit_error F l.
Proof.
  intros Hs. unfold fit_error. rewrite map_map. f_equal. apply map_ext. intros p. unfold scale_sample. cbn [fst snd]. rewrite rescale_poly by lra. f_equal. field.
Qed.
Lemma rescale_inv s F : 0 < s -> rescale s 1 (rescale (/ s) 1 F) = F.
Proof.
  intros Hs. apply (nth_ext _ _ 0 0); [now rewrite !rescale_length|]. intros i _. rewrite !rescale_nth.
  rewrite pow_inv. field. apply pow_nonzero. lra.
Qed.
Lemma best_scaled s n l F : 0 < s -> best_poly n l F -> best_poly n (map (scale_sample s) l) (rescale s 1 F).
Proof.
  intros Hs [L M]. split; [now rewrite rescale_length|]. intros G LG. rewrite scale_error by assumption.
  rewrite <- (rescale_inv s G Hs), scale_error by assumption. apply M. now rewrite rescale_length.
Qed.
Lemma distinct_scaled s n l : 0 < s -> distinct_values n (map fst l) -> distinct_values n (map fst (map (scale_sample s) l)).
Proof.
  intros Hs D. replace (map fst (map (scale_sample s) l)) with (map (Rmult s) (map fst l)) by (rewrite !map_map; reflexivity).
  apply distinct_values_map; [|exact D]. intros a b H. apply (Rmult_eq_reg_l s); lra.
Qed.
Lemma scale_solve lstsq s n l F : lstsq_oracle lstsq -> 0 < s -> solve_rows lstsq (map (@row_of Rexact n) l) = Ok F -> distinct_values n (map fst l) ->
  exists G, solve_rows lstsq (map (@row_of Rexact n) (map (scale_sample s) l)) = Ok G /\ rescaled_poly s F G.
Proof.
  intros LS Hs H D. destruct (solve_total (fun x => x) lstsq LS n (map (scale_sample s) l)) as [G EG].
  - destruct l; [discriminate|discriminate].
  - exists G. split; [exact EG|]. apply rescaled_is. pose proof (solve_best (fun x => x) lstsq LS n _ _ EG) as BG. pose proof (solve_best (fun x => x) lstsq LS n _ _ H) as BF.
    apply (best_unique n (map (scale_sample s) l)); [exact BG|now apply best_scaled|now apply distinct_scaled].
Qed.
Lemma scale_usable s l : usable (map (scale_sample s) l) = map (scale_sample s) (usable l).
Proof.
  unfold usable. induction l as [|p l IH]; [reflexivity|]. cbn [map filter]. rewrite IH. unfold scale_sample at 1. cbn [snd]. now destruct (negb _).
Qed.
Lemma scale_inverse s l : map inverse_sample (map (scale_sample s) l) = map (scale_sample s) (map inverse_sample l).
Proof. rewrite !map_map. apply map_ext. intros p. unfold inverse_sample, scale_sample. cbn [fst snd]. f_equal. ring. Qed.
Lemma scale_dist s p xc yc : 0 < s -> dist (s * fst p, s * snd p) (s * yc, s * xc) = s * dist p (yc, xc).
Proof.
  intros Hs. transitivity (sqrt (s * s) * dist p (yc, xc)); [|now rewrite sqrt_square by lra]. unfold dist, py, pxc. rewrite <- sqrt_mult_alt by nra. f_equal. cbn [fst snd]. ring.
Qed.
Lemma scale_line_samples s (f g : R * R * R -> R -> R * R -> R * R) cs us lines :
  (forall c u p, f (scc s c) (s * u) (s * fst p, s * snd p) = scale_sample s (g c u p)) ->
  line_samples f (map (scc s) cs) (map (Rmult s) us) (scale_lines s lines) = map (scale_sample s) (line_samples g cs us lines).
Proof.
  intros H. unfold line_samples, scale_lines. revert us lines.
  induction cs as [|c cs IH]; intros [|u us] [|a lines]; cbn [map combine concat]; try reflexivity.
  rewrite IH, map_app. f_equal. cbn [fst snd]. rewrite !map_map. apply map_ext. intros p. apply H.
Qed.
Lemma scale_hor_sample s xc yc c u p : 0 < s -> hor_sample (s * xc) (s * yc) (scc s c) (s * u) (s * fst p, s * snd p) = scale_sample s (hor_sample xc yc c u p).
Proof.
  intros Hs. unfold hor_sample, scale_sample. rewrite scale_dist by assumption. cbn [fst snd]. f_equal. unfold scc, pxc. cbn [fst snd].
  set (d := fst (fst c) * (snd p - xc) ^ 2 + snd c). replace (_ / s * _ ^ 2 + s * snd c) with (s * d) by (unfold d; field; lra).
  unfold Rdiv. rewrite Rinv_mult. generalize (/ d). intros r. field. lra.
Qed.
Lemma scale_ver_sample s xc yc c u p : 0 < s -> ver_sample (s * xc) (s * yc) (scc s c) (s * u) (s * fst p, s * snd p) = scale_sample s (ver_sample xc yc c u p).
Proof.
  intros Hs. unfold ver_sample, scale_sample. rewrite scale_dist by assumption. cbn [fst snd]. f_equal. unfold scc, py. cbn [fst snd].
  set (d := fst (fst c) * (fst p - yc) ^ 2 + snd c). replace (_ / s * _ ^ 2 + s * snd c) with (s * d) by (unfold d; field; lra).
  unfold Rdiv. rewrite Rinv_mult. generalize (/ d). intros r. field. lra.
Qed.

(** *** The coefficients *)
Lemma distinct_nonempty num_fact l : distinct_values (Z.to_nat (Z.max 1 num_fact)) (map fst l) -> l <> ([] : list (R * R)).
Proof. intros [d [_ [H L]]] ->. destruct d as [|x d]; [cbn in L; lia|]. exact (H x (or_introl eq_refl)). Qed.
Section ScaleCall.
  Local Instance NEx4 : Num R := Rexact.
  Variable polyfit : list R -> list R -> nat -> res (list R).
  Hypothesis PF : polyfit_oracle polyfit.
  Variable minimize : (R -> R) -> R -> R.
  Hypothesis MO : minimize_oracle minimize.
  Variable lstsq : list (list R) -> list R -> res (list R).
  Hypothesis LS : lstsq_oracle lstsq.
  Variable s : R.
  Hypothesis Hs : 0 < s.
  Variables (lh lv : list (list (R * R))) (xc yc : R) (num_fact : Z) (opt : bool) (thr : R).
  Hypothesis NF : (num_fact <= 32767)%Z.
  Hypothesis Lh : (2 <= length lh)%nat.
  Hypothesis Lv : (2 <= length lv)%nat.
  Hypothesis Dh : forall line, In line lh -> distinct_values 3 (map pxc line).
  Hypothesis Dv : forall line, In line lv -> distinct_values 3 (map py line).
  Variables (w : bool) (uh uv : list R) (ch cv : list (R * R * R)).
  Hypothesis EU : calc_undistor_intercept polyfit minimize lh lv xc yc opt thr = Ok (w, (uh, uv)).
  Hypothesis Fh : fits_hor (fun x => x) polyfit xc yc lh ch.
  Hypothesis Fv : fits_ver (fun x => x) polyfit xc yc lv cv.
  Let n := Z.to_nat (Z.max 1 num_fact).
  Let samples := line_samples (hor_sample xc yc) ch uh lh ++ line_samples (ver_sample xc yc) cv uv lv.
  Let samples' := line_samples (hor_sample (s * xc) (s * yc)) (map (scc s) ch) (map (Rmult s) uh) (scale_lines s lh) ++
    line_samples (ver_sample (s * xc) (s * yc)) (map (scc s) cv) (map (Rmult s) uv) (scale_lines s lv).
  Lemma samples_scaled : samples' = map (scale_sample s) samples.
  Proof.
    unfold samples', samples. rewrite map_app. f_equal; apply scale_line_samples; intros c u p; [now apply scale_hor_sample|now apply scale_ver_sample].
  Qed.
  Lemma call_scaled : exists sh sv sh' sv',
    para_fit_hor polyfit lh xc yc = Ok (ch, sh) /\ para_fit_ver polyfit lv xc yc = Ok (cv, sv) /\
    calc_undistor_intercept polyfit minimize (scale_lines s lh) (scale_lines s lv) (s * xc) (s * yc) opt thr = Ok (w, (map (Rmult s) uh, map (Rmult s) uv)) /\
    para_fit_hor polyfit (scale_lines s lh) (s * xc) (s * yc) = Ok (map (scc s) ch, sh') /\
    para_fit_ver polyfit (scale_lines s lv) (s * xc) (s * yc) = Ok (map (scc s) cv, sv').
  Proof.
    destruct (call_parts (fun x => x) polyfit minimize lh lv xc yc opt thr) as [w' [uh' [uv' [ch' [cv' [sh [sv [E' [Eh Ev]]]]]]]]].
    { intros e X. pose proof (eq_trans (eq_sym EU) X). discriminate. }
    pose proof (fits_hor_fun (fun x => x) polyfit _ _ _ _ _ Fh (para_hor_fits _ _ _ _ _ _ _ Eh)) as <-.
    pose proof (fits_ver_fun (fun x => x) polyfit _ _ _ _ _ Fv (para_ver_fits _ _ _ _ _ _ _ Ev)) as <-.
    exists sh, sv, (scale_lines s sh), (scale_lines s sv). split; [exact Eh|]. split; [exact Ev|]. split.
    { refine (eq_trans (scale_undistor polyfit PF minimize MO s Hs lh lv xc yc opt thr Lh Lv Dh Dv) _). 
      refine (eq_trans (f_equal _ EU) _). reflexivity. }
    split.
    - refine (eq_trans (scale_hor polyfit PF s Hs lh xc yc Dh) _). refine (eq_trans (f_equal _ Eh) _). reflexivity.
    - refine (eq_trans (scale_ver polyfit PF s Hs lv xc yc Dv) _). refine (eq_trans (f_equal _ Ev) _). reflexivity.
  Qed.
  Lemma scaled_forward : distinct_values n (map fst (usable samples)) -> exists F G,
    calc_coef_forward polyfit minimize lstsq lh lv xc yc num_fact opt thr = Ok F /\
    calc_coef_forward polyfit minimize lstsq (scale_lines s lh) (scale_lines s lv) (s * xc) (s * yc) num_fact opt thr = Ok G /\ rescaled_poly s F G.
  Proof.
    intros D. destruct call_scaled as [sh [sv [sh' [sv' [Eh [Ev [EU' [Eh' Ev']]]]]]]].
    destruct (solve_total (fun x => x) lstsq LS n (usable samples) (distinct_nonempty num_fact _ D)) as [F EF].
    destruct (scale_solve lstsq s n (usable samples) F LS Hs EF D) as [G [EG RG]]. exists F, G. split; [|split; [|exact RG]].
    - exact (eq_trans (forward_call (fun x => x) polyfit minimize lstsq lh lv xc yc num_fact opt thr NF w uh uv ch cv sh sv EU Eh Ev) EF).
    - refine (eq_trans (forward_call (fun x => x) polyfit minimize lstsq _ _ _ _ num_fact opt thr NF w _ _ _ _ sh' sv' EU' Eh' Ev') _).
      rewrite <- scale_usable, <- samples_scaled in EG. exact EG.
  Qed.
  Lemma scaled_backward : distinct_values n (map fst (map inverse_sample samples)) -> exists F G,
    calc_coef_backward polyfit minimize lstsq lh lv xc yc num_fact opt thr = Ok F /\
    calc_coef_backward polyfit minimize lstsq (scale_lines s lh) (scale_lines s lv) (s * xc) (s * yc) num_fact opt thr = Ok G /\ rescaled_poly s F G.
  Proof.
    intros D. destruct call_scaled as [sh [sv [sh' [sv' [Eh [Ev [EU' [Eh' Ev']]]]]]]].
    destruct (solve_total (fun x => x) lstsq LS n (map inverse_sample samples) (distinct_nonempty num_fact _ D)) as [F EF].
    destruct (scale_solve lstsq s n (map inverse_sample samples) F LS Hs EF D) as [G [EG RG]]. exists F, G. split; [|split; [|exact RG]].
    - exact (eq_trans (backward_call (fun x => x) polyfit minimize lstsq lh lv xc yc num_fact opt thr NF w uh uv ch cv sh sv EU Eh Ev) EF).
    - refine (eq_trans (backward_call (fun x => x) polyfit minimize lstsq _ _ _ _ num_fact opt thr NF w _ _ _ _ sh' sv' EU' Eh' Ev') _).
      rewrite <- scale_inverse, <- samples_scaled in EG. exact EG.
  Qed.
End ScaleCall.

Definition inverse_samples (xc yc : R) (F : list R) (dots : list (R * R)) : list (R * R) :=
  map inverse_sample (usable (map (fun p => (dist p (yc, xc), poly F (dist p (yc, xc)))) dots)).
Lemma both_call st polyfit minimize lstsq lh lv xc yc num_fact opt thr F ch cv sh sv : (num_fact <= 32767)%Z -> let n := Z.to_nat (Z.max 1 num_fact) in
  @calc_coef_forward R (Rst st) polyfit minimize lstsq lh lv xc yc num_fact opt thr = Ok F -> length F = n ->
  @para_fit_hor R (Rst st) polyfit lh xc yc = Ok (ch, sh) -> @para_fit_ver R (Rst st) polyfit lv xc yc = Ok (cv, sv) ->
  @calc_coef_backward_from_forward R (Rst st) polyfit minimize lstsq lh lv xc yc num_fact opt thr =
  bind (solve_rows lstsq (map (@row_of (Rst st) n) (inverse_samples xc yc F (concat lh ++ concat lv)))) (fun B => Ok (F, B)).
Proof.
  intros NF n E1 LF Eh Ev. unfold calc_coef_backward_from_forward.
  assert (NN : num_factors num_fact = n) by (unfold num_factors, n; rewrite wrap16_id by lia; f_equal; lia).
  assert (NN' : num_factors (wrap16 (Z.max num_fact 1)) = n).
  { rewrite wrap16_id by lia. unfold num_factors. rewrite wrap16_id by lia. unfold n. f_equal. lia. }
  assert (EF : @calc_coef_forward R (Rst st) polyfit minimize lstsq lh lv xc yc (wrap16 (Z.max num_fact 1)) opt thr =
               @calc_coef_forward R (Rst st) polyfit minimize lstsq lh lv xc yc num_fact opt thr).
  { unfold calc_coef_forward. now rewrite NN, NN'. }
  rewrite EF, E1. cbn [bind]. rewrite NN, LF, Nat.eqb_refl. cbn [negb]. rewrite Eh, Ev. cbn [bind snd].
  apply para_hor_lines in Eh. destruct Eh as [-> _]. apply para_ver_lines in Ev. destruct Ev as [-> _].
  match goal with |- bind (solve_rows lstsq ?a) _ = bind (solve_rows lstsq ?b) _ => replace a with b; [reflexivity|] end.
  assert (IR : forall pts, concat (map (@inverse_row R (Rst st) n F) (map (@shiftp R (Rst st) xc yc) pts)) = map (@row_of (Rst st) n) (inverse_samples xc yc F pts)).
  { induction pts as [|p pts IH]; [reflexivity|]. cbn [map concat]. rewrite IH. unfold inverse_row at 1. rewrite (poly_value_R st), (radius_dist st).
    unfold inverse_samples at 2. cbn [map]. unfold usable. cbn [filter snd]. change (@neqb R (Rst st)) with Req_bool. change (@n0 R (Rst st)) with 0.
    destruct (Req_bool (poly F (dist p (yc, xc))) 0); cbn [negb]; [reflexivity|]. cbn [map app]. f_equal.
    unfold row_of, inverse_sample. cbn [fst snd nmul ndiv Rst]. change (@n1 R (Rst st)) with 1. f_equal; [f_equal; ring|]. unfold Rdiv. ring. }
  assert (AP : forall a b, inverse_samples xc yc F (a ++ b) = inverse_samples xc yc F a ++ inverse_samples xc yc F b).
  { intros a b. unfold inverse_samples. now rewrite map_app, usable_app, map_app. }
  assert (CC : forall ls : list (list (R * R)), concat (map (fun line => concat (map (@inverse_row R (Rst st) n F) line)) (map (map (@shiftp R (Rst st) xc yc)) ls)) =
      map (@row_of (Rst st) n) (inverse_samples xc yc F (concat ls))).
  { induction ls as [|a ls IH]; [reflexivity|]. cbn [map concat]. now rewrite IH, IR, AP, map_app. }
  now rewrite !CC, AP, map_app.
Qed.
Lemma scale_concat s lines : concat (scale_lines s lines) = map (fun p => (s * fst p, s * snd p)) (concat lines).
Proof. unfold scale_lines. symmetry. apply concat_map. Qed.
Lemma inverse_scaled s xc yc F G dots : 0 < s -> rescaled_poly s F G ->
  inverse_samples (s * xc) (s * yc) G (map (fun p => (s * fst p, s * snd p)) dots) = map (scale_sample s) (inverse_samples xc yc F dots).
Proof.
  intros Hs RG. unfold inverse_samples. rewrite <- scale_inverse, <- scale_usable. do 2 f_equal. rewrite !map_map. apply map_ext. intros p.
  rewrite scale_dist, (rescaled_value s F G) by assumption. reflexivity.
Qed.

Lemma inverse_radii xc yc F dots : map fst (inverse_samples xc yc F dots) =
  map (fun p => dist p (yc, xc) * poly F (dist p (yc, xc))) (filter (fun p => negb (Req_bool (poly F (dist p (yc, xc))) 0)) dots).
Proof.
  induction dots as [|p l IH]; [reflexivity|]. cbn [filter].
  unfold inverse_samples, usable in *. cbn [map filter snd]. destruct (negb _); cbn [map]; [|exact IH]. rewrite <- IH. reflexivity.
Qed.

(** *** The unit of length *)
(** All coordinates multiplied by s > 0 (a detector with other pixels, a
    binned image): the undistorted positions are multiplied by s, the warning
    is the same, and the coefficients are those of the same polynomial for
    distances in the new unit.  Each line has at least three distinct
    abscissae and the dots which enter the fit (see C97) have at least as many
    distinct distances as there are coefficients. *)
Theorem C98_scale : forall polyfit minimize lstsq s lh lv xc yc num_fact opt thr w uh uv ch cv,
  polyfit_oracle polyfit -> minimize_oracle minimize -> lstsq_oracle lstsq -> 0 < s -> (num_fact <= 32767)%Z ->
  (2 <= length lh)%nat -> (2 <= length lv)%nat ->
  (forall line, In line lh -> distinct_values 3 (map pxc line)) -> (forall line, In line lv -> distinct_values 3 (map py line)) ->
  @calc_undistor_intercept R Rexact polyfit minimize lh lv xc yc opt thr = Ok (w, (uh, uv)) ->
  fits_hor (fun x => x) polyfit xc yc lh ch -> fits_ver (fun x => x) polyfit xc yc lv cv ->
  let n := Z.to_nat (Z.max 1 num_fact) in
  let samples := line_samples (hor_sample xc yc) ch uh lh ++ line_samples (ver_sample xc yc) cv uv lv in
  let lh' := scale_lines s lh in let lv' := scale_lines s lv in let xc' := s * xc in let yc' := s * yc in
  @calc_undistor_intercept R Rexact polyfit minimize lh' lv' xc' yc' opt thr = Ok (w, (map (Rmult s) uh, map (Rmult s) uv)) /\
  (distinct_values n (map fst (usable samples)) -> exists F G,
    @calc_coef_forward R Rexact polyfit minimize lstsq lh lv xc yc num_fact opt thr = Ok F /\
    @calc_coef_forward R Rexact polyfit minimize lstsq lh' lv' xc' yc' num_fact opt thr = Ok G /\ rescaled_poly s F G) /\
  (distinct_values n (map fst (map inverse_sample samples)) -> exists B D,
    @calc_coef_backward R Rexact polyfit minimize lstsq lh lv xc yc num_fact opt thr = Ok B /\
    @calc_coef_backward R Rexact polyfit minimize lstsq lh' lv' xc' yc' num_fact opt thr = Ok D /\ rescaled_poly s B D) /\
  (forall F B, distinct_values n (map fst (usable samples)) ->
    @calc_coef_backward_from_forward R Rexact polyfit minimize lstsq lh lv xc yc num_fact opt thr = Ok (F, B) ->
    distinct_values n (map (fun p => dist p (yc, xc) * poly F (dist p (yc, xc))) (filter (fun p => negb (Req_bool (poly F (dist p (yc, xc))) 0)) (concat lh ++ concat lv))) ->
    exists G D, @calc_coef_backward_from_forward R Rexact polyfit minimize lstsq lh' lv' xc' yc' num_fact opt thr = Ok (G, D) /\
    rescaled_poly s F G /\ rescaled_poly s B D).
Proof.
  intros polyfit minimize lstsq s lh lv xc yc num_fact opt thr w uh uv ch cv PF MO LS Hs NF Lh Lv Dh Dv EU Fh Fv n samples lh' lv' xc' yc'.
  destruct (call_scaled polyfit PF minimize MO s Hs lh lv xc yc opt thr Lh Lv Dh Dv w uh uv ch cv EU Fh Fv) as [sh [sv [sh' [sv' [Eh [Ev [EU' [Eh' Ev']]]]]]]].
  split; [exact EU'|].
  pose proof (scaled_forward polyfit PF minimize MO lstsq LS s Hs lh lv xc yc num_fact opt thr NF Lh Lv Dh Dv w uh uv ch cv EU Fh Fv) as SF.
  split; [exact SF|]. split.
  { exact (scaled_backward polyfit PF minimize MO lstsq LS s Hs lh lv xc yc num_fact opt thr NF Lh Lv Dh Dv w uh uv ch cv EU Fh Fv). }
  intros F B D1 H D2. destruct (SF D1) as [F' [G [EF [EG RG]]]].
  pose proof (C97_backward_from_forward (fun x => x) polyfit minimize lstsq lh lv xc yc num_fact opt thr F B LS NF H) as [EF' _].
  pose proof (Ok_inj _ _ (eq_trans (eq_sym EF) EF')) as ->.
  assert (LF : length F = n).
  { destruct (C97_forward_least_squares (fun x => x) polyfit minimize lstsq lh lv xc yc num_fact opt thr w uh uv F LS NF EU EF) as [? [? [_ [_ [L _]]]]]. exact L. }
  assert (LG : length G = n) by (rewrite (proj1 RG); exact LF).
  pose proof (both_call (fun x => x) polyfit minimize lstsq lh lv xc yc num_fact opt thr F ch cv sh sv NF EF LF Eh Ev) as C1.
  pose proof (both_call (fun x => x) polyfit minimize lstsq lh' lv' xc' yc' num_fact opt thr G _ _ sh' sv' NF EG LG Eh' Ev') as C2.
  pose proof (eq_trans (eq_sym C1) H) as C3. clear C1.
  match type of C3 with bind ?x _ = _ => destruct x as [B'|] eqn:EB; [|discriminate C3] end.
  cbn [bind] in C3. apply Ok_inj in C3. apply pair_equal_spec in C3. destruct C3 as [_ ->].
  assert (D3 : distinct_values n (map fst (inverse_samples xc yc F (concat lh ++ concat lv)))) by (rewrite inverse_radii; exact D2).
  destruct (scale_solve lstsq s n _ B LS Hs EB D3) as [D [ED RD]]. exists G, D. split; [|split; assumption].
  refine (eq_trans C2 _). unfold lh', lv'. rewrite !scale_concat, <- map_app. rewrite (inverse_scaled s xc yc F G _ Hs RG). refine (eq_trans (f_equal (fun r => bind r _) ED) _). reflexivity.
Qed.
Print Assumptions C98_scale.
(** Such coefficients correct the image in the new unit as the old ones do in
    the old unit. *)
Theorem C98_scale_correction : forall s F G c p, 0 < s -> rescaled_poly s F G ->
  radial_map G (s * fst c, s * snd c) (s * fst p, s * snd p) = (s * fst (radial_map F c p), s * snd (radial_map F c p)).
Proof.
  intros s F G [yc xc] p Hs H. unfold radial_map. cbn [fst snd]. rewrite scale_dist, (rescaled_value s F G) by assumption.
  unfold padd, pscale, psub, py, pxc. cbn [fst snd]. f_equal; ring.
Qed.
Print Assumptions C98_scale_correction.

(** *** The names of the axes *)
Section Swap.
  Variable st : R -> R.
  Local Instance NSw : Num R := Rst st.
  Variable polyfit : list R -> list R -> nat -> res (list R).
  Variable minimize : (R -> R) -> R -> R.
  Variable lstsq : list (list R) -> list R -> res (list R).
  Lemma swap_swap l : swap_lines (swap_lines l) = l.
  Proof. unfold swap_lines. rewrite map_map. rewrite <- (map_id l) at 2. apply map_ext. intros a. rewrite map_map. rewrite <- (map_id a) at 2. apply map_ext. now intros [y x]. Qed.
  Lemma swap_ver l xc yc : para_fit_ver polyfit l xc yc = res_map (fun cs => (fst cs, swap_lines (snd cs))) (para_fit_hor polyfit (swap_lines l) yc xc).
  Proof. exact (para_ver_hor polyfit l xc yc). Qed.
  Lemma swap_undistor lh lv xc yc opt thr w uh uv : calc_undistor_intercept polyfit minimize lh lv xc yc opt thr = Ok (w, (uh, uv)) ->
    calc_undistor_intercept polyfit minimize (swap_lines lv) (swap_lines lh) yc xc opt thr = Ok (w, (uv, uh)).
  Proof.
    unfold calc_undistor_intercept. rewrite !swap_ver, swap_swap.
    destruct (para_fit_hor polyfit lh xc yc) as [[ch sh]|]; [|discriminate]. destruct (para_fit_hor polyfit (swap_lines lv) yc xc) as [[cv sv]|]; [|discriminate].
    cbn [bind res_map fst snd]. unfold check_missing_lines.
    destruct (missing_error polyfit ch) as [eh|]; [|discriminate]. destruct (missing_error polyfit cv) as [ev|]; [|discriminate]. cbn [bind].
    rewrite (orb_comm (nltb thr ev)). set (ww := (nltb thr eh || nltb thr ev)%bool).
    destruct (argmin (map (fun c => nabs (cf2 c)) ch)) as [ph|]; [|discriminate]. destruct (argmin (map (fun c => nabs (cf2 c)) cv)) as [pv|]; [|discriminate]. cbn [bind].
    assert (LS : forall l, length (swap_lines l) = length l) by (intros; apply map_length). rewrite !LS.
    assert (NW : forall a b p q, near_window 3 a b p q = near_window 3 b a p q) by (intros; unfold near_window; now rewrite (Z.min_comm (a / 2 - 1))).
    rewrite (NW (Z.of_nat (length sv)) (Z.of_nat (length sh)) ph), (NW (Z.of_nat (length sv)) (Z.of_nat (length sh)) pv).
    destruct (near_window 3 _ _ ph _) as [a1 b1]. destruct (near_window 3 _ _ pv _) as [a2 b2].
    generalize (mean (map nabs (ndiff (lslice (map cf2 ch) a1 b1)))) as x1. generalize (mean (map nabs (ndiff (lslice (map cf2 cv) a2 b2)))) as x2. intros x2 x1.
    destruct (if opt then optimize_intercept minimize x1 ph (map cf2 ch) else Ok x1) as [d1|]; [|discriminate].
    destruct (if opt then optimize_intercept minimize x2 pv (map cf2 cv) else Ok x2) as [d2|]; [|discriminate]. cbn [bind].
    destruct (spread_intercepts ch ph d1) as [u1|]; [|discriminate]. destruct (spread_intercepts cv pv d2) as [u2|]; [|discriminate]. cbn [bind].
    intros H. apply Ok_inj in H. apply pair_equal_spec in H. destruct H as [<- H]. apply pair_equal_spec in H. destruct H as [<- <-]. reflexivity.
  Qed.
  Lemma swap_dist p xc yc : dist (snd p, fst p) (xc, yc) = dist p (yc, xc).
  Proof. unfold dist, py, pxc. cbn [fst snd]. f_equal. ring. Qed.
  Lemma swap_samples (f g : R * R * R -> R -> R * R -> R * R) cs us lines : (forall c u p, f c u (snd p, fst p) = g c u p) ->
    line_samples f cs us (swap_lines lines) = line_samples g cs us lines.
  Proof.
    intros H. unfold line_samples, swap_lines. revert us lines. induction cs as [|c cs IH]; intros [|u us] [|a lines]; cbn [map combine concat]; try reflexivity.
    rewrite IH. f_equal. cbn [fst snd]. rewrite map_map. apply map_ext. intros p. apply H.
  Qed.
  Lemma usable_perm l m : Permutation l m -> Permutation (usable l) (usable m).
  Proof.
    intros P. unfold usable. induction P; cbn [filter]; try (now apply perm_nil); try (now apply perm_trans with (1 := IHP1)).
    - destruct (negb _); [now apply perm_skip|assumption].
    - destruct (negb _), (negb _); try reflexivity. apply perm_swap.
  Qed.
  Hypothesis LS : lstsq_oracle lstsq.
  Lemma perm_solve n l m F : Permutation l m -> solve_rows lstsq (map (row_of n) l) = Ok F -> distinct_values n (map fst l) ->
    solve_rows lstsq (map (row_of n) m) = Ok F.
  Proof.
    intros P H D. destruct (solve_total st lstsq LS n m) as [G EG].
    { intros ->. apply Permutation_sym, Permutation_nil in P. subst l. discriminate. }
    pose proof (solve_best st lstsq LS n _ _ H) as BF. pose proof (solve_best st lstsq LS n _ _ EG) as BG.
    rewrite (best_unique n l F G BF (best_perm n m l G (Permutation_sym P) BG) D). exact EG.
  Qed.
End Swap.

(** Abscissa and ordinate exchanged (a transposed image): the undistorted
    positions are exchanged, the warning and the coefficients are the same. *)
Theorem C98_swap : forall st polyfit minimize lstsq lh lv xc yc num_fact opt thr w uh uv ch cv,
  lstsq_oracle lstsq -> (num_fact <= 32767)%Z ->
  @calc_undistor_intercept R (Rst st) polyfit minimize lh lv xc yc opt thr = Ok (w, (uh, uv)) ->
  fits_hor st polyfit xc yc lh ch -> fits_ver st polyfit xc yc lv cv ->
  let n := Z.to_nat (Z.max 1 num_fact) in
  let samples := line_samples (hor_sample xc yc) ch uh lh ++ line_samples (ver_sample xc yc) cv uv lv in
  let lh' := swap_lines lv in let lv' := swap_lines lh in
  @calc_undistor_intercept R (Rst st) polyfit minimize lh' lv' yc xc opt thr = Ok (w, (uv, uh)) /\
  (distinct_values n (map fst (usable samples)) -> exists F,
    @calc_coef_forward R (Rst st) polyfit minimize lstsq lh lv xc yc num_fact opt thr = Ok F /\
    @calc_coef_forward R (Rst st) polyfit minimize lstsq lh' lv' yc xc num_fact opt thr = Ok F) /\
  (distinct_values n (map fst (map inverse_sample samples)) -> exists B,
    @calc_coef_backward R (Rst st) polyfit minimize lstsq lh lv xc yc num_fact opt thr = Ok B /\
    @calc_coef_backward R (Rst st) polyfit minimize lstsq lh' lv' yc xc num_fact opt thr = Ok B) /\
  (forall F B, distinct_values n (map fst (usable samples)) ->
    @calc_coef_backward_from_forward R (Rst st) polyfit minimize lstsq lh lv xc yc num_fact opt thr = Ok (F, B) ->
    distinct_values n (map (fun p => dist p (yc, xc) * poly F (dist p (yc, xc))) (filter (fun p => negb (Req_bool (poly F (dist p (yc, xc))) 0)) (concat lh ++ concat lv))) ->
    @calc_coef_backward_from_forward R (Rst st) polyfit minimize lstsq lh' lv' yc xc num_fact opt thr = Ok (F, B)).
Proof.
  intros st polyfit minimize lstsq lh lv xc yc num_fact opt thr w uh uv ch cv LS NF EU Fh Fv n samples lh' lv'.
  pose proof (swap_undistor st polyfit minimize lh lv xc yc opt thr w uh uv EU) as EU'. split; [exact EU'|].
  destruct (call_parts st polyfit minimize lh lv xc yc opt thr) as [w' [uh' [uv' [ch' [cv' [sh [sv [E' [Eh Ev]]]]]]]]].
  { intros e X. pose proof (eq_trans (eq_sym EU) X). discriminate. }
  pose proof (fits_hor_fun st polyfit _ _ _ _ _ Fh (para_hor_fits _ _ _ _ _ _ _ Eh)) as <-.
  pose proof (fits_ver_fun st polyfit _ _ _ _ _ Fv (para_ver_fits _ _ _ _ _ _ _ Ev)) as <-.
  assert (Eh' : exists sh', @para_fit_hor R (Rst st) polyfit lh' yc xc = Ok (cv, sh')).
  { pose proof (eq_trans (eq_sym (swap_ver st polyfit lv xc yc)) Ev) as Q. change (NSw st) with (Rst st) in Q.
    unfold lh'. destruct (@para_fit_hor R (Rst st) polyfit (swap_lines lv) yc xc) as [[c s]|]; [|discriminate]. apply Ok_inj in Q. apply pair_equal_spec in Q. destruct Q as [<- _]. now exists s. }
  assert (Ev' : exists sv', @para_fit_ver R (Rst st) polyfit lv' yc xc = Ok (ch, sv')).
  { pose proof (swap_ver st polyfit lv' yc xc) as Q. unfold lv' in Q at 2. rewrite swap_swap in Q. exists (swap_lines sh). refine (eq_trans Q _). refine (eq_trans (f_equal _ Eh) _). reflexivity. }
  destruct Eh' as [sh' Eh']. destruct Ev' as [sv' Ev'].
  assert (PS : Permutation samples (line_samples (hor_sample yc xc) cv uv lh' ++ line_samples (ver_sample yc xc) ch uh lv')).
  { unfold samples, lh', lv'. rewrite (swap_samples _ (ver_sample xc yc) cv), (swap_samples _ (hor_sample xc yc) ch).
    - apply Permutation_app_comm.
    - intros c u p. unfold ver_sample, hor_sample. now rewrite swap_dist.
    - intros c u p. unfold ver_sample, hor_sample. now rewrite swap_dist. }
  assert (SF : distinct_values n (map fst (usable samples)) -> exists F,
    @calc_coef_forward R (Rst st) polyfit minimize lstsq lh lv xc yc num_fact opt thr = Ok F /\
    @calc_coef_forward R (Rst st) polyfit minimize lstsq lh' lv' yc xc num_fact opt thr = Ok F).
  { intros D. destruct (solve_total st lstsq LS n (usable samples) (distinct_nonempty num_fact _ D)) as [F EF]. exists F. split.
    - exact (eq_trans (forward_call st polyfit minimize lstsq lh lv xc yc num_fact opt thr NF w uh uv ch cv sh sv EU Eh Ev) EF).
    - refine (eq_trans (forward_call st polyfit minimize lstsq _ _ _ _ num_fact opt thr NF w _ _ _ _ sh' sv' EU' Eh' Ev') _).
      exact (perm_solve st lstsq LS n _ _ F (usable_perm _ _ PS) EF D). }
  split; [exact SF|]. split.
  { intros D. destruct (solve_total st lstsq LS n (map inverse_sample samples) (distinct_nonempty num_fact _ D)) as [F EF]. exists F. split.
    - exact (eq_trans (backward_call st polyfit minimize lstsq lh lv xc yc num_fact opt thr NF w uh uv ch cv sh sv EU Eh Ev) EF).
    - refine (eq_trans (backward_call st polyfit minimize lstsq _ _ _ _ num_fact opt thr NF w _ _ _ _ sh' sv' EU' Eh' Ev') _).
      exact (perm_solve st lstsq LS n _ _ F (Permutation_map inverse_sample PS) EF D). }
  intros F B D1 H D2. destruct (SF D1) as [F' [EF EG]].
  pose proof (C97_backward_from_forward st polyfit minimize lstsq lh lv xc yc num_fact opt thr F B LS NF H) as [EF' _].
  pose proof (Ok_inj _ _ (eq_trans (eq_sym EF) EF')) as ->.
  assert (LF : length F = n).
  { destruct (C97_forward_least_squares st polyfit minimize lstsq lh lv xc yc num_fact opt thr w uh uv F LS NF EU EF) as [? [? [_ [_ [L _]]]]]. exact L. }
  pose proof (both_call st polyfit minimize lstsq lh lv xc yc num_fact opt thr F ch cv sh sv NF EF LF Eh Ev) as C1.
  pose proof (both_call st polyfit minimize lstsq lh' lv' yc xc num_fact opt thr F _ _ sh' sv' NF EG LF Eh' Ev') as C2.
  pose proof (eq_trans (eq_sym C1) H) as C3. clear C1.
  match type of C3 with bind ?x _ = _ => destruct x as [B'|] eqn:EB; [|discriminate C3] end.
  cbn [bind] in C3. apply Ok_inj in C3. apply pair_equal_spec in C3. destruct C3 as [_ ->].
  assert (D3 : distinct_values n (map fst (inverse_samples xc yc F (concat lh ++ concat lv)))) by (rewrite inverse_radii; exact D2).
  refine (eq_trans C2 _).
  assert (IP : Permutation (inverse_samples xc yc F (concat lh ++ concat lv)) (inverse_samples yc xc F (concat lh' ++ concat lv'))).
  { unfold inverse_samples. apply Permutation_map, usable_perm. unfold lh', lv'.
    assert (CS : forall l, concat (swap_lines l) = map (fun p => (snd p, fst p)) (concat l)) by (intros l; symmetry; apply concat_map).
    rewrite !CS, <- map_app, map_map.
    replace (map (fun x : R * R => (dist (snd x, fst x) (xc, yc), poly F (dist (snd x, fst x) (xc, yc)))) (concat lv ++ concat lh)) with
      (map (fun p => (dist p (yc, xc), poly F (dist p (yc, xc)))) (concat lv ++ concat lh)) by (apply map_ext; intros p; now rewrite swap_dist).
    apply Permutation_map, Permutation_app_comm. }
  refine (eq_trans (f_equal (fun r => bind r _) (perm_solve st lstsq LS n _ _ B IP EB D3)) _). reflexivity.
Qed.
Print Assumptions C98_swap.

(** *** Cases *)
Lemma ex_sample_in s : In s [(1, 1); (3, 1); (5/3, 3/4); (sqrt 17, 3/4)] ->
  In s (line_samples (hor_sample 0 0) (map triple ex_cs) [-3; -1; 1; 3] ex_hor).
Proof.
  assert (S17 : sqrt 17 * sqrt 17 = 17) by (apply sqrt_sqrt; lra). assert (S0 : 0 <= sqrt 17) by apply sqrt_pos.
  unfold line_samples, ex_hor, ex_cs, triple, hor_sample, pxc. cbn [map combine concat app fst snd].
  intros H. destruct H as [<-|[<-|[<-|[<-|[]]]]].
  - do 7 right. left. f_equal; [apply ex_dist; lra|field].
  - do 10 right. left. f_equal; [apply ex_dist; lra|field].
  - do 8 right. left. f_equal; [apply ex_dist; lra|field].
  - do 11 right. left. f_equal; [apply ex_dist; lra|field].
Qed.
Lemma ex_fits : fits_hor (fun x => x) pf_R 0 0 ex_hor (map triple ex_cs) /\ fits_ver (fun x => x) pf_R 0 0 ex_ver (map triple ex_cs).
Proof.
  destruct ex_bent as [Bh Bv]. split.
  - pose proof (para_hor_exact (fun x => x) pf_R pf_R_ok 0 0 _ _ (bent_on_hor 0 0 _ _ Bh)) as E. apply para_hor_fits in E. rewrite (stored (fun x => x)) in E; auto.
  - pose proof (para_ver_exact (fun x => x) pf_R pf_R_ok 0 0 _ _ (bent_on_ver 0 0 _ _ Bv)) as E. apply para_ver_fits in E. rewrite (stored (fun x => x)) in E; auto.
Qed.
Lemma ex_enough : distinct_values 4 (map fst (usable (line_samples (hor_sample 0 0) (map triple ex_cs) [-3; -1; 1; 3] ex_hor ++ line_samples (ver_sample 0 0) (map triple ex_cs) [-3; -1; 1; 3] ex_ver))).
Proof.
  exists [1; 3; 5/3; sqrt 17]. split; [exact ex_nodup|]. split; [|cbn; lia]. intros x Hx.
  assert (Q : exists f, In (x, f) [(1, 1); (3, 1); (5/3, 3/4); (sqrt 17, 3/4)] /\ f <> 0).
  { destruct Hx as [<-|[<-|[<-|[<-|[]]]]]; [exists 1|exists 1|exists (3/4)|exists (3/4)]; (split; [cbn; auto 6|lra]). }
  destruct Q as [f [Q Nf]]. apply (in_map fst _ (x, f)). apply usable_in. split; [|exact Nf]. apply in_or_app. left. now apply ex_sample_in.
Qed.
(** The bent grid of C97, with pixels half as large, and transposed. *)
Example C98_scale_ex : exists F G,
  @calc_coef_forward R Rexact pf_R min_R ls_R ex_hor ex_ver 0 0 4 false (1/10) = Ok F /\
  @calc_coef_forward R Rexact pf_R min_R ls_R (scale_lines 2 ex_hor) (scale_lines 2 ex_ver) (2 * 0) (2 * 0) 4 false (1/10) = Ok G /\
  rescaled_poly 2 F G /\ poly F 3 = 1 /\ poly G 6 = 1.
Proof.
  destruct ex_bent as [Bh Bv]. destruct ex_fits as [Fh Fv].
  destruct (C98_scale pf_R min_R ls_R 2 ex_hor ex_ver 0 0 4 false (1/10) false [-3; -1; 1; 3] [-3; -1; 1; 3] (map triple ex_cs) (map triple ex_cs) pf_R_ok min_R_ok ls_R_ok) as [_ [SF _]].
  - lra.
  - lia.
  - cbn. lia.
  - cbn. lia.
  - intros line Hl. apply (In_nth _ _ []) in Hl. destruct Hl as [i [Hi <-]]. exact (proj2 (F2_nth _ _ _ i (0, 0) [] Bh Hi)).
  - intros line Hl. apply (In_nth _ _ []) in Hl. destruct Hl as [i [Hi <-]]. exact (proj2 (F2_nth _ _ _ i (0, 0) [] Bv Hi)).
  - apply ex_positions.
  - exact Fh.
  - exact Fv.
  - destruct (SF ex_enough) as [F [G [EF [EG RG]]]]. exists F, G. split; [exact EF|]. split; [exact EG|]. split; [exact RG|].
    destruct C97_forward_ex as [F' [EF' [_ [_ [P3 _]]]]]. pose proof (Ok_inj _ _ (eq_trans (eq_sym EF) EF')) as ->. split; [exact P3|].
    replace 6 with (2 * 3) by ring. rewrite (rescaled_value 2 F' G) by (try lra; assumption). exact P3.
Qed.
Example C98_swap_ex : exists F,
  @calc_coef_forward R Rexact pf_R min_R ls_R ex_hor ex_ver 0 0 4 false (1/10) = Ok F /\
  @calc_coef_forward R Rexact pf_R min_R ls_R (swap_lines ex_ver) (swap_lines ex_hor) 0 0 4 false (1/10) = Ok F.
Proof.
  destruct ex_fits as [Fh Fv].
  destruct (C98_swap (fun x => x) pf_R min_R ls_R ex_hor ex_ver 0 0 4 false (1/10) false [-3; -1; 1; 3] [-3; -1; 1; 3] _ _ ls_R_ok ltac:(lia) (ex_positions false) Fh Fv) as [_ [SF _]].
  exact (SF ex_enough).
Qed.

(** *** The coarse centre *)
(** The coarse search does not move along with the grid: it fits the lines
    about the origin of the image, and the averaged slopes there depend on
    where the origin is.  Two lines in each direction, symmetric about the
    origin, have the centre (0, 0); moved by one pixel to the right they have
    the centre (1, -1/2) in place of (1, 0). *)
Definition co_hor : list (list (R * R)) := [[(-2, -1); (-1, 0); (-2, 1)]; [(3, -1); (1, 0); (3, 1)]].
Definition co_ver : list (list (R * R)) := swap_lines co_hor.
Theorem C98_coarse_shift_refuted : forall polyfit, polyfit_oracle polyfit ->
  @find_cod_coarse R Rexact polyfit co_hor co_ver = Ok (0, 0) /\
  @find_cod_coarse R Rexact polyfit (shift_lines 1 0 co_hor) (shift_lines 1 0 co_ver) = Ok (1, -1/2).
Proof.
  intros polyfit PF.
  assert (G : forall ch cv lh lv, Forall2 (on_para_hor 0 0) ch lh -> Forall2 (on_para_ver 0 0) cv lv -> length ch = 2%nat -> length cv = 2%nat ->
    let mh := (slope ch 0 + slope ch 1) / 2 in let mv := (slope cv 0 + slope cv 1) / 2 in
    let y0 := (inter ch 0 + inter ch 1) / 2 in let x0 := (inter cv 0 + inter cv 1) / 2 in
    @find_cod_coarse R Rexact polyfit lh lv = Ok ((x0 + y0 * mv) / (1 - mh * mv), (y0 + x0 * mh) / (1 - mh * mv))).
  { intros ch cv lh lv Fh Fv Lh Lv. pose proof (para_hor_exact (fun x => x) polyfit PF 0 0 _ _ Fh) as Eh. pose proof (para_ver_exact (fun x => x) polyfit PF 0 0 _ _ Fv) as Ev.
    assert (I : forall cs : list (R * R * R), map (stc (fun x => x)) cs = cs) by (intros cs; rewrite <- (map_id cs) at 2; apply map_ext; now intros [[? ?] ?]).
    rewrite I in Eh, Ev.
    destruct (coarse_spec (fun x => x) polyfit lh lv _ _ _ _ Eh Ev) as [i [j [Mi [Mj E]]]]; [lia|lia|].
    assert (i = O) as -> by (destruct Mi as [Hi _]; lia). assert (j = O) as -> by (destruct Mj as [Hj _]; lia). exact E. }
  split.
  - rewrite (G [(-1, 0, -1); (2, 0, 1)] [(-1, 0, -1); (2, 0, 1)]); [| | |reflexivity|reflexivity].
    + unfold slope, inter. cbn [nth fst snd]. f_equal. f_equal; field.
    + unfold co_hor. repeat (apply Forall2_cons || apply Forall2_nil); (split; [intros p [<-|[<-|[<-|[]]]]; unfold py, pxc; cbn [fst snd]; field|unfold py, pxc; cbn [map fst snd]; distinct_lit]).
    + unfold co_ver, swap_lines, co_hor. cbn [map fst snd]. repeat (apply Forall2_cons || apply Forall2_nil); (split; [intros p [<-|[<-|[<-|[]]]]; unfold py, pxc; cbn [fst snd]; field|unfold py, pxc; cbn [map fst snd]; distinct_lit]).
  - rewrite (G [(-1, 2, -2); (2, -4, 3)] [(-1, 0, 0); (2, 0, 2)]); [| | |reflexivity|reflexivity].
    + unfold slope, inter. cbn [nth fst snd]. f_equal. f_equal; field.
    + unfold co_hor, shift_lines. cbn [map fst snd]. repeat (apply Forall2_cons || apply Forall2_nil); (split; [intros p [<-|[<-|[<-|[]]]]; unfold py, pxc; cbn [fst snd]; field|unfold py, pxc; cbn [map fst snd]; distinct_lit]).
    + unfold co_ver, swap_lines, co_hor, shift_lines. cbn [map fst snd]. repeat (apply Forall2_cons || apply Forall2_nil); (split; [intros p [<-|[<-|[<-|[]]]]; unfold py, pxc; cbn [fst snd]; field|unfold py, pxc; cbn [map fst snd]; distinct_lit]).
Qed.
Print Assumptions C98_coarse_shift_refuted.
