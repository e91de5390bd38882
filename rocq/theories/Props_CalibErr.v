(** C120: calibration does not amplify measurement errors. *)
From Coq Require Import Reals ZArith List Lra Lia.
From Flocq Require Import Core.
From Verif Require Import Base Num NumFacts Spec Lsq LsqEx ProcSpec PolyUniq Proc ProcFacts ProcFacts5 CalibSpec CalibFacts Props_Calib.
Import ListNotations.
Local Open Scope R_scope.

(** Sum of the squared differences of the factors of two models over the
    dots. *)
Definition model_gap (F P : list R) (l : list (R * R)) : R := Rsum (map (fun s => (poly F (fst s) - poly P (fst s)) ^ 2) l).

(** *** Pythagoras *)
Lemma fit_error_line F P l t : length F = length P ->
  fit_error (vlin (1 - t) F t P) l = fit_error F l + 2 * t * Rsum (map (fun s => (poly F (fst s) - snd s) * (poly P (fst s) - poly F (fst s))) l) + t ^ 2 * model_gap F P l.
Proof.
  intros L. unfold fit_error, model_gap. induction l as [|s l IH]; cbn [map Rsum]; [ring|]. rewrite IH, poly_vlin by assumption. ring.
Qed.
Lemma best_pythagoras n l F P : best_poly n l F -> length P = n -> model_gap F P l + fit_error F l = fit_error P l.
Proof.
  intros [LF B] LP. set (C := Rsum (map (fun s => (poly F (fst s) - snd s) * (poly P (fst s) - poly F (fst s))) l)).
  assert (D0 : 0 <= model_gap F P l).
  { unfold model_gap. apply Rsum_nonneg. intros x Hx. apply in_map_iff in Hx. destruct Hx as [s [<- _]]. apply pow2_ge_0. }
  assert (H : forall t, 0 <= 2 * t * C + t ^ 2 * model_gap F P l).
  { intros t. pose proof (B (vlin (1 - t) F t P) ltac:(rewrite (vlin_length _ _ _ _ n); congruence)) as X.
    rewrite fit_error_line in X by congruence. fold C in X. lra. }
  assert (C0 : C = 0).
  { set (D := model_gap F P l) in *. destruct (Req_dec C 0) as [|N]; [assumption|exfalso].
    specialize (H (- C / (1 + D))). replace (2 * (- C / (1 + D)) * C + (- C / (1 + D)) ^ 2 * D) with (- (C * C) * (2 + D) / ((1 + D) * (1 + D))) in H by (field; lra).
    assert (0 < C * C) by nra. assert (0 < C * C * (2 + D) / ((1 + D) * (1 + D))) by (apply Rdiv_lt_0_compat; nra).
    assert (- (C * C) * (2 + D) / ((1 + D) * (1 + D)) = - (C * C * (2 + D) / ((1 + D) * (1 + D)))) by (field; lra). lra. }
  pose proof (fit_error_line F P l 1 ltac:(congruence)) as E. fold C in E. rewrite C0 in E.
  assert (V : fit_error (vlin (1 - 1) F 1 P) l = fit_error P l).
  { unfold fit_error. f_equal. apply map_ext. intros s. rewrite poly_vlin by congruence. f_equal. ring. }
  rewrite V in E. lra.
Qed.

(** The true model P, if there is one, deviates from the dots by the
    measurement errors; the calibrated model F is nearer to it. *)
Theorem C120_forward : forall st polyfit minimize lstsq lh lv xc yc num_fact opt thr w uh uv F,
  lstsq_oracle lstsq -> (num_fact <= 32767)%Z ->
  @calc_undistor_intercept R (Rst st) polyfit minimize lh lv xc yc opt thr = Ok (w, (uh, uv)) ->
  @calc_coef_forward R (Rst st) polyfit minimize lstsq lh lv xc yc num_fact opt thr = Ok F ->
  exists ch cv, fits_hor st polyfit xc yc lh ch /\ fits_ver st polyfit xc yc lv cv /\
  let l := usable (line_samples (hor_sample xc yc) ch uh lh ++ line_samples (ver_sample xc yc) cv uv lv) in
  length F = Z.to_nat (Z.max 1 num_fact) /\
  forall P, length P = length F -> model_gap F P l + fit_error F l = fit_error P l.
Proof.
  intros st polyfit minimize lstsq lh lv xc yc num_fact opt thr w uh uv F LS NF E H.
  destruct (C97_forward_least_squares _ _ _ _ _ _ _ _ _ _ _ _ _ _ _ LS NF E H) as [ch [cv [Fh [Fv B]]]].
  exists ch, cv. split; [exact Fh|]. split; [exact Fv|]. cbv zeta. split; [apply B|]. intros P LP. apply (best_pythagoras _ _ _ _ B). rewrite LP. apply B.
Qed.
Print Assumptions C120_forward.
Theorem C120_backward : forall st polyfit minimize lstsq lh lv xc yc num_fact opt thr w uh uv B,
  lstsq_oracle lstsq -> (num_fact <= 32767)%Z ->
  @calc_undistor_intercept R (Rst st) polyfit minimize lh lv xc yc opt thr = Ok (w, (uh, uv)) ->
  @calc_coef_backward R (Rst st) polyfit minimize lstsq lh lv xc yc num_fact opt thr = Ok B ->
  exists ch cv, fits_hor st polyfit xc yc lh ch /\ fits_ver st polyfit xc yc lv cv /\
  let l := map inverse_sample (line_samples (hor_sample xc yc) ch uh lh ++ line_samples (ver_sample xc yc) cv uv lv) in
  length B = Z.to_nat (Z.max 1 num_fact) /\
  forall P, length P = length B -> model_gap B P l + fit_error B l = fit_error P l.
Proof.
  intros st polyfit minimize lstsq lh lv xc yc num_fact opt thr w uh uv F LS NF E H.
  destruct (C97_backward_least_squares _ _ _ _ _ _ _ _ _ _ _ _ _ _ _ LS NF E H) as [ch [cv [Fh [Fv B]]]].
  exists ch, cv. split; [exact Fh|]. split; [exact Fv|]. cbv zeta. split; [apply B|]. intros P LP. apply (best_pythagoras _ _ _ _ B). rewrite LP. apply B.
Qed.
Print Assumptions C120_backward.
(** The inverse computed from the forward model: nearer to any other
    approximate inverse than that one is to an exact inverse on the dots. *)
Theorem C120_backward_from_forward : forall st polyfit minimize lstsq lh lv xc yc num_fact opt thr F B,
  lstsq_oracle lstsq -> (num_fact <= 32767)%Z ->
  @calc_coef_backward_from_forward R (Rst st) polyfit minimize lstsq lh lv xc yc num_fact opt thr = Ok (F, B) ->
  let l := map inverse_sample (usable (map (fun p => (dist p (yc, xc), poly F (dist p (yc, xc)))) (concat lh ++ concat lv))) in
  forall P, length P = Z.to_nat (Z.max 1 num_fact) -> model_gap B P l + fit_error B l = fit_error P l.
Proof.
  intros st polyfit minimize lstsq lh lv xc yc num_fact opt thr F B LS NF H l P LP.
  destruct (C97_backward_from_forward _ _ _ _ _ _ _ _ _ _ _ _ _ LS NF H) as [_ [BP _]]. now apply (best_pythagoras _ _ _ _ BP).
Qed.
Print Assumptions C120_backward_from_forward.

(** *** What it says about the factors *)
(** If no dot deviates from P by more than e, the root mean square of the
    difference of the two models over the dots is at most e. *)
Theorem C120_rms : forall F P l e, model_gap F P l + fit_error F l = fit_error P l -> l <> [] ->
  (forall s, In s l -> Rabs (poly P (fst s) - snd s) <= e) ->
  sqrt (model_gap F P l / INR (length l)) <= e.
Proof.
  intros F P l e E Hl H.
  assert (E0 : 0 <= fit_error F l).
  { unfold fit_error. apply Rsum_nonneg. intros x Hx. apply in_map_iff in Hx. destruct Hx as [s [<- _]]. apply pow2_ge_0. }
  assert (B : fit_error P l <= INR (length l) * (e * e)).
  { unfold fit_error. clear E E0 Hl. induction l as [|s l IH]; [cbn; lra|]. cbn [map Rsum length]. rewrite S_INR.
    specialize (IH (fun s Hs => H s (or_intror Hs))). pose proof (H s (or_introl eq_refl)) as X. apply Rabs_le_inv in X.
    assert ((poly P (fst s) - snd s) ^ 2 <= e * e) by nra. lra. }
  assert (e0 : 0 <= e). { destruct l as [|s l]; [congruence|]. pose proof (H s (or_introl eq_refl)). pose proof (Rabs_pos (poly P (fst s) - snd s)). lra. }
  assert (NL : 0 < INR (length l)) by (apply lt_0_INR; destruct l; [congruence|cbn; lia]).
  rewrite <- (sqrt_square e) by assumption. apply sqrt_le_1_alt. apply Rmult_le_reg_r with (INR (length l)); [assumption|].
  unfold Rdiv. rewrite Rmult_assoc, Rinv_l, Rmult_1_r by lra. lra.
Qed.
Print Assumptions C120_rms.

(** *** Between and beyond the dots *)
Definition Rprod (l : list R) : R := fold_right Rmult 1 l.
Definition others (d : R) (ds : list R) : list R := remove Req_EM_T d ds.
(** How much values at the nodes ds can be amplified by a polynomial at x: the
    sum over the nodes of the absolute Lagrange weights. *)
Definition amplification (ds : list R) (x : R) : R :=
  Rsum (map (fun d => Rprod (map (fun e => Rabs (x - e) / Rabs (d - e)) (others d ds))) ds).

(** Lagrange's formula. *)
Definition times_root (a : R) (q : list R) : list R := vlin 1 (0 :: q) (- a) (q ++ [0]).
Lemma poly_snoc0 q x : poly (q ++ [0]) x = poly q x.
Proof. induction q as [|a q IH]; cbn [app poly]; [ring|]. now rewrite IH. Qed.
Lemma times_root_poly a q x : poly (times_root a q) x = (x - a) * poly q x.
Proof. unfold times_root. rewrite poly_vlin by (rewrite app_length; cbn; lia). rewrite poly_snoc0. cbn [poly]. ring. Qed.
Lemma times_root_length a q : length (times_root a q) = S (length q).
Proof. unfold times_root. rewrite (vlin_length _ _ _ _ (S (length q))); [reflexivity|reflexivity|rewrite app_length; cbn; lia]. Qed.
Definition roots_poly (es : list R) : list R := fold_right times_root [1] es.
Lemma roots_poly_length es : length (roots_poly es) = S (length es).
Proof. induction es as [|e es IH]; [reflexivity|]. cbn [roots_poly fold_right length]. rewrite times_root_length. unfold roots_poly in IH. now rewrite IH. Qed.
Lemma roots_poly_value es x : poly (roots_poly es) x = Rprod (map (fun e => x - e) es).
Proof.
  induction es as [|e es IH]; [cbn; ring|]. cbn [roots_poly fold_right map Rprod]. rewrite times_root_poly. unfold roots_poly in IH. rewrite IH. reflexivity.
Qed.
Lemma Rprod_in es : In 0 es -> Rprod es = 0.
Proof. induction es as [|e es IH]; intros H; [easy|]. cbn [Rprod fold_right]. destruct H as [->|H]; [ring|]. unfold Rprod in IH. rewrite IH by assumption. ring. Qed.
Lemma Rprod_nz es : ~ In 0 es -> Rprod es <> 0.
Proof.
  induction es as [|e es IH]; intros H; cbn [Rprod fold_right]; [lra|]. apply Rmult_integral_contrapositive. split; [intros X; apply H; now left|].
  apply IH. intros X. apply H. now right.
Qed.
Lemma Rprod_div (f g : R -> R) es : ~ In 0 (map g es) -> Rprod (map f es) / Rprod (map g es) = Rprod (map (fun e => f e / g e) es).
Proof.
  induction es as [|e es IH]; intros H; cbn [map Rprod fold_right]; [field|]. cbn [map In] in H.
  assert (N1 : g e <> 0) by tauto. assert (N2 : ~ In 0 (map g es)) by tauto. unfold Rprod in IH. rewrite <- IH by assumption.
  pose proof (Rprod_nz _ N2) as N3. unfold Rprod in N3. field. split; assumption.
Qed.
Definition weight (ds : list R) (d x : R) : R := Rprod (map (fun e => (x - e) / (d - e)) (others d ds)).
Lemma others_length ds d : NoDup ds -> In d ds -> S (length (others d ds)) = length ds.
Proof.
  unfold others. induction ds as [|a ds IH]; intros Nd H; [easy|]. apply NoDup_cons_iff in Nd as [N1 N2]. cbn [remove].
  destruct (Req_EM_T d a) as [->|Q].
  - rewrite notin_remove by assumption. reflexivity.
  - cbn [length]. rewrite IH; [reflexivity|assumption|]. destruct H as [H|H]; [congruence|assumption].
Qed.
Lemma others_in ds d e : In e (others d ds) <-> In e ds /\ e <> d.
Proof. unfold others. split; [apply in_remove|intros [H N]; now apply in_in_remove]. Qed.
(** Each weight is a polynomial. *)
Lemma weight_poly ds d : NoDup ds -> In d ds -> exists q, length q = length ds /\ forall x, poly q x = weight ds d x.
Proof.
  intros Nd H. exists (vlin (/ Rprod (map (fun e => d - e) (others d ds))) (roots_poly (others d ds)) 0 (roots_poly (others d ds))). split.
  - rewrite (vlin_length _ _ _ _ (length ds)); [reflexivity| |]; rewrite roots_poly_length; now apply others_length.
  - intros x. rewrite poly_vlin by reflexivity. rewrite roots_poly_value. unfold weight. rewrite <- (Rprod_div (fun e => x - e) (fun e => d - e)).
    + unfold Rdiv. ring.
    + intros X. apply in_map_iff in X. destruct X as [e [E I]]. apply others_in in I. destruct I as [_ I]. apply I. lra.
Qed.
Lemma weight_node ds d e : NoDup ds -> In d ds -> In e ds -> weight ds d e = if Req_EM_T d e then 1 else 0.
Proof.
  intros Nd Hd He. unfold weight. destruct (Req_EM_T d e) as [->|N].
  - assert (G : forall l, (forall x, In x l -> x <> e) -> Rprod (map (fun x => (e - x) / (e - x)) l) = 1).
    { induction l as [|a l IH]; intros Hl; cbn [map Rprod fold_right]; [reflexivity|]. unfold Rprod in IH. rewrite IH by (intros x Hx; apply Hl; now right).
      pose proof (Hl a (or_introl eq_refl)). field. lra. }
    apply G. intros x Hx. now apply others_in in Hx.
  - apply Rprod_in. apply in_map_iff. exists e. split; [unfold Rdiv; ring|]. apply others_in. split; [assumption|congruence].
Qed.
Lemma lagrange ds p x : NoDup ds -> (length p <= length ds)%nat -> poly p x = Rsum (map (fun d => weight ds d x * poly p d) ds).
Proof.
  intros Nd L.
  assert (S0 : forall l, (forall d, In d l -> In d ds) -> exists q, length q = length ds /\ forall y, poly q y = Rsum (map (fun d => weight ds d y * poly p d) l)).
  { induction l as [|d l IH]; intros Hl.
    - exists (repeat 0 (length ds)). split; [apply repeat_length|]. intros y. cbn [map Rsum]. clear. induction (length ds) as [|n I]; cbn [repeat poly]; [reflexivity|]. rewrite I. ring.
    - destruct IH as [q [Lq Hq]]; [intros e He; apply Hl; now right|]. destruct (weight_poly ds d Nd (Hl d (or_introl eq_refl))) as [u [Lu Hu]].
      exists (vlin (poly p d) u 1 q). split; [now apply vlin_length|]. intros y. rewrite poly_vlin by congruence. rewrite Hu, Hq. cbn [map Rsum]. ring. }
  destruct (S0 ds (fun d H => H)) as [q [Lq Hq]].
  assert (Pad : exists p', length p' = length ds /\ forall y, poly p' y = poly p y).
  { exists (p ++ repeat 0 (length ds - length p)). split; [rewrite app_length, repeat_length; lia|]. intros y. generalize (length ds - length p)%nat as n. clear. intros n.
    induction p as [|a p IH]; cbn [app poly]; [|now rewrite IH]. induction n as [|n I]; cbn [repeat poly]; [reflexivity|]. rewrite I. ring. }
  destruct Pad as [p' [Lp' Hp']].
  assert (E : p' = q).
  { apply vlin_zero; [congruence|]. apply (poly_roots _ ds Nd); [rewrite (vlin_length _ _ _ _ (length ds)); [lia|congruence|assumption]|].
    intros e He. rewrite poly_vlin by congruence. rewrite Hp', Hq.
    assert (X : forall l, NoDup l -> (forall d, In d l -> In d ds) -> Rsum (map (fun d => weight ds d e * poly p d) l) = if in_dec Req_EM_T e l then poly p e else 0).
    { induction l as [|d l IH]; intros Nl Hl; [reflexivity|]. apply NoDup_cons_iff in Nl as [N1 N2]. cbn [map Rsum].
      rewrite IH; [|assumption|intros a Ha; apply Hl; now right]. rewrite weight_node; [|assumption|apply Hl; now left|assumption].
      destruct (Req_EM_T d e) as [->|N].
      - destruct (in_dec Req_EM_T e l); [contradiction|]. destruct (in_dec Req_EM_T e (e :: l)) as [|C]; [ring|exfalso; apply C; now left].
      - destruct (in_dec Req_EM_T e l) as [I|I]; destruct (in_dec Req_EM_T e (d :: l)) as [J|J]; try ring.
        + exfalso. apply J. now right.
        + exfalso. destruct J as [J|J]; congruence. }
    rewrite X by auto. destruct (in_dec Req_EM_T e ds); [ring|contradiction]. }
  rewrite <- Hp', E. apply Hq.
Qed.
(** If no dot deviates from P by more than e, the calibrated factor differs
    from P at any distance x from the centre by at most e times the square
    root of the number of dots times the amplification from any nodes chosen
    among the dots. *)
Theorem C120_everywhere : forall F P l e ds x, model_gap F P l + fit_error F l = fit_error P l -> length P = length F ->
  (forall s, In s l -> Rabs (poly P (fst s) - snd s) <= e) ->
  NoDup ds -> length ds = length F -> (forall d, In d ds -> In d (map fst l)) ->
  Rabs (poly F x - poly P x) <= e * sqrt (INR (length l)) * amplification ds x.
Proof.
  intros F P l e ds x E LP H Nd Ld Hd.
  assert (Each : forall d, In d ds -> Rabs (poly F d - poly P d) <= e * sqrt (INR (length l))).
  { intros d Hdd. specialize (Hd d Hdd). assert (Nl : l <> []) by (intros ->; easy). pose proof (C120_rms F P l e E Nl H) as Q.
    assert (NL : 0 < INR (length l)) by (apply lt_0_INR; destruct l; [congruence|cbn; lia]).
    assert (G : (poly F d - poly P d) ^ 2 <= model_gap F P l).
    { clear - Hd. unfold model_gap. apply in_map_iff in Hd. destruct Hd as [s [<- Hs]]. induction l as [|a l IH]; [easy|]. cbn [map Rsum].
      assert (R0 : 0 <= Rsum (map (fun s => (poly F (fst s) - poly P (fst s)) ^ 2) l)).
      { apply Rsum_nonneg. intros y Hy. apply in_map_iff in Hy. destruct Hy as [b [<- _]]. apply pow2_ge_0. }
      destruct Hs as [->|Hs]; [lra|]. specialize (IH Hs). pose proof (pow2_ge_0 (poly F (fst a) - poly P (fst a))). lra. }
    rewrite <- sqrt_Rsqr_abs. unfold Rsqr. replace ((poly F d - poly P d) * (poly F d - poly P d)) with ((poly F d - poly P d) ^ 2) by ring.
    eapply Rle_trans; [apply sqrt_le_1_alt; exact G|]. rewrite sqrt_div_alt in Q by assumption.
    assert (0 < sqrt (INR (length l))) by now apply sqrt_lt_R0. apply Rmult_le_reg_r with (/ sqrt (INR (length l))); [now apply Rinv_0_lt_compat|].
    rewrite Rmult_assoc, Rinv_r, Rmult_1_r by lra. exact Q. }
  set (B := e * sqrt (INR (length l))) in *.
  assert (V : poly F x - poly P x = poly (vlin 1 F (-1) P) x) by (rewrite poly_vlin by congruence; ring).
  rewrite V, (lagrange ds) by (try assumption; rewrite (vlin_length _ _ _ _ (length F)); auto; lia).
  unfold amplification.
  assert (W : forall d, In d ds -> Rabs (weight ds d x) = Rprod (map (fun e => Rabs (x - e) / Rabs (d - e)) (others d ds))).
  { intros d _. unfold weight. assert (O : forall a, In a (others d ds) -> a <> d) by (intros a Ha; now apply others_in in Ha). revert O.
    induction (others d ds) as [|a es IH]; intros O; cbn [map Rprod fold_right]; [apply Rabs_R1|]. rewrite Rabs_mult. unfold Rprod in IH. rewrite IH by (intros b Hb; apply O; now right).
    f_equal. pose proof (O a (or_introl eq_refl)). unfold Rdiv. rewrite Rabs_mult, Rabs_inv by lra. reflexivity. }
  assert (M : forall k, (forall d, In d k -> In d ds) -> Rabs (Rsum (map (fun d => weight ds d x * poly (vlin 1 F (-1) P) d) k)) <=
    B * Rsum (map (fun d => Rprod (map (fun e => Rabs (x - e) / Rabs (d - e)) (others d ds))) k)).
  { induction k as [|d k IH]; intros Hk; cbn [map Rsum]; [rewrite Rabs_R0; lra|]. eapply Rle_trans; [apply Rabs_triang|]. rewrite Rmult_plus_distr_l.
    apply Rplus_le_compat; [|apply IH; intros a Ha; apply Hk; now right]. rewrite Rabs_mult, W by (apply Hk; now left). rewrite (Rmult_comm B).
    apply Rmult_le_compat_l; [rewrite <- W by (apply Hk; now left); apply Rabs_pos|]. rewrite poly_vlin by congruence.
    replace (1 * poly F d + -1 * poly P d) with (poly F d - poly P d) by ring. apply Each. apply Hk. now left. }
  apply M. auto.
Qed.
Print Assumptions C120_everywhere.

(** *** Lines that a model straightens up to an error *)
Lemma filter_id {A} (f : A -> bool) l : (forall x, In x l -> f x = true) -> filter f l = l.
Proof. induction l as [|a l IH]; intros H; cbn [filter]; [reflexivity|]. rewrite (H a) by now left. f_equal. apply IH. intros x Hx. apply H. now right. Qed.
(** The radial map of P about the centre moves the dots of each line to the
    straight line at distance u, up to e times their own distance. *)
Definition near_hor (e : R) (P : list R) (xc yc : R) (us : list R) (lines : list (list (R * R))) : Prop :=
  Forall2 (fun u line => forall p, In p line -> Rabs (py (radial_map P (yc, xc) p) - (yc + u)) <= e * Rabs (py p - yc)) us lines.
Definition near_ver (e : R) (P : list R) (xc yc : R) (us : list R) (lines : list (list (R * R))) : Prop :=
  Forall2 (fun u line => forall p, In p line -> Rabs (pxc (radial_map P (yc, xc) p) - (xc + u)) <= e * Rabs (pxc p - xc)) us lines.

Lemma near_hor_samples e P xc yc cs : forall us lines, Forall2 (bent_hor xc yc) cs lines -> near_hor e P xc yc us lines -> (forall u, In u us -> u <> 0) ->
  let l := line_samples (hor_sample xc yc) (map triple cs) us lines in
  map fst l = map (fun p => dist p (yc, xc)) (concat lines) /\ usable l = l /\ forall s, In s l -> Rabs (poly P (fst s) - snd s) <= e.
Proof.
  induction cs as [|c cs IH]; intros us lines0 B N U; [inversion B; subst; repeat split; easy|].
  inversion B as [|c' line cs' lines Bl Bt E1 E2]. subst c' cs' lines0. clear B. unfold near_hor in N. inversion N as [|u line' us' lines' Nl Nt E1 E2]. subst line' lines' us. clear N. rename us' into us.
  destruct (IH us lines) as [A1 [A2 A3]]; [assumption|assumption|intros v Hv; apply U; now right|].
  cbv zeta. unfold line_samples. cbn [map combine concat fst snd]. fold (line_samples (hor_sample xc yc) (map triple cs) us lines).
  set (l := line_samples (hor_sample xc yc) (map triple cs) us lines) in *.
  assert (u0 : u <> 0) by (apply U; now left). destruct Bl as [Bl _].
  assert (S : forall p, In p line -> py p - yc <> 0 /\ hor_sample xc yc (triple c) u p = (dist p (yc, xc), u / (py p - yc))).
  { intros p Hp. split.
    - intros Z. specialize (Nl p Hp). rewrite radial_py, Z, Rabs_R0, Rmult_0_r in Nl. apply Rabs_le_inv in Nl. apply u0. lra.
    - unfold hor_sample, triple. cbn [fst snd]. now rewrite <- (Bl p Hp). }
  split; [|split].
  - rewrite !map_app, A1, map_map. f_equal. 
  - rewrite usable_app, A2. f_equal. unfold usable. apply filter_id. intros s Hs. apply in_map_iff in Hs. destruct Hs as [p [<- Hp]].
    destruct (S p Hp) as [Z ->]. cbn [snd]. rewrite Req_bool_false; [reflexivity|]. intros Q. apply u0.
    apply (Rmult_eq_compat_r (py p - yc)) in Q. unfold Rdiv in Q. rewrite Rmult_assoc, Rinv_l, Rmult_1_r, Rmult_0_l in Q; assumption.
  - intros s Hs. apply in_app_iff in Hs. destruct Hs as [Hs|Hs]; [|now apply A3]. apply in_map_iff in Hs. destruct Hs as [p [<- Hp]].
    destruct (S p Hp) as [Z ->]. cbn [fst snd]. specialize (Nl p Hp). rewrite radial_py in Nl.
    set (y := py p - yc) in *. set (q := poly P (dist p (yc, xc))) in *. replace (yc + q * y - (yc + u)) with ((q - u / y) * y) in Nl by (field; assumption).
    rewrite Rabs_mult in Nl. apply Rmult_le_reg_r with (Rabs y); [now apply Rabs_pos_lt|exact Nl].
Qed.
Lemma near_ver_samples e P xc yc cs : forall us lines, Forall2 (bent_ver xc yc) cs lines -> near_ver e P xc yc us lines -> (forall u, In u us -> u <> 0) ->
  let l := line_samples (ver_sample xc yc) (map triple cs) us lines in
  map fst l = map (fun p => dist p (yc, xc)) (concat lines) /\ usable l = l /\ forall s, In s l -> Rabs (poly P (fst s) - snd s) <= e.
Proof.
  induction cs as [|c cs IH]; intros us lines0 B N U; [inversion B; subst; repeat split; easy|].
  inversion B as [|c' line cs' lines Bl Bt E1 E2]. subst c' cs' lines0. clear B. unfold near_ver in N. inversion N as [|u line' us' lines' Nl Nt E1 E2]. subst line' lines' us. clear N. rename us' into us.
  destruct (IH us lines) as [A1 [A2 A3]]; [assumption|assumption|intros v Hv; apply U; now right|].
  cbv zeta. unfold line_samples. cbn [map combine concat fst snd]. fold (line_samples (ver_sample xc yc) (map triple cs) us lines).
  set (l := line_samples (ver_sample xc yc) (map triple cs) us lines) in *.
  assert (u0 : u <> 0) by (apply U; now left). destruct Bl as [Bl _].
  assert (S : forall p, In p line -> pxc p - xc <> 0 /\ ver_sample xc yc (triple c) u p = (dist p (yc, xc), u / (pxc p - xc))).
  { intros p Hp. split.
    - intros Z. specialize (Nl p Hp). rewrite radial_px, Z, Rabs_R0, Rmult_0_r in Nl. apply Rabs_le_inv in Nl. apply u0. lra.
    - unfold ver_sample, triple. cbn [fst snd]. now rewrite <- (Bl p Hp). }
  split; [|split].
  - rewrite !map_app, A1, map_map. f_equal. 
  - rewrite usable_app, A2. f_equal. unfold usable. apply filter_id. intros s Hs. apply in_map_iff in Hs. destruct Hs as [p [<- Hp]].
    destruct (S p Hp) as [Z ->]. cbn [snd]. rewrite Req_bool_false; [reflexivity|]. intros Q. apply u0.
    apply (Rmult_eq_compat_r (pxc p - xc)) in Q. unfold Rdiv in Q. rewrite Rmult_assoc, Rinv_l, Rmult_1_r, Rmult_0_l in Q; assumption.
  - intros s Hs. apply in_app_iff in Hs. destruct Hs as [Hs|Hs]; [|now apply A3]. apply in_map_iff in Hs. destruct Hs as [p [<- Hp]].
    destruct (S p Hp) as [Z ->]. cbn [fst snd]. specialize (Nl p Hp). rewrite radial_px in Nl.
    set (y := pxc p - xc) in *. set (q := poly P (dist p (yc, xc))) in *. replace (xc + q * y - (xc + u)) with ((q - u / y) * y) in Nl by (field; assumption).
    rewrite Rabs_mult in Nl. apply Rmult_le_reg_r with (Rabs y); [now apply Rabs_pos_lt|exact Nl].
Qed.
(** Lines measured as parabolas symmetric about the centre which P nearly
    straightens: the calibrated coefficients F are as near to P, in the root
    mean square over the dots and, up to the amplification, at every distance
    from the centre. *)
Theorem C120_near : forall st polyfit minimize lstsq cs ds lh lv xc yc num_fact opt thr w uh uv P e,
  polyfit_oracle polyfit -> lstsq_oracle lstsq -> (num_fact <= 32767)%Z -> let n := Z.to_nat (Z.max 1 num_fact) in
  let dots := concat lh ++ concat lv in let r p := dist p (yc, xc) in
  Forall2 (bent_hor xc yc) cs lh -> Forall2 (bent_ver xc yc) ds lv ->
  st 0 = 0 -> (forall c, In c (cs ++ ds) -> st (fst c) = fst c /\ st (snd c) = snd c) ->
  @calc_undistor_intercept R (Rst st) polyfit minimize lh lv xc yc opt thr = Ok (w, (uh, uv)) ->
  (forall u, In u (uh ++ uv) -> u <> 0) -> dots <> [] ->
  length P = n -> near_hor e P xc yc uh lh -> near_ver e P xc yc uv lv ->
  exists F, @calc_coef_forward R (Rst st) polyfit minimize lstsq lh lv xc yc num_fact opt thr = Ok F /\ length F = n /\
    sqrt (Rsum (map (fun p => (poly F (r p) - poly P (r p)) ^ 2) dots) / INR (length dots)) <= e /\
    forall nodes x, NoDup nodes -> length nodes = n -> (forall d, In d nodes -> In d (map r dots)) ->
      Rabs (poly F x - poly P x) <= e * sqrt (INR (length dots)) * amplification nodes x.
Proof.
  intros st polyfit minimize lstsq cs ds lh lv xc yc num_fact opt thr w uh uv P e PF LS NF n dots r Bh Bv Z0 ST E U D0 LP Nh Nv.
  pose proof (para_hor_exact st polyfit PF xc yc _ _ (bent_on_hor xc yc cs lh Bh)) as Eh.
  pose proof (para_ver_exact st polyfit PF xc yc _ _ (bent_on_ver xc yc ds lv Bv)) as Ev.
  rewrite (stored st) in Eh by (try assumption; intros c Hc; apply ST, in_app_iff; now left).
  rewrite (stored st) in Ev by (try assumption; intros c Hc; apply ST, in_app_iff; now right).
  pose proof (forward_call st polyfit minimize lstsq lh lv xc yc num_fact opt thr NF w uh uv _ _ _ _ E Eh Ev) as FC. fold n in FC.
  destruct (near_hor_samples e P xc yc cs uh lh Bh Nh ltac:(intros u Hu; apply U, in_app_iff; now left)) as [A1 [A2 A3]].
  destruct (near_ver_samples e P xc yc ds uv lv Bv Nv ltac:(intros u Hu; apply U, in_app_iff; now right)) as [B1 [B2 B3]].
  unfold fwd_samples in FC. rewrite usable_app, A2, B2 in FC.
  set (l := line_samples (hor_sample xc yc) (map triple cs) uh lh ++ line_samples (ver_sample xc yc) (map triple ds) uv lv) in *.
  assert (Lf : map fst l = map r dots) by (unfold l, dots; rewrite !map_app, A1, B1; reflexivity).
  assert (Ln : length l = length dots) by (rewrite <- (map_length fst l), Lf; apply map_length).
  assert (l0 : l <> []) by (intros Q; apply D0; apply length_zero_iff_nil; rewrite <- Ln, Q; reflexivity).
  destruct (solve_total st lstsq LS n l l0) as [F EF]. pose proof (solve_best st lstsq LS n l F EF) as B.
  exists F. split; [exact (eq_trans FC EF)|]. split; [apply B|].
  pose proof (best_pythagoras n l F P B LP) as PY.
  assert (HS : forall s, In s l -> Rabs (poly P (fst s) - snd s) <= e) by (intros s Hs; apply in_app_iff in Hs; destruct Hs; auto).
  split.
  - assert (G : Rsum (map (fun p => (poly F (r p) - poly P (r p)) ^ 2) dots) = model_gap F P l).
    { unfold model_gap. rewrite <- (map_map fst (fun t => (poly F t - poly P t) ^ 2)), Lf, map_map. reflexivity. }
    rewrite G, <- Ln. now apply C120_rms.
  - intros nodes x N1 N2 N3. rewrite <- Ln. apply C120_everywhere; try assumption; [rewrite LP; symmetry; apply B|rewrite N2; symmetry; apply B|].
    intros d Hd. rewrite Lf. now apply N3.
Qed.
Print Assumptions C120_near.
(** The bent grid of C97, whose dots ask for factors between 3/4 and 1, fitted
    by two coefficients: the identity deviates by a quarter at most. *)
Example C120_case : exists F, @calc_coef_forward R Rexact pf_R min_R ls_R ex_hor ex_ver 0 0 2 false (1/10) = Ok F /\ length F = 2%nat /\
  (let r p := dist p (0, 0) in let dots := concat ex_hor ++ concat ex_ver in
   sqrt (Rsum (map (fun p => (poly F (r p) - 1) ^ 2) dots) / 24) <= 1 / 4) /\
  Rabs (poly F 2 - 1) <= 1 / 4 * sqrt 24.
Proof.
  destruct ex_bent as [Bh Bv]. assert (P1 : forall x, poly [1; 0] x = 1) by (intros x; cbn; ring).
  assert (NH : near_hor (1 / 4) [1; 0] 0 0 [-3; -1; 1; 3] ex_hor).
  { unfold near_hor, ex_hor, ex_cs. cbn [map fst snd]. repeat (apply Forall2_cons || apply Forall2_nil); ex_dots; rewrite radial_py, P1; unfold py; cbn [fst];
      unfold Rabs; repeat destruct Rcase_abs; lra. }
  assert (NV : near_ver (1 / 4) [1; 0] 0 0 [-3; -1; 1; 3] ex_ver).
  { unfold near_ver, ex_ver, ex_hor, ex_cs. cbn [map fst snd]. repeat (apply Forall2_cons || apply Forall2_nil); ex_dots; rewrite radial_px, P1; unfold pxc; cbn [snd];
      unfold Rabs; repeat destruct Rcase_abs; lra. }
  destruct (C120_near (fun x => x) pf_R min_R ls_R ex_cs ex_cs ex_hor ex_ver 0 0 2 false (1/10) false [-3; -1; 1; 3] [-3; -1; 1; 3] [1; 0] (1/4)
    pf_R_ok ls_R_ok ltac:(lia) Bh Bv eq_refl ltac:(auto) (ex_positions false)) as [F [E [LF [G W]]]]; try assumption.
  - intros u Hu. cbn [In app] in Hu. intuition lra.
  - discriminate.
  - reflexivity.
  - assert (L24 : INR (length (concat ex_hor ++ concat ex_ver)) = 24) by (cbn; lra). rewrite L24 in *.
    exists F. split; [exact E|]. split; [exact LF|]. split.
    + cbv zeta. rewrite <- (map_ext (fun p => (poly F (dist p (0, 0)) - poly [1; 0] (dist p (0, 0))) ^ 2)); [exact G|]. intros p. now rewrite P1.
    + specialize (W [1; 3] 2). rewrite P1 in W.
      assert (A1 : amplification [1; 3] 2 = 1).
      { unfold amplification, others. cbn [map remove]. destruct (Req_EM_T 1 1); [|lra]. destruct (Req_EM_T 1 3); [lra|]. destruct (Req_EM_T 3 1); [lra|]. destruct (Req_EM_T 3 3); [|lra].
        cbn [map Rprod fold_right Rsum]. replace (Rabs (2 - 3)) with 1 by (unfold Rabs; destruct Rcase_abs; lra). replace (Rabs (1 - 3)) with 2 by (unfold Rabs; destruct Rcase_abs; lra).
        replace (Rabs (2 - 1)) with 1 by (unfold Rabs; destruct Rcase_abs; lra). replace (Rabs (3 - 1)) with 2 by (unfold Rabs; destruct Rcase_abs; lra). lra. }
      rewrite A1, Rmult_1_r in W. apply W; [repeat constructor; cbn; intuition lra|reflexivity|].
      intros d Hd. apply in_map_iff. unfold ex_ver, ex_hor, ex_cs. cbn [map concat app fst snd]. cbn [In] in Hd. destruct Hd as [<-|[<-|[]]].
      * eexists. split; [|right; right; right; right; left; reflexivity]. apply ex_dist; lra.
      * eexists. split; [|right; left; reflexivity]. apply ex_dist; lra.
Qed.
