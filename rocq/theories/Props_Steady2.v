(** C137: small measuring errors change the calibrated model and the corrected
    positions only a little. *)
From Coq Require Import Reals ZArith List Lia Lra Permutation.
From Flocq Require Import Core.
From Verif Require Import Base Num NumFacts Spec Lsq PolyUniq LsqEx Post Proc ProcSpec ProcFacts ProcFacts2 ProcFacts3 ProcFacts4 ProcFacts5 PostLines PostLines2
  CalibSpec CalibFacts Props_Proc Props_Calib Props_CalibErr Props_Calib2 Props_DotOrder Props_Centres Props_Centred Props_Steady Props_Model.
Import ListNotations.
Local Open Scope R_scope.

(** *** Coefficients from values at separate places *)
Definition norm1 (v : list R) : R := Rsum (map Rabs v).
Lemma norm1_pos v : 0 <= norm1 v.
Proof. apply Rsum_nonneg. intros x Hx. apply in_map_iff in Hx. destruct Hx as [a [<- _]]. apply Rabs_pos. Qed.
Lemma norm1_app u v : norm1 (u ++ v) = norm1 u + norm1 v.
Proof. unfold norm1. rewrite map_app. induction (map Rabs u) as [|a l IH]; cbn [app Rsum]; [ring|]. rewrite IH. ring. Qed.
Lemma norm1_rev v : norm1 (rev v) = norm1 v.
Proof. induction v as [|a v IH]; [reflexivity|]. cbn [rev]. rewrite norm1_app, IH. unfold norm1. cbn [map Rsum]. ring. Qed.
Lemma synth_norm r v : forall acc, norm1 v <= norm1 (synth r acc v) + Rabs r * norm1 (removelast (acc :: synth r acc v)).
Proof.
  induction v as [|a v IH]; intros acc; [cbn; rewrite Rmult_0_r; lra|].
  set (b := acc * r + a). change (synth r acc (a :: v)) with (b :: synth r b v). change (removelast (acc :: b :: synth r b v)) with (acc :: removelast (b :: synth r b v)).
  specialize (IH b). unfold norm1 in *. cbn [map Rsum] in *. assert (Rabs a <= Rabs b + Rabs r * Rabs acc).
  { replace a with (b + - (r * acc)) by (unfold b; ring). eapply Rle_trans; [apply Rabs_triang|]. rewrite Rabs_Ropp, Rabs_mult. unfold b. lra. }
  lra.
Qed.
Definition separate (g T : R) (ts : list R) : Prop := ForallOrdPairs (fun a b => g <= Rabs (a - b)) ts /\ Forall (fun t => Rabs t <= T) ts.
Lemma evh_norm g T n : 0 < g -> 0 <= T -> exists M, 0 <= M /\ forall v ts, length v = n -> length ts = n -> separate g T ts -> norm1 v <= M * Rsum (map (fun t => Rabs (evh v t)) ts).
Proof.
  intros Hg HT. induction n as [|n [M [HM IH]]].
  - exists 0. split; [lra|]. intros [|a v] ts L1 L2 _; [|discriminate L1]. cbn. lra.
  - set (N := M * (2 + INR n) / g). assert (HN : 0 <= N) by (unfold N; apply Rmult_le_pos; [apply Rmult_le_pos; [exact HM|]|apply Rlt_le, Rinv_0_lt_compat, Hg]; pose proof (pos_INR n); lra).
    exists ((1 + T) * (1 + N)). split; [apply Rmult_le_pos; lra|]. intros [|a v] [|r ts] L1 L2 [S B]; try discriminate. cbn [length] in L1, L2.
    inversion S as [|? ? S1 S2]; subst. inversion B as [|? ? B1 B2]; subst.
    set (q := removelast (a :: synth r a v)). set (l := last (a :: synth r a v) 0).
    assert (Lq : length q = n) by (unfold q; rewrite removelast_length, synth_length; lia).
    assert (El : l = evh (a :: v) r) by (pose proof (synth_eval r r v a) as E; fold l in E; rewrite E; ring).
    assert (Nv : norm1 (a :: v) <= (1 + T) * (norm1 q + Rabs l)).
    { assert (Es : norm1 (a :: synth r a v) = norm1 q + Rabs l).
      { unfold q, l. rewrite (app_removelast_last (l := a :: synth r a v) 0) at 1 by discriminate. rewrite norm1_app. unfold norm1 at 2. cbn [map Rsum]. ring. }
      pose proof (synth_norm r v a) as Q. fold q in Q. change (norm1 (a :: v)) with (Rabs a + norm1 v). change (norm1 (a :: synth r a v)) with (Rabs a + norm1 (synth r a v)) in Es.
      pose proof (norm1_pos q). pose proof (Rabs_pos l). assert (Rabs r * norm1 q <= T * norm1 q) by (apply Rmult_le_compat_r; assumption). assert (0 <= T * Rabs l) by (now apply Rmult_le_pos). lra. }
    specialize (IH q ts Lq ltac:(lia) (conj S2 B2)).
    assert (V : Rsum (map (fun t => Rabs (evh q t)) ts) <= / g * (Rsum (map (fun t => Rabs (evh (a :: v) t)) ts) + INR (length ts) * Rabs l)).
    { clear -Hg S1. induction ts as [|t ts IH]; [cbn [map Rsum length]; change (INR 0) with 0; lra|]. inversion S1 as [|? ? G S1']; subst. specialize (IH S1'). cbn [map Rsum]. change (length (t :: ts)) with (S (length ts)). rewrite S_INR.
      assert (Rabs (evh q t) <= / g * (Rabs (evh (a :: v) t) + Rabs l)).
      { pose proof (synth_eval r t v a) as E. fold q in E. fold l in E.
        apply (Rmult_le_reg_l g); [exact Hg|]. rewrite <- Rmult_assoc, Rinv_r, Rmult_1_l by lra.
        apply Rle_trans with (Rabs (t - r) * Rabs (evh q t)); [apply Rmult_le_compat_r; [apply Rabs_pos|rewrite Rabs_minus_sym; exact G]|].
        rewrite <- Rabs_mult. replace ((t - r) * evh q t) with (evh (a :: v) t + - l) by (rewrite E; ring). eapply Rle_trans; [apply Rabs_triang|]. rewrite Rabs_Ropp. lra. }
      lra. }
    assert (Ln : length ts = n) by lia. rewrite Ln in V.
    cbn [map Rsum]. rewrite <- El. set (W := Rsum (map (fun t => Rabs (evh (a :: v) t)) ts)) in *. assert (HW : 0 <= W) by (apply Rsum_nonneg; intros x Hx; apply in_map_iff in Hx; destruct Hx as [t [<- _]]; apply Rabs_pos).
    pose proof (Rabs_pos l) as Pl. pose proof (pos_INR n) as Pn. assert (Hi : 0 < / g) by (now apply Rinv_0_lt_compat).
    assert (Q : norm1 q <= N * (Rabs l + W)).
    { eapply Rle_trans; [exact IH|]. apply Rle_trans with (M * (/ g * (W + INR n * Rabs l))); [now apply Rmult_le_compat_l|].
      replace (N * (Rabs l + W)) with (M * (/ g * ((2 + INR n) * (Rabs l + W)))) by (unfold N; field; lra). apply Rmult_le_compat_l; [exact HM|]. apply Rmult_le_compat_l; [lra|].
      assert (0 <= INR n * W) by (now apply Rmult_le_pos). lra. }
    eapply Rle_trans; [exact Nv|]. rewrite Rmult_assoc. apply Rmult_le_compat_l; lra.
Qed.

(** *** Best polynomials of nearby samples *)
Lemma fit_normal n l F P : best_poly n l F -> length P = n -> Rsum (map (fun s => (poly F (fst s) - snd s) * (poly P (fst s) - poly F (fst s))) l) = 0.
Proof.
  intros B LP. pose proof (best_pythagoras n l F P B LP) as Q. destruct B as [LF _]. pose proof (fit_error_line F P l 1 ltac:(congruence)) as E.
  assert (V : fit_error (vlin (1 - 1) F 1 P) l = fit_error P l) by (unfold fit_error; f_equal; apply map_ext; intros s; rewrite poly_vlin by congruence; f_equal; ring).
  rewrite V in E. lra.
Qed.
Lemma moment_bound (D : list R) l (w : R * R -> R) eta : (forall j, (j < length D)%nat -> Rabs (Rsum (map (fun s => w s * fst s ^ j) l)) <= eta) ->
  Rabs (Rsum (map (fun s => w s * poly D (fst s)) l)) <= norm1 D * eta.
Proof.
  revert w. induction D as [|a D IH]; intros w H.
  - replace (Rsum _) with 0; [rewrite Rabs_R0; cbn; lra|]. clear. induction l as [|s l IH]; [reflexivity|]. cbn [map Rsum poly] in *. rewrite <- IH. ring.
  - replace (Rsum (map (fun s => w s * poly (a :: D) (fst s)) l)) with (a * Rsum (map (fun s => w s * fst s ^ 0) l) + Rsum (map (fun s => (w s * fst s) * poly D (fst s)) l)).
    + eapply Rle_trans; [apply Rabs_triang|]. unfold norm1. cbn [map Rsum]. fold (norm1 D). rewrite Rmult_plus_distr_r. apply Rplus_le_compat.
      * rewrite Rabs_mult. apply Rmult_le_compat_l; [apply Rabs_pos|]. apply (H 0%nat). cbn. lia.
      * apply (IH (fun s => w s * fst s)). intros j Hj. specialize (H (S j) ltac:(cbn; lia)). erewrite map_ext; [exact H|]. intros s. cbn [pow]. ring.
    + clear. induction l as [|s l IH]; cbn [map Rsum poly] in *; [ring|]. rewrite <- IH. cbn [pow]. ring.
Qed.
Lemma fit_close n l F0 F ts g T M eta : best_poly n l F -> length F0 = n -> length ts = n -> incl ts (map fst l) -> separate g T ts ->
  0 <= M -> (forall v ts, length v = n -> length ts = n -> separate g T ts -> norm1 v <= M * Rsum (map (fun t => Rabs (evh v t)) ts)) ->
  0 <= eta -> (forall j, (j < n)%nat -> Rabs (Rsum (map (fun s => (snd s - poly F0 (fst s)) * fst s ^ j) l)) <= eta) ->
  norm1 (vlin 1 F (-1) F0) <= (M * INR n) ^ 2 * eta.
Proof.
  intros B L0 Lt I Sp HM HN He Hm. set (D := vlin 1 F (-1) F0).
  assert (LD : length D = n) by (unfold D; apply vlin_length; [apply B|exact L0]).
  assert (PD : forall x, poly D x = poly F x - poly F0 x) by (intros x; unfold D; rewrite poly_vlin by (destruct B; congruence); ring).
  pose proof (fit_normal n l F F0 B L0) as Z.
  set (S := Rsum (map (fun s => poly D (fst s) ^ 2) l)).
  assert (ES : S = Rsum (map (fun s => (snd s - poly F0 (fst s)) * poly D (fst s)) l)).
  { assert (Q : S + Rsum (map (fun s => (poly F (fst s) - snd s) * (poly F0 (fst s) - poly F (fst s))) l) = Rsum (map (fun s => (snd s - poly F0 (fst s)) * poly D (fst s)) l)).
    { unfold S. clear -PD. induction l as [|s l IH]; cbn [map Rsum]; [ring|]. rewrite <- IH, !PD. ring. }
    rewrite <- Q, Z. ring. }
  assert (US : S <= norm1 D * eta).
  { rewrite ES. eapply Rle_trans; [apply Rle_abs|]. apply moment_bound. rewrite LD. exact Hm. }
  assert (S0 : 0 <= S) by (apply Rsum_nonneg; intros x Hx; apply in_map_iff in Hx; destruct Hx as [s [<- _]]; apply pow2_ge_0).
  assert (Each : forall t, In t ts -> Rabs (poly D t) <= sqrt S).
  { intros t Ht. apply I in Ht. apply in_map_iff in Ht. destruct Ht as [s [<- Hs]]. rewrite <- sqrt_Rsqr_abs. apply sqrt_le_1_alt. unfold S, Rsqr. clear -Hs. induction l as [|a l IH]; [destruct Hs|]. cbn [map Rsum].
    assert (R0 : 0 <= Rsum (map (fun s => poly D (fst s) ^ 2) l)) by (apply Rsum_nonneg; intros x Hx; apply in_map_iff in Hx; destruct Hx as [q [<- _]]; apply pow2_ge_0).
    destruct Hs as [->|Hs]; [lra|]. specialize (IH Hs). pose proof (pow2_ge_0 (poly D (fst a))). lra. }
  assert (U : norm1 D <= M * (INR n * sqrt S)).
  { rewrite <- (norm1_rev D). eapply Rle_trans; [apply (HN (rev D) ts); [now rewrite rev_length|exact Lt|exact Sp]|]. apply Rmult_le_compat_l; [exact HM|].
    rewrite <- Lt. clear -Each. induction ts as [|t ts IH]; [cbn; lra|]. cbn [map Rsum]. change (length (t :: ts)) with (Datatypes.S (length ts)). rewrite S_INR, evh_rev.
    specialize (IH ltac:(intros; apply Each; now right)). specialize (Each t ltac:(now left)). lra. }
  pose proof (norm1_pos D) as N0. pose proof (pos_INR n) as Pn.
  assert (Q : norm1 D * norm1 D <= (M * INR n) ^ 2 * (norm1 D * eta)).
  { apply Rle_trans with ((M * (INR n * sqrt S)) * (M * (INR n * sqrt S))); [now apply Rmult_le_compat|].
    replace (M * (INR n * sqrt S) * (M * (INR n * sqrt S))) with ((M * INR n) ^ 2 * (sqrt S * sqrt S)) by ring. rewrite sqrt_sqrt by exact S0. apply Rmult_le_compat_l; [apply pow2_ge_0|exact US]. }
  destruct (Req_dec (norm1 D) 0) as [E|N]; [rewrite E; apply Rmult_le_pos; [apply pow2_ge_0|exact He]|].
  apply (Rmult_le_reg_l (norm1 D)); [lra|]. eapply Rle_trans; [exact Q|]. apply Req_le. ring.
Qed.
Lemma norm1_close F F0 e : length F = length F0 -> norm1 (vlin 1 F (-1) F0) <= e -> Forall2 (fun a b => Rabs (b - a) <= e) F0 F.
Proof.
  revert F0. induction F as [|a F IH]; intros [|b F0] L H; try discriminate; [constructor|]. unfold norm1 in H. cbn [vlin map Rsum] in H. fold (norm1 (vlin 1 F (-1) F0)) in H.
  pose proof (norm1_pos (vlin 1 F (-1) F0)). pose proof (Rabs_pos (1 * a + -1 * b)). constructor; [replace (a - b) with (1 * a + -1 * b) by ring; lra|]. apply IH; [cbn in L; lia|lra].
Qed.
Lemma poly_unit j : forall n x, (j < n)%nat -> poly (repeat 0 j ++ 1 :: repeat 0 (n - 1 - j)) x = x ^ j.
Proof.
  assert (Z : forall k x, poly (repeat 0 k) x = 0) by (induction k as [|k IH]; intros x; cbn [repeat poly]; [reflexivity|rewrite IH; ring]).
  induction j as [|j IH]; intros n x H; [cbn [repeat app poly pow]; rewrite Z; ring|]. cbn [repeat app poly pow]. destruct n as [|n]; [lia|]. replace (S n - 1 - S j)%nat with (n - 1 - j)%nat by lia. rewrite IH by lia. ring.
Qed.
Lemma fit_moments n l F j : best_poly n l F -> (j < n)%nat -> Rsum (map (fun s => (snd s - poly F (fst s)) * fst s ^ j) l) = 0.
Proof.
  intros B Hj. set (E := repeat 0 j ++ 1 :: repeat 0 (n - 1 - j)). assert (LE : length E = n) by (unfold E; rewrite app_length; cbn [length]; rewrite !repeat_length; lia).
  assert (LF : length F = n) by apply B.
  pose proof (fit_normal n l F (vlin 1 F 1 E) B ltac:(now apply vlin_length)) as Z.
  assert (Q : forall l, Rsum (map (fun s => (snd s - poly F (fst s)) * fst s ^ j) l) = - Rsum (map (fun s => (poly F (fst s) - snd s) * (poly (vlin 1 F 1 E) (fst s) - poly F (fst s))) l)).
  { clear -LE LF Hj. induction l as [|s l IH]; cbn [map Rsum]; [ring|]. rewrite IH, poly_vlin by congruence. replace (poly E (fst s)) with (fst s ^ j) by (symmetry; now apply poly_unit). ring. }
  rewrite Q, Z. ring.
Qed.

(** *** Best polynomials of samples that depend continuously on the dots *)
Lemma nodup_left {A} (l m : list A) : NoDup (l ++ m) -> NoDup l.
Proof. induction l as [|a l IH]; intros N; [constructor|]. inversion N as [|? ? N1 N2]; subst. constructor; [intros I; apply N1, in_app_iff; now left|now apply IH]. Qed.
Section Cont.
  Context {X : Type}.
  Variable X0 : X.
  Variable ev : (X -> Prop) -> Prop.
  Hypothesis ev_true : ev (fun _ => True).
  Hypothesis ev_and : forall P Q, ev P -> ev Q -> ev (fun x => P x /\ Q x).
  Hypothesis ev_imp : forall P Q : X -> Prop, (forall x, P x -> Q x) -> ev P -> ev Q.
  Hypothesis ev_base : forall P, ev P -> P X0.
  Notation ct := (cts X0 ev).
  Definition at_ (x : X) (fs : list (X -> R)) : list R := map (fun f => f x) fs.
  Definition at2 (x : X) (rs : list ((X -> R) * (X -> R))) : list (R * R) := map (fun f => (fst f x, snd f x)) rs.

  Lemma ev_list {A} (P : A -> X -> Prop) (l : list A) : (forall i, In i l -> ev (P i)) -> ev (fun x => forall i, In i l -> P i x).
  Proof.
    induction l as [|a l IH]; intros H; [apply (ev_imp (fun _ => True)); [intros x _ i []|exact ev_true]|].
    apply (ev_imp (fun x => P a x /\ forall i, In i l -> P i x)); [intros x [A1 B] i [<-|I]; [exact A1|now apply B]|].
    apply ev_and; [apply H; now left|apply IH; intros i I; apply H; now right].
  Qed.
  Lemma cts_suml {A} (F : A -> X -> R) l : (forall i, In i l -> ct (F i)) -> ct (fun x => Rsum (map (fun i => F i x) l)).
  Proof.
    induction l as [|a l IH]; intros H; cbn [map Rsum]; [apply (cts_const X0 ev ev_true ev_imp)|].
    apply (cts_add X0 ev ev_and ev_imp (F a)); [apply H; now left|apply IH; intros i I; apply H; now right].
  Qed.
  Lemma cts_poly F f : ct f -> ct (fun x => poly F (f x)).
  Proof.
    intros H. induction F as [|a F IH]; cbn [poly]; [apply (cts_const X0 ev ev_true ev_imp)|].
    apply (cts_add X0 ev ev_and ev_imp (fun _ => a)); [apply (cts_const X0 ev ev_true ev_imp)|now apply (cts_mul X0 ev ev_and ev_imp)].
  Qed.
  Lemma cts_abs f : ct f -> ct (fun x => Rabs (f x)).
  Proof. intros H. apply (cts_comp X0 ev ev_imp Rabs); [apply Rcontinuity_abs|exact H]. Qed.
  Lemma cts_sqrt f : ct f -> 0 <= f X0 -> ct (fun x => sqrt (f x)).
  Proof. intros H P. apply (cts_comp X0 ev ev_imp sqrt); [now apply continuity_pt_sqrt|exact H]. Qed.

  Lemma ev_apart f fs : ct f -> (forall h, In h fs -> ct h) -> ~ In (f X0) (at_ X0 fs) -> exists g, 0 < g /\ ev (fun x => Forall (fun t => g <= Rabs (f x - t)) (at_ x fs)).
  Proof.
    intros Hf. induction fs as [|h fs IH]; intros H N.
    - exists 1. split; [lra|]. apply (ev_imp (fun _ => True)); [|exact ev_true]. intros x _. constructor.
    - destruct IH as [g [Hg E]]; [intros; apply H; now right|intros I; apply N; now right|].
      assert (G1 : 0 < Rabs (f X0 - h X0)) by (apply Rabs_pos_lt; intros Z; apply N; left; cbv beta; lra).
      exists (Rmin g (Rabs (f X0 - h X0) / 2)). split; [apply Rmin_glb_lt; lra|].
      assert (E1 : ev (fun x => Rabs (f X0 - h X0) / 2 < Rabs (f x - h x))).
      { apply (cts_near X0 ev ev_imp (fun x => Rabs (f x - h x))); [|lra]. apply (cts_abs (fun x => f x - h x)). apply (cts_sub X0 ev ev_and ev_imp); [exact Hf|apply H; now left]. }
      eapply ev_imp; [|exact (ev_and _ _ E E1)]. intros x [A B]. unfold at_. cbn [map]. constructor.
      + eapply Rle_trans; [apply Rmin_r|lra].
      + eapply Forall_impl; [|exact A]. intros t Ht. cbv beta in Ht. eapply Rle_trans; [apply Rmin_l|exact Ht].
  Qed.
  Lemma ev_separate fs : (forall h, In h fs -> ct h) -> NoDup (at_ X0 fs) -> exists g T, 0 < g /\ 0 <= T /\ ev (fun x => separate g T (at_ x fs)).
  Proof.
    induction fs as [|f fs IH]; intros H N.
    - exists 1, 0. split; [lra|]. split; [lra|]. apply (ev_imp (fun _ => True)); [|exact ev_true]. intros x _. split; constructor.
    - inversion N as [|? ? N1 N2]; subst. destruct IH as [g [T (Hg & HT & E)]]; [intros; apply H; now right|exact N2|].
      assert (Hf : ct f) by (apply H; now left).
      destruct (ev_apart f fs Hf (fun h I => H h (or_intror I)) N1) as [g' [Hg' E']].
      exists (Rmin g g'), (Rmax T (Rabs (f X0) + 1)). split; [now apply Rmin_glb_lt|]. split; [eapply Rle_trans; [exact HT|apply Rmax_l]|].
      eapply ev_imp; [|exact (ev_and _ _ (ev_and _ _ E E') (Hf 1 Rlt_0_1))]. intros x [[[S B] A] C]. unfold at_. cbn [map]. split; constructor.
      + eapply Forall_impl; [|exact A]. intros t Ht. cbv beta in Ht. eapply Rle_trans; [apply Rmin_r|exact Ht].
      + clear -S. unfold at_ in S. induction S as [|a l F S IH]; constructor; [|exact IH]. eapply Forall_impl; [|exact F]. intros t Ht. cbv beta in Ht. eapply Rle_trans; [apply Rmin_l|exact Ht].
      + eapply Rle_trans; [|apply Rmax_r]. replace (f x) with (f X0 + (f x - f X0)) by ring. eapply Rle_trans; [apply Rabs_triang|]. lra.
      + eapply Forall_impl; [|exact B]. intros t Ht. cbv beta in Ht. eapply Rle_trans; [exact Ht|apply Rmax_l].
  Qed.
  Lemma choose_funs (L : list (X -> R)) d : incl d (at_ X0 L) -> exists fs, incl fs L /\ at_ X0 fs = d.
  Proof.
    induction d as [|a d IH]; intros I; [exists []; split; [intros ? []|reflexivity]|].
    destruct IH as [fs [A B]]; [intros t Ht; apply I; now right|]. specialize (I a ltac:(now left)). unfold at_ in I. apply in_map_iff in I. destruct I as [f [E Hf]].
    exists (f :: fs). split; [intros h [<-|Hh]; [exact Hf|now apply A]|]. unfold at_ in *. cbn [map]. now rewrite E, B.
  Qed.
  Lemma fit_near n rs F0 : (forall f, In f rs -> ct (fst f) /\ ct (snd f)) -> distinct_values n (map fst (at2 X0 rs)) -> best_poly n (at2 X0 rs) F0 ->
    forall e, 0 < e -> ev (fun x => forall F, best_poly n (at2 x rs) F -> Forall2 (fun a b => Rabs (b - a) <= e) F0 F).
  Proof.
    intros C [d (N & I & Ld)] B e He.
    assert (N' : NoDup (firstn n d)) by (rewrite <- (firstn_skipn n d) in N; exact (nodup_left _ _ N)).
    destruct (choose_funs (map fst rs) (firstn n d)) as [fs [If Ef]].
    { intros t Ht. unfold at_. rewrite map_map. assert (Q : In t d) by (rewrite <- (firstn_skipn n d); apply in_app_iff; now left). apply I in Q. unfold at2 in Q. rewrite map_map in Q. exact Q. }
    assert (Lf : length fs = n) by (apply (f_equal (@length R)) in Ef; unfold at_ in Ef; rewrite map_length, firstn_length in Ef; lia).
    destruct (ev_separate fs) as [g [T (Hg & HT & S)]].
    { intros h Hh. apply If, in_map_iff in Hh. destruct Hh as [f [<- Hf]]. now apply C. }
    { now rewrite Ef. }
    destruct (evh_norm g T n Hg HT) as [M [HM EN]].
    set (K := (M * INR n) ^ 2 + 1). assert (HK : 1 <= K) by (unfold K; pose proof (pow2_ge_0 (M * INR n)); lra).
    assert (Mo : ev (fun x => forall j, In j (seq 0 n) -> Rabs (Rsum (map (fun s => (snd s - poly F0 (fst s)) * fst s ^ j) (at2 x rs))) <= e / K)).
    { apply ev_list. intros j Hj. apply in_seq in Hj.
      assert (Cm : ct (fun x => Rsum (map (fun s => (snd s - poly F0 (fst s)) * fst s ^ j) (at2 x rs)))).
      { apply (cts_ext X0 ev ev_imp (fun x => Rsum (map (fun f => (snd f x - poly F0 (fst f x)) * fst f x ^ j) rs))); [intros x; unfold at2; now rewrite map_map|].
        apply (cts_suml (fun f x => (snd f x - poly F0 (fst f x)) * fst f x ^ j)). intros f Hf. destruct (C f Hf) as [C1 C2].
        apply (cts_mul X0 ev ev_and ev_imp (fun x => snd f x - poly F0 (fst f x))); [apply (cts_sub X0 ev ev_and ev_imp); [exact C2|now apply cts_poly]|now apply (cts_pow X0 ev ev_imp)]. }
      eapply ev_imp; [|apply (Cm (e / K)); apply Rdiv_lt_0_compat; lra]. intros x Q. cbv beta in Q. rewrite (fit_moments n (at2 X0 rs) F0 j B ltac:(lia)) in Q. now rewrite Rminus_0_r in Q. }
    eapply ev_imp; [|exact (ev_and _ _ S Mo)]. intros x [Sx Mx] F BF. apply norm1_close; [destruct BF, B; congruence|].
    eapply Rle_trans; [apply (fit_close n (at2 x rs) F0 F (at_ x fs) g T M (e / K))|]; try assumption.
    - apply B.
    - unfold at_. now rewrite map_length.
    - intros t Ht. unfold at_ in Ht. apply in_map_iff in Ht. destruct Ht as [f [<- Hf]]. apply If, in_map_iff in Hf. destruct Hf as [r [<- Hr]].
      unfold at2. rewrite map_map. apply in_map_iff. exists r. now split.
    - apply Rlt_le, Rdiv_lt_0_compat; lra.
    - intros j Hj. apply Mx, in_seq. lia.
    - replace ((M * INR n) ^ 2 * (e / K)) with (e - e / K) by (unfold K; field; fold K; lra). assert (0 < e / K) by (apply Rdiv_lt_0_compat; lra). lra.
  Qed.

  (** *** The undistorted positions of the lines of one direction *)
  Variables (V : nat -> X -> R) (c : nat).
  Hypothesis CV : forall k, (k < c)%nat -> ct (V k).
  Lemma gaps_funs fs : (forall h, In h fs -> ct h) -> exists hs, (forall h, In h hs -> ct h) /\ forall x, gaps (at_ x fs) = at_ x hs.
  Proof.
    induction fs as [|f [|h fs] IH]; intros H; [exists []; split; [intros ? []|reflexivity]|exists []; split; [intros ? []|reflexivity]|].
    destruct IH as [hs [A B]]; [intros; apply H; now right|]. exists ((fun x => Rabs (h x - f x)) :: hs). split.
    - intros g [<-|Hg]; [|now apply A]. apply (cts_abs (fun x => h x - f x)). apply (cts_sub X0 ev ev_and ev_imp); apply H; [right|]; now left.
    - intros x. specialize (B x). unfold at_ in *. cbn [map] in *. change (gaps (f x :: h x :: map (fun f => f x) fs)) with (Rabs (h x - f x) :: gaps (h x :: map (fun f => f x) fs)). now rewrite B.
  Qed.
  Lemma ct_average p n : ct (fun x => average (gaps (around p n (map (fun k => V k x) (seq 0 c))))).
  Proof.
    set (fs := around p n (map V (seq 0 c))).
    assert (Hf : forall h, In h fs -> ct h).
    { intros h Hh. assert (Q : In h (map V (seq 0 c))) by (unfold fs, around in Hh; rewrite <- (firstn_skipn (p + n + 1) (map V (seq 0 c))); apply in_app_iff; left; rewrite <- (firstn_skipn (p - n) (firstn (p + n + 1) (map V (seq 0 c)))); apply in_app_iff; now right).
      apply in_map_iff in Q. destruct Q as [k [<- Hk]]. apply in_seq in Hk. apply CV. lia. }
    destruct (gaps_funs fs Hf) as [hs [A B]].
    apply (cts_ext X0 ev ev_imp (fun x => / INR (length hs) * Rsum (map (fun f => f x) hs))).
    - intros x. replace (around p n (map (fun k => V k x) (seq 0 c))) with (at_ x fs).
      + rewrite B. unfold average, at_. rewrite map_length. unfold Rdiv. ring.
      + unfold fs, at_, around. rewrite <- skipn_map, <- firstn_map, map_map. reflexivity.
    - apply (cts_scal X0 ev ev_imp). now apply (cts_suml (fun f x => f x)).
  Qed.
  Variable p : nat.
  Hypothesis Pc : (p < c)%nat.
  Hypothesis C2 : (2 <= c)%nat.
  Hypothesis Pm : forall k, (k < c)%nat -> k <> p -> Rabs (V p X0) < Rabs (V k X0).
  Definition stepk (k : nat) : R := IZR (Z.abs (Z.of_nat k - Z.of_nat p)).
  Definition quA : R := Rsum (map (fun k => (sgn (V k X0) * stepk k) ^ 2) (seq 0 c)).
  Definition quB (x : X) : R := Rsum (map (fun k => 2 * (sgn (V k X0) * stepk k) * (V p x - V k x)) (seq 0 c)).
  Definition quC (x : X) : R := Rsum (map (fun k => (V p x - V k x) ^ 2) (seq 0 c)).
  Lemma step_p : stepk p = 0.
  Proof. unfold stepk. now rewrite Z.sub_diag. Qed.
  Lemma step_n k : k <> p -> 1 <= stepk k.
  Proof. intros N. unfold stepk. apply IZR_le. lia. Qed.
  Lemma quA_pos : 0 < quA.
  Proof.
    assert (exists k, (k < c)%nat /\ k <> p) as [k [Hk Nk]] by (destruct (Nat.eq_dec p 0) as [->|N]; [exists 1%nat|exists 0%nat]; lia).
    assert (T : 1 <= (sgn (V k X0) * stepk k) ^ 2).
    { specialize (Pm k Hk Nk). pose proof (Rabs_pos (V p X0)). assert (V k X0 <> 0) by (intros Z; rewrite Z, Rabs_R0 in Pm; lra). pose proof (step_n k Nk).
      assert (S : sgn (V k X0) = 1 \/ sgn (V k X0) = -1) by (unfold sgn; repeat destruct (Rlt_dec _ _); [now left|now right|lra]). destruct S as [-> | ->]; nra. }
    unfold quA. assert (G : forall l, In k l -> 1 <= Rsum (map (fun k => (sgn (V k X0) * stepk k) ^ 2) l)).
    { induction l as [|a l IH]; intros I; [destruct I|]. cbn [map Rsum].
      assert (P : 0 <= Rsum (map (fun k => (sgn (V k X0) * stepk k) ^ 2) l)) by (apply Rsum_nonneg; intros y Hy; apply in_map_iff in Hy; destruct Hy as [j [<- _]]; apply pow2_ge_0).
      destruct I as [->|I]; [lra|]. specialize (IH I). pose proof (pow2_ge_0 (sgn (V a X0) * stepk a)). lra. }
    specialize (G (seq 0 c) ltac:(apply in_seq; lia)). lra.
  Qed.
  Lemma ct_quB : ct quB.
  Proof.
    unfold quB. apply (cts_suml (fun k x => 2 * (sgn (V k X0) * stepk k) * (V p x - V k x))). intros k Hk. apply in_seq in Hk.
    apply (cts_scal X0 ev ev_imp). apply (cts_sub X0 ev ev_and ev_imp); apply CV; lia.
  Qed.
  Definition gap (opt : bool) (n : nat) (x : X) : R := if opt then - quB x / (2 * quA) else average (gaps (around p n (map (fun k => V k x) (seq 0 c)))).
  Lemma ct_gap opt n : ct (gap opt n).
  Proof.
    unfold gap. destruct opt; [|apply ct_average]. pose proof quA_pos. apply (cts_ext X0 ev ev_imp (fun x => (- / (2 * quA)) * quB x)); [intros; field; lra|]. apply (cts_scal X0 ev ev_imp), ct_quB.
  Qed.
  Definition undist (opt : bool) (n : nat) (k : nat) (x : X) : R := sgn (V k X0) * (stepk k * gap opt n x) + V p x.
  Lemma ct_undist opt n k : ct (undist opt n k).
  Proof.
    unfold undist. apply (cts_add X0 ev ev_and ev_imp (fun x => sgn (V k X0) * (stepk k * gap opt n x))); [|now apply CV]. apply (cts_scal X0 ev ev_imp), (cts_scal X0 ev ev_imp), ct_gap.
  Qed.
  Lemma ev_signs : ev (fun x => (forall k, In k (seq 0 c) -> k <> p -> sgn (V k x) = sgn (V k X0)) /\ forall k, In k (seq 0 c) -> k <> p -> Rabs (V p x) < Rabs (V k x)).
  Proof.
    apply ev_and; apply ev_list; intros k Hk; apply in_seq in Hk; destruct (Nat.eq_dec k p) as [->|N].
    - apply (ev_imp (fun _ => True)); [|exact ev_true]. intros x _ []. reflexivity.
    - assert (V k X0 <> 0) by (intros Z; specialize (Pm k ltac:(lia) N); rewrite Z, Rabs_R0 in Pm; pose proof (Rabs_pos (V p X0)); lra).
      eapply ev_imp; [|apply (cts_sgn X0 ev ev_imp (V k)); [apply CV; lia|assumption]]. intros x [_ Q] _. exact Q.
    - apply (ev_imp (fun _ => True)); [|exact ev_true]. intros x _ []. reflexivity.
    - eapply ev_imp; [|apply (cts_near X0 ev ev_imp (fun x => Rabs (V k x) - Rabs (V p x)) 0)]; [intros x Q _; cbv beta in Q; lra| |specialize (Pm k ltac:(lia) N); lra].
      apply (cts_sub X0 ev ev_and ev_imp (fun x => Rabs (V k x))); apply cts_abs; apply CV; lia.
  Qed.
  Lemma min_unique l i : length l = c -> first_min (map Rabs l) i -> (forall k, (k < c)%nat -> k <> p -> Rabs (nth p l 0) < Rabs (nth k l 0)) -> i = p.
  Proof.
    intros L (A & B & _) H. rewrite map_length in A, B. destruct (Nat.eq_dec i p) as [E|N]; [exact E|]. specialize (H i ltac:(lia) N). specialize (B p ltac:(lia)).
    rewrite <- Rabs_R0 in B. rewrite !map_nth in B. lra.
  Qed.
  Lemma sum_by_index (f : nat -> R -> R) l x : l = map (fun k => V k x) (seq 0 c) -> Rsum (mapi f l) = Rsum (map (fun k => f k (V k x)) (seq 0 c)).
  Proof.
    intros ->. f_equal. unfold mapi. generalize 0%nat as j. generalize c as m. induction m as [|m IH]; intros j; [reflexivity|]. cbn [seq map mapi_from]. now rewrite IH.
  Qed.
  Variable minimize : (R -> R) -> R -> R.
  Hypothesis MO : minimize_oracle minimize.
  Lemma undist_near opt n : ev (fun x => forall cs uc, map snd cs = map (fun k => V k x) (seq 0 c) -> spread_ok (fun x => x) minimize opt n cs uc -> uc = map (fun k => undist opt n k x) (seq 0 c)).
  Proof.
    eapply ev_imp; [|exact ev_signs]. intros x [Sg Mn] cs uc E [pos [d (F & Lu & U & Dn & Dy)]].
    assert (Lc : length cs = c) by (apply (f_equal (@length R)) in E; rewrite !map_length, seq_length in E; exact E).
    assert (I : forall k, (k < c)%nat -> inter cs k = V k x).
    { intros k Hk. unfold inter. rewrite <- (map_nth snd). cbn [snd]. rewrite E. now rewrite seq_nth_map by exact Hk. }
    assert (pos = p).
    { apply (min_unique (map snd cs)); [now rewrite map_length|exact F|]. intros k Hk N. rewrite E, !seq_nth_map by lia. apply Mn; [apply in_seq; lia|exact N]. }
    subst pos.
    assert (Sk : forall k, (k < c)%nat -> sgn (V k x) * stepk k = sgn (V k X0) * stepk k) by (intros k Hk; destruct (Nat.eq_dec k p) as [->|N]; [rewrite step_p; ring|rewrite Sg by (assumption || apply in_seq; lia); reflexivity]).
    assert (Dg : d = gap opt n x).
    { unfold gap. destruct opt; [|rewrite Dn by reflexivity; now rewrite E]. specialize (Dy eq_refl). clear Dn. rewrite (I p Pc) in Dy.
      set (g := @func_opt R (Rst (fun x => x)) (V p x) (Z.of_nat p) (map snd cs)) in *.
      assert (Q : forall t, g t = quA * t ^ 2 + quB x * t + quC x).
      { intros t. unfold g. rewrite func_opt_R. rewrite (sum_by_index _ _ x E). unfold quA, quB, quC.
        assert (G : forall l, (forall k, In k l -> (k < c)%nat) -> Rsum (map (fun k => (sgn (V k x) * IZR (Z.abs (Z.of_nat k - Z.of_nat p)) * t + V p x - V k x) ^ 2) l) =
          Rsum (map (fun k => (sgn (V k X0) * stepk k) ^ 2) l) * t ^ 2 + Rsum (map (fun k => 2 * (sgn (V k X0) * stepk k) * (V p x - V k x)) l) * t + Rsum (map (fun k => (V p x - V k x) ^ 2) l)).
        { induction l as [|k l IH]; intros H; cbn [map Rsum]; [ring|]. rewrite IH by (intros; apply H; now right). fold (stepk k). rewrite (Sk k) by (apply H; now left). ring. }
        apply G. intros k Hk. apply in_seq in Hk. lia. }
      pose proof quA_pos as QA. assert (Mi : g d <= g (- quB x / (2 * quA))) by (rewrite Dy; exact (MO g quA (quB x) (quC x) (average (gaps (around p n (map snd cs)))) QA Q (- quB x / (2 * quA)))).
      rewrite !Q in Mi. clear -Mi QA.
      assert (K : quA * (d + quB x / (2 * quA)) ^ 2 <= 0).
      { replace (quA * (d + quB x / (2 * quA)) ^ 2) with (quA * d ^ 2 + quB x * d + quC x - (quA * (- quB x / (2 * quA)) ^ 2 + quB x * (- quB x / (2 * quA)) + quC x)) by (field; lra). lra. }
      pose proof (pow2_ge_0 (d + quB x / (2 * quA))) as P. assert (Z : (d + quB x / (2 * quA)) ^ 2 = 0) by nra.
      assert (Z0 : d + quB x / (2 * quA) = 0) by (apply Rsqr_0_uniq; unfold Rsqr; lra). unfold Rdiv in *. lra. }
    apply (nth_ext _ _ 0 0); [rewrite map_length, seq_length; lia|]. intros k Hk. rewrite U, seq_nth_map by lia. rewrite (I k), (I p) by lia. unfold undist. rewrite <- Dg.
    fold (stepk k). rewrite <- !Rmult_assoc, (Sk k) by lia. ring.
  Qed.
End Cont.

(** *** What has to hold for the calibrated model to be steady *)
(** One of the lines, given by their distances from the centre, is nearer than all others. *)
Definition one_nearest (l : list R) : Prop := exists p, (p < length l)%nat /\ forall k, (k < length l)%nat -> k <> p -> Rabs (nth p l 0) < Rabs (nth k l 0).
(** The distance of every dot and the factor that moves it onto its straight line. *)
Definition factors (x y : R) (ch cv : list (R * R * R)) (uh uv : list R) (lh lv : list (list (R * R))) : list (R * R) :=
  line_samples (hor_sample x y) ch uh lh ++ line_samples (ver_sample x y) cv uv lv.
(** No straight line passes through the centre, and neither does a fitted parabola
    reach the axis through the centre at one of the dots. *)
Definition off_axis (cs : list (R * R * R)) (us : list R) (ts : list (list R)) : Prop :=
  forall k t, (k < length ts)%nat -> In t (nth k ts []) -> nth k us 0 <> 0 /\ fst (fst (nth k cs (0, 0, 0))) * t ^ 2 + snd (nth k cs (0, 0, 0)) <> 0.
Definition clear_lines (polyfit : list R -> list R -> nat -> res (list R)) (minimize : (R -> R) -> R -> R) (opt : bool) (thr x y : R)
    (n : nat) (radii : list (R * R) -> list R) (lh lv : list (list (R * R))) : Prop :=
  spread_hor 3 lh /\ spread_ver 3 lv /\ (2 <= length lh)%nat /\ (2 <= length lv)%nat /\
  forall ch cv, fits_hor (fun x => x) polyfit x y lh ch -> fits_ver (fun x => x) polyfit x y lv cv ->
    one_nearest (map snd ch) /\ one_nearest (map snd cv) /\
    forall w uh uv, @calc_undistor_intercept R Rexact polyfit minimize lh lv x y opt thr = Ok (w, (uh, uv)) ->
      off_axis ch uh (map (map (fun p => pxc p - x)) lh) /\ off_axis cv uv (map (map (fun p => py p - y)) lv) /\
      distinct_values n (radii (factors x y ch cv uh uv lh lv)).
(** Finding the centre and then the coefficients, and continuity of the whole. *)
Definition calibrate (find : list (list (R * R)) -> list (list (R * R)) -> res (R * R)) (calc : list (list (R * R)) -> list (list (R * R)) -> R -> R -> res (list R))
    (lh lv : list (list (R * R))) : res (R * R * list R) :=
  bind (find lh lv) (fun c => bind (calc lh lv (fst c) (snd c)) (fun F => Ok (c, F))).
Definition steady_model (f : list (list (R * R)) -> list (list (R * R)) -> res (R * R * list R)) (lh lv : list (list (R * R))) (x y : R) (F : list R) : Prop :=
  f lh lv = Ok (x, y, F) /\
  forall e, 0 < e -> exists d, 0 < d /\ forall lh' lv', moved d lh lh' -> moved d lv lv' ->
    exists x' y' F', f lh' lv' = Ok (x', y', F') /\ Rabs (x' - x) <= e /\ Rabs (y' - y) <= e /\ Forall2 (fun a b => Rabs (b - a) <= e) F F'.

Lemma missing_total polyfit cs : polyfit_oracle polyfit -> (2 <= length cs)%nat -> exists e, @missing_error R Rexact polyfit cs = Ok e.
Proof.
  intros PF L. unfold missing_error. change Rexact with (Rst (fun x => x)). rewrite gaps_ndiff. set (g := gaps (map cf2 cs)).
  assert (Lg : length g = (length cs - 1)%nat) by (unfold g; now rewrite gaps_length, map_length).
  set (li := map nofZ (zrange 0 (Z.of_nat (length g)))). assert (Li : length li = length g) by (unfold li; rewrite map_length; unfold zrange; rewrite map_length, seq_length; lia).
  destruct (PF li g 2%nat) as [v [Ev P]]; [intros Z; rewrite Z in Li; cbn in Li; lia|exact Li|]. rewrite Ev. cbn [bind]. destruct P as [Lv _]. destruct v as [|a [|b [|c [|]]]]; try discriminate Lv.
  destruct g as [|g0 g]; [cbn in Lg; lia|]. destruct li as [|l0 li]; [discriminate Li|]. cbn [map combine namax]. eauto.
Qed.
Lemma combine_seq {A B C} (f : nat -> A) (g : nat -> B) (h : nat -> C) l : combine (combine (map f l) (map g l)) (map h l) = map (fun k => (f k, g k, h k)) l.
Proof. induction l as [|a l IH]; [reflexivity|]. cbn [map combine]. now rewrite IH. Qed.

Section Chain.
  Variables (lh lv : list (list (R * R))).
  Notation X := (list (list (R * R)) * list (list (R * R)))%type.
  Notation X0 := (lh, lv).
  Notation EV := (ev lh lv).
  Notation ct := (cts X0 EV).
  Let etrue := ev_true lh lv.
  Let eand := ev_and lh lv.
  Let eimp := ev_imp lh lv.
  Let ebase := ev_base lh lv.
  Lemma samples_near side n (P : nat -> X -> R * R * R) (U : nat -> X -> R) (s : X -> R * R * R -> R -> R * R -> R * R) :
    (side = fst \/ side = snd) -> EV (fun x => length (side x) = n) -> length (side X0) = n ->
    (forall k i, (k < n)%nat -> (i < length (nth k (side X0) []))%nat -> let S := fun x : X => s x (P k x) (U k x) (nth i (nth k (side x) []) (0, 0)) in
      ct (fun x => fst (S x)) /\ ct (fun x => snd (S x)) /\ snd (S X0) <> 0) ->
    exists rs, (forall f, In f rs -> ct (fst f) /\ ct (snd f) /\ snd f X0 <> 0) /\
      EV (fun x => line_samples (s x) (map (fun k => P k x) (seq 0 n)) (map (fun k => U k x) (seq 0 n)) (side x) = at2 x rs).
  Proof.
    intros Hs Hn Ln H. set (Sf := fun k i (x : X) => s x (P k x) (U k x) (nth i (nth k (side x) []) (0, 0))).
    exists (concat (map (fun k => map (fun i => (fun x => fst (Sf k i x), fun x => snd (Sf k i x))) (seq 0 (length (nth k (side X0) [])))) (seq 0 n))). split.
    - intros f Hf. apply in_concat in Hf. destruct Hf as [l [Hl Hf]]. apply in_map_iff in Hl. destruct Hl as [k [<- Hk]]. apply in_map_iff in Hf. destruct Hf as [i [<- Hi]].
      apply in_seq in Hk. apply in_seq in Hi. cbn [fst snd]. apply (H k i); lia.
    - assert (El : EV (fun x => forall k, In k (seq 0 n) -> length (nth k (side x) []) = length (nth k (side X0) []))) by (apply (ev_list EV etrue eand eimp (fun k x => length (nth k (side x) []) = length (nth k (side X0) []))); intros k _; now apply ev_len).
      eapply eimp; [|exact (eand _ _ Hn El)]. intros x [Nx Lx].
      assert (Es : side x = map (fun k => nth k (side x) []) (seq 0 n)) by (rewrite <- Nx, <- (by_index (fun l => l) []); now rewrite map_id).
      unfold line_samples. rewrite Es at 1. rewrite combine_seq, map_map. cbn [fst snd]. unfold at2. rewrite concat_map, map_map. f_equal. apply map_ext_in. intros k Hk.
      rewrite map_map. cbn [fst snd]. rewrite (by_index (s x (P k x) (U k x)) (0, 0)), (Lx k Hk). apply map_ext. intros i. apply surjective_pairing.
  Qed.

  Variable polyfit : list R -> list R -> nat -> res (list R).
  Variable minimize : (R -> R) -> R -> R.
  Variables (opt : bool) (thr : R) (N : nat) (radii : list (R * R) -> list R).
  Hypothesis PF : polyfit_oracle polyfit.
  Hypothesis MO : minimize_oracle minimize.
  Variables cx cy : X -> R.
  Hypothesis Hx : ct cx.
  Hypothesis Hy : ct cy.
  Hypothesis CL : clear_lines polyfit minimize opt thr (cx X0) (cy X0) N radii lh lv.
  Lemma ct_dist (f : X -> R * R) : ct (fun x => py (f x)) -> ct (fun x => pxc (f x)) -> ct (fun x => dist (f x) (cy x, cx x)).
  Proof.
    intros A B. unfold dist. unfold py at 2 4, pxc at 2 4. cbn [fst snd].
    assert (mul := cts_mul X0 EV eand eimp). assert (sub := cts_sub X0 EV eand eimp).
    apply (cts_sqrt X0 EV eimp (fun x => (py (f x) - cy x) * (py (f x) - cy x) + (pxc (f x) - cx x) * (pxc (f x) - cx x))).
    - apply (cts_add X0 EV eand eimp (fun x => (py (f x) - cy x) * (py (f x) - cy x))); apply mul; apply sub; assumption.
    - apply Rplus_le_le_0_compat; apply Rle_0_sqr.
  Qed.
  Definition call_ok (rs : list ((X -> R) * (X -> R))) (x : X) : Prop :=
    exists w uh uv ch cv sh sv, @calc_undistor_intercept R Rexact polyfit minimize (fst x) (snd x) (cx x) (cy x) opt thr = Ok (w, (uh, uv)) /\
      @para_fit_hor R Rexact polyfit (fst x) (cx x) (cy x) = Ok (ch, sh) /\ @para_fit_ver R Rexact polyfit (snd x) (cx x) (cy x) = Ok (cv, sv) /\
      factors (cx x) (cy x) ch cv uh uv (fst x) (snd x) = at2 x rs.
  Lemma factors_near : exists rs, (forall f, In f rs -> ct (fst f) /\ ct (snd f) /\ snd f X0 <> 0) /\ distinct_values N (radii (at2 X0 rs)) /\ EV (call_ok rs).
  Proof.
    destruct CL as (Sh & Sv & Lh & Lv & G).
    set (n := length lh). set (m := length lv).
    set (Ph := fun k x => para2 (rel fst pxc py cx cy k x)). set (Pv := fun k x => para2 (rel snd py pxc cy cx k x)).
    assert (Ah : EV (fun x => (exists sl, @para_fit_hor R Rexact polyfit (fst x) (cx x) (cy x) = Ok (map (fun k => Ph k x) (seq 0 n), sl)) /\
      forall cs, fits_hor (fun x => x) polyfit (cx x) (cy x) (fst x) cs -> cs = map (fun k => Ph k x) (seq 0 n))) by exact (all_h lh lv polyfit PF Sh Lh Lv cx cy Hx Hy).
    assert (Av : EV (fun x => (exists sl, @para_fit_ver R Rexact polyfit (snd x) (cx x) (cy x) = Ok (map (fun k => Pv k x) (seq 0 m), sl)) /\
      forall cs, fits_ver (fun x => x) polyfit (cx x) (cy x) (snd x) cs -> cs = map (fun k => Pv k x) (seq 0 m))) by exact (all_v lh lv polyfit PF Sv Lh Lv cx cy Hx Hy).
    assert (Ch : forall k, (k < n)%nat -> ct (fun x => fst (fst (Ph k x))) /\ ct (fun x => snd (fst (Ph k x))) /\ ct (fun x => snd (Ph k x))) by (intros k Hk; exact (ct_h lh lv Sh cx cy k Hx Hy Hk)).
    assert (Cv : forall k, (k < m)%nat -> ct (fun x => fst (fst (Pv k x))) /\ ct (fun x => snd (fst (Pv k x))) /\ ct (fun x => snd (Pv k x))) by (intros k Hk; exact (ct_v lh lv Sv cx cy k Hx Hy Hk)).
    destruct (ebase _ Ah) as [[sh0 Eh0] _]. destruct (ebase _ Av) as [[sv0 Ev0] _]. cbn [fst snd] in Eh0, Ev0.
    specialize (G _ _ (para_hor_fits (fun x => x) polyfit _ _ _ _ _ Eh0) (para_ver_fits (fun x => x) polyfit _ _ _ _ _ Ev0)).
    destruct G as ([p [Hp Mp]] & [q [Hq Mq]] & G). rewrite !map_length, seq_length in Hp, Hq, Mp, Mq.
    assert (Vh : forall k x, (k < n)%nat -> nth k (map snd (map (fun k => Ph k x) (seq 0 n))) 0 = snd (Ph k x)) by (intros k x Hk; rewrite map_map; exact (seq_nth_map (fun k => snd (Ph k x)) 0 n k Hk)).
    assert (Vv : forall k x, (k < m)%nat -> nth k (map snd (map (fun k => Pv k x) (seq 0 m))) 0 = snd (Pv k x)) by (intros k x Hk; rewrite map_map; exact (seq_nth_map (fun k => snd (Pv k x)) 0 m k Hk)).
    set (nw := Nat.min 3 (Nat.min (Nat.div2 n - 1) (Nat.div2 m - 1))).
    set (Uh := undist X0 (fun k x => snd (Ph k x)) n p opt nw). set (Uv := undist X0 (fun k x => snd (Pv k x)) m q opt nw).
    assert (Mp' : forall k, (k < n)%nat -> k <> p -> Rabs (snd (Ph p X0)) < Rabs (snd (Ph k X0))) by (intros k Hk Nk; specialize (Mp k Hk Nk); now rewrite !Vh in Mp by assumption).
    assert (Mq' : forall k, (k < m)%nat -> k <> q -> Rabs (snd (Pv q X0)) < Rabs (snd (Pv k X0))) by (intros k Hk Nk; specialize (Mq k Hk Nk); now rewrite !Vv in Mq by assumption).
    assert (CUh : forall k, ct (Uh k)) by (intros k; apply (ct_undist X0 EV etrue eand eimp (fun k x => snd (Ph k x)) n); try assumption; intros j Hj; now apply Ch).
    assert (CUv : forall k, ct (Uv k)) by (intros k; apply (ct_undist X0 EV etrue eand eimp (fun k x => snd (Pv k x)) m); try assumption; intros j Hj; now apply Cv).
    pose proof (undist_near X0 EV etrue eand eimp (fun k x => snd (Ph k x)) n ltac:(intros j Hj; now apply Ch) p Hp Lh Mp' minimize MO opt nw) as Qh. fold Uh in Qh.
    pose proof (undist_near X0 EV etrue eand eimp (fun k x => snd (Pv k x)) m ltac:(intros j Hj; now apply Cv) q Hq Lv Mq' minimize MO opt nw) as Qv. fold Uv in Qv.
    assert (Call : EV (fun x => exists w sh sv, @calc_undistor_intercept R Rexact polyfit minimize (fst x) (snd x) (cx x) (cy x) opt thr = Ok (w, (map (fun k => Uh k x) (seq 0 n), map (fun k => Uv k x) (seq 0 m))) /\
      @para_fit_hor R Rexact polyfit (fst x) (cx x) (cy x) = Ok (map (fun k => Ph k x) (seq 0 n), sh) /\ @para_fit_ver R Rexact polyfit (snd x) (cx x) (cy x) = Ok (map (fun k => Pv k x) (seq 0 m), sv))).
    { eapply eimp; [|exact (eand _ _ (eand _ _ (ev_count lh lv) (eand _ _ Ah Av)) (eand _ _ Qh Qv))]. intros x [[[Nx Mx] [[[sh Eh] Fh] [[sv Ev] Fv]]] [Wh Wv]].
      set (hs := map (fun k => Ph k x) (seq 0 n)) in *. set (vs := map (fun k => Pv k x) (seq 0 m)) in *.
      assert (Lhs : length hs = n) by (unfold hs; now rewrite map_length, seq_length). assert (Lvs : length vs = m) by (unfold vs; now rewrite map_length, seq_length).
      destruct (missing_total polyfit hs PF ltac:(unfold n in Lhs; lia)) as [e1 M1]. destruct (missing_total polyfit vs PF ltac:(unfold m in Lvs; lia)) as [e2 M2].
      assert (CM : exists w, @check_missing_lines R Rexact polyfit hs vs thr = Ok w) by (unfold check_missing_lines; rewrite M1, M2; cbn [bind]; eauto). destruct CM as [w CM].
      destruct (undistor_intercept_total (fun x => x) polyfit minimize (fst x) (snd x) (cx x) (cy x) opt thr hs sh vs sv w Eh Ev) as [[uh uv] E];
        [intros Z; rewrite Z in Lhs; cbn in Lhs; unfold n in Lhs; lia|intros Z; rewrite Z in Lvs; cbn in Lvs; unfold m in Lvs; lia|exact CM|].
      pose proof (undistor_intercept_ok (fun x => x) polyfit minimize (fst x) (snd x) (cx x) (cy x) opt thr w uh uv) as K. cbv zeta in K. rewrite Nx, Mx in K. fold n m nw in K.
      destruct (K Lh Lv E) as (ch & cv & F1 & F2 & _ & S1 & S2).
      assert (ch = hs) by exact (Fh ch F1). assert (cv = vs) by exact (Fv cv F2). subst ch cv.
      rewrite (Wh hs uh) in E; [|unfold hs; now rewrite map_map|exact S1]. rewrite (Wv vs uv) in E; [|unfold vs; now rewrite map_map|exact S2].
      exists w, sh, sv. split; [exact E|]. split; assumption. }
    destruct (ebase _ Call) as (w0 & s1 & s2 & E0 & _ & _). cbn [fst snd] in E0. destruct (G _ _ _ E0) as (Oh & Ov & Dv).
    assert (add := cts_add X0 EV eand eimp). assert (mul := cts_mul X0 EV eand eimp). assert (sub := cts_sub X0 EV eand eimp). assert (pw := cts_pow X0 EV eimp).
    destruct (samples_near fst n Ph Uh (fun x => hor_sample (cx x) (cy x)) ltac:(now left) (ev_n lh lv) eq_refl) as [rh [Rh Eh]].
    { intros k i Hk Hi S. cbn [fst] in Hi. unfold S, hor_sample. cbn [fst snd]. pose proof (ct_coord lh lv pxc fst ltac:(now left) ltac:(now left) k i) as Dx. pose proof (ct_coord lh lv py fst ltac:(now right) ltac:(now left) k i) as Dy.
      destruct (Oh k (pxc (nth i (nth k lh []) (0, 0)) - cx X0)) as [O1 O2].
      { rewrite map_length. exact Hk. }
      { change (@nil R) with (map (fun p => pxc p - cx X0) []). rewrite map_nth. apply in_map_iff. eexists. split; [reflexivity|]. now apply nth_In. }
      rewrite seq_nth_map in O1 by exact Hk. rewrite (seq_nth_map (fun k => Ph k X0)) in O2 by exact Hk. destruct (Ch k Hk) as (c1 & _ & c2).
      split; [|split].
      - apply (ct_dist (fun x => nth i (nth k (fst x) []) (0, 0))); assumption.
      - apply (cts_div X0 EV eand eimp (Uh k)); [apply CUh| |exact O2]. apply (add (fun x => fst (fst (Ph k x)) * (pxc (nth i (nth k (fst x) []) (0, 0)) - cx x) ^ 2)); [|exact c2].
        apply mul; [exact c1|]. apply (pw 2%nat (fun x => pxc (nth i (nth k (fst x) []) (0, 0)) - cx x)). now apply sub.
      - unfold Rdiv. apply Rmult_integral_contrapositive. split; [exact O1|now apply Rinv_neq_0_compat]. }
    destruct (samples_near snd m Pv Uv (fun x => ver_sample (cx x) (cy x)) ltac:(now right) (ev_m lh lv) eq_refl) as [rv [Rv Ev]].
    { intros k i Hk Hi S. cbn [snd] in Hi. unfold S, ver_sample. cbn [fst snd]. pose proof (ct_coord lh lv pxc snd ltac:(now left) ltac:(now right) k i) as Dx. pose proof (ct_coord lh lv py snd ltac:(now right) ltac:(now right) k i) as Dy.
      destruct (Ov k (py (nth i (nth k lv []) (0, 0)) - cy X0)) as [O1 O2].
      { rewrite map_length. exact Hk. }
      { change (@nil R) with (map (fun p => py p - cy X0) []). rewrite map_nth. apply in_map_iff. eexists. split; [reflexivity|]. now apply nth_In. }
      rewrite seq_nth_map in O1 by exact Hk. rewrite (seq_nth_map (fun k => Pv k X0)) in O2 by exact Hk. destruct (Cv k Hk) as (c1 & _ & c2).
      split; [|split].
      - apply (ct_dist (fun x => nth i (nth k (snd x) []) (0, 0))); assumption.
      - apply (cts_div X0 EV eand eimp (Uv k)); [apply CUv| |exact O2]. apply (add (fun x => fst (fst (Pv k x)) * (py (nth i (nth k (snd x) []) (0, 0)) - cy x) ^ 2)); [|exact c2].
        apply mul; [exact c1|]. apply (pw 2%nat (fun x => py (nth i (nth k (snd x) []) (0, 0)) - cy x)). now apply sub.
      - unfold Rdiv. apply Rmult_integral_contrapositive. split; [exact O1|now apply Rinv_neq_0_compat]. }
    exists (rh ++ rv).
    assert (Fa : EV (fun x => factors (cx x) (cy x) (map (fun k => Ph k x) (seq 0 n)) (map (fun k => Pv k x) (seq 0 m)) (map (fun k => Uh k x) (seq 0 n)) (map (fun k => Uv k x) (seq 0 m)) (fst x) (snd x) = at2 x (rh ++ rv))).
    { eapply eimp; [|exact (eand _ _ Eh Ev)]. intros x [A B]. unfold factors, at2 in *. rewrite map_app. now rewrite <- A, <- B. }
    split; [intros f Hf; apply in_app_iff in Hf; destruct Hf as [Hf|Hf]; [now apply Rh|now apply Rv]|]. split.
    - pose proof (ebase _ Fa) as F0. cbv beta in F0. cbn [fst snd] in F0. rewrite <- F0. exact Dv.
    - eapply eimp; [|exact (eand _ _ Call Fa)]. intros x [(w & sh & sv & A & B & C) D]. exists w. do 6 eexists. split; [exact A|]. split; [exact B|]. split; [exact C|exact D].
  Qed.
End Chain.

(** *** From the factors to the coefficients *)
Lemma usable_all l : (forall s, In s l -> snd s <> 0) -> usable l = l.
Proof.
  induction l as [|s l IH]; intros H; [reflexivity|]. unfold usable in *. cbn [filter]. destruct (Req_bool_spec (snd s) 0) as [E|E]; [now destruct (H s ltac:(now left))|].
  cbn [negb]. f_equal. apply IH. intros t Ht. apply H. now right.
Qed.
Section Steady2.
  Variable polyfit : list R -> list R -> nat -> res (list R).
  Variable minimize : (R -> R) -> R -> R.
  Variable lstsq : list (list R) -> list R -> res (list R).
  Hypothesis PF : polyfit_oracle polyfit.
  Hypothesis MO : minimize_oracle minimize.
  Hypothesis LS : lstsq_oracle lstsq.
  Variables (lh lv : list (list (R * R))) (opt : bool) (thr : R) (num_fact : Z) (find : list (list (R * R)) -> list (list (R * R)) -> res (R * R)) (x0 y0 : R).
  Hypothesis NF : (num_fact <= 32767)%Z.
  Hypothesis SF : steady find lh lv x0 y0.
  Let n := Z.to_nat (Z.max 1 num_fact).
  Notation X := (list (list (R * R)) * list (list (R * R)))%type.
  Notation X0 := (lh, lv).
  Notation EV := (ev lh lv).
  Notation ct := (cts X0 EV).
  Let cx (x : X) : R := match find (fst x) (snd x) with Ok c => fst c | Err _ => 0 end.
  Let cy (x : X) : R := match find (fst x) (snd x) with Ok c => snd c | Err _ => 0 end.
  Lemma find_base : cx X0 = x0 /\ cy X0 = y0.
  Proof. unfold cx, cy. cbn [fst snd]. destruct SF as [E _]. rewrite E. now split. Qed.
  Lemma find_near e : 0 < e -> EV (fun x => find (fst x) (snd x) = Ok (cx x, cy x) /\ Rabs (cx x - x0) <= e /\ Rabs (cy x - y0) <= e).
  Proof.
    intros He. destruct SF as [_ S]. destruct (S e He) as [d [Hd H]]. exists d. split; [exact Hd|]. intros x A B. destruct (H (fst x) (snd x) A B) as (u & v & E & U & V).
    unfold cx, cy. rewrite E. cbn [fst snd]. auto.
  Qed.
  Lemma ct_find : ct cx /\ ct cy.
  Proof.
    destruct find_base as [E1 E2]. split; intros e He; (eapply (ev_imp lh lv); [|exact (find_near e He)]); intros x (_ & A & B); cbv beta; [rewrite E1; exact A|rewrite E2; exact B].
  Qed.
  (** A calculation that solves the samples [g] makes of the factors. *)
  Lemma chain_near (calc : list (list (R * R)) -> list (list (R * R)) -> R -> R -> res (list R)) (g : list (R * R) -> list (R * R)) (rg : list ((X -> R) * (X -> R)) -> list ((X -> R) * (X -> R))) :
    clear_lines polyfit minimize opt thr x0 y0 n (fun l => map fst (g l)) lh lv ->
    (forall rs, (forall f, In f rs -> ct (fst f) /\ ct (snd f) /\ snd f X0 <> 0) -> (forall f, In f (rg rs) -> ct (fst f) /\ ct (snd f)) /\ EV (fun x => g (at2 x rs) = at2 x (rg rs))) ->
    (forall lh lv xc yc w uh uv ch cv sh sv, @calc_undistor_intercept R Rexact polyfit minimize lh lv xc yc opt thr = Ok (w, (uh, uv)) ->
      @para_fit_hor R Rexact polyfit lh xc yc = Ok (ch, sh) -> @para_fit_ver R Rexact polyfit lv xc yc = Ok (cv, sv) ->
      calc lh lv xc yc = @solve_rows R lstsq (map (@row_of Rexact n) (g (factors xc yc ch cv uh uv lh lv)))) ->
    exists F, steady_model (calibrate find calc) lh lv x0 y0 F.
  Proof.
    intros CL Hg Hc. destruct find_base as [B1 B2]. destruct ct_find as [Cx Cy]. rewrite <- B1, <- B2 in CL.
    destruct (factors_near lh lv polyfit minimize opt thr n (fun l => map fst (g l)) PF MO cx cy Cx Cy CL) as [rs (R1 & R2 & R3)].
    destruct (Hg rs R1) as [G1 G2]. pose proof (ev_base lh lv _ G2) as G0. cbv beta in G0. rewrite G0 in R2.
    assert (Ne : rg rs <> []) by (intros Z; rewrite Z in R2; unfold n in R2; destruct R2 as [d (_ & I & L)]; destruct d as [|a d]; [cbn in L; lia|apply (I a); now left]).
    assert (Sol : EV (fun x => exists F, calc (fst x) (snd x) (cx x) (cy x) = Ok F /\ best_poly n (at2 x (rg rs)) F)).
    { eapply (ev_imp lh lv); [|exact (ev_and lh lv _ _ R3 G2)]. intros x [(w & uh & uv & ch & cv & sh & sv & E & Eh & Ev & Fa) Gx]. cbv beta in Gx.
      destruct (solve_total (fun x => x) lstsq LS n (at2 x (rg rs))) as [F EF]; [unfold at2; destruct (rg rs); [easy|discriminate]|].
      exists F. split; [|exact (solve_best (fun x => x) lstsq LS n _ F EF)]. refine (eq_trans (Hc _ _ _ _ _ _ _ _ _ _ _ E Eh Ev) _). rewrite Fa, Gx. exact EF. }
    destruct (ev_base lh lv _ Sol) as [F0 [E0 BF0]]. cbn [fst snd] in E0. exists F0. split.
    - unfold calibrate. destruct SF as [Ef _]. rewrite Ef. cbn [bind fst snd]. rewrite B1, B2 in E0. rewrite E0. reflexivity.
    - intros e He. pose proof (fit_near X0 EV (ev_true lh lv) (ev_and lh lv) (ev_imp lh lv) n (rg rs) F0 G1 R2 BF0 e He) as Fn.
      destruct (ev_and lh lv _ _ (find_near e He) (ev_and lh lv _ _ Sol Fn)) as [d [Hd H]]. exists d. split; [exact Hd|]. intros lh' lv' A B.
      destruct (H (lh', lv') A B) as ((Ef & Ax & Ay) & [F [EF BF]] & K). cbn [fst snd] in *. exists (cx (lh', lv')), (cy (lh', lv')), F.
      split; [|split; [exact Ax|split; [exact Ay|exact (K F BF)]]]. unfold calibrate. rewrite Ef. cbn [bind fst snd]. rewrite EF. reflexivity.
  Qed.
  Lemma backward_near : clear_lines polyfit minimize opt thr x0 y0 n (fun l => map fst (map inverse_sample l)) lh lv ->
    exists F, steady_model (calibrate find (fun lh lv x y => @calc_coef_backward R Rexact polyfit minimize lstsq lh lv x y num_fact opt thr)) lh lv x0 y0 F.
  Proof.
    intros CL. apply (chain_near _ (map inverse_sample) (map (fun f => (fun x => fst f x * snd f x, fun x => / snd f x)))); [exact CL| |].
    - intros rs H. split.
      + intros f Hf. apply in_map_iff in Hf. destruct Hf as [r [<- Hr]]. destruct (H r Hr) as (A & B & C). cbn [fst snd]. split; [now apply (cts_mul X0 EV (ev_and lh lv) (ev_imp lh lv))|].
        apply (cts_ext X0 EV (ev_imp lh lv) (fun x => 1 / snd r x)); [intros; unfold Rdiv; ring|]. apply (cts_div X0 EV (ev_and lh lv) (ev_imp lh lv) (fun _ => 1)); [apply (cts_const X0 EV (ev_true lh lv) (ev_imp lh lv))|exact B|exact C].
      + apply (ev_imp lh lv (fun _ => True)); [|apply ev_true]. intros x _. unfold at2. rewrite !map_map. reflexivity.
    - intros lh' lv' xc yc w uh uv ch cv sh sv E Eh Ev. exact (backward_call (fun x => x) polyfit minimize lstsq lh' lv' xc yc num_fact opt thr NF w uh uv ch cv sh sv E Eh Ev).
  Qed.
  Lemma forward_near : clear_lines polyfit minimize opt thr x0 y0 n (fun l => map fst (usable l)) lh lv ->
    exists F, steady_model (calibrate find (fun lh lv x y => @calc_coef_forward R Rexact polyfit minimize lstsq lh lv x y num_fact opt thr)) lh lv x0 y0 F.
  Proof.
    intros CL. apply (chain_near _ usable (fun rs => rs)); [exact CL| |].
    - intros rs H. split; [intros f Hf; destruct (H f Hf) as (A & B & _); now split|].
      assert (Q : EV (fun x => forall f, In f rs -> snd f x <> 0)).
      { apply (ev_list EV (ev_true lh lv) (ev_and lh lv) (ev_imp lh lv) (fun f x => snd f x <> 0)). intros f Hf. destruct (H f Hf) as (_ & B & C).
        eapply (ev_imp lh lv); [|exact (cts_sgn X0 EV (ev_imp lh lv) _ B C)]. intros x D. apply D. }
      eapply (ev_imp lh lv); [|exact Q]. intros x K. apply usable_all. intros s Hs. unfold at2 in Hs. apply in_map_iff in Hs. destruct Hs as [f [<- Hf]]. cbn [snd]. now apply K.
    - intros lh' lv' xc yc w uh uv ch cv sh sv E Eh Ev. exact (forward_call (fun x => x) polyfit minimize lstsq lh' lv' xc yc num_fact opt thr NF w uh uv ch cv sh sv E Eh Ev).
  Qed.
End Steady2.

(** C137 (coefficients that bend straight lines): any way of finding the centre that
    is itself steady, followed by calc_coef_backward. *)
Theorem C137_backward : forall polyfit minimize lstsq find lh lv x y num_fact opt thr, polyfit_oracle polyfit -> minimize_oracle minimize -> lstsq_oracle lstsq ->
  (num_fact <= 32767)%Z -> steady find lh lv x y ->
  clear_lines polyfit minimize opt thr x y (Z.to_nat (Z.max 1 num_fact)) (fun l => map fst (map inverse_sample l)) lh lv ->
  exists F, steady_model (calibrate find (fun lh lv x y => @calc_coef_backward R Rexact polyfit minimize lstsq lh lv x y num_fact opt thr)) lh lv x y F.
Proof. intros. now apply backward_near. Qed.
Print Assumptions C137_backward.
(** C137 (coefficients that straighten lines): the same for calc_coef_forward. *)
Theorem C137_forward : forall polyfit minimize lstsq find lh lv x y num_fact opt thr, polyfit_oracle polyfit -> minimize_oracle minimize -> lstsq_oracle lstsq ->
  (num_fact <= 32767)%Z -> steady find lh lv x y ->
  clear_lines polyfit minimize opt thr x y (Z.to_nat (Z.max 1 num_fact)) (fun l => map fst (usable l)) lh lv ->
  exists F, steady_model (calibrate find (fun lh lv x y => @calc_coef_forward R Rexact polyfit minimize lstsq lh lv x y num_fact opt thr)) lh lv x y F.
Proof. intros. now apply forward_near. Qed.
Print Assumptions C137_forward.
(** C137 (the whole calibration): the centre by Bailey's method, then the coefficients. *)
Theorem C137_calibration : forall polyfit minimize lstsq lh lv iteration x y num_fact opt thr, polyfit_oracle polyfit -> minimize_oracle minimize -> lstsq_oracle lstsq ->
  (num_fact <= 32767)%Z -> clear_target polyfit lh lv ->
  (forall x y cs, candidate polyfit lh lv iteration x y ->
    (fits_hor (fun x => x) polyfit x y lh cs -> leans polyfit cs) /\ (fits_ver (fun x => x) polyfit x y lv cs -> leans polyfit cs)) ->
  @find_cod_bailey R Rexact polyfit lh lv iteration = Ok (x, y) ->
  clear_lines polyfit minimize opt thr x y (Z.to_nat (Z.max 1 num_fact)) (fun l => map fst (map inverse_sample l)) lh lv ->
  exists F, steady_model (calibrate (fun lh lv => @find_cod_bailey R Rexact polyfit lh lv iteration)
    (fun lh lv x y => @calc_coef_backward R Rexact polyfit minimize lstsq lh lv x y num_fact opt thr)) lh lv x y F.
Proof.
  intros polyfit minimize lstsq lh lv iteration x y num_fact opt thr PF MO LS NF CT LN E CL. destruct (C135_bailey polyfit lh lv iteration PF CT LN) as [x' [y' S]].
  pose proof (proj1 S) as E'. cbv beta in E'. rewrite E in E'. injection E' as <- <-. now apply C137_backward.
Qed.
Print Assumptions C137_calibration.
(** C137 (corrected positions): a steady calibration moves every position of a field
    of view, of any size, to nearly the same place. *)
Theorem C137_corrected : forall f lh lv x y F field e, steady_model f lh lv x y F -> 0 < e -> exists d, 0 < d /\
  forall lh' lv', moved d lh lh' -> moved d lv lv' -> exists x' y' F', f lh' lv' = Ok (x', y', F') /\
  forall q, dist q (y, x) <= field -> dist (radial_map F (y, x) q) (radial_map F' (y', x') q) <= e.
Proof.
  intros f lh lv x y F field e [_ S] He. destruct (C136_steady F (y, x) field e He) as [t [Ht H]]. destruct (S (t / 2) ltac:(lra)) as [d [Hd K]]. exists d. split; [exact Hd|].
  intros lh' lv' A B. destruct (K lh' lv' A B) as (x' & y' & F' & E & Ex & Ey & EF). exists x', y', F'. split; [exact E|]. intros q Hq.
  eapply Rle_trans; [apply C136_positions|]. apply H; [|clear -Ex Ey Ht|exact Hq].
  - clear -EF Ht. induction EF as [|a b l m H EF IH]; constructor; [lra|exact IH].
  - unfold dist, py, pxc. cbn [fst snd]. rewrite <- (sqrt_Rsqr t) by lra. apply sqrt_le_1_alt. unfold Rsqr. apply Rabs_le_inv in Ex. apply Rabs_le_inv in Ey. nra.
Qed.
Print Assumptions C137_corrected.

(** A case: four by four lines bent about (0, 0) and four coefficients; Bailey's
    method with any number of updates, either way of finding the line spacing, any
    threshold. *)
Section Case.
  Let cs := [-4; -1; 2; 5].
  Let lh := grid_hor 1 0 0 cs [0; 1; 3].
  Let lv := grid_ver 1 0 0 cs [0; 1; 3].
  Lemma case_hor : Forall2 (ideal_hor 1 0 0) cs lh.
  Proof. apply grid_hor_ideal. distinct_lit. Qed.
  Lemma case_ver : Forall2 (ideal_ver 1 0 0) cs lv.
  Proof. apply grid_ver_ideal. distinct_lit. Qed.
  Lemma case_coef k : (k < 4)%nat -> nth k (map (ideal_coef 1 0 0 0 0) cs) (0, 0, 0) = (nth k cs 0, 0, nth k cs 0).
  Proof. intros Hk. destruct k as [|[|[|[|k]]]]; [| | | |lia]; cbn [map nth cs]; unfold ideal_coef; repeat (apply f_equal2 || ring). Qed.
  Lemma case_snd : map snd (map (ideal_coef 1 0 0 0 0) cs) = cs.
  Proof. rewrite map_map. rewrite <- (map_id cs) at 2. apply map_ext. intros c. unfold ideal_coef. cbn [snd]. ring. Qed.
  Lemma case_cs k : (k < 4)%nat -> nth k cs 0 <> 0.
  Proof. intros Hk. destruct k as [|[|[|[|k]]]]; [| | | |lia]; cbn [nth cs]; lra. Qed.
  Lemma case_fits_h X Y : fits_hor (fun x => x) pf_R X Y lh (map (ideal_coef 1 0 0 X Y) cs).
  Proof. exact (para_hor_fits _ _ _ _ _ _ _ (ideal_fit_hor pf_R pf_R_ok 1 0 0 X Y _ _ case_hor)). Qed.
  Lemma case_fits_v X Y : fits_ver (fun x => x) pf_R X Y lv (map (ideal_coef 1 0 0 Y X) cs).
  Proof. exact (para_ver_fits _ _ _ _ _ _ _ (ideal_fit_ver pf_R pf_R_ok 1 0 0 X Y _ _ case_ver)). Qed.
  Lemma case_clear : clear_target pf_R lh lv.
  Proof.
    split; [exact (spread_ideal_hor _ _ _ _ _ case_hor)|]. split; [exact (spread_ideal_ver _ _ _ _ _ case_ver)|]. split; [cbn; lia|]. split; [cbn; lia|].
    intros ch cv i j Fh Fv Mi Mj. rewrite (fits_hor_fun _ _ _ _ _ _ _ Fh (case_fits_h 0 0)), (fits_ver_fun _ _ _ _ _ _ _ Fv (case_fits_v 0 0)) in *.
    destruct Mi as [Mi _]. destruct Mj as [Mj _]. rewrite map_length in Mi, Mj. change (length cs) with 4%nat in *.
    assert (K : forall k, (k < 4)%nat -> curv (map (ideal_coef 1 0 0 0 0) cs) k <> 0) by (intros k Hk; unfold curv; rewrite case_coef by exact Hk; now apply case_cs).
    split; [exact K|]. split; [exact K|]. unfold slope. rewrite !case_coef by lia. cbn [fst snd]. lra.
  Qed.
  Lemma case_leans X Y : leans pf_R (map (ideal_coef 1 0 0 X Y) cs).
  Proof.
    assert (P : 1 + 1 * (X - 0) ^ 2 <> 0) by (pose proof (pow2_ge_0 (X - 0)); lra). split.
    - rewrite map_map. apply distinct_values_map; [|unfold cs; exists [-4; -1]; split; [repeat constructor; cbn [In]; intuition lra|split; [intros t Ht; cbn [In] in *; intuition|cbn; lia]]].
      intros a b E. unfold ideal_coef in E. cbn [snd] in E. pose proof (pow2_ge_0 (X - 0)). nra.
    - intros a b E. assert (D : distinct_values 2 cs) by (exists [-4; -1]; split; [repeat constructor; cbn [In]; intuition lra|split; [intros t Ht; unfold cs; cbn [In] in *; intuition|cbn; lia]]).
      pose proof (ideal_fit1 pf_R pf_R_ok 1 0 0 X Y cs P D) as Q. unfold fit1 in Q.
      change (map cf2 (map (ideal_coef 1 0 0 X Y) cs)) with (map snd (map (ideal_coef 1 0 0 X Y) cs)) in Q.
      change (map cf0 (map (ideal_coef 1 0 0 X Y) cs)) with (map (fun q => fst (fst q)) (map (ideal_coef 1 0 0 X Y) cs)) in Q.
      rewrite E in Q. cbn [bind] in Q. injection Q as -> _. apply Rmult_integral_contrapositive. split; [lra|now apply Rinv_neq_0_compat].
  Qed.
  Lemma case_bailey it : @find_cod_bailey R Rexact pf_R lh lv it = Ok (0, 0).
  Proof.
    assert (D : distinct_values 2 cs) by (exists [-4; -1]; split; [repeat constructor; cbn [In]; intuition lra|split; [intros t Ht; unfold cs; cbn [In] in *; intuition|cbn; lia]]).
    destruct (C135_coarse pf_R lh lv pf_R_ok case_clear) as [x [y [E _]]].
    apply (bailey_ideal pf_R pf_R_ok 1 0 0 cs cs lh lv case_hor case_ver R1_neq_R0 D D x y it E); match goal with |- 1 + 1 * ?t <> 0 => pose proof (pow2_ge_0 (x - 0)); pose proof (pow2_ge_0 (y - 0)); lra end.
  Qed.
  Lemma case_lines opt thr radii : (forall uh uv, uh = cs -> uv = cs -> distinct_values 4 (radii (factors 0 0 (map (ideal_coef 1 0 0 0 0) cs) (map (ideal_coef 1 0 0 0 0) cs) uh uv lh lv))) ->
    clear_lines pf_R min_R opt thr 0 0 4 radii lh lv.
  Proof.
    intros HR. split; [exact (spread_ideal_hor _ _ _ _ _ case_hor)|]. split; [exact (spread_ideal_ver _ _ _ _ _ case_ver)|]. split; [cbn; lia|]. split; [cbn; lia|].
    intros ch cv Fh Fv. rewrite (fits_hor_fun _ _ _ _ _ _ _ Fh (case_fits_h 0 0)), (fits_ver_fun _ _ _ _ _ _ _ Fv (case_fits_v 0 0)) in *.
    assert (ON : one_nearest (map snd (map (ideal_coef 1 0 0 0 0) cs))).
    { rewrite case_snd. exists 1%nat. split; [cbn; lia|]. intros k Hk Nk. cbn in Hk. unfold cs. destruct k as [|[|[|[|k]]]]; try lia; cbn [nth]; unfold Rabs; repeat destruct (Rcase_abs _); lra. }
    split; [exact ON|]. split; [exact ON|]. intros w uh uv E.
    destruct (undistor_intercept_ok (fun x => x) pf_R min_R lh lv 0 0 opt thr w uh uv ltac:(cbn; lia) ltac:(cbn; lia) E) as (ch' & cv' & F1 & F2 & _ & S1 & S2).
    rewrite (fits_hor_fun _ _ _ _ _ _ _ F1 (case_fits_h 0 0)) in S1. rewrite (fits_ver_fun _ _ _ _ _ _ _ F2 (case_fits_v 0 0)) in S2.
    assert (EQ : equidistant (-4) 3 (map snd (map (ideal_coef 1 0 0 0 0) cs))).
    { rewrite case_snd. intros i Hi. cbn in Hi. unfold cs. destruct i as [|[|[|[|i]]]]; try lia; cbn [nth INR]; lra. }
    assert (SE : forall uc, spread_ok (fun x => x) min_R opt 1 (map (ideal_coef 1 0 0 0 0) cs) uc -> uc = cs).
    { intros uc Sp. rewrite (spread_equidistant (fun x => x) min_R opt 1 (map (ideal_coef 1 0 0 0 0) cs) uc (-4) 3 min_R_ok (le_n 1) ltac:(cbn; lia) ltac:(lra) EQ Sp).
      exact case_snd. }
    assert (uh = cs) by (apply SE; exact S1). assert (uv = cs) by (apply SE; exact S2). subst uh uv.
    assert (OA : forall ts, length ts = 4%nat -> off_axis (map (ideal_coef 1 0 0 0 0) cs) cs ts).
    { intros ts L k t Hk _. rewrite L in Hk. split; [now apply case_cs|]. rewrite case_coef by exact Hk. cbn [fst snd]. pose proof (case_cs k Hk) as N. intros Z. apply N.
      assert (Q : nth k cs 0 * (1 + t ^ 2) = 0) by lra. apply Rmult_integral in Q. destruct Q as [Q|Q]; [exact Q|]. pose proof (pow2_ge_0 t). lra. }
    split; [apply OA; reflexivity|]. split; [apply OA; reflexivity|]. now apply HR.
  Qed.
  Lemma case_sample k : (k < 4)%nat -> In (Rabs (nth k cs 0), 1) (factors 0 0 (map (ideal_coef 1 0 0 0 0) cs) (map (ideal_coef 1 0 0 0 0) cs) cs cs lh lv).
  Proof.
    intros Hk. unfold factors. apply in_app_iff. left. apply line_samples_in. exists k, (1 * (nth k cs 0 - 0) * (0 - 0) ^ 2 + nth k cs 0, 0).
    split; [rewrite map_length; exact Hk|]. split; [exact Hk|]. split; [exact Hk|]. split.
    - destruct k as [|[|[|[|k]]]]; [| | | |lia]; left; reflexivity.
    - rewrite case_coef by exact Hk. unfold hor_sample, dist, py, pxc. cbn [fst snd]. f_equal.
      + rewrite <- sqrt_Rsqr_abs. f_equal. unfold Rsqr. ring.
      + pose proof (case_cs k Hk). field. replace (nth k cs 0 * (0 - 0) ^ 2 + nth k cs 0) with (nth k cs 0) by ring. exact H.
  Qed.
  Lemma case_radii (radii : list (R * R) -> list R) : (forall l r, In (r, 1) l -> In r (radii l)) ->
    forall uh uv, uh = cs -> uv = cs -> distinct_values 4 (radii (factors 0 0 (map (ideal_coef 1 0 0 0 0) cs) (map (ideal_coef 1 0 0 0 0) cs) uh uv lh lv)).
  Proof.
    intros H uh uv -> ->. exists [4; 1; 2; 5]. split; [repeat constructor; cbn [In]; intuition lra|]. split; [|cbn; lia]. intros r Hr. apply H.
    assert (A : forall k, (k < 4)%nat -> r = Rabs (nth k cs 0) -> In (r, 1) (factors 0 0 (map (ideal_coef 1 0 0 0 0) cs) (map (ideal_coef 1 0 0 0 0) cs) cs cs lh lv)) by (intros k Hk ->; now apply case_sample).
    cbn [In] in Hr. destruct Hr as [<-|[<-|[<-|[<-|[]]]]]; [apply (A 0%nat)|apply (A 1%nat)|apply (A 2%nat)|apply (A 3%nat)]; try lia; unfold cs; cbn [nth]; unfold Rabs; destruct (Rcase_abs _); lra.
  Qed.
  Example C137_ex : forall iteration opt thr, let find := fun lh lv => @find_cod_bailey R Rexact pf_R lh lv iteration in
    (exists F, steady_model (calibrate find (fun lh lv x y => @calc_coef_backward R Rexact pf_R min_R ls_R lh lv x y 4 opt thr)) lh lv 0 0 F) /\
    (exists F, steady_model (calibrate find (fun lh lv x y => @calc_coef_forward R Rexact pf_R min_R ls_R lh lv x y 4 opt thr)) lh lv 0 0 F).
  Proof.
    intros iteration opt thr find.
    assert (LN : forall x y cs, candidate pf_R lh lv iteration x y -> (fits_hor (fun x => x) pf_R x y lh cs -> leans pf_R cs) /\ (fits_ver (fun x => x) pf_R x y lv cs -> leans pf_R cs)).
    { intros x y l _. split; intros Q; [rewrite (fits_hor_fun _ _ _ _ _ _ _ Q (case_fits_h x y))|rewrite (fits_ver_fun _ _ _ _ _ _ _ Q (case_fits_v x y))]; apply case_leans. }
    split.
    - apply (C137_calibration pf_R min_R ls_R lh lv iteration 0 0 4 opt thr pf_R_ok min_R_ok ls_R_ok ltac:(lia) case_clear LN (case_bailey iteration)).
      apply case_lines. apply (case_radii (fun l => map fst (map inverse_sample l))). intros l r Hr. apply in_map_iff. exists (r * 1, / 1). split; [cbn [fst]; ring|]. apply in_map_iff. exists (r, 1). split; [reflexivity|exact Hr].
    - destruct (C135_bailey pf_R lh lv iteration pf_R_ok case_clear LN) as [x [y S]]. pose proof (proj1 S) as E. cbv beta in E. rewrite case_bailey in E. injection E as <- <-.
      apply (C137_forward pf_R min_R ls_R find lh lv 0 0 4 opt thr pf_R_ok min_R_ok ls_R_ok ltac:(lia) S).
      apply case_lines. apply (case_radii (fun l => map fst (usable l))). intros l r Hr. apply in_map_iff. exists (r, 1). split; [reflexivity|]. unfold usable. apply filter_In. split; [exact Hr|]. cbn [snd]. destruct (Req_bool_spec 1 0); [lra|reflexivity].
  Qed.
End Case.

(** Without a nearest line: when two lines of a direction are equally near to the
    centre, errors of the dots of any size d, however small, change the coefficient by
    more than one fifth. *)
Lemma const_fit l a : best_poly 1 l [a] -> Rsum (map snd l) = a * INR (length l).
Proof.
  intros B. pose proof (fit_moments 1 l [a] 0 B (le_n 1)) as M. assert (Q : forall l, Rsum (map (fun s => (snd s - poly [a] (fst s)) * fst s ^ 0) l) = Rsum (map snd l) - a * INR (length l)).
  { clear. induction l as [|s l IH]; [cbn; ring|]. cbn [map Rsum]. change (length (s :: l)) with (S (length l)). rewrite S_INR, IH. cbn [poly pow]. ring. }
  rewrite Q in M. lra.
Qed.
Section Tie.
  Variable polyfit : list R -> list R -> nat -> res (list R).
  Variable minimize : (R -> R) -> R -> R.
  Variable lstsq : list (list R) -> list R -> res (list R).
  Hypothesis PF : polyfit_oracle polyfit.
  Hypothesis MO : minimize_oracle minimize.
  Hypothesis LS : lstsq_oracle lstsq.
  Variable thr : R.
  Let xs := [0; 1; 3].
  Let ds := [-4; -1; 2; 5].
  Let lv := grid_ver 0 0 0 ds xs.
  Lemma flat_tie c0 c1 c2 c3 u0 u1 u2 u3 p : c0 <> 0 -> c1 <> 0 -> c2 <> 0 -> c3 <> 0 -> u0 <> 0 -> u1 <> 0 -> u2 <> 0 -> u3 <> 0 ->
    (forall pos, first_min (map Rabs [c0; c1; c2; c3]) pos -> pos = p) ->
    (forall i, (i < 4)%nat -> nth i [u0; u1; u2; u3] 0 = sgn (nth i [c0; c1; c2; c3] 0) * (IZR (Z.abs (Z.of_nat i - Z.of_nat p)) * average (gaps (around p 1 [c0; c1; c2; c3]))) + nth p [c0; c1; c2; c3] 0) ->
    exists a, @calc_coef_forward R Rexact polyfit minimize lstsq (grid_hor 0 0 0 [c0; c1; c2; c3] xs) lv 0 0 1 false thr = Ok [a] /\ 24 * a = 3 * (u0 / c0 + u1 / c1 + u2 / c2 + u3 / c3) + 12.
  Proof.
    intros N0 N1 N2 N3 M0 M1 M2 M3 Pp Uu. set (cs := [c0; c1; c2; c3]) in *. set (lh := grid_hor 0 0 0 cs xs).
    assert (Dx : distinct_values 3 xs) by (unfold xs; distinct_lit).
    pose proof (grid_hor_ideal 0 0 0 cs xs Dx) as Fh. fold lh in Fh. pose proof (grid_ver_ideal 0 0 0 ds xs Dx) as Fv. fold lv in Fv.
    pose proof (ideal_fit_hor polyfit PF 0 0 0 0 0 _ _ Fh) as Eh. pose proof (ideal_fit_ver polyfit PF 0 0 0 0 0 _ _ Fv) as Ev.
    assert (C : forall l, map (ideal_coef 0 0 0 0 0) l = map (fun c => (0, 0, c)) l) by (intros l; apply map_ext; intros c; unfold ideal_coef; f_equal; [f_equal; ring|ring]).
    rewrite C in Eh, Ev. set (ch := map (fun c => (0, 0, c)) cs) in *. set (cv := map (fun c => (0, 0, c)) ds) in *.
    assert (Sh : map snd ch = cs) by reflexivity. assert (Sv : map snd cv = ds) by reflexivity.
    destruct (missing_total polyfit ch PF ltac:(cbn; lia)) as [e1 X1]. destruct (missing_total polyfit cv PF ltac:(cbn; lia)) as [e2 X2].
    assert (CM : exists w, @check_missing_lines R Rexact polyfit ch cv thr = Ok w) by (unfold check_missing_lines; rewrite X1, X2; cbn [bind]; eauto). destruct CM as [w CM].
    destruct (undistor_intercept_total (fun x => x) polyfit minimize lh lv 0 0 false thr _ _ _ _ w Eh Ev) as [[uh uv] E]; [discriminate|discriminate|exact CM|].
    destruct (undistor_intercept_ok (fun x => x) polyfit minimize lh lv 0 0 false thr w uh uv ltac:(cbn; lia) ltac:(cbn; lia) E) as (ch' & cv' & F1 & F2 & _ & S1 & S2).
    pose proof (fits_hor_fun _ _ _ _ _ _ _ F1 (para_hor_fits (fun x => x) polyfit _ _ _ _ _ Eh)) as ->. pose proof (fits_ver_fun _ _ _ _ _ _ _ F2 (para_ver_fits (fun x => x) polyfit _ _ _ _ _ Ev)) as ->.
    assert (Euv : uv = ds).
    { refine (eq_trans (spread_equidistant (fun x => x) minimize false 1 cv uv (-4) 3 MO (le_n 1) ltac:(cbn; lia) ltac:(lra) _ S2) _); [|reflexivity].
      rewrite Sv. intros i Hi. cbn in Hi. unfold ds. destruct i as [|[|[|[|i]]]]; try lia; cbn [nth INR]; lra. }
    assert (Euh : uh = [u0; u1; u2; u3]).
    { destruct S1 as [pos [d (F & Lu & U & Dn & _)]]. rewrite Sh in F. apply Pp in F. subst pos. specialize (Dn eq_refl). rewrite Sh in Dn.
      change (length ch) with 4%nat in Lu, U. apply (nth_ext _ _ 0 0); [exact Lu|]. intros i Hi. rewrite Lu in Hi. rewrite U by exact Hi. rewrite (Uu i Hi).
      assert (I : forall k, inter ch k = nth k cs 0) by (intros k; unfold inter; rewrite <- (map_nth snd); reflexivity). rewrite !I, Dn. reflexivity. }
    subst uh uv.
    pose proof (forward_call (fun x => x) polyfit minimize lstsq lh lv 0 0 1 false thr ltac:(lia) w _ _ _ _ _ _ E Eh Ev) as FC. unfold fwd_samples in FC.
    set (l := line_samples (hor_sample 0 0) ch [u0; u1; u2; u3] lh ++ line_samples (ver_sample 0 0) cv ds lv) in *.
    set (qs := [u0 / c0; u0 / c0; u0 / c0; u1 / c1; u1 / c1; u1 / c1; u2 / c2; u2 / c2; u2 / c2; u3 / c3; u3 / c3; u3 / c3; 1; 1; 1; 1; 1; 1; 1; 1; 1; 1; 1; 1]).
    assert (Ql : map snd l = qs).
    { unfold l, line_samples, lh, lv, ch, cv, grid_hor, grid_ver, cs, ds, xs, qs, hor_sample, ver_sample. cbn [map combine concat app fst snd].
      assert (G : forall u c t, c <> 0 -> u / (0 * t ^ 2 + c) = u / c) by (intros; f_equal; ring). rewrite !G by (assumption || lra). repeat (apply f_equal2; [first [reflexivity|field]|]). reflexivity. }
    assert (Us : usable l = l).
    { apply usable_all. intros s Hs. assert (I : In (snd s) qs) by (rewrite <- Ql; now apply in_map).
      assert (D : forall u c, u <> 0 -> c <> 0 -> u / c <> 0) by (intros; unfold Rdiv; apply Rmult_integral_contrapositive; split; [assumption|now apply Rinv_neq_0_compat]).
      unfold qs in I. cbn [In] in I. repeat (destruct I as [<-|I]; [first [now apply D|lra]|]). destruct I. }
    rewrite Us in FC. destruct (solve_total (fun x => x) lstsq LS (Z.to_nat (Z.max 1 1)) l) as [F EF]; [discriminate|].
    pose proof (solve_best (fun x => x) lstsq LS _ _ F EF) as B. change (Z.to_nat (Z.max 1 1)) with 1%nat in *. destruct F as [|a [|b F]]; try (destruct B as [B _]; discriminate B).
    exists a. split; [exact (eq_trans FC EF)|]. apply const_fit in B. rewrite Ql in B. assert (Ll : length l = 24%nat) by (rewrite <- (map_length snd), Ql; reflexivity). rewrite Ll in B.
    unfold qs in B. cbn [Rsum] in B. replace (INR 24) with 24 in B by (cbn [INR]; lra). lra.
  Qed.
End Tie.
Theorem C137_tie_refuted : forall polyfit minimize lstsq thr, polyfit_oracle polyfit -> minimize_oracle minimize -> lstsq_oracle lstsq ->
  let calc := fun lh lv => @calc_coef_forward R Rexact polyfit minimize lstsq lh lv 0 0 1 false thr in
  let lh := grid_hor 0 0 0 [-4; -1; 1; 2] [0; 1; 3] in let lv := grid_ver 0 0 0 [-4; -1; 2; 5] [0; 1; 3] in
  exists a, calc lh lv = Ok [a] /\ forall d, 0 < d -> exists lh' b, moved d lh lh' /\ calc lh' lv = Ok [b] /\ 1 / 5 < a - b.
Proof.
  intros polyfit minimize lstsq thr PF MO LS calc lh lv.
  destruct (flat_tie polyfit minimize lstsq PF MO LS thr (-4) (-1) 1 2 (-7 / 2) (-1) (3 / 2) 4 1) as [a [Ea Va]]; try lra.
  - intros pos (L & M & F). cbn [length map] in L, M. cbn [map] in F. specialize (M 1%nat ltac:(cbn; lia)). assert (F1 := fun H => F 1%nat H).
    destruct pos as [|[|[|[|pos]]]]; [exfalso|reflexivity|exfalso|exfalso|cbn in L; lia]; try (specialize (F1 ltac:(lia))); cbn [nth] in *; unfold Rabs in *; repeat destruct (Rcase_abs _); lra.
  - assert (A : average (gaps (around 1 1 [-4; -1; 1; 2])) = 5 / 2) by (unfold around; cbn [Nat.sub Nat.add firstn skipn gaps]; unfold average; cbn [Rsum length INR]; unfold Rabs; repeat destruct (Rcase_abs _); lra).
    rewrite A. intros i Hi. destruct i as [|[|[|[|i]]]]; try lia; cbn [nth]; unfold sgn; repeat destruct (Rlt_dec _ _); cbn; lra.
  - exists a. split; [exact Ea|]. intros d Hd. set (t := Rmin d (1 / 2)). assert (Ht : 0 < t <= 1 / 2 /\ t <= d) by (unfold t; split; [split; [apply Rmin_glb_lt; lra|apply Rmin_r]|apply Rmin_l]).
    destruct (flat_tie polyfit minimize lstsq PF MO LS thr (-4) (-1 - t) 1 2 (-2 - t) (- (1 + t) / 2) 1 ((5 + t) / 2) 2) as [b [Eb Vb]]; try lra.
    + intros pos (L & M & F). cbn [length map] in L, M. cbn [map] in F. specialize (M 2%nat ltac:(cbn; lia)). 
      destruct pos as [|[|[|[|pos]]]]; [exfalso|exfalso|reflexivity|exfalso|cbn in L; lia]; cbn [nth] in *; unfold Rabs in *; repeat destruct (Rcase_abs _); lra.
    + assert (A : average (gaps (around 2 1 [-4; -1 - t; 1; 2])) = (3 + t) / 2) by (unfold around; cbn [Nat.sub Nat.add firstn skipn gaps]; unfold average; cbn [Rsum length INR]; unfold Rabs; repeat destruct (Rcase_abs _); lra).
      rewrite A. intros i Hi. destruct i as [|[|[|[|i]]]]; try lia; cbn [nth]; unfold sgn; repeat destruct (Rlt_dec _ _); cbn; lra.
    + exists (grid_hor 0 0 0 [-4; -1 - t; 1; 2] [0; 1; 3]), b. split; [|split; [exact Eb|]].
      * unfold moved, lh, grid_hor. cbn [map]. repeat (apply Forall2_cons || apply Forall2_nil); unfold py, pxc; cbn [fst snd]; split; unfold Rabs; destruct (Rcase_abs _); lra.
      * replace (- (1 + t) / 2 / (-1 - t)) with (1 / 2) in Vb by (field; lra). lra.
Qed.
Print Assumptions C137_tie_refuted.
