(** Properties of discorpy/prep/preprocessing.py: lists of dots (C43-C47,
    C50-C53). *)
From Coq Require Import Floats.
From Coq Require Import Reals ZArith List Lra Lia Permutation Sorted.

From Flocq Require Import Core.
From Verif Require Import Base Num Img Post Spec Lsq LsqEx NumFacts Sorting PrepSpec PrepImg PrepPts PrepFacts PrepFacts2
  PrepFacts3 PrepFacts4 PrepFacts5 PrepEx2.
Import ListNotations.
Local Open Scope R_scope.
Local Existing Instance Rex.

(** ** C43 membership test *)
Theorem C43_membership : forall p q slope dot_dist ratio miss,
  check_dot_on_line p q slope dot_dist ratio miss = true <->
  Rabs (pxc q - pxc p) < IZR miss * dot_dist /\
  line_dist slope (py p - slope * pxc p) (pxc q) (py q) < ratio * dot_dist.
Proof. intros. apply check_iff. Qed.
Print Assumptions C43_membership.
Theorem C43_symmetric : forall p q slope dot_dist ratio miss,
  check_dot_on_line p q slope dot_dist ratio miss = check_dot_on_line q p slope dot_dist ratio miss.
Proof.
  intros. apply Bool.eq_true_iff_eq. rewrite !check_iff. split; apply same_line_sym.
Qed.
Print Assumptions C43_symmetric.
Theorem C43_translation : forall t p q slope dot_dist ratio miss,
  check_dot_on_line (padd t p) (padd t q) slope dot_dist ratio miss = check_dot_on_line p q slope dot_dist ratio miss.
Proof.
  intros. apply Bool.eq_true_iff_eq. rewrite !check_iff. apply same_line_translate.
Qed.
Print Assumptions C43_translation.
(** line_dist really is the distance to the line y = a x + b. *)
Lemma C43_line_dist_perp : forall a b u v t, line_dist a b u v <= dist (v, u) (a * t + b, t) /\
  exists t', line_dist a b u v = dist (v, u) (a * t' + b, t').
Proof.
  intros a b u v t. unfold line_dist, dist, py, pxc. cbn [fst snd].
  assert (P : 0 < a * a + 1) by nra.
  assert (Q : 0 < sqrt (a * a + 1)) by now apply sqrt_lt_R0.
  assert (Hs : forall e, 0 <= e -> (a * u - v + b) * (a * u - v + b) <= e * (a * a + 1) -> Rabs (a * u - v + b) / sqrt (a * a + 1) <= sqrt e).
  { intros e He H. apply (Rmult_le_reg_r (sqrt (a * a + 1))); [assumption|].
    replace (Rabs (a * u - v + b) / sqrt (a * a + 1) * sqrt (a * a + 1)) with (Rabs (a * u - v + b)) by (field; lra).
    rewrite <- sqrt_mult by lra. rewrite <- sqrt_Rsqr_abs. apply sqrt_le_1_alt. exact H. }
  assert (Hg : forall e, 0 <= e -> (a * u - v + b) * (a * u - v + b) = e * (a * a + 1) -> Rabs (a * u - v + b) / sqrt (a * a + 1) = sqrt e).
  { intros e He H. apply (Rmult_eq_reg_r (sqrt (a * a + 1))); [|lra].
    replace (Rabs (a * u - v + b) / sqrt (a * a + 1) * sqrt (a * a + 1)) with (Rabs (a * u - v + b)) by (field; lra).
    rewrite <- sqrt_mult by lra. rewrite <- sqrt_Rsqr_abs. f_equal. exact H. }
  split.
  - apply Hs; [apply Rplus_le_le_0_compat; apply Rle_0_sqr|].
    set (p := u - t). set (q := v - (a * t + b)).
    replace (a * u - v + b) with (a * p - q) by (unfold p, q; ring).
    pose proof (Rle_0_sqr (p + a * q)) as H. unfold Rsqr in H. lra.
  - exists ((u + a * (v - b)) / (a * a + 1)). apply Hg; [|field; lra].
    apply Rplus_le_le_0_compat; apply Rle_0_sqr.
Qed.
Example C43_ex : check_dot_on_line (0, 0) (1 / 10, 1) 0 1 (3 / 10) 2 = true /\
  check_dot_on_line (0, 0) (1 / 2, 1) 0 1 (3 / 10) 2 = false.
Proof.
  assert (S1 : sqrt (0 * 0 + 1) = 1) by (replace (0 * 0 + 1) with 1 by ring; apply sqrt_1).
  split.
  - apply C43_membership. unfold line_dist, py, pxc. cbn [fst snd]. rewrite S1. split; apply Rabs_def1 || idtac; try lra.
    replace (0 * 1 - 1 / 10 + (0 - 0 * 0)) with (- (1 / 10)) by ring. rewrite Rabs_Ropp, Rabs_pos_eq; lra.
  - apply Bool.not_true_iff_false. rewrite C43_membership. intros [_ H]. unfold line_dist, py, pxc in H. cbn [fst snd] in H. rewrite S1 in H.
    replace (0 * 1 - 1 / 2 + (0 - 0 * 0)) with (- (1 / 2)) in H by ring. rewrite Rabs_Ropp, Rabs_pos_eq in H; lra.
Qed.

(** ** C44 grouping, soundness *)
(** For every rounding: no dot is invented or used twice, lines have at least
    two dots, in order of x, and consecutive dots pass the test. *)
Theorem C44_grouping : forall rnd argsort label pts slope dot_dist ratio miss accepted lines, argsort_spec argsort ->
  @group_dots_hor_lines R (Rnum rnd) argsort label (DPts pts) slope dot_dist ratio miss accepted = Ok lines ->
  submultiset (concat lines) pts /\
  Forall (fun l => (2 <= length l)%nat /\ StronglySorted (fun a b => pxc a <= pxc b) l /\
    chain (fun a b => @check_dot_on_line R (Rnum rnd) a b slope dot_dist ratio miss = true) l) lines.
Proof.
  intros rnd argsort label pts s dd r m ar lines HA E.
  destruct pts as [|p pts]; [discriminate|]. set (ps := p :: pts) in *.
  destruct (hor_unfold rnd argsort label ps s dd r m ar HA) as [sp [groups [rest [P1 [S1 [P2 E2]]]]]]; [discriminate|].
  rewrite E2 in E. destruct (max_len _) as [mx|]; [|discriminate]. cbn [bind] in E. injection E as <-.
  set (g1 := filter (fun g => (1 <? Z.of_nat (length g))%Z) groups). set (g2 := filter _ g1).
  split.
  - destruct (filter_concat_sub (fun l => (Ztrunc (rnd (ar * IZR mx)%R) <? Z.of_nat (length l))%Z) g1) as [r1 Q1].
    destruct (filter_concat_sub (fun g : list (R * R) => (1 <? Z.of_nat (length g))%Z) groups) as [r2 Q2].
    exists (r1 ++ r2 ++ rest). rewrite (concat_perm _ _ (sorted_perm _ g2)).
    rewrite <- P1, (passes_perm _ _ _ _ P2), Q2. fold g1. rewrite Q1. fold g2. rewrite <- !app_assoc. apply Permutation_refl.
  - apply Forall_forall. intros l Hl. apply (Permutation_in _ (sorted_perm _ _)) in Hl. apply filter_In in Hl. destruct Hl as [Hl _].
    apply filter_In in Hl. destruct Hl as [Hl Hlen]. apply Z.ltb_lt in Hlen.
    destruct (passes_groups _ _ _ _ _ P2 S1) as [F _]. rewrite Forall_forall in F. destruct (F l Hl) as [C [S _]].
    split; [unfold pt in *; lia|]. split; assumption.
Qed.
Print Assumptions C44_grouping.
(** Exactly: the test is the geometric one, and lines come in order of mean
    y. *)
Theorem C44_exact : forall argsort label pts slope dot_dist ratio miss accepted lines, argsort_spec argsort ->
  group_dots_hor_lines argsort label (DPts pts) slope dot_dist ratio miss accepted = Ok lines ->
  Forall (fun l => chain (same_line slope (IZR miss * dot_dist) (ratio * dot_dist)) l) lines /\
  StronglySorted (fun a b => Rmean (map py a) <= Rmean (map py b)) lines.
Proof.
  intros argsort label pts s dd r m ar lines HA E. split.
  - destruct (C44_grouping (fun x => x) argsort label pts s dd r m ar lines HA E) as [_ F].
    eapply Forall_impl; [|exact F]. intros l [_ [_ C]]. revert C. apply chain_ext. intros a b H. now apply check_iff.
  - destruct pts as [|p pts]; [discriminate|].
    destruct (hor_unfold (fun x => x) argsort label (p :: pts) s dd r m ar HA) as [sp [groups [rest [P1 [S1 [P2 E2]]]]]]; [discriminate|].
    change (Rnum (fun x => x)) with Rex in E2. rewrite E2 in E.
    destruct (max_len _) as [mx|]; [|discriminate]. cbn [bind] in E. injection E as <-.
    assert (EM : forall l : list R, @mean R Rex l = Rmean l).
    { intros l. unfold mean, Rmean. rewrite nsum_Rex. unfold Rex. cbn [ndiv nofZ Rnum]. now rewrite <- INR_IZR_INZ. }
    pose proof (sorted_sorted (fun x => x) (fun l : list (R * R) => @mean R Rex (map fst l))
      (filter (fun l => (Ztrunc (ar * IZR mx)%R <? Z.of_nat (length l))%Z) (filter (fun g => (1 <? Z.of_nat (length g))%Z) groups))) as S.
    assert (G : forall l : list (list (R * R)), StronglySorted (fun a b => @mean R Rex (map fst a) <= @mean R Rex (map fst b)) l ->
      StronglySorted (fun a b : list (R * R) => Rmean (map fst a) <= Rmean (map fst b)) l).
    { induction 1 as [|a l _ IH F]; constructor; [assumption|]. eapply Forall_impl; [|exact F].
      intros b. cbn beta. now rewrite !EM. }
    apply G. exact S.
Qed.
Print Assumptions C44_exact.
(** It always ends; the only failure is a ValueError, as for no dots. *)
Theorem C44_errors : forall (T : Type) (N : Num T) argsort label pts slope dot_dist ratio miss accepted e,
  (group_dots_hor_lines argsort label (DPts pts) slope dot_dist ratio miss accepted = Err e -> e = ValueError) /\
  group_dots_hor_lines argsort label (DPts []) slope dot_dist ratio miss accepted = Err ValueError.
Proof. intros. split; [apply hor_err|reflexivity]. Qed.
Print Assumptions C44_errors.
Example C44_ex : @group_dots_hor_lines _ FloatNum (@argsort_ins _ FloatNum) (fun _ => (mkimg 0 0 (fun _ _ => 0%Z), 0%Z))
    (DPts [(0, 2); (10, 0); (0, 0); (0, 1); (10, 1)]%float) 0%float 1%float 0.25%float 2 0.625%float
  = Ok [[(0, 0); (0, 1); (0, 2)]; [(10, 0); (10, 1)]]%float.
Proof. vm_compute. reflexivity. Qed.

(** ** C45 grouping, completeness *)
(** The dots, in order of x, are split by repeated passes; the result is made
    of exactly the groups of at least two dots with more than
    int(accepted * longest) dots; without a group it is a ValueError. *)
Theorem C45_groups : forall argsort label pts slope dot_dist ratio miss accepted, argsort_spec argsort -> pts <> [] ->
  exists sp groups rest, Permutation sp pts /\ StronglySorted (fun a b => pxc a <= pxc b) sp /\
    passes (same_line slope (IZR miss * dot_dist) (ratio * dot_dist)) sp groups rest /\
    Permutation pts (concat groups ++ rest) /\ (length rest <= 1)%nat /\
    let result := group_dots_hor_lines argsort label (DPts pts) slope dot_dist ratio miss accepted in
    ((forall g, In g groups -> (length g < 2)%nat) -> result = Err ValueError) /\
    (forall longest, In longest groups -> (2 <= length longest)%nat -> (forall g, In g groups -> (length g <= length longest)%nat) ->
       exists lines kept, result = Ok lines /\ Permutation lines kept /\
         selects (fun g => (2 <= length g)%nat /\ (Ztrunc (accepted * INR (length longest))%R < Z.of_nat (length g))%Z) groups kept).
Proof.
  intros argsort label pts s dd r m ar HA Hne.
  destruct (hor_unfold (fun x => x) argsort label pts s dd r m ar HA Hne) as [sp [groups [rest [P1 [S1 [P2 E2]]]]]].
  exists sp, groups, rest. split; [assumption|]. split; [assumption|].
  assert (P2' : passes (same_line s (IZR m * dd) (r * dd)) sp groups rest).
  { revert P2. apply passes_ext. intros a b. apply check_iff. }
  split; [assumption|]. split; [rewrite <- P1; exact (passes_perm _ _ _ _ P2')|].
  split; [exact (proj2 (passes_groups _ _ _ _ _ P2' S1))|].
  change (Rnum (fun x => x)) with Rex in E2. cbv zeta. rewrite E2. split.
  - intros H. replace (filter _ groups) with (@nil (list (R * R))); [reflexivity|].
    symmetry. apply filter_nil. intros g Hg. apply Z.ltb_ge. specialize (H g Hg). (unfold pt in *; lia).
  - intros lg Hlg Hl2 Hmax. set (g1 := filter (fun g => (1 <? Z.of_nat (length g))%Z) groups).
    assert (I1 : In lg g1) by (apply filter_In; split; [assumption|apply Z.ltb_lt; (unfold pt in *; lia)]).
    destruct (max_len g1) as [mx|] eqn:Em; [|destruct g1; [destruct I1|discriminate]].
    apply max_len_spec in Em. destruct Em as [[l0 [H0 E0]] Hle].
    assert (Hmx : mx = Z.of_nat (length lg)).
    { pose proof (Hle lg I1). apply filter_In in H0. pose proof (Hmax l0 (proj1 H0)). (unfold pt in *; lia). }
    rewrite Hmx. cbn [bind]. eexists. exists (filter (fun l => (Ztrunc (ar * IZR (Z.of_nat (length lg)))%R <? Z.of_nat (length l))%Z) g1).
    split; [reflexivity|]. split; [apply sorted_perm|]. rewrite INR_IZR_INZ. unfold g1.
    assert (FF : forall A (f g : A -> bool) l, filter f (filter g l) = filter (fun a => andb (g a) (f a)) l).
    { intros A f g l. induction l as [|a l IH]; cbn; [reflexivity|]. destruct (g a); cbn; [|assumption]. destruct (f a); now rewrite IH. }
    rewrite FF. apply filter_selects. intros g. rewrite Bool.andb_true_iff, !Z.ltb_lt. (unfold pt in *; lia).
Qed.
Print Assumptions C45_groups.
(** The length rule is strict: accepted_ratio = 1 keeps nothing. *)
Theorem C45_full_ratio : forall argsort label pts slope dot_dist ratio miss accepted lines, argsort_spec argsort -> 1 <= accepted ->
  group_dots_hor_lines argsort label (DPts pts) slope dot_dist ratio miss accepted = Ok lines -> lines = [].
Proof.
  intros argsort label pts s dd r m ar lines HA H1 E. destruct pts as [|p pts]; [discriminate|].
  destruct (hor_unfold (fun x => x) argsort label (p :: pts) s dd r m ar HA) as [sp [groups [rest [P1 [S1 [P2 E2]]]]]]; [discriminate|].
  change (Rnum (fun x => x)) with Rex in E2. rewrite E2 in E.
  destruct (max_len _) as [mx|] eqn:Em; [|discriminate]. cbn [bind] in E. injection E as <-.
  apply max_len_spec in Em. destruct Em as [[l0 [H0 E0]] Hle].
  rewrite filter_nil; [reflexivity|]. intros g Hg. apply Z.ltb_ge. apply Z.le_trans with mx; [now apply Hle|].
  assert (0 <= IZR mx) by (apply IZR_le; (unfold pt in *; lia)).
  rewrite Ztrunc_floor by nra. apply Zfloor_lub. nra.
Qed.
Print Assumptions C45_full_ratio.
Example C45_ex : @group_dots_hor_lines _ FloatNum (@argsort_ins _ FloatNum) (fun _ => (mkimg 0 0 (fun _ _ => 0%Z), 0%Z))
    (DPts [(0, 2); (10, 0); (0, 0); (0, 1); (10, 1)]%float) 0%float 1%float 0.25%float 2 0.75%float
  = Ok [[(0, 0); (0, 1); (0, 2)]]%float /\
  @group_dots_hor_lines _ FloatNum (@argsort_ins _ FloatNum) (fun _ => (mkimg 0 0 (fun _ _ => 0%Z), 0%Z))
    (DPts [(0, 2); (10, 0); (0, 0); (0, 1); (10, 1)]%float) 0%float 1%float 0.25%float 2 1%float = Ok [].
Proof. split; vm_compute; reflexivity. Qed.

(** ** C46 vertical = horizontal with exchanged coordinates *)
(** In every arithmetic, in every case (errors included). *)
Theorem C46_grouping : forall (T : Type) (N : Num T) argsort label pts slope dot_dist ratio miss accepted,
  let exchange := map (fun p : T * T => (snd p, fst p)) in
  group_dots_ver_lines argsort label (DPts pts) slope dot_dist ratio miss accepted =
  res_map (map exchange) (group_dots_hor_lines argsort label (DPts (exchange pts)) slope dot_dist ratio miss accepted).
Proof. intros. apply ver_hor. Qed.
Print Assumptions C46_grouping.
Theorem C46_residual : forall (T : Type) (N : Num T) cos_ atan_ polyfit lines slope residual,
  let exchange := map (fun p : T * T => (snd p, fst p)) in
  remove_residual_dots_ver cos_ atan_ polyfit lines slope residual =
  res_map (map exchange) (remove_residual_dots_hor cos_ atan_ polyfit (map exchange lines) slope residual).
Proof. intros. apply residual_ver_hor. Qed.
Print Assumptions C46_residual.
(** Polynomial-fit grouping (exact arithmetic, a fit that does not depend on
    the order of the points): the same outcome, line by line the same dots. *)
Theorem C46_polyfit : forall argsort label polyfit fuel pts slope ld ratio miss accepted overlap order,
  argsort_spec argsort ->
  (forall (s s' : list pt) k, Permutation s s' ->
     polyfit (map pxc s) (map py s) k = polyfit (map pxc s') (map py s') k) ->
  let exchange := map (fun p : R * R => (snd p, fst p)) in
  match group_dots_ver_lines_based_polyfit argsort label cos sin atan polyfit PI fuel pts slope ld ratio miss accepted overlap order,
        group_dots_hor_lines_based_polyfit argsort label cos sin atan polyfit PI fuel (exchange pts) slope ld ratio miss accepted overlap order with
  | Ok ver, Ok hor => Forall2 (fun v h => Permutation (exchange v) h) ver hor
  | Err e, Err e' => e = e'
  | _, _ => False
  end.
Proof. intros argsort label polyfit fuel pts s ld r m ar ov k HA HP. exact (polyfit_ver_hor argsort label polyfit HA HP fuel pts s ld r m ar ov k). Qed.
Print Assumptions C46_polyfit.
Example C46_ex : (forall (s s' : list pt) k, Permutation s s' ->
  fit_sorted (map pxc s) (map py s) k = fit_sorted (map pxc s') (map py s') k) /\ argsort_spec (@argsort_ins R Rex).
Proof. split; [exact fit_sorted_order_free|exact (argsort_ins_ok (fun x => x))]. Qed.
Example C46_ex2 : @group_dots_ver_lines _ FloatNum (@argsort_ins _ FloatNum) (fun _ => (mkimg 0 0 (fun _ _ => 0%Z), 0%Z))
    (DPts [(2, 0); (0, 10); (0, 0); (1, 0); (1, 10)]%float) 0%float 1%float 0.25%float 2 0.625%float
  = Ok [[(0, 0); (1, 0); (2, 0)]; [(0, 10); (1, 10)]]%float.
Proof. vm_compute. reflexivity. Qed.

(** ** C47 residual dots *)
Lemma residual_left_R polyfit slope residual l v : polyfit (map snd l) (map fst l) 2%nat = Ok v -> polyfit_spec 2 (map snd l) (map fst l) v ->
  exists left, @residual_left_hor R Rex cos atan polyfit slope residual l = Ok left /\
    selects (fun p => Rabs (fst p - poly (rev v) (snd p)) * cos (atan slope) < residual) l left.
Proof.
  intros E S. pose proof (proj1 S) as L. destruct v as [|a2 [|a1 [|a0 [|? ?]]]]; try discriminate L.
  unfold residual_left_hor. rewrite E. cbn [bind]. eexists. split; [reflexivity|].
  apply filter_selects. intros p. unfold Rex. cbn [nltb nabs nmul nadd nsub npow Rnum]. rewrite Rlt_bool_true_iff.
  assert (C : 0 < cos (atan slope)) by (pose proof (atan_bound slope); apply cos_gt_0; lra).
  rewrite Rabs_mult, (Rabs_pos_eq (cos _)) by lra. rewrite Rabs_minus_sym.
  replace (poly (rev [a2; a1; a0]) (snd p)) with (a2 * snd p ^ 2 + a1 * snd p + a0) by (cbn; ring). reflexivity.
Qed.
Theorem C47_hor : forall polyfit lines slope residual,
  (forall l, In l lines -> exists v, polyfit (map pxc l) (map py l) 2%nat = Ok v /\ polyfit_spec 2 (map pxc l) (map py l) v) ->
  exists lefts kept,
    Forall2 (fun l left => exists v, polyfit_spec 2 (map pxc l) (map py l) v /\
      selects (fun p => Rabs (py p - poly (rev v) (pxc p)) * cos (atan slope) < residual) l left) lines lefts /\
    selects (fun left => left <> []) lefts kept /\
    remove_residual_dots_hor cos atan polyfit lines slope residual = match kept with [] => Err ValueError | _ => Ok kept end.
Proof.
  intros polyfit lines slope residual Hf.
  assert (M : exists lefts, mapM (@residual_left_hor R Rex cos atan polyfit slope residual) lines = Ok lefts /\
    Forall2 (fun l left => exists v, polyfit_spec 2 (map pxc l) (map py l) v /\
      selects (fun p => Rabs (py p - poly (rev v) (pxc p)) * cos (atan slope) < residual) l left) lines lefts).
  { induction lines as [|l lines IH]; [exists []; split; [reflexivity|constructor]|].
    destruct IH as [ls [E F]]; [intros; apply Hf; now right|].
    destruct (Hf l (or_introl eq_refl)) as [v [Ev Sv]].
    destruct (residual_left_R polyfit slope residual l v Ev Sv) as [left [El S]].
    exists (left :: ls). split; [cbn [mapM]; rewrite El; cbn [bind]; now rewrite E|]. constructor; [|assumption].
    exists v. split; assumption. }
  destruct M as [lefts [E F]].
  exists lefts, (filter (fun l => (0 <? Z.of_nat (length l))%Z) lefts). split; [assumption|]. split.
  - apply filter_selects. intros l. rewrite Z.ltb_lt. destruct l; cbn; split; intros H; congruence || lia || idtac.
  - unfold remove_residual_dots_hor. rewrite E. cbn [bind]. now destruct (filter _ lefts).
Qed.
Print Assumptions C47_hor.
Theorem C47_ver : forall polyfit lines slope residual,
  (forall l, In l lines -> exists v, polyfit (map py l) (map pxc l) 2%nat = Ok v /\ polyfit_spec 2 (map py l) (map pxc l) v) ->
  exists lefts kept,
    Forall2 (fun l left => exists v, polyfit_spec 2 (map py l) (map pxc l) v /\
      selects (fun p => Rabs (pxc p - poly (rev v) (py p)) * cos (atan slope) < residual) l left) lines lefts /\
    selects (fun left => left <> []) lefts kept /\
    remove_residual_dots_ver cos atan polyfit lines slope residual = match kept with [] => Err ValueError | _ => Ok kept end.
Proof.
  intros polyfit lines slope residual Hf.
  assert (S1 : forall l : list (R * R), map snd (map swp l) = map fst l) by (intros l; rewrite map_map; apply map_ext; now intros []).
  assert (S2 : forall l : list (R * R), map fst (map swp l) = map snd l) by (intros l; rewrite map_map; apply map_ext; now intros []).
  assert (S3 : forall l : list (R * R), map swp (map swp l) = l) by (intros l; rewrite map_map; erewrite map_ext; [apply map_id|now intros []]).
  destruct (C47_hor polyfit (map (map swp) lines) slope residual) as [lefts [kept [F [S E]]]].
  { intros l Hl. apply in_map_iff in Hl. destruct Hl as [l0 [<- Hl]]. unfold pxc, py in *. rewrite S1, S2. now apply Hf. }
  exists (map (map swp) lefts), (map (map swp) kept). split; [|split].
  - clear - F S1 S2 S3. remember (map (map swp) lines) as L eqn:EL. revert lines EL. induction F as [|a b la lb H F IH]; intros lines EL.
    + destruct lines; [constructor|discriminate].
    + destruct lines as [|l lines]; [discriminate|]. cbn [map] in EL |- *.
      assert (Ea : a = map swp l) by congruence. assert (Eb : la = map (map swp) lines) by congruence.
      constructor; [|now apply IH]. destruct H as [v [Sv Se]]. subst a. unfold pxc, py in *. rewrite S1, S2 in Sv. exists v. split; [assumption|].
      clear - Se S3. remember (map swp l) as m eqn:Em. revert l Em. induction Se as [|p m s Hp Se IH|p m s Hp Se IH]; intros l Em.
      * destruct l; [constructor|discriminate].
      * destruct l as [|q l]; [discriminate|]. cbn [map] in *. assert (Ep : p = swp q) by congruence. assert (El : m = map swp l) by congruence.
        subst p. rewrite swp_swp. apply sel_yes; [|now apply IH]. exact Hp.
      * destruct l as [|q l]; [discriminate|]. cbn [map] in *. assert (Ep : p = swp q) by congruence. assert (El : m = map swp l) by congruence.
        subst p. apply sel_no; [|now apply IH]. exact Hp.
  - clear - S. induction S as [|a l s Ha S IH|a l s Ha S IH]; cbn [map]; [constructor| |].
    + constructor; [|assumption]. destruct a; [now elim Ha|discriminate].
    + apply sel_no; [|assumption]. intros H. apply Ha. intros ->. now apply H.
  - rewrite residual_ver_hor, E. destruct kept; reflexivity.
Qed.
Print Assumptions C47_ver.
Corollary C47_error : forall polyfit lines slope residual,
  (forall l, In l lines -> exists v, polyfit (map pxc l) (map py l) 2%nat = Ok v /\ polyfit_spec 2 (map pxc l) (map py l) v) ->
  (forall e, remove_residual_dots_hor cos atan polyfit lines slope residual = Err e -> e = ValueError) /\
  (residual <= 0 -> remove_residual_dots_hor cos atan polyfit lines slope residual = Err ValueError).
Proof.
  intros polyfit lines slope residual Hf. destruct (C47_hor polyfit lines slope residual Hf) as [lefts [kept [F [S E]]]]. split.
  - intros e. rewrite E. destruct kept; congruence.
  - intros Hr. rewrite E. assert (K : Forall (fun l => l = []) lefts).
    { clear - F Hr. induction F as [|a b la lb [v [_ H]] F IH]; constructor; [|assumption].
      assert (C : 0 < cos (atan slope)) by (pose proof (atan_bound slope); apply cos_gt_0; lra).
      destruct H as [|p l s Hp H|p l s Hp H]; [reflexivity| |].
      - exfalso. pose proof (Rabs_pos (py p - poly (rev v) (pxc p))). nra.
      - clear Hp. induction H as [|q l s Hq H IHs|q l s Hq H IHs]; [reflexivity| |assumption].
        exfalso. pose proof (Rabs_pos (py q - poly (rev v) (pxc q))). nra. }
    clear - K S. induction S as [|a l s Ha S IH|a l s Ha S IH]; [reflexivity|inversion K; congruence|]. inversion K. now apply IH.
Qed.
(** A concrete instance: dots on a parabola are all kept. *)
Example C47_ex : remove_residual_dots_hor cos atan (fun xs ys k => Ok [1; 0; 0]) [[(0, 0); (1, 1); (4, 2); (9, 3)]] 0 (1 / 2) =
    Ok [[(0, 0); (1, 1); (4, 2); (9, 3)]] /\
  polyfit_spec 2 [0; 1; 2; 3] [0; 1; 4; 9] [1; 0; 0].
Proof.
  assert (P : polyfit_spec 2 [0; 1; 2; 3] [0; 1; 4; 9] [1; 0; 0]).
  { split; [reflexivity|]. intros v' _. replace (sqerr _ _ [1; 0; 0]) with 0; [apply sqerr_nonneg|]. cbn. ring. }
  split; [|exact P].
  destruct (residual_left_R (fun xs ys k => Ok [1; 0; 0]) 0 (1 / 2) [(0, 0); (1, 1); (4, 2); (9, 3)] [1; 0; 0] eq_refl P) as [left [E S]].
  assert (D : forall p, fst p = snd p ^ 2 -> Rabs (fst p - poly (rev [1; 0; 0]) (snd p)) * cos (atan 0) < 1 / 2).
  { intros p ->. cbn. replace (snd p * (snd p * 1) - _) with 0 by ring. rewrite Rabs_R0. lra. }
  assert (L : left = [(0, 0); (1, 1); (4, 2); (9, 3)]).
  { clear - S D. repeat match goal with H : selects _ (?p :: _) _ |- _ => inversion H as [|? ? ? _ ?|? ? ? Hn ?]; subst; clear H;
      [|exfalso; apply Hn, D; cbn; lra] end.
    match goal with H : selects _ [] _ |- _ => inversion H end. reflexivity. }
  subst left. unfold remove_residual_dots_hor. cbn [mapM]. rewrite E. reflexivity.
Qed.

(** ** C50 rotation *)
Theorem C50_rotation : forall r t a, rotate_points cos sin PI [(r * sin t, r * cos t)] a false = [(r * sin (t + a), r * cos (t + a))].
Proof.
  intros. rewrite rotate_rad. unfold rot1. cbn [map fst snd]. rewrite sin_plus, cos_plus. f_equal. f_equal; ring.
Qed.
Print Assumptions C50_rotation.
Theorem C50_isometry : forall pts a deg,
  let r := rotate_points cos sin PI pts a deg in
  length r = length pts /\
  forall i j, (i < length pts)%nat -> (j < length pts)%nat ->
    dist (nth i r (0, 0)) (nth j r (0, 0)) = dist (nth i pts (0, 0)) (nth j pts (0, 0)).
Proof.
  intros pts a deg r. assert (E : exists b, r = map (rot1 b) pts).
  { destruct deg; [exists (a * (PI / 180)); apply rotate_deg|exists a; apply rotate_rad]. }
  destruct E as [b E]. rewrite E. split; [apply map_length|]. intros i j Hi Hj.
  rewrite !(nth_indep (map _ _) (0, 0) (rot1 b (0, 0))) by (rewrite map_length; assumption).
  rewrite !map_nth. apply rot1_dist.
Qed.
Print Assumptions C50_isometry.
Theorem C50_group : forall pts a b,
  rotate_points cos sin PI pts 0 false = pts /\
  rotate_points cos sin PI (rotate_points cos sin PI pts a false) b false = rotate_points cos sin PI pts (a + b) false /\
  rotate_points cos sin PI (rotate_points cos sin PI pts a false) (- a) false = pts /\
  rotate_points cos sin PI pts (a * 180 / PI) true = rotate_points cos sin PI pts a false.
Proof.
  intros pts a b. repeat rewrite rotate_rad. rewrite rotate_deg. rewrite !map_map. repeat apply conj.
  - erewrite map_ext; [apply map_id|]. apply rot1_0.
  - apply map_ext. intros. apply rot1_add.
  - erewrite map_ext; [apply map_id|]. apply rot1_inv.
  - replace (a * 180 / PI * (PI / 180)) with a; [reflexivity|]. field. apply PI_neq0.
Qed.
Print Assumptions C50_group.
Example C50_ex : rotate_points cos sin PI [(0, 2); (3, 0)] (PI / 2) false = [(2, 0); (0, -3)].
Proof. rewrite rotate_rad. unfold rot1. cbn [map fst snd]. rewrite sin_PI2, cos_PI2. f_equal; [f_equal; ring|]. f_equal. f_equal; ring. Qed.

(** ** C51 subset removal *)
Theorem C51_subset : forall rnd selected pts,
  selects (fun p => ~ In p selected) pts (@remove_subset_points R (Rnum rnd) selected pts).
Proof. apply remove_subset_selects. Qed.
Print Assumptions C51_subset.
Example C51_ex : @remove_subset_points _ FloatNum [(0, 1); (5, 5)]%float [(0, 1); (2, 2); (1, 0); (2, 2); (0, 1)]%float
  = [(2, 2); (1, 0); (2, 2)]%float.
Proof. vm_compute. reflexivity. Qed.

(** ** C52 neighbour search *)
Theorem C52_terminates_hor : forall polyfit initial pts left right search tol overlap order,
  (forall xs ys k, polyfit xs ys k <> Err External) ->
  exists n result, result <> Err External /\ forall steps, (n <= steps)%nat ->
    get_nearby_hor_points_iter polyfit steps initial pts left right search tol overlap order = result.
Proof.
  intros polyfit init pts l r sd tol ov k H. destruct (hor_iter_terminates polyfit init pts l r sd tol ov k H) as [n [E Q]].
  exists n. eexists. split; [exact E|exact Q].
Qed.
Print Assumptions C52_terminates_hor.
Theorem C52_terminates_ver : forall polyfit initial pts left right search tol overlap order,
  (forall xs ys k, polyfit xs ys k <> Err External) ->
  exists n result, result <> Err External /\ forall steps, (n <= steps)%nat ->
    get_nearby_ver_points_iter polyfit steps initial pts left right search tol overlap order = result.
Proof.
  intros polyfit init pts l r sd tol ov k H. destruct (ver_iter_terminates polyfit init pts l r sd tol ov k H) as [n [E Q]].
  exists n. eexists. split; [exact E|exact Q].
Qed.
Print Assumptions C52_terminates_ver.
Theorem C52_only_adds_hor : forall polyfit steps initial pts left right search tol overlap order result,
  (forall xs ys k v, polyfit xs ys k = Ok v -> polyfit_spec k xs ys v) ->
  get_nearby_hor_points_iter polyfit steps initial pts left right search tol overlap order = Ok result ->
  grown pxc py tol order pts initial result /\
  incl initial result /\ forall p, In p result -> In p initial \/ In p pts.
Proof.
  intros polyfit steps init pts l r sd tol ov k res Hf E.
  assert (G : grown snd fst tol k pts init res).
  { eapply nearby_hor_grown; [exact Hf|exact E|constructor]. }
  split; [exact G|]. exact (grown_incl _ _ _ _ _ _ _ G).
Qed.
Print Assumptions C52_only_adds_hor.
Theorem C52_only_adds_ver : forall polyfit steps initial pts left right search tol overlap order result,
  (forall xs ys k v, polyfit xs ys k = Ok v -> polyfit_spec k xs ys v) ->
  get_nearby_ver_points_iter polyfit steps initial pts left right search tol overlap order = Ok result ->
  grown py pxc tol order pts initial result /\
  incl initial result /\ forall p, In p result -> In p initial \/ In p pts.
Proof.
  intros polyfit steps init pts l r sd tol ov k res Hf E.
  assert (G : grown fst snd tol k pts init res).
  { eapply nearby_ver_grown; [exact Hf|exact E|constructor]. }
  split; [exact G|]. exact (grown_incl _ _ _ _ _ _ _ G).
Qed.
Print Assumptions C52_only_adds_ver.
Example C52_ex : (forall xs ys k v, fit_sorted xs ys k = Ok v -> polyfit_spec k xs ys v) /\ forall xs ys k, fit_sorted xs ys k <> Err External.
Proof. split; [exact fit_sorted_fits|]. intros xs ys k. unfold fit_sorted. discriminate. Qed.
Example C52_ex2 : @get_nearby_hor_points_iter _ FloatNum (fun _ _ _ => Ok [0; 0; 0]%float) 5 [(0, 4); (0, 5); (0, 6)]%float
    [(0, 2); (0, 3); (0, 4); (0, 5); (0, 6); (0, 7); (3, 7); (0, 12)]%float 4%float 6%float 1.5%float 0.5%float 0%float 2
  = Ok [(0, 2); (0, 3); (0, 4); (0, 5); (0, 6); (0, 7)]%float.
Proof. vm_compute. reflexivity. Qed.
Example C52_ex3 : @get_nearby_ver_points_iter _ FloatNum (fun _ _ _ => Ok [0; 0; 0]%float) 5 [(4, 0); (5, 0); (6, 0)]%float
    [(2, 0); (3, 0); (7, 0); (7, 3); (12, 0)]%float 4%float 6%float 1.5%float 0.5%float 0%float 2
  = Ok [(2, 0); (3, 0); (4, 0); (5, 0); (6, 0); (7, 0)]%float.
Proof. vm_compute. reflexivity. Qed.

(** ** C53 polynomial-fit grouping *)
(** Two dots per line: the whole central selection is returned as a line. *)
Theorem C53_one_line_per_group_refuted : exists pts lines,
  @group_dots_hor_lines_based_polyfit _ FloatNum (@argsort_ins _ FloatNum) (fun _ => (mkimg 0 0 (fun _ _ => 0%Z), 0%Z))
    (fun _ => 1%float) (fun _ => 0%float) (fun _ => 0%float) (fun _ _ _ => Ok [0; 0; 0]%float) 0x1.921fb54442d18p+1%float
    10 pts 0%float 1%float 0.25%float 3 0.625%float 0.5%float 2 = Ok lines /\
  pts = [(0, 0); (0, 1); (1, 0); (1, 1)]%float /\
  lines <> [] /\ Forall (fun l => incl pts l) lines.
Proof.
  exists [(0, 0); (0, 1); (1, 0); (1, 1)]%float. eexists. split; [vm_compute; reflexivity|]. split; [reflexivity|]. split; [discriminate|].
  apply Forall_forall. intros l Hl p Hp. cbn [In] in Hl, Hp |- *. repeat (destruct Hl as [<-|Hl]; [cbn [In]; tauto|]). destruct Hl.
Qed.
Print Assumptions C53_one_line_per_group_refuted.

(** A two-dot group after a longer one on tilted dots: the previous line is
    rotated once more and returned as a second line, made of points that are
    not input dots. *)
Theorem C53_only_input_dots_refuted : exists lines l p,
  let pts := [(0, 0); (3, 4); (6, 8); (4, -3); (7, 1)]%float in
  @group_dots_hor_lines_based_polyfit _ FloatNum (@argsort_ins _ FloatNum) (fun _ => (mkimg 0 0 (fun _ _ => 0%Z), 0%Z))
    (fun _ => 0x1.999999999999ap-1%float) (fun a => if PrimFloat.ltb a 0 then (-0x1.3333333333333p-1)%float else 0x1.3333333333333p-1%float)
    (fun _ => 0x1.4978fa3269ee1p-1%float)
    (fun xs ys k => Ok [0; 0; hd 0 ys]%float) 0x1.921fb54442d18p+1%float
    10 pts 0.75%float 5%float 0.0625%float 3 0.625%float 0.5%float 2 = Ok lines /\
  In l lines /\ In p l /\ Forall (fun q => (PrimFloat.ltb (fst q) (fst p - 0.5)%float || PrimFloat.ltb (fst p + 0.5)%float (fst q))%bool = true) pts.
Proof.
  do 3 eexists. cbv zeta. split; [vm_compute; reflexivity|].
  split; [right; left; reflexivity|]. split; [right; left; reflexivity|]. repeat constructor.
Qed.
Print Assumptions C53_only_input_dots_refuted.
(** It ends on every input (for a fit that returns). *)
Theorem C53_terminates : forall argsort label polyfit pts slope ld ratio miss accepted overlap order,
  (forall xs ys j, polyfit xs ys j <> Err External) ->
  exists n hor ver, hor <> Err External /\ ver <> Err External /\ forall steps, (n <= steps)%nat ->
    group_dots_hor_lines_based_polyfit argsort label cos sin atan polyfit PI steps pts slope ld ratio miss accepted overlap order = hor /\
    group_dots_ver_lines_based_polyfit argsort label cos sin atan polyfit PI steps pts slope ld ratio miss accepted overlap order = ver.
Proof.
  intros argsort label polyfit pts s ld r m ar ov k H.
  destruct (hor_polyfit_terminates argsort label polyfit H pts s ld r m ar ov k) as [n1 [E1 F1]].
  destruct (ver_polyfit_terminates argsort label polyfit H pts s ld r m ar ov k) as [n2 [E2 F2]].
  exists (n1 + n2)%nat. do 2 eexists. split; [exact E1|]. split; [exact E2|]. intros st Hst. split; [apply F1|apply F2]; lia.
Qed.
Print Assumptions C53_terminates.
(** Where every group of the central part has more than two dots, each
    returned line stems from one group: after rotation by -atan(slope), it
    is the group grown by dots near fitted polynomials; lines are ordered by x
    and contain input dots only. *)
Theorem C53_long_groups : forall argsort label polyfit steps pts slope ld ratio miss accepted overlap order lines,
  argsort_spec argsort -> (forall xs ys k v, polyfit xs ys k = Ok v -> polyfit_spec k xs ys v) -> 0 <= ld ->
  group_dots_hor_lines_based_polyfit argsort label cos sin atan polyfit PI steps pts slope ld ratio miss accepted overlap order = Ok lines ->
  let m := Z.min (Z.max miss 1) (Z.of_nat (length pts)) in
  let a := - atan slope in
  exists rotated centre groups,
    Permutation rotated (map (rot1 a) pts) /\ StronglySorted (fun p q => pxc p <= pxc q) rotated /\
    central (IZR m * ld + ld / 2) rotated centre /\
    group_dots_hor_lines argsort label (DPts centre) 0 ld ratio m accepted = Ok groups /\
    (Forall (fun g => (2 < length g)%nat) groups ->
     Forall (fun line => (forall p, In p line -> In p pts) /\ StronglySorted (fun p q => pxc p <= pxc q) line /\
       exists g s, In g groups /\ grown pxc py (ratio * ld) order rotated g s /\ Permutation line (map (rot1 (- a)) s)) lines).
Proof.
  intros argsort label polyfit steps pts s ld r ms ar ov k lines HA Hf Hld E m a.
  destruct (hor_polyfit_from argsort label polyfit steps pts s ld r ms ar ov k lines HA Hf Hld E) as [sp [sel [gs [P [S [C [G H]]]]]]].
  exists sp, sel, gs. split; [exact P|]. split; [exact S|]. split; [exact C|]. split; [exact G|].
  intros HF. destruct (H HF) as [H1 H2]. rewrite Forall_forall in *. intros l Hl. split; [exact (H2 l Hl)|].
  destruct (H1 l Hl) as [g [t [Ig [Gr [Pl Sl]]]]]. split; [exact Sl|]. exists g, t. split; [exact Ig|]. split; [exact Gr|exact Pl].
Qed.
Print Assumptions C53_long_groups.
Example C53_ex : @group_dots_hor_lines_based_polyfit _ FloatNum (@argsort_ins _ FloatNum) (fun _ => (mkimg 0 0 (fun _ _ => 0%Z), 0%Z))
    (fun _ => 1%float) (fun _ => 0%float) (fun _ => 0%float) (fun xs ys k => Ok [0; 0; hd 0 ys]%float) 0x1.921fb54442d18p+1%float
    10 [(0, 0); (4, 1); (0, 1); (0, 2); (4, 0); (4, 2); (0, 3)]%float 0%float 1%float 0.25%float 2 0.625%float 0.5%float 2
  = Ok [[(0, 0); (0, 1); (0, 2); (0, 3)]; [(4, 0); (4, 1); (4, 2)]]%float.
Proof. vm_compute. reflexivity. Qed.
