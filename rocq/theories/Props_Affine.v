(** C112: grouping does not depend on the origin or the unit of length. *)
From Coq Require Import Floats.
From Coq Require Import Reals ZArith List Lra Lia Permutation Sorted.
From Flocq Require Import Core.
From Verif Require Import Base Num Img Post Spec Lsq LsqEx PolyUniq NumFacts Sorting ProcSpec PrepSpec PrepImg PrepPts PrepFacts PrepFacts2
  PrepFacts3 PrepFacts4 PrepFacts5 PrepEx2 ProcFacts5 Props_PrepPts Props_Grid.
Import ListNotations.
Local Open Scope R_scope.
Local Existing Instance Rex.

(** The point p in a frame with the origin moved to (-dy, -dx) and lengths
    multiplied by s. *)
Definition reframe (s dy dx : R) (p : R * R) : R * R := (dy + s * fst p, dx + s * snd p).
(** Sorting looks at the order of the numbers only: a strictly increasing
    change of the numbers gives the same permutation (true of every comparison
    sort; numpy's are). *)
Definition order_based (argsort : list R -> list nat) : Prop :=
  forall g l, (forall a b, a < b -> g a < g b) -> argsort (map g l) = argsort l.

(** *** Sorting *)
Lemma insert_key_map {A B} (h : A -> B) (k : A -> R) (k' : B -> R) x l :
  (forall y, In y l -> (k' (h x) < k' (h y) <-> k x < k y)) ->
  insert_key k' (h x) (map h l) = map h (insert_key k x l).
Proof.
  induction l as [|y l IH]; intros H; [reflexivity|]. cbn [insert_key map].
  assert (E : @nltb R Rex (k' (h x)) (k' (h y)) = @nltb R Rex (k x) (k y)).
  { cbn. apply Bool.eq_true_iff_eq. rewrite !Rlt_bool_true_iff. apply H. now left. }
  rewrite E. clear E. destruct (nltb (k x) (k y)); [reflexivity|]. cbn [map]. rewrite IH; [reflexivity|]. intros z Hz. apply H. now right.
Qed.
Lemma insert_key_in {A} (k : A -> R) x l y : In y (insert_key k x l) -> y = x \/ In y l.
Proof.
  induction l as [|z l IH]; cbn [insert_key].
  - intros [<-|[]]. now left.
  - destruct (nltb _ _); intros [<-|H]; [now left|right; exact H|right; now left|].
    destruct (IH H); [now left|right; now right].
Qed.
Lemma sorted_map {A B} (h : A -> B) (k : A -> R) (k' : B -> R) l :
  (forall x y, In x l -> In y l -> (k' (h x) < k' (h y) <-> k x < k y)) ->
  sorted k' (map h l) = map h (sorted k l).
Proof.
  unfold sorted. change (@nil B) with (map h []). 
  assert (G : forall l acc, (forall x y, In x (l ++ acc) -> In y (l ++ acc) -> (k' (h x) < k' (h y) <-> k x < k y)) ->
    fold_left (fun acc x => insert_key k' x acc) (map h l) (map h acc) = map h (fold_left (fun acc x => insert_key k x acc) l acc)).
  { clear l. induction l as [|x l IH]; intros acc H; [reflexivity|]. cbn [fold_left map].
    rewrite (insert_key_map h k k').
    - apply IH. intros a b Ha Hb.
      assert (W : forall c, In c (l ++ insert_key k x acc) -> In c ((x :: l) ++ acc)).
      { intros c Hc. apply in_app_or in Hc. destruct Hc as [Hc|Hc]; [right; apply in_or_app; now left|].
        apply insert_key_in in Hc. destruct Hc as [->|Hc]; [now left|right; apply in_or_app; now right]. }
      apply H; now apply W.
    - intros y Hy. apply H; [now left|]. right. apply in_or_app. now right. }
  intros H. apply G. rewrite app_nil_r. exact H.
Qed.
Lemma order_based_ins : order_based (@argsort_ins R Rex).
Proof.
  intros g l Hg. unfold argsort_ins. rewrite map_length.
  assert (E : forall i j, (i < length l)%nat -> (j < length l)%nat ->
    @nltb R Rex (nth i (map g l) n0) (nth j (map g l) n0) = @nltb R Rex (nth i l n0) (nth j l n0)).
  { intros i j Hi Hj. rewrite (nth_indep (map g l) n0 (g n0) (n := i)), (nth_indep (map g l) n0 (g n0) (n := j)) by now rewrite map_length. rewrite !map_nth.
    cbn. apply Bool.eq_true_iff_eq. rewrite !Rlt_bool_true_iff.
    split; [|apply Hg]. intros L. destruct (Rlt_or_le (nth i l 0) (nth j l 0)) as [|[L'|L']]; [assumption| |].
    - apply Hg in L'. lra.
    - rewrite L' in L. lra. }
  assert (I : forall k acc, (k < length l)%nat -> (forall j, In j acc -> (j < length l)%nat) ->
    ins (fun i => nth i (map g l) n0) k acc = ins (fun i => nth i l n0) k acc).
  { intros k acc Hk. induction acc as [|j acc IH]; intros Ha; [reflexivity|]. cbn [ins].
    rewrite E; [|assumption|apply Ha; now left]. destruct (nltb _ _); [reflexivity|]. f_equal. apply IH. intros. apply Ha. now right. }
  assert (G : forall ks acc, (forall j, In j ks -> (j < length l)%nat) -> (forall j, In j acc -> (j < length l)%nat) ->
    fold_left (fun acc k => ins (fun i => nth i (map g l) n0) k acc) ks acc = fold_left (fun acc k => ins (fun i => nth i l n0) k acc) ks acc).
  { induction ks as [|k ks IH]; intros acc Hk Ha; [reflexivity|]. cbn [fold_left]. rewrite I; [|apply Hk; now left|exact Ha].
    apply IH; [intros; apply Hk; now right|]. intros j Hj.
    apply (Permutation_in _ (@ins_perm R Rex _ k acc)) in Hj. destruct Hj as [<-|Hj]; [apply Hk; now left|now apply Ha]. }
  apply G; [|intros j []]. intros j Hj. apply in_seq in Hj. lia.
Qed.

(** *** Grouping *)
Section Frame.
  Variables s dy dx : R.
  Hypothesis Hs : 0 < s.
  Notation f := (reframe s dy dx).

  Lemma check_reframe p q slope dd ratio miss :
    check_dot_on_line (f p) (f q) slope (s * dd) ratio miss = check_dot_on_line p q slope dd ratio miss.
  Proof.
    apply Bool.eq_true_iff_eq. rewrite !C43_membership. unfold line_dist, reframe, py, pxc. destruct p as [py px], q as [qy qx]. cbn [fst snd].
    replace (dx + s * qx - (dx + s * px)) with (s * (qx - px)) by ring.
    rewrite Rabs_mult, (Rabs_pos_eq s) by lra.
    replace (IZR miss * (s * dd)) with (s * (IZR miss * dd)) by ring.
    replace (ratio * (s * dd)) with (s * (ratio * dd)) by ring.
    match goal with |- _ /\ Rabs ?a / ?c < _ <-> _ /\ Rabs ?b / ?d < _ =>
      replace (Rabs a / c) with (s * (Rabs b / d)) by
        (replace a with (s * b) by ring; rewrite Rabs_mult, (Rabs_pos_eq s) by lra; unfold Rdiv; ring) end.
    split; intros [A B]; split; try (apply (Rmult_lt_reg_l s); assumption); now apply Rmult_lt_compat_l.
  Qed.

  Section Loop.
    Variables (c c' : R * R -> R * R -> bool).
    Hypothesis Hc : forall p q, c' (f p) (f q) = c p q.
    Lemma scan_reframe d l : scan_line c' (f d) (map f l) = (map f (fst (scan_line c d l)), snd (scan_line c d l)).
    Proof.
      unfold scan_line. rewrite map_length.
      assert (G : forall is_ d0 sel pos,
        fold_left (fun '(dot1, sel, pos) i => match nth_error (map f l) i with
          | Some dot2 => if c' dot1 dot2 then (dot2, sel ++ [dot2], pos ++ [i]) else (dot1, sel, pos)
          | None => (dot1, sel, pos) end) is_ (f d0, map f sel, pos)
        = let '(a, b, e) := fold_left (fun '(dot1, sel, pos) i => match nth_error l i with
          | Some dot2 => if c dot1 dot2 then (dot2, sel ++ [dot2], pos ++ [i]) else (dot1, sel, pos)
          | None => (dot1, sel, pos) end) is_ (d0, sel, pos) in (f a, map f b, e)).
      { induction is_ as [|i is_ IH]; intros d0 sel pos; [reflexivity|]. cbn [fold_left].
        rewrite nth_error_map. destruct (nth_error l i) as [q|]; cbn [option_map]; [|apply IH].
        rewrite Hc. destruct (c d0 q); [|apply IH].
        change [f q] with (map f [q]). rewrite <- map_app. apply IH. }
      change [f d] with (map f [d]). rewrite G. destruct (fold_left _ _ _) as [[a b] e]. reflexivity.
    Qed.
    Lemma loop_reframe fuel : forall l lines,
      group_hor_loop c' fuel (map f l) (map (map f) lines) = res_map (map (map f)) (group_hor_loop c fuel l lines).
    Proof.
      induction fuel as [|k IH]; intros [|d [|e l]] lines; try reflexivity.
      cbn [group_hor_loop map]. change (f d :: f e :: map f l) with (map f (d :: e :: l)). rewrite scan_reframe.
      destruct (scan_line c d (d :: e :: l)) as [sel pos]. cbn [fst snd].
      replace (dots_not_in (map f (d :: e :: l)) pos) with (map f (dots_not_in (d :: e :: l) pos)).
      2: { unfold dots_not_in. now rewrite map_length, gather_map. }
      rewrite map_length. destruct (1 <? _)%Z; [|apply IH].
      change [map f sel] with (map (map f) [sel]). rewrite <- map_app. apply IH.
    Qed.
    Lemma loop_nonempty fuel : forall l lines r, Forall (fun x => x <> []) lines ->
      group_hor_loop c fuel l lines = Ok r -> Forall (fun x => x <> []) r.
    Proof.
      induction fuel as [|k IH]; intros [|d [|e l]] lines r H; cbn [group_hor_loop]; intros E; try discriminate E; try (injection E as <-; exact H).
      destruct (scan_line _ _ _) as [sel pos]. revert E. apply IH. destruct (1 <? _)%Z eqn:L; [|exact H].
      apply Forall_app. split; [exact H|]. constructor; [|constructor]. intros ->. discriminate L.
    Qed.
  End Loop.
  Lemma mean_reframe l : l <> [] -> mean (map fst (map f l)) = dy + s * mean (map fst l).
  Proof.
    intros N. unfold mean. rewrite !map_length.
    assert (L : INR (length l) <> 0) by (apply not_0_INR; destruct l; [congruence|discriminate]).
    rewrite !nsum_Rex.
    assert (E : forall (m : list (R * R)), Rsum (map fst (map f m)) = INR (length m) * dy + s * Rsum (map fst m)).
    { induction m as [|a m IH]; [cbn; ring|]. cbn [map Rsum length]. rewrite IH, S_INR. unfold reframe. cbn [fst]. ring. }
    rewrite E. cbn. rewrite <- INR_IZR_INZ. field. assumption.
  Qed.
  Lemma max_len_map {A B} (h : A -> B) ls : max_len (map (map h) ls) = max_len ls.
  Proof.
    unfold max_len. destruct ls as [|a ls]; [reflexivity|]. cbn [map]. do 2 f_equal. rewrite map_length, map_map. f_equal.
    apply map_ext. intros. now rewrite map_length.
  Qed.
  Lemma filter_len_map {A B} (h : A -> B) n ls :
    filter (fun l => (n <? Z.of_nat (length l))%Z) (map (map h) ls) = map (map h) (filter (fun l => (n <? Z.of_nat (length l))%Z) ls).
  Proof.
    induction ls as [|a ls IH]; [reflexivity|]. cbn [map filter]. rewrite map_length. destruct (n <? _)%Z; cbn [map]; now rewrite IH.
  Qed.
  Lemma group_hor_reframe argsort label pts slope dd ratio miss acc : order_based argsort ->
    group_dots_hor_lines argsort label (DPts (map f pts)) slope (s * dd) ratio miss acc
    = res_map (map (map f)) (group_dots_hor_lines argsort label (DPts pts) slope dd ratio miss acc).
  Proof.
    intros HA. unfold group_dots_hor_lines.
    assert (D : dots_of label IndexError (DPts (map f pts)) = res_map (map f) (dots_of label IndexError (DPts pts))) by now destruct pts.
    rewrite D. destruct (dots_of label IndexError (DPts pts)) as [l|e]; [|reflexivity]. cbn [res_map bind].
    assert (S : argsort (map snd (map f l)) = argsort (map snd l)).
    { rewrite map_map. rewrite <- (HA (fun x => dx + s * x) (map snd l)).
      - rewrite map_map. reflexivity.
      - intros a b H. apply Rplus_lt_compat_l. now apply Rmult_lt_compat_l. }
    rewrite S, gather_map, map_length.
    pose proof (loop_reframe (fun d1 d2 => check_dot_on_line d1 d2 slope dd ratio miss)
      (fun d1 d2 => check_dot_on_line d1 d2 slope (s * dd) ratio miss)
      (fun p q => check_reframe p q slope dd ratio miss)
      (length (gather l (argsort (map snd l)))) (gather l (argsort (map snd l))) []) as LR.
    cbn [map] in LR. rewrite LR. clear LR.
    destruct (group_hor_loop _ _ (gather l _) []) as [lines|e] eqn:GL; [|reflexivity]. cbn [res_map bind].
    rewrite max_len_map. destruct (max_len lines) as [m|e]; [|reflexivity]. cbn [bind res_map].
    rewrite filter_len_map. f_equal. apply sorted_map.
    assert (NE : Forall (fun x => x <> []) lines) by (eapply loop_nonempty; [|exact GL]; constructor).
    rewrite Forall_forall in NE.
    intros a b Ha Hb. apply filter_In in Ha, Hb. rewrite !mean_reframe by (apply NE; tauto).
    split; intros H.
    - apply (Rmult_lt_reg_l s); [assumption|lra].
    - assert (s * mean (map fst a) < s * mean (map fst b)) by now apply Rmult_lt_compat_l. lra.
  Qed.
End Frame.

(** *** Residual dots *)
Lemma sqerr_reframe s dy dx l (v w : list R) :
  (forall p, In p l -> dot (pow_row 2 (dx + s * snd p)) w = dy + s * dot (pow_row 2 (snd p)) v) ->
  sqerr (map (pow_row 2) (map snd (map (reframe s dy dx) l))) (map fst (map (reframe s dy dx) l)) w
  = s * s * sqerr (map (pow_row 2) (map snd l)) (map fst l) v.
Proof.
  unfold sqerr. induction l as [|p l IH]; intros H; [cbn; ring|].
  cbn [map combine Rsum]. rewrite IH by (intros q Hq; apply H; now right).
  cbn [fst snd]. replace (snd (reframe s dy dx p)) with (dx + s * snd p) by reflexivity. rewrite H by now left.
  replace (fst (reframe s dy dx p)) with (dy + s * fst p) by reflexivity. 
  set (S := Rsum _). ring.
Qed.
(** Fitting a parabola commutes with the change of frame: the fitted values
    move with the points. *)
Lemma fitted_reframe s dy dx l v w : 0 < s ->
  polyfit_spec 2 (map snd l) (map fst l) v ->
  polyfit_spec 2 (map snd (map (reframe s dy dx) l)) (map fst (map (reframe s dy dx) l)) w ->
  forall p, In p l -> dot (pow_row 2 (dx + s * snd p)) w = dy + s * dot (pow_row 2 (snd p)) v.
Proof.
  intros Hs P Q p Hp.
  destruct v as [|a2 [|a1 [|a0 [|? ?]]]]; try (destruct P; discriminate).
  pose (w0 := [a2 / s; a1 - 2 * a2 * dx / s; dy + s * a0 - a1 * dx + a2 * dx * dx / s]).
  assert (W0 : forall q, dot (pow_row 2 (dx + s * q)) w0 = dy + s * dot (pow_row 2 q) [a2; a1; a0]) by (intros q; unfold w0; cbn; field; lra).
  rewrite <- W0.
  apply (lsq_fitted_unique 3 (map (pow_row 2) (map snd (map (reframe s dy dx) l))) (map fst (map (reframe s dy dx) l))).
  - now rewrite !map_length.
  - exact Q.
  - split; [reflexivity|]. intros v' Lv'. destruct v' as [|b2 [|b1 [|b0 [|? ?]]]]; try discriminate.
    rewrite (sqerr_reframe s dy dx l [a2; a1; a0] w0) by (intros; apply W0).
    rewrite (sqerr_reframe s dy dx l [b2 * s; b1 + 2 * b2 * dx; (b2 * dx * dx + b1 * dx + b0 - dy) / s] [b2; b1; b0]) by (intros; cbn; field; lra).
    apply Rmult_le_compat_l; [apply Rmult_le_pos; lra|]. apply (proj2 P). reflexivity.
  - rewrite !map_map. apply in_map_iff. exists p. split; [reflexivity|exact Hp].
Qed.
Lemma residual_left_reframe polyfit s dy dx slope residual l : polyfit_oracle polyfit -> 0 < s -> l <> [] ->
  residual_left_hor cos atan polyfit slope (s * residual) (map (reframe s dy dx) l)
  = res_map (map (reframe s dy dx)) (residual_left_hor cos atan polyfit slope residual l).
Proof.
  intros HP Hs Hn. unfold residual_left_hor.
  destruct (HP (map snd l) (map fst l) 2%nat) as [v [Ev Sv]]; [destruct l; [congruence|discriminate]|now rewrite !map_length|].
  destruct (HP (map snd (map (reframe s dy dx) l)) (map fst (map (reframe s dy dx) l)) 2%nat) as [w [Ew Sw]];
    [destruct l; [congruence|discriminate]|now rewrite !map_length|].
  rewrite Ev, Ew. cbn [bind]. pose proof (fitted_reframe s dy dx l v w Hs Sv Sw) as F.
  destruct v as [|a2 [|a1 [|a0 [|? ?]]]]; try (destruct Sv; discriminate).
  destruct w as [|b2 [|b1 [|b0 [|? ?]]]]; try (destruct Sw; discriminate).
  cbn [res_map]. f_equal. clear -F Hs. 
  assert (G : forall m, (forall p, In p m -> In p l) ->
    filter (fun p => @nltb R Rex (nabs (nmul (nsub (nadd (nadd (nmul b2 (npow (snd p) 2)) (nmul b1 (snd p))) b0) (fst p)) (cos (atan slope)))) (s * residual)) (map (reframe s dy dx) m)
    = map (reframe s dy dx) (filter (fun p => @nltb R Rex (nabs (nmul (nsub (nadd (nadd (nmul a2 (npow (snd p) 2)) (nmul a1 (snd p))) a0) (fst p)) (cos (atan slope)))) residual) m)).
  { induction m as [|p m IH]; intros H; [reflexivity|]. cbn [map filter]. rewrite IH by (intros; apply H; now right).
    assert (E : forall a b c d, ((a < b)%R <-> (c < d)%R) -> Rlt_bool a b = Rlt_bool c d) by (intros; apply Bool.eq_true_iff_eq; now rewrite !Rlt_bool_true_iff).
    specialize (F p (H p (or_introl eq_refl))). 
    match goal with |- (if ?x then _ else _) = map _ (if ?y then _ else _) => assert (X : x = y) end.
    2: { rewrite X. clear. match goal with |- (if ?x then _ else _) = _ => destruct x end; reflexivity. }
    apply E. unfold Rex. cbn [nltb nabs nmul nadd nsub npow Rnum]. cbn [pow_row dot] in F. unfold reframe. cbn [fst snd].
    replace ((b2 * (dx + s * snd p) ^ 2 + b1 * (dx + s * snd p) + b0 - (dy + s * fst p)) * cos (atan slope))
      with (s * ((a2 * snd p ^ 2 + a1 * snd p + a0 - fst p) * cos (atan slope))).
    2: { replace (b2 * (dx + s * snd p) ^ 2 + b1 * (dx + s * snd p) + b0) with (dy + s * (snd p ^ 2 * a2 + (snd p ^ 1 * a1 + (1 * a0 + 0)))) by (rewrite <- F; ring). ring. }
    rewrite Rabs_mult, (Rabs_pos_eq s) by lra. split; intros; [apply (Rmult_lt_reg_l s); assumption|now apply Rmult_lt_compat_l]. }
  apply G. auto.
Qed.
Lemma residual_hor_reframe polyfit s dy dx slope residual lines : polyfit_oracle polyfit -> 0 < s -> Forall (fun l => l <> []) lines ->
  remove_residual_dots_hor cos atan polyfit (map (map (reframe s dy dx)) lines) slope (s * residual)
  = res_map (map (map (reframe s dy dx))) (remove_residual_dots_hor cos atan polyfit lines slope residual).
Proof.
  intros HP Hs Hn. unfold remove_residual_dots_hor.
  assert (M : mapM (residual_left_hor cos atan polyfit slope (s * residual)) (map (map (reframe s dy dx)) lines)
    = res_map (map (map (reframe s dy dx))) (mapM (residual_left_hor cos atan polyfit slope residual) lines)).
  { induction Hn as [|l lines N _ IH]; [reflexivity|]. cbn [map mapM]. rewrite residual_left_reframe by assumption.
    destruct (residual_left_hor _ _ _ _ residual l); [|reflexivity]. cbn [res_map bind]. rewrite IH.
    destruct (mapM _ lines); reflexivity. }
  rewrite M. destruct (mapM _ lines) as [lefts|]; [|reflexivity]. cbn [res_map bind]. rewrite filter_len_map.
  destruct (filter _ lefts); reflexivity.
Qed.

(** *** Main results *)
(** Moving the origin and changing the unit of length of the points, with the
    dot distance in the new unit, moves the found rows and nothing else: the
    same dots, in the same rows, in the same order, or the same error. *)
Theorem C112_rows : forall argsort label s dy dx pts slope dot_dist ratio miss accepted,
  order_based argsort -> 0 < s ->
  group_dots_hor_lines argsort label (DPts (map (reframe s dy dx) pts)) slope (s * dot_dist) ratio miss accepted
  = res_map (map (map (reframe s dy dx))) (group_dots_hor_lines argsort label (DPts pts) slope dot_dist ratio miss accepted).
Proof. intros. now apply group_hor_reframe. Qed.
Print Assumptions C112_rows.
Lemma exchange_reframe s dy dx l :
  map (fun p : R * R => (snd p, fst p)) (map (reframe s dy dx) l) = map (reframe s dx dy) (map (fun p => (snd p, fst p)) l).
Proof. rewrite !map_map. reflexivity. Qed.
Lemma res_map_map {A B C} (g : B -> C) (h : A -> B) m : res_map g (res_map h m) = res_map (fun x => g (h x)) m.
Proof. now destruct m. Qed.
Lemma res_map_ext {A B} (g h : A -> B) m : (forall x, g x = h x) -> res_map g m = res_map h m.
Proof. intros H. destruct m; cbn; [now rewrite H|reflexivity]. Qed.
Theorem C112_columns : forall argsort label s dy dx pts slope dot_dist ratio miss accepted,
  order_based argsort -> 0 < s ->
  group_dots_ver_lines argsort label (DPts (map (reframe s dy dx) pts)) slope (s * dot_dist) ratio miss accepted
  = res_map (map (map (reframe s dy dx))) (group_dots_ver_lines argsort label (DPts pts) slope dot_dist ratio miss accepted).
Proof.
  intros argsort label s dy dx pts slope dd ratio miss acc HA Hs. rewrite !(C46_grouping R Rex). cbv zeta.
  rewrite exchange_reframe, C112_rows by assumption. rewrite !res_map_map. apply res_map_ext. intros L. rewrite !map_map. apply map_ext.
  intros l. rewrite !map_map. reflexivity.
Qed.
Print Assumptions C112_columns.

(** Removing the dots that do not fit their row: the same, with the residual
    in the new unit, whatever least-squares fit is used (it need not be
    unique). *)
Theorem C112_residual_rows : forall polyfit s dy dx lines slope residual,
  polyfit_oracle polyfit -> 0 < s -> Forall (fun l => l <> []) lines ->
  remove_residual_dots_hor cos atan polyfit (map (map (reframe s dy dx)) lines) slope (s * residual)
  = res_map (map (map (reframe s dy dx))) (remove_residual_dots_hor cos atan polyfit lines slope residual).
Proof. intros. now apply residual_hor_reframe. Qed.
Print Assumptions C112_residual_rows.
Theorem C112_residual_columns : forall polyfit s dy dx lines slope residual,
  polyfit_oracle polyfit -> 0 < s -> Forall (fun l => l <> []) lines ->
  remove_residual_dots_ver cos atan polyfit (map (map (reframe s dy dx)) lines) slope (s * residual)
  = res_map (map (map (reframe s dy dx))) (remove_residual_dots_ver cos atan polyfit lines slope residual).
Proof.
  intros polyfit s dy dx lines slope residual HP Hs Hn. rewrite !(C46_residual R Rex). cbv zeta.
  assert (E : map (map (fun p : R * R => (snd p, fst p))) (map (map (reframe s dy dx)) lines)
    = map (map (reframe s dx dy)) (map (map (fun p : R * R => (snd p, fst p))) lines)).
  { rewrite !map_map. apply map_ext. intros l. apply exchange_reframe. }
  assert (NE : Forall (fun l => l <> []) (map (map (fun p : R * R => (snd p, fst p))) lines)).
  { rewrite Forall_map. eapply Forall_impl; [|exact Hn]. intros [|? ?] ?; [congruence|discriminate]. }
  rewrite E, C112_residual_rows by assumption.
  rewrite !res_map_map. apply res_map_ext. intros L. rewrite !map_map. apply map_ext. intros l. rewrite !map_map. reflexivity.
Qed.
Print Assumptions C112_residual_columns.

(** Both steps of the usual workflow one after the other. *)
Theorem C112_workflow : forall argsort label polyfit s dy dx pts slope dot_dist ratio miss accepted residual,
  order_based argsort -> polyfit_oracle polyfit -> 0 < s ->
  bind (group_dots_hor_lines argsort label (DPts (map (reframe s dy dx) pts)) slope (s * dot_dist) ratio miss accepted)
    (fun rows => remove_residual_dots_hor cos atan polyfit rows slope (s * residual))
  = res_map (map (map (reframe s dy dx)))
      (bind (group_dots_hor_lines argsort label (DPts pts) slope dot_dist ratio miss accepted)
        (fun rows => remove_residual_dots_hor cos atan polyfit rows slope residual)).
Proof.
  intros argsort label polyfit s dy dx pts slope dd ratio miss acc residual HA HP Hs. rewrite C112_rows by assumption.
  destruct (group_dots_hor_lines _ _ (DPts pts) _ _ _ _ _) as [rows|e] eqn:E; [|reflexivity]. cbn [res_map bind].
  apply C112_residual_rows; [assumption|assumption|].
  unfold group_dots_hor_lines in E. destruct (dots_of _ _ _) as [l|]; [|discriminate]. cbn [bind] in E.
  destruct (group_hor_loop _ _ _ _) as [ls|] eqn:GL; [|discriminate]. cbn [bind] in E. destruct (max_len ls); [|discriminate]. cbn [bind] in E.
  apply (f_equal (fun r => match r with Ok a => a | Err _ => [] end)) in E. cbv beta iota in E. rewrite <- E.
  apply loop_nonempty in GL; [|constructor]. rewrite Forall_forall in GL |- *. intros x Hx.
  apply GL. unfold sorted in Hx.
  assert (G : forall l acc, In x (fold_left (fun acc x => insert_key (fun l : list (R * R) => mean (map fst l)) x acc) l acc) -> In x l \/ In x acc).
  { clear. induction l as [|a l IH]; intros acc; cbn [fold_left]; [tauto|]. intros H. apply IH in H. destruct H as [H|H]; [left; now right|].
    apply insert_key_in in H. destruct H as [->|H]; [left; now left|now right]. }
  apply G in Hx. destruct Hx as [Hx|[]]. apply filter_In in Hx. tauto.
Qed.
Print Assumptions C112_workflow.

(** The undistorted grid of C99, photographed at twice the resolution with
    another origin: the hypotheses hold and rows are found. *)
Example C112_case : let rows := map (fun y => map (fun x => (y, x)) (levels 3 10 5)) (levels 7 12 4) in
  group_dots_hor_lines (@argsort_ins R Rex) (fun _ => (mkimg 0 0 (fun _ _ => 0%Z), 0%Z))
    (DPts (map (reframe 2 100 (-50)) (rev (concat rows)))) 0 (2 * 10) (3 / 10) 6 (65 / 100)
  = Ok (map (map (reframe 2 100 (-50))) rows) /\ polyfit_oracle pf_R.
Proof.
  intros rows. split; [|exact pf_R_ok]. rewrite C112_rows by (exact order_based_ins || lra).
  destruct C99_undistorted_case as [E _]. unfold rows. rewrite E. reflexivity.
Qed.
