(** Grouping of dots: theorems about the functions on point lists. *)
From Coq Require Import Reals ZArith List Lra Lia Permutation Sorted.
From Flocq Require Import Core.
From Verif Require Import Base Num Img Post Spec NumFacts Sorting PrepSpec PrepImg PrepPts PrepFacts.
Local Open Scope Z_scope.

Lemma Rlt_bool_true_iff a b : Rlt_bool a b = true <-> (a < b)%R.
Proof. split; [intros H; destruct (Rlt_bool_spec a b); [assumption|discriminate]|apply Rlt_bool_true]. Qed.
Lemma Rle_bool_true_iff a b : Rle_bool a b = true <-> (a <= b)%R.
Proof. split; [intros H; destruct (Rle_bool_spec a b); [assumption|discriminate]|apply Rle_bool_true]. Qed.
Lemma Req_bool_true_iff a b : Req_bool a b = true <-> a = b.
Proof. split; [intros H; destruct (Req_bool_spec a b); [assumption|discriminate]|apply Req_bool_true]. Qed.

(** *** The membership test *)
Lemma check_iff d1 d2 s dd r m : @check_dot_on_line R Rex d1 d2 s dd r m = true <->
  same_line s (IZR m * dd) (r * dd) d1 d2.
Proof.
  unfold check_dot_on_line, same_line, line_dist, py, pxc, Rex, n1. cbn [nltb nsub nadd nmul nsqrt nabs ndiv nofZ Rnum].
  set (D := (Rabs _ / sqrt _)%R).
  destruct (Rlt_bool (snd d1 - IZR m * dd) (snd d2)) eqn:E1; cbn [andb].
  - apply Rlt_bool_true_iff in E1.
    destruct (Rlt_bool (snd d2) (snd d1 + IZR m * dd)) eqn:E2.
    + apply Rlt_bool_true_iff in E2. destruct (Rlt_bool D (r * dd)) eqn:E3.
      * apply Rlt_bool_true_iff in E3. split; [|reflexivity]. intros _. split; [|assumption]. apply Rabs_def1; lra.
      * split; [discriminate|]. intros [_ H]. apply Rlt_bool_true_iff in H. congruence.
    + split; [discriminate|]. intros [H _]. apply Rabs_def2 in H.
      assert (snd d2 < snd d1 + IZR m * dd)%R by lra. apply Rlt_bool_true_iff in H0. congruence.
  - split; [discriminate|]. intros [H _]. apply Rabs_def2 in H.
    assert (snd d1 - IZR m * dd < snd d2)%R by lra. apply Rlt_bool_true_iff in H0. congruence.
Qed.
Lemma same_line_sym s a b p q : same_line s a b p q -> same_line s a b q p.
Proof.
  unfold same_line, line_dist. intros [H1 H2]. split.
  - now rewrite Rabs_minus_sym.
  - replace (s * pxc p - py p + (py q - s * pxc q))%R with (- (s * pxc q - py q + (py p - s * pxc p)))%R by ring.
    now rewrite Rabs_Ropp.
Qed.
Lemma same_line_translate s a b t p q : same_line s a b (translate t p) (translate t q) <-> same_line s a b p q.
Proof.
  unfold same_line, line_dist, translate, padd, py, pxc. cbn [fst snd].
  replace (snd t + snd q - (snd t + snd p))%R with (snd q - snd p)%R by ring.
  replace (s * (snd t + snd q) - (fst t + fst q) + (fst t + fst p - s * (snd t + snd p)))%R
    with (s * snd q - fst q + (fst p - s * snd p))%R by ring. tauto.
Qed.

(** *** Maximum length *)
Lemma fold_max_ge l : forall a x, In x l \/ x <= a -> x <= fold_left Z.max l a.
Proof.
  induction l as [|b l IH]; intros a x; cbn.
  - intros [[]|H]; assumption.
  - intros [[->|H]|H]; apply IH; [right; lia|now left|right; lia].
Qed.
Lemma fold_max_in l : forall a, fold_left Z.max l a = a \/ In (fold_left Z.max l a) l.
Proof.
  induction l as [|b l IH]; intros a; cbn; [now left|].
  destruct (IH (Z.max a b)) as [H|H]; [|right; now right]. rewrite H.
  destruct (Z.max_spec a b) as [[? ->]|[? ->]]; [right; now left|now left].
Qed.
Lemma zmax_list_spec l : l <> [] -> In (zmax_list l) l /\ forall x, In x l -> x <= zmax_list l.
Proof.
  destruct l as [|a l]; [congruence|]. intros _. unfold zmax_list. split.
  - destruct (fold_max_in l a) as [->|H]; [now left|now right].
  - intros x [->|H]; apply fold_max_ge; [right; lia|now left].
Qed.
Lemma max_len_spec {A} (ls : list (list A)) m : max_len ls = Ok m ->
  (exists l, In l ls /\ Z.of_nat (length l) = m) /\ forall l, In l ls -> Z.of_nat (length l) <= m.
Proof.
  unfold max_len. destruct ls as [|l0 ls]; [discriminate|]. intros H.
  assert (E : zmax_list (map (fun l => Z.of_nat (length l)) (l0 :: ls)) = m) by congruence. clear H. subst m.
  destruct (zmax_list_spec (map (fun l : list A => Z.of_nat (length l)) (l0 :: ls)) ltac:(discriminate)) as [H1 H2].
  split.
  - apply in_map_iff in H1. destruct H1 as [l [E Hl]]. exists l. split; assumption.
  - intros l Hl. apply H2. now apply (in_map (fun l : list A => Z.of_nat (length l))).
Qed.
Lemma filter_selects {A} (f : A -> bool) (P : A -> Prop) l : (forall a, f a = true <-> P a) -> selects P l (filter f l).
Proof.
  intros H. induction l as [|a l IH]; cbn; [constructor|]. destruct (f a) eqn:E.
  - constructor; [now apply H|assumption].
  - constructor; [|assumption]. intros HP. apply H in HP. congruence.
Qed.
Lemma pass_ext {A} (t1 t2 : A -> A -> Prop) : (forall a b, t1 a b <-> t2 a b) -> forall e l t f, pass t1 e l t f -> pass t2 e l t f.
Proof. intros H e l t f. induction 1; constructor; try assumption; now rewrite <- H. Qed.
Lemma passes_ext {A} (t1 t2 : A -> A -> Prop) : (forall a b, t1 a b <-> t2 a b) -> forall l g r, passes t1 l g r -> passes t2 l g r.
Proof. intros H l g r. induction 1; econstructor; try eassumption. now apply (pass_ext t1 t2). Qed.
Lemma chain_ext {A} (t1 t2 : A -> A -> Prop) : (forall a b, t1 a b -> t2 a b) -> forall l, chain t1 l -> chain t2 l.
Proof.
  intros H l. induction l as [|a [|b l] IH]; cbn; auto. intros [? ?]. split; [auto|]. now apply IH.
Qed.

(** *** Horizontal grouping, unfolded *)
Section Hor.
  Variables (rnd : R -> R) (argsort : list R -> list nat) (label : image R -> image Z * Z).
  Let hor := @group_dots_hor_lines R (Rnum rnd) argsort label.
  Let chk s dd r m a b := @check_dot_on_line R (Rnum rnd) a b s dd r m.
  Lemma hor_unfold pts s dd r m ar : argsort_spec argsort -> pts <> [] ->
    exists sp groups rest,
      Permutation sp pts /\ StronglySorted (fun a b => (snd a <= snd b)%R) sp /\
      passes (fun a b => chk s dd r m a b = true) sp groups rest /\
      hor (DPts pts) s dd r m ar =
        (mx <- max_len (filter (fun g => 1 <? Z.of_nat (length g)) groups) ;;
         Ok (@sorted R (Rnum rnd) _ (fun l => @mean R (Rnum rnd) (map fst l))
              (filter (fun l => Ztrunc (rnd (ar * IZR mx)) <? Z.of_nat (length l))
                 (filter (fun g => 1 <? Z.of_nat (length g)) groups)))).
  Proof.
    intros HA Hne. destruct (gather_argsort argsort (@snd R R) pts HA) as [P S].
    set (sp := gather pts (argsort (map snd pts))) in *.
    destruct (group_hor_passes (chk s dd r m) (length sp) sp [] (le_n _)) as [gs [rest [HP HE]]].
    exists sp, gs, rest. repeat apply conj; [assumption|assumption|assumption|].
    unfold hor, group_dots_hor_lines, dots_of. destruct pts as [|p0 pts]; [congruence|]. cbn [bind].
    fold sp. cbv zeta. unfold chk in HE. rewrite HE. cbn [app bind]. reflexivity.
  Qed.
End Hor.

(** *** Vertical grouping by exchanging coordinates *)
Definition swp {T} (p : T * T) : T * T := (snd p, fst p).
Lemma swp_swp {T} (p : T * T) : swp (swp p) = p.
Proof. now destruct p. Qed.
Lemma fliplr_map {T} (l : list (T * T)) : fliplr l = map swp l.
Proof. reflexivity. Qed.
Lemma fliplr_fliplr {T} (l : list (T * T)) : fliplr (fliplr l) = l.
Proof. unfold fliplr. rewrite map_map. cbn. rewrite <- (map_id l) at 2. apply map_ext. now intros [? ?]. Qed.
Lemma ver_loop_eq {T} {N : Num T} (check : T * T -> T * T -> bool) fuel : forall dots acc,
  group_ver_loop check fuel dots (map fliplr acc) = res_map (map fliplr) (group_hor_loop check fuel dots acc).
Proof.
  induction fuel as [|fuel IH]; intros dots acc; destruct dots as [|d [|d' l]]; cbn [group_ver_loop group_hor_loop]; try reflexivity.
  destruct (scan_line check d (d :: d' :: l)) as [sel pos]. rewrite <- IH.
  destruct (1 <? Z.of_nat (length sel)); [|reflexivity]. now rewrite map_app.
Qed.
Lemma ver_hor {T} {N : Num T} argsort label pts s dd r m ar :
  @group_dots_ver_lines T N argsort label (DPts pts) s dd r m ar =
  res_map (map (map swp)) (@group_dots_hor_lines T N argsort label (DPts (map swp pts)) s dd r m ar).
Proof.
  unfold group_dots_ver_lines, group_dots_hor_lines.
  destruct pts as [|p pts]; [reflexivity|].
  change (dots_of label ValueError (DPts (p :: pts))) with (Ok (p :: pts)).
  change (dots_of label IndexError (DPts (map swp (p :: pts)))) with (Ok (map swp (p :: pts))). unfold bind at 1 4.
  change (fliplr (p :: pts)) with (map swp (p :: pts)). set (q := map swp (p :: pts)). cbv zeta.
  set (dl := gather q (argsort (map snd q))).
  pose proof (ver_loop_eq (fun d1 d2 => check_dot_on_line d1 d2 s dd r m) (length dl) dl []) as H.
  cbn [map] in H. rewrite H. destruct (group_hor_loop _ (length dl) dl []) as [ls|e]; cbn [res_map bind]; [|reflexivity].
  assert (M : max_len (map fliplr ls) = max_len ls).
  { unfold max_len. destruct ls as [|l0 ls]; [reflexivity|]. cbn [map]. do 2 f_equal.
    unfold fliplr at 1. rewrite map_length. f_equal. rewrite map_map. apply map_ext. intros l. unfold fliplr. now rewrite map_length. }
  rewrite M. destruct (max_len ls) as [mx|e]; cbn [bind res_map]; [|reflexivity]. f_equal.
  set (len := ntrunc _).
  change (map (map swp)) with (map (@fliplr T)).
  assert (F : forall ls, filter (fun l : list (T * T) => len <? Z.of_nat (length l)) (map fliplr ls) =
    map fliplr (filter (fun l => len <? Z.of_nat (length l)) ls)).
  { induction ls0 as [|l0 ls0 IHl]; cbn [map filter]; [reflexivity|]. unfold fliplr at 1. rewrite map_length, IHl.
    destruct (len <? Z.of_nat (length l0)); reflexivity. }
  rewrite F, sorted_map. f_equal. apply sorted_ext. intros l. unfold fliplr. rewrite map_map. reflexivity.
Qed.

(** *** Residual removal *)
Lemma mapM_ok {A B} (f : A -> res B) l r : mapM f l = Ok r <-> Forall2 (fun a b => f a = Ok b) l r.
Proof.
  revert r; induction l as [|a l IH]; intros r; cbn.
  - split; [intros H; injection H as <-; constructor|intros H; inversion H; reflexivity].
  - split.
    + destruct (f a) eqn:E; cbn [bind]; [|discriminate]. destruct (mapM f l) as [bs|] eqn:E2; cbn [bind]; [|discriminate].
      intros H. injection H as <-. constructor; [assumption|]. now apply IH.
    + intros H. inversion H as [|? b ? bs Hf HF]; subst. rewrite Hf. cbn [bind]. apply IH in HF. now rewrite HF.
Qed.
Lemma mapM_map_ext {A B C} (g : A -> B) (f : B -> res C) (f' : A -> res C) l : (forall a, f (g a) = f' a) -> mapM f (map g l) = mapM f' l.
Proof. intros H. induction l as [|a l IH]; cbn; [reflexivity|]. now rewrite H, IH. Qed.
Lemma mapM_res_map {A B C} (f : A -> res B) (h : B -> C) (f' : A -> res C) l : (forall a, f' a = res_map h (f a)) ->
  mapM f' l = res_map (map h) (mapM f l).
Proof.
  intros H. induction l as [|a l IH]; cbn; [reflexivity|]. rewrite H, IH.
  destruct (f a); cbn; [|reflexivity]. destruct (mapM f l); reflexivity.
Qed.
Lemma residual_left_ver_hor {T} {N : Num T} cos_ atan_ polyfit s r l :
  @residual_left_ver T N cos_ atan_ polyfit s r l = res_map (map swp) (@residual_left_hor T N cos_ atan_ polyfit s r (map swp l)).
Proof.
  unfold residual_left_ver, residual_left_hor. change (fliplr l) with (map swp l).
  destruct (polyfit _ _ 2%nat) as [v|]; cbn [bind res_map]; [|reflexivity].
  destruct v as [|a2 [|a1 [|a0 [|? ?]]]]; reflexivity.
Qed.
Lemma residual_ver_hor {T} {N : Num T} cos_ atan_ polyfit ls s r :
  @remove_residual_dots_ver T N cos_ atan_ polyfit ls s r =
  res_map (map (map swp)) (@remove_residual_dots_hor T N cos_ atan_ polyfit (map (map swp) ls) s r).
Proof.
  unfold remove_residual_dots_ver, remove_residual_dots_hor.
  rewrite (mapM_map_ext (map swp) _ (fun l => residual_left_hor cos_ atan_ polyfit s r (map swp l)))
    by reflexivity.
  rewrite (mapM_res_map (fun l => residual_left_hor cos_ atan_ polyfit s r (map swp l)) (map swp))
    by (intros; apply residual_left_ver_hor).
  destruct (mapM _ ls) as [lefts|]; cbn [bind res_map]; [|reflexivity].
  replace (filter (fun l => 0 <? Z.of_nat (length l)) (map (map swp) lefts))
    with (map (map swp) (filter (fun l : list (T * T) => 0 <? Z.of_nat (length l)) lefts)).
  - destruct (filter _ lefts); reflexivity.
  - clear. induction lefts as [|l ls IH]; cbn [filter map]; [reflexivity|]. rewrite map_length, <- IH.
    destruct (0 <? Z.of_nat (length l)); reflexivity.
Qed.
