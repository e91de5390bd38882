(** Polynomial-fit grouping: exchange of coordinates, structure. *)
From Coq Require Import Reals ZArith List Lra Lia Permutation Sorted.
From Flocq Require Import Core.
From Verif Require Import Base Num Img Post Spec NumFacts Lsq Sorting PrepSpec PrepImg PrepPts PrepFacts PrepFacts2 PrepFacts3.
Local Open Scope R_scope.

(** Equal exceptions or related values. *)
Definition res_rel {A B} (r : A -> B -> Prop) (x : res A) (y : res B) : Prop :=
  match x, y with Ok a, Ok b => r a b | Err e, Err e' => e = e' | _, _ => False end.
Lemma res_rel_bind {A B C D} (r : A -> B -> Prop) (q : C -> D -> Prop) x y f g :
  res_rel r x y -> (forall a b, r a b -> res_rel q (f a) (g b)) -> res_rel q (bind x f) (bind y g).
Proof. destruct x, y; cbn; try tauto; auto. Qed.
Lemma res_rel_eq {A} (x y : res A) : x = y -> res_rel eq x y.
Proof. intros ->. destruct y; reflexivity. Qed.

(** The fit depends on the set of points, not on their order. *)
Definition order_free (polyfit : list R -> list R -> nat -> res (list R)) : Prop :=
  forall (s s' : list (R * R)) k, Permutation s s' ->
    polyfit (map snd s) (map fst s) k = polyfit (map snd s') (map fst s') k.
(** The same dots up to order, with coordinates exchanged. *)
Definition lswap (l l' : list (R * R)) : Prop := Permutation (map swp l) l'.
Lemma filter_map_comm {A B} (f : A -> B) (P : B -> bool) l : filter P (map f l) = map f (filter (fun a => P (f a)) l).
Proof. induction l as [|a l IH]; cbn; [reflexivity|]. destruct (P (f a)); cbn; now rewrite IH. Qed.
Lemma lswap_length l l' : lswap l l' -> length l = length l'.
Proof. intros H. apply Permutation_length in H. now rewrite map_length in H. Qed.

Section Dual.
  Variable polyfit : list R -> list R -> nat -> res (list R).
  Hypothesis Hp : order_free polyfit.
  Lemma get_nearby_dual s s' pts tol k : lswap s s' ->
    res_rel (fun a b => b = map swp a) (@get_nearby_ver_points R Rex polyfit s pts tol k)
      (@get_nearby_hor_points R Rex polyfit s' (map swp pts) tol k).
  Proof.
    intros H. unfold get_nearby_ver_points, get_nearby_hor_points.
    rewrite <- (Hp _ _ k H), !map_map. cbn [swp fst snd].
    set (r := polyfit (map fst s) (map snd s) k).
    match goal with |- context [bind ?q (fun v => Ok (filter _ (map swp pts)))] => change q with r end.
    destruct r as [v|e]; [|reflexivity]. cbn [bind res_rel]. rewrite filter_map_comm. reflexivity.
  Qed.
  Lemma unique_dual s s' nb : lswap s s' ->
    lswap (@unique_rows R Rex (s ++ nb)) (@unique_rows R Rex (s' ++ map swp nb)).
  Proof.
    intros H. apply NoDup_Permutation.
    - apply FinFun.Injective_map_NoDup; [|apply unique_nodup].
      intros a b E. apply (f_equal swp) in E. now rewrite !swp_swp in E.
    - apply unique_nodup.
    - intros p. unfold Rex. rewrite unique_in, in_map_iff. split.
      + intros [q [<- Hq]]. apply unique_in in Hq. apply in_app_iff in Hq. apply in_app_iff.
        destruct Hq as [Hq|Hq]; [left; apply (Permutation_in _ H)|right]; now apply in_map.
      + intros Hq. exists (swp p). split; [apply swp_swp|]. apply unique_in. apply in_app_iff in Hq. apply in_app_iff.
        destruct Hq as [Hq|Hq]; [left; apply (Permutation_in _ (Permutation_sym H)) in Hq|right];
          apply in_map_iff in Hq; destruct Hq as [q [<- Hq]]; now rewrite swp_swp.
  Qed.
  Lemma nearby_loop_dual fuel : forall pts sd ov tol k a b c d s s', lswap s s' ->
    res_rel lswap (@nearby_ver_loop R Rex polyfit fuel pts sd ov tol k a b c d s)
      (@nearby_hor_loop R Rex polyfit fuel (map swp pts) sd ov tol k a b c d s').
  Proof.
    induction fuel as [|fuel IH]; intros pts sd ov tol k a b c d s s' H; [reflexivity|].
    cbn [nearby_ver_loop nearby_hor_loop]. cbv zeta. rewrite filter_map_comm. cbn [swp fst snd].
    set (near := filter _ pts).
    destruct near as [|p0 near'] eqn:En; [exact H|]. cbn [map].
    change (swp p0 :: map swp near') with (map swp (p0 :: near')). rewrite <- En.
    eapply res_rel_bind; [now apply get_nearby_dual|]. intros nb nb' ->.
    destruct nb as [|q nb]; [exact H|]. cbn [map]. change (swp q :: map swp nb) with (map swp (q :: nb)).
    apply IH. now apply unique_dual.
  Qed.
  Lemma nearby_iter_dual fuel g pts a b sd tol ov k :
    res_rel lswap (@get_nearby_ver_points_iter R Rex polyfit fuel g pts a b sd tol ov k)
      (@get_nearby_hor_points_iter R Rex polyfit fuel (map swp g) (map swp pts) a b sd tol ov k).
  Proof. unfold get_nearby_ver_points_iter, get_nearby_hor_points_iter. apply nearby_loop_dual. apply Permutation_refl. Qed.
End Dual.

(** *** Means and medians do not depend on the order *)
Lemma Rsum_perm l l' : Permutation l l' -> Rsum l = Rsum l'.
Proof. induction 1; cbn; [reflexivity|now f_equal|ring|congruence]. Qed.
Lemma mean_perm l l' : Permutation l l' -> @mean R Rex l = @mean R Rex l'.
Proof. intros H. unfold mean. rewrite !nsum_Rex, (Rsum_perm _ _ H), (Permutation_length H). reflexivity. Qed.
Lemma sorted_unique (a b : list R) : StronglySorted Rle a -> StronglySorted Rle b -> Permutation a b -> a = b.
Proof.
  revert b. induction a as [|x a IH]; intros b Sa Sb P.
  - apply Permutation_nil in P. now subst.
  - destruct b as [|y b]; [apply Permutation_sym, Permutation_nil in P; discriminate|].
    inversion Sa as [|? ? Sa' Fa]; subst. inversion Sb as [|? ? Sb' Fb]; subst.
    assert (x = y).
    { rewrite Forall_forall in Fa, Fb.
      assert (H1 : In x (y :: b)) by (apply (Permutation_in _ P); now left).
      assert (H2 : In y (x :: a)) by (apply (Permutation_in _ (Permutation_sym P)); now left).
      destruct H1 as [->|H1]; [reflexivity|]. destruct H2 as [->|H2]; [reflexivity|].
      specialize (Fa _ H2). specialize (Fb _ H1). lra. }
    subst y. f_equal. apply IH; [assumption|assumption|]. now apply Permutation_cons_inv in P.
Qed.
Lemma nsort_perm_eq rnd l l' : Permutation l l' -> @nsort R (Rnum rnd) l = @nsort R (Rnum rnd) l'.
Proof.
  intros H. apply sorted_unique; [apply (sorted_sorted rnd (fun x => x))|apply (sorted_sorted rnd (fun x => x))|].
  unfold nsort. rewrite !sorted_perm. assumption.
Qed.
Lemma median_perm l l' : Permutation l l' -> @median R Rex l = @median R Rex l'.
Proof. intros H. unfold median, Rex. rewrite (nsort_perm_eq (fun x => x) l l' H), (Permutation_length H). reflexivity. Qed.

(** *** Lists of lines *)
Lemma Forall2_app_inv_single {A B} (r : A -> B -> Prop) l l' a b : Forall2 r l l' -> r a b -> Forall2 r (l ++ [a]) (l' ++ [b]).
Proof. intros H1 H2. apply Forall2_app; [assumption|]. now constructor. Qed.
Lemma Forall2_filter {A B} (r : A -> B -> Prop) f g l l' : Forall2 r l l' -> (forall a b, r a b -> f a = g b) ->
  Forall2 r (filter f l) (filter g l').
Proof.
  intros H E. induction H as [|a b l l' Hab H IH]; cbn; [constructor|]. rewrite (E a b Hab). destruct (g b); [now constructor|assumption].
Qed.
Lemma Forall2_map_eq {A B C} (r : A -> B -> Prop) (f : A -> C) (g : B -> C) l l' : Forall2 r l l' -> (forall a b, r a b -> f a = g b) ->
  map f l = map g l'.
Proof. intros H E. induction H as [|a b l l' Hab H IH]; cbn; [reflexivity|]. f_equal; auto. Qed.
Lemma Forall2_insert {A B} (r : A -> B -> Prop) f g x y l l' : (forall a b, r a b -> f a = g b :> R) -> r x y -> Forall2 r l l' ->
  Forall2 r (@insert_key R Rex A f x l) (@insert_key R Rex B g y l').
Proof.
  intros E Hxy H. induction H as [|a b l l' Hab H IH]; cbn [insert_key]; [now constructor|].
  rewrite (E x y Hxy), (E a b Hab). destruct (nltb (g y) (g b)); constructor; try assumption. now constructor.
Qed.
Lemma Forall2_sorted {A B} (r : A -> B -> Prop) f g l l' : (forall a b, r a b -> f a = g b :> R) -> Forall2 r l l' ->
  Forall2 r (@sorted R Rex A f l) (@sorted R Rex B g l').
Proof.
  intros E H. unfold sorted.
  enough (G : forall acc acc', Forall2 r acc acc' ->
    Forall2 r (fold_left (fun acc x => @insert_key R Rex A f x acc) l acc) (fold_left (fun acc x => @insert_key R Rex B g x acc) l' acc'))
    by (apply G; constructor).
  induction H as [|a b l l' Hab H IH]; intros acc acc' Ha; cbn; [assumption|]. apply IH. now apply Forall2_insert.
Qed.
Lemma max_len_dual (ls ls' : list (list (R * R))) : Forall2 lswap ls ls' -> max_len ls = max_len ls'.
Proof.
  intros H. unfold max_len. inversion H as [|a b l l' Hab H']; subst; [reflexivity|]. do 2 f_equal.
  apply (Forall2_map_eq lswap); [now constructor|]. intros x y Hxy. now rewrite (lswap_length x y Hxy).
Qed.
Lemma Forall2_length_eq {A B} (r : A -> B -> Prop) l l' : Forall2 r l l' -> length l = length l'.
Proof. induction 1; cbn; congruence. Qed.
Lemma Forall2_combine_seq {A B} (r : A -> B -> Prop) l l' : Forall2 r l l' -> forall n,
  Forall2 (fun x y => fst x = fst y /\ r (snd x) (snd y)) (combine (seq n (length l)) l) (combine (seq n (length l')) l').
Proof.
  induction 1 as [|a b l l' Hab H IH]; intros n; cbn; constructor; [split; [reflexivity|assumption]|apply IH].
Qed.
Lemma Forall2_map_snd {A B} (r : A -> B -> Prop) (l : list (nat * A)) (l' : list (nat * B)) :
  Forall2 (fun x y => fst x = fst y /\ r (snd x) (snd y)) l l' -> Forall2 r (map snd l) (map snd l').
Proof. induction 1; cbn; constructor; tauto. Qed.
Lemma distinct_lines_dual ld ar ls ls' : Forall2 lswap ls ls' ->
  res_rel (Forall2 lswap) (@distinct_lines R Rex ld ar (fun l => @median R Rex (map snd l)) ls)
    (@distinct_lines R Rex ld ar (fun l => @median R Rex (map fst l)) ls').
Proof.
  intros H. unfold distinct_lines. rewrite (max_len_dual ls ls' H).
  destruct (max_len ls') as [m|e]; cbn [bind res_rel]; [|reflexivity].
  set (len := wrap16 _).
  assert (F : Forall2 lswap (filter (fun l => (len <? Z.of_nat (length l))%Z) ls) (filter (fun l => (len <? Z.of_nat (length l))%Z) ls')).
  { apply Forall2_filter; [assumption|]. intros a b Hab. now rewrite (lswap_length a b Hab). }
  set (fl := filter _ ls) in *. set (fl' := filter _ ls') in *.
  assert (M : map (fun l : list (R * R) => @median R Rex (map snd l)) fl = map (fun l : list (R * R) => @median R Rex (map fst l)) fl').
  { apply (Forall2_map_eq lswap); [assumption|]. intros a b Hab. apply median_perm.
    replace (map snd a) with (map fst (map swp a)) by (rewrite map_map; reflexivity). now apply Permutation_map. }
  rewrite M. destruct (jumps 0 _ _) as [|i ids]; [assumption|].
  apply Forall2_map_snd. apply Forall2_filter; [now apply Forall2_combine_seq|].
  intros [i1 a] [i2 b] [E _]. cbn in E. subst. reflexivity.
Qed.

(** *** The grouping *)
Section DualGroup.
  Variables (argsort : list R -> list nat) (label : image R -> image Z * Z).
  Variable polyfit : list R -> list R -> nat -> res (list R).
  Hypothesis HA : argsort_spec argsort.
  Hypothesis Hp : order_free polyfit.
  Lemma polyfit_loop_dual fuel pts a sd tol ov k : forall groups sel sel' acc acc',
    lswap sel sel' -> Forall2 lswap acc acc' ->
    res_rel (Forall2 lswap)
      (@polyfit_ver_loop R Rex argsort cos sin polyfit PI fuel pts a sd tol ov k groups sel acc)
      (@polyfit_hor_loop R Rex argsort cos sin polyfit PI fuel (map swp pts) (- a) sd tol ov k (map (map swp) groups) sel' acc').
  Proof.
    induction groups as [|g groups IH]; intros sel sel' acc acc' Hs Ha; [exact Ha|].
    cbn [map polyfit_ver_loop polyfit_hor_loop]. rewrite map_length.
    apply (res_rel_bind lswap).
    - destruct (2 <? Z.of_nat (length g))%Z; [|exact Hs].
      assert (G : forall i, pyget (map swp g) i = res_map swp (pyget g i)).
      { intros i. unfold pyget. rewrite map_length. destruct (_ || _); [reflexivity|]. rewrite nth_error_map.
        destruct (nth_error g _); reflexivity. }
      rewrite !G. destruct (pyget g 0) as [f|]; [|reflexivity]. destruct (pyget g (-1)) as [la|]; [|reflexivity].
      cbn [bind res_map swp fst snd]. apply nearby_iter_dual; assumption.
    - intros s s' Hss. rewrite (lswap_length s s' Hss). destruct (2 <? Z.of_nat (length s'))%Z; [|now apply IH].
      cbv zeta. set (rv := @rotate_points R Rex cos sin PI s (nopp a) false).
      set (rh := @rotate_points R Rex cos sin PI s' (nopp (- a)) false).
      assert (Hr : lswap rv rh).
      { unfold lswap, rv, rh. rewrite !rotate_rad. unfold Rex. cbn [nopp Rnum]. rewrite map_map.
        rewrite (map_ext _ (fun p => rot1 (- - a) (swp p))).
        - rewrite <- (map_map swp (rot1 (- - a))). now apply Permutation_map.
        - intros p. now rewrite rot1_swp, Ropp_involutive. }
      assert (Hg : lswap (gather rv (argsort (map fst rv))) (gather rh (argsort (map snd rh)))).
      { unfold lswap in *. rewrite (proj1 (gather_argsort argsort fst rv HA)).
        rewrite (proj1 (gather_argsort argsort snd rh HA)). exact Hr. }
      apply IH; [exact Hg|]. now apply Forall2_app_inv_single.
  Qed.
  Lemma polyfit_ver_hor fuel pts slope ld ratio miss ar ov k :
    res_rel (Forall2 lswap)
      (@group_dots_ver_lines_based_polyfit R Rex argsort label cos sin atan polyfit PI fuel pts slope ld ratio miss ar ov k)
      (@group_dots_hor_lines_based_polyfit R Rex argsort label cos sin atan polyfit PI fuel (map swp pts) slope ld ratio miss ar ov k).
  Proof.
    unfold group_dots_ver_lines_based_polyfit, group_dots_hor_lines_based_polyfit. rewrite map_length.
    destruct (Z.of_nat (length pts) =? 0)%Z; [reflexivity|]. cbv zeta. rewrite !rotate_rad.
    change (@nopp R Rex (atan slope)) with (- atan slope). set (a := atan slope).
    assert (E1 : map (rot1 (- a)) (map swp pts) = map swp (map (rot1 a) pts)).
    { rewrite !map_map. apply map_ext. intros p. now rewrite rot1_swp, Ropp_involutive. }
    rewrite E1. set (rv := map (rot1 a) pts).
    assert (E2 : map snd (map swp rv) = map fst rv) by (rewrite map_map; reflexivity).
    rewrite E2, gather_map. set (sv := gather rv (argsort (map fst rv))).
    assert (E3 : map snd (map swp sv) = map fst sv) by (rewrite map_map; reflexivity). rewrite E3.
    destruct (pyget (map fst sv) 0) as [x0|]; cbn [bind]; [|reflexivity].
    destruct (pyget (map fst sv) (-1)) as [x1|]; cbn [bind]; [|reflexivity].
    rewrite filter_map_comm. cbn [swp fst snd]. set (sel := filter _ sv).
    apply (res_rel_bind (Forall2 lswap)).
    - destruct sel as [|p0 sel'] eqn:Es; [constructor|]. cbn [map].
      change (swp p0 :: map swp sel') with (map swp (p0 :: sel')). rewrite <- Es.
      rewrite ver_hor. destruct (@group_dots_hor_lines R Rex argsort label (DPts (map swp sel)) n0 ld ratio _ ar) as [gs|e]; cbn [res_map bind]; [|reflexivity].
      replace gs with (map (map swp) (map (map swp) gs)) at 2.
      + apply polyfit_loop_dual; [apply Permutation_refl|constructor].
      + rewrite map_map. rewrite <- (map_id gs) at 2. apply map_ext. intros l. rewrite map_map.
        rewrite <- (map_id l) at 2. apply map_ext. intros p. apply swp_swp.
    - intros ls ls' Hl. apply (res_rel_bind (Forall2 lswap)); [now apply distinct_lines_dual|].
      intros ds ds' Hd. cbn [res_rel]. apply Forall2_sorted; [|assumption].
      intros l l' Hll. apply mean_perm. replace (map snd l) with (map fst (map swp l)) by (rewrite map_map; reflexivity).
      now apply Permutation_map.
  Qed.
End DualGroup.
