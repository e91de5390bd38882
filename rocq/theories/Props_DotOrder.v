(** C121: the order of the dots within their lines does not matter. *)
From Coq Require Import Reals ZArith List Lra Lia Permutation.
From Flocq Require Import Core.
From Verif Require Import Base Num NumFacts Spec Lsq LsqEx PolyUniq ProcSpec PrepImg PrepFacts4 Post Proc ProcPers ProcFacts ProcFacts2 ProcFacts3 ProcFacts4 ProcFacts5 CalibSpec CalibFacts Props_Calib Props_Calib3.
Import ListNotations.
Local Open Scope R_scope.

(** The same dots on each line, in another order. *)
Definition reordered (a b : list (list (R * R))) : Prop := Forall2 (@Permutation (R * R)) a b.
(** Enough dots on each line to determine a parabola (n = 3) or a straight
    line (n = 2). *)
Definition spread_hor (n : nat) (lines : list (list (R * R))) : Prop := Forall (fun l => distinct_values n (map pxc l)) lines.
Definition spread_ver (n : nat) (lines : list (list (R * R))) : Prop := Forall (fun l => distinct_values n (map py l)) lines.

Lemma polyfit_same deg xs ys v w : polyfit_spec deg xs ys v -> polyfit_spec deg xs ys w -> length xs = length ys -> distinct_values (S deg) xs -> v = w.
Proof.
  intros P Q L [d [Nd [Id Ld]]].
  assert (F := lsq_fitted_unique (S deg) (map (pow_row deg) xs) ys v w ltac:(now rewrite map_length) P Q).
  destruct P as [Lv _]. destruct Q as [Lw _]. apply vlin_zero; [congruence|].
  apply (evh_roots (S deg) _ d); try assumption; [now apply vlin_length|].
  intros x Hx. rewrite <- (dot_pow_row deg) by now apply vlin_length. rewrite dot_vlin by congruence.
  assert (E : dot (pow_row deg x) v = dot (pow_row deg x) w) by (apply F; apply in_map; now apply Id). rewrite E. ring.
Qed.
Lemma combine_maps {A B C} (f : A -> B) (g : A -> C) l : combine (map f l) (map g l) = map (fun a => (f a, g a)) l.
Proof. induction l as [|a l IH]; [reflexivity|]. cbn. now rewrite IH. Qed.
Lemma polyfit_spec_perm deg (f g : R * R -> R) l l' v : Permutation l l' -> polyfit_spec deg (map f l) (map g l) v -> polyfit_spec deg (map f l') (map g l') v.
Proof.
  intros P [L M]. split; [exact L|]. intros v' L'. specialize (M v' L').
  assert (E : forall u, sqerr (map (pow_row deg) (map f l)) (map g l) u = sqerr (map (pow_row deg) (map f l')) (map g l') u).
  { intros u. unfold sqerr. rewrite !map_map, !combine_maps, !map_map. apply Rsum_perm. now apply Permutation_map. }
  now rewrite <- !E.
Qed.
Lemma distinct_perm n l l' : Permutation l l' -> distinct_values n l -> distinct_values n l'.
Proof. intros P [d [N [I L]]]. exists d. split; [exact N|]. split; [|exact L]. intros x Hx. now apply (Permutation_in x P), I. Qed.
Lemma distinct_shift n (f : R * R -> R) c l : distinct_values n (map f l) -> distinct_values n (map (fun p => f p - c) l).
Proof.
  intros [d [N [I L]]]. exists (map (fun x => x - c) d). split; [|split].
  - apply FinFun.Injective_map_NoDup; [intros x y H; lra|exact N].
  - intros x Hx. apply in_map_iff in Hx. destruct Hx as [y [<- Hy]]. apply I in Hy. apply in_map_iff in Hy. destruct Hy as [p [<- Hp]]. apply in_map_iff. now exists p.
  - now rewrite map_length.
Qed.

Section Order.
  Variable st : R -> R.
  Local Instance NSo : Num R := Rst st.
  Variable polyfit : list R -> list R -> nat -> res (list R).
  Hypothesis PF : polyfit_oracle polyfit.

  Lemma poly_perm deg (f g : R * R -> R) l l' : Permutation l l' -> l <> [] -> distinct_values (S deg) (map f l) ->
    exists v, polyfit (map f l) (map g l) deg = Ok v /\ polyfit (map f l') (map g l') deg = Ok v /\ length v = S deg.
  Proof.
    intros P N D. destruct (PF (map f l) (map g l) deg) as [v [E S]]; [destruct l; [congruence|discriminate]|now rewrite !map_length|].
    assert (N' : l' <> []) by (intros ->; apply Permutation_sym, Permutation_nil in P; congruence).
    destruct (PF (map f l') (map g l') deg) as [w [E' S']]; [destruct l'; [congruence|discriminate]|now rewrite !map_length|].
    exists v. split; [exact E|]. split; [|apply S]. rewrite E'. f_equal. symmetry. apply (polyfit_same deg (map f l') (map g l')).
    - now apply (polyfit_spec_perm deg f g l l').
    - exact S'.
    - now rewrite !map_length.
    - now apply (distinct_perm _ (map f l)); [apply Permutation_map|].
  Qed.
  Lemma spread_ne n (f : R * R -> R) l : distinct_values (S n) (map f l) -> l <> [].
  Proof. intros [d [_ [I L]]] ->. destruct d as [|x d]; [cbn in L; lia|]. destruct (I x (or_introl eq_refl)). Qed.

  Lemma hor_order lines lines' xc yc : reordered lines lines' -> spread_hor 3 lines ->
    exists cs s s', para_fit_hor polyfit lines xc yc = Ok (cs, s) /\ para_fit_hor polyfit lines' xc yc = Ok (cs, s') /\
      s = map (map (shiftp xc yc)) lines /\ s' = map (map (shiftp xc yc)) lines'.
  Proof.
    intros Ro. unfold spread_hor. induction Ro as [|l l' lines lines' P Ro IH]; intros S.
    - exists [], [], []. repeat split.
    - inversion_clear S. destruct (IH H0) as [cs [s [s' [E1 [E2 [-> ->]]]]]]. clear IH.
      assert (N : l <> []) by (now apply (spread_ne 2 pxc)). assert (N' : l' <> []) by (intros ->; apply Permutation_sym, Permutation_nil in P; congruence).
      destruct (poly_perm 2 (fun p => snd p - xc) (fun p => fst p - yc) l l' P N (distinct_shift 3 pxc xc l H)) as [v [V1 [V2 LV]]].
      destruct v as [|a [|b [|c [|]]]]; try discriminate.
      exists ((st a, st b, st c) :: cs), (map (shiftp xc yc) l :: map (map (shiftp xc yc)) lines), (map (shiftp xc yc) l' :: map (map (shiftp xc yc)) lines').
      unfold para_fit_hor in *. cbn [mapM] in *.
      destruct l as [|p l]; [congruence|]. destruct l' as [|p' l']; [congruence|].
      destruct (mapM _ lines) as [r|e]; [|discriminate]. destruct (mapM _ lines') as [r'|e]; [|discriminate]. cbn [bind] in *.
      unfold fit2 in *. change (@nsub R NSo) with Rminus in *. rewrite V1, V2. cbn [bind].
      apply Ok_inj in E1. apply pair_equal_spec in E1. destruct E1 as [E1 E1']. apply Ok_inj in E2. apply pair_equal_spec in E2. destruct E2 as [E2 E2'].
      cbn [map fst snd]. rewrite E1, E1', E2, E2'. repeat split.
  Qed.
  Lemma ver_order lines lines' xc yc : reordered lines lines' -> spread_ver 3 lines ->
    exists cs s s', para_fit_ver polyfit lines xc yc = Ok (cs, s) /\ para_fit_ver polyfit lines' xc yc = Ok (cs, s') /\
      s = map (map (shiftp xc yc)) lines /\ s' = map (map (shiftp xc yc)) lines'.
  Proof.
    intros Ro. unfold spread_ver. induction Ro as [|l l' lines lines' P Ro IH]; intros S.
    - exists [], [], []. repeat split.
    - inversion_clear S. destruct (IH H0) as [cs [s [s' [E1 [E2 [-> ->]]]]]]. clear IH.
      assert (N : l <> []) by (now apply (spread_ne 2 py)). assert (N' : l' <> []) by (intros ->; apply Permutation_sym, Permutation_nil in P; congruence).
      destruct (poly_perm 2 (fun p => fst p - yc) (fun p => snd p - xc) l l' P N (distinct_shift 3 py yc l H)) as [v [V1 [V2 LV]]].
      destruct v as [|a [|b [|c [|]]]]; try discriminate.
      exists ((st a, st b, st c) :: cs), (map (shiftp xc yc) l :: map (map (shiftp xc yc)) lines), (map (shiftp xc yc) l' :: map (map (shiftp xc yc)) lines').
      unfold para_fit_ver in *. cbn [mapM] in *.
      destruct l as [|p l]; [congruence|]. destruct l' as [|p' l']; [congruence|].
      destruct (mapM _ lines) as [r|e]; [|discriminate]. destruct (mapM _ lines') as [r'|e]; [|discriminate]. cbn [bind] in *.
      unfold fit2 in *. change (@nsub R NSo) with Rminus in *. rewrite V1, V2. cbn [bind].
      apply Ok_inj in E1. apply pair_equal_spec in E1. destruct E1 as [E1 E1']. apply Ok_inj in E2. apply pair_equal_spec in E2. destruct E2 as [E2 E2'].
      cbn [map fst snd]. rewrite E1, E1', E2, E2'. repeat split.
  Qed.
  Lemma reordered_length a b : reordered a b -> length a = length b.
  Proof. intros Ro. exact (Forall2_length _ _ _ Ro). Qed.
  Lemma reordered_shift a b xc yc : reordered a b -> reordered (map (map (shiftp xc yc)) a) (map (map (shiftp xc yc)) b).
  Proof. intros Ro. unfold reordered in *. induction Ro; cbn [map]; constructor; [now apply Permutation_map|assumption]. Qed.
  Lemma spread_hor_shift n a xc yc : spread_hor n a -> spread_hor n (map (map (shiftp xc yc)) a).
  Proof.
    unfold spread_hor. intros S. induction S; cbn [map]; constructor; [|assumption]. rewrite map_map. exact (distinct_shift n pxc xc x H).
  Qed.
  Lemma spread_ver_shift n a xc yc : spread_ver n a -> spread_ver n (map (map (shiftp xc yc)) a).
  Proof.
    unfold spread_ver. intros S. induction S; cbn [map]; constructor; [|assumption]. rewrite map_map. exact (distinct_shift n py yc x H).
  Qed.

  Lemma lslice_reordered a b i j : reordered a b -> reordered (lslice a i j) (lslice b i j).
  Proof.
    intros Ro. unfold lslice. rewrite <- (reordered_length a b Ro).
    assert (F : forall n x y, reordered x y -> reordered (firstn n x) (firstn n y)).
    { induction n as [|n IH]; intros x y H; [constructor|]. destruct H; cbn [firstn]; constructor; [assumption|now apply IH]. }
    assert (G : forall n x y, reordered x y -> reordered (skipn n x) (skipn n y)).
    { induction n as [|n IH]; intros x y H; [exact H|]. destruct H; cbn [skipn]; [constructor|now apply IH]. }
    apply F. now apply G.
  Qed.
  Lemma mapM_ext {A B} (f g : A -> res B) l : (forall x, f x = g x) -> mapM f l = mapM g l.
  Proof. intros H. induction l as [|a l IH]; cbn [mapM]; [reflexivity|]. now rewrite H, IH. Qed.
  Section Lines.
  Variables lh lh' lv lv' : list (list (R * R)).
  Hypotheses (Rh : reordered lh lh') (Rv : reordered lv lv') (Sh : spread_hor 3 lh) (Sv : spread_ver 3 lv).

  Lemma spread_firstn n (l : list (list (R * R))) (P : list (R * R) -> Prop) : Forall P l -> Forall P (firstn n l).
  Proof. revert l. induction n as [|n IH]; intros l H; [constructor|]. destruct H; cbn [firstn]; constructor; auto. Qed.
  Lemma spread_lslice (l : list (list (R * R))) i j (P : list (R * R) -> Prop) : Forall P l -> Forall P (lslice l i j).
  Proof.
    intros H. unfold lslice. apply spread_firstn. generalize (Z.to_nat (slice_bound (Z.of_nat (length l)) i)) as n. intros n.
    revert l H. induction n as [|n IH]; intros l H; [exact H|]. destruct H; cbn [skipn]; [constructor|now apply IH].
  Qed.
  Lemma coarse_order : find_cod_coarse polyfit lh lv = find_cod_coarse polyfit lh' lv'.
  Proof.
    unfold find_cod_coarse. destruct (hor_order lh lh' n0 n0 Rh Sh) as [ch [s [s' [-> [-> _]]]]].
    destruct (ver_order lv lv' n0 n0 Rv Sv) as [cv [t [t' [-> [-> _]]]]]. reflexivity.
  Qed.
  Lemma bailey_order n : find_cod_bailey polyfit lh lv n = find_cod_bailey polyfit lh' lv' n.
  Proof.
    unfold find_cod_bailey. rewrite coarse_order.
    assert (S : forall c, bailey_step polyfit lh lv c = bailey_step polyfit lh' lv' c).
    { intros [x y]. unfold bailey_step. destruct (hor_order lh lh' x y Rh Sh) as [ch [s [s' [-> [-> _]]]]].
      destruct (ver_order lv lv' x y Rv Sv) as [cv [t [t' [-> [-> _]]]]]. reflexivity. }
    destruct (find_cod_coarse polyfit lh' lv') as [c|]; cbn [bind]; [|reflexivity]. rewrite S. destruct (bailey_step polyfit lh' lv' c) as [c1|]; cbn [bind]; [|reflexivity].
    generalize (Z.to_nat n) as k. intros k. revert c1. induction k as [|k IH]; intros c1; cbn [bailey_loop]; [reflexivity|]. rewrite S.
    destruct (bailey_step polyfit lh' lv' c1); cbn [bind]; [apply IH|reflexivity].
  Qed.
  Variable minimize : (R -> R) -> R -> R.
  Lemma metric_order xc yc xs ys : calc_metric polyfit minimize lh lv xc yc xs ys = calc_metric polyfit minimize lh' lv' xc yc xs ys.
  Proof.
    unfold calc_metric. destruct (hor_order lh lh' xc yc Rh Sh) as [ch [s [s' [-> [-> [-> ->]]]]]].
    destruct (ver_order lv lv' xc yc Rv Sv) as [cv [t [t' [-> [-> [-> ->]]]]]]. cbn [bind]. rewrite !map_length.
    rewrite (reordered_length lh lh' Rh), (reordered_length lv lv' Rv).
    destruct (argmin (map (fun c => nabs (cf2 c)) ch)) as [ph|]; cbn [bind]; [|reflexivity].
    destruct (argmin (map (fun c => nabs (cf2 c)) cv)) as [pv|]; cbn [bind]; [|reflexivity].
    destruct (near_window 5 _ _ ph _) as [a1 b1]. destruct (near_window 5 _ _ pv _) as [a2 b2].
    assert (E : forall y x,
      (ch0 <- para_fit_hor polyfit (lslice (map (map (shiftp xc yc)) lh) a1 b1) x y ;;
       cv0 <- para_fit_ver polyfit (lslice (map (map (shiftp xc yc)) lv) a2 b2) x y ;;
       res_map nf32 (calc_error polyfit minimize (fst ch0) (fst cv0))) =
      (ch0 <- para_fit_hor polyfit (lslice (map (map (shiftp xc yc)) lh') a1 b1) x y ;;
       cv0 <- para_fit_ver polyfit (lslice (map (map (shiftp xc yc)) lv') a2 b2) x y ;;
       res_map nf32 (calc_error polyfit minimize (fst ch0) (fst cv0)))).
    { intros y x.
      destruct (hor_order (lslice (map (map (shiftp xc yc)) lh) a1 b1) (lslice (map (map (shiftp xc yc)) lh') a1 b1) x y) as [c0 [u0 [u0' [-> [-> _]]]]].
      { apply lslice_reordered. exact (reordered_shift lh lh' xc yc Rh). }
      { apply spread_lslice. exact (spread_hor_shift 3 lh xc yc Sh). }
      destruct (ver_order (lslice (map (map (shiftp xc yc)) lv) a2 b2) (lslice (map (map (shiftp xc yc)) lv') a2 b2) x y) as [d0 [w0 [w0' [-> [-> _]]]]].
      { apply lslice_reordered. exact (reordered_shift lv lv' xc yc Rv). }
      { apply spread_lslice. exact (spread_ver_shift 3 lv xc yc Sv). }
      reflexivity. }
    match goal with |- bind (mapM ?f ys) _ = bind (mapM ?g ys) _ => assert (M : mapM f ys = mapM g ys) end.
    { apply mapM_ext. intros y. apply mapM_ext. intros x. apply E. }
    rewrite M. reflexivity.
  Qed.
  Lemma fine_order xc yc d : find_cod_fine polyfit minimize lh lv xc yc d = find_cod_fine polyfit minimize lh' lv' xc yc d.
  Proof.
    unfold find_cod_fine. rewrite metric_order. match goal with |- bind ?a _ = _ => destruct a end; cbn [bind]; [|reflexivity]. rewrite metric_order. reflexivity.
  Qed.
  Lemma undistor_order xc yc opt thr : calc_undistor_intercept polyfit minimize lh lv xc yc opt thr = calc_undistor_intercept polyfit minimize lh' lv' xc yc opt thr.
  Proof.
    unfold calc_undistor_intercept. destruct (hor_order lh lh' xc yc Rh Sh) as [ch [s [s' [-> [-> [-> ->]]]]]].
    destruct (ver_order lv lv' xc yc Rv Sv) as [cv [t [t' [-> [-> [-> ->]]]]]]. cbn [bind]. rewrite !map_length.
    rewrite (reordered_length lh lh' Rh), (reordered_length lv lv' Rv). reflexivity.
  Qed.
  Lemma nonpers_order : generate_non_perspective_parabola_coef polyfit lh lv = generate_non_perspective_parabola_coef polyfit lh' lv'.
  Proof.
    unfold generate_non_perspective_parabola_coef. rewrite bailey_order. destruct (find_cod_bailey polyfit lh' lv' 2) as [[x y]|]; cbn [bind]; [|reflexivity].
    destruct (hor_order lh lh' x y Rh Sh) as [ch [s [s' [-> [-> _]]]]].
    destruct (ver_order lv lv' x y Rv Sv) as [cv [t [t' [-> [-> _]]]]]. cbn [bind fst snd].
    rewrite (reordered_length lh lh' Rh), (reordered_length lv lv' Rv). reflexivity.
  Qed.
  Lemma parabola_grid_order fsolve pe fc : regenerate_grid_points_parabola polyfit fsolve lh lv pe fc = regenerate_grid_points_parabola polyfit fsolve lh' lv' pe fc.
  Proof.
    unfold regenerate_grid_points_parabola. rewrite nonpers_order, bailey_order. destruct pe; [reflexivity|].
    destruct (if fc then find_cod_bailey polyfit lh' lv' 2 else Ok (n0, n0)) as [[x y]|]; cbn [bind fst snd]; [|reflexivity].
    destruct (hor_order lh lh' x y Rh Sh) as [ch [s [s' [-> [-> _]]]]].
    destruct (ver_order lv lv' x y Rv Sv) as [cv [t [t' [-> [-> _]]]]]. reflexivity.
  Qed.
  End Lines.
  Lemma samples_perm g cs us a b : reordered a b -> Permutation (line_samples g cs us a) (line_samples g cs us b).
  Proof.
    intros Ro. unfold line_samples. revert cs us. induction Ro as [|x y a b P Ro IH]; intros cs us.
    - destruct (combine cs us); reflexivity.
    - destruct cs as [|c cs]; [reflexivity|]. destruct us as [|u us]; [reflexivity|]. cbn [combine map concat fst snd].
      apply Permutation_app; [now apply Permutation_map|apply IH].
  Qed.
  Lemma concat_perm (a b : list (list (R * R))) : reordered a b -> Permutation (concat a) (concat b).
  Proof. intros Ro. induction Ro; cbn [concat]; [reflexivity|now apply Permutation_app]. Qed.

  (** Vanishing points. *)
  Variable argsort : list R -> list nat.
  Variable roots : list R -> option (list R).
  Lemma vanishing_order lh lh' lv lv' : reordered lh lh' -> reordered lv lv' -> spread_hor 3 lh -> spread_ver 3 lv ->
    find_center_based_vanishing_points polyfit argsort roots lh lv = find_center_based_vanishing_points polyfit argsort roots lh' lv'.
  Proof.
    intros Rh Rv Sh Sv. unfold find_center_based_vanishing_points.
    destruct (hor_order lh lh' n0 n0 Rh Sh) as [ch [s [s' [-> [-> [-> ->]]]]]].
    destruct (ver_order lv lv' n0 n0 Rv Sv) as [cv [t [t' [-> [-> [-> ->]]]]]]. cbn [bind fst snd].
    assert (B : forall k, find_cod_bailey polyfit (map (map (shiftp n0 n0)) lh) (map (map (shiftp n0 n0)) lv) k =
                          find_cod_bailey polyfit (map (map (shiftp n0 n0)) lh') (map (map (shiftp n0 n0)) lv') k).
    { intros k. apply bailey_order; [now apply reordered_shift|now apply reordered_shift|now apply spread_hor_shift|now apply spread_ver_shift]. }
    destruct (opposite_points argsort roots ch) as [xh|]; cbn [bind]; [|reflexivity]. rewrite B. reflexivity.
  Qed.
  Lemma second_order lh lh' lv lv' : reordered lh lh' -> reordered lv lv' -> spread_hor 3 lh -> spread_ver 3 lv ->
    find_center_2nd_way polyfit roots lh lv = find_center_2nd_way polyfit roots lh' lv'.
  Proof.
    intros Rh Rv Sh Sv. unfold find_center_2nd_way.
    destruct (hor_order lh lh' n0 n0 Rh Sh) as [ch [s [s' [-> [-> [-> ->]]]]]].
    destruct (ver_order lv lv' n0 n0 Rv Sv) as [cv [t [t' [-> [-> [-> ->]]]]]]. cbn [bind fst snd].
    assert (B : forall k, find_cod_bailey polyfit (map (map (shiftp n0 n0)) lh) (map (map (shiftp n0 n0)) lv) k =
                          find_cod_bailey polyfit (map (map (shiftp n0 n0)) lh') (map (map (shiftp n0 n0)) lv') k).
    { intros k. apply bailey_order; [now apply reordered_shift|now apply reordered_shift|now apply spread_hor_shift|now apply spread_ver_shift]. }
    destruct (least_points roots ch) as [xh|]; cbn [bind]; [|reflexivity]. rewrite B. reflexivity.
  Qed.
  (** Perspective effect: the corrected dots, in the new order. *)
  Variables (lstsq : list (list R) -> list R -> res (list R)) (cos_ arctan_ : R -> R).
  Definition same_dots (a b : res (list (list (R * R)) * list (list (R * R)))) : Prop :=
    match a, b with
    | Ok (h, v), Ok (h', v') => reordered h h' /\ reordered v v'
    | Err e, Err e' => e = e'
    | _, _ => False
    end.
  Lemma map_reordered (f : R * R -> R * R) a b : reordered a b -> reordered (map (map f) a) (map (map f) b).
  Proof. intros Ro. unfold reordered in *. induction Ro; cbn [map]; constructor; [now apply Permutation_map|assumption]. Qed.
  Lemma effect_order lh lh' lv lv' xc yc method scale : reordered lh lh' -> reordered lv lv' -> spread_hor 3 lh -> spread_ver 3 lv ->
    same_dots (correct_perspective_effect polyfit argsort cos_ arctan_ lstsq lh lv xc yc method scale)
              (correct_perspective_effect polyfit argsort cos_ arctan_ lstsq lh' lv' xc yc method scale).
  Proof.
    intros Rh Rv Sh Sv. unfold correct_perspective_effect.
    destruct (hor_order lh lh' xc yc Rh Sh) as [ch [s [s' [-> [-> [-> ->]]]]]].
    destruct (ver_order lv lv' xc yc Rv Sv) as [cv [t [t' [-> [-> [-> ->]]]]]]. cbn [bind].
    destruct (length ch <? 2)%nat; [reflexivity|]. destruct (length cv <? 2)%nat; [reflexivity|].
    repeat (match goal with |- same_dots (bind (representative ?a ?b ?c ?d) _) _ => destruct (representative a b c d); cbn [bind]; [|reflexivity] end).
    match goal with |- same_dots (bind ?x _) _ => destruct x as [sp|]; cbn [bind]; [|reflexivity] end.
    match goal with |- same_dots (bind ?x _) _ => destruct x as [pc|]; cbn [bind]; [|reflexivity] end.
    unfold correct_perspective_line. destruct (unpack8 pc) as [c|]; cbn [bind]; [|reflexivity]. cbn [same_dots]. unfold update_center.
    split; apply map_reordered, map_reordered, map_reordered; assumption.
  Qed.
  (** Straight lines. *)
  Lemma linear_order lh lh' lv lv' : reordered lh lh' -> reordered lv lv' -> spread_hor 2 lh -> spread_ver 2 lv ->
    generate_linear_coef polyfit lh lv = generate_linear_coef polyfit lh' lv'.
  Proof.
    intros Rh Rv Sh Sv. unfold generate_linear_coef.
    assert (H : mapM (linear_coef_hor polyfit) lh = mapM (linear_coef_hor polyfit) lh').
    { clear Rv Sv. unfold spread_hor in Sh. induction Rh as [|l l' lines lines' P Ro IH]; [reflexivity|]. inversion_clear Sh. cbn [mapM]. rewrite IH by assumption.
      assert (N : l <> []) by (now apply (spread_ne 1 pxc)). assert (N' : l' <> []) by (intros ->; apply Permutation_sym, Permutation_nil in P; congruence).
      destruct (poly_perm 1 (fun p => snd p - @n0 R NSo) (fun p => fst p - @n0 R NSo) l l' P N (distinct_shift 2 pxc _ l H)) as [v [V1 [V2 LV]]].
      assert (E : linear_coef_hor polyfit l = linear_coef_hor polyfit l').
      { unfold linear_coef_hor. destruct l as [|p l]; [congruence|]. destruct l' as [|p' l']; [congruence|]. unfold fit1. change (@nsub R NSo) with Rminus. rewrite V1, V2. reflexivity. }
      rewrite E. reflexivity. }
    assert (V : mapM (linear_coef_ver polyfit) lv = mapM (linear_coef_ver polyfit) lv').
    { clear Rh Sh H. unfold spread_ver in Sv. induction Rv as [|l l' lines lines' P Ro IH]; [reflexivity|]. inversion_clear Sv. cbn [mapM]. rewrite IH by assumption.
      assert (N : l <> []) by (now apply (spread_ne 1 py)). assert (N' : l' <> []) by (intros ->; apply Permutation_sym, Permutation_nil in P; congruence).
      destruct (poly_perm 1 (fun p => fst p - @n0 R NSo) (fun p => snd p - @n0 R NSo) l l' P N (distinct_shift 2 py _ l H)) as [v [V1 [V2 LV]]].
      assert (E : linear_coef_ver polyfit l = linear_coef_ver polyfit l').
      { unfold linear_coef_ver. destruct l as [|p l]; [congruence|]. destruct l' as [|p' l']; [congruence|]. unfold fit1. change (@nsub R NSo) with Rminus. rewrite V1, V2. reflexivity. }
      rewrite E. reflexivity. }
    now rewrite H, V.
  Qed.
End Order.

(** ** C121 *)
(** Finding the centre, with whatever result or exception. *)
Theorem C121_centre : forall st polyfit minimize argsort roots lh lh' lv lv', polyfit_oracle polyfit ->
  reordered lh lh' -> reordered lv lv' -> spread_hor 3 lh -> spread_ver 3 lv ->
  @find_cod_coarse R (Rst st) polyfit lh lv = @find_cod_coarse R (Rst st) polyfit lh' lv' /\
  (forall xc yc d, @find_cod_fine R (Rst st) polyfit minimize lh lv xc yc d = @find_cod_fine R (Rst st) polyfit minimize lh' lv' xc yc d) /\
  (forall n, @find_cod_bailey R (Rst st) polyfit lh lv n = @find_cod_bailey R (Rst st) polyfit lh' lv' n) /\
  @find_center_based_vanishing_points R (Rst st) polyfit argsort roots lh lv = @find_center_based_vanishing_points R (Rst st) polyfit argsort roots lh' lv'.
Proof.
  intros st polyfit minimize argsort roots lh lh' lv lv' PF Rh Rv Sh Sv. split; [|split; [|split]].
  - now apply coarse_order.
  - intros. now apply fine_order.
  - intros. now apply bailey_order.
  - now apply vanishing_order.
Qed.
Print Assumptions C121_centre.
(** Regenerated grids and perspective points. *)
Theorem C121_grids : forall st polyfit minimize fsolve lh lh' lv lv', polyfit_oracle polyfit ->
  reordered lh lh' -> reordered lv lv' ->
  (spread_hor 3 lh -> spread_ver 3 lv -> forall perspective find_center,
    @regenerate_grid_points_parabola R (Rst st) polyfit fsolve lh lv perspective find_center =
    @regenerate_grid_points_parabola R (Rst st) polyfit fsolve lh' lv' perspective find_center) /\
  (spread_hor 2 lh -> spread_ver 2 lv ->
    @regenerate_grid_points_linear R (Rst st) polyfit lh lv = @regenerate_grid_points_linear R (Rst st) polyfit lh' lv' /\
    forall equal_dist scale optimizing,
    @generate_undistorted_perspective_lines R (Rst st) polyfit minimize lh lv equal_dist scale optimizing =
    @generate_undistorted_perspective_lines R (Rst st) polyfit minimize lh' lv' equal_dist scale optimizing /\
    @generate_source_target_perspective_points R (Rst st) polyfit minimize lh lv equal_dist scale optimizing =
    @generate_source_target_perspective_points R (Rst st) polyfit minimize lh' lv' equal_dist scale optimizing).
Proof.
  intros st polyfit minimize fsolve lh lh' lv lv' PF Rh Rv. split.
  - intros Sh Sv pe fc. now apply parabola_grid_order.
  - intros Sh Sv. pose proof (linear_order st polyfit PF lh lh' lv lv' Rh Rv Sh Sv) as L. change (NSo st) with (Rst st) in L.
    assert (G : @regenerate_grid_points_linear R (Rst st) polyfit lh lv = @regenerate_grid_points_linear R (Rst st) polyfit lh' lv') by (unfold regenerate_grid_points_linear; rewrite L; reflexivity).
    split; [exact G|]. intros ed sc op. split.
    + unfold generate_undistorted_perspective_lines, calc_undistor_intercept_perspective. rewrite L, (reordered_length lh lh' Rh), (reordered_length lv lv' Rv). reflexivity.
    + unfold generate_source_target_perspective_points. rewrite G. reflexivity.
Qed.
Print Assumptions C121_grids.
(** Correction of the perspective effect: the same dots, in the new order. *)
Theorem C121_perspective_effect : forall st polyfit argsort cos_ arctan_ lstsq lh lh' lv lv' xc yc method scale, polyfit_oracle polyfit ->
  reordered lh lh' -> reordered lv lv' -> spread_hor 3 lh -> spread_ver 3 lv ->
  match @correct_perspective_effect R (Rst st) polyfit argsort cos_ arctan_ lstsq lh lv xc yc method scale,
        @correct_perspective_effect R (Rst st) polyfit argsort cos_ arctan_ lstsq lh' lv' xc yc method scale with
  | Ok (h, v), Ok (h', v') => reordered h h' /\ reordered v v'
  | Err e, Err e' => e = e'
  | _, _ => False
  end.
Proof. intros. now apply effect_order. Qed.
Print Assumptions C121_perspective_effect.
(** Distortion coefficients, where they are determined by the dots. *)
Theorem C121_coefficients : forall st polyfit minimize lstsq lh lh' lv lv' xc yc num_fact opt thr w uh uv ch cv,
  polyfit_oracle polyfit -> lstsq_oracle lstsq -> (num_fact <= 32767)%Z ->
  reordered lh lh' -> reordered lv lv' -> spread_hor 3 lh -> spread_ver 3 lv ->
  @calc_undistor_intercept R (Rst st) polyfit minimize lh lv xc yc opt thr = Ok (w, (uh, uv)) ->
  fits_hor st polyfit xc yc lh ch -> fits_ver st polyfit xc yc lv cv ->
  let n := Z.to_nat (Z.max 1 num_fact) in
  let samples := line_samples (hor_sample xc yc) ch uh lh ++ line_samples (ver_sample xc yc) cv uv lv in
  @calc_undistor_intercept R (Rst st) polyfit minimize lh' lv' xc yc opt thr = Ok (w, (uh, uv)) /\
  (distinct_values n (map fst (usable samples)) -> exists F,
    @calc_coef_forward R (Rst st) polyfit minimize lstsq lh lv xc yc num_fact opt thr = Ok F /\
    @calc_coef_forward R (Rst st) polyfit minimize lstsq lh' lv' xc yc num_fact opt thr = Ok F) /\
  (distinct_values n (map fst (map inverse_sample samples)) -> exists B,
    @calc_coef_backward R (Rst st) polyfit minimize lstsq lh lv xc yc num_fact opt thr = Ok B /\
    @calc_coef_backward R (Rst st) polyfit minimize lstsq lh' lv' xc yc num_fact opt thr = Ok B) /\
  (forall F B, distinct_values n (map fst (usable samples)) ->
    @calc_coef_backward_from_forward R (Rst st) polyfit minimize lstsq lh lv xc yc num_fact opt thr = Ok (F, B) ->
    distinct_values n (map (fun p => dist p (yc, xc) * poly F (dist p (yc, xc))) (filter (fun p => negb (Req_bool (poly F (dist p (yc, xc))) 0)) (concat lh ++ concat lv))) ->
    @calc_coef_backward_from_forward R (Rst st) polyfit minimize lstsq lh' lv' xc yc num_fact opt thr = Ok (F, B)).
Proof.
  intros st polyfit minimize lstsq lh lh' lv lv' xc yc num_fact opt thr w uh uv ch cv PF LS NF Rh Rv Sh Sv EU Fh Fv n samples.
  pose proof (eq_trans (eq_sym (undistor_order st polyfit PF lh lh' lv lv' Rh Rv Sh Sv minimize xc yc opt thr)) EU) as EU'. change (NSo st) with (Rst st) in EU'. split; [exact EU'|].
  destruct (hor_order st polyfit PF lh lh' xc yc Rh Sh) as [ch0 [sh [sh' [Eh [Eh' _]]]]]. destruct (ver_order st polyfit PF lv lv' xc yc Rv Sv) as [cv0 [sv [sv' [Ev [Ev' _]]]]].
  change (NSo st) with (Rst st) in *.
  pose proof (fits_hor_fun st polyfit _ _ _ _ _ Fh (para_hor_fits _ _ _ _ _ _ _ Eh)) as <-.
  pose proof (fits_ver_fun st polyfit _ _ _ _ _ Fv (para_ver_fits _ _ _ _ _ _ _ Ev)) as <-.
  assert (PS : Permutation samples (line_samples (hor_sample xc yc) ch uh lh' ++ line_samples (ver_sample xc yc) cv uv lv')) by (apply Permutation_app; now apply samples_perm).
  assert (SF : distinct_values n (map fst (usable samples)) -> exists F,
    @calc_coef_forward R (Rst st) polyfit minimize lstsq lh lv xc yc num_fact opt thr = Ok F /\
    @calc_coef_forward R (Rst st) polyfit minimize lstsq lh' lv' xc yc num_fact opt thr = Ok F).
  { intros D. destruct (solve_total st lstsq LS n (usable samples) (distinct_nonempty num_fact _ D)) as [F EF]. exists F. split.
    - exact (eq_trans (forward_call st polyfit minimize lstsq lh lv xc yc num_fact opt thr NF w uh uv ch cv sh sv EU Eh Ev) EF).
    - refine (eq_trans (forward_call st polyfit minimize lstsq _ _ _ _ num_fact opt thr NF w _ _ _ _ sh' sv' EU' Eh' Ev') _).
      exact (perm_solve st lstsq LS n _ _ F (usable_perm _ _ PS) EF D). }
  split; [exact SF|]. split.
  { intros D. destruct (solve_total st lstsq LS n (map inverse_sample samples) (distinct_nonempty num_fact _ D)) as [F EF]. exists F. split.
    - exact (eq_trans (backward_call st polyfit minimize lstsq lh lv xc yc num_fact opt thr NF w uh uv ch cv sh sv EU Eh Ev) EF).
    - refine (eq_trans (backward_call st polyfit minimize lstsq _ _ _ _ num_fact opt thr NF w _ _ _ _ sh' sv' EU' Eh' Ev') _).
      exact (perm_solve st lstsq LS n _ _ F (Permutation_map inverse_sample PS) EF D). }
  intros F B D1 H D2. destruct (SF D1) as [F' [EF EG]].
  pose proof (C97_backward_from_forward st polyfit minimize lstsq lh lv xc yc num_fact opt thr F B LS NF H) as [EF' _].
  pose proof (Ok_inj _ _ (eq_trans (eq_sym EF) EF')) as ->.
  assert (LF : length F = n).
  { destruct (C97_forward_least_squares st polyfit minimize lstsq lh lv xc yc num_fact opt thr w uh uv F LS NF EU EF) as [? [? [_ [_ [L _]]]]]. exact L. }
  pose proof (both_call st polyfit minimize lstsq lh lv xc yc num_fact opt thr F ch cv sh sv NF EF LF Eh Ev) as C1.
  pose proof (both_call st polyfit minimize lstsq lh' lv' xc yc num_fact opt thr F _ _ sh' sv' NF EG LF Eh' Ev') as C2.
  pose proof (eq_trans (eq_sym C1) H) as C3. clear C1.
  match type of C3 with bind ?x _ = _ => destruct x as [B'|] eqn:EB; [|discriminate C3] end.
  cbn [bind] in C3. apply Ok_inj in C3. apply pair_equal_spec in C3. destruct C3 as [_ ->].
  assert (D3 : distinct_values n (map fst (inverse_samples xc yc F (concat lh ++ concat lv)))) by (rewrite inverse_radii; exact D2).
  refine (eq_trans C2 _).
  assert (IP : Permutation (inverse_samples xc yc F (concat lh ++ concat lv)) (inverse_samples xc yc F (concat lh' ++ concat lv'))).
  { unfold inverse_samples. apply Permutation_map, usable_perm, Permutation_map, Permutation_app; now apply concat_perm. }
  refine (eq_trans (f_equal (fun r => bind r _) (perm_solve st lstsq LS n _ _ B IP EB D3)) _). reflexivity.
Qed.
Print Assumptions C121_coefficients.
(** The bent grid of C97 with every line read backwards. *)
Lemma rev_reordered lines : reordered lines (map (@rev _) lines).
Proof. induction lines as [|l lines IH]; cbn [map]; constructor; [apply Permutation_rev|exact IH]. Qed.
Lemma ex_spread : spread_hor 3 ex_hor /\ spread_ver 3 ex_ver.
Proof.
  destruct ex_bent as [Bh Bv]. split; unfold spread_hor, spread_ver; apply Forall_forall; intros line Hl; apply (In_nth _ _ []) in Hl; destruct Hl as [i [Hi <-]].
  - exact (proj2 (F2_nth _ _ _ i (0, 0) [] Bh Hi)).
  - exact (proj2 (F2_nth _ _ _ i (0, 0) [] Bv Hi)).
Qed.
Example C121_case : exists F,
  @calc_coef_forward R Rexact pf_R min_R ls_R ex_hor ex_ver 0 0 4 false (1/10) = Ok F /\
  @calc_coef_forward R Rexact pf_R min_R ls_R (map (@rev _) ex_hor) (map (@rev _) ex_ver) 0 0 4 false (1/10) = Ok F /\
  map (@rev _) ex_hor <> ex_hor.
Proof.
  destruct ex_fits as [Fh Fv]. destruct ex_spread as [Sh Sv].
  destruct (C121_coefficients (fun x => x) pf_R min_R ls_R ex_hor (map (@rev _) ex_hor) ex_ver (map (@rev _) ex_ver) 0 0 4 false (1/10) false [-3; -1; 1; 3] [-3; -1; 1; 3] _ _
    pf_R_ok ls_R_ok ltac:(lia) (rev_reordered _) (rev_reordered _) Sh Sv (ex_positions false) Fh Fv) as [_ [SF _]].
  destruct (SF ex_enough) as [F [E1 E2]]. exists F. split; [exact E1|]. split; [exact E2|].
  unfold ex_hor, ex_cs. cbn [map rev app fst snd]. intros H. apply (f_equal (fun l => snd (nth 0 (nth 0 l []) (0, 0)))) in H. cbn in H. lra.
Qed.
