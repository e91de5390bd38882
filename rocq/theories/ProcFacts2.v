(** Facts about the fine search of the centre. *)
From Coq Require Import Reals ZArith List Lra Lia.
From Flocq Require Import Core.
From Verif Require Import Base Num Spec Lsq ProcSpec PolyUniq PrepImg PrepPts PrepFacts PrepFacts2 Post Proc ProcFacts.
Import ListNotations.
Local Open Scope R_scope.

Lemma lslice_around {A} (l : list A) (i n : nat) : (i < length l)%nat ->
  lslice l (Z.max 0 (Z.of_nat i - Z.of_nat n)) (Z.min (Z.of_nat (length l)) (Z.of_nat i + Z.of_nat n + 1)) = around i n l.
Proof.
  intros H. unfold lslice, around, slice_bound. set (L := length l) in *.
  destruct (Z.ltb_spec (Z.max 0 (Z.of_nat i - Z.of_nat n)) 0); [lia|].
  destruct (Z.ltb_spec (Z.min (Z.of_nat L) (Z.of_nat i + Z.of_nat n + 1)) 0); [lia|].
  replace (Z.to_nat (Z.min (Z.max 0 (Z.of_nat i - Z.of_nat n)) (Z.of_nat L))) with (i - n)%nat by lia.
  replace (Z.to_nat _) with (Nat.min L (i + n + 1) - (i - n))%nat by lia.
  rewrite firstn_skipn_comm. replace (i - n + _)%nat with (Nat.min L (i + n + 1)) by lia.
  f_equal. destruct (Nat.le_ge_cases L (i + n + 1)).
  - rewrite Nat.min_l by assumption. rewrite !firstn_all2; [reflexivity|unfold L in *; lia|unfold L in *; lia].
  - now rewrite Nat.min_r.
Qed.

Lemma nth_concat_eq {A} (w : nat) (d : A) (m : list (list A)) : (forall r, In r m -> length r = w) ->
  forall i j, (i < length m)%nat -> (j < w)%nat -> nth (i * w + j) (concat m) d = nth j (nth i m []) d.
Proof.
  intros H. induction m as [|r m IH]; intros i j Hi Hj; [cbn in Hi; lia|].
  assert (Lr : length r = w) by (apply H; now left). destruct i as [|i]; cbn [concat nth].
  - rewrite app_nth1; [reflexivity|lia].
  - rewrite app_nth2 by (rewrite Lr; cbn; lia). rewrite Lr. replace (S i * w + j - w)%nat with (i * w + j)%nat by (cbn; lia).
    apply IH; [intros; apply H; now right| |assumption]. cbn [length] in Hi. lia.
Qed.
Lemma length_concat_eq {A} (w : nat) (m : list (list A)) : (forall r, In r m -> length r = w) -> length (concat m) = (length m * w)%nat.
Proof.
  intros H. induction m as [|r m IH]; [reflexivity|]. cbn [concat length]. rewrite app_length, IH by (intros; apply H; now right).
  rewrite (H r (or_introl eq_refl)). lia.
Qed.

Lemma Ok_inj {A} (a b : A) : Ok a = Ok b -> a = b.
Proof. congruence. Qed.

Section Fine.
  Variable st : R -> R.
  Local Instance NSt3 : Num R := Rst st.
  Variable polyfit : list R -> list R -> nat -> res (list R).
  Variable minimize : (R -> R) -> R -> R.
  Notation mind := (nearest_by minimize).
  Notation pnt := (R * R)%type.

  Lemma fit2_ok xs ys c : fit2 polyfit xs ys = Ok c -> exists u v w, c = (st u, st v, st w) /\ polyfit xs ys 2%nat = Ok [u; v; w].
  Proof.
    unfold fit2. destruct (polyfit xs ys 2) as [[|u [|v [|w [|]]]]|]; try discriminate. cbn [bind]. intros H. injection H as <-. eauto 6.
  Qed.
  Lemma fit1_ok xs ys c : fit1 polyfit xs ys = Ok c -> polyfit xs ys 1%nat = Ok [fst c; snd c].
  Proof.
    unfold fit1. destruct (polyfit xs ys 1) as [[|u [|v [|]]]|]; try discriminate. cbn [bind]. intros H. injection H as <-. reflexivity.
  Qed.
  Lemma para_hor_fits lines x y cs sl : para_fit_hor polyfit lines x y = Ok (cs, sl) -> fits_hor st polyfit x y lines cs.
  Proof.
    unfold para_fit_hor. match goal with |- bind ?m _ = _ -> _ => destruct m as [r|] eqn:E; [|discriminate] end.
    cbn [bind]. intros H. injection H as <- _. apply mapM_ok in E. unfold fits_hor.
    induction E as [|l c ls r H E IH]; [constructor|]. cbn [map]. constructor; [|exact IH].
    destruct l; [discriminate|]. destruct (fit2 _ _ _) eqn:F; [|discriminate]. apply fit2_ok in F. cbn [bind] in H. injection H as <-.
    exact F.
  Qed.
  Lemma para_ver_fits lines x y cs sl : para_fit_ver polyfit lines x y = Ok (cs, sl) -> fits_ver st polyfit x y lines cs.
  Proof.
    unfold para_fit_ver. match goal with |- bind ?m _ = _ -> _ => destruct m as [r|] eqn:E; [|discriminate] end.
    cbn [bind]. intros H. injection H as <- _. apply mapM_ok in E. unfold fits_ver.
    induction E as [|l c ls r H E IH]; [constructor|]. cbn [map]. constructor; [|exact IH].
    destruct l; [discriminate|]. destruct (fit2 _ _ _) eqn:F; [|discriminate]. apply fit2_ok in F. cbn [bind] in H. injection H as <-.
    exact F.
  Qed.
  Lemma fits_hor_shift x y s t lines cs : fits_hor st polyfit s t (map (map (shiftp x y)) lines) cs ->
    fits_hor st polyfit (x + s) (y + t) lines cs.
  Proof.
    unfold fits_hor. revert cs. induction lines as [|l ls IH]; intros cs F; inversion F as [|? ? ? ? Q1 Q2]; constructor; [|now apply IH].
    destruct Q1 as [u [v [w [E P]]]]. exists u, v, w. split; [assumption|]. rewrite <- P. rewrite !map_map. f_equal; apply map_ext; intros p;
    unfold pxc, py, shiftp; cbn [fst snd nsub NSt3 Rst]; ring.
  Qed.
  Lemma fits_ver_shift x y s t lines cs : fits_ver st polyfit s t (map (map (shiftp x y)) lines) cs ->
    fits_ver st polyfit (x + s) (y + t) lines cs.
  Proof.
    unfold fits_ver. revert cs. induction lines as [|l ls IH]; intros cs F; inversion F as [|? ? ? ? Q1 Q2]; constructor; [|now apply IH].
    destruct Q1 as [u [v [w [E P]]]]. exists u, v, w. split; [assumption|]. rewrite <- P. rewrite !map_map. f_equal; apply map_ext; intros p;
    unfold pxc, py, shiftp; cbn [fst snd nsub NSt3 Rst]; ring.
  Qed.
  Lemma calc_error_ok ch cv e : calc_error polyfit minimize ch cv = Ok e ->
    exists bh bv, nearest_line st polyfit mind ch bh /\ nearest_line st polyfit mind cv bv /\ e = Rabs bh + Rabs bv.
  Proof.
    unfold calc_error. cbn zeta.
    destruct (fit1 polyfit (map fst (map (near_point minimize) ch)) _) as [h|] eqn:Eh; [|discriminate]. cbn [bind].
    destruct (fit1 polyfit (map fst (map (near_point minimize) cv)) _) as [v|] eqn:Ev; [|discriminate]. cbn [bind]. intros H. apply Ok_inj in H. subst e.
    apply fit1_ok in Eh. apply fit1_ok in Ev. rewrite !map_map in Eh, Ev. exists (snd h), (snd v). split; [|split; [|reflexivity]].
    - exists (fst h). exact Eh.
    - exists (fst v). exact Ev.
  Qed.
  Lemma argmin_map_first {A} (f : A -> R) l p : argmin (map f l) = Ok p -> exists i, p = Z.of_nat i /\ first_min (map f l) i /\ (i < length l)%nat.
  Proof.
    intros H. apply (argmin_first st) in H. destruct H as [i [-> H]]. exists i. split; [reflexivity|]. split; [assumption|].
    destruct H as [H _]. now rewrite map_length in H.
  Qed.
  Lemma near_window_nat (most nh nv i n : nat) : (2 <= nh)%nat -> (2 <= nv)%nat ->
    near_window (Z.of_nat most) (Z.of_nat nh) (Z.of_nat nv) (Z.of_nat i) (Z.of_nat n) =
    let k := Nat.min most (Nat.min (Nat.div2 nh - 1) (Nat.div2 nv - 1)) in
    (Z.max 0 (Z.of_nat i - Z.of_nat k), Z.min (Z.of_nat n) (Z.of_nat i + Z.of_nat k + 1)).
  Proof.
    intros H1 H2. unfold near_window.
    assert (D : forall n, (Z.of_nat n / 2 = Z.of_nat (Nat.div2 n))%Z) by (intros; rewrite Nat.div2_div, Nat2Z.inj_div; reflexivity).
    rewrite !D.
    assert (G : forall n, (2 <= n)%nat -> (1 <= Nat.div2 n)%nat) by (intros [|[|m]] Hm; cbn; lia).
    pose proof (G _ H1). pose proof (G _ H2). cbn zeta. f_equal; lia.
  Qed.

  Lemma calc_metric_best lh lv xc yc G sx sy : (2 <= length lh)%nat -> (2 <= length lv)%nat ->
    calc_metric polyfit minimize lh lv xc yc G G = Ok (sx, sy) ->
    best_centre st polyfit mind (fun s => In s G) lh lv xc yc (xc + sx) (yc + sy).
  Proof.
    intros Lh Lv. unfold calc_metric.
    destruct (para_fit_hor polyfit lh xc yc) as [[fh sh]|] eqn:Eh; [|discriminate].
    destruct (para_fit_ver polyfit lv xc yc) as [[fv sv]|] eqn:Ev; [|discriminate]. cbn [bind].
    destruct (argmin (map (fun c => nabs (cf2 c)) fh)) as [ph|] eqn:Ph; [|discriminate].
    destruct (argmin (map (fun c => nabs (cf2 c)) fv)) as [pv|] eqn:Pv; [|discriminate]. cbn [bind].
    apply argmin_map_first in Ph. destruct Ph as [i [-> [Mi Li]]]. apply argmin_map_first in Pv. destruct Pv as [j [-> [Mj Lj]]].
    pose proof (para_hor_fits _ _ _ _ _ Eh) as Fh. pose proof (para_ver_fits _ _ _ _ _ Ev) as Fv.
    apply para_hor_lines in Eh. destruct Eh as [-> Nh]. apply para_ver_lines in Ev. destruct Ev as [-> Nv].
    set (fL := map (map (shiftp xc yc))).
    assert (Hl : forall l, length (fL l) = length l) by (intros; apply map_length).
    rewrite !Hl. change 5%Z with (Z.of_nat 5).
    rewrite !near_window_nat by assumption. cbn zeta. set (n := Nat.min 5 _).
    rewrite <- (Hl lh), <- (Hl lv). rewrite !lslice_around by (rewrite Hl; lia).
    assert (Ar : forall (l : list (list pnt)) a b, around a b (fL l) = fL (around a b l)).
    { intros. unfold around, fL. now rewrite firstn_map, skipn_map. }
    rewrite !Ar. set (ch := around i n lh). set (cv := around j n lv).
    match goal with |- bind (mapM ?f G) _ = _ -> _ => destruct (mapM f G) as [m|] eqn:Em; [|discriminate] end. cbn [bind].
    rewrite Nat.eqb_refl. cbn [negb].
    destruct (argmin (concat m)) as [k|] eqn:Ek; [|discriminate]. cbn [bind]. apply (argmin_first st) in Ek.
    destruct Ek as [q [-> [Q1 [Q2 _]]]].
    apply mapM_ok in Em. set (w := length G) in *.
    assert (Lm : length m = w) by (apply Forall2_length in Em; symmetry; exact Em).
    (* the value stored at row a, column b *)
    assert (Row : forall a, (a < w)%nat -> length (nth a m []) = w /\
       forall b, (b < w)%nat -> exists e, centre_error st polyfit mind ch cv (xc + nth b G 0) (yc + nth a G 0) e /\ nth b (nth a m []) 0 = e).
    { intros a Ha. assert (Na : forall A B (P : A -> B -> Prop) l1 l2 d1 d2, Forall2 P l1 l2 -> forall i, (i < length l1)%nat -> P (nth i l1 d1) (nth i l2 d2)).
      { clear. intros A B P l1 l2 d1 d2 F. induction F as [|x y l1 l2 H F IH]; intros [|i] Hi; cbn in *; try lia; [assumption|]. apply IH. lia. }
      pose proof (Na _ _ _ _ _ 0 [] Em a Ha) as Ra. cbn beta in Ra. apply mapM_ok in Ra. split; [apply Forall2_length in Ra; symmetry; exact Ra|].
      intros b Hb. pose proof (Na _ _ _ _ _ 0 0 Ra b Hb) as Rb. cbn beta in Rb.
      destruct (para_fit_hor polyfit (fL ch) _ _) as [[gh th]|] eqn:Gh; [|discriminate].
      destruct (para_fit_ver polyfit (fL cv) _ _) as [[gv tv]|] eqn:Gv; [|discriminate]. cbn [bind fst] in Rb.
      destruct (calc_error polyfit minimize gh gv) as [e|] eqn:Ee; [|discriminate]. cbn [res_map bind] in Rb.
      apply (f_equal (fun r => match r with Ok z => z | Err _ => 0 end)) in Rb. cbn beta iota in Rb.
      apply calc_error_ok in Ee. destruct Ee as [bh [bv [B1 [B2 ->]]]].
      exists (st (Rabs bh + Rabs bv)). split; [|symmetry; exact Rb]. exists gh, gv, bh, bv.
      split; [apply fits_hor_shift; exact (para_hor_fits _ _ _ _ _ Gh)|]. split; [apply fits_ver_shift; exact (para_ver_fits _ _ _ _ _ Gv)|].
      auto. }
    assert (Rows : forall r, In r m -> length r = w).
    { intros r Hr. apply (In_nth _ _ []) in Hr. destruct Hr as [a [Ha <-]]. apply Row. lia. }
    pose proof (length_concat_eq w m Rows) as Lc. rewrite Lm in Lc.
    assert (W : (0 < w)%nat) by (destruct w; [lia|lia]).
    assert (Qd : (q = (q / w) * w + q mod w)%nat) by (rewrite Nat.mul_comm; apply Nat.div_mod; lia).
    assert (Qm : (q mod w < w)%nat) by (apply Nat.mod_upper_bound; lia).
    assert (Qa : (q / w < w)%nat) by (apply Nat.div_lt_upper_bound; [lia|rewrite <- Lc; exact Q1]).
    rewrite <- Nat2Z.inj_mod, <- Nat2Z.inj_div.
    rewrite (pyget_nth _ _ 0) by exact Qm. cbn [bind]. rewrite (pyget_nth _ _ 0) by exact Qa. cbn [bind]. intros H. injection H as <- <-.
    exists ch, cv. split.
    - exists fh, fv, i, j. split; [assumption|]. split; [assumption|]. split; [exact Mi|]. split; [exact Mj|]. cbn zeta. split; reflexivity.
    - split; [replace (xc + _ - xc) with (nth (q mod w) G 0) by ring; apply nth_In; exact Qm|].
      split; [replace (yc + _ - yc) with (nth (q / w) G 0) by ring; apply nth_In; exact Qa|].
      destruct (Row _ Qa) as [_ Rq]. destruct (Rq _ Qm) as [e [Ce Ne]]. exists e. split; [exact Ce|].
      intros s t Hs Ht. apply (In_nth _ _ 0) in Hs. destruct Hs as [b [Hb <-]]. apply (In_nth _ _ 0) in Ht. destruct Ht as [a [Ha <-]].
      destruct (Row a Ha) as [_ Ra]. destruct (Ra b Hb) as [e' [Ce' Ne']]. exists e'. split; [exact Ce'|].
      rewrite <- Ne, <- Ne'. rewrite <- !(nth_concat_eq w) by (assumption || lia). rewrite <- Qd. apply Q2. rewrite Lc. nia.
  Qed.
  Lemma narange_in start stop step s : 0 < step -> In s (narange start stop step) <-> grid_of start stop step s.
  Proof.
    intros Hs. unfold narange, grid_of. rewrite in_map_iff. split.
    - intros [i [<- Hi]]. apply in_zrange in Hi. exists i. split; [lia|]. cbn [nadd nmul nofZ nsub NSt3 Rst]. split; [ring|].
      destruct Hi as [_ Hi]. change (nceil ((stop - start) / step)) with (Zceil ((stop - start) / step)) in Hi.
      assert (L : IZR i < (stop - start) / step).
      { apply Rnot_le_lt. intros G. assert (Zceil ((stop - start) / step) <= i)%Z by (apply Zceil_glb; exact G). cbn in Hi. lia. }
      apply (Rmult_lt_compat_r step) in L; [|assumption].
      replace ((stop - start) / step * step) with (stop - start) in L by (field; lra). lra.
    - intros [i [Hi [-> L]]]. exists i. split; [cbn [nadd nmul nofZ nsub NSt3 Rst]; ring|]. apply in_zrange. split; [assumption|].
      change (i < Zceil ((stop - start) / step))%Z. apply lt_IZR. apply Rlt_le_trans with ((stop - start) / step); [|apply Zceil_ub].
      apply (Rmult_lt_reg_r step); [assumption|]. replace ((stop - start) / step * step) with (stop - start) by (field; lra). lra.
  Qed.
  Lemma best_centre_ext (g g' : R -> Prop) lh lv x y x' y' : (forall s, g s <-> g' s) ->
    best_centre st polyfit mind g lh lv x y x' y' -> best_centre st polyfit mind g' lh lv x y x' y'.
  Proof.
    intros Hg [ch [cv [C [G1 [G2 [e [E M]]]]]]]. exists ch, cv. split; [assumption|]. split; [now apply Hg|]. split; [now apply Hg|].
    exists e. split; [assumption|]. intros s t Hs Ht. apply M; now apply Hg.
  Qed.
  Lemma fine_best lh lv xc yc pd x2 y2 : (2 <= length lh)%nat -> (2 <= length lv)%nat ->
    find_cod_fine polyfit minimize lh lv xc yc pd = Ok (x2, y2) ->
    exists x1 y1, best_centre st polyfit mind (grid_of (- pd) (pd + 2) 2) lh lv xc yc x1 y1 /\
      best_centre st polyfit mind (grid_of (-2) (2 + 1 / 2) (1 / 2)) lh lv x1 y1 x2 y2.
  Proof.
    intros Lh Lv. unfold find_cod_fine. cbn zeta.
    match goal with |- bind ?m _ = _ -> _ => destruct m as [[sx sy]|] eqn:E1; [|discriminate] end. cbn [bind fst snd].
    match goal with |- bind ?m _ = _ -> _ => destruct m as [[tx ty]|] eqn:E2; [|discriminate] end. cbn [bind fst snd].
    intros H. apply Ok_inj in H. apply pair_equal_spec in H. destruct H as [<- <-].
    apply calc_metric_best in E1; [|assumption|assumption]. apply calc_metric_best in E2; [|assumption|assumption].
    exists (xc + sx), (yc + sy). split.
    - eapply best_centre_ext; [|exact E1]. intros s. cbn beta. apply narange_in. change (0 < 2). lra.
    - eapply best_centre_ext; [|exact E2]. intros s. cbn beta. apply narange_in. change (0 < 1 / 2). lra.
  Qed.
End Fine.

(** *** The search always gives a result on non-empty lines *)
Lemma mapM_total {A B} (f : A -> res B) l : (forall a, In a l -> exists b, f a = Ok b) -> exists r, mapM f l = Ok r.
Proof.
  induction l as [|a l IH]; intros H; [exists []; reflexivity|]. cbn [mapM]. destruct (H a (or_introl eq_refl)) as [b ->]. cbn [bind].
  destruct IH as [r ->]; [intros; apply H; now right|]. cbn [bind]. eauto.
Qed.
Lemma Forall2_in_r {A B} (P : A -> B -> Prop) l m b : Forall2 P l m -> In b m -> exists a, In a l /\ P a b.
Proof.
  intros F. induction F as [|x y l m H F IH]; intros Hb; [destruct Hb|]. destruct Hb as [->|Hb]; [exists x; split; [now left|assumption]|].
  destruct (IH Hb) as [a [Ha Pa]]. exists a. split; [now right|assumption].
Qed.
Section FineTotal.
  Variable st : R -> R.
  Local Instance NSt8 : Num R := Rst st.
  Variable polyfit : list R -> list R -> nat -> res (list R).
  Variable minimize : (R -> R) -> R -> R.
  Notation mind := (nearest_by minimize).
  Hypothesis PF : polyfit_oracle polyfit.
  Notation pnt := (R * R)%type.
  Lemma fit2_total xs ys : xs <> [] -> length xs = length ys -> exists c, fit2 polyfit xs ys = Ok c.
  Proof.
    intros H L. destruct (PF xs ys 2%nat H L) as [v [E P]]. unfold fit2. rewrite E. cbn [bind]. pose proof (proj1 P) as Lv.
    destruct v as [|a [|b [|c [|]]]]; try discriminate Lv. eauto.
  Qed.
  Lemma fit1_total xs ys : xs <> [] -> length xs = length ys -> exists c, fit1 polyfit xs ys = Ok c.
  Proof.
    intros H L. destruct (PF xs ys 1%nat H L) as [v [E P]]. unfold fit1. rewrite E. cbn [bind]. pose proof (proj1 P) as Lv.
    destruct v as [|a [|b [|]]]; try discriminate Lv. eauto.
  Qed.
  Lemma para_hor_total lines x y : (forall l, In l lines -> l <> []) -> exists cs sl, para_fit_hor polyfit lines x y = Ok (cs, sl).
  Proof.
    intros H. unfold para_fit_hor.
    match goal with |- exists _ _, bind (mapM ?f _) _ = _ => destruct (mapM_total f lines) as [r E] end.
    - intros l Hl. specialize (H l Hl). destruct l as [|p l]; [easy|].
      destruct (fit2_total (map (fun q : pnt => nsub (snd q) x) (p :: l)) (map (fun q : pnt => nsub (fst q) y) (p :: l))) as [c E];
        [discriminate|now rewrite !map_length|]. rewrite E. cbn [bind]. eauto.
    - rewrite E. cbn [bind]. eauto.
  Qed.
  Lemma para_ver_total lines x y : (forall l, In l lines -> l <> []) -> exists cs sl, para_fit_ver polyfit lines x y = Ok (cs, sl).
  Proof.
    intros H. unfold para_fit_ver.
    match goal with |- exists _ _, bind (mapM ?f _) _ = _ => destruct (mapM_total f lines) as [r E] end.
    - intros l Hl. specialize (H l Hl). destruct l as [|p l]; [easy|].
      destruct (fit2_total (map (fun q : pnt => nsub (fst q) y) (p :: l)) (map (fun q : pnt => nsub (snd q) x) (p :: l))) as [c E];
        [discriminate|now rewrite !map_length|]. rewrite E. cbn [bind]. eauto.
    - rewrite E. cbn [bind]. eauto.
  Qed.
  Lemma around_in {A} (i n : nat) (l : list A) x : In x (around i n l) -> In x l.
  Proof.
    intros H. unfold around in H.
    assert (S : forall k (m : list A), In x (skipn k m) -> In x m).
    { intros k m Hk. rewrite <- (firstn_skipn k m). apply in_or_app. now right. }
    apply S in H. rewrite <- (firstn_skipn (i + n + 1) l). apply in_or_app. now left.
  Qed.
  Lemma calc_error_total ch cv : ch <> [] -> cv <> [] -> exists e, calc_error polyfit minimize ch cv = Ok e.
  Proof.
    intros H1 H2. unfold calc_error. cbn zeta.
    destruct (fit1_total (map fst (map (near_point minimize) ch)) (map snd (map (near_point minimize) ch))) as [h ->];
      [destruct ch; [easy|discriminate]|now rewrite !map_length|].
    destruct (fit1_total (map fst (map (near_point minimize) cv)) (map snd (map (near_point minimize) cv))) as [v ->];
      [destruct cv; [easy|discriminate]|now rewrite !map_length|].
    cbn [bind]. eauto.
  Qed.
  Lemma calc_metric_total lh lv xc yc G : (2 <= length lh)%nat -> (2 <= length lv)%nat -> (forall l, In l (lh ++ lv) -> l <> []) -> G <> [] ->
    exists s, calc_metric polyfit minimize lh lv xc yc G G = Ok s.
  Proof.
    intros Lh Lv Hne HG. unfold calc_metric.
    assert (Hh : forall l, In l lh -> l <> []) by (intros; apply Hne; apply in_or_app; now left).
    assert (Hv : forall l, In l lv -> l <> []) by (intros; apply Hne; apply in_or_app; now right).
    destruct (para_hor_total lh xc yc Hh) as [fh [sh Eh]]. destruct (para_ver_total lv xc yc Hv) as [fv [sv Ev]].
    rewrite Eh, Ev. cbn [bind].
    apply para_hor_lines in Eh. destruct Eh as [-> Nh]. apply para_ver_lines in Ev. destruct Ev as [-> Nv].
    assert (Am : forall cs : list (R * R * R), (2 <= length cs)%nat -> exists i, argmin (map (fun c => nabs (cf2 c)) cs) = Ok (Z.of_nat i) /\ (i < length cs)%nat).
    { intros cs Hc. destruct (argmin (map (fun c => nabs (cf2 c)) cs)) as [p|] eqn:E; [|destruct cs; [cbn in Hc; lia|discriminate]].
      apply argmin_map_first in E. destruct E as [i [-> [_ L]]]. eauto. }
    destruct (Am fh) as [i [-> Li]]; [lia|]. destruct (Am fv) as [j [-> Lj]]; [lia|]. cbn [bind].
    set (fL := map (map (shiftp xc yc))).
    assert (Hl : forall l, length (fL l) = length l) by (intros; apply map_length).
    rewrite !Hl. change 5%Z with (Z.of_nat 5). rewrite !near_window_nat by assumption. cbn zeta. set (n := Nat.min 5 _).
    rewrite <- (Hl lh), <- (Hl lv). rewrite !lslice_around by (rewrite Hl; lia).
    assert (FL : forall ls, (forall l, In l ls -> l <> []) -> forall l, In l (fL ls) -> l <> []).
    { intros ls H l Hin. unfold fL in Hin. apply in_map_iff in Hin. destruct Hin as [m [<- Hm]]. specialize (H m Hm). destruct m; [easy|discriminate]. }
    assert (AL : forall k ls, (k < length ls)%nat -> (0 < length (around k n (fL ls)))%nat).
    { intros k ls Hk. unfold around. rewrite skipn_length, firstn_length, Hl. lia. }
    assert (NN : forall c1 (c2 : list (list pnt)), length c1 = length c2 -> (0 < length c2)%nat -> c1 <> (@nil (R * R * R))).
    { intros [|x c1] c2 L1 L2; [cbn in L1; lia|discriminate]. }
    match goal with |- exists s, bind (mapM ?f G) _ = _ => destruct (mapM_total f G) as [m Em] end.
    { intros sy _. apply mapM_total. intros sx _.
      destruct (para_hor_total (around i n (fL lh)) sx sy) as [gh [th Gh]].
      { intros l Hin. apply around_in in Hin. now apply (FL lh). }
      destruct (para_ver_total (around j n (fL lv)) sx sy) as [gv [tv Gv]].
      { intros l Hin. apply around_in in Hin. now apply (FL lv). }
      rewrite Gh, Gv. cbn [bind fst]. apply para_hor_lines in Gh. apply para_ver_lines in Gv.
      destruct (calc_error_total gh gv) as [e ->]; [eapply NN; [apply Gh|apply AL; lia]|eapply NN; [apply Gv|apply AL; lia]|].
      cbn [res_map]. eauto. }
    rewrite Em. cbn [bind]. rewrite Nat.eqb_refl. cbn [negb].
    apply mapM_ok in Em. pose proof (Forall2_length _ _ _ Em) as Lm.
    assert (Rows : forall r, In r m -> length r = length G).
    { intros r Hr. destruct (Forall2_in_r _ _ _ _ Em Hr) as [a [_ H]]. apply mapM_ok in H. symmetry. exact (Forall2_length _ _ _ H). }
    pose proof (length_concat_eq _ _ Rows) as Lc. rewrite <- Lm in Lc.
    assert (W : (0 < length G)%nat) by (destruct G; [easy|cbn; lia]).
    destruct (argmin (concat m)) as [k|] eqn:Ek; [|destruct (concat m); [cbn in Lc; nia|discriminate]].
    apply (argmin_first st) in Ek. destruct Ek as [q [-> [Q1 _]]]. cbn [bind]. rewrite <- Nat2Z.inj_mod, <- Nat2Z.inj_div.
    rewrite (pyget_nth _ _ 0) by (apply Nat.mod_upper_bound; lia). cbn [bind].
    rewrite (pyget_nth _ _ 0) by (apply Nat.div_lt_upper_bound; [lia|rewrite <- Lc; exact Q1]). cbn [bind]. eauto.
  Qed.
  Lemma fine_total lh lv xc yc pd : (2 <= length lh)%nat -> (2 <= length lv)%nat -> (forall l, In l (lh ++ lv) -> l <> []) -> 0 <= pd ->
    exists c, find_cod_fine polyfit minimize lh lv xc yc pd = Ok c.
  Proof.
    intros Lh Lv Hne Hp. unfold find_cod_fine. cbn zeta.
    assert (G : forall a b s, 0 < s -> a < b -> narange a b s <> []).
    { intros a b s Hs Hab E. assert (I : In a (narange a b s)).
      { apply narange_in; [assumption|]. exists 0%Z. split; [lia|]. split; [ring|assumption]. }
      rewrite E in I. destruct I. }
    destruct (calc_metric_total lh lv xc yc (narange (nopp pd) (nadd pd (nofZ 2)) (nofZ 2)) Lh Lv Hne) as [[sx sy] ->].
    { apply G; cbn; lra. }
    cbn [bind]. match goal with |- exists c, bind (calc_metric _ _ _ _ ?x ?y ?g _) _ = _ =>
      destruct (calc_metric_total lh lv x y g Lh Lv Hne) as [[tx ty] ->] end.
    { apply G; cbn; lra. }
    cbn [bind]. eauto.
  Qed.
End FineTotal.
