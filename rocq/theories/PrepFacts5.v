(** Polynomial-fit grouping: termination and where its lines come from. *)
From Coq Require Import Reals ZArith List Lra Lia Permutation Sorted.
From Flocq Require Import Core.
From Verif Require Import Base Num Img Post Spec NumFacts Lsq Sorting PrepSpec PrepImg PrepPts PrepFacts PrepFacts2 PrepFacts3 PrepFacts4.
Local Open Scope R_scope.
Local Existing Instance Rex.

Lemma pyget_err {A} (l : list A) i e : pyget l i = Err e -> e = IndexError.
Proof. unfold pyget. destruct (_ || _); [congruence|]. destruct (nth_error _ _); congruence. Qed.
Lemma max_len_err {A} (l : list (list A)) e : max_len l = Err e -> e = ValueError.
Proof. unfold max_len. destruct l; congruence. Qed.
Lemma hor_err {T} {N : Num T} argsort label pts s dd r m ar e :
  @group_dots_hor_lines T N argsort label (DPts pts) s dd r m ar = Err e -> e = ValueError.
Proof.
  unfold group_dots_hor_lines. destruct pts as [|p pts]; [cbn; congruence|].
  change (dots_of label IndexError (DPts (p :: pts))) with (Ok (p :: pts)). unfold bind at 1. cbv zeta.
  set (dl := gather _ _). destruct (group_hor_passes (fun d1 d2 => check_dot_on_line d1 d2 s dd r m) (length dl) dl [] (le_n _)) as [gs [rest [_ H]]].
  rewrite H. cbn [bind]. destruct (max_len _) eqn:E; cbn [bind]; [discriminate|]. apply max_len_err in E. congruence.
Qed.
Lemma distinct_lines_err {T} {N : Num T} ld ar key ls e : @distinct_lines T N ld ar key ls = Err e -> e = ValueError.
Proof. unfold distinct_lines. destruct (max_len ls) eqn:E; cbn [bind]; [discriminate|]. apply max_len_err in E. congruence. Qed.

Section Hor.
  Variables (argsort : list R -> list nat) (label : image R -> image Z * Z).
  Variable polyfit : list R -> list R -> nat -> res (list R).
  Hypothesis HE : forall xs ys j, polyfit xs ys j <> Err External.
  Let loop := @polyfit_hor_loop R Rex argsort cos sin polyfit PI.
  Lemma loop_terminates pts a sd tol ov k : forall groups sel acc,
    exists n, loop n pts a sd tol ov k groups sel acc <> Err External /\
      forall fuel, (n <= fuel)%nat -> loop fuel pts a sd tol ov k groups sel acc = loop n pts a sd tol ov k groups sel acc.
  Proof.
    induction groups as [|g groups IH]; intros sel acc.
    - exists O. split; [discriminate|reflexivity].
    - pose (F := fun fuel => if (2 <? Z.of_nat (length g))%Z then
             first <- pyget g 0 ;; last <- pyget g (-1) ;;
             get_nearby_hor_points_iter polyfit fuel g pts (snd first) (snd last) sd tol ov k
           else Ok sel).
      assert (S1 : exists n1, forall fuel, (n1 <= fuel)%nat -> F fuel = F n1 /\ F n1 <> Err External).
      { unfold F. destruct (2 <? Z.of_nat (length g))%Z; [|exists O; split; [reflexivity|discriminate]].
        destruct (pyget g 0) as [f|e] eqn:E0.
        2: { exists O. intros. cbn [bind]. split; [reflexivity|]. apply pyget_err in E0. congruence. }
        destruct (pyget g (-1)) as [la|e] eqn:E1.
        2: { exists O. intros. cbn [bind]. split; [reflexivity|]. apply pyget_err in E1. congruence. }
        cbn [bind]. destruct (hor_iter_terminates polyfit g pts (snd f) (snd la) sd tol ov k HE) as [n [D Hn]].
        exists n. intros fuel Hf. split; [now apply Hn|assumption]. }
      destruct S1 as [n1 H1]. unfold loop in *. cbn [polyfit_hor_loop].
      destruct (H1 n1 (le_n _)) as [_ D1].
      destruct (F n1) as [s1|e] eqn:E1.
      + pose (s2 := if (2 <? Z.of_nat (length s1))%Z
                    then gather (@rotate_points R Rex cos sin PI s1 (nopp a) false)
                           (argsort (map snd (@rotate_points R Rex cos sin PI s1 (nopp a) false))) else s1).
        destruct (IH s2 (if (2 <? Z.of_nat (length s1))%Z then acc ++ [s2] else acc)) as [n2 [D2 H2]].
        exists (Nat.max n1 n2).
        assert (Q : forall fuel, (Nat.max n1 n2 <= fuel)%nat -> loop fuel pts a sd tol ov k (g :: groups) sel acc =
          loop n2 pts a sd tol ov k groups s2 (if (2 <? Z.of_nat (length s1))%Z then acc ++ [s2] else acc)).
        { intros fuel Hf. unfold loop. cbn [polyfit_hor_loop]. destruct (H1 fuel ltac:(lia)) as [F1 _]. fold (F fuel). rewrite F1. cbn [bind].
          cbv zeta. unfold s2 in *. destruct (2 <? Z.of_nat (length s1))%Z; apply H2; lia. }
        split.
        * fold (loop (Nat.max n1 n2) pts a sd tol ov k (g :: groups) sel acc).
          specialize (Q _ (le_n _)). unfold loop in Q. cbn [polyfit_hor_loop] in Q. rewrite Q. assumption.
        * intros fuel Hf. pose proof (Q _ (le_n _)) as Q1. pose proof (Q _ Hf) as Q2. unfold loop in Q1, Q2.
          cbn [polyfit_hor_loop] in Q1, Q2. now rewrite Q1, Q2.
      + exists n1. split; [fold (F n1); rewrite E1; cbn [bind]; congruence|].
        intros fuel Hf. destruct (H1 fuel Hf) as [F1 _]. fold (F fuel) (F n1). now rewrite F1, E1.
  Qed.
  Lemma hor_polyfit_terminates pts slope ld ratio miss ar ov k :
    exists n, @group_dots_hor_lines_based_polyfit R Rex argsort label cos sin atan polyfit PI n pts slope ld ratio miss ar ov k <> Err External /\
    forall fuel, (n <= fuel)%nat ->
      @group_dots_hor_lines_based_polyfit R Rex argsort label cos sin atan polyfit PI fuel pts slope ld ratio miss ar ov k =
      @group_dots_hor_lines_based_polyfit R Rex argsort label cos sin atan polyfit PI n pts slope ld ratio miss ar ov k.
  Proof.
    unfold group_dots_hor_lines_based_polyfit. destruct (_ =? 0)%Z; [exists O; split; [discriminate|reflexivity]|]. cbv zeta.
    set (sp := gather _ _).
    destruct (pyget (map snd sp) 0) as [x0|e] eqn:E0; cbn [bind].
    2: { exists O. split; [apply pyget_err in E0; congruence|reflexivity]. }
    destruct (pyget (map snd sp) (-1)) as [x1|e] eqn:E1; cbn [bind].
    2: { exists O. split; [apply pyget_err in E1; congruence|reflexivity]. }
    set (sel := filter _ sp). destruct sel as [|p0 sel'] eqn:Es.
    - exists O. split; [discriminate|reflexivity].
    - rewrite <- Es.
      destruct (@group_dots_hor_lines R Rex argsort label (DPts sel) n0 ld ratio _ ar) as [gs|e] eqn:Eg; cbn [bind].
      2: { exists O. split; [apply hor_err in Eg; congruence|reflexivity]. }
      set (a := nopp (atan slope)). set (sd := nadd _ _). set (tol := nmul ratio ld).
      destruct (loop_terminates sp a sd tol ov k gs sel []) as [n [D H]]. exists n. unfold loop in *. split.
      + destruct (polyfit_hor_loop _ _ _ _ _ n sp a sd tol ov k gs sel []) as [ls|e]; cbn [bind]; [|congruence].
        destruct (distinct_lines _ _ _ ls) eqn:Ed; cbn [bind]; [discriminate|]. apply distinct_lines_err in Ed. congruence.
      + intros fuel Hf. now rewrite (H fuel Hf).
  Qed.

  (** *** Origin of the lines when no group is short *)
  Hypothesis HA : argsort_spec argsort.
  Hypothesis Hfit : fits polyfit.
  Definition from_group (pts : list (R * R)) (a tol : R) (k : nat) (groups : list (list (R * R))) (line : list (R * R)) : Prop :=
    exists g s, In g groups /\ grown snd fst tol k pts g s /\
      Permutation line (map (rot1 (- a)) s) /\ StronglySorted (fun p q => snd p <= snd q) line.
  Lemma loop_from fuel pts a sd tol ov k G : forall groups sel acc ls,
    incl groups G -> Forall (fun g => (2 < length g)%nat) groups -> Forall (from_group pts a tol k G) acc ->
    loop fuel pts a sd tol ov k groups sel acc = Ok ls -> Forall (from_group pts a tol k G) ls.
  Proof.
    induction groups as [|g groups IH]; intros sel acc ls HI HF Hacc H.
    - unfold loop in H. cbn in H. injection H as <-. assumption.
    - unfold loop in *. cbn [polyfit_hor_loop] in H. inversion HF as [|? ? Hg HF']; subst.
      replace (2 <? Z.of_nat (length g))%Z with true in H by (symmetry; apply Z.ltb_lt; lia).
      destruct (pyget g 0) as [f|]; cbn [bind] in H; [|discriminate].
      destruct (pyget g (-1)) as [la|]; cbn [bind] in H; [|discriminate].
      destruct (@get_nearby_hor_points_iter R Rex polyfit fuel g pts (snd f) (snd la) sd tol ov k) as [s|] eqn:En; cbn [bind] in H; [|discriminate].
      assert (Gs : grown snd fst tol k pts g s).
      { unfold get_nearby_hor_points_iter in En. eapply nearby_hor_grown; [exact Hfit|exact En|constructor]. }
      assert (HI' : incl groups G) by (intros x Hx; apply HI; now right).
      destruct (2 <? Z.of_nat (length s))%Z; [|eapply IH; eassumption].
      cbv zeta in H. eapply IH; [exact HI'|exact HF'| |exact H]. apply Forall_app. split; [assumption|]. constructor; [|constructor].
      exists g, s. split; [apply HI; now left|]. split; [assumption|].
      rewrite rotate_rad. change (@nopp R Rex a) with (- a).
      destruct (gather_argsort argsort snd (map (rot1 (- a)) s) HA) as [P S]. split; assumption.
  Qed.
End Hor.
Lemma ver_err {T} {N : Num T} argsort label pts s dd r m ar e :
  @group_dots_ver_lines T N argsort label (DPts pts) s dd r m ar = Err e -> e = ValueError.
Proof. rewrite ver_hor. destruct (group_dots_hor_lines _ _ _ _ _ _ _ _) eqn:E; cbn [res_map]; [discriminate|]. intros H. injection H as <-. now apply hor_err in E. Qed.
Section Ver.
  Variables (argsort : list R -> list nat) (label : image R -> image Z * Z).
  Variable polyfit : list R -> list R -> nat -> res (list R).
  Hypothesis HE : forall xs ys j, polyfit xs ys j <> Err External.
  Let loop := @polyfit_ver_loop R Rex argsort cos sin polyfit PI.
  Lemma ver_loop_terminates pts a sd tol ov k : forall groups sel acc,
    exists n, loop n pts a sd tol ov k groups sel acc <> Err External /\
      forall fuel, (n <= fuel)%nat -> loop fuel pts a sd tol ov k groups sel acc = loop n pts a sd tol ov k groups sel acc.
  Proof.
    induction groups as [|g groups IH]; intros sel acc.
    - exists O. split; [discriminate|reflexivity].
    - pose (F := fun fuel => if (2 <? Z.of_nat (length g))%Z then
             first <- pyget g 0 ;; last <- pyget g (-1) ;;
             get_nearby_ver_points_iter polyfit fuel g pts (fst first) (fst last) sd tol ov k
           else Ok sel).
      assert (S1 : exists n1, forall fuel, (n1 <= fuel)%nat -> F fuel = F n1 /\ F n1 <> Err External).
      { unfold F. destruct (2 <? Z.of_nat (length g))%Z; [|exists O; split; [reflexivity|discriminate]].
        destruct (pyget g 0) as [f|e] eqn:E0.
        2: { exists O. intros. cbn [bind]. split; [reflexivity|]. apply pyget_err in E0. congruence. }
        destruct (pyget g (-1)) as [la|e] eqn:E1.
        2: { exists O. intros. cbn [bind]. split; [reflexivity|]. apply pyget_err in E1. congruence. }
        cbn [bind]. destruct (ver_iter_terminates polyfit g pts (fst f) (fst la) sd tol ov k HE) as [n [D Hn]].
        exists n. intros fuel Hf. split; [now apply Hn|assumption]. }
      destruct S1 as [n1 H1]. unfold loop in *. cbn [polyfit_ver_loop].
      destruct (H1 n1 (le_n _)) as [_ D1].
      destruct (F n1) as [s1|e] eqn:E1.
      + pose (s2 := if (2 <? Z.of_nat (length s1))%Z
                    then gather (@rotate_points R Rex cos sin PI s1 (nopp a) false)
                           (argsort (map fst (@rotate_points R Rex cos sin PI s1 (nopp a) false))) else s1).
        destruct (IH s2 (if (2 <? Z.of_nat (length s1))%Z then acc ++ [s2] else acc)) as [n2 [D2 H2]].
        exists (Nat.max n1 n2).
        assert (Q : forall fuel, (Nat.max n1 n2 <= fuel)%nat -> loop fuel pts a sd tol ov k (g :: groups) sel acc =
          loop n2 pts a sd tol ov k groups s2 (if (2 <? Z.of_nat (length s1))%Z then acc ++ [s2] else acc)).
        { intros fuel Hf. unfold loop. cbn [polyfit_ver_loop]. destruct (H1 fuel ltac:(lia)) as [F1 _]. fold (F fuel). rewrite F1. cbn [bind].
          cbv zeta. unfold s2 in *. destruct (2 <? Z.of_nat (length s1))%Z; apply H2; lia. }
        split.
        * fold (loop (Nat.max n1 n2) pts a sd tol ov k (g :: groups) sel acc).
          specialize (Q _ (le_n _)). unfold loop in Q. cbn [polyfit_ver_loop] in Q. rewrite Q. assumption.
        * intros fuel Hf. pose proof (Q _ (le_n _)) as Q1. pose proof (Q _ Hf) as Q2. unfold loop in Q1, Q2.
          cbn [polyfit_ver_loop] in Q1, Q2. now rewrite Q1, Q2.
      + exists n1. split; [fold (F n1); rewrite E1; cbn [bind]; congruence|].
        intros fuel Hf. destruct (H1 fuel Hf) as [F1 _]. fold (F fuel) (F n1). now rewrite F1, E1.
  Qed.
  Lemma ver_polyfit_terminates pts slope ld ratio miss ar ov k :
    exists n, @group_dots_ver_lines_based_polyfit R Rex argsort label cos sin atan polyfit PI n pts slope ld ratio miss ar ov k <> Err External /\
    forall fuel, (n <= fuel)%nat ->
      @group_dots_ver_lines_based_polyfit R Rex argsort label cos sin atan polyfit PI fuel pts slope ld ratio miss ar ov k =
      @group_dots_ver_lines_based_polyfit R Rex argsort label cos sin atan polyfit PI n pts slope ld ratio miss ar ov k.
  Proof.
    unfold group_dots_ver_lines_based_polyfit. destruct (_ =? 0)%Z; [exists O; split; [discriminate|reflexivity]|]. cbv zeta.
    set (sp := gather _ _).
    destruct (pyget (map fst sp) 0) as [x0|e] eqn:E0; cbn [bind].
    2: { exists O. split; [apply pyget_err in E0; congruence|reflexivity]. }
    destruct (pyget (map fst sp) (-1)) as [x1|e] eqn:E1; cbn [bind].
    2: { exists O. split; [apply pyget_err in E1; congruence|reflexivity]. }
    set (sel := filter _ sp). destruct sel as [|p0 sel'] eqn:Es.
    - exists O. split; [discriminate|reflexivity].
    - rewrite <- Es.
      destruct (@group_dots_ver_lines R Rex argsort label (DPts sel) n0 ld ratio _ ar) as [gs|e] eqn:Eg; cbn [bind].
      2: { exists O. split; [apply ver_err in Eg; congruence|reflexivity]. }
      set (a := atan slope). set (sd := nadd _ _). set (tol := nmul ratio ld).
      destruct (ver_loop_terminates sp a sd tol ov k gs sel []) as [n [D H]]. exists n. unfold loop in *. split.
      + destruct (polyfit_ver_loop _ _ _ _ _ n sp a sd tol ov k gs sel []) as [ls|e]; cbn [bind]; [|congruence].
        destruct (distinct_lines _ _ _ ls) eqn:Ed; cbn [bind]; [discriminate|]. apply distinct_lines_err in Ed. congruence.
      + intros fuel Hf. now rewrite (H fuel Hf).
  Qed.

End Ver.
Lemma combine_seq_snd {A} (l : list A) n : map snd (combine (seq n (length l)) l) = l.
Proof. revert n; induction l as [|a l IH]; intros n; cbn; [reflexivity|]. now rewrite IH. Qed.
Lemma distinct_lines_incl {T} {N : Num T} ld ar key ls r : @distinct_lines T N ld ar key ls = Ok r -> incl r ls.
Proof.
  unfold distinct_lines. destruct (max_len ls) as [m|]; cbn [bind]; [|discriminate]. set (len := wrap16 _). cbv zeta.
  set (fl := filter _ ls). assert (Hf : incl fl ls) by (intros x Hx; apply filter_In in Hx; tauto).
  destruct (jumps _ _ _) as [|i ids]; intros H; injection H as <-; [assumption|].
  intros x Hx. apply Hf. apply in_map_iff in Hx. destruct Hx as [[j y] [<- Hy]]. apply filter_In in Hy. destruct Hy as [Hy _].
  apply (in_map snd) in Hy. now rewrite combine_seq_snd in Hy.
Qed.
(** The dots within [reach] of the middle of the range of x. *)
Lemma pyget_first {A} (l : list A) x : pyget l 0 = Ok x -> exists l', l = x :: l'.
Proof. destruct l as [|a l]; [discriminate|]. cbn. intros H. injection H as ->. now exists l. Qed.
Lemma pyget_last {A} (l : list A) x : pyget l (-1) = Ok x -> exists l', l = l' ++ [x].
Proof.
  unfold pyget. destruct (Nat.eq_dec (length l) 0) as [E|E]; [rewrite E; discriminate|].
  replace (-1 <? 0)%Z with true by reflexivity.
  replace ((-1 + Z.of_nat (length l) <? 0) || (Z.of_nat (length l) <=? -1 + Z.of_nat (length l)))%Z with false
    by (symmetry; apply orb_false_iff; split; [apply Z.ltb_ge|apply Z.leb_gt]; lia).
  replace (Z.to_nat (-1 + Z.of_nat (length l))) with (length l - 1)%nat by lia.
  destruct (nth_error l (length l - 1)) eqn:En; [|discriminate]. intros H. injection H as ->.
  apply nth_error_split in En. destruct En as [l1 [l2 [El L1]]]. exists l1. rewrite El in L1 |- *. rewrite app_length in L1. cbn in L1.
  destruct l2; [reflexivity|cbn in L1; lia].
Qed.
Lemma sorted_ends (l : list R) x0 x1 : StronglySorted Rle l -> pyget l 0 = Ok x0 -> pyget l (-1) = Ok x1 ->
  In x0 l /\ In x1 l /\ forall x, In x l -> x0 <= x <= x1.
Proof.
  intros S H0 H1. apply pyget_first in H0. apply pyget_last in H1. destruct H0 as [l0 E0], H1 as [l1 E1].
  split; [rewrite E0; now left|]. split; [rewrite E1; apply in_app_iff; right; now left|]. intros x Hx. split.
  - rewrite E0 in S, Hx. inversion S as [|? ? S' F]; subst. rewrite Forall_forall in F. destruct Hx as [->|Hx]; [lra|auto].
  - rewrite E1 in S, Hx. clear E0 E1. induction l1 as [|a l1 IH]; cbn in *.
    + destruct Hx as [->|[]]. lra.
    + inversion S as [|? ? S' F]; subst. rewrite Forall_forall in F. destruct Hx as [->|Hx]; [|now apply IH].
      apply F. apply in_app_iff. right. now left.
Qed.
Lemma hor_polyfit_from argsort label polyfit fuel pts slope ld ratio miss ar ov k lines :
  argsort_spec argsort -> fits polyfit -> 0 <= ld ->
  let a := - atan slope in
  let reach := IZR (Z.min (Z.max miss 1) (Z.of_nat (length pts))) * ld + ld / 2 in
  @group_dots_hor_lines_based_polyfit R Rex argsort label cos sin atan polyfit PI fuel pts slope ld ratio miss ar ov k = Ok lines ->
  exists sp sel gs,
    Permutation sp (map (rot1 a) pts) /\ StronglySorted (fun p q => snd p <= snd q) sp /\ central reach sp sel /\
    @group_dots_hor_lines R Rex argsort label (DPts sel) 0 ld ratio (Z.min (Z.max miss 1) (Z.of_nat (length pts))) ar = Ok gs /\
    (Forall (fun g => (2 < length g)%nat) gs ->
     Forall (from_group sp a (ratio * ld) k gs) lines /\ Forall (fun l => incl l pts) lines).
Proof.
  intros HA Hfit Hld a reach H. unfold group_dots_hor_lines_based_polyfit in H.
  destruct (Z.eqb_spec (Z.of_nat (length pts)) 0) as [E|E]; [discriminate|]. cbv zeta in H.
  rewrite rotate_rad in H. change (@nopp R Rex (atan slope)) with a in H.
  set (rp := map (rot1 a) pts) in H. set (sp := gather rp (argsort (map snd rp))) in H.
  destruct (gather_argsort argsort snd rp HA) as [P S]. fold sp in P, S.
  destruct (pyget (map snd sp) 0) as [x0|] eqn:E0; cbn [bind] in H; [|discriminate].
  destruct (pyget (map snd sp) (-1)) as [x1|] eqn:E1; cbn [bind] in H; [|discriminate].
  destruct (sorted_ends (map snd sp) x0 x1 (StronglySorted_map snd Rle sp S) E0 E1) as [I0 [I1 B]].
  set (m := Z.min (Z.max miss 1) (Z.of_nat (length pts))) in *.
  assert (Hm : (1 <= m)%Z) by (unfold m; lia).
  assert (Hreach : 0 <= reach).
  { unfold reach. assert (0 <= IZR m) by (apply IZR_le; lia). assert (0 <= IZR m * ld) by now apply Rmult_le_pos. lra. }
  set (sel := filter _ sp) in H.
  assert (C : central reach sp sel).
  { exists x0, x1. apply in_map_iff in I0, I1. destruct I0 as [p0 [Hp0 I0]], I1 as [p1 [Hp1 I1]].
    split; [now exists p0|]. split; [now exists p1|]. split; [intros p Hp; apply B; now apply in_map|].
    unfold sel. assert (K : forall p, In p sp ->
      ((nclip (nsub (nmul (nadd x0 x1) (nofQ 1 2)) (nadd (nmul (nofZ m) ld) (nmul (nofQ 1 2) ld))) x0 x1 <=?! snd p) &&
       (snd p <=?! nclip (nadd (nmul (nadd x0 x1) (nofQ 1 2)) (nadd (nmul (nofZ m) ld) (nmul (nofQ 1 2) ld))) x0 x1))%num = true
      <-> Rabs (snd p - (x0 + x1) / 2) <= reach).
    { intros p Hp. specialize (B (snd p) (in_map snd _ _ Hp)). unfold Rex. rewrite !nclip_R by lra.
      cbn [nadd nmul nsub nofQ nofZ nleb Rnum]. rewrite andb_true_iff, !Rle_bool_true_iff.
      replace (IZR m * ld + 1 / 2 * ld) with reach by (unfold reach; field).
      replace ((x0 + x1) * (1 / 2)) with ((x0 + x1) / 2) by field. set (mid := (x0 + x1) / 2).
      assert (Hmid : x0 <= mid <= x1) by (unfold mid; lra). unfold clamp. split.
      - intros [A1 A2]. pose proof (Rmax_r x0 (Rmin (mid - reach) x1)) as M1. pose proof (Rmin_l (mid + reach) x1) as M2.
        rewrite (Rmin_left (mid - reach) x1) in * by lra.
        pose proof (Rmax_r x0 (mid - reach)). assert (snd p <= mid + reach).
        { eapply Rle_trans; [apply A2|]. apply Rmax_lub; lra. }
        apply Rabs_le. lra.
      - intros A. apply Rabs_le_inv in A. split; [apply Rmax_lub; [lra|]; eapply Rle_trans; [apply Rmin_l|lra]|].
        eapply Rle_trans; [|apply Rmax_r]. apply Rmin_glb; lra. }
    clear - K. induction sp as [|p l IH]; cbn [filter]; [constructor|].
    match goal with |- context [if ?b then _ else _] => destruct b eqn:Eb end.
    - constructor; [apply K; [now left|assumption]|]. apply IH. intros; apply K; now right.
    - constructor; [|apply IH; intros; apply K; now right]. intros Hn. apply K in Hn; [|now left]. congruence. }
  assert (Hne : sel <> []).
  { destruct C as [lo [hi [_ [_ [_ Cs]]]]]. intros En. rewrite En in *. cbn in H. discriminate. }
  destruct sel as [|p0 sel'] eqn:Es; [congruence|]. rewrite <- Es in *.
  destruct (@group_dots_hor_lines R Rex argsort label (DPts sel) n0 ld ratio m ar) as [gs|] eqn:Eg; cbn [bind] in H; [|discriminate].
  exists sp, sel, gs. split; [exact P|]. split; [exact S|]. split; [assumption|]. split; [exact Eg|].
  intros HF.
  set (sd := nadd _ _) in H. set (tol := nmul ratio ld) in H.
  destruct (@polyfit_hor_loop R Rex argsort cos sin polyfit PI fuel sp a sd tol ov k gs sel []) as [ls|] eqn:El; cbn [bind] in H; [|discriminate].
  destruct (distinct_lines _ _ _ ls) as [ds|] eqn:Ed; cbn [bind] in H; [|discriminate].
  assert (Q : Forall (from_group sp a tol k gs) lines).
  { pose proof (loop_from argsort polyfit HA Hfit fuel sp a sd tol ov k gs gs sel [] ls (incl_refl _) HF (Forall_nil _) El) as HL.
    rewrite Forall_forall in *. intros l Hl. apply HL. apply (distinct_lines_incl _ _ _ _ _ Ed).
    assert (Hs : Permutation lines ds) by (injection H as <-; apply sorted_perm). now apply (Permutation_in _ Hs). }
  split; [exact Q|].
  rewrite Forall_forall in *. intros l Hl p Hp. destruct (Q l Hl) as [g [s [Ig [Gr [Pl _]]]]].
  apply (Permutation_in _ Pl) in Hp. apply in_map_iff in Hp. destruct Hp as [q [<- Hq]].
  assert (Hsp : In q sp).
  { apply (proj2 (grown_incl _ _ _ _ _ _ _ Gr)) in Hq. destruct Hq as [Hq|Hq]; [|assumption].
    (* q is in a group, hence in sel, hence in sp *)
    assert (Hsel : In q sel).
    { destruct (hor_unfold (fun x => x) argsort label sel 0 ld ratio m ar HA Hne) as [sp' [groups [rest [P' [_ [HP HEq]]]]]].
      unfold Rex in Eg. change (@n0 R (Rnum (fun x => x))) with 0 in Eg. rewrite HEq in Eg.
      destruct (max_len _) as [mx|]; cbn [bind] in Eg; [|discriminate].
      apply passes_perm in HP. apply (Permutation_in _ P'). apply (Permutation_in _ (Permutation_sym HP)).
      apply in_app_iff. left. apply in_concat. exists g. split; [|assumption].
      injection Eg as <-. apply (Permutation_in _ (sorted_perm _ _)) in Ig. apply filter_In in Ig. destruct Ig as [Ig _].
      apply filter_In in Ig. tauto. }
    unfold sel in Hsel. apply filter_In in Hsel. tauto. }
  apply (Permutation_in _ P) in Hsp. unfold rp in Hsp. apply in_map_iff in Hsp. destruct Hsp as [p [<- Hp]].
  now rewrite rot1_inv.
Qed.
