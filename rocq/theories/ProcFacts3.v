(** Facts about the undistorted intercepts. *)
From Coq Require Import Reals ZArith List Lra Lia.
From Flocq Require Import Core.
From Verif Require Import Base Num Spec Lsq ProcSpec PolyUniq PrepImg PrepPts PrepFacts PrepFacts2 Post Proc ProcFacts ProcFacts2.
Import ListNotations.
Local Open Scope R_scope.

Lemma mapi_from_length {A B} (f : nat -> A -> B) l : forall k, length (mapi_from f k l) = length l.
Proof. induction l as [|a l IH]; intros k; cbn; [reflexivity|]. now rewrite IH. Qed.
Lemma mapi_from_nth {A B} (f : nat -> A -> B) l d d' : forall k i, (i < length l)%nat -> nth i (mapi_from f k l) d = f (k + i)%nat (nth i l d').
Proof.
  induction l as [|a l IH]; intros k [|i] Hi; cbn in *; try lia; [now rewrite Nat.add_0_r|].
  rewrite IH by lia. f_equal. lia.
Qed.
Lemma mapi_nth {A B} (f : nat -> A -> B) l d d' i : (i < length l)%nat -> nth i (mapi f l) d = f i (nth i l d').
Proof. apply (mapi_from_nth f l d d' 0). Qed.
Lemma mapi_length {A B} (f : nat -> A -> B) l : length (mapi f l) = length l.
Proof. apply mapi_from_length. Qed.
Lemma mapi_ext {A B} (f g : nat -> A -> B) l : (forall i a, f i a = g i a) -> mapi f l = mapi g l.
Proof. intros H. unfold mapi. generalize 0%nat. induction l as [|a l IH]; intros k; cbn; [reflexivity|]. now rewrite H, IH. Qed.
Lemma in_mapi_from {A B} (f : nat -> A -> B) l d x : forall k, In x (mapi_from f k l) <-> exists i, (i < length l)%nat /\ x = f (k + i)%nat (nth i l d).
Proof.
  induction l as [|a l IH]; intros k; cbn [mapi_from In length].
  - split; [intros []|]. intros [i [H _]]. lia.
  - rewrite IH. split.
    + intros [<-|[i [H ->]]]; [exists O; split; [lia|]; now rewrite Nat.add_0_r|]. exists (S i). split; [lia|]. cbn [nth]. f_equal. lia.
    + intros [[|i] [H ->]]; [left; now rewrite Nat.add_0_r|]. right. exists i. split; [lia|]. cbn [nth]. f_equal. lia.
Qed.
Lemma in_mapi {A B} (f : nat -> A -> B) l d x : In x (mapi f l) <-> exists i, (i < length l)%nat /\ x = f i (nth i l d).
Proof. apply (in_mapi_from f l d x 0). Qed.
Lemma fold_plus (l : list R) : forall a, fold_left (fun x y => x + y) l a = a + Rsum l.
Proof. induction l as [|x l IH]; intros a; cbn; [ring|]. rewrite IH. ring. Qed.
Lemma Rsum_ge_in l x : (forall y, In y l -> 0 <= y) -> In x l -> x <= Rsum l.
Proof.
  induction l as [|a l IH]; intros H Hx; [destruct Hx|]. cbn. assert (0 <= a) by (apply H; now left).
  assert (0 <= Rsum l) by (apply Rsum_nonneg; intros; apply H; now right).
  destruct Hx as [->|Hx]; [lra|]. specialize (IH (fun y Hy => H y (or_intror Hy)) Hx). lra.
Qed.
Lemma Rsum_const l c : (forall x, In x l -> x = c) -> Rsum l = INR (length l) * c.
Proof.
  induction l as [|a l IH]; intros H; [cbn; ring|]. cbn [Rsum length]. rewrite S_INR, IH by (intros; apply H; now right).
  rewrite (H a (or_introl eq_refl)). ring.
Qed.
Lemma gaps_length l : length (gaps l) = (length l - 1)%nat.
Proof. induction l as [|a [|b l] IH]; [reflexivity|reflexivity|]. cbn [gaps length] in *. rewrite IH. lia. Qed.
Lemma gaps_nth l i : (S i < length l)%nat -> nth i (gaps l) 0 = Rabs (nth (S i) l 0 - nth i l 0).
Proof.
  revert i. induction l as [|a [|b l] IH]; intros i Hi; cbn [length] in Hi; try lia.
  destruct i as [|i]; [reflexivity|]. cbn [gaps nth]. apply IH. cbn [length]. lia.
Qed.
Lemma around_nth {A} (l : list A) i n k d : (i < length l)%nat -> (k < length (around i n l))%nat -> nth k (around i n l) d = nth (i - n + k) l d.
Proof.
  intros Hi Hk. unfold around in *. rewrite skipn_length, firstn_length in Hk. rewrite <- (firstn_skipn (i + n + 1) l) at 2.
  rewrite app_nth1 by (rewrite firstn_length; lia). rewrite <- (firstn_skipn (i - n) (firstn (i + n + 1) l)) at 2.
  rewrite app_nth2 by (rewrite firstn_length, firstn_length; lia). f_equal. rewrite !firstn_length. lia.
Qed.
Lemma around_length {A} (l : list A) i n : length (around i n l) = (Nat.min (i + n + 1) (length l) - (i - n))%nat.
Proof. unfold around. now rewrite skipn_length, firstn_length. Qed.
Lemma sgn_pos x : 0 < x -> sgn x = 1.
Proof. unfold sgn. destruct (Rlt_dec 0 x); lra. Qed.
Lemma sgn_neg x : x < 0 -> sgn x = -1.
Proof. unfold sgn. destruct (Rlt_dec 0 x); [lra|]. destruct (Rlt_dec x 0); lra. Qed.
Lemma Rabs_le_cases x y : Rabs x <= Rabs y -> y <= - Rabs x \/ Rabs x <= y.
Proof. intros H. destruct (Rcase_abs y) as [G|G]; [rewrite (Rabs_left y) in H by assumption; left; lra|rewrite (Rabs_right y) in H by assumption; now right]. Qed.

(** A sum of squares of linear functions is a quadratic function. *)
Lemma quadratic_sum (u v : nat -> R -> R) l : exists A B C,
  (forall j, (j < length l)%nat -> u j (nth j l 0) ^ 2 <= A) /\
  forall x, Rsum (mapi (fun i c => (u i c * x + v i c) ^ 2) l) = A * x ^ 2 + B * x + C.
Proof.
  unfold mapi. enough (G : forall k, exists A B C, 0 <= A /\ (forall j, (j < length l)%nat -> u (k + j)%nat (nth j l 0) ^ 2 <= A) /\
    forall x, Rsum (mapi_from (fun i c => (u i c * x + v i c) ^ 2) k l) = A * x ^ 2 + B * x + C).
  { destruct (G O) as [A [B [C [_ [H1 H2]]]]]. exists A, B, C. split; assumption. }
  induction l as [|c l IH]; intros k.
  - exists 0, 0, 0. split; [lra|]. split; [cbn; intros; lia|]. intros x. cbn. ring.
  - destruct (IH (S k)) as [A [B [C [P [H1 H2]]]]]. exists (u k c ^ 2 + A), (2 * u k c * v k c + B), (v k c ^ 2 + C).
    pose proof (pow2_ge_0 (u k c)). split; [lra|]. split.
    + intros [|j] Hj; cbn [nth length] in *; [rewrite Nat.add_0_r; lra|].
      specialize (H1 j ltac:(lia)). replace (k + S j)%nat with (S k + j)%nat by lia. lra.
    + intros x. cbn [mapi_from Rsum]. rewrite H2. ring.
Qed.

(** Signs of monotone values around the one nearest to zero. *)
Lemma monotone_signs l pos : strictly_monotone l -> first_min (map Rabs l) pos ->
  exists s, (s = 1 \/ s = -1) /\ forall i, (i < length l)%nat ->
    sgn (nth i l 0) * IZR (Z.abs (Z.of_nat i - Z.of_nat pos)) = s * (INR i - INR pos).
Proof.
  intros M [P1 [P2 _]]. rewrite map_length in *.
  assert (N : forall j, (j < length l)%nat -> nth j (map Rabs l) 0 = Rabs (nth j l 0)).
  { intros j Hj. rewrite (nth_indep _ 0 (Rabs 0)) by (rewrite map_length; lia). apply map_nth. }
  assert (A : forall j, (j < length l)%nat -> nth j l 0 <= - Rabs (nth pos l 0) \/ Rabs (nth pos l 0) <= nth j l 0).
  { intros j Hj. apply Rabs_le_cases. rewrite <- !N by assumption. now apply P2. }
  assert (B := Rabs_pos (nth pos l 0)). assert (C := Rle_abs (nth pos l 0)). assert (C' := Rle_abs (- nth pos l 0)). rewrite Rabs_Ropp in C'.
  assert (E : forall i, (i < pos)%nat -> IZR (Z.abs (Z.of_nat i - Z.of_nat pos)) = INR pos - INR i).
  { intros i Hi. rewrite Z.abs_neq by lia. rewrite opp_IZR, minus_IZR, <- !INR_IZR_INZ. ring. }
  assert (E' : forall i, (pos <= i)%nat -> IZR (Z.abs (Z.of_nat i - Z.of_nat pos)) = INR i - INR pos).
  { intros i Hi. rewrite Z.abs_eq by lia. rewrite minus_IZR, <- !INR_IZR_INZ. ring. }
  destruct M as [M|M].
  - exists 1. split; [now left|]. intros i Hi. destruct (lt_eq_lt_dec i pos) as [[L|L]|L].
    + rewrite E by assumption. rewrite sgn_neg; [ring|]. specialize (M i pos ltac:(lia)). destruct (A i Hi); lra.
    + subst i. rewrite E' by lia. ring.
    + rewrite E' by lia. rewrite sgn_pos; [ring|]. specialize (M pos i ltac:(lia)). destruct (A i Hi); lra.
  - exists (-1). split; [now right|]. intros i Hi. destruct (lt_eq_lt_dec i pos) as [[L|L]|L].
    + rewrite E by assumption. rewrite sgn_pos; [ring|]. specialize (M i pos ltac:(lia)). destruct (A i Hi); lra.
    + subst i. rewrite E' by lia. ring.
    + rewrite E' by lia. rewrite sgn_neg; [ring|]. specialize (M pos i ltac:(lia)). destruct (A i Hi); lra.
Qed.
Lemma equidistant_monotone a e l : e <> 0 -> equidistant a e l -> strictly_monotone l.
Proof.
  intros He H. destruct (Rlt_or_le 0 e) as [L|L].
  - left. intros i j Hij. rewrite !H by lia. assert (INR i < INR j) by (apply lt_INR; lia).
    assert (INR i * e < INR j * e) by (apply Rmult_lt_compat_r; lra). lra.
  - right. intros i j Hij. rewrite !H by lia. assert (INR i < INR j) by (apply lt_INR; lia).
    assert (INR j * e < INR i * e) by (apply Rmult_lt_gt_compat_neg_l with (r := e) in H0; lra). lra.
Qed.
(** For equidistant values the spread with distance |e| gives them back. *)
Lemma equidistant_spread a e l pos i : e <> 0 -> equidistant a e l -> first_min (map Rabs l) pos -> (i < length l)%nat ->
  (2 <= length l)%nat ->
  sgn (nth i l 0) * (IZR (Z.abs (Z.of_nat i - Z.of_nat pos)) * Rabs e) + nth pos l 0 = nth i l 0.
Proof.
  intros He H F Hi H2. pose proof (proj1 F) as Hp. rewrite map_length in Hp.
  destruct (monotone_signs l pos (equidistant_monotone a e l He H) F) as [s [Hs Q]].
  rewrite <- Rmult_assoc, Q by assumption. rewrite !H by assumption.
  (* the sign of the progression *)
  assert (S : s * Rabs e = e).
  { assert (exists j, (j < length l)%nat /\ j <> pos) as [j [Hj Nj]].
    { destruct pos; [exists 1%nat|exists 0%nat]; split; lia. }
    destruct F as [P1 [P2 _]]. rewrite map_length in *.
    assert (N : forall k, (k < length l)%nat -> nth k (map Rabs l) 0 = Rabs (nth k l 0)).
    { intros k Hk. rewrite (nth_indep _ 0 (Rabs 0)) by (rewrite map_length; lia). apply map_nth. }
    specialize (Q j Hj). specialize (P2 j Hj). rewrite !N in P2 by assumption.
    assert (D : nth j l 0 - nth pos l 0 = (INR j - INR pos) * e) by (rewrite !H by assumption; ring).
    assert (Za : 0 < IZR (Z.abs (Z.of_nat j - Z.of_nat pos))) by (apply IZR_lt; lia).
    assert (B := Rabs_pos (nth pos l 0)). assert (C := Rle_abs (nth pos l 0)). assert (C' := Rle_abs (- nth pos l 0)). rewrite Rabs_Ropp in C'.
    assert (Dn : INR j - INR pos <> 0) by (intros G; apply Nj; apply INR_eq; lra).
    assert (Jne : (INR j - INR pos) * e <> 0) by (apply Rmult_integral_contrapositive_currified; assumption).
    (* the sign of value j is the sign of its difference to value pos *)
    assert (Sg : 0 < nth j l 0 /\ 0 < (INR j - INR pos) * e \/ nth j l 0 < 0 /\ (INR j - INR pos) * e < 0).
    { destruct (Rabs_le_cases _ _ P2); [right|left]; split; lra. }
    destruct Sg as [[S1 S2]|[S1 S2]]; [rewrite sgn_pos in Q by assumption|rewrite sgn_neg in Q by assumption];
    destruct (Rcase_abs e) as [G|G]; first [rewrite (Rabs_left e) by assumption|rewrite (Rabs_right e) by assumption];
    destruct Hs; subst s; try lra; exfalso; nra. }
  replace (s * (INR i - INR pos) * Rabs e) with ((INR i - INR pos) * (s * Rabs e)) by ring. rewrite S. ring.
Qed.

Section Inter.
  Variable st : R -> R.
  Local Instance NSt4 : Num R := Rst st.
  Variable polyfit : list R -> list R -> nat -> res (list R).
  Variable minimize : (R -> R) -> R -> R.
  Notation pnt := (R * R)%type.

  Lemma mean_average l : mean l = average l.
  Proof. unfold mean, average, nsum. cbn [nadd ndiv nofZ NSt4 Rst]. rewrite fold_plus. change n0 with 0. rewrite Rplus_0_l, INR_IZR_INZ. reflexivity. Qed.
  Lemma gaps_ndiff l : map nabs (ndiff l) = gaps l.
  Proof. induction l as [|a [|b l] IH]; [reflexivity|reflexivity|]. cbn [ndiff map gaps] in *. rewrite IH. reflexivity. Qed.
  Lemma cf2_inter cs i : (i < length cs)%nat -> nth i (map cf2 cs) 0 = inter cs i.
  Proof. intros H. unfold inter. rewrite (nth_indep _ 0 (@cf2 R (0, 0, 0))) by (rewrite map_length; lia). apply map_nth. Qed.

  (** One direction: distance and spread. *)
  Definition spread_ok (opt : bool) (n : nat) (cs : list (R * R * R)) (uc : list R) : Prop :=
    exists pos d, first_min (map Rabs (map snd cs)) pos /\ length uc = length cs /\
    (forall i, (i < length cs)%nat -> nth i uc 0 = st (sgn (inter cs i) * (IZR (Z.abs (Z.of_nat i - Z.of_nat pos)) * d) + inter cs pos)) /\
    (opt = false -> d = average (gaps (around pos n (map snd cs)))) /\
    (opt = true -> d = minimize (func_opt (inter cs pos) (Z.of_nat pos) (map snd cs)) (average (gaps (around pos n (map snd cs))))).
  Lemma spread_intercepts_ok cs pos d uc : (pos < length cs)%nat -> spread_intercepts cs (Z.of_nat pos) d = Ok uc ->
    length uc = length cs /\
    forall i, (i < length cs)%nat -> nth i uc 0 = st (sgn (inter cs i) * (IZR (Z.abs (Z.of_nat i - Z.of_nat pos)) * d) + inter cs pos).
  Proof.
    intros Hp. unfold spread_intercepts. rewrite (pyget_nth _ _ (0, 0, 0) Hp). cbn [bind]. intros H. apply Ok_inj in H. subst uc.
    split; [apply mapi_length|]. intros i Hi. rewrite (mapi_nth _ _ _ (0, 0, 0) i Hi). rewrite (nsign_R st). reflexivity.
  Qed.
  Lemma undistor_intercept_ok lh lv xc yc opt thr w uh uv : (2 <= length lh)%nat -> (2 <= length lv)%nat ->
    calc_undistor_intercept polyfit minimize lh lv xc yc opt thr = Ok (w, (uh, uv)) ->
    exists ch cv, fits_hor st polyfit xc yc lh ch /\ fits_ver st polyfit xc yc lv cv /\
    check_missing_lines polyfit ch cv thr = Ok w /\
    let n := Nat.min 3 (Nat.min (Nat.div2 (length lh) - 1) (Nat.div2 (length lv) - 1)) in
    spread_ok opt n ch uh /\ spread_ok opt n cv uv.
  Proof.
    intros Lh Lv. unfold calc_undistor_intercept.
    destruct (para_fit_hor polyfit lh xc yc) as [[fh sh]|] eqn:Eh; [|discriminate].
    destruct (para_fit_ver polyfit lv xc yc) as [[fv sv]|] eqn:Ev; [|discriminate]. cbn [bind].
    destruct (check_missing_lines polyfit fh fv thr) as [w'|] eqn:Ec; [|discriminate]. cbn [bind].
    destruct (argmin (map (fun c => nabs (cf2 c)) fh)) as [ph|] eqn:Ph; [|discriminate].
    destruct (argmin (map (fun c => nabs (cf2 c)) fv)) as [pv|] eqn:Pv; [|discriminate]. cbn [bind].
    apply argmin_map_first in Ph. destruct Ph as [i [-> [Mi Li]]]. apply argmin_map_first in Pv. destruct Pv as [j [-> [Mj Lj]]].
    pose proof (para_hor_fits _ _ _ _ _ _ _ Eh) as Fh. pose proof (para_ver_fits _ _ _ _ _ _ _ Ev) as Fv.
    apply para_hor_lines in Eh. destruct Eh as [-> Nh]. apply para_ver_lines in Ev. destruct Ev as [-> Nv].
    rewrite !map_length. change 3%Z with (Z.of_nat 3).
    rewrite !near_window_nat by assumption. cbn zeta. set (n := Nat.min 3 _).
    rewrite <- Nh, <- Nv. rewrite <- (map_length cf2 fh), <- (map_length cf2 fv). rewrite !lslice_around by (rewrite map_length; lia).
    rewrite !gaps_ndiff, !mean_average.
    set (dh0 := average (gaps (around i n (map cf2 fh)))). set (dv0 := average (gaps (around j n (map cf2 fv)))).
    assert (OI : forall d0 k cs, (k < length cs)%nat -> optimize_intercept minimize d0 (Z.of_nat k) (map cf2 cs) =
        Ok (minimize (func_opt (inter cs k) (Z.of_nat k) (map cf2 cs)) d0)).
    { intros d0 k cs Hk. unfold optimize_intercept. rewrite (pyget_nth _ _ 0) by (now rewrite map_length). cbn [bind].
      rewrite cf2_inter by assumption. reflexivity. }
    rewrite !OI by assumption.
    set (dh := if opt then minimize (func_opt (inter fh i) (Z.of_nat i) (map cf2 fh)) dh0 else dh0).
    set (dv := if opt then minimize (func_opt (inter fv j) (Z.of_nat j) (map cf2 fv)) dv0 else dv0).
    replace (if opt then _ else Ok dh0) with (Ok dh) by (unfold dh; now destruct opt). cbn [bind].
    replace (if opt then _ else Ok dv0) with (Ok dv) by (unfold dv; now destruct opt). cbn [bind].
    destruct (spread_intercepts fh (Z.of_nat i) dh) as [uh'|] eqn:Sh; [|discriminate]. cbn [bind].
    destruct (spread_intercepts fv (Z.of_nat j) dv) as [uv'|] eqn:Sv; [|discriminate]. cbn [bind].
    intros H. apply Ok_inj in H. apply pair_equal_spec in H. destruct H as [-> H]. apply pair_equal_spec in H. destruct H as [-> ->].
    exists fh, fv. split; [assumption|]. split; [assumption|]. split; [assumption|].
    apply spread_intercepts_ok in Sh; [|assumption]. apply spread_intercepts_ok in Sv; [|assumption].
    split.
    - exists i, dh. split; [rewrite map_map; exact Mi|]. split; [apply Sh|]. split; [apply Sh|].
      split; intros ->; reflexivity.
    - exists j, dv. split; [rewrite map_map; exact Mj|]. split; [apply Sv|]. split; [apply Sv|].
      split; intros ->; reflexivity.
  Qed.

  (** Equidistant intercepts. *)
  Lemma gaps_equidistant a e l : equidistant a e l -> forall x, In x (gaps l) -> x = Rabs e.
  Proof.
    intros H x Hx. apply (In_nth _ _ 0) in Hx. destruct Hx as [i [Hi <-]]. rewrite gaps_length in Hi.
    rewrite gaps_nth by lia. rewrite !H by lia. rewrite S_INR. f_equal. ring.
  Qed.
  Lemma around_equidistant a e l pos n : equidistant a e l -> (pos < length l)%nat ->
    equidistant (a + INR (pos - n) * e) e (around pos n l).
  Proof.
    intros H Hp i Hi. rewrite around_nth by assumption. rewrite around_length in Hi. rewrite H by lia. rewrite plus_INR. ring.
  Qed.
  Lemma average_const l c : l <> [] -> (forall x, In x l -> x = c) -> average l = c.
  Proof.
    intros Hl H. unfold average. rewrite (Rsum_const l c H). field. apply not_0_INR. destruct l; [easy|discriminate].
  Qed.
  Lemma func_opt_R c0 pos l d : func_opt c0 (Z.of_nat pos) l d =
    Rsum (mapi (fun i c => (sgn c * IZR (Z.abs (Z.of_nat i - Z.of_nat pos)) * d + c0 - c) ^ 2) l).
  Proof.
    unfold func_opt, nsum. cbn [nadd NSt4 Rst]. rewrite fold_plus. change n0 with 0. rewrite Rplus_0_l. f_equal.
    apply mapi_ext. intros i a. rewrite (nsign_R st). reflexivity.
  Qed.
  Lemma func_opt_min a e l pos d : minimize_oracle minimize -> e <> 0 -> equidistant a e l -> first_min (map Rabs l) pos -> (2 <= length l)%nat ->
    d = Rabs e \/ (exists x0, d = minimize (func_opt (nth pos l 0) (Z.of_nat pos) l) x0) -> d = Rabs e.
  Proof.
    intros MO He H F H2 [->|[x0 ->]]; [reflexivity|]. set (g := func_opt (nth pos l 0) (Z.of_nat pos) l).
    assert (Pos : forall x y, In y (mapi (fun i c => (sgn c * IZR (Z.abs (Z.of_nat i - Z.of_nat pos)) * x + nth pos l 0 - c) ^ 2) l) -> 0 <= y).
    { intros x y Hy. apply (in_mapi _ _ 0) in Hy. destruct Hy as [i [_ ->]]. apply pow2_ge_0. }
    assert (G0 : forall x, 0 <= g x).
    { intros x. unfold g. rewrite func_opt_R. apply Rsum_nonneg. apply Pos. }
    assert (Ge : g (Rabs e) = 0).
    { unfold g. rewrite func_opt_R. rewrite (Rsum_const _ 0); [ring|]. intros x Hx. apply (in_mapi _ _ 0) in Hx. destruct Hx as [i [Hi ->]].
      pose proof (equidistant_spread a e l pos i He H F Hi H2) as E.
      replace (sgn (nth i l 0) * IZR (Z.abs (Z.of_nat i - Z.of_nat pos)) * Rabs e + nth pos l 0 - nth i l 0) with 0; [ring|].
      lra. }
    assert (Gm : g (minimize g x0) <= 0).
    { rewrite <- Ge. destruct (quadratic_sum (fun i c => sgn c * IZR (Z.abs (Z.of_nat i - Z.of_nat pos))) (fun _ c => nth pos l 0 - c) l) as [A [B [C [GA GQ]]]].
      apply (MO g A B C).
      - pose proof (proj1 F) as Hp. rewrite map_length in Hp.
        assert (exists j, (j < length l)%nat /\ j <> pos) as [j [Hj Nj]].
        { destruct pos; [exists 1%nat|exists 0%nat]; split; lia. }
        specialize (GA j Hj). destruct (monotone_signs l pos (equidistant_monotone a e l He H) F) as [s [Hs Q]]. rewrite Q in GA by assumption.
        eapply Rlt_le_trans; [|exact GA]. assert (INR j - INR pos <> 0) by (intros G; apply Nj; apply INR_eq; lra).
        destruct Hs; subst s; nra.
      - intros x. unfold g. rewrite func_opt_R. rewrite <- GQ. f_equal. apply mapi_ext. intros i c. f_equal. ring. }
    pose proof (proj1 F) as Hp. rewrite map_length in Hp.
    assert (exists j, (j < length l)%nat /\ j <> pos) as [j [Hj Nj]].
    { destruct pos; [exists 1%nat|exists 0%nat]; split; lia. }
    set (d := minimize g x0) in *.
    assert (T : (sgn (nth j l 0) * IZR (Z.abs (Z.of_nat j - Z.of_nat pos)) * d + nth pos l 0 - nth j l 0) ^ 2 <= 0).
    { eapply Rle_trans; [|exact Gm]. unfold g at 1. rewrite func_opt_R. apply Rsum_ge_in; [apply Pos|]. apply (in_mapi _ _ 0). exists j. split; [assumption|reflexivity]. }
    pose proof (equidistant_spread a e l pos j He H F Hj H2) as E.
    assert (T0 : sgn (nth j l 0) * IZR (Z.abs (Z.of_nat j - Z.of_nat pos)) * d + nth pos l 0 - nth j l 0 = 0).
    { pose proof (pow2_ge_0 (sgn (nth j l 0) * IZR (Z.abs (Z.of_nat j - Z.of_nat pos)) * d + nth pos l 0 - nth j l 0)). 
      assert (Z0 : (sgn (nth j l 0) * IZR (Z.abs (Z.of_nat j - Z.of_nat pos)) * d + nth pos l 0 - nth j l 0) ^ 2 = 0) by lra.
      apply Rsqr_0_uniq. unfold Rsqr. lra. }
    assert (K : sgn (nth j l 0) * IZR (Z.abs (Z.of_nat j - Z.of_nat pos)) * (d - Rabs e) = 0) by lra.
    apply Rmult_integral in K. destruct K as [K|K]; [|lra]. exfalso.
    destruct (monotone_signs l pos (equidistant_monotone a e l He H) F) as [s [Hs Q]]. rewrite Q in K by assumption.
    apply Rmult_integral in K. destruct K as [K|K]; [destruct Hs; lra|]. apply Nj. apply INR_eq. lra.
  Qed.
  Lemma spread_equidistant opt n cs uc a e : minimize_oracle minimize -> (1 <= n)%nat -> (2 <= length cs)%nat -> e <> 0 ->
    equidistant a e (map snd cs) -> spread_ok opt n cs uc -> uc = map (fun c => st (snd c)) cs.
  Proof.
    intros MO Hn H2 He H [pos [d [F [Lu [U [D1 D2]]]]]].
    assert (Ls : length (map snd cs) = length cs) by apply map_length.
    pose proof (proj1 F) as Hp. rewrite !map_length in Hp.
    assert (I : forall i, (i < length cs)%nat -> nth i (map snd cs) 0 = inter cs i) by (intros; now apply cf2_inter).
    assert (Av : average (gaps (around pos n (map snd cs))) = Rabs e).
    { apply average_const.
      - intros E. apply (f_equal (@length _)) in E. rewrite gaps_length, around_length, Ls in E. cbn in E. lia.
      - eapply gaps_equidistant. eapply around_equidistant; [exact H|now rewrite Ls]. }
    assert (Hd : d = Rabs e).
    { apply (func_opt_min a e (map snd cs) pos d MO He H F); [now rewrite Ls|]. destruct opt.
      - right. eexists. rewrite I by assumption. now apply D2.
      - left. rewrite <- Av. now apply D1. }
    apply (nth_ext _ _ 0 (st 0)); [now rewrite Lu, map_length|]. intros i Hi. rewrite Lu in Hi. rewrite U by assumption.
    pose proof (equidistant_spread a e (map snd cs) pos i He H F) as E. rewrite Ls, !I in E by assumption.
    rewrite Hd. rewrite E by assumption. symmetry. exact (map_nth (fun c : R * R * R => st (snd c)) cs (0, 0, 0) i).
  Qed.
  Hypothesis PF : polyfit_oracle polyfit.
  Lemma missing_error_equidistant cs a e : (2 <= length cs)%nat -> e <> 0 -> equidistant a e (map snd cs) -> missing_error polyfit cs = Ok 0.
  Proof.
    intros H2 He H. unfold missing_error. rewrite gaps_ndiff. set (ld := gaps (map cf2 cs)).
    assert (Ll : length ld = (length cs - 1)%nat) by (unfold ld; now rewrite gaps_length, map_length).
    set (li := map nofZ (zrange 0 (Z.of_nat (length ld)))).
    assert (Li : length li = length ld) by (unfold li; rewrite map_length, zrange_length; lia).
    assert (Lc : forall x, In x ld -> x = Rabs e) by exact (gaps_equidistant a e _ H).
    clearbody li ld.
    destruct (PF li ld 2%nat) as [v [E P]].
    { intros E. rewrite E in Li. cbn in Li. lia. }
    { assumption. }
    rewrite E. cbn [bind]. assert (Lv := proj1 P). destruct v as [|f0 [|f1 [|f2 [|]]]]; try discriminate Lv.
    assert (Fx : Forall2 (fun r y => dot r [f0; f1; f2] = y) (map (pow_row 2) li) ld).
    { apply (lsq_exact 3 _ _ _ [0; 0; Rabs e]); [now rewrite map_length|exact P|reflexivity|].
      clear -Li Lc. revert ld Li Lc. induction li as [|x li IH]; intros [|y ld] Li Lc; try discriminate; cbn [map]; constructor.
      - rewrite (Lc y (or_introl eq_refl)). cbn. ring.
      - apply IH; [cbn in Li; lia|]. intros z Hz. apply Lc. now right. }
    assert (All : forall x, In x (map (fun df : R * R => nabs (ndiv (nsub (fst df) (snd df)) (snd df)))
        (combine ld (map (fun i => nadd (nadd (nmul f0 (npow i 2)) (nmul f1 i)) f2) li))) -> x = 0).
    { assert (E0 : Rabs e <> 0) by now apply Rabs_no_R0.
      clear -Fx Lc E0. revert ld Fx Lc. induction li as [|x li IH]; intros [|y ld] Fx Lc z Hz; inversion Fx as [|? ? ? ? Q1 Q2]; try (now destruct Hz).
      cbn [map combine In] in Hz. destruct Hz as [<-|Hz]; [|apply (IH ld); [assumption|intros; apply Lc; now right|exact Hz]].
      cbn [fst snd nabs ndiv nsub nadd nmul npow NSt4 Rst]. cbn [pow_row dot] in Q1.
      replace (f0 * x ^ 2 + f1 * x + f2) with y by (rewrite <- Q1; ring).
      rewrite (Lc y (or_introl eq_refl)). replace ((Rabs e - Rabs e) / Rabs e) with 0 by (field; assumption). apply Rabs_R0. }
    assert (Len : length (map (fun df : R * R => nabs (ndiv (nsub (fst df) (snd df)) (snd df)))
        (combine ld (map (fun i => nadd (nadd (nmul f0 (npow i 2)) (nmul f1 i)) f2) li))) = length ld).
    { rewrite map_length, combine_length, map_length. lia. }
    revert All Len. generalize (map (fun df : R * R => nabs (ndiv (nsub (fst df) (snd df)) (snd df)))
        (combine ld (map (fun i => nadd (nadd (nmul f0 (npow i 2)) (nmul f1 i)) f2) li))).
    intros l All Len. destruct l as [|x l]; [cbn in Len; lia|]. cbn [namax]. f_equal.
    rewrite (All x (or_introl eq_refl)). assert (A' : forall y, In y l -> y = 0) by (intros; apply All; now right).
    clear -A'. induction l as [|y l IH]; [reflexivity|]. cbn [fold_left]. rewrite (A' y (or_introl eq_refl)).
    replace (nmax 0 0) with 0; [apply IH; intros; apply A'; now right|]. unfold nmax. now destruct (nltb _ _).
  Qed.
  Lemma check_equidistant ch cv a e b f thr : (2 <= length ch)%nat -> (2 <= length cv)%nat -> e <> 0 -> f <> 0 -> 0 <= thr ->
    equidistant a e (map snd ch) -> equidistant b f (map snd cv) -> check_missing_lines polyfit ch cv thr = Ok false.
  Proof.
    intros H1 H2 He Hf Ht Eh Ev. unfold check_missing_lines.
    rewrite (missing_error_equidistant ch a e), (missing_error_equidistant cv b f) by assumption. cbn [bind].
    change (nltb thr 0) with (Rlt_bool thr 0). now rewrite Rlt_bool_false.
  Qed.
End Inter.
