(** C129: the centre of distortion follows stretched, mirrored and exchanged
    axes. *)
From Coq Require Import Reals ZArith List Lia Lra Permutation Sorted.
From Flocq Require Import Core.
From Verif Require Import Base Num NumFacts Spec Lsq PolyUniq LsqEx Post PrepImg PrepPts Proc ProcPers ProcSpec Sorting PrepSpec ProcFacts ProcFacts2 ProcFacts3 ProcFacts4 ProcFacts5
  LineFacts PrepFacts PrepFacts2 PrepFacts4 PersSpec PersFacts PersFacts2 PersFacts3 PersFacts4 PersFacts5 PersFacts8 CalibSpec CalibSpec2 CalibFacts Props_Proc Props_Pers Props_Pers3 Props_Calib Props_Calib2 Props_Calib3 Props_DotOrder MirrorFacts Props_Mirror Props_Vanish.
Import ListNotations.
Local Open Scope R_scope.

(** Rows multiplied by ky, columns by kx (negative factors mirror). *)
Definition stretch_lines (ky kx : R) (lines : list (list (R * R))) : list (list (R * R)) := map (map (fun p => (ky * fst p, kx * snd p))) lines.
(** The parabola of the stretched points: positions multiplied by u, values by w. *)
Definition str (u w : R) (c : R * R * R) : R * R * R := (w * fst (fst c) / u ^ 2, w * snd (fst c) / u, w * snd c).

(** The centres Bailey's method starts an update from. *)
Definition candidate (polyfit : list R -> list R -> nat -> res (list R)) (lh lv : list (list (R * R))) (iteration : Z) (x y : R) : Prop :=
  @find_cod_coarse R Rexact polyfit lh lv = Ok (x, y) \/ exists k, (0 <= k < iteration)%Z /\ @find_cod_bailey R Rexact polyfit lh lv k = Ok (x, y).
(** The lines of a direction do not all pass through one point of an axis
    through such a centre. *)
Definition apart (polyfit : list R -> list R -> nat -> res (list R)) (lh lv : list (list (R * R))) (iteration : Z) : Prop :=
  forall x y c, candidate polyfit lh lv iteration x y ->
    (fits_hor (fun x => x) polyfit x y lh c -> distinct_values 2 (map snd c)) /\ (fits_ver (fun x => x) polyfit x y lv c -> distinct_values 2 (map snd c)).

Section Stretch.
  Local Instance NSe : Num R := Rexact.
  Variable polyfit : list R -> list R -> nat -> res (list R).
  Hypothesis PF : polyfit_oracle polyfit.
  Notation cfs := (R * R * R)%type.

  Lemma stretch_fit2 {A} u w (fx fy gx gy : A -> R) l : u <> 0 -> w <> 0 -> distinct_values 3 (map fx l) -> (forall p, gx p = u * fx p) -> (forall p, gy p = w * fy p) ->
    fit2 polyfit (map gx l) (map gy l) = res_map (str u w) (fit2 polyfit (map fx l) (map fy l)).
  Proof.
    intros Hu Hw D Gx Gy. unfold fit2.
    assert (D' : distinct_values 3 (map gx l)).
    { replace (map gx l) with (map (Rmult u) (map fx l)) by (rewrite map_map; apply map_ext; intros; now rewrite Gx).
      apply distinct_values_map; [|exact D]. intros a b E. now apply Rmult_eq_reg_l in E. }
    destruct (PF (map fx l) (map fy l) 2%nat) as [v [Ev Sv]]; [now apply distinct_values_ne in D|now rewrite !map_length|].
    rewrite Ev. destruct (len3 v (proj1 Sv)) as [a [b [c ->]]]. cbn [bind res_map].
    rewrite (refit polyfit PF fx fy gx gy l (fun c => (u ^ 2 * fst (fst c) / w, u * snd (fst c) / w, snd c / w)) (str u w) (w * w) (a, b, c)); try assumption.
    - reflexivity.
    - destruct (Rdichotomy _ _ Hw); nra.
    - intros [[x y] z]. unfold str. cbn [fst snd]. f_equal; [f_equal|]; field; auto.
    - intros [[x y] z]. unfold str. cbn [fst snd]. f_equal; [f_equal|]; field; auto.
    - intros p [[x y] z] _. cbn [fst snd]. rewrite Gx, Gy. field. exact Hw.
  Qed.
  Lemma stretch_hor ky kx l xc yc : kx <> 0 -> ky <> 0 -> spread_hor 3 l ->
    para_fit_hor polyfit (stretch_lines ky kx l) (kx * xc) (ky * yc) = res_map (fun r => (map (str kx ky) (fst r), stretch_lines ky kx (snd r))) (para_fit_hor polyfit l xc yc).
  Proof.
    intros Hx Hy D. unfold spread_hor in D. rewrite Forall_forall in D.
    set (spt := fun p : R * R => (ky * fst p, kx * snd p)). set (sres := fun cl : cfs * list (R * R) => (str kx ky (fst cl), map spt (snd cl))).
    assert (M : forall (f g : list (R * R) -> res (cfs * list (R * R))), (forall line, In line l -> f (map spt line) = res_map sres (g line)) ->
      bind (mapM f (stretch_lines ky kx l)) (fun r => Ok (map fst r, map snd r)) = res_map (fun r => (map (str kx ky) (fst r), stretch_lines ky kx (snd r))) (bind (mapM g l) (fun r => Ok (map fst r, map snd r)))).
    { clear D. intros f g H. unfold stretch_lines at 1. fold spt. rewrite mapM_map.
      assert (E : mapM (fun a => f (map spt a)) l = res_map (map sres) (mapM g l)).
      { induction l as [|a l' IH]; [reflexivity|]. cbn [mapM]. rewrite IH by (intros; apply H; now right). rewrite H by now left.
        destruct (g a) as [c|e]; [|reflexivity]. cbn [bind res_map]. now destruct (mapM g l'). }
      rewrite E. destruct (mapM g l) as [r|e]; [|reflexivity]. cbn [bind res_map fst snd]. f_equal. unfold stretch_lines. rewrite !map_map. reflexivity. }
    apply M. intros line Hl. apply D in Hl. destruct line as [|p a]; [now apply distinct_values_ne in Hl|].
    set (ln := p :: a) in *.
    change (bind (fit2 polyfit (map (fun p : R * R => nsub (snd p) (kx * xc)) (map spt ln)) (map (fun p : R * R => nsub (fst p) (ky * yc)) (map spt ln)))
      (fun c => Ok (c, map (fun p : R * R => (nsub (fst p) (ky * yc), nsub (snd p) (kx * xc))) (map spt ln))) =
      res_map sres (bind (fit2 polyfit (map (fun p : R * R => nsub (snd p) xc) ln) (map (fun p : R * R => nsub (fst p) yc) ln))
      (fun c => Ok (c, map (fun p : R * R => (nsub (fst p) yc, nsub (snd p) xc)) ln)))).
    rewrite !map_map. cbn [fst snd].
    rewrite (stretch_fit2 kx ky (fun p : R * R => nsub (snd p) xc) (fun p : R * R => nsub (fst p) yc)); auto.
    - destruct (fit2 polyfit _ _) as [c|e]; [|reflexivity]. cbn [bind res_map fst snd]. unfold sres. do 2 f_equal. cbn [fst snd]. rewrite map_map. apply map_ext. intros q. unfold spt. cbn. f_equal; ring.
    - exact (centred xc pxc ln Hl).
    - intros q. unfold spt. cbn. ring.
    - intros q. unfold spt. cbn. ring.
  Qed.
  Lemma stretch_swap ky kx l : swap_lines (stretch_lines ky kx l) = stretch_lines kx ky (swap_lines l).
  Proof. unfold swap_lines, stretch_lines. rewrite !map_map. apply map_ext. intros a. now rewrite !map_map. Qed.
  Lemma swap_spread l : spread_ver 3 l -> spread_hor 3 (swap_lines l).
  Proof.
    unfold spread_ver, spread_hor, swap_lines. rewrite !Forall_forall. intros H line Hl. apply in_map_iff in Hl. destruct Hl as [a [<- Ha]]. specialize (H a Ha).
    rewrite map_map. exact H.
  Qed.
  Lemma stretch_ver ky kx l xc yc : kx <> 0 -> ky <> 0 -> spread_ver 3 l ->
    para_fit_ver polyfit (stretch_lines ky kx l) (kx * xc) (ky * yc) = res_map (fun r => (map (str ky kx) (fst r), stretch_lines ky kx (snd r))) (para_fit_ver polyfit l xc yc).
  Proof.
    intros Hx Hy D. refine (eq_trans (swap_ver (fun x => x) polyfit _ _ _) _). rewrite stretch_swap.
    refine (eq_trans (f_equal _ (stretch_hor kx ky (swap_lines l) yc xc Hy Hx (swap_spread l D))) _).
    refine (eq_trans _ (f_equal _ (eq_sym (swap_ver (fun x => x) polyfit l xc yc)))).
    change (NSw (fun x => x)) with NSe. destruct (para_fit_hor polyfit (swap_lines l) yc xc) as [[c s]|]; [|reflexivity]. cbn [res_map fst snd]. do 2 f_equal. apply stretch_swap.
  Qed.
  Lemma sgn_mult a b : sgn (a * b) = sgn a * sgn b.
  Proof.
    assert (S : forall x, 0 < x /\ sgn x = 1 \/ x = 0 /\ sgn x = 0 \/ x < 0 /\ sgn x = -1).
    { intros x. unfold sgn. destruct (Rlt_dec 0 x); [now left|]. destruct (Rlt_dec x 0); [right; now right|]. right. left. split; [lra|reflexivity]. }
    destruct (S a) as [[A Sa]|[[A Sa]|[A Sa]]], (S b) as [[B Sb]|[[B Sb]|[B Sb]]], (S (a * b)) as [[C Sc]|[[C Sc]|[C Sc]]]; rewrite Sa, Sb, Sc; try lra; exfalso; try (rewrite A in C; lra); try (rewrite B in C; lra); nra.
  Qed.
  Lemma str_sign u w c : u <> 0 -> nsign (cf0 (str u w c)) = sgn w * nsign (cf0 c).
  Proof.
    intros Hu. pose proof (nsign_R (fun x => x)) as NS. change (NSt2 (fun x => x)) with NSe in NS. rewrite !NS.
    unfold str, cf0. cbn [fst snd]. unfold Rdiv. rewrite !sgn_mult. assert (0 < / u ^ 2) by (apply Rinv_0_lt_compat; destruct (Rdichotomy _ _ Hu); nra).
    rewrite (sgn_pos (/ u ^ 2)) by assumption. ring.
  Qed.
  Lemma sgn_one w : w <> 0 -> Rabs (sgn w) = 1.
  Proof. intros Hw. unfold sgn. destruct (Rlt_dec 0 w); [apply Rabs_R1|]. destruct (Rlt_dec w 0); [|lra]. rewrite Rabs_left; lra. Qed.
  Lemma stretch_change u w cs : u <> 0 -> w <> 0 -> sign_change (map (str u w) cs) = sign_change cs.
  Proof.
    intros Hu Hw. unfold sign_change. do 2 f_equal. rewrite map_map.
    replace (map (fun c => nsign (cf0 (str u w c))) cs) with (map (Rmult (sgn w)) (map (fun c => nsign (cf0 c)) cs)) by (rewrite map_map; apply map_ext; intros c; symmetry; now apply str_sign).
    generalize (map (fun c : cfs => nsign (cf0 c)) cs) as l. intros l. induction l as [|a l IH]; [reflexivity|]. destruct l as [|b l]; [reflexivity|]. cbn [map ndiff] in IH |- *.
    rewrite IH. f_equal. cbn [nabs nsub NSe Rexact Rst]. replace (sgn w * b - sgn w * a) with (sgn w * (b - a)) by ring. rewrite Rabs_mult, sgn_one by exact Hw. ring.
  Qed.
  Lemma coarse_stretch ky kx lh lv : kx <> 0 -> ky <> 0 -> spread_hor 3 lh -> spread_ver 3 lv ->
    find_cod_coarse polyfit (stretch_lines ky kx lh) (stretch_lines ky kx lv) = res_map (fun c => (kx * fst c, ky * snd c)) (find_cod_coarse polyfit lh lv).
  Proof.
    intros Hx Hy Sh Sv. rewrite !coarse_unfold.
    pose proof (stretch_hor ky kx lh 0 0 Hx Hy Sh) as Eh. pose proof (stretch_ver ky kx lv 0 0 Hx Hy Sv) as Ev. rewrite !Rmult_0_r in Eh, Ev.
    change (@n0 R NSe) with 0. rewrite Eh, Ev.
    destruct (para_fit_hor polyfit lh 0 0) as [[ch sh]|]; [|reflexivity]. destruct (para_fit_ver polyfit lv 0 0) as [[cv sv]|]; [|reflexivity]. cbn [bind res_map fst].
    rewrite !stretch_change by assumption. destruct (sign_change ch) as [i|]; [|reflexivity]. destruct (sign_change cv) as [j|]; [|reflexivity]. cbn [bind].
    rewrite !pyget_map. destruct (pyget ch (i - 1)) as [[[a1 b1] c1]|]; [|reflexivity]. destruct (pyget ch i) as [[[a2 b2] c2]|]; [|reflexivity].
    destruct (pyget cv (j - 1)) as [[[a3 b3] c3]|]; [|reflexivity]. destruct (pyget cv j) as [[[a4 b4] c4]|]; [|reflexivity].
    cbn [bind res_map fst snd]. unfold str, cf1, cf2. cbn [fst snd n1 nofZ nadd nmul nsub ndiv nofQ NSe Rexact Rst].
    replace (1 - (ky * b1 / kx + ky * b2 / kx) * (1 / 2) * ((kx * b3 / ky + kx * b4 / ky) * (1 / 2))) with (1 - (b1 + b2) * (1 / 2) * ((b3 + b4) * (1 / 2))) by (field; auto).
    unfold Rdiv. generalize (/ (1 - (b1 + b2) * (1 * / 2) * ((b3 + b4) * (1 * / 2)))). intros q. f_equal. apply f_equal2; field; auto.
  Qed.
  (** The straight line through stretched points, in any order. *)
  Lemma fit1_moved p q (l l' : list (R * R)) : p <> 0 -> q <> 0 -> Permutation l' (map (fun t => (p * fst t, q * snd t)) l) -> distinct_values 2 (map fst l) ->
    exists a b, fit1 polyfit (map fst l) (map snd l) = Ok (a, b) /\ fit1 polyfit (map fst l') (map snd l') = Ok (q * a / p, q * b).
  Proof.
    intros Hp Hq P D.
    assert (N : l <> []) by (intros ->; now apply distinct_values_ne in D).
    assert (D' : distinct_values 2 (map fst l')).
    { apply (distinct_perm _ (map fst (map (fun t => (p * fst t, q * snd t)) l))); [apply Permutation_map; now symmetry|].
      replace (map fst (map (fun t => (p * fst t, q * snd t)) l)) with (map (Rmult p) (map fst l)) by (rewrite !map_map; reflexivity).
      apply distinct_values_map; [|exact D]. intros x y E. now apply Rmult_eq_reg_l in E. }
    assert (N' : l' <> []) by (intros ->; now apply distinct_values_ne in D').
    destruct (PF (map fst l) (map snd l) 1%nat) as [v [Ev Pv]]; [destruct l; [congruence|discriminate]|now rewrite !map_length|].
    destruct (PF (map fst l') (map snd l') 1%nat) as [w [Ew Pw]]; [destruct l'; [congruence|discriminate]|now rewrite !map_length|].
    destruct v as [|a [|b [|]]]; try (destruct Pv as [X _]; discriminate X). exists a, b. unfold fit1. rewrite Ev, Ew. split; [reflexivity|].
    assert (G : forall (l : list (R * R)) x y, sqerr (map (pow_row 1) (map fst l)) (map snd l) [x; y] = Rsum (map (fun t => (x * fst t + y - snd t) ^ 2) l)).
    { clear. intros l x y. unfold sqerr. induction l as [|c l IH]; [reflexivity|]. cbn [map combine Rsum]. rewrite IH. cbn [fst snd pow_row dot]. f_equal. ring. }
    assert (SE : forall x y, sqerr (map (pow_row 1) (map fst l')) (map snd l') [x; y] = q ^ 2 * sqerr (map (pow_row 1) (map fst l)) (map snd l) [p * x / q; y / q]).
    { intros x y. rewrite !G. rewrite (Rsum_perm _ _ (Permutation_map _ P)), map_map. apply Rsum_scale. intros t _. cbn [fst snd]. field. exact Hq. }
    assert (T : polyfit_spec 1 (map fst l') (map snd l') [q * a / p; q * b]).
    { destruct Pv as [_ M]. split; [reflexivity|]. intros u Lu. destruct u as [|x [|y [|]]]; try discriminate. rewrite !SE.
      apply Rmult_le_compat_l; [apply pow2_ge_0|]. replace (p * (q * a / p) / q) with a by (field; auto). replace (q * b / q) with b by (field; auto). now apply M. }
    rewrite (polyfit_same 1 _ _ _ _ Pw T); [reflexivity|now rewrite !map_length|exact D'].
  Qed.

  Section Bailey.
    Variables (ky kx : R) (lh lv : list (list (R * R))).
    Hypothesis Hx : kx <> 0.
    Hypothesis Hy : ky <> 0.
    Hypothesis Sh : spread_hor 3 lh.
    Hypothesis Sv : spread_ver 3 lv.
    Lemma step_stretch x y : (forall ch, fits_hor (fun x => x) polyfit x y lh ch -> distinct_values 2 (map snd ch)) -> (forall cv, fits_ver (fun x => x) polyfit x y lv cv -> distinct_values 2 (map snd cv)) ->
      bailey_step polyfit (stretch_lines ky kx lh) (stretch_lines ky kx lv) (kx * x, ky * y) =
      res_map (fun c => (kx * fst c, ky * snd c)) (bailey_step polyfit lh lv (x, y)).
    Proof.
      intros Ah Av. unfold bailey_step. rewrite (stretch_hor ky kx lh x y Hx Hy Sh), (stretch_ver ky kx lv x y Hx Hy Sv).
      destruct (para_fit_hor polyfit lh x y) as [[ch sh]|] eqn:Eh; [|reflexivity]. destruct (para_fit_ver polyfit lv x y) as [[cv sv]|] eqn:Ev; [|reflexivity]. cbn [bind res_map fst snd].
      assert (M : forall u w (cs : list cfs), u <> 0 -> w <> 0 -> distinct_values 2 (map snd cs) -> exists a b, fit1 polyfit (map cf2 cs) (map cf0 cs) = Ok (a, b) /\
        fit1 polyfit (map cf2 (map (str u w) cs)) (map cf0 (map (str u w) cs)) = Ok (w / u ^ 2 * a / w, w / u ^ 2 * b)).
      { intros u w cs Hu Hw D. destruct (fit1_moved w (w / u ^ 2) (map (fun c => (cf2 c, cf0 c)) cs) (map (fun c => (cf2 c, cf0 c)) (map (str u w) cs)) Hw) as [a [b [E1 E2]]].
        - unfold Rdiv. apply Rmult_integral_contrapositive_currified; [exact Hw|]. apply Rinv_neq_0_compat. now apply pow_nonzero.
        - rewrite !map_map. match goal with |- Permutation ?a ?b => replace b with a; [reflexivity|] end. apply map_ext. intros c. unfold str, cf0, cf2. cbn [fst snd]. f_equal. unfold Rdiv. ring.
        - rewrite map_map. exact D.
        - rewrite !map_map in E1. repeat rewrite map_map in E2. cbn [fst snd] in E1, E2. exists a, b. split; [exact E1|]. repeat rewrite map_map. exact E2. }
      apply para_hor_fits in Eh. apply para_ver_fits in Ev.
      destruct (M kx ky ch Hx Hy (Ah ch Eh)) as [a1 [b1 [-> ->]]]. destruct (M ky kx cv Hy Hx (Av cv Ev)) as [a2 [b2 [-> ->]]]. cbn [bind res_map fst snd].
      cbn [nsub ndiv NSe Rexact Rst]. f_equal.
      assert (Q : forall u w a b, u <> 0 -> w <> 0 -> w / u ^ 2 * b / (w / u ^ 2 * a / w) = w * (b / a)).
      { intros u w a b Hu Hw. destruct (Req_dec a 0) as [->|Ha].
        - replace (w / u ^ 2 * 0 / w) with 0 by (field; auto). unfold Rdiv. rewrite Rinv_0. ring.
        - field. auto. }
      rewrite !Q by assumption. apply f_equal2; ring.
    Qed.
    Lemma bailey_stretch iteration : apart polyfit lh lv iteration -> find_cod_bailey polyfit (stretch_lines ky kx lh) (stretch_lines ky kx lv) iteration =
      res_map (fun c => (kx * fst c, ky * snd c)) (find_cod_bailey polyfit lh lv iteration).
    Proof.
      intros A. unfold find_cod_bailey. rewrite (coarse_stretch ky kx lh lv Hx Hy Sh Sv). destruct (find_cod_coarse polyfit lh lv) as [[X Y]|] eqn:C0; [|reflexivity]. cbn [bind res_map fst snd].
      assert (A0 : forall c, (fits_hor (fun x => x) polyfit X Y lh c -> distinct_values 2 (map snd c)) /\ (fits_ver (fun x => x) polyfit X Y lv c -> distinct_values 2 (map snd c))) by (intros c; apply A; now left).
      rewrite step_stretch by (intros c; apply A0). destruct (bailey_step polyfit lh lv (X, Y)) as [c|] eqn:C1; [|reflexivity]. cbn [bind res_map].
      assert (G : forall n m c, (Z.of_nat (m + n) <= Z.max 0 iteration)%Z -> find_cod_bailey polyfit lh lv (Z.of_nat m) = Ok c ->
        bailey_loop polyfit (stretch_lines ky kx lh) (stretch_lines ky kx lv) n (kx * fst c, ky * snd c) = res_map (fun c => (kx * fst c, ky * snd c)) (bailey_loop polyfit lh lv n c)).
      { intros n. induction n as [|n IH]; intros m [x y] Hm E; cbn [bailey_loop fst snd]; [reflexivity|].
        assert (Ax : forall c, (fits_hor (fun x => x) polyfit x y lh c -> distinct_values 2 (map snd c)) /\ (fits_ver (fun x => x) polyfit x y lv c -> distinct_values 2 (map snd c))).
        { intros d. apply A. right. exists (Z.of_nat m). split; [lia|exact E]. }
        rewrite step_stretch by (intros d; apply Ax). destruct (bailey_step polyfit lh lv (x, y)) as [d|] eqn:E1; [|reflexivity]. cbn [bind res_map]. apply (IH (S m)); [lia|].
        unfold find_cod_bailey in E |- *. rewrite C0 in E |- *. cbn [bind] in E |- *. rewrite C1 in E |- *. cbn [bind] in E |- *. rewrite Nat2Z.id in E |- *.
        clear - E E1. revert c E. induction m as [|m IH]; intros c E; cbn [bailey_loop] in E |- *.
        - apply Ok_inj in E. subst c. rewrite E1. reflexivity.
        - destruct (bailey_step polyfit lh lv c) as [c'|]; [|discriminate]. cbn [bind] in E |- *. apply IH. exact E. }
      apply (G (Z.to_nat iteration) 0%nat); [lia|]. unfold find_cod_bailey. rewrite C0. cbn [bind]. rewrite C1. reflexivity.
    Qed.
  End Bailey.

  (** *** Vanishing points *)
  Variable roots : list R -> option (list R).
  Hypothesis RO : roots_oracle roots.
  Variable argsort : list R -> list nat.
  Hypothesis AS : argsort_spec argsort.
  Notation mv u w := (fun t : R * R => (u * fst t, w * snd t)).
  Lemma str_at u w c x : u <> 0 -> parabola (str u w c) (u * x) = w * parabola c x.
  Proof. intros Hu. unfold parabola, str. cbn [fst snd]. field. exact Hu. Qed.
  Lemma str_bend u w p q : u <> 0 -> w <> 0 -> cf0 (str u w p) = cf0 (str u w q) <-> cf0 p = cf0 q.
  Proof.
    intros Hu Hw. unfold str, cf0. cbn [fst snd]. split; intros H; [|now rewrite H]. unfold Rdiv in H. apply Rmult_eq_reg_r in H; [|apply Rinv_neq_0_compat; now apply pow_nonzero].
    now apply Rmult_eq_reg_l in H.
  Qed.
  (** The roots of a quadratic, with multiplicity. *)
  Lemma pair_exact p q : cf0 p <> cf0 q ->
    (forall x, parabola p x <> parabola q x) /\ pair_points roots p q = Ok [] \/
    exists r s, pair_points roots p q = Ok [(r, parabola p r); (s, parabola q s)] /\ forall x, parabola p x - parabola q x = (cf0 p - cf0 q) * (x - r) * (x - s).
  Proof.
    intros D. destruct (pair_points_diff roots RO p q D) as [H|_]; [now left|]. 
    destruct RO as [N [S _]]. destruct p as [[a1 b1] d1], q as [[a2 b2] d2]. unfold pair_points, same_direction_cross. unfold cf0, cf1, cf2 in *. cbn [fst snd nsub NSe Rexact Rst] in *.
    assert (A : a1 - a2 <> 0) by lra.
    destruct (Rlt_or_le ((b1 - b2) ^ 2 - 4 * (a1 - a2) * (d1 - d2)) 0) as [Dn|Dn].
    - left. rewrite (N _ _ _ A Dn). split; [|reflexivity]. intros x H. unfold parabola in H. cbn [fst snd] in H.
      assert (Q : (a1 - a2) * x ^ 2 + (b1 - b2) * x + (d1 - d2) = 0) by lra. clear H. set (a := a1 - a2) in *. set (b := b1 - b2) in *. set (d := d1 - d2) in *. clearbody a b d.
      assert (4 * a * (a * x ^ 2 + b * x + d) = (2 * a * x + b) ^ 2 - (b ^ 2 - 4 * a * d)) by ring. rewrite Q in H. pose proof (pow2_ge_0 (2 * a * x + b)). lra.
    - right. destruct (S _ _ _ A Dn) as [r [s [E H]]]. rewrite E. exists r, s. split; [reflexivity|]. intros x. rewrite <- H. unfold parabola. cbn [fst snd]. ring.
  Qed.
  Lemma two_roots r s r' s' : (forall x, (x - r) * (x - s) = (x - r') * (x - s')) -> (r' = r /\ s' = s) \/ (r' = s /\ s' = r).
  Proof.
    intros H. pose proof (H 0) as H0. pose proof (H 1) as H1. assert (A : r + s = r' + s') by lra. pose proof (H r) as Hr. replace ((r - r) * (r - s)) with 0 in Hr by ring.
    symmetry in Hr. apply Rmult_integral in Hr. destruct Hr as [Hr|Hr]; [left|right]; split; lra.
  Qed.
  Lemma pair_moved u w p q (e : bool) : u <> 0 -> w <> 0 -> let p' := if e then str u w q else str u w p in let q' := if e then str u w p else str u w q in
    (exists er, pair_points roots p q = Err er /\ pair_points roots p' q' = Err er) \/
    exists l l', pair_points roots p q = Ok l /\ pair_points roots p' q' = Ok l' /\ Permutation l' (map (mv u w) l).
  Proof.
    intros Hu Hw p' q'. destruct (Req_dec (cf0 p) (cf0 q)) as [D|D].
    - left. exists ValueError. split; apply (pair_points_equal roots RO); [exact D|]. unfold p', q'. destruct e; apply str_bend; auto.
    - right.
      assert (D' : cf0 p' <> cf0 q') by (unfold p', q'; destruct e; rewrite str_bend by assumption; auto).
      assert (X : forall x, exists k, k <> 0 /\ parabola p' (u * x) - parabola q' (u * x) = k * (parabola p x - parabola q x) /\ (cf0 p' - cf0 q') * u ^ 2 = k * (cf0 p - cf0 q)).
      { intros x. exists (if e then - w else w). split; [destruct e; lra|]. unfold p', q'. destruct e; rewrite !str_at by exact Hu; (split; [ring|]); unfold str, cf0; cbn [fst snd]; field; exact Hu. }
      destruct (pair_exact p q D) as [[Z E]|[r [s [E Z]]]]; destruct (pair_exact p' q' D') as [[Z' E']|[r' [s' [E' Z']]]].
      + exists [], []. auto.
      + exfalso. destruct (X (r' / u)) as [k [K [K1 _]]]. replace (u * (r' / u)) with r' in K1 by (field; exact Hu). rewrite Z' in K1. apply (Z (r' / u)).
        replace ((cf0 p' - cf0 q') * (r' - r') * (r' - s')) with 0 in K1 by ring. symmetry in K1. apply Rmult_integral in K1. destruct K1; [contradiction|lra].
      + exfalso. destruct (X r) as [k [K [K1 _]]]. rewrite (Z r) in K1. apply (Z' (u * r)). replace (k * ((cf0 p - cf0 q) * (r - r) * (r - s))) with 0 in K1 by ring. lra.
      + eexists _, _. split; [exact E|]. split; [exact E'|].
        assert (T : (r' = u * r /\ s' = u * s) \/ (r' = u * s /\ s' = u * r)).
        { destruct (two_roots r s (r' / u) (s' / u)) as [[A B]|[A B]].
          - intros x. destruct (X x) as [k [K [K1 K2]]]. rewrite Z, Z' in K1.
            assert (Q : k * (cf0 p - cf0 q) * ((x - r) * (x - s)) = k * (cf0 p - cf0 q) * ((x - r' / u) * (x - s' / u))).
            { rewrite <- K2 at 2. transitivity (k * ((cf0 p - cf0 q) * (x - r) * (x - s))); [ring|]. rewrite <- K1. field. exact Hu. }
            apply Rmult_eq_reg_l in Q; [exact Q|]. apply Rmult_integral_contrapositive_currified; [exact K|lra].
          - left. rewrite <- A, <- B. split; field; exact Hu.
          - right. rewrite <- A, <- B. split; field; exact Hu. }
        assert (Er : parabola p r = parabola q r) by (specialize (Z r); lra). assert (Es : parabola p s = parabola q s) by (specialize (Z s); lra).
        cbn [map fst snd]. unfold p', q'. destruct T as [[-> ->]|[-> ->]]; destruct e; rewrite !str_at by exact Hu; rewrite ?Er, ?Es; try reflexivity; apply perm_swap.
  Qed.
  Lemma pairs_moved u w (e : bool) (f : cfs -> cfs -> cfs * cfs) pairs : u <> 0 -> w <> 0 -> f = (fun p q => if e then (str u w q, str u w p) else (str u w p, str u w q)) ->
    (exists er, mapM (fun pq : cfs * cfs => pair_points roots (fst pq) (snd pq)) pairs = Err er /\ mapM (fun pq : cfs * cfs => pair_points roots (fst pq) (snd pq)) (map (fun pq => f (fst pq) (snd pq)) pairs) = Err er) \/
    exists ps ps', mapM (fun pq : cfs * cfs => pair_points roots (fst pq) (snd pq)) pairs = Ok ps /\ mapM (fun pq : cfs * cfs => pair_points roots (fst pq) (snd pq)) (map (fun pq => f (fst pq) (snd pq)) pairs) = Ok ps' /\
      Permutation (concat ps') (map (mv u w) (concat ps)).
  Proof.
    intros Hu Hw ->. induction pairs as [|[p q] pairs IH]; [right; exists [], []; auto|]. cbn [map mapM fst snd].
    pose proof (pair_moved u w p q e Hu Hw) as H. cbn zeta in H.
    assert (Ef : pair_points roots (fst (if e then (str u w q, str u w p) else (str u w p, str u w q))) (snd (if e then (str u w q, str u w p) else (str u w p, str u w q))) =
      pair_points roots (if e then str u w q else str u w p) (if e then str u w p else str u w q)) by now destruct e.
    rewrite Ef. destruct H as [[er [-> ->]]|[l [l' [-> [-> P]]]]]; [left; eexists; split; reflexivity|]. cbn [bind].
    destruct IH as [[er [-> ->]]|[ps [ps' [-> [-> Q]]]]]; [left; eexists; split; reflexivity|]. right. exists (l :: ps), (l' :: ps'). cbn [bind concat]. split; [reflexivity|]. split; [reflexivity|].
    rewrite map_app. now apply Permutation_app.
  Qed.
  Lemma sorted_same {A} (key : A -> R) (l m : list A) : Permutation l m -> StronglySorted (fun c d => key c <= key d) l -> StronglySorted (fun c d => key c <= key d) m ->
    (forall c d, In c l -> In d l -> key c = key d -> c = d) -> l = m.
  Proof.
    revert m. induction l as [|a l IH]; intros [|b m] P S1 S2 J; [reflexivity|now apply Permutation_nil in P|now apply Permutation_sym, Permutation_nil in P|].
    inversion S1 as [|? ? S1' F1]; subst. inversion S2 as [|? ? S2' F2]; subst. rewrite Forall_forall in F1, F2.
    assert (E : a = b).
    { assert (Ib : In b (a :: l)) by (rewrite P; now left). assert (Ia : In a (b :: m)) by (rewrite <- P; now left).
      destruct Ib as [|Ib]; [assumption|]. destruct Ia as [|Ia]; [now symmetry|]. apply J; [now left|now right|]. specialize (F1 b Ib). specialize (F2 a Ia). lra. }
    subst b. f_equal. apply IH; [now apply Permutation_cons_inv in P|assumption|assumption|]. intros c d Hc Hd. apply J; now right.
  Qed.
  Lemma str_abs u w c : u <> 0 -> w <> 0 -> Rabs (bend (str u w c)) = Rabs w / u ^ 2 * Rabs (bend c).
  Proof.
    intros Hu Hw. unfold bend, str. cbn [fst snd]. unfold Rdiv. rewrite !Rabs_mult. assert (0 < / u ^ 2) by (apply Rinv_0_lt_compat; destruct (Rdichotomy _ _ Hu); nra).
    rewrite (Rabs_right (/ u ^ 2)) by lra. ring.
  Qed.
  Lemma str_factor u w : u <> 0 -> w <> 0 -> 0 < Rabs w / u ^ 2.
  Proof. intros Hu Hw. apply Rdiv_lt_0_compat; [now apply Rabs_pos_lt|]. destruct (Rdichotomy _ _ Hu); nra. Qed.
  Lemma curved_moved u w (f g : cfs -> bool) cs : u <> 0 -> w <> 0 -> (forall c, f (str u w c) = g c) ->
    (forall c d, g c = true -> g d = true -> Rabs (bend c) = Rabs (bend d) -> In c cs -> In d cs -> c = d) ->
    curved argsort f (map (str u w) cs) = map (str u w) (curved argsort g cs).
  Proof.
    intros Hu Hw FG U. unfold curved. cbn zeta. rewrite filter_map_comm. replace (filter (fun a => f (str u w a)) cs) with (filter g cs) by (apply filter_ext; intros; now rewrite FG).
    set (sel := filter g cs). destruct (sorted_bend argsort AS sel) as [P S]. destruct (sorted_bend argsort AS (map (str u w) sel)) as [P' S'].
    change NX with NSe in P, S, P', S'.
    set (s := gather sel (argsort (map (fun c => nabs (cf0 c)) sel))) in *. set (s' := gather (map (str u w) sel) (argsort (map (fun c => nabs (cf0 c)) (map (str u w) sel)))) in *.
    assert (J : forall c, In c s -> g c = true /\ In c cs) by (intros c Hc; rewrite P in Hc; unfold sel in Hc; apply filter_In in Hc; tauto).
    pose proof (str_factor u w Hu Hw) as K.
    symmetry. apply (sorted_same (fun c => Rabs (bend c))).
    - rewrite P'. now apply Permutation_map.
    - clearbody s. clear P P' S' s' J. induction S as [|a l S IH F]; cbn [map]; constructor; [exact IH|]. apply Forall_forall. intros c Hc. apply in_map_iff in Hc. destruct Hc as [d [<- Hd]].
      rewrite Forall_forall in F. rewrite !str_abs by assumption. apply Rmult_le_compat_l; [lra|]. now apply F.
    - exact S'.
    - intros c d Hc Hd E. apply in_map_iff in Hc. apply in_map_iff in Hd. destruct Hc as [c0 [<- Hc]], Hd as [d0 [<- Hd]]. rewrite !str_abs in E by assumption. apply Rmult_eq_reg_l in E; [|lra].
      f_equal. apply J in Hc. apply J in Hd. now apply U.
  Qed.
  Lemma combine_map2 {A B} (f : A -> B) (l m : list A) : combine (map f l) (map f m) = map (fun p => (f (fst p), f (snd p))) (combine l m).
  Proof. revert m. induction l as [|a l IH]; intros [|b m]; cbn [map combine]; try reflexivity. now rewrite IH. Qed.
  Lemma combine_flip {A B} (l : list A) (m : list B) : combine m l = map (fun p => (snd p, fst p)) (combine l m).
  Proof. revert m. induction l as [|a l IH]; intros [|b m]; cbn [map combine]; try reflexivity. now rewrite IH. Qed.
  Lemma opposite_moved u w cs : u <> 0 -> w <> 0 -> (forall c d, In c cs -> In d cs -> bend c = bend d -> c = d) ->
    exists pairs pts pts', opposite_points argsort roots cs = Ok pts /\ pairs_opposite cs pairs /\ meeting_points pairs pts /\
      opposite_points argsort roots (map (str u w) cs) = Ok pts' /\ Permutation pts' (map (mv u w) pts).
  Proof.
    intros Hu Hw U. destruct (opposite_ok roots argsort RO AS cs) as [pairs [pts [E [Pp Mp]]]]. change NX with NSe in E. exists pairs, pts.
    unfold opposite_points in E |- *. cbn zeta in E |- *. rewrite E.
    set (up := curved argsort (fun c => nltb n0 (cf0 c)) cs) in *. set (down := curved argsort (fun c => nltb (cf0 c) n0) cs) in *.
    set (up' := curved argsort (fun c => nltb n0 (cf0 c)) (map (str u w) cs)). set (down' := curved argsort (fun c => nltb (cf0 c) n0) (map (str u w) cs)).
    assert (U1 : forall c d, nltb n0 (cf0 c) = true -> nltb n0 (cf0 d) = true -> Rabs (bend c) = Rabs (bend d) -> In c cs -> In d cs -> c = d).
    { intros c d A B E0 Hc Hd. apply Rlt_bool_true_iff in A. apply Rlt_bool_true_iff in B. apply U; auto. change (0 < bend c) in A. change (0 < bend d) in B. rewrite !Rabs_right in E0; lra. }
    assert (U2 : forall c d, nltb (cf0 c) n0 = true -> nltb (cf0 d) n0 = true -> Rabs (bend c) = Rabs (bend d) -> In c cs -> In d cs -> c = d).
    { intros c d A B E0 Hc Hd. apply Rlt_bool_true_iff in A. apply Rlt_bool_true_iff in B. apply U; auto. change (bend c < 0) in A. change (bend d < 0) in B. rewrite !Rabs_left in E0; lra. }
    assert (B : forall c, cf0 (str u w c) = w * (/ u ^ 2) * cf0 c) by (intros c; unfold str, cf0, Rdiv; cbn [fst snd]; ring).
    assert (K : 0 < / u ^ 2) by (apply Rinv_0_lt_compat; destruct (Rdichotomy _ _ Hu); nra).
    assert (Q : exists e : bool, combine up' down' = map (fun pq => (fun p q => if e then (str u w q, str u w p) else (str u w p, str u w q)) (fst pq) (snd pq)) (combine up down)).
    { destruct (Rdichotomy _ _ Hw) as [W|W].
      - exists true. assert (E1 : up' = map (str u w) down).
        { apply curved_moved; auto. intros c. rewrite B. change (Rlt_bool 0 (w * / u ^ 2 * cf0 c) = Rlt_bool (cf0 c) 0). assert (w * / u ^ 2 < 0) by nra. destruct (Rlt_bool_spec (cf0 c) 0); [apply Rlt_bool_true|apply Rlt_bool_false]; nra. }
        assert (E2 : down' = map (str u w) up).
        { apply curved_moved; auto. intros c. rewrite B. change (Rlt_bool (w * / u ^ 2 * cf0 c) 0 = Rlt_bool 0 (cf0 c)). assert (w * / u ^ 2 < 0) by nra. destruct (Rlt_bool_spec 0 (cf0 c)); [apply Rlt_bool_true|apply Rlt_bool_false]; nra. }
        rewrite E1, E2, combine_map2, (combine_flip up down), map_map. reflexivity.
      - exists false. assert (E1 : up' = map (str u w) up).
        { apply curved_moved; auto. intros c. rewrite B. change (Rlt_bool 0 (w * / u ^ 2 * cf0 c) = Rlt_bool 0 (cf0 c)). assert (0 < w * / u ^ 2) by nra. destruct (Rlt_bool_spec 0 (cf0 c)); [apply Rlt_bool_true|apply Rlt_bool_false]; nra. }
        assert (E2 : down' = map (str u w) down).
        { apply curved_moved; auto. intros c. rewrite B. change (Rlt_bool (w * / u ^ 2 * cf0 c) 0 = Rlt_bool (cf0 c) 0). assert (0 < w * / u ^ 2) by nra. destruct (Rlt_bool_spec (cf0 c) 0); [apply Rlt_bool_true|apply Rlt_bool_false]; nra. }
        rewrite E1, E2, combine_map2. reflexivity. }
    destruct Q as [e Q]. rewrite Q.
    destruct (pairs_moved u w e _ (combine up down) Hu Hw eq_refl) as [[er [X _]]|[ps [ps' [X [Y Z]]]]].
    - rewrite X in E. discriminate.
    - rewrite X in E. cbn [bind] in E. apply Ok_inj in E. subst pts. rewrite Y. cbn [bind]. exists (concat ps'). auto.
  Qed.
  Lemma stretch_argmin k (l : list R) : 0 < k -> argmin (map (Rmult k) l) = argmin l.
  Proof. intros Hk. exact (scale_argmin k Hk l). Qed.
  Lemma flattest_moved u w cs : u <> 0 -> w <> 0 ->
    (exists er, least_points roots cs = Err er /\ least_points roots (map (str u w) cs) = Err er) \/
    exists pts pts', least_points roots cs = Ok pts /\ least_points roots (map (str u w) cs) = Ok pts' /\ Permutation pts' (map (mv u w) pts).
  Proof.
    intros Hu Hw. unfold least_points.
    assert (E : argmin (map (fun c => nabs (cf0 c)) (map (str u w) cs)) = argmin (map (fun c => nabs (cf0 c)) cs)).
    { rewrite <- (stretch_argmin (Rabs w / u ^ 2) (map (fun c => nabs (cf0 c)) cs)) by now apply str_factor. f_equal. rewrite !map_map. apply map_ext. intros c. exact (str_abs u w c Hu Hw). }
    rewrite E. destruct (argmin (map (fun c => nabs (cf0 c)) cs)) as [pos|er]; [|left; eexists; split; reflexivity]. cbn [bind]. rewrite pyget_map.
    destruct (pyget cs pos) as [m|er]; [|left; eexists; split; reflexivity]. cbn [bind res_map]. cbn zeta. rewrite firstn_map, skipn_map, <- map_app.
    set (l := firstn (Z.to_nat pos) cs ++ skipn (S (Z.to_nat pos)) cs).
    assert (X : forall l b, mapM (fun c => pair_points roots c b) l = mapM (fun pq : cfs * cfs => pair_points roots (fst pq) (snd pq)) (map (fun c => (c, b)) l)).
    { intros l0 b. induction l0 as [|c l0 IH]; [reflexivity|]. cbn [map mapM fst snd]. now rewrite IH. }
    rewrite !X. rewrite map_map. pose proof (pairs_moved u w false _ (map (fun c => (c, m)) l) Hu Hw eq_refl) as H. cbn beta iota in H. rewrite map_map in H. cbn [fst snd] in H.
    destruct H as [[er [-> ->]]|[ps [ps' [-> [-> P]]]]]; [left; eexists; split; reflexivity|]. right. cbn [bind]. eauto 6.
  Qed.
  Lemma vanishing_moved ky kx hl vl hl' vl' : kx <> 0 -> ky <> 0 -> Permutation hl' (map (mv kx ky) hl) -> Permutation vl' (map (mv ky kx) vl) ->
    distinct_values 2 (map fst hl) -> distinct_values 2 (map fst vl) ->
    vanishing_center polyfit hl' vl' = res_map (fun c => (kx * fst c, ky * snd c)) (vanishing_center polyfit hl vl).
  Proof.
    intros Hx Hy Ph Pv Dh Dv. unfold vanishing_center.
    destruct (fit1_moved kx ky hl hl' Hx Hy Ph Dh) as [a1 [b1 [-> ->]]]. destruct (fit1_moved ky kx vl vl' Hy Hx Pv Dv) as [a2 [b2 [-> ->]]].
    cbn [bind res_map fst snd]. cbn [n1 nofZ nadd nmul nsub ndiv NSe Rexact Rst]. f_equal.
    replace (1 - ky * a1 / kx * (kx * a2 / ky)) with (1 - a1 * a2) by (field; auto). unfold Rdiv. generalize (/ (1 - a1 * a2)). intros q. apply f_equal2; field; auto.
  Qed.
End Stretch.

(** Both ways of finding the centre from vanishing points; P gives the points. *)
Definition centre_via (polyfit : list R -> list R -> nat -> res (list R)) (P : list (R * R * R) -> res (list (R * R))) (lh lv : list (list (R * R))) : res (R * R) :=
  bind (@para_fit_hor R Rexact polyfit lh 0 0) (fun h => bind (@para_fit_ver R Rexact polyfit lv 0 0) (fun v => bind (P (fst h)) (fun hl =>
  if (2 <? Z.of_nat (length hl))%Z then bind (P (fst v)) (fun vl =>
    if (2 <? Z.of_nat (length vl))%Z then @vanishing_center R Rexact polyfit hl vl else @find_cod_bailey R Rexact polyfit (snd h) (snd v) 2)
  else @find_cod_bailey R Rexact polyfit (snd h) (snd v) 2))).
Lemma first_via polyfit argsort roots lh lv : @find_center_based_vanishing_points R Rexact polyfit argsort roots lh lv = centre_via polyfit (@opposite_points R Rexact argsort roots) lh lv.
Proof. reflexivity. Qed.
Lemma second_via polyfit argsort lstsq roots lh lv method : @find_center_based_vanishing_points_iteration R Rexact polyfit argsort cos atan lstsq roots lh lv 0 method =
  centre_via polyfit (@least_points R Rexact roots) lh lv.
Proof.
  assert (W : forall r : res (R * R), (c0 <- r ;; Ok c0) = r) by (intros [r|e]; reflexivity).
  unfold find_center_based_vanishing_points_iteration. change (Z.to_nat 0) with 0%nat. cbn [vanishing_loop]. rewrite W. reflexivity.
Qed.
Lemma zero_shift lines : map (map (fun p : R * R => (@nsub R Rexact (fst p) 0, @nsub R Rexact (snd p) 0))) lines = lines.
Proof. exact (shift0 lines). Qed.
Lemma parabolas_unique polyfit x y lh c d : parabolas_hor (N := Rexact) polyfit x y lh c -> parabolas_hor (N := Rexact) polyfit x y lh d -> c = d.
Proof. intros A B. apply parabolas_hor_fit in A. apply parabolas_hor_fit in B. rewrite A in B. now inversion B. Qed.

Section Via.
  Variable polyfit : list R -> list R -> nat -> res (list R).
  Hypothesis PF : polyfit_oracle polyfit.
  Variables (lh lv : list (list (R * R))) (ch cv : list (R * R * R)).
  Hypothesis Ph : parabolas_hor (N := Rexact) polyfit 0 0 lh ch.
  Hypothesis Pv : parabolas_ver (N := Rexact) polyfit 0 0 lv cv.
  Lemma via_eq P : centre_via polyfit P lh lv = bind (P ch) (fun hl => if (2 <? Z.of_nat (length hl))%Z then bind (P cv) (fun vl =>
    if (2 <? Z.of_nat (length vl))%Z then @vanishing_center R Rexact polyfit hl vl else @find_cod_bailey R Rexact polyfit lh lv 2) else @find_cod_bailey R Rexact polyfit lh lv 2).
  Proof.
    unfold centre_via. pose proof (parabolas_hor_fit polyfit lh 0 0 ch Ph) as Gh. pose proof (parabolas_ver_fit polyfit lv 0 0 cv Pv) as Gv. rewrite zero_shift in Gh, Gv.
    rewrite Gh, Gv. reflexivity.
  Qed.
  Lemma via_stretch P ky kx : kx <> 0 -> ky <> 0 -> spread_hor 3 lh -> spread_ver 3 lv ->
    (forall hl vl, P ch = Ok hl -> P cv = Ok vl -> (length hl <= 2)%nat \/ (length vl <= 2)%nat -> apart polyfit lh lv 2) ->
    (forall cs u w, cs = ch \/ cs = cv -> u <> 0 -> w <> 0 ->
       exists pts pts', P cs = Ok pts /\ P (map (str u w) cs) = Ok pts' /\ Permutation pts' (map (fun t : R * R => (u * fst t, w * snd t)) pts) /\ ((2 < length pts)%nat -> distinct_values 2 (map fst pts))) ->
    centre_via polyfit P (stretch_lines ky kx lh) (stretch_lines ky kx lv) = res_map (fun c => (kx * fst c, ky * snd c)) (centre_via polyfit P lh lv).
  Proof.
    intros Hx Hy Sh Sv Av M. rewrite via_eq. unfold centre_via.
    pose proof (parabolas_hor_fit polyfit lh 0 0 ch Ph) as Gh. pose proof (parabolas_ver_fit polyfit lv 0 0 cv Pv) as Gv. rewrite zero_shift in Gh, Gv.
    pose proof (stretch_hor polyfit PF ky kx lh 0 0 Hx Hy Sh) as Eh. pose proof (stretch_ver polyfit PF ky kx lv 0 0 Hx Hy Sv) as Ev. rewrite !Rmult_0_r in Eh, Ev.
    change NSe with Rexact in Eh, Ev. rewrite Gh in Eh. rewrite Gv in Ev. rewrite Eh, Ev. cbn [bind res_map fst snd].
    destruct (M ch kx ky (or_introl eq_refl) Hx Hy) as [hl [hl' [Q1 [-> [P1 D1]]]]]. destruct (M cv ky kx (or_intror eq_refl) Hy Hx) as [vl [vl' [Q2 [-> [P2 D2]]]]]. specialize (Av hl vl Q1 Q2). rewrite Q1, Q2. cbn [bind].
    pose proof (Permutation_length P1) as L1. pose proof (Permutation_length P2) as L2. rewrite map_length in L1, L2. rewrite L1, L2.
    pose proof (bailey_stretch polyfit PF ky kx lh lv Hx Hy Sh Sv 2) as B. change NSe with Rexact in B.
    destruct (2 <? Z.of_nat (length hl))%Z eqn:C1; [|apply B, Av; left; apply Z.ltb_ge in C1; lia]. destruct (2 <? Z.of_nat (length vl))%Z eqn:C2; [|apply B, Av; right; apply Z.ltb_ge in C2; lia].
    apply Z.ltb_lt in C1. apply Z.ltb_lt in C2.
    apply (vanishing_moved polyfit PF); auto; [apply D1|apply D2]; lia.
  Qed.
End Via.

(** ** C129 *)
(** Rows multiplied by ky and columns by kx, neither zero: pixels of another
    size or shape, or a mirrored photograph.  The rough centre is multiplied
    likewise, for lines with dots in three columns (rows) at least. *)
Theorem C129_coarse : forall polyfit ky kx lh lv, polyfit_oracle polyfit -> kx <> 0 -> ky <> 0 -> spread_hor 3 lh -> spread_ver 3 lv ->
  @find_cod_coarse R Rexact polyfit (stretch_lines ky kx lh) (stretch_lines ky kx lv) =
  match @find_cod_coarse R Rexact polyfit lh lv with Ok (x, y) => Ok (kx * x, ky * y) | Err e => Err e end.
Proof.
  intros polyfit ky kx lh lv PF Hx Hy Sh Sv. refine (eq_trans (coarse_stretch polyfit PF ky kx lh lv Hx Hy Sh Sv) _).
  change NSe with Rexact. now destruct (@find_cod_coarse R Rexact polyfit lh lv) as [[x y]|e].
Qed.
Print Assumptions C129_coarse.
(** So is the centre of Bailey's method with any number of iterations, if the
    lines of a direction do not all pass through one point of an axis through
    a centre met on the way. *)
Theorem C129_bailey : forall polyfit ky kx lh lv iteration, polyfit_oracle polyfit -> kx <> 0 -> ky <> 0 -> spread_hor 3 lh -> spread_ver 3 lv -> apart polyfit lh lv iteration ->
  @find_cod_bailey R Rexact polyfit (stretch_lines ky kx lh) (stretch_lines ky kx lv) iteration =
  match @find_cod_bailey R Rexact polyfit lh lv iteration with Ok (x, y) => Ok (kx * x, ky * y) | Err e => Err e end.
Proof.
  intros polyfit ky kx lh lv it PF Hx Hy Sh Sv A. refine (eq_trans (bailey_stretch polyfit PF ky kx lh lv Hx Hy Sh Sv it A) _).
  change NSe with Rexact. now destruct (@find_cod_bailey R Rexact polyfit lh lv it) as [[x y]|e].
Qed.
Print Assumptions C129_bailey.
(** So is the centre from vanishing points, if no two different parabolas of a
    direction bend equally and the vanishing points of a direction are not all
    in one column (row); the condition of C129_bailey is needed with too few
    vanishing points only. *)
Theorem C129_vanishing : forall polyfit argsort roots ky kx lh lv ch cv, polyfit_oracle polyfit -> roots_oracle roots -> argsort_spec argsort ->
  kx <> 0 -> ky <> 0 -> spread_hor 3 lh -> spread_ver 3 lv ->
  parabolas_hor (N := Rexact) polyfit 0 0 lh ch -> parabolas_ver (N := Rexact) polyfit 0 0 lv cv ->
  (forall cs c d, cs = ch \/ cs = cv -> In c cs -> In d cs -> bend c = bend d -> c = d) ->
  (forall cs pairs pts, cs = ch \/ cs = cv -> pairs_opposite cs pairs -> meeting_points pairs pts -> (2 < length pts)%nat -> distinct_values 2 (map fst pts)) ->
  (forall hp hl vp vl, pairs_opposite ch hp -> meeting_points hp hl -> pairs_opposite cv vp -> meeting_points vp vl -> (length hl <= 2)%nat \/ (length vl <= 2)%nat -> apart polyfit lh lv 2) ->
  @find_center_based_vanishing_points R Rexact polyfit argsort roots (stretch_lines ky kx lh) (stretch_lines ky kx lv) =
  match @find_center_based_vanishing_points R Rexact polyfit argsort roots lh lv with Ok (x, y) => Ok (kx * x, ky * y) | Err e => Err e end.
Proof.
  intros polyfit argsort roots ky kx lh lv ch cv PF RO AS Hx Hy Sh Sv Ph Pv U D A. rewrite !first_via.
  rewrite (via_stretch polyfit PF lh lv ch cv Ph Pv _ ky kx Hx Hy Sh Sv); [now destruct (centre_via _ _ lh lv) as [[x y]|e]| |].
  { intros hl vl E1 E2 L. destruct (opposite_ok roots argsort RO AS ch) as [hp [hl0 [Eh [Hp Hm]]]]. destruct (opposite_ok roots argsort RO AS cv) as [vp [vl0 [Ev [Vp Vm]]]]. change NX with Rexact in *.
    rewrite E1 in Eh. rewrite E2 in Ev. apply Ok_inj in Eh. apply Ok_inj in Ev. subst hl0 vl0. exact (A hp hl vp vl Hp Hm Vp Vm L). }
  intros cs u w Hcs Hu Hw. destruct (opposite_moved roots RO argsort AS u w cs Hu Hw (fun c d => U cs c d Hcs)) as [pairs [pts [pts' [E [Pp [Mp [E' P]]]]]]].
  exists pts, pts'. split; [exact E|]. split; [exact E'|]. split; [exact P|]. exact (D cs pairs pts Hcs Pp Mp).
Qed.
Print Assumptions C129_vanishing.
(** So is the start of the iterative method. *)
Theorem C129_iteration_start : forall polyfit argsort lstsq roots ky kx lh lv ch cv method, polyfit_oracle polyfit -> roots_oracle roots ->
  kx <> 0 -> ky <> 0 -> spread_hor 3 lh -> spread_ver 3 lv -> lh <> [] -> lv <> [] ->
  parabolas_hor (N := Rexact) polyfit 0 0 lh ch -> parabolas_ver (N := Rexact) polyfit 0 0 lv cv ->
  (forall cs i j, cs = ch \/ cs = cv -> (i < length cs)%nat -> (j < length cs)%nat -> i <> j -> curv cs i <> curv cs j) ->
  (forall cs pairs pts, cs = ch \/ cs = cv -> pairs_flattest cs pairs -> meeting_points pairs pts -> (2 < length pts)%nat -> distinct_values 2 (map fst pts)) ->
  (forall hp hl vp vl, pairs_flattest ch hp -> meeting_points hp hl -> pairs_flattest cv vp -> meeting_points vp vl -> (length hl <= 2)%nat \/ (length vl <= 2)%nat -> apart polyfit lh lv 2) ->
  let start lh lv := @find_center_based_vanishing_points_iteration R Rexact polyfit argsort cos atan lstsq roots lh lv 0 method in
  start (stretch_lines ky kx lh) (stretch_lines ky kx lv) = match start lh lv with Ok (x, y) => Ok (kx * x, ky * y) | Err e => Err e end.
Proof.
  intros polyfit argsort lstsq roots ky kx lh lv ch cv method PF RO Hx Hy Sh Sv Nh Nv Ph Pv U D A start. unfold start. rewrite !second_via.
  assert (NE : forall cs, cs = ch \/ cs = cv -> cs <> []).
  { intros cs Hcs. pose proof (Forall2_length _ _ _ Ph) as L1. pose proof (Forall2_length _ _ _ Pv) as L2. destruct Hcs as [-> | ->]; intros ->; cbn in L1, L2; [apply Nh|apply Nv]; apply length_zero_iff_nil; lia. }
  rewrite (via_stretch polyfit PF lh lv ch cv Ph Pv _ ky kx Hx Hy Sh Sv); [now destruct (centre_via _ _ lh lv) as [[x y]|e]| |].
  { intros hl vl E1 E2 L. destruct (flattest_ok roots RO ch (NE _ (or_introl eq_refl)) (fun i j => U ch i j (or_introl eq_refl))) as [hp [hl0 [Eh [Hp Hm]]]].
    destruct (flattest_ok roots RO cv (NE _ (or_intror eq_refl)) (fun i j => U cv i j (or_intror eq_refl))) as [vp [vl0 [Ev [Vp Vm]]]]. change NX with Rexact in *.
    rewrite E1 in Eh. rewrite E2 in Ev. apply Ok_inj in Eh. apply Ok_inj in Ev. subst hl0 vl0. exact (A hp hl vp vl Hp Hm Vp Vm L). }
  intros cs u w Hcs Hu Hw.
  destruct (flattest_ok roots RO cs (NE cs Hcs) (fun i j => U cs i j Hcs)) as [pairs [pts [E [Pp Mp]]]].
  destruct (flattest_moved roots RO u w cs Hu Hw) as [[er [X _]]|[pts0 [pts' [X [X' P]]]]].
  - exfalso. change NX with Rexact in E. change NSe with Rexact in X. rewrite X in E. discriminate.
  - change NX with Rexact in E. change NSe with Rexact in X. rewrite E in X. apply Ok_inj in X. subst pts0.
    exists pts, pts'. split; [exact E|]. split; [exact X'|]. split; [exact P|]. exact (D cs pairs pts Hcs Pp Mp).
Qed.
Print Assumptions C129_iteration_start.

(** *** Exchanged axes *)
Lemma bailey_step_swap st polyfit lh lv x y x' y' : @bailey_step R (Rst st) polyfit lh lv (x, y) = Ok (x', y') ->
  @bailey_step R (Rst st) polyfit (swap_lines lv) (swap_lines lh) (y, x) = Ok (y', x').
Proof.
  unfold bailey_step. pose proof (swap_ver st polyfit lv x y) as V. pose proof (swap_ver st polyfit (swap_lines lh) y x) as V'. rewrite swap_swap in V'. change (NSw st) with (Rst st) in V, V'. rewrite V, V'.
  destruct (@para_fit_hor R (Rst st) polyfit lh x y) as [[ch sh]|]; [|discriminate]. destruct (@para_fit_hor R (Rst st) polyfit (swap_lines lv) y x) as [[cv sv]|]; [|discriminate]. cbn [bind res_map fst snd].
  destruct (@fit1 R polyfit (map cf2 ch) (map cf0 ch)) as [[a1 b1]|]; [|discriminate]. destruct (@fit1 R polyfit (map cf2 cv) (map cf0 cv)) as [[a2 b2]|]; [|discriminate]. cbn [bind].
  intros H. apply Ok_inj in H. apply pair_equal_spec in H. destruct H as [<- <-]. reflexivity.
Qed.
(** Abscissa and ordinate exchanged (a transposed photograph): Bailey's method
    exchanges the coordinates of the centre. *)
Theorem C129_bailey_swap : forall st polyfit lh lv iteration x y,
  @find_cod_bailey R (Rst st) polyfit lh lv iteration = Ok (x, y) <-> @find_cod_bailey R (Rst st) polyfit (swap_lines lv) (swap_lines lh) iteration = Ok (y, x).
Proof.
  intros st polyfit. assert (G : forall lh lv it x y, @find_cod_bailey R (Rst st) polyfit lh lv it = Ok (x, y) -> @find_cod_bailey R (Rst st) polyfit (swap_lines lv) (swap_lines lh) it = Ok (y, x)).
  { intros lh lv it x y. unfold find_cod_bailey. destruct (@find_cod_coarse R (Rst st) polyfit lh lv) as [[x0 y0]|] eqn:E0; [|discriminate]. cbn [bind].
    assert (E0' : @find_cod_coarse R (Rst st) polyfit (swap_lines lv) (swap_lines lh) = Ok (y0, x0)).
    { apply (coarse_swap R (Rst st)) in E0; [exact E0|]. intros a b. cbn. ring. }
    rewrite E0'. cbn [bind]. destruct (@bailey_step R (Rst st) polyfit lh lv (x0, y0)) as [[x1 y1]|] eqn:E1; [|discriminate]. apply bailey_step_swap in E1. rewrite E1. cbn [bind].
    clear E0 E0' E1 x0 y0. generalize (Z.to_nat it) as k. intros k. revert x1 y1. induction k as [|k IH]; intros x1 y1; cbn [bailey_loop].
    - intros H. apply Ok_inj in H. apply pair_equal_spec in H. destruct H as [<- <-]. reflexivity.
    - destruct (@bailey_step R (Rst st) polyfit lh lv (x1, y1)) as [[x2 y2]|] eqn:E2; [|discriminate]. apply bailey_step_swap in E2. rewrite E2. cbn [bind]. apply IH. }
  intros lh lv it x y. split; [apply G|]. intros H. apply G in H. now rewrite !swap_swap in H.
Qed.
Print Assumptions C129_bailey_swap.
Lemma via_swap polyfit P lh lv ch cv hl vl x y : parabolas_hor (N := Rexact) polyfit 0 0 lh ch -> parabolas_ver (N := Rexact) polyfit 0 0 lv cv ->
  P ch = Ok hl -> P cv = Ok vl ->
  ((2 < length hl)%nat -> (2 < length vl)%nat -> forall a b c d, polyfit (map fst hl) (map snd hl) 1%nat = Ok [a; b] -> polyfit (map fst vl) (map snd vl) 1%nat = Ok [c; d] -> a * c <> 1) ->
  centre_via polyfit P lh lv = Ok (x, y) -> centre_via polyfit P (swap_lines lv) (swap_lines lh) = Ok (y, x).
Proof.
  intros Ph Pv Eh Ev NP. rewrite (via_eq polyfit lh lv ch cv Ph Pv), Eh, Ev. cbn [bind]. unfold centre_via.
  pose proof (parabolas_hor_fit polyfit lh 0 0 ch Ph) as Gh. pose proof (parabolas_ver_fit polyfit lv 0 0 cv Pv) as Gv. rewrite zero_shift in Gh, Gv.
  pose proof (swap_ver (fun x => x) polyfit lv 0 0) as V. pose proof (swap_ver (fun x => x) polyfit (swap_lines lh) 0 0) as V'. rewrite swap_swap in V'. change (NSw (fun x => x)) with Rexact in V, V'.
  rewrite Gh in V'. rewrite Gv in V. rewrite V'. destruct (@para_fit_hor R Rexact polyfit (swap_lines lv) 0 0) as [[cv' sv']|]; [|discriminate V]. cbn [res_map fst snd] in V. apply Ok_inj in V. apply pair_equal_spec in V. destruct V as [<- V].
  assert (sv' = swap_lines lv) by (rewrite V; symmetry; apply swap_swap). subst sv'. cbn [bind res_map fst snd]. rewrite Ev. cbn [bind]. rewrite Eh. cbn [bind].
  assert (B : @find_cod_bailey R Rexact polyfit lh lv 2 = Ok (x, y) -> @find_cod_bailey R Rexact polyfit (swap_lines lv) (swap_lines lh) 2 = Ok (y, x)) by apply (C129_bailey_swap (fun x => x)).
  destruct (2 <? Z.of_nat (length hl))%Z eqn:C1, (2 <? Z.of_nat (length vl))%Z eqn:C2; try exact B. apply Z.ltb_lt in C1. apply Z.ltb_lt in C2.
  specialize (NP ltac:(lia) ltac:(lia)). unfold vanishing_center, fit1.
  destruct (polyfit (map fst hl) (map snd hl) 1%nat) as [[|a [|b [|]]]|]; try discriminate. destruct (polyfit (map fst vl) (map snd vl) 1%nat) as [[|c [|d [|]]]|]; try discriminate.
  specialize (NP a b c d eq_refl eq_refl). cbn [bind]. intros H. apply Ok_inj in H. apply pair_equal_spec in H. destruct H as [<- <-].
  cbn [n1 nofZ nadd nmul nsub ndiv Rexact Rst]. f_equal. apply f_equal2; field; lra.
Qed.
(** So does the construction from vanishing points, if the two lines through
    them are not parallel, *)
Theorem C129_vanishing_swap : forall polyfit argsort roots lh lv ch cv x y, roots_oracle roots -> argsort_spec argsort ->
  parabolas_hor (N := Rexact) polyfit 0 0 lh ch -> parabolas_ver (N := Rexact) polyfit 0 0 lv cv ->
  (forall hp vp hl vl a b c d, pairs_opposite ch hp -> meeting_points hp hl -> pairs_opposite cv vp -> meeting_points vp vl -> (2 < length hl)%nat -> (2 < length vl)%nat ->
     polyfit (map fst hl) (map snd hl) 1%nat = Ok [a; b] -> polyfit (map fst vl) (map snd vl) 1%nat = Ok [c; d] -> a * c <> 1) ->
  @find_center_based_vanishing_points R Rexact polyfit argsort roots lh lv = Ok (x, y) ->
  @find_center_based_vanishing_points R Rexact polyfit argsort roots (swap_lines lv) (swap_lines lh) = Ok (y, x).
Proof.
  intros polyfit argsort roots lh lv ch cv x y RO AS Ph Pv NP. rewrite !first_via.
  destruct (opposite_ok roots argsort RO AS ch) as [hp [hl [Eh [Hp Hm]]]]. destruct (opposite_ok roots argsort RO AS cv) as [vp [vl [Ev [Vp Vm]]]]. change NX with Rexact in *.
  apply (via_swap polyfit _ lh lv ch cv hl vl x y Ph Pv Eh Ev). intros L1 L2 a b c d. exact (NP hp vp hl vl a b c d Hp Hm Vp Vm L1 L2).
Qed.
Print Assumptions C129_vanishing_swap.
(** and the start of the iterative method. *)
Theorem C129_iteration_swap : forall polyfit argsort lstsq roots lh lv ch cv method x y, roots_oracle roots ->
  parabolas_hor (N := Rexact) polyfit 0 0 lh ch -> parabolas_ver (N := Rexact) polyfit 0 0 lv cv -> lh <> [] -> lv <> [] ->
  (forall cs i j, cs = ch \/ cs = cv -> (i < length cs)%nat -> (j < length cs)%nat -> i <> j -> curv cs i <> curv cs j) ->
  (forall hp vp hl vl a b c d, pairs_flattest ch hp -> meeting_points hp hl -> pairs_flattest cv vp -> meeting_points vp vl -> (2 < length hl)%nat -> (2 < length vl)%nat ->
     polyfit (map fst hl) (map snd hl) 1%nat = Ok [a; b] -> polyfit (map fst vl) (map snd vl) 1%nat = Ok [c; d] -> a * c <> 1) ->
  let start lh lv := @find_center_based_vanishing_points_iteration R Rexact polyfit argsort cos atan lstsq roots lh lv 0 method in
  start lh lv = Ok (x, y) -> start (swap_lines lv) (swap_lines lh) = Ok (y, x).
Proof.
  intros polyfit argsort lstsq roots lh lv ch cv method x y RO Ph Pv Nh Nv U NP start. unfold start. rewrite !second_via.
  assert (NE : forall cs lines (P : list (R * R) -> R * R * R -> Prop), Forall2 P lines cs -> lines <> [] -> cs <> []) by (intros cs lines P F Hl ->; inversion F; congruence).
  destruct (flattest_ok roots RO ch (NE _ _ _ Ph Nh) (fun i j => U ch i j (or_introl eq_refl))) as [hp [hl [Eh [Hp Hm]]]].
  destruct (flattest_ok roots RO cv (NE _ _ _ Pv Nv) (fun i j => U cv i j (or_intror eq_refl))) as [vp [vl [Ev [Vp Vm]]]]. change NX with Rexact in *.
  apply (via_swap polyfit _ lh lv ch cv hl vl x y Ph Pv Eh Ev). intros L1 L2 a b c d. exact (NP hp vp hl vl a b c d Hp Hm Vp Vm L1 L2).
Qed.
Print Assumptions C129_iteration_swap.

(** *** Cases *)
Lemma spread_ideal_hor k u w cs ls : Forall2 (ideal_hor k u w) cs ls -> spread_hor 3 ls.
Proof. intros F. apply Forall_forall. intros line Hl. apply (In_nth _ _ []) in Hl. destruct Hl as [i [Hi <-]]. exact (proj2 (F2_nth _ _ _ i 0 [] F (eq_ind_r (fun n => (i < n)%nat) Hi (Forall2_length _ _ _ F)))). Qed.
Lemma spread_ideal_ver k u w cs ls : Forall2 (ideal_ver k u w) cs ls -> spread_ver 3 ls.
Proof. intros F. apply Forall_forall. intros line Hl. apply (In_nth _ _ []) in Hl. destruct Hl as [i [Hi <-]]. exact (proj2 (F2_nth _ _ _ i 0 [] F (eq_ind_r (fun n => (i < n)%nat) Hi (Forall2_length _ _ _ F)))). Qed.
(** The grid of C27 with centre (1, 2) on a detector with pixels twice as
    narrow, seen upside down with pixels three times as low. *)
Example C129_bailey_ex : let lh := grid_hor 1 1 2 [3; 5] [0; 1; 5] in let lv := grid_ver 1 1 2 [2; 4] [0; 1; 5] in
  apart pf_R lh lv 2 /\ @find_cod_bailey R Rexact pf_R (stretch_lines (-3) 2 lh) (stretch_lines (-3) 2 lv) 2 = Ok (2 * 1, -3 * 2) /\
  @find_cod_bailey R Rexact pf_R (swap_lines lv) (swap_lines lh) 2 = Ok (2, 1).
Proof.
  intros lh lv. assert (D3 : distinct_values 3 [0; 1; 5]) by distinct_lit.
  assert (Fh := grid_hor_ideal 1 1 2 [3; 5] [0; 1; 5] D3). assert (Fv := grid_ver_ideal 1 1 2 [2; 4] [0; 1; 5] D3).
  assert (EH : forall X Y, @fits_hor (fun x => x) pf_R X Y lh (map (ideal_coef 1 1 2 X Y) [3; 5])).
  { intros X Y. exact (para_hor_fits _ _ _ _ _ _ _ (ideal_fit_hor pf_R pf_R_ok 1 1 2 X Y _ _ Fh)). }
  assert (EV : forall X Y, @fits_ver (fun x => x) pf_R X Y lv (map (ideal_coef 1 2 1 Y X) [2; 4])).
  { intros X Y. exact (para_ver_fits _ _ _ _ _ _ _ (ideal_fit_ver pf_R pf_R_ok 1 1 2 X Y _ _ Fv)). }
  assert (DI : forall u w X Y a b, a <> b -> distinct_values 2 (map snd (map (ideal_coef 1 u w X Y) [a; b]))).
  { intros u w X Y a b Ne. eexists. split; [|split; [intros x Hx; exact Hx|now rewrite !map_length]]. cbn [map ideal_coef snd].
    constructor; [|constructor; [intros []|constructor]]. intros [E|[]]. apply Ne. pose proof (pow2_ge_0 (X - u)) as Q. nra. }
  assert (A : apart pf_R lh lv 2).
  { intros x y c _. split; intros Hc.
    - rewrite (fits_hor_fun (fun x => x) pf_R _ _ _ _ _ Hc (EH x y)). apply DI. lra.
    - rewrite (fits_ver_fun (fun x => x) pf_R _ _ _ _ _ Hc (EV x y)). apply DI. lra. }
  split; [exact A|]. pose proof C27_ex as C. fold lh lv in C. split.
  - rewrite (C129_bailey pf_R (-3) 2 lh lv 2 pf_R_ok); [now rewrite C|lra|lra| | |exact A].
    + exact (spread_ideal_hor _ _ _ _ _ Fh).
    + exact (spread_ideal_ver _ _ _ _ _ Fv).
  - now apply (C129_bailey_swap (fun x => x) pf_R lh lv 2 1 2).
Qed.
(** Lines bent about (u, w) by -1 meet at u - 1 and u + 1. *)
Lemma ideal_meet u w cs pairs pts : (forall p q, In (p, q) pairs -> In p (map (ideal_coef (-1) u w 0 0) cs) /\ In q (map (ideal_coef (-1) u w 0 0) cs)) ->
  meeting_points pairs pts -> pairs <> [] -> distinct_values 2 (map fst pts).
Proof.
  intros H [ps [F ->]] Ne. destruct F as [|[p q] l pairs ps M F]; [congruence|]. cbn [concat fst snd] in *.
  destruct (H p q (or_introl eq_refl)) as [Hp Hq]. apply in_map_iff in Hp. apply in_map_iff in Hq. destruct Hp as [c [<- _]], Hq as [d [<- _]].
  assert (M1 : parabola (ideal_coef (-1) u w 0 0 c) (u - 1) = parabola (ideal_coef (-1) u w 0 0 d) (u - 1)) by (unfold parabola, ideal_coef; cbn [fst snd]; ring).
  assert (M2 : parabola (ideal_coef (-1) u w 0 0 c) (u + 1) = parabola (ideal_coef (-1) u w 0 0 d) (u + 1)) by (unfold parabola, ideal_coef; cbn [fst snd]; ring).
  destruct M as [[_ N]|[r [s [-> M]]]]; [now apply N in M1|]. apply M in M1. apply M in M2.
  exists [u - 1; u + 1]. split; [repeat constructor; cbn [In]; intuition lra|]. split; [|cbn; lia].
  intros x Hx. rewrite map_app. apply in_or_app. left. cbn [map fst In] in *. destruct Hx as [<-|[<-|[]]]; intuition.
Qed.
Lemma selects_incl {A} (P : A -> Prop) l s : selects P l s -> forall x, In x s -> In x l.
Proof. intros S. induction S as [|a l s Ha S IH|a l s Ha S IH]; intros x Hx; [destruct Hx|destruct Hx as [->|Hx]; [now left|right; auto]|right; auto]. Qed.
Lemma ideal_level u w cs pairs pts : (forall p q, In (p, q) pairs -> In p (map (ideal_coef (-1) u w 0 0) cs) /\ In q (map (ideal_coef (-1) u w 0 0) cs)) ->
  meeting_points pairs pts -> forall p, In p pts -> snd p = w.
Proof.
  intros H [ps [F ->]] t Ht. apply in_concat in Ht. destruct Ht as [l [Hl Ht]]. 
  assert (X : exists p q, In (p, q) pairs /\ meets p q l).
  { clear H Ht. induction F as [|[p q] l' pairs ps M F IH]; [destruct Hl|]. destruct Hl as [->|Hl]; [exists p, q; split; [now left|exact M]|]. destruct (IH Hl) as [p' [q' [I M']]]. exists p', q'. split; [now right|exact M']. }
  destruct X as [p [q [I M]]]. destruct (H p q I) as [Hp Hq]. apply in_map_iff in Hp. apply in_map_iff in Hq. destruct Hp as [c [<- _]], Hq as [d [<- _]].
  assert (V : forall c x, x = u - 1 \/ x = u + 1 -> parabola (ideal_coef (-1) u w 0 0 c) x = w) by (intros e x [-> | ->]; unfold parabola, ideal_coef; cbn [fst snd]; ring).
  destruct M as [[-> _]|[r [s [-> M]]]]; [destruct Ht|].
  assert (M1 : u - 1 = r \/ u - 1 = s) by (apply M; rewrite !V; auto). assert (M2 : u + 1 = r \/ u + 1 = s) by (apply M; rewrite !V; auto).
  destruct Ht as [<-|[<-|[]]]; cbn [snd]; apply V; lra.
Qed.
Lemma opposite_incl cs pairs : pairs_opposite cs pairs -> forall p q, In (p, q) pairs -> In p cs /\ In q cs.
Proof.
  intros [up [down [up' [down' [S1 [S2 [P1 [P2 [_ [_ ->]]]]]]]]]] p q I. pose proof (in_combine_l _ _ _ _ I) as Ip. pose proof (in_combine_r _ _ _ _ I) as Iq.
  rewrite P1 in Ip. rewrite P2 in Iq. split; [exact (selects_incl _ _ _ S1 p Ip)|exact (selects_incl _ _ _ S2 q Iq)].
Qed.
Lemma flattest_incl cs pairs : pairs_flattest cs pairs -> forall p q, In (p, q) pairs -> In p cs /\ In q cs.
Proof.
  intros [l1 [m [l2 [-> [_ [_ ->]]]]]] p q I. apply in_map_iff in I. destruct I as [c [E I]]. injection E as <- <-. apply in_app_or in I. split; apply in_or_app; [|right; now left].
  destruct I; [now left|right; now right].
Qed.
Lemma level_slope w pts a b : pf_R (map fst pts) (map snd pts) 1%nat = Ok [a; b] -> (forall p, In p pts -> snd p = w) -> distinct_values 2 (map fst pts) -> a = 0.
Proof.
  intros E L D. destruct (pf_R_ok (map fst pts) (map snd pts) 1%nat) as [v [Ev Sv]]; [now apply distinct_values_ne in D|now rewrite !map_length|]. rewrite E in Ev. apply Ok_inj in Ev. subst v.
  assert (Z : polyfit_spec 1 (map fst pts) (map snd pts) [0; w]).
  { split; [reflexivity|]. intros u Lu. assert (Z : sqerr (map (pow_row 1) (map fst pts)) (map snd pts) [0; w] = 0).
    { clear - L. induction pts as [|p pts IH]; [reflexivity|]. unfold sqerr in *. cbn [map combine Rsum]. rewrite IH by (intros; apply L; now right). cbn [fst snd pow_row dot]. rewrite (L p) by now left. ring. }
    rewrite Z. apply sqerr_nonneg. }
  pose proof (lsq_unique 1 _ _ _ _ Sv Z ltac:(now rewrite !map_length) D) as Q. now injection Q.
Qed.
(** The grid of C85 with centre (2, 3), which has four vanishing points in each
    direction. *)
Example C129_vanishing_ex : let lh := grid_hor (-1) 2 3 [0; 1; 4; 5] [0; 1; 5] in let lv := grid_ver (-1) 2 3 [0; 1; 3; 4] [0; 1; 5] in
  let start lh lv := @find_center_based_vanishing_points_iteration R Rexact pf_R AI cos atan ls_R roots_R lh lv 0 RMean in
  @find_center_based_vanishing_points R Rexact pf_R AI roots_R (stretch_lines (-3) 2 lh) (stretch_lines (-3) 2 lv) = Ok (2 * 2, -3 * 3) /\
  start (stretch_lines (-3) 2 lh) (stretch_lines (-3) 2 lv) = Ok (2 * 2, -3 * 3) /\
  @find_center_based_vanishing_points R Rexact pf_R AI roots_R (swap_lines lv) (swap_lines lh) = Ok (3, 2) /\ start (swap_lines lv) (swap_lines lh) = Ok (3, 2).
Proof.
  intros lh lv start.
  assert (Fh : Forall2 (ideal_hor (-1) 2 3) [0; 1; 4; 5] lh) by (apply grid_hor_ideal; distinct_lit).
  assert (Fv : Forall2 (ideal_ver (-1) 2 3) [0; 1; 3; 4] lv) by (apply grid_ver_ideal; distinct_lit).
  pose proof (fit_parabolas_hor pf_R _ _ _ _ _ (ideal_fit_hor pf_R pf_R_ok (-1) 2 3 0 0 _ lh Fh)) as Ph.
  pose proof (fit_parabolas_ver pf_R _ _ _ _ _ (ideal_fit_ver pf_R pf_R_ok (-1) 2 3 0 0 _ lv Fv)) as Pv.
  set (ch := map _ [0; 1; 4; 5]) in Ph. set (cv := map _ [0; 1; 3; 4]) in Pv.
  assert (R1 : @find_center_based_vanishing_points R Rexact pf_R AI roots_R lh lv = Ok (2, 3)) by (apply C85_ex).
  assert (R2 : start lh lv = Ok (2, 3)) by (apply C85_ex).
  assert (Nh : lh <> []) by discriminate. assert (Nv : lv <> []) by discriminate.
  assert (In4 : forall (f : R -> R * R * R) a b c d x, In x (map f [a; b; c; d]) -> exists t, x = f t) by (intros f a b c d x Hx; apply in_map_iff in Hx; destruct Hx as [t [<- _]]; eauto).
  assert (U1 : forall cs c d, cs = ch \/ cs = cv -> In c cs -> In d cs -> bend c = bend d -> c = d).
  { intros cs c d [-> | ->] Hc Hd E; apply In4 in Hc; apply In4 in Hd; destruct Hc as [x ->], Hd as [y ->]; unfold bend, ideal_coef in E; cbn [fst snd] in E; (replace x with y by lra); reflexivity. }
  assert (U2 : forall cs i j, cs = ch \/ cs = cv -> (i < length cs)%nat -> (j < length cs)%nat -> i <> j -> curv cs i <> curv cs j).
  { intros cs i j [-> | ->] Hi Hj D; cbn in Hi, Hj; unfold ch, cv, curv, ideal_coef; destruct i as [|[|[|[|]]]]; destruct j as [|[|[|[|]]]]; try lia; cbn [map nth fst snd]; lra. }
  assert (DD : forall cs pairs pts, cs = ch \/ cs = cv -> (forall p q, In (p, q) pairs -> In p cs /\ In q cs) -> meeting_points pairs pts -> (2 < length pts)%nat -> distinct_values 2 (map fst pts)).
  { intros cs pairs pts Hcs I M L. assert (pairs <> []) by (intros ->; destruct M as [ps [F ->]]; inversion F; subst; cbn in L; lia).
    destruct Hcs as [-> | ->]; [exact (ideal_meet 2 3 _ pairs pts I M H)|exact (ideal_meet 3 2 _ pairs pts I M H)]. }
  assert (SL : forall pairs pts a b, (forall p q, In (p, q) pairs -> In p ch /\ In q ch) -> meeting_points pairs pts -> (2 < length pts)%nat -> pf_R (map fst pts) (map snd pts) 1%nat = Ok [a; b] -> a = 0).
  { intros pairs pts a b I M L E. apply (level_slope 3 pts a b E); [exact (ideal_level 2 3 _ pairs pts I M)|exact (DD ch pairs pts (or_introl eq_refl) I M L)]. }
  assert (L1 : forall cs pairs pts, cs = ch \/ cs = cv -> pairs_opposite cs pairs -> meeting_points pairs pts -> length pts = 4%nat).
  { intros cs pairs pts [-> | ->] Pp M; [refine (four_points _ _ _ _ 3 _ _ _ _ _ _ _ Pp M)|refine (four_points _ _ _ _ 4 _ _ _ _ _ _ _ Pp M)]; unfold bend, ideal_coef; cbn [fst snd]; try lra;
      intros e He; cbn [In] in He; unfold parabola, ideal_coef in *; intuition (subst e; cbn [fst snd]; lra). }
  assert (L2 : forall cs pairs pts, cs = ch \/ cs = cv -> pairs_flattest cs pairs -> meeting_points pairs pts -> (2 < length pts)%nat).
  { intros cs pairs pts Hcs Pp M. pose proof (flattest_incl cs pairs Pp) as I. destruct Pp as [l1 [m [l2 [E [_ [_ ->]]]]]]. destruct M as [ps [F ->]].
    assert (L : length (l1 ++ l2) = 3%nat) by (apply (f_equal (@length _)) in E; rewrite app_length in E; cbn [length] in E; rewrite app_length; destruct Hcs as [-> | ->]; cbn in E; lia).
    assert (K : forall t, In t (map (fun c => (c, m)) (l1 ++ l2)) -> forall l, meets (fst t) (snd t) l -> length l = 2%nat).
    { intros [p q] Ht l [[_ N]|[r [s [-> _]]]]; [exfalso|reflexivity]. cbn [fst snd] in N. destruct (I p q Ht) as [Ip Iq].
      destruct Hcs as [-> | ->]; apply In4 in Ip; apply In4 in Iq; destruct Ip as [x ->], Iq as [y ->]; [apply (N 3)|apply (N 4)]; unfold parabola, ideal_coef; cbn [fst snd]; ring. }
    destruct (l1 ++ l2) as [|c1 [|c2 [|c3 [|]]]]; try discriminate L. cbn [map] in F, K. inversion F as [|? p1 ? ? M1 F1]; subst. inversion F1 as [|? p2 ? ? M2 F2]; subst.
    cbn [concat]. rewrite !app_length. rewrite (K _ (or_introl eq_refl) p1 M1), (K _ (or_intror (or_introl eq_refl)) p2 M2). lia. }
  pose proof (spread_ideal_hor _ _ _ _ _ Fh) as Sh. pose proof (spread_ideal_ver _ _ _ _ _ Fv) as Sv.
  split; [|split; [|split]].
  - rewrite (C129_vanishing pf_R AI roots_R (-3) 2 lh lv ch cv pf_R_ok roots_R_ok AI_ok ltac:(lra) ltac:(lra) Sh Sv Ph Pv U1); [now rewrite R1| |].
    + intros cs pairs pts Hcs Pp. exact (DD cs pairs pts Hcs (opposite_incl cs pairs Pp)).
    + intros hp hl vp vl Hp Hm Vp Vm L. pose proof (L1 ch hp hl (or_introl eq_refl) Hp Hm). pose proof (L1 cv vp vl (or_intror eq_refl) Vp Vm). lia.
  - refine (eq_trans (C129_iteration_start pf_R AI ls_R roots_R (-3) 2 lh lv ch cv RMean pf_R_ok roots_R_ok ltac:(lra) ltac:(lra) Sh Sv Nh Nv Ph Pv U2 _ _) _); [| |change (match start lh lv with Ok (x, y) => Ok (2 * x, -3 * y) | Err e => Err e end = Ok (2 * 2, -3 * 3)); now rewrite R2].
    + intros cs pairs pts Hcs Pp. exact (DD cs pairs pts Hcs (flattest_incl cs pairs Pp)).
    + intros hp hl vp vl Hp Hm Vp Vm L. pose proof (L2 ch hp hl (or_introl eq_refl) Hp Hm). pose proof (L2 cv vp vl (or_intror eq_refl) Vp Vm). lia.
  - apply (C129_vanishing_swap pf_R AI roots_R lh lv ch cv 2 3 roots_R_ok AI_ok Ph Pv); [|exact R1].
    intros hp vp hl vl a b c d Hp Hm _ _ Lh _ E _. rewrite (SL hp hl a b (opposite_incl _ _ Hp) Hm Lh E). lra.
  - apply (C129_iteration_swap pf_R AI ls_R roots_R lh lv ch cv RMean 2 3 roots_R_ok Ph Pv Nh Nv U2); [|exact R2].
    intros hp vp hl vl a b c d Hp Hm _ _ Lh _ E _. rewrite (SL hp hl a b (flattest_incl _ _ Hp) Hm Lh E). lra.
Qed.
