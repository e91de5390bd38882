(** Facts for C123: what mirroring the dots and reading the lines in the
    opposite order does to the calibration. *)
From Coq Require Import Reals ZArith List Lia Lra Permutation FunctionalExtensionality.
From Flocq Require Import Core.
From Verif Require Import Base Num NumFacts Spec Lsq PolyUniq LsqEx Post PrepImg Proc ProcSpec ProcFacts ProcFacts2 ProcFacts3 ProcFacts4 ProcFacts5 LineFacts PrepFacts4 PersFacts8 CalibSpec CalibSpec2 CalibFacts Props_Proc Props_Calib Props_Calib2 Props_Calib3 Props_DotOrder.
Import ListNotations.
Local Open Scope R_scope.

(** *** Specification *)
(** A factor which keeps or turns round an axis. *)
Definition is_sign (s : R) : Prop := s = 1 \/ s = -1.
(** The dots seen with the vertical axis turned by sy, the horizontal one by sx. *)
Definition mirror_dot (sy sx : R) (p : R * R) : R * R := (sy * fst p, sx * snd p).
Definition mirror_lines (sy sx : R) (lines : list (list (R * R))) : list (list (R * R)) := map (map (mirror_dot sy sx)) lines.
(** A list read in the opposite order, or as it is. *)
Definition backwards {A} (r : bool) (l : list A) : list A := if r then rev l else l.
(** One of the fitted lines is nearer to the centre than all the others. *)
Definition one_nearest (cs : list (R * R * R)) : Prop :=
  exists k, (k < length cs)%nat /\ forall j, (j < length cs)%nat -> j <> k -> Rabs (snd (nth k cs (0, 0, 0))) < Rabs (snd (nth j cs (0, 0, 0))).
(** Rounding which treats a number and its opposite alike. *)
Definition odd_rounding (st : R -> R) : Prop := forall x, st (- x) = - st x.

Lemma is_sign_sq s : is_sign s -> s * s = 1.
Proof. intros [->| ->]; ring. Qed.
Lemma is_sign_abs s x : is_sign s -> Rabs (s * x) = Rabs x.
Proof. intros [->| ->]; [now rewrite Rmult_1_l|]. replace (-1 * x) with (- x) by ring. apply Rabs_Ropp. Qed.
Lemma is_sign_mul s t : is_sign s -> is_sign t -> is_sign (s * t).
Proof. intros [->| ->] [->| ->]; [left|right|right|left]; ring. Qed.
Lemma sgn_sign s x : is_sign s -> sgn (s * x) = s * sgn x.
Proof. intros [->| ->]; unfold sgn; repeat destruct (Rlt_dec _ _); lra. Qed.
Lemma odd_sign st s x : odd_rounding st -> is_sign s -> st (s * x) = s * st x.
Proof. intros O [->| ->]; [now rewrite !Rmult_1_l|]. replace (-1 * x) with (- x) by ring. rewrite O. ring. Qed.

(** The parabola of a mirrored line. *)
Definition flip (s t : R) (c : R * R * R) : R * R * R := (s * fst (fst c), s * t * snd (fst c), s * snd c).

Section Mirror.
  Variable st : R -> R.
  Hypothesis ODD : odd_rounding st.
  Local Instance NMi : Num R := Rst st.
  Variable polyfit : list R -> list R -> nat -> res (list R).
  Hypothesis PF : polyfit_oracle polyfit.
  Variable minimize : (R -> R) -> R -> R.

  (** *** Fitted parabolas *)
  Lemma flip_fit2 {A} (fx fy gx gy : A -> R) l s t : is_sign s -> is_sign t -> distinct_values 3 (map fx l) -> (forall p, gx p = t * fx p) -> (forall p, gy p = s * fy p) ->
    fit2 polyfit (map gx l) (map gy l) = res_map (flip s t) (fit2 polyfit (map fx l) (map fy l)).
  Proof.
    intros Ss St D Gx Gy. unfold fit2. pose proof (is_sign_sq s Ss) as Qs. pose proof (is_sign_sq t St) as Qt.
    assert (D' : distinct_values 3 (map gx l)).
    { replace (map gx l) with (map (Rmult t) (map fx l)) by (rewrite map_map; apply map_ext; intros; now rewrite Gx).
      apply distinct_values_map; [|exact D]. intros a b E. apply Rmult_eq_reg_l in E; [exact E|]. destruct St; lra. }
    destruct (PF (map fx l) (map fy l) 2%nat) as [v [Ev Sv]]; [now apply distinct_values_ne in D|now rewrite !map_length|].
    rewrite Ev. destruct (len3 v (proj1 Sv)) as [a [b [c ->]]]. cbn [bind res_map].
    rewrite (refit polyfit PF fx fy gx gy l (flip s t) (flip s t) 1 (a, b, c)); try assumption.
    - cbn [bind]. unfold flip. cbn [fst snd]. change (@nf32 R NMi) with st. do 2 f_equal; [f_equal|]; try now apply odd_sign. apply odd_sign; [exact ODD|now apply is_sign_mul].
    - lra.
    - intros [[x y] z]. unfold flip. cbn [fst snd]. replace (s * (s * x)) with (s * s * x) by ring. replace (s * t * (s * t * y)) with ((s * s) * (t * t) * y) by ring.
      replace (s * (s * z)) with (s * s * z) by ring. rewrite Qs, Qt. f_equal; [f_equal|]; ring.
    - intros [[x y] z]. unfold flip. cbn [fst snd]. replace (s * (s * x)) with (s * s * x) by ring. replace (s * t * (s * t * y)) with ((s * s) * (t * t) * y) by ring.
      replace (s * (s * z)) with (s * s * z) by ring. rewrite Qs, Qt. f_equal; [f_equal|]; ring.
    - intros p [[x y] z] _. unfold flip. cbn [fst snd]. rewrite Gx, Gy. destruct Ss as [->| ->], St as [->| ->]; ring.
  Qed.
  Lemma flip_mapM (f g : list (R * R) -> res (R * R * R * list (R * R))) h (m : list (R * R) -> list (R * R)) l :
    (forall line, In line l -> f (m line) = res_map (fun r => (h (fst r), m (snd r))) (g line)) ->
    bind (mapM f (map m l)) (fun r => Ok (map fst r, map snd r)) = res_map (fun r => (map h (fst r), map m (snd r))) (bind (mapM g l) (fun r => Ok (map fst r, map snd r))).
  Proof.
    intros H. rewrite mapM_map.
    assert (E : mapM (fun a => f (m a)) l = res_map (map (fun r => (h (fst r), m (snd r)))) (mapM g l)).
    { induction l as [|a l IH]; [reflexivity|]. cbn [mapM]. rewrite IH by (intros; apply H; now right). rewrite H by now left.
      destruct (g a) as [c|e]; [|reflexivity]. cbn [bind res_map]. now destruct (mapM g l). }
    rewrite E. destruct (mapM g l) as [r|e]; [|reflexivity]. cbn [bind res_map fst snd]. f_equal. rewrite !map_map. reflexivity.
  Qed.
  Lemma flip_hor l sy sx xc yc : is_sign sy -> is_sign sx -> spread_hor 3 l ->
    para_fit_hor polyfit (mirror_lines sy sx l) (sx * xc) (sy * yc) =
    res_map (fun r => (map (flip sy sx) (fst r), mirror_lines sy sx (snd r))) (para_fit_hor polyfit l xc yc).
  Proof.
    intros Hy Hx D. apply flip_mapM. intros line Hl. unfold spread_hor in D. rewrite Forall_forall in D. apply D in Hl. clear D.
    destruct line as [|p a]; [now apply distinct_values_ne in Hl|]. set (ln := p :: a) in *.
    change (bind (fit2 polyfit (map (fun p : R * R => nsub (snd p) (sx * xc)) (map (mirror_dot sy sx) ln)) (map (fun p : R * R => nsub (fst p) (sy * yc)) (map (mirror_dot sy sx) ln)))
      (fun c => Ok (c, map (fun p : R * R => (nsub (fst p) (sy * yc), nsub (snd p) (sx * xc))) (map (mirror_dot sy sx) ln))) =
      res_map (fun r => (flip sy sx (fst r), map (mirror_dot sy sx) (snd r))) (bind (fit2 polyfit (map (fun p : R * R => nsub (snd p) xc) ln) (map (fun p : R * R => nsub (fst p) yc) ln))
      (fun c => Ok (c, map (fun p : R * R => (nsub (fst p) yc, nsub (snd p) xc)) ln)))).
    rewrite !map_map. unfold mirror_dot at 1 2 3 4. cbn [fst snd].
    rewrite (flip_fit2 (fun p : R * R => nsub (snd p) xc) (fun p : R * R => nsub (fst p) yc) _ _ ln sy sx).
    - destruct (fit2 polyfit _ _) as [c|e]; [|reflexivity]. cbn [bind res_map fst snd]. do 2 f_equal. rewrite map_map. apply map_ext. intros q. unfold mirror_dot. cbn. f_equal; ring.
    - exact Hy.
    - exact Hx.
    - exact (distinct_shift 3 pxc xc ln Hl).
    - intros q. cbn. ring.
    - intros q. cbn. ring.
  Qed.
  Lemma flip_ver l sy sx xc yc : is_sign sy -> is_sign sx -> spread_ver 3 l ->
    para_fit_ver polyfit (mirror_lines sy sx l) (sx * xc) (sy * yc) =
    res_map (fun r => (map (flip sx sy) (fst r), mirror_lines sy sx (snd r))) (para_fit_ver polyfit l xc yc).
  Proof.
    intros Hy Hx D. apply flip_mapM. intros line Hl. unfold spread_ver in D. rewrite Forall_forall in D. apply D in Hl. clear D.
    destruct line as [|p a]; [now apply distinct_values_ne in Hl|]. set (ln := p :: a) in *.
    change (bind (fit2 polyfit (map (fun p : R * R => nsub (fst p) (sy * yc)) (map (mirror_dot sy sx) ln)) (map (fun p : R * R => nsub (snd p) (sx * xc)) (map (mirror_dot sy sx) ln)))
      (fun c => Ok (c, map (fun p : R * R => (nsub (fst p) (sy * yc), nsub (snd p) (sx * xc))) (map (mirror_dot sy sx) ln))) =
      res_map (fun r => (flip sx sy (fst r), map (mirror_dot sy sx) (snd r))) (bind (fit2 polyfit (map (fun p : R * R => nsub (fst p) yc) ln) (map (fun p : R * R => nsub (snd p) xc) ln))
      (fun c => Ok (c, map (fun p : R * R => (nsub (fst p) yc, nsub (snd p) xc)) ln)))).
    rewrite !map_map. unfold mirror_dot at 1 2 3 4. cbn [fst snd].
    rewrite (flip_fit2 (fun p : R * R => nsub (fst p) yc) (fun p : R * R => nsub (snd p) xc) _ _ ln sx sy).
    - destruct (fit2 polyfit _ _) as [c|e]; [|reflexivity]. cbn [bind res_map fst snd]. do 2 f_equal. rewrite map_map. apply map_ext. intros q. unfold mirror_dot. cbn. f_equal; ring.
    - exact Hx.
    - exact Hy.
    - exact (distinct_shift 3 py yc ln Hl).
    - intros q. cbn. ring.
    - intros q. cbn. ring.
  Qed.
  (** Lines in the opposite order. *)
  Lemma mapM_rev {A B} (f : A -> res B) l r : mapM f l = Ok r -> mapM f (rev l) = Ok (rev r).
  Proof.
    assert (AP : forall a b x y, mapM f a = Ok x -> mapM f b = Ok y -> mapM f (a ++ b) = Ok (x ++ y)).
    { induction a as [|c a IH]; intros b x y E E'; cbn [mapM app] in *; [apply Ok_inj in E; now subst x|].
      destruct (f c) as [d|]; [|discriminate]. cbn [bind] in *. destruct (mapM f a) as [z|]; [|discriminate]. cbn [bind] in *. apply Ok_inj in E. subst x.
      rewrite (IH b z y eq_refl E'). reflexivity. }
    revert r. induction l as [|a l IH]; intros r E; cbn [mapM rev] in *; [apply Ok_inj in E; now subst r|].
    destruct (f a) as [c|] eqn:Ec; [|discriminate]. cbn [bind] in E. destruct (mapM f l) as [z|]; [|discriminate]. cbn [bind] in E. apply Ok_inj in E. subst r. cbn [rev].
    apply AP; [now apply IH|]. cbn [mapM]. rewrite Ec. reflexivity.
  Qed.
  Lemma rev_hor l xc yc cs s : para_fit_hor polyfit l xc yc = Ok (cs, s) -> para_fit_hor polyfit (rev l) xc yc = Ok (rev cs, rev s).
  Proof.
    unfold para_fit_hor. destruct (mapM _ l) as [r|] eqn:E; [|discriminate]. intros H. cbn [bind] in H. apply Ok_inj in H. apply pair_equal_spec in H. destruct H as [<- <-].
    rewrite (mapM_rev _ _ _ E). cbn [bind]. now rewrite !map_rev.
  Qed.
  Lemma rev_ver l xc yc cs s : para_fit_ver polyfit l xc yc = Ok (cs, s) -> para_fit_ver polyfit (rev l) xc yc = Ok (rev cs, rev s).
  Proof.
    unfold para_fit_ver. destruct (mapM _ l) as [r|] eqn:E; [|discriminate]. intros H. cbn [bind] in H. apply Ok_inj in H. apply pair_equal_spec in H. destruct H as [<- <-].
    rewrite (mapM_rev _ _ _ E). cbn [bind]. now rewrite !map_rev.
  Qed.

  (** *** The undistorted positions, one direction at a time *)
  Definition one_dir (nh nv : Z) (opt : bool) (cs : list (R * R * R)) : res (list R) :=
    bind (argmin (map (fun c => nabs (cf2 c)) cs)) (fun pos =>
    let (p1, p2) := near_window 3 nh nv pos (Z.of_nat (length cs)) in
    let d := mean (map nabs (ndiff (lslice (map cf2 cs) p1 p2))) in
    bind (if opt then optimize_intercept minimize d pos (map cf2 cs) else Ok d) (fun d => spread_intercepts cs pos d)).
  Lemma undistor_dirs lh lv xc yc opt thr ch cv sh sv w uh uv :
    para_fit_hor polyfit lh xc yc = Ok (ch, sh) -> para_fit_ver polyfit lv xc yc = Ok (cv, sv) ->
    calc_undistor_intercept polyfit minimize lh lv xc yc opt thr = Ok (w, (uh, uv)) <->
    check_missing_lines polyfit ch cv thr = Ok w /\ one_dir (Z.of_nat (length lh)) (Z.of_nat (length lv)) opt ch = Ok uh /\
    one_dir (Z.of_nat (length lh)) (Z.of_nat (length lv)) opt cv = Ok uv.
  Proof.
    intros Eh Ev. unfold calc_undistor_intercept. rewrite Eh, Ev. cbn [bind].
    apply (para_hor_lines polyfit) in Eh. destruct Eh as [-> Nh]. apply (para_ver_lines polyfit) in Ev. destruct Ev as [-> Nv].
    rewrite !map_length. unfold one_dir. rewrite Nh, Nv.
    destruct (check_missing_lines polyfit ch cv thr) as [w'|]; [|split; [discriminate|intros [H _]; discriminate]]. cbn [bind].
    destruct (argmin (map (fun c => nabs (cf2 c)) ch)) as [ph|]; [|split; [discriminate|intros [_ [H _]]; discriminate]]. cbn [bind].
    destruct (argmin (map (fun c => nabs (cf2 c)) cv)) as [pv|]; [|split; [discriminate|intros [_ [_ H]]; discriminate]]. cbn [bind].
    destruct (near_window 3 _ _ ph _) as [a1 b1]. destruct (near_window 3 _ _ pv _) as [a2 b2].
    destruct (if opt then optimize_intercept minimize _ ph _ else Ok _) as [d1|]; [|split; [discriminate|intros [_ [H _]]; discriminate]]. cbn [bind].
    destruct (if opt then optimize_intercept minimize _ pv _ else Ok _) as [d2|]; [|split; [discriminate|intros [_ [_ H]]; discriminate]]. cbn [bind].
    destruct (spread_intercepts ch ph d1) as [u1|]; [|split; [discriminate|intros [_ [H _]]; discriminate]]. cbn [bind].
    destruct (spread_intercepts cv pv d2) as [u2|]; [|split; [discriminate|intros [_ [_ H]]; discriminate]]. cbn [bind].
    split.
    - intros H. apply Ok_inj in H. apply pair_equal_spec in H. destruct H as [-> H]. apply pair_equal_spec in H. destruct H as [-> ->]. auto.
    - intros [H1 [H2 H3]]. apply Ok_inj in H1, H2, H3. now subst.
  Qed.

  (** *** Turned axes *)
  Lemma flip_gaps s t (cs : list (R * R * R)) : is_sign s -> map cf2 (map (flip s t) cs) = map (Rmult s) (map cf2 cs).
  Proof. intros _. rewrite !map_map. now apply map_ext. Qed.
  Lemma sign_ndiff s (l : list R) : is_sign s -> map nabs (ndiff (map (Rmult s) l)) = map nabs (ndiff l).
  Proof.
    intros Hs. induction l as [|a l IH]; [reflexivity|]. destruct l as [|b l]; [reflexivity|]. cbn [map ndiff] in IH |- *. rewrite IH. f_equal.
    change (Rabs (s * b - s * a) = Rabs (b - a)). rewrite <- Rmult_minus_distr_l. now apply is_sign_abs.
  Qed.
  Lemma flip_missing s t cs : is_sign s -> missing_error polyfit (map (flip s t) cs) = missing_error polyfit cs.
  Proof. intros Hs. unfold missing_error. rewrite flip_gaps, sign_ndiff by assumption. reflexivity. Qed.
  Lemma flip_argmin s t (cs : list (R * R * R)) : is_sign s -> map (fun c => nabs (cf2 c)) (map (flip s t) cs) = map (fun c => nabs (cf2 c)) cs.
  Proof. intros Hs. rewrite map_map. apply map_ext. intros c. change (Rabs (s * cf2 c) = Rabs (cf2 c)). now apply is_sign_abs. Qed.
  Lemma sign_opt s c0 pos l : is_sign s -> func_opt (s * c0) (Z.of_nat pos) (map (Rmult s) l) = func_opt c0 (Z.of_nat pos) l.
  Proof.
    intros Hs. apply functional_extensionality. intros d. pose proof (func_opt_R st) as Q. change (NSt4 st) with NMi in Q. rewrite !Q. f_equal.
    rewrite mapi_map. apply mapi_ext. intros i c. rewrite sgn_sign by assumption. destruct Hs as [->| ->]; ring.
  Qed.
  Lemma flip_dir nh nv opt s t cs : is_sign s -> one_dir nh nv opt (map (flip s t) cs) = res_map (map (Rmult s)) (one_dir nh nv opt cs).
  Proof.
    intros Hs. unfold one_dir. rewrite flip_argmin, map_length, flip_gaps by assumption.
    destruct (argmin (map (fun c => nabs (cf2 c)) cs)) as [pos|] eqn:EP; [|reflexivity]. cbn [bind].
    apply (argmin_map_first st) in EP. destruct EP as [k [-> [_ Hk]]].
    destruct (near_window 3 nh nv (Z.of_nat k) _) as [p1 p2]. rewrite lslice_map, sign_ndiff by assumption.
    set (d0 := mean _).
    assert (OI : (if opt then optimize_intercept minimize d0 (Z.of_nat k) (map (Rmult s) (map cf2 cs)) else Ok d0) =
      (if opt then optimize_intercept minimize d0 (Z.of_nat k) (map cf2 cs) else Ok d0)).
    { destruct opt; [|reflexivity]. unfold optimize_intercept. rewrite pyget_map. rewrite (pyget_nth (map cf2 cs) k 0) by now rewrite map_length. cbn [bind res_map].
      now rewrite sign_opt by assumption. }
    rewrite OI. clear OI. destruct (if opt then optimize_intercept minimize d0 (Z.of_nat k) (map cf2 cs) else Ok d0) as [d|]; [|reflexivity]. cbn [bind].
    unfold spread_intercepts. rewrite pyget_map. rewrite (pyget_nth cs k (0, 0, 0) Hk). cbn [res_map bind]. f_equal.
    rewrite mapi_map, map_mapi. apply mapi_ext. intros i c. rewrite !(nsign_R st). change (@nf32 R NMi) with st.
    rewrite <- (odd_sign st s _ ODD Hs). f_equal. change (cf2 (flip s t c)) with (s * cf2 c). rewrite sgn_sign by assumption.
    change (cf2 (flip s t (nth k cs (0, 0, 0)))) with (s * cf2 (nth k cs (0, 0, 0))). cbn [nadd nmul nofZ NMi Rst]. ring.
  Qed.

  (** *** The opposite order *)
  Lemma rev_ndiff (l : list R) : map nabs (ndiff (rev l)) = rev (map nabs (ndiff l)).
  Proof.
    assert (G : forall l (a b : R), map nabs (ndiff (l ++ [a; b])) = map nabs (ndiff (l ++ [a])) ++ [Rabs (b - a)]).
    { clear l. induction l as [|x l IH]; intros a b; [reflexivity|]. destruct l as [|y l]; [reflexivity|].
      cbn [app ndiff map] in *. now rewrite IH. }
    induction l as [|a l IH]; [reflexivity|]. destruct l as [|b l]; [reflexivity|]. cbn [rev]. rewrite <- app_assoc. cbn [app]. rewrite G.
    change (rev l ++ [b]) with (rev (b :: l)). rewrite IH. cbn [ndiff map rev]. do 2 f_equal. change (Rabs (a - b) = Rabs (b - a)). apply Rabs_minus_sym.
  Qed.
  Lemma rev_mean (l : list R) : mean (rev l) = mean l.
  Proof.
    pose proof (ProcFacts3.mean_average st) as Q. change (NSt4 st) with NMi in Q. rewrite !Q. unfold average. rewrite rev_length. f_equal.
    apply Rsum_perm. apply Permutation_sym, Permutation_rev.
  Qed.
  Lemma rev_lslice {A} (l : list A) a b (d : A) : (0 <= a)%Z -> (a <= b)%Z -> (b <= Z.of_nat (length l))%Z ->
    lslice (rev l) (Z.of_nat (length l) - b) (Z.of_nat (length l) - a) = rev (lslice l a b).
  Proof.
    intros Ha Hab Hb. apply (nth_ext _ _ d d).
    - rewrite rev_length, !lslice_len; rewrite ?rev_length; lia.
    - intros k Hk. rewrite lslice_len in Hk by (rewrite ?rev_length; lia). rewrite lslice_nth by (rewrite ?rev_length; lia).
      rewrite !rev_nth by (rewrite ?lslice_len; lia). rewrite lslice_len by lia. rewrite lslice_nth by lia. f_equal. lia.
  Qed.
  Lemma rev_argmin (cs : list (R * R * R)) k : one_nearest cs -> argmin (map (fun c => nabs (cf2 c)) cs) = Ok (Z.of_nat k) -> (k < length cs)%nat ->
    argmin (map (fun c => nabs (cf2 c)) (rev cs)) = Ok (Z.of_nat (length cs - 1 - k)).
  Proof.
    intros [m [Hm U]] E Hk.
    assert (N : forall (l : list (R * R * R)) j, (j < length l)%nat -> nth j (map (fun c => nabs (cf2 c)) l) 0 = Rabs (snd (nth j l (0, 0, 0)))).
    { intros l j Hj. rewrite (nth_indep _ 0 (Rabs (snd (0, 0, 0)))) by now rewrite map_length. exact (map_nth (fun c : R * R * R => Rabs (snd c)) l (0, 0, 0) j). }
    assert (Km : k = m).
    { apply (argmin_map_first st) in E. destruct E as [k' [E [F _]]]. apply Nat2Z.inj in E. subst k'. destruct (Nat.eq_dec k m) as [|Ne]; [assumption|].
      destruct F as [_ [F _]]. specialize (F m). rewrite map_length in F. specialize (F Hm). change (fun c : R * R * R => Rabs (snd c)) with (fun c : R * R * R => nabs (cf2 c)) in F.
      rewrite !N in F by assumption. specialize (U k Hk Ne). lra. }
    subst m. destruct (argmin (map (fun c => nabs (cf2 c)) (rev cs))) as [p|] eqn:E'.
    2: { exfalso. destruct cs as [|c cs]; [cbn in Hk; lia|]. unfold argmin in E'. cbn [rev] in E'. destruct (map (fun c => nabs (cf2 c)) (rev cs ++ [c])) eqn:Q; [|discriminate].
         rewrite map_app in Q. destruct (map _ (rev cs)); discriminate. }
    apply (argmin_map_first st) in E'. destruct E' as [j [-> [F Hj]]]. rewrite rev_length in Hj. do 2 f_equal.
    destruct (Nat.eq_dec j (length cs - 1 - k)) as [|Ne]; [assumption|]. exfalso.
    destruct F as [_ [F _]]. specialize (F (length cs - 1 - k)%nat). rewrite map_length, rev_length in F. specialize (F ltac:(lia)).
    change (fun c : R * R * R => Rabs (snd c)) with (fun c : R * R * R => nabs (cf2 c)) in F. rewrite !N in F by (rewrite rev_length; lia).
    rewrite !rev_nth in F by lia. replace (length cs - S (length cs - 1 - k))%nat with k in F by lia.
    specialize (U (length cs - S j)%nat ltac:(lia) ltac:(lia)). lra.
  Qed.
  Lemma Rsum_mapi_rev {A} (f g : nat -> A -> R) l d : (forall i, (i < length l)%nat -> f (length l - 1 - i)%nat (nth i l d) = g i (nth i l d)) -> Rsum (mapi f (rev l)) = Rsum (mapi g l).
  Proof.
    intros H. rewrite (Rsum_perm (mapi g l) (rev (mapi g l))) by apply Permutation_rev. f_equal. apply (nth_ext _ _ 0 0).
    - now rewrite rev_length, !mapi_length, rev_length.
    - intros i Hi. rewrite mapi_length, rev_length in Hi. rewrite rev_nth by (rewrite mapi_length; lia). rewrite mapi_length.
      rewrite (mapi_nth _ _ _ d) by (rewrite rev_length; lia). rewrite (mapi_nth _ _ _ d) by lia. rewrite rev_nth by lia.
      rewrite <- H by lia. f_equal. lia.
  Qed.
  Lemma rev_opt c0 k l : (k < length l)%nat -> func_opt c0 (Z.of_nat (length l - 1 - k)) (rev l) = func_opt c0 (Z.of_nat k) l.
  Proof.
    intros Hk. apply functional_extensionality. intros d. pose proof (func_opt_R st) as Q. change (NSt4 st) with NMi in Q. rewrite !Q.
    apply (Rsum_mapi_rev _ _ l 0). intros i Hi. do 6 f_equal. lia.
  Qed.
  Lemma rev_dir nh nv opt cs : (2 <= nh)%Z -> (2 <= nv)%Z -> one_nearest cs -> one_dir nh nv opt (rev cs) = res_map (@rev R) (one_dir nh nv opt cs).
  Proof.
    intros Hnh Hnv ON. unfold one_dir.
    destruct (argmin (map (fun c => nabs (cf2 c)) cs)) as [pos|] eqn:EP.
    2: { exfalso. destruct ON as [k [Hk _]]. destruct cs; [cbn in Hk; lia|discriminate]. }
    destruct (argmin_map_first st _ _ _ EP) as [k [-> [_ Hk]]].
    rewrite (rev_argmin cs k ON EP Hk). cbn [bind]. rewrite rev_length.
    unfold near_window. set (q := Z.min 3 _). assert (Hq : (0 <= q)%Z) by (unfold q; pose proof (Z.div_le_mono 2 nh 2); pose proof (Z.div_le_mono 2 nv 2); change (2 / 2)%Z with 1%Z in *; lia).
    assert (W1 : Z.max 0 (Z.of_nat (length cs - 1 - k) - q) = (Z.of_nat (length (map cf2 cs)) - Z.min (Z.of_nat (length cs)) (Z.of_nat k + q + 1))%Z) by (rewrite map_length; lia).
    assert (W2 : Z.min (Z.of_nat (length cs)) (Z.of_nat (length cs - 1 - k) + q + 1) = (Z.of_nat (length (map cf2 cs)) - Z.max 0 (Z.of_nat k - q))%Z) by (rewrite map_length; lia).
    rewrite W1, W2. clear W1 W2. rewrite map_rev, (rev_lslice (map cf2 cs) _ _ 0) by (rewrite ?map_length; lia). rewrite rev_ndiff, rev_mean.
    set (d0 := mean _).
    assert (OI : (if opt then optimize_intercept minimize d0 (Z.of_nat (length cs - 1 - k)) (rev (map cf2 cs)) else Ok d0) =
      (if opt then optimize_intercept minimize d0 (Z.of_nat k) (map cf2 cs) else Ok d0)).
    { destruct opt; [|reflexivity]. unfold optimize_intercept. rewrite (pyget_nth (map cf2 cs) k 0) by now rewrite map_length.
      rewrite (pyget_nth (rev (map cf2 cs)) _ 0) by (rewrite rev_length, map_length; lia). cbn [bind].
      rewrite rev_nth by (rewrite map_length; lia). rewrite map_length. replace (length cs - S (length cs - 1 - k))%nat with k by lia.
      do 2 f_equal. rewrite <- (map_length cf2 cs) at 1. apply rev_opt. now rewrite map_length. }
    rewrite OI. clear OI. destruct (if opt then optimize_intercept minimize d0 (Z.of_nat k) (map cf2 cs) else Ok d0) as [d|]; [|reflexivity]. cbn [bind].
    unfold spread_intercepts. rewrite (pyget_nth cs k (0, 0, 0) Hk). rewrite (pyget_nth (rev cs) _ (0, 0, 0)) by (rewrite rev_length; lia).
    rewrite rev_nth by lia. replace (length cs - S (length cs - 1 - k))%nat with k by lia. cbn [res_map bind]. f_equal.
    apply (nth_ext _ _ 0 0).
    - now rewrite rev_length, !mapi_length, rev_length.
    - intros i Hi. rewrite mapi_length, rev_length in Hi. rewrite rev_nth by (rewrite mapi_length; lia). rewrite mapi_length.
      rewrite !(mapi_nth _ _ _ (0, 0, 0)) by (rewrite ?rev_length; lia). rewrite rev_nth by lia.
      replace (Z.abs (Z.of_nat i - Z.of_nat (length cs - 1 - k))) with (Z.abs (Z.of_nat (length cs - S i) - Z.of_nat k)) by lia. reflexivity.
  Qed.

  Lemma namax_perm (l m : list R) : Permutation l m -> namax l = namax m.
  Proof.
    intros P. destruct (namax l) as [a|e] eqn:E1.
    - destruct (namax m) as [b|e] eqn:E2.
      + apply (namax_spec (fun x => x)) in E1. apply (namax_spec (fun x => x)) in E2. destruct E1 as [I1 M1], E2 as [I2 M2]. f_equal. apply Rle_antisym.
        * apply M2. now apply (Permutation_in _ P).
        * apply M1. now apply (Permutation_in _ (Permutation_sym P)).
      + destruct m; [|discriminate]. apply Permutation_sym, Permutation_nil in P. subst l. discriminate.
    - destruct l; [|discriminate]. apply Permutation_nil in P. subst m. now rewrite <- E1.
  Qed.
  Lemma zrange_flip n : map (fun i => IZR (Z.of_nat n - 1) - i) (map IZR (zrange 0 (Z.of_nat n))) = rev (map IZR (zrange 0 (Z.of_nat n))).
  Proof.
    rewrite <- map_rev, map_map.
    assert (E : map (fun i => (Z.of_nat n - 1 - i)%Z) (zrange 0 (Z.of_nat n)) = rev (zrange 0 (Z.of_nat n))).
    { apply (nth_ext _ _ 0%Z 0%Z); [now rewrite map_length, rev_length|]. intros k Hk. rewrite map_length, zrange_length in Hk.
      rewrite rev_nth by (rewrite zrange_length; lia). rewrite zrange_length.
      rewrite (nth_indep _ 0%Z (Z.of_nat n - 1 - 0)%Z) by (rewrite map_length, zrange_length; lia). rewrite (map_nth (fun i => (Z.of_nat n - 1 - i)%Z)).
      rewrite !zrange_nth by lia. lia. }
    rewrite <- E, map_map. apply map_ext. intros i. now rewrite <- minus_IZR.
  Qed.
  Lemma combine_rev {A B} (a : list A) : forall b : list B, length a = length b -> combine (rev a) (rev b) = rev (combine a b).
  Proof.
    induction a as [|x a IH]; intros [|y b] L; try discriminate; [reflexivity|]. cbn [rev combine]. cbn in L. rewrite <- IH by lia.
    assert (G : forall (u : list A) (v : list B), length u = length v -> combine (u ++ [x]) (v ++ [y]) = combine u v ++ [(x, y)]).
    { induction u as [|p u IHu]; intros [|q v] Lu; try discriminate; [reflexivity|]. cbn in *. now rewrite IHu by lia. }
    apply G. rewrite !rev_length. lia.
  Qed.
  Lemma map_fst_combine {A B} (a : list A) : forall b : list B, length a = length b -> map fst (combine a b) = a.
  Proof. induction a as [|x a IH]; intros [|y b] L; try discriminate; [reflexivity|]. cbn in *. now rewrite IH by lia. Qed.
  Lemma map_snd_combine {A B} (a : list A) : forall b : list B, length a = length b -> map snd (combine a b) = b.
  Proof. induction a as [|x a IH]; intros [|y b] L; try discriminate; [reflexivity|]. cbn in *. now rewrite IH by lia. Qed.
  Lemma rev_missing cs : (2 <= length cs)%nat -> missing_error polyfit (rev cs) = missing_error polyfit cs.
  Proof.
    intros L. unfold missing_error. rewrite map_rev, rev_ndiff. set (ld := map nabs (ndiff (map cf2 cs))). rewrite rev_length.
    assert (Ll : (1 <= length ld)%nat).
    { unfold ld. rewrite map_length. destruct cs as [|a [|b cs]]; cbn in *; lia. }
    change (@nofZ R NMi) with IZR. set (xs := map IZR (zrange 0 (Z.of_nat (length ld)))). pose proof (zrange_flip (length ld)) as FX. fold xs in FX.
    set (M := IZR (Z.of_nat (length ld) - 1)) in FX.
    assert (Lx : length xs = length ld) by (unfold xs; rewrite map_length, zrange_length; lia).
    assert (Nx : xs <> []) by (intros E; rewrite E in Lx; cbn in Lx; lia). clearbody xs ld M.
    destruct (PF xs ld 2%nat Nx Lx) as [v [Ev Sv]]. destruct (PF xs (rev ld) 2%nat Nx) as [w [Ew Sw]]; [now rewrite rev_length|].
    rewrite Ev, Ew. destruct (len3 v (proj1 Sv)) as [a [b [c ->]]]. destruct (len3 w (proj1 Sw)) as [a' [b' [c' ->]]]. cbn [bind].
    set (ph := fun u : list R => match u with [x; y; z] => [x; -2 * M * x - y; x * M ^ 2 + y * M + z] | _ => u end).
    set (LL := combine xs (rev ld)).
    assert (F1 : map fst LL = xs) by (apply map_fst_combine; now rewrite rev_length).
    assert (F2 : map snd LL = rev ld) by (apply map_snd_combine; now rewrite rev_length).
    assert (T : polyfit_spec 2 (map (fun p => M - fst p) LL) (map snd LL) (ph [a'; b'; c'])).
    { apply (lsq_transport 3 (map (pow_row 2) (map (fun p => M - fst p) LL)) (map snd LL) (map (pow_row 2) (map fst LL)) (map snd LL) ph 1 [a'; b'; c']); [lra| | |now rewrite F1, F2].
      - intros u Lu. destruct (len3 u Lu) as [x [y [z ->]]]. split; [reflexivity|]. unfold ph. rewrite !sqerr2. rewrite Rmult_1_l. f_equal. apply map_ext. intros p. f_equal. ring.
      - intros u Lu. destruct (len3 u Lu) as [x [y [z ->]]]. exists (ph [x; y; z]). split; [reflexivity|]. unfold ph. replace (-2 * M * x - (-2 * M * x - y)) with y by ring. replace (x * M ^ 2 + (-2 * M * x - y) * M + (x * M ^ 2 + y * M + z)) with z by ring. reflexivity. }
    assert (T' : polyfit_spec 2 xs ld (ph [a'; b'; c'])).
    { assert (E : map (fun p => (M - fst p, snd p)) LL = rev (combine xs ld)).
      { rewrite <- combine_rev by exact Lx. rewrite <- FX, <- F1, <- F2. rewrite map_map. clear. induction LL as [|p l IH]; [reflexivity|]. cbn [map combine]. now rewrite IH. }
      assert (T2 : polyfit_spec 2 (map fst (rev (combine xs ld))) (map snd (rev (combine xs ld))) (ph [a'; b'; c'])) by (rewrite <- E, !map_map; exact T).
      pose proof (polyfit_spec_perm 2 fst snd _ _ _ (Permutation_sym (Permutation_rev (combine xs ld))) T2) as T3.
      now rewrite map_fst_combine, map_snd_combine in T3. }
    assert (V : forall x, In x xs -> a * x ^ 2 + b * x + c = a' * (M - x) ^ 2 + b' * (M - x) + c').
    { intros x Hx. pose proof (lsq_fitted_unique 3 (map (pow_row 2) xs) ld _ _ ltac:(now rewrite map_length) Sv T' (pow_row 2 x) (in_map _ _ _ Hx)) as Q.
      transitivity (dot (pow_row 2 x) [a; b; c]); [cbn; ring|]. rewrite Q. unfold ph. cbn. ring. }
    cbn [nadd nmul npow NMi Rst].
    assert (RV : map (fun i => a' * i ^ 2 + b' * i + c') xs = rev (map (fun i => a * i ^ 2 + b * i + c) xs)).
    { rewrite <- map_rev, <- FX, map_map. apply map_ext_in. intros x Hx. rewrite V; [ring_simplify (M - (M - x)); reflexivity|].
      rewrite (in_rev xs), <- FX. now apply (in_map (fun i => M - i)). }
    rewrite RV, combine_rev by (rewrite map_length; lia). apply namax_perm. rewrite map_rev. apply Permutation_sym, Permutation_rev.
  Qed.
End Mirror.
