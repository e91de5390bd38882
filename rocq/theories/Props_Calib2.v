(** C98: calibration and the choice of origin, pixel size and axes. *)
From Coq Require Import Reals ZArith List Lia Lra Permutation.
From Flocq Require Import Core.
From Verif Require Import Base Num Spec Lsq PolyUniq LsqEx Post PrepImg Proc ProcSpec ProcFacts ProcFacts2 ProcFacts3 ProcFacts4 ProcFacts5 LineFacts PersFacts8 CalibSpec CalibSpec2 CalibFacts Props_Calib.
Import ListNotations.
Local Open Scope R_scope.

Section Shift.
  Variable st : R -> R.
  Local Instance NSh : Num R := Rst st.
  Variable polyfit : list R -> list R -> nat -> res (list R).
  Variable minimize : (R -> R) -> R -> R.
  Variable lstsq : list (list R) -> list R -> res (list R).
  Variables dx dy : R.
  Notation sh := (shift_lines dx dy).
  Lemma mapM_map {A B C} (f : B -> res C) (g : A -> B) l : mapM f (map g l) = mapM (fun a => f (g a)) l.
  Proof. induction l as [|a l IH]; cbn [map mapM]; [reflexivity|]. now rewrite IH. Qed.
  Lemma mapM_same {A B} (f g : A -> res B) l : (forall a, f a = g a) -> mapM f l = mapM g l.
  Proof. intros H. induction l as [|a l IH]; cbn [mapM]; [reflexivity|]. now rewrite H, IH. Qed.
  Lemma shift_x xc (l : list (R * R)) : map (fun p : R * R => nsub (snd p) (xc + dx)) (map (fun p => (fst p + dy, snd p + dx)) l) =
    map (fun p : R * R => nsub (snd p) xc) l.
  Proof. rewrite map_map. apply map_ext. intros p. cbn. ring. Qed.
  Lemma shift_y yc (l : list (R * R)) : map (fun p : R * R => nsub (fst p) (yc + dy)) (map (fun p => (fst p + dy, snd p + dx)) l) =
    map (fun p : R * R => nsub (fst p) yc) l.
  Proof. rewrite map_map. apply map_ext. intros p. cbn. ring. Qed.
  Lemma shift_p xc yc (l : list (R * R)) : map (fun p : R * R => (nsub (fst p) (yc + dy), nsub (snd p) (xc + dx))) (map (fun p => (fst p + dy, snd p + dx)) l) =
    map (fun p : R * R => (nsub (fst p) yc, nsub (snd p) xc)) l.
  Proof. rewrite map_map. apply map_ext. intros p. cbn. f_equal; ring. Qed.
  Lemma shift_hor l xc yc : para_fit_hor polyfit (sh l) (xc + dx) (yc + dy) = para_fit_hor polyfit l xc yc.
  Proof.
    unfold para_fit_hor, shift_lines. rewrite mapM_map. f_equal. apply mapM_same. intros [|p a]; [reflexivity|].
    rewrite shift_x, shift_y, shift_p. reflexivity.
  Qed.
  Lemma shift_ver l xc yc : para_fit_ver polyfit (sh l) (xc + dx) (yc + dy) = para_fit_ver polyfit l xc yc.
  Proof.
    unfold para_fit_ver, shift_lines. rewrite mapM_map. f_equal. apply mapM_same. intros [|p a]; [reflexivity|].
    rewrite shift_x, shift_y, shift_p. reflexivity.
  Qed.
  Lemma shift_undistor lh lv xc yc opt thr :
    calc_undistor_intercept polyfit minimize (sh lh) (sh lv) (xc + dx) (yc + dy) opt thr = calc_undistor_intercept polyfit minimize lh lv xc yc opt thr.
  Proof. unfold calc_undistor_intercept. now rewrite shift_hor, shift_ver. Qed.
  Lemma shift_metric lh lv xc yc gx gy : calc_metric polyfit minimize (sh lh) (sh lv) (xc + dx) (yc + dy) gx gy = calc_metric polyfit minimize lh lv xc yc gx gy.
  Proof. unfold calc_metric. now rewrite shift_hor, shift_ver. Qed.
  Lemma shift_forward lh lv xc yc n opt thr :
    calc_coef_forward polyfit minimize lstsq (sh lh) (sh lv) (xc + dx) (yc + dy) n opt thr = calc_coef_forward polyfit minimize lstsq lh lv xc yc n opt thr.
  Proof. unfold calc_coef_forward. now rewrite shift_hor, shift_ver, shift_undistor. Qed.
  Lemma shift_backward lh lv xc yc n opt thr :
    calc_coef_backward polyfit minimize lstsq (sh lh) (sh lv) (xc + dx) (yc + dy) n opt thr = calc_coef_backward polyfit minimize lstsq lh lv xc yc n opt thr.
  Proof. unfold calc_coef_backward. now rewrite shift_hor, shift_ver, shift_undistor. Qed.
  Lemma shift_both lh lv xc yc n opt thr :
    calc_coef_backward_from_forward polyfit minimize lstsq (sh lh) (sh lv) (xc + dx) (yc + dy) n opt thr =
    calc_coef_backward_from_forward polyfit minimize lstsq lh lv xc yc n opt thr.
  Proof. unfold calc_coef_backward_from_forward. now rewrite shift_hor, shift_ver, shift_forward. Qed.
  Lemma shift_fine lh lv xc yc pd :
    find_cod_fine polyfit minimize (sh lh) (sh lv) (xc + dx) (yc + dy) pd =
    res_map (fun c => (fst c + dx, snd c + dy)) (find_cod_fine polyfit minimize lh lv xc yc pd).
  Proof.
    unfold find_cod_fine. cbn zeta. rewrite shift_metric.
    destruct (calc_metric polyfit minimize lh lv xc yc _ _) as [s1|e]; [|reflexivity]. cbn [bind].
    replace (nadd (xc + dx) (fst s1)) with (nadd xc (fst s1) + dx) by (cbn [nadd NSh Rst]; ring).
    replace (nadd (yc + dy) (snd s1)) with (nadd yc (snd s1) + dy) by (cbn [nadd NSh Rst]; ring).
    rewrite shift_metric. destruct (calc_metric polyfit minimize lh lv _ _ _ _) as [s2|e]; [|reflexivity]. cbn [bind res_map fst snd nadd NSh Rst]. f_equal. f_equal; ring.
  Qed.
  Lemma shift_bailey lh lv xc yc : bailey_step polyfit (sh lh) (sh lv) (xc + dx, yc + dy) =
    res_map (fun c => (fst c + dx, snd c + dy)) (bailey_step polyfit lh lv (xc, yc)).
  Proof.
    unfold bailey_step. rewrite shift_hor, shift_ver.
    destruct (para_fit_hor polyfit lh xc yc) as [h|e]; [|reflexivity]. cbn [bind].
    destruct (para_fit_ver polyfit lv xc yc) as [v|e]; [|reflexivity]. cbn [bind].
    destruct (fit1 polyfit (map cf2 (fst h)) _) as [[a1 b1]|e]; [|reflexivity]. cbn [bind].
    destruct (fit1 polyfit (map cf2 (fst v)) _) as [[a2 b2]|e]; [|reflexivity]. cbn [bind res_map fst snd nsub ndiv NSh Rst]. f_equal. f_equal; ring.
  Qed.
End Shift.

(** ** C98 *)
(** Moving all the dots and the centre by one vector changes no coefficient,
    and moves the result of the fine search along. *)
Theorem C98_shift : forall st polyfit minimize lstsq dx dy lh lv xc yc num_fact opt thr pd,
  let lh' := shift_lines dx dy lh in let lv' := shift_lines dx dy lv in
  @calc_coef_forward R (Rst st) polyfit minimize lstsq lh' lv' (xc + dx) (yc + dy) num_fact opt thr =
    @calc_coef_forward R (Rst st) polyfit minimize lstsq lh lv xc yc num_fact opt thr /\
  @calc_coef_backward R (Rst st) polyfit minimize lstsq lh' lv' (xc + dx) (yc + dy) num_fact opt thr =
    @calc_coef_backward R (Rst st) polyfit minimize lstsq lh lv xc yc num_fact opt thr /\
  @calc_coef_backward_from_forward R (Rst st) polyfit minimize lstsq lh' lv' (xc + dx) (yc + dy) num_fact opt thr =
    @calc_coef_backward_from_forward R (Rst st) polyfit minimize lstsq lh lv xc yc num_fact opt thr /\
  (forall x y, @find_cod_fine R (Rst st) polyfit minimize lh lv xc yc pd = Ok (x, y) ->
     @find_cod_fine R (Rst st) polyfit minimize lh' lv' (xc + dx) (yc + dy) pd = Ok (x + dx, y + dy)).
Proof.
  intros st polyfit minimize lstsq dx dy lh lv xc yc num_fact opt thr pd lh' lv'.
  split; [apply shift_forward|]. split; [apply shift_backward|]. split; [apply shift_both|].
  intros x y E. unfold lh', lv'. pose proof (shift_fine st polyfit minimize dx dy lh lv xc yc pd) as S. unfold NSh in S. rewrite E in S. exact S.
Qed.
Print Assumptions C98_shift.

(** *** Fits of transformed data *)
Lemma lsq_transport n rows ys rows' ys' (phi : list R -> list R) k v : 0 < k ->
  (forall v, length v = n -> length (phi v) = n /\ sqerr rows' ys' v = k * sqerr rows ys (phi v)) ->
  (forall w, length w = n -> exists v, length v = n /\ phi v = w) ->
  is_lsq n rows' ys' v -> is_lsq n rows ys (phi v).
Proof.
  intros Hk H S [L M]. destruct (H v L) as [L' E]. split; [exact L'|]. intros w Lw. destruct (S w Lw) as [v' [Lv' <-]].
  destruct (H v' Lv') as [_ E']. specialize (M v' Lv'). rewrite E, E' in M. now apply Rmult_le_reg_l in M.
Qed.
Lemma sqerr2 {A} (fx fy : A -> R) l u v w : sqerr (map (pow_row 2) (map fx l)) (map fy l) [u; v; w] =
  Rsum (map (fun p => (u * fx p ^ 2 + v * fx p + w - fy p) ^ 2) l).
Proof.
  unfold sqerr. f_equal. induction l as [|p l IH]; [reflexivity|]. cbn [map combine]. rewrite IH. f_equal. cbn [fst snd pow_row dot]. ring.
Qed.
Lemma len3 (v : list R) : length v = 3%nat -> exists a b c, v = [a; b; c].
Proof. destruct v as [|a [|b [|c [|d v]]]]; try discriminate. eauto. Qed.
Lemma Rsum_scale {A} (f g : A -> R) k l : (forall a, In a l -> f a = k * g a) -> Rsum (map f l) = k * Rsum (map g l).
Proof. induction l as [|a l IH]; intros H; cbn; [ring|]. rewrite (H a) by now left. rewrite IH by (intros; apply H; now right). ring. Qed.

Section Refit.
  Variable polyfit : list R -> list R -> nat -> res (list R).
  Hypothesis PF : polyfit_oracle polyfit.
  Lemma refit {A} (fx fy gx gy : A -> R) l (phi psi : R * R * R -> R * R * R) k c :
    0 < k -> (forall c, phi (psi c) = c) -> (forall c, psi (phi c) = c) ->
    (forall p c, In p l -> (fst (fst c) * gx p ^ 2 + snd (fst c) * gx p + snd c - gy p) ^ 2 =
                 k * (fst (fst (phi c)) * fx p ^ 2 + snd (fst (phi c)) * fx p + snd (phi c) - fy p) ^ 2) ->
    distinct_values 3 (map fx l) -> distinct_values 3 (map gx l) ->
    polyfit (map fx l) (map fy l) 2 = Ok [fst (fst c); snd (fst c); snd c] ->
    polyfit (map gx l) (map gy l) 2 = Ok [fst (fst (psi c)); snd (fst (psi c)); snd (psi c)].
  Proof.
    intros Hk P1 P2 H D D' E.
    destruct (PF (map fx l) (map fy l) 2%nat) as [v [Ev Sv]]; [now apply distinct_values_ne in D|now rewrite !map_length|].
    destruct (PF (map gx l) (map gy l) 2%nat) as [w [Ew Sw]]; [now apply distinct_values_ne in D'|now rewrite !map_length|].
    rewrite E in Ev. injection Ev as <-. rewrite Ew. f_equal.
    destruct (len3 w (proj1 Sw)) as [a' [b' [c' ->]]].
    set (tl := fun t : R * R * R => [fst (fst t); snd (fst t); snd t]).
    set (ph := fun v : list R => match v with [a; b; c] => tl (phi (a, b, c)) | _ => v end).
    assert (T : polyfit_spec 2 (map fx l) (map fy l) (ph [a'; b'; c'])).
    { apply (lsq_transport 3 _ _ (map (pow_row 2) (map gx l)) (map gy l) ph k); [exact Hk| | |exact Sw].
      - intros v Lv. destruct (len3 v Lv) as [a [b [d ->]]]. split; [reflexivity|]. unfold ph, tl. rewrite !sqerr2.
        apply Rsum_scale. intros p Hp. exact (H p (a, b, d) Hp).
      - intros v Lv. destruct (len3 v Lv) as [a [b [d ->]]]. exists (tl (psi (a, b, d))). split; [reflexivity|].
        unfold ph, tl. rewrite <- !surjective_pairing, P1. reflexivity. }
    assert (Q : tl c = ph [a'; b'; c']).
    { apply (lsq_unique 2 _ _ _ _ Sv T); [now rewrite !map_length|exact D]. }
    unfold ph, tl in Q. injection Q as Q1 Q2 Q3.
    assert (Q : c = phi (a', b', c')).
    { rewrite (surjective_pairing c), (surjective_pairing (fst c)), Q1, Q2, Q3. now rewrite <- !surjective_pairing. }
    rewrite Q, P2. reflexivity.
  Qed.
End Refit.

(** *** Scaled coordinates *)
Lemma lslice_map {A B} (f : A -> B) l a b : lslice (map f l) a b = map f (lslice l a b).
Proof. unfold lslice. cbn zeta. now rewrite map_length, skipn_map, firstn_map. Qed.
Lemma pyget_map {A B} (f : A -> B) l i : pyget (map f l) i = res_map f (pyget l i).
Proof.
  unfold pyget. cbn zeta. rewrite map_length. destruct (_ || _)%bool; [reflexivity|]. rewrite nth_error_map.
  now destruct (nth_error l _).
Qed.
Lemma mapi_map {A B C} (f : nat -> B -> C) (g : A -> B) l : mapi f (map g l) = mapi (fun i a => f i (g a)) l.
Proof.
  unfold mapi. generalize O. induction l as [|a l IH]; intros k; cbn [map mapi_from]; [reflexivity|]. now rewrite IH.
Qed.
Lemma map_mapi {A B C} (f : nat -> A -> B) (g : B -> C) l : map g (mapi f l) = mapi (fun i a => g (f i a)) l.
Proof.
  unfold mapi. generalize O. induction l as [|a l IH]; intros k; cbn [map mapi_from]; [reflexivity|]. now rewrite IH.
Qed.
Definition scc (s : R) (c : R * R * R) : R * R * R := (fst (fst c) / s, snd (fst c), s * snd c).

Section Scale.
  Local Instance NEx : Num R := Rexact.
  Variable polyfit : list R -> list R -> nat -> res (list R).
  Hypothesis PF : polyfit_oracle polyfit.
  Variable minimize : (R -> R) -> R -> R.
  Hypothesis MO : minimize_oracle minimize.
  Variable lstsq : list (list R) -> list R -> res (list R).
  Hypothesis LS : lstsq_oracle lstsq.
  Variable s : R.
  Hypothesis Hs : 0 < s.
  Notation sl := (scale_lines s).
  Notation cfs := (R * R * R)%type.

  Lemma scale_fit2 {A} (fx fy gx gy : A -> R) l : distinct_values 3 (map fx l) -> (forall p, gx p = s * fx p) -> (forall p, gy p = s * fy p) ->
    fit2 polyfit (map gx l) (map gy l) = res_map (scc s) (fit2 polyfit (map fx l) (map fy l)).
  Proof.
    intros D Gx Gy. unfold fit2.
    assert (D' : distinct_values 3 (map gx l)).
    { replace (map gx l) with (map (Rmult s) (map fx l)) by (rewrite map_map; apply map_ext; intros; now rewrite Gx).
      apply distinct_values_map; [|exact D]. intros a b E. apply Rmult_eq_reg_l in E; lra. }
    destruct (PF (map fx l) (map fy l) 2%nat) as [v [Ev Sv]]; [now apply distinct_values_ne in D|now rewrite !map_length|].
    rewrite Ev. destruct (len3 v (proj1 Sv)) as [a [b [c ->]]]. cbn [bind res_map].
    rewrite (refit polyfit PF fx fy gx gy l (fun c => (s * fst (fst c), snd (fst c), snd c / s)) (scc s) (s * s) (a, b, c)); try assumption.
    - reflexivity.
    - nra.
    - intros [[x y] z]. unfold scc. cbn. f_equal; [f_equal|]; field; lra.
    - intros [[x y] z]. unfold scc. cbn. f_equal; [f_equal|]; field; lra.
    - intros p [[x y] z] _. cbn [fst snd]. rewrite Gx, Gy. field. lra.
  Qed.
  Notation spt := (fun p : R * R => (s * fst p, s * snd p)).
  Notation sres := (fun cl : cfs * list (R * R) => (scc s (fst cl), map spt (snd cl))).
  Lemma scale_mapM (f g : list (R * R) -> res (cfs * list (R * R))) l : (forall line, In line l -> f (map spt line) = res_map sres (g line)) ->
    bind (mapM f (sl l)) (fun r => Ok (map fst r, map snd r)) = res_map (fun r => (map (scc s) (fst r), sl (snd r))) (bind (mapM g l) (fun r => Ok (map fst r, map snd r))).
  Proof.
    intros H. unfold scale_lines at 1. rewrite mapM_map.
    assert (E : mapM (fun a => f (map spt a)) l = res_map (map sres) (mapM g l)).
    { induction l as [|a l IH]; [reflexivity|]. cbn [mapM]. rewrite IH by (intros; apply H; now right). rewrite H by now left.
      destruct (g a) as [c|e]; [|reflexivity]. cbn [bind res_map]. now destruct (mapM g l). }
    rewrite E. destruct (mapM g l) as [r|e]; [|reflexivity]. cbn [bind res_map fst snd]. f_equal. unfold scale_lines. rewrite !map_map. reflexivity.
  Qed.
  Lemma centred xc (fx : R * R -> R) ln : distinct_values 3 (map fx ln) -> distinct_values 3 (map (fun p : R * R => nsub (fx p) xc) ln).
  Proof.
    intros D. replace (map (fun p : R * R => nsub (fx p) xc) ln) with (map (fun x => x - xc) (map fx ln)) by (rewrite map_map; reflexivity).
    apply distinct_values_map; [|exact D]. intros; lra.
  Qed.
  Lemma scale_hor l xc yc : (forall line, In line l -> distinct_values 3 (map pxc line)) ->
    para_fit_hor polyfit (sl l) (s * xc) (s * yc) = res_map (fun r => (map (scc s) (fst r), sl (snd r))) (para_fit_hor polyfit l xc yc).
  Proof.
    intros D. apply scale_mapM. intros line Hl. apply D in Hl. destruct line as [|p a]; [now apply distinct_values_ne in Hl|].
    set (ln := p :: a) in *.
    change (bind (fit2 polyfit (map (fun p : R * R => nsub (snd p) (s * xc)) (map spt ln)) (map (fun p : R * R => nsub (fst p) (s * yc)) (map spt ln)))
      (fun c => Ok (c, map (fun p : R * R => (nsub (fst p) (s * yc), nsub (snd p) (s * xc))) (map spt ln))) =
      res_map sres (bind (fit2 polyfit (map (fun p : R * R => nsub (snd p) xc) ln) (map (fun p : R * R => nsub (fst p) yc) ln))
      (fun c => Ok (c, map (fun p : R * R => (nsub (fst p) yc, nsub (snd p) xc)) ln)))).
    rewrite !map_map. cbn [fst snd].
    rewrite (scale_fit2 (fun p : R * R => nsub (snd p) xc) (fun p : R * R => nsub (fst p) yc)).
    - destruct (fit2 polyfit _ _) as [c|e]; [|reflexivity]. cbn [bind res_map fst snd]. do 2 f_equal. rewrite map_map. apply map_ext. intros q. cbn. f_equal; ring.
    - exact (centred xc pxc ln Hl).
    - intros q. cbn. ring.
    - intros q. cbn. ring.
  Qed.
  Lemma scale_ver l xc yc : (forall line, In line l -> distinct_values 3 (map py line)) ->
    para_fit_ver polyfit (sl l) (s * xc) (s * yc) = res_map (fun r => (map (scc s) (fst r), sl (snd r))) (para_fit_ver polyfit l xc yc).
  Proof.
    intros D. apply scale_mapM. intros line Hl. apply D in Hl. destruct line as [|p a]; [now apply distinct_values_ne in Hl|].
    set (ln := p :: a) in *.
    change (bind (fit2 polyfit (map (fun p : R * R => nsub (fst p) (s * yc)) (map spt ln)) (map (fun p : R * R => nsub (snd p) (s * xc)) (map spt ln)))
      (fun c => Ok (c, map (fun p : R * R => (nsub (fst p) (s * yc), nsub (snd p) (s * xc))) (map spt ln))) =
      res_map sres (bind (fit2 polyfit (map (fun p : R * R => nsub (fst p) yc) ln) (map (fun p : R * R => nsub (snd p) xc) ln))
      (fun c => Ok (c, map (fun p : R * R => (nsub (fst p) yc, nsub (snd p) xc)) ln)))).
    rewrite !map_map. cbn [fst snd].
    rewrite (scale_fit2 (fun p : R * R => nsub (fst p) yc) (fun p : R * R => nsub (snd p) xc)).
    - destruct (fit2 polyfit _ _) as [c|e]; [|reflexivity]. cbn [bind res_map fst snd]. do 2 f_equal. rewrite map_map. apply map_ext. intros q. cbn. f_equal; ring.
    - exact (centred yc py ln Hl).
    - intros q. cbn. ring.
    - intros q. cbn. ring.
  Qed.
End Scale.

Section Scale2.
  Local Instance NEx2 : Num R := Rexact.
  Variable polyfit : list R -> list R -> nat -> res (list R).
  Hypothesis PF : polyfit_oracle polyfit.
  Variable minimize : (R -> R) -> R -> R.
  Hypothesis MO : minimize_oracle minimize.
  Variable s : R.
  Hypothesis Hs : 0 < s.
  Notation cfs := (R * R * R)%type.
  Lemma scale_argmin (l : list R) : argmin (map (Rmult s) l) = argmin l.
  Proof.
    assert (G : forall (l : list R) i k a, argmin_from i k (s * a) (map (Rmult s) l) = argmin_from i k a l).
    2: { destruct l as [|a l]; [reflexivity|]. cbn [map argmin]. now rewrite G. }
    clear l. intros l.
    induction l as [|b l IH]; intros i k a; cbn [map argmin_from]; [reflexivity|].
    assert (E : nltb (s * b) (s * a) = nltb b a).
    { change (Rlt_bool (s * b) (s * a) = Rlt_bool b a). destruct (Rlt_bool_spec b a); [apply Rlt_bool_true|apply Rlt_bool_false]; nra. }
    rewrite E. destruct (nltb b a); apply IH.
  Qed.
  Lemma scale_ndiff (l : list R) : map nabs (ndiff (map (Rmult s) l)) = map (Rmult s) (map nabs (ndiff l)).
  Proof.
    induction l as [|a l IH]; [reflexivity|]. destruct l as [|b l]; [reflexivity|]. cbn [map ndiff] in IH |- *. rewrite IH. f_equal.
    cbn [nabs nsub NEx2 Rexact Rst]. rewrite <- Rmult_minus_distr_l, Rabs_mult, (Rabs_right s) by lra. reflexivity.
  Qed.
  Lemma scale_mean (l : list R) : mean (map (Rmult s) l) = s * mean l.
  Proof.
    rewrite !(ProcFacts3.mean_average (fun x => x)). unfold average. rewrite map_length.
    rewrite <- (map_id l) at 3. rewrite (Rsum_scale (Rmult s) (fun x => x) s) by reflexivity. unfold Rdiv. now rewrite Rmult_assoc.
  Qed.
  Lemma scale_cf2 (cs : list cfs) : map cf2 (map (scc s) cs) = map (Rmult s) (map cf2 cs).
  Proof. rewrite !map_map. apply map_ext. intros c. reflexivity. Qed.
  Lemma scale_sgn x : sgn (s * x) = sgn x.
  Proof. unfold sgn. destruct (Rlt_dec 0 (s * x)), (Rlt_dec 0 x); try nra; destruct (Rlt_dec (s * x) 0), (Rlt_dec x 0); nra. Qed.

  Lemma scale_missing (cs : list cfs) : (2 <= length cs)%nat -> missing_error polyfit (map (scc s) cs) = missing_error polyfit cs.
  Proof.
    intros L. unfold missing_error. rewrite scale_cf2, scale_ndiff. set (ld := map nabs (ndiff (map cf2 cs))). rewrite map_length.
    assert (Ll : (1 <= length ld)%nat).
    { unfold ld. rewrite map_length. destruct cs as [|a [|b cs]]; cbn in *; lia. }
    set (xs := map nofZ (zrange 0 (Z.of_nat (length ld)))).
    assert (Lx : length xs = length ld) by (unfold xs; rewrite map_length, zrange_length; lia).
    assert (Nx : xs <> []) by (intros E; rewrite E in Lx; cbn in Lx; lia).
    clearbody xs ld.
    destruct (PF xs ld 2%nat Nx Lx) as [v [Ev Sv]]. destruct (PF xs (map (Rmult s) ld) 2%nat Nx) as [w [Ew Sw]]; [now rewrite map_length|].
    rewrite Ev, Ew. destruct (len3 v (proj1 Sv)) as [a [b [c ->]]]. destruct (len3 w (proj1 Sw)) as [a' [b' [c' ->]]]. cbn [bind].
    assert (T : polyfit_spec 2 xs ld [a' / s; b' / s; c' / s]).
    { apply (lsq_transport 3 (map (pow_row 2) xs) ld (map (pow_row 2) xs) (map (Rmult s) ld) (map (fun x => x / s)) (s * s) [a'; b'; c']); [nra| | |exact Sw].
      - intros u Lu. split; [now rewrite map_length|]. destruct (len3 u Lu) as [x [y [z ->]]]. cbn [map].
        unfold sqerr. clear -Hs. revert xs. induction ld as [|d ld IH]; intros [|x0 xs]; cbn [map combine Rsum]; try ring.
        rewrite IH. cbn [fst snd pow_row dot]. field. lra.
      - intros u Lu. exists (map (Rmult s) u). split; [now rewrite map_length|]. rewrite map_map. rewrite <- (map_id u) at 2. apply map_ext. intros x. field. lra. }
    assert (V : forall x, In x xs -> a * x ^ 2 + b * x + c = (a' * x ^ 2 + b' * x + c') / s).
    { intros x Hx. pose proof (lsq_fitted_unique 3 (map (pow_row 2) xs) ld _ _ ltac:(now rewrite map_length) Sv T (pow_row 2 x) (in_map _ _ _ Hx)) as Q.
      transitivity (dot (pow_row 2 x) [a; b; c]); [cbn; ring|]. rewrite Q. cbn. field. lra. }
    f_equal. clear -Hs V Lx. revert xs Lx V. induction ld as [|d ld IH]; intros [|x xs] Lx V; try discriminate; [reflexivity|].
    cbn [map combine]. f_equal; [|apply IH; [cbn in Lx; lia|intros; apply V; now right]].
    cbn [fst snd nabs ndiv nsub nadd nmul npow NEx2 Rexact Rst]. f_equal. rewrite (V x) by now left. set (q := a' * x ^ 2 + b' * x + c').
    unfold Rdiv. rewrite Rinv_mult, Rinv_inv. generalize (/ q) as r. intros r. clearbody q. field. lra.
  Qed.
End Scale2.

Section Scale3.
  Local Instance NEx3 : Num R := Rexact.
  Variable polyfit : list R -> list R -> nat -> res (list R).
  Hypothesis PF : polyfit_oracle polyfit.
  Variable minimize : (R -> R) -> R -> R.
  Hypothesis MO : minimize_oracle minimize.
  Variable s : R.
  Hypothesis Hs : 0 < s.
  Notation cfs := (R * R * R)%type.
  Lemma func_opt_scaled c0 pos (l : list R) d :
    func_opt (s * c0) (Z.of_nat pos) (map (Rmult s) l) (s * d) = s ^ 2 * func_opt c0 (Z.of_nat pos) l d.
  Proof.
    rewrite !(func_opt_R (fun x => x)). rewrite mapi_map. unfold mapi.
    assert (G : forall k, Rsum (mapi_from (fun i c => (sgn (s * c) * IZR (Z.abs (Z.of_nat i - Z.of_nat pos)) * (s * d) + s * c0 - s * c) ^ 2) k l) =
      s ^ 2 * Rsum (mapi_from (fun i c => (sgn c * IZR (Z.abs (Z.of_nat i - Z.of_nat pos)) * d + c0 - c) ^ 2) k l)).
    { induction l as [|a l IH]; intros k; cbn [mapi_from Rsum]; [ring|]. rewrite IH. rewrite scale_sgn by exact Hs. ring. }
    apply G.
  Qed.
  Lemma scale_positions (cs : list cfs) pos x0 (opt : bool) : (pos < length cs)%nat -> exists d d',
    (if opt then optimize_intercept minimize x0 (Z.of_nat pos) (map cf2 cs) else Ok x0) = Ok d /\
    (if opt then optimize_intercept minimize (s * x0) (Z.of_nat pos) (map cf2 (map (scc s) cs)) else Ok (s * x0)) = Ok d' /\
    spread_intercepts (map (scc s) cs) (Z.of_nat pos) d' = res_map (map (Rmult s)) (spread_intercepts cs (Z.of_nat pos) d).
  Proof.
    intros Hp.
    assert (SP : forall d d', (forall i, (i < length cs)%nat -> let u := sgn (nth i (map cf2 cs) 0) * IZR (Z.abs (Z.of_nat i - Z.of_nat pos)) in u * d' = s * (u * d)) ->
      spread_intercepts (map (scc s) cs) (Z.of_nat pos) d' = res_map (map (Rmult s)) (spread_intercepts cs (Z.of_nat pos) d)).
    { intros d d' H. unfold spread_intercepts. rewrite pyget_map. rewrite (pyget_nth cs pos (0, 0, 0) Hp). cbn [res_map bind]. f_equal.
      rewrite mapi_map, map_mapi. set (c0 := nth pos cs (0, 0, 0)). apply (nth_ext _ _ 0 0); [now rewrite !mapi_length|].
      intros i Hi. rewrite mapi_length in Hi. rewrite !(mapi_nth _ _ _ (0, 0, 0) i Hi). rewrite !(nsign_R (fun x => x)).
      specialize (H i Hi). cbn zeta in H. rewrite (nth_indep _ 0 (cf2 (0, 0, 0))) in H by now rewrite map_length. rewrite map_nth in H.
      cbn [nf32 nadd nmul nofZ NEx3 Rexact Rst]. change (cf2 (scc s (nth i cs (0, 0, 0)))) with (s * cf2 (nth i cs (0, 0, 0))).
      change (cf2 (scc s c0)) with (s * cf2 c0). rewrite scale_sgn by exact Hs. rewrite <- !Rmult_assoc. rewrite H. ring. }
    destruct opt.
    2: { exists x0, (s * x0). split; [reflexivity|]. split; [reflexivity|]. apply SP. intros i Hi u. ring. }
    unfold optimize_intercept. rewrite (scale_cf2 s), !pyget_map, (pyget_nth cs pos (0, 0, 0) Hp). cbn [res_map bind].
    set (c0 := cf2 (nth pos cs (0, 0, 0))). set (l := map cf2 cs) in *.
    set (g := func_opt c0 (Z.of_nat pos) l). set (g' := func_opt (s * c0) (Z.of_nat pos) (map (Rmult s) l)).
    exists (minimize g x0), (minimize g' (s * x0)). split; [reflexivity|]. split; [reflexivity|]. apply SP. intros i Hi u.
    destruct (quadratic_sum (fun i c => sgn c * IZR (Z.abs (Z.of_nat i - Z.of_nat pos))) (fun _ c => c0 - c) l) as [A [B [C [GA GQ]]]].
    assert (Gg : forall x, g x = A * x ^ 2 + B * x + C).
    { intros x. unfold g. rewrite (func_opt_R (fun x => x)). rewrite <- GQ. f_equal. apply mapi_ext. intros j c. f_equal. ring. }
    assert (Gs : forall x, g' (s * x) = s ^ 2 * g x) by (intros x; apply func_opt_scaled).
    assert (Gg' : forall x, g' x = A * x ^ 2 + (s * B) * x + s ^ 2 * C).
    { intros x. replace x with (s * (x / s)) at 1 by (field; lra). rewrite Gs, Gg. field. lra. }
    destruct (Rlt_le_dec 0 A) as [PA|NA].
    - pose proof (MO g A B C x0 PA Gg) as M1. pose proof (MO g' A (s * B) (s ^ 2 * C) (s * x0) PA Gg') as M2.
      assert (E : minimize g' (s * x0) = s * minimize g x0).
      { apply (quadratic_min A (s * B) (s ^ 2 * C)); [exact PA| |]; intros z; rewrite <- !Gg'; [apply M2|].
        rewrite Gs. replace z with (s * (z / s)) by (field; lra). rewrite Gs. apply Rmult_le_compat_l; [nra|]. apply M1. }
      rewrite E. ring.
    - assert (Z : u = 0). { specialize (GA i ltac:(unfold l; now rewrite map_length)). cbn beta in GA. fold u in GA. nra. }
      rewrite Z. ring.
  Qed.
  Lemma scale_undistor lh lv xc yc opt thr : (2 <= length lh)%nat -> (2 <= length lv)%nat ->
    (forall line, In line lh -> distinct_values 3 (map pxc line)) -> (forall line, In line lv -> distinct_values 3 (map py line)) ->
    calc_undistor_intercept polyfit minimize (scale_lines s lh) (scale_lines s lv) (s * xc) (s * yc) opt thr =
    res_map (fun r => (fst r, (map (Rmult s) (fst (snd r)), map (Rmult s) (snd (snd r))))) (calc_undistor_intercept polyfit minimize lh lv xc yc opt thr).
  Proof.
    intros Lh Lv Dh Dv. unfold calc_undistor_intercept.
    pose proof (scale_hor polyfit PF s Hs lh xc yc Dh) as E1. pose proof (scale_ver polyfit PF s Hs lv xc yc Dv) as E2.
    match type of E1 with ?a = _ => match goal with |- context [bind ?b _] => change b with a; rewrite E1 end end. clear E1.
    match type of E2 with ?a = ?c => set (Q := a) in E2; change (@para_fit_ver R NEx3 polyfit (scale_lines s lv) (s * xc) (s * yc)) with Q; rewrite E2 end. clear Q E2.
    change (@para_fit_hor R NEx polyfit lh xc yc) with (@para_fit_hor R NEx3 polyfit lh xc yc).
    change (@para_fit_ver R NEx polyfit lv xc yc) with (@para_fit_ver R NEx3 polyfit lv xc yc).
    destruct (para_fit_hor polyfit lh xc yc) as [[ch sh]|] eqn:Eh; [|reflexivity].
    destruct (para_fit_ver polyfit lv xc yc) as [[cv sv]|] eqn:Ev; [|reflexivity].
    apply (para_hor_lines polyfit) in Eh. destruct Eh as [_ Eh]. apply (para_ver_lines polyfit) in Ev. destruct Ev as [_ Ev].
    assert (L1 : (2 <= length ch)%nat) by (eapply eq_ind_r with (P := fun n => (2 <= n)%nat); [exact Lh|exact Eh]).
    assert (L2 : (2 <= length cv)%nat) by (eapply eq_ind_r with (P := fun n => (2 <= n)%nat); [exact Lv|exact Ev]).
    cbn [res_map bind fst snd].
    assert (CM : check_missing_lines polyfit (map (scc s) ch) (map (scc s) cv) thr = check_missing_lines polyfit ch cv thr).
    { unfold check_missing_lines. pose proof (scale_missing polyfit PF s Hs ch L1) as M1. pose proof (scale_missing polyfit PF s Hs cv L2) as M2.
      change NEx2 with NEx3 in *. now rewrite M1, M2. }
    rewrite CM. destruct (check_missing_lines polyfit ch cv thr) as [w|]; [|reflexivity]. cbn [bind].
    assert (AM : forall cs : list cfs, argmin (map (fun c => nabs (cf2 c)) (map (scc s) cs)) = argmin (map (fun c => nabs (cf2 c)) cs)).
    { intros cs. refine (eq_trans _ (scale_argmin s Hs (map (fun c : cfs => nabs (cf2 c)) cs))). f_equal. rewrite !map_map. apply map_ext. intros c.
      change (Rabs (s * cf2 c) = s * Rabs (cf2 c)). rewrite Rabs_mult, (Rabs_right s) by lra. reflexivity. }
    rewrite !AM. clear AM CM.
    destruct (argmin (map (fun c => nabs (cf2 c)) ch)) as [ph|] eqn:Ph; [|reflexivity].
    destruct (argmin (map (fun c => nabs (cf2 c)) cv)) as [pv|] eqn:Pv; [|reflexivity]. cbn [bind].
    apply (argmin_map_first (fun x => x)) in Ph. destruct Ph as [p1 [-> [_ Hp1]]]. apply (argmin_map_first (fun x => x)) in Pv. destruct Pv as [p2 [-> [_ Hp2]]].
    unfold scale_lines. rewrite !map_length.
    destruct (near_window 3 _ _ (Z.of_nat p1) _) as [a1 b1]. destruct (near_window 3 _ _ (Z.of_nat p2) _) as [a2 b2].
    assert (MD : forall (cs : list cfs) a b, mean (map nabs (ndiff (lslice (map cf2 (map (scc s) cs)) a b))) = s * mean (map nabs (ndiff (lslice (map cf2 cs) a b)))).
    { intros cs a b. rewrite (scale_cf2 s), lslice_map. pose proof (scale_ndiff s Hs) as X1. pose proof (scale_mean s) as X2. change NEx2 with NEx3 in *. now rewrite X1, X2. }
    rewrite !MD. generalize (mean (map nabs (ndiff (lslice (map cf2 ch) a1 b1)))) as x1. generalize (mean (map nabs (ndiff (lslice (map cf2 cv) a2 b2)))) as x2. intros x2 x1.
    destruct (scale_positions ch p1 x1 opt Hp1) as [d1 [d1' [G1 [G1' S1]]]]. destruct (scale_positions cv p2 x2 opt Hp2) as [d2 [d2' [G2 [G2' S2]]]].
    rewrite G1, G1', G2, G2'. cbn [bind]. rewrite S1, S2.
    destruct (spread_intercepts ch (Z.of_nat p1) d1) as [u1|]; [|reflexivity]. cbn [res_map bind].
    destruct (spread_intercepts cv (Z.of_nat p2) d2) as [u2|]; [|reflexivity]. reflexivity.
  Qed.
End Scale3.
