(** Facts about the parabola fits, the coarse centre and Bailey's method. *)
From Coq Require Import Reals ZArith List Lra Lia.
From Flocq Require Import Core.
From Verif Require Import Base Num Spec Lsq ProcSpec PolyUniq PrepImg PrepPts PrepFacts PrepFacts2 Post Proc.
Import ListNotations.
Local Open Scope R_scope.

Lemma Forall2_length {A B} (P : A -> B -> Prop) l m : Forall2 P l m -> length l = length m.
Proof. induction 1; cbn; congruence. Qed.
Lemma swp_list {T} (l : list (T * T)) : map swp (map swp l) = l.
Proof. rewrite map_map. rewrite <- (map_id l) at 2. apply map_ext. apply swp_swp. Qed.
Lemma swp_lines {T} (l : list (list (T * T))) : map (map swp) (map (map swp) l) = l.
Proof. rewrite map_map. rewrite <- (map_id l) at 2. apply map_ext. apply swp_list. Qed.

(** *** Any number type *)
Section Gen.
  Context {T : Type} {N : Num T}.
  Notation pnt := (T * T)%type.
  Definition shiftp (xc yc : T) (p : pnt) : pnt := (nsub (fst p) yc, nsub (snd p) xc).
  Variable polyfit : list T -> list T -> nat -> res (list T).

  Lemma mapM_compose {A B C} (f : B -> res C) (g : A -> B) l : mapM f (map g l) = mapM (fun a => f (g a)) l.
  Proof. apply mapM_map_ext. reflexivity. Qed.
  Lemma para_ver_hor lines xc yc :
    para_fit_ver polyfit lines xc yc =
    res_map (fun r => (fst r, map (map swp) (snd r))) (para_fit_hor polyfit (map (map swp) lines) yc xc).
  Proof.
    unfold para_fit_ver, para_fit_hor. rewrite mapM_compose.
    match goal with |- bind (mapM ?f _) _ = res_map _ (bind (mapM ?g _) _) =>
      rewrite (mapM_res_map g (fun r => (fst r, map swp (snd r))) f lines) end.
    - destruct (mapM _ lines) as [r|e]; [|reflexivity]. cbn [res_map bind fst snd]. rewrite !map_map. reflexivity.
    - intros [|p l]; [reflexivity|]. cbn [map]. rewrite !map_map. cbn [fst snd swp].
      destruct (fit2 _ _ _); [|reflexivity]. cbn [bind res_map fst snd map]. rewrite map_map. reflexivity.
  Qed.
  Lemma para_hor_lines lines xc yc cs sl : para_fit_hor polyfit lines xc yc = Ok (cs, sl) ->
    sl = map (map (shiftp xc yc)) lines /\ length cs = length lines.
  Proof.
    unfold para_fit_hor. destruct (mapM _ lines) as [r|e] eqn:E; [|discriminate]. cbn [bind]. intros H.
    injection H as <- <-. apply mapM_ok in E. rewrite map_length. split.
    - induction E as [|l x ls r H E IH]; [reflexivity|]. cbn [map]. f_equal; [|exact IH].
      destruct l; [discriminate|]. destruct (fit2 _ _ _); [|discriminate]. cbn [bind] in H. injection H as <-. reflexivity.
    - now apply Forall2_length in E.
  Qed.
  Lemma para_ver_lines lines xc yc cs sl : para_fit_ver polyfit lines xc yc = Ok (cs, sl) ->
    sl = map (map (shiftp xc yc)) lines /\ length cs = length lines.
  Proof.
    rewrite para_ver_hor. destruct (para_fit_hor _ _ _ _) as [[c s]|e] eqn:E; [|discriminate].
    apply para_hor_lines in E. destruct E as [-> E]. cbn [res_map fst snd]. intros H. injection H as <- <-.
    rewrite map_length in E. split; [|assumption]. rewrite !map_map. apply map_ext. intros l. rewrite !map_map. apply map_ext.
    reflexivity.
  Qed.
  Lemma para_hor_err lines xc yc : In [] lines -> (forall xs ys k, is_ok (polyfit xs ys k) = true) ->
    is_ok (para_fit_hor polyfit lines xc yc) = false.
  Proof.
    intros H _. unfold para_fit_hor. enough (is_ok (mapM (fun line : list pnt =>
           match line with
           | [] => Err IndexError
           | _ =>
               bind (fit2 polyfit (map (fun p : pnt => nsub (snd p) xc) line) (map (fun p : pnt => nsub (fst p) yc) line))
               (fun c => Ok (c, map (fun p : pnt => (nsub (fst p) yc, nsub (snd p) xc)) line))
           end) lines) = false) as Q.
    { destruct (mapM _ lines); [discriminate|reflexivity]. }
    induction lines as [|l ls IH]; [destruct H|]. cbn [mapM]. destruct H as [->|H]; [reflexivity|].
    destruct l; [reflexivity|]. destruct (fit2 _ _ _); [|reflexivity]. cbn [bind].
    specialize (IH H). destruct (mapM _ ls); [discriminate|reflexivity].
  Qed.

  (** The centre calculation commutes with exchanging x and y. *)
  Lemma coarse_unfold lh lv :
    find_cod_coarse polyfit lh lv =
    bind (para_fit_hor polyfit lh n0 n0) (fun h => bind (para_fit_ver polyfit lv n0 n0) (fun v =>
    bind (sign_change (fst h)) (fun ph => bind (sign_change (fst v)) (fun pv =>
    bind (pyget (fst h) (ph - 1)) (fun h1 => bind (pyget (fst h) ph) (fun h2 =>
    bind (pyget (fst v) (pv - 1)) (fun v1 => bind (pyget (fst v) pv) (fun v2 =>
      let y0 := nmul (nadd (cf2 h1) (cf2 h2)) (nofQ 1 2) in
      let x0 := nmul (nadd (cf2 v1) (cf2 v2)) (nofQ 1 2) in
      let sh := nmul (nadd (cf1 h1) (cf1 h2)) (nofQ 1 2) in
      let sv := nmul (nadd (cf1 v1) (cf1 v2)) (nofQ 1 2) in
      Ok (ndiv (nadd x0 (nmul y0 sv)) (nsub n1 (nmul sh sv)), ndiv (nadd y0 (nmul x0 sh)) (nsub n1 (nmul sh sv))))))))))).
  Proof. reflexivity. Qed.
End Gen.

Lemma Forall2_imp_r {A B} (P Q : A -> B -> Prop) l m : (forall a b, P a b -> Q a b) -> Forall2 P l m -> Forall2 Q l m.
Proof. intros H F. induction F; constructor; auto. Qed.

(** *** argmax / argmin in the reals *)
Lemma argmax_from_R st (l : list R) : forall i best (m : R),
  let r := @argmax_from R (Rst st) i best m l in
  (r = best /\ (forall x, In x l -> x <= m)) \/
  ((i <= r < i + length l)%nat /\ m < nth (r - i) l 0 /\ (forall x, In x l -> x <= nth (r - i) l 0) /\
   (forall k, (k < r - i)%nat -> nth k l 0 < nth (r - i) l 0)).
Proof.
  induction l as [|x l IH]; intros i best m; cbn zeta.
  - left. split; [reflexivity|]. intros y [].
  - cbn [argmax_from]. change (@nltb R (Rst st) m x) with (Rlt_bool m x). destruct (Rlt_bool_spec m x) as [H|H].
    + specialize (IH (S i) i x). cbn zeta in IH. set (r := argmax_from (S i) i x l) in *. right.
      destruct IH as [[E L]|[B [G [L F]]]].
      * rewrite E. replace (i - i)%nat with O by lia. cbn [nth length]. repeat split; try lia; try lra.
        -- intros y [->|Hy]; [lra|]. specialize (L y Hy). lra.
      * cbn [length]. replace (r - i)%nat with (S (r - S i)) by lia. cbn [nth]. repeat split; try lia; try lra.
        -- intros y [->|Hy]; [lra|]. now apply L.
        -- intros [|k] Hk; cbn [nth]; [lra|]. apply F. lia.
    + specialize (IH (S i) best m). cbn zeta in IH. set (r := argmax_from (S i) best m l) in *.
      destruct IH as [[E L]|[B [G [L F]]]].
      * left. split; [assumption|]. intros y [->|Hy]; [lra|]. now apply L.
      * right. cbn [length]. replace (r - i)%nat with (S (r - S i)) by lia. cbn [nth]. repeat split; try lia; try lra.
        -- intros y [->|Hy]; [lra|]. now apply L.
        -- intros [|k] Hk; cbn [nth]; [lra|]. apply F. lia.
Qed.
(** [k] is the first position of a maximum (minimum). *)
Definition first_max (l : list R) (k : nat) : Prop :=
  (k < length l)%nat /\ (forall j, (j < length l)%nat -> nth j l 0 <= nth k l 0) /\ (forall j, (j < k)%nat -> nth j l 0 < nth k l 0).
Lemma nargmax_first st x l : first_max (x :: l) (@nargmax R (Rst st) (x :: l)).
Proof.
  unfold nargmax. pose proof (argmax_from_R st l 1 0 x) as H. cbn zeta in H. set (r := argmax_from 1 0 x l) in *.
  destruct H as [[E L]|[B [G [L F]]]].
  - rewrite E. repeat split; cbn [length nth]; try lia.
    + intros [|j] Hj; cbn [nth]; [lra|]. apply L. apply nth_In. lia.
  - replace r with (S (r - 1)) by lia. repeat split; cbn [length nth]; try lia.
    + intros [|j] Hj; [lra|]. apply L. apply nth_In. lia.
    + intros [|j] Hj; [lra|]. apply F. lia.
Qed.
Lemma argmax_first st l p : @argmax R (Rst st) l = Ok p -> exists k, p = Z.of_nat k /\ first_max l k.
Proof. destruct l as [|x l]; [discriminate|]. cbn [argmax]. intros H. injection H as <-. eexists. split; [reflexivity|]. apply nargmax_first. Qed.
Lemma argmin_from_R st (l : list R) : forall i best (m : R),
  let r := @argmin_from R (Rst st) i best m l in
  (r = best /\ (forall x, In x l -> m <= x)) \/
  ((i <= r < i + length l)%nat /\ nth (r - i) l 0 < m /\ (forall x, In x l -> nth (r - i) l 0 <= x) /\
   (forall k, (k < r - i)%nat -> nth (r - i) l 0 < nth k l 0)).
Proof.
  induction l as [|x l IH]; intros i best m; cbn zeta.
  - left. split; [reflexivity|]. intros y [].
  - cbn [argmin_from]. change (@nltb R (Rst st) x m) with (Rlt_bool x m). destruct (Rlt_bool_spec x m) as [H|H].
    + specialize (IH (S i) i x). cbn zeta in IH. set (r := argmin_from (S i) i x l) in *. right.
      destruct IH as [[E L]|[B [G [L F]]]].
      * rewrite E. replace (i - i)%nat with O by lia. cbn [nth length]. repeat split; try lia; try lra.
        -- intros y [->|Hy]; [lra|]. specialize (L y Hy). lra.
      * cbn [length]. replace (r - i)%nat with (S (r - S i)) by lia. cbn [nth]. repeat split; try lia; try lra.
        -- intros y [->|Hy]; [lra|]. now apply L.
        -- intros [|k] Hk; cbn [nth]; [lra|]. apply F. lia.
    + specialize (IH (S i) best m). cbn zeta in IH. set (r := argmin_from (S i) best m l) in *.
      destruct IH as [[E L]|[B [G [L F]]]].
      * left. split; [assumption|]. intros y [->|Hy]; [lra|]. now apply L.
      * right. cbn [length]. replace (r - i)%nat with (S (r - S i)) by lia. cbn [nth]. repeat split; try lia; try lra.
        -- intros y [->|Hy]; [lra|]. now apply L.
        -- intros [|k] Hk; cbn [nth]; [lra|]. apply F. lia.
Qed.
Lemma argmin_first st l p : @argmin R (Rst st) l = Ok p -> exists k, p = Z.of_nat k /\ first_min l k.
Proof.
  destruct l as [|x l]; [discriminate|]. cbn [argmin]. intros H. injection H as <-. eexists. split; [reflexivity|].
  pose proof (argmin_from_R st l 1 0 x) as H. cbn zeta in H. set (r := argmin_from 1 0 x l) in *.
  destruct H as [[E L]|[B [G [L F]]]].
  - rewrite E. repeat split; cbn [length nth]; try lia.
    + intros [|j] Hj; cbn [nth]; [lra|]. apply L. apply nth_In. lia.
  - replace r with (S (r - 1)) by lia. repeat split; cbn [length nth]; try lia.
    + intros [|j] Hj; [lra|]. apply L. apply nth_In. lia.
    + intros [|j] Hj; [lra|]. apply F. lia.
Qed.

(** *** Exact fits *)
Lemma distinct_values_map n l (f : R -> R) : (forall a b, f a = f b -> a = b) -> distinct_values n l -> distinct_values n (map f l).
Proof.
  intros I [d [Nd [Id Ld]]]. exists (map f d). repeat split.
  - now apply FinFun.Injective_map_NoDup.
  - intros x Hx. apply in_map_iff in Hx. destruct Hx as [y [<- Hy]]. apply in_map. now apply Id.
  - now rewrite map_length.
Qed.
Lemma distinct_values_in n l m : (forall x, In x l -> In x m) -> distinct_values n l -> distinct_values n m.
Proof. intros I [d [Nd [Id Ld]]]. exists d. repeat split; auto. Qed.
Lemma distinct_values_le n m l : (n <= m)%nat -> distinct_values m l -> distinct_values n l.
Proof. intros L [d [Nd [Id Ld]]]. exists d. repeat split; auto. lia. Qed.
Lemma distinct_values_ne n l : distinct_values (S n) l -> l <> [].
Proof. intros [[|x d] [Nd [Id Ld]]] E; [cbn in Ld; lia|]. subst. now apply (Id x); left. Qed.

Section Fit.
  Variable st : R -> R.
  Local Instance NSt : Num R := Rst st.
  Variable polyfit : list R -> list R -> nat -> res (list R).
  Hypothesis PF : polyfit_oracle polyfit.

  (** The points of a line, shifted to the centre, are on the parabola. *)
  Definition on_para_hor (xc yc : R) (c : R * R * R) (line : list (R * R)) : Prop :=
    (forall p, In p line -> py p - yc = fst (fst c) * (pxc p - xc) ^ 2 + snd (fst c) * (pxc p - xc) + snd c) /\
    distinct_values 3 (map pxc line).
  Definition on_para_ver (xc yc : R) (c : R * R * R) (line : list (R * R)) : Prop :=
    (forall p, In p line -> pxc p - xc = fst (fst c) * (py p - yc) ^ 2 + snd (fst c) * (py p - yc) + snd c) /\
    distinct_values 3 (map py line).
  Definition stc (c : R * R * R) : R * R * R := (st (fst (fst c)), st (snd (fst c)), st (snd c)).

  Lemma polyfit_exact {A} deg (fx fy : A -> R) (l : list A) w : length w = S deg -> distinct_values (S deg) (map fx l) ->
    (forall a, In a l -> fy a = evh w (fx a)) -> polyfit (map fx l) (map fy l) deg = Ok w.
  Proof.
    intros Lw D H. destruct (PF (map fx l) (map fy l) deg) as [v [E P]].
    - now apply distinct_values_ne in D.
    - now rewrite !map_length.
    - rewrite E. f_equal. apply (polyfit_unique deg _ _ _ _ P Lw).
      + now rewrite !map_length.
      + assumption.
      + clear -H. induction l as [|a l IH]; cbn [map]; constructor; [apply H; now left|]. apply IH. intros; apply H; now right.
  Qed.
  Lemma fit1_exact {A} (fx fy : A -> R) (l : list A) a b : distinct_values 2 (map fx l) ->
    (forall p, In p l -> fy p = a * fx p + b) -> fit1 polyfit (map fx l) (map fy l) = Ok (a, b).
  Proof.
    intros D H. unfold fit1. rewrite (polyfit_exact 1 fx fy l [a; b]); [reflexivity|reflexivity|assumption|].
    intros p Hp. rewrite (H p Hp). cbn. ring.
  Qed.
  Lemma para_hor_exact xc yc cs lines : Forall2 (on_para_hor xc yc) cs lines ->
    para_fit_hor polyfit lines xc yc = Ok (map stc cs, map (map (shiftp xc yc)) lines).
  Proof.
    intros F. unfold para_fit_hor.
    assert (M : mapM (fun line : list (R * R) =>
           match line with
           | [] => Err IndexError
           | _ =>
               bind (fit2 polyfit (map (fun p : R * R => nsub (snd p) xc) line) (map (fun p : R * R => nsub (fst p) yc) line))
               (fun c => Ok (c, map (fun p : R * R => (nsub (fst p) yc, nsub (snd p) xc)) line))
           end) lines = Ok (combine (map stc cs) (map (map (shiftp xc yc)) lines))).
    { induction F as [|c l cs ls [H D] F IH]; [reflexivity|]. cbn [mapM map combine]. rewrite IH. clear IH.
      destruct l as [|p0 l]; [now apply distinct_values_ne in D|]. set (l0 := p0 :: l) in *.
      unfold fit2. rewrite (polyfit_exact 2 (fun p : R * R => nsub (snd p) xc) (fun p : R * R => nsub (fst p) yc) l0
        [fst (fst c); snd (fst c); snd c]).
      - reflexivity.
      - reflexivity.
      - replace (map (fun p : R * R => nsub (snd p) xc) l0) with (map (fun x => x - xc) (map pxc l0)) by (rewrite map_map; reflexivity).
        apply distinct_values_map; [|assumption]. intros a b. lra.
      - intros p Hp. specialize (H p Hp). unfold py, pxc in H. cbn [nsub NSt Rst]. rewrite H. cbn [evh length]. ring. }
    rewrite M. cbn [bind]. apply Forall2_length in F. f_equal. clear M.
    assert (L : length (map stc cs) = length (map (map (shiftp xc yc)) lines)) by now rewrite !map_length.
    f_equal; [|].
    - clear F. revert L. generalize (map stc cs), (map (map (shiftp xc yc)) lines). intros u v. revert v.
      induction u as [|a u IH]; intros [|b v] L; try discriminate; [reflexivity|]. cbn. f_equal. apply IH. cbn in L. lia.
    - clear F. revert L. generalize (map stc cs), (map (map (shiftp xc yc)) lines). intros u v. revert v.
      induction u as [|a u IH]; intros [|b v] L; try discriminate; [reflexivity|]. cbn. f_equal. apply IH. cbn in L. lia.
  Qed.
  Lemma on_para_swap xc yc c line : on_para_ver xc yc c line -> on_para_hor yc xc c (map swp line).
  Proof.
    intros [H D]. split.
    - intros p Hp. apply in_map_iff in Hp. destruct Hp as [q [<- Hq]]. exact (H q Hq).
    - rewrite map_map. exact D.
  Qed.
  Lemma para_ver_exact xc yc cs lines : Forall2 (on_para_ver xc yc) cs lines ->
    para_fit_ver polyfit lines xc yc = Ok (map stc cs, map (map (shiftp xc yc)) lines).
  Proof.
    intros F. rewrite para_ver_hor. rewrite (para_hor_exact yc xc cs (map (map swp) lines)).
    - cbn [res_map fst snd]. f_equal. f_equal. rewrite !map_map. apply map_ext. intros l. rewrite !map_map. apply map_ext. reflexivity.
    - induction F; cbn [map]; constructor; [now apply on_para_swap|assumption].
  Qed.
End Fit.

(** *** Coarse centre *)
Section Coarse.
  Variable st : R -> R.
  Local Instance NSt2 : Num R := Rst st.
  Variable polyfit : list R -> list R -> nat -> res (list R).

  Lemma nsign_R x : nsign x = sgn x.
  Proof.
    unfold nsign, sgn. change (nltb n0 x) with (Rlt_bool 0 x). change (nltb x n0) with (Rlt_bool x 0).
    destruct (Rlt_dec 0 x) as [H|H]; destruct (Rlt_bool_spec 0 x); try lra; [reflexivity|].
    destruct (Rlt_dec x 0) as [H'|H']; destruct (Rlt_bool_spec x 0); try lra. cbn. lra.
  Qed.
  Lemma ndiff_length (l : list R) : length (ndiff l) = (length l - 1)%nat.
  Proof. induction l as [|a [|b l] IH]; [reflexivity|reflexivity|]. cbn [ndiff length] in *. rewrite IH. lia. Qed.
  Lemma ndiff_nth (l : list R) i : (S i < length l)%nat -> nth i (ndiff l) 0 = nth (S i) l 0 - nth i l 0.
  Proof.
    revert i. induction l as [|a [|b l] IH]; intros i Hi; cbn [length] in Hi; try lia.
    destruct i as [|i]; [reflexivity|]. cbn [ndiff nth]. apply IH. cbn [length]. lia.
  Qed.
  Lemma sign_change_spec cs p : sign_change cs = Ok p -> exists i, p = (Z.of_nat i + 1)%Z /\ main_change cs i.
  Proof.
    unfold sign_change. set (l := map nabs _). destruct (argmax l) as [q|] eqn:E; [|discriminate]. cbn [bind].
    intros H. injection H as <-. apply argmax_first in E. destruct E as [i [-> [H1 [H2 H3]]]]. exists i. split; [reflexivity|].
    assert (Ll : length l = (length cs - 1)%nat) by (unfold l; now rewrite map_length, ndiff_length, map_length).
    assert (Nl : forall j, (S j < length cs)%nat -> nth j l 0 = sign_jump cs j).
    { intros j Hj. unfold l. rewrite (nth_indep (map nabs _) 0 (nabs 0)) by (rewrite map_length, ndiff_length, map_length; lia).
      rewrite map_nth. rewrite ndiff_nth by (rewrite map_length; lia).
      rewrite !(nth_indep (map (fun c => nsign (cf0 c)) cs) 0 (nsign (cf0 (0, 0, 0)))) by (rewrite map_length; lia).
      rewrite !(map_nth (fun c => nsign (cf0 c)) cs (0, 0, 0)). rewrite !nsign_R. reflexivity. }
    rewrite Ll in *. split; [lia|]. split.
    - intros j Hj. rewrite <- !Nl by lia. apply H2. lia.
    - intros j Hj. rewrite <- !Nl by lia. apply H3. lia.
  Qed.
  Lemma sign_change_ok cs : (2 <= length cs)%nat -> exists p, sign_change cs = Ok p.
  Proof.
    intros H. destruct cs as [|a [|b cs]]; cbn [length] in H; try lia. eexists. reflexivity.
  Qed.
  Lemma sign_change_err cs : (length cs <= 1)%nat -> sign_change cs = Err ValueError.
  Proof. intros H. destruct cs as [|a [|b cs]]; cbn [length] in H; try lia; reflexivity. Qed.
  Lemma pyget_nth {A} (l : list A) i d : (i < length l)%nat -> pyget l (Z.of_nat i) = Ok (nth i l d).
  Proof.
    intros H. unfold pyget. cbn zeta. replace (Z.of_nat i <? 0)%Z with false by (symmetry; apply Z.ltb_ge; lia).
    replace ((Z.of_nat i <? 0) || (Z.of_nat (length l) <=? Z.of_nat i))%Z with false.
    - rewrite Nat2Z.id. rewrite (nth_error_nth' _ d H). reflexivity.
    - symmetry. apply Bool.orb_false_intro; [apply Z.ltb_ge|apply Z.leb_gt]; lia.
  Qed.
  Lemma coarse_spec lh lv ch sh cv sv :
    para_fit_hor polyfit lh n0 n0 = Ok (ch, sh) -> para_fit_ver polyfit lv n0 n0 = Ok (cv, sv) ->
    (2 <= length ch)%nat -> (2 <= length cv)%nat ->
    exists i j, main_change ch i /\ main_change cv j /\
    let mh := (slope ch i + slope ch (S i)) / 2 in let mv := (slope cv j + slope cv (S j)) / 2 in
    let y0 := (inter ch i + inter ch (S i)) / 2 in let x0 := (inter cv j + inter cv (S j)) / 2 in
    find_cod_coarse polyfit lh lv = Ok ((x0 + y0 * mv) / (1 - mh * mv), (y0 + x0 * mh) / (1 - mh * mv)).
  Proof.
    intros Eh Ev Lh Lv. destruct (sign_change_ok ch Lh) as [p Hp]. destruct (sign_change_ok cv Lv) as [q Hq].
    destruct (sign_change_spec _ _ Hp) as [i [-> Mi]]. destruct (sign_change_spec _ _ Hq) as [j [-> Mj]].
    exists i, j. split; [assumption|]. split; [assumption|]. cbn zeta.
    rewrite coarse_unfold, Eh, Ev. cbn [bind fst]. rewrite Hp, Hq. cbn [bind].
    replace (Z.of_nat i + 1 - 1)%Z with (Z.of_nat i) by lia. replace (Z.of_nat j + 1 - 1)%Z with (Z.of_nat j) by lia.
    replace (Z.of_nat i + 1)%Z with (Z.of_nat (S i)) by lia. replace (Z.of_nat j + 1)%Z with (Z.of_nat (S j)) by lia.
    destruct Mi as [Mi _]. destruct Mj as [Mj _].
    rewrite (pyget_nth ch i (0, 0, 0)), (pyget_nth ch (S i) (0, 0, 0)), (pyget_nth cv j (0, 0, 0)), (pyget_nth cv (S j) (0, 0, 0)) by lia.
    cbn [bind]. assert (H2 : forall a : R, nmul a (nofQ 1 2) = a / 2) by (intros a; change (a * (1 / 2) = a / 2); field).
    cbn zeta. rewrite !H2. reflexivity.
  Qed.
  Hypothesis PF : polyfit_oracle polyfit.
  Lemma para_hor_fitted lines : (forall l, In l lines -> l <> []) ->
    exists cs sl, para_fit_hor polyfit lines n0 n0 = Ok (cs, sl) /\ Forall2 (fitted_hor st) lines cs.
  Proof.
    intros Hne. unfold para_fit_hor.
    match goal with |- exists _ _, bind (mapM ?f _) _ = _ /\ _ =>
      assert (M : exists r, mapM f lines = Ok r /\ Forall2 (fitted_hor st) lines (map fst r)) end.
    { induction lines as [|l ls IH]; [exists []; split; [reflexivity|constructor]|]. cbn [mapM].
      destruct IH as [r [E F]]; [intros; apply Hne; now right|]. destruct l as [|p0 l]; [now destruct (Hne [] (or_introl eq_refl))|].
      set (l0 := p0 :: l) in *.
      assert (N0 : forall x : R, nsub x n0 = x) by (intros x; change (x - 0 = x); ring).
      destruct (PF (map pxc l0) (map py l0) 2%nat) as [v [Ev Pv]]; [discriminate|now rewrite !map_length|].
      assert (Lv := proj1 Pv). destruct v as [|a [|b [|c [|]]]]; try discriminate Lv.
      assert (FE : fit2 polyfit (map (fun p : R * R => nsub (snd p) n0) l0) (map (fun p : R * R => nsub (fst p) n0) l0) = Ok (st a, st b, st c)).
      { unfold fit2.
        replace (map (fun p : R * R => nsub (snd p) n0) l0) with (map pxc l0) by (apply map_ext; intros p; symmetry; apply N0).
        replace (map (fun p : R * R => nsub (fst p) n0) l0) with (map py l0) by (apply map_ext; intros p; symmetry; apply N0).
        rewrite Ev. reflexivity. }
      rewrite FE. cbn [bind]. rewrite E. cbn [bind]. eexists. split; [reflexivity|]. cbn [map fst]. constructor; [|assumption].
      exists a, b, c. split; [assumption|reflexivity]. }
    destruct M as [r [E F]]. rewrite E. cbn [bind]. eauto.
  Qed.
  Lemma fitted_swap line c : fitted_hor st (map swp line) c -> fitted_ver st line c.
  Proof. unfold fitted_hor, fitted_ver. rewrite !map_map. exact (fun H => H). Qed.
  Lemma para_ver_fitted lines : (forall l, In l lines -> l <> []) ->
    exists cs sl, para_fit_ver polyfit lines n0 n0 = Ok (cs, sl) /\ Forall2 (fitted_ver st) lines cs.
  Proof.
    intros Hne. destruct (para_hor_fitted (map (map swp) lines)) as [cs [sl [E F]]].
    - intros l Hl. apply in_map_iff in Hl. destruct Hl as [l' [<- Hl]]. specialize (Hne l' Hl). destruct l'; [easy|discriminate].
    - rewrite para_ver_hor, E. cbn [res_map fst snd]. do 2 eexists. split; [reflexivity|].
      clear -F. revert cs F. induction lines as [|l ls IH]; intros cs F; inversion F as [|? ? ? ? Q1 Q2]; constructor.
      + now apply fitted_swap.
      + now apply IH.
  Qed.
End Coarse.

(** *** Bailey's method on ideal grids *)
Section Bailey.
  Local Instance NEx : Num R := Rexact.
  Variable polyfit : list R -> list R -> nat -> res (list R).
  Hypothesis PF : polyfit_oracle polyfit.
  Variables (k xc yc : R).

  (** The parabola of an ideal line seen from (X, Y). *)
  Definition ideal_coef (k u w X Y c : R) : R * R * R :=
    (k * (c - w), 2 * k * (c - w) * (X - u), k * (c - w) * (X - u) ^ 2 + c - Y).
  Lemma ideal_hor_para X Y c line : ideal_hor k xc yc c line -> on_para_hor X Y (ideal_coef k xc yc X Y c) line.
  Proof. intros [H D]. split; [|assumption]. intros p Hp. rewrite (H p Hp). cbn [ideal_coef fst snd]. ring. Qed.
  Lemma ideal_ver_para X Y d line : ideal_ver k xc yc d line -> on_para_ver X Y (ideal_coef k yc xc Y X d) line.
  Proof. intros [H D]. split; [|assumption]. intros p Hp. rewrite (H p Hp). cbn [ideal_coef fst snd]. ring. Qed.
  Lemma stc_id l : map (stc (fun x => x)) l = l.
  Proof. rewrite <- (map_id l) at 2. apply map_ext. now intros [[a b] c]. Qed.
  Lemma ideal_fit_hor X Y cs lines : Forall2 (ideal_hor k xc yc) cs lines ->
    para_fit_hor polyfit lines X Y = Ok (map (ideal_coef k xc yc X Y) cs, map (map (shiftp X Y)) lines).
  Proof.
    intros F. rewrite (para_hor_exact (fun x => x) polyfit PF X Y (map (ideal_coef k xc yc X Y) cs)).
    - now rewrite stc_id.
    - induction F; cbn [map]; constructor; [now apply ideal_hor_para|assumption].
  Qed.
  Lemma ideal_fit_ver X Y ds lines : Forall2 (ideal_ver k xc yc) ds lines ->
    para_fit_ver polyfit lines X Y = Ok (map (ideal_coef k yc xc Y X) ds, map (map (shiftp X Y)) lines).
  Proof.
    intros F. rewrite (para_ver_exact (fun x => x) polyfit PF X Y (map (ideal_coef k yc xc Y X) ds)).
    - now rewrite stc_id.
    - induction F; cbn [map]; constructor; [now apply ideal_ver_para|assumption].
  Qed.
  Lemma ideal_fit1 u w X Y cs : 1 + k * (X - u) ^ 2 <> 0 -> distinct_values 2 cs ->
    fit1 polyfit (map cf2 (map (ideal_coef k u w X Y) cs)) (map cf0 (map (ideal_coef k u w X Y) cs)) =
    Ok (k / (1 + k * (X - u) ^ 2), - (k * (w - Y) / (1 + k * (X - u) ^ 2))).
  Proof.
    intros Hd D. rewrite !map_map. apply (fit1_exact polyfit PF (fun c => cf2 (ideal_coef k u w X Y c)) (fun c => cf0 (ideal_coef k u w X Y c))).
    - apply distinct_values_map; [|assumption]. intros a b E. unfold cf2, ideal_coef in E. cbn [snd] in E.
      assert (Z : (a - b) * (1 + k * (X - u) ^ 2) = 0) by lra.
      apply Rmult_integral in Z. destruct Z as [Z|Z]; [lra|contradiction].
    - intros c _. unfold cf2, cf0, ideal_coef. cbn [fst snd]. field. assumption.
  Qed.
  Variables (cs ds : list R) (lh lv : list (list (R * R))).
  Hypothesis Fh : Forall2 (ideal_hor k xc yc) cs lh.
  Hypothesis Fv : Forall2 (ideal_ver k xc yc) ds lv.
  Hypothesis K0 : k <> 0.
  Hypothesis Dh : distinct_values 2 cs.
  Hypothesis Dv : distinct_values 2 ds.
  Lemma bailey_step_ideal X Y : 1 + k * (X - xc) ^ 2 <> 0 -> 1 + k * (Y - yc) ^ 2 <> 0 ->
    bailey_step polyfit lh lv (X, Y) = Ok (xc, yc).
  Proof.
    intros HX HY. unfold bailey_step. rewrite (ideal_fit_hor X Y _ _ Fh), (ideal_fit_ver X Y _ _ Fv). cbn [bind fst].
    rewrite !ideal_fit1 by assumption. cbn [bind]. f_equal. cbn [nsub ndiv NEx Rexact Rst].
    f_equal; field; repeat split; assumption.
  Qed.
  Lemma bailey_loop_ideal n : bailey_loop polyfit lh lv n (xc, yc) = Ok (xc, yc).
  Proof.
    induction n as [|n IH]; [reflexivity|]. cbn [bailey_loop]. rewrite bailey_step_ideal; [exact IH| |];
    replace (1 + k * _ ^ 2) with 1 by ring; lra.
  Qed.
  Lemma bailey_ideal X Y iter : find_cod_coarse polyfit lh lv = Ok (X, Y) ->
    1 + k * (X - xc) ^ 2 <> 0 -> 1 + k * (Y - yc) ^ 2 <> 0 -> find_cod_bailey polyfit lh lv iter = Ok (xc, yc).
  Proof.
    intros E HX HY. unfold find_cod_bailey. rewrite E. cbn [bind]. rewrite bailey_step_ideal by assumption.
    apply bailey_loop_ideal.
  Qed.
  Lemma coarse_ideal : exists i j,
    main_change (map (ideal_coef k xc yc 0 0) cs) i /\ main_change (map (ideal_coef k yc xc 0 0) ds) j /\
    let mh := - (k * xc * (nth i cs 0 + nth (S i) cs 0 - 2 * yc)) in
    let mv := - (k * yc * (nth j ds 0 + nth (S j) ds 0 - 2 * xc)) in
    exists x0 y0, find_cod_coarse polyfit lh lv = Ok ((x0 + y0 * mv) / (1 - mh * mv), (y0 + x0 * mh) / (1 - mh * mv)).
  Proof.
    assert (Lc : forall l, distinct_values 2 l -> (2 <= length l)%nat).
    { intros l [d [Nd [Id Ld]]]. pose proof (NoDup_incl_length Nd Id). lia. }
    destruct (coarse_spec (fun x => x) polyfit lh lv _ _ _ _ (ideal_fit_hor 0 0 _ _ Fh) (ideal_fit_ver 0 0 _ _ Fv)) as [i [j [Mi [Mj E]]]].
    - rewrite map_length. now apply Lc.
    - rewrite map_length. now apply Lc.
    - exists i, j. split; [assumption|]. split; [assumption|]. cbn zeta in *.
      destruct Mi as [Mi _]. destruct Mj as [Mj _]. rewrite map_length in Mi, Mj.
      assert (S1 : forall u w l n, (n < length l)%nat -> slope (map (ideal_coef k u w 0 0) l) n = - (2 * k * (nth n l 0 - w) * u)).
      { intros u w l n Hn. unfold slope. rewrite (nth_indep (map (ideal_coef k u w 0 0) l) _ (ideal_coef k u w 0 0 0)) by (rewrite map_length; lia).
        rewrite map_nth. cbn [ideal_coef fst snd]. ring. }
      rewrite !S1 in E by lia.
      replace ((- (2 * k * (nth i cs 0 - yc) * xc) + - (2 * k * (nth (S i) cs 0 - yc) * xc)) / 2)
        with (- (k * xc * (nth i cs 0 + nth (S i) cs 0 - 2 * yc))) in E by field.
      replace ((- (2 * k * (nth j ds 0 - xc) * yc) + - (2 * k * (nth (S j) ds 0 - xc) * yc)) / 2)
        with (- (k * yc * (nth j ds 0 + nth (S j) ds 0 - 2 * xc))) in E by field.
      eauto.
  Qed.
End Bailey.
