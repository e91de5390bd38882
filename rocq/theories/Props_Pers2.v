(** Properties of discorpy/proc/processing.py, perspective (C36-C38, C84-). *)
From Coq Require Import Floats.
From Coq Require Import Reals ZArith List Lra Lia Permutation Sorted.
From Flocq Require Import Core.
From Verif Require Import Base Num NumFacts Spec Lsq LsqEx ProcSpec PrepSpec Sorting Img PrepImg PrepPts PrepFacts PrepFacts2 Post PostPersp PostLines2 PostExtra
  Proc ProcPers ProcFacts ProcFacts2 ProcFacts3 ProcFacts4 ProcFacts5 PersFacts PersFacts2 PersFacts3 PersFacts4 Props_Proc Props_Pers PersSpec.
Import ListNotations.
Local Open Scope R_scope.

(** ** C36 correct_perspective_effect *)
(** In any arithmetic, with any fit, sort and solver: success needs two lines
    in each direction and keeps the number of lines and of points. *)
Theorem C36_counts : forall T (N : Num T) polyfit argsort cos_ arctan_ lstsq lh lv xc yc method scale gh gv,
  @correct_perspective_effect T N polyfit argsort cos_ arctan_ lstsq lh lv xc yc method scale = Ok (gh, gv) ->
  (2 <= length lh)%nat /\ (2 <= length lv)%nat /\ map (@length _) gh = map (@length _) lh /\ map (@length _) gv = map (@length _) lv.
Proof. exact @effect_shape. Qed.
Print Assumptions C36_counts.
Theorem C36_few_lines : forall T (N : Num T) polyfit argsort cos_ arctan_ lstsq lh lv xc yc method scale ch cv,
  parabolas_hor polyfit xc yc lh ch -> parabolas_ver polyfit xc yc lv cv -> (length lh < 2)%nat \/ (length lv < 2)%nat ->
  @correct_perspective_effect T N polyfit argsort cos_ arctan_ lstsq lh lv xc yc method scale = Err ValueError.
Proof. exact @effect_few. Qed.
Print Assumptions C36_few_lines.
(** A missing curvature direction: the check does not fire; 'max' and 'min'
    fail with IndexError. *)
Theorem C36_missing_extremal : forall T (N : Num T) polyfit argsort cos_ arctan_ lstsq lh lv xc yc method scale ch cv,
  parabolas_hor polyfit xc yc lh ch -> parabolas_ver polyfit xc yc lv cv -> (2 <= length lh)%nat -> (2 <= length lv)%nat ->
  one_sided ch \/ one_sided cv -> method = RMax \/ method = RMin ->
  @correct_perspective_effect T N polyfit argsort cos_ arctan_ lstsq lh lv xc yc method scale = Err IndexError.
Proof. exact @effect_missing. Qed.
Print Assumptions C36_missing_extremal.

Lemma fmul_nan_l x : (nan * x = nan)%float.
Proof. apply fnan_unique. rewrite mul_spec. change (Prim2SF nan) with S754_nan. destruct (Prim2SF x); reflexivity. Qed.
Lemma fadd_nan_r x : (x + nan = nan)%float.
Proof. apply fnan_unique. rewrite add_spec. change (Prim2SF nan) with S754_nan. destruct (Prim2SF x) as [s|s| |s m e]; try reflexivity; destruct s; reflexivity. Qed.
Lemma fdiv_nan_l x : (nan / x = nan)%float.
Proof. apply fnan_unique. rewrite div_spec. change (Prim2SF nan) with S754_nan. destruct (Prim2SF x); reflexivity. Qed.
Section Nan.
  Local Existing Instance FloatNum.
  Lemma cross_nan_hor cv : cross_yx (nan, nan) cv = (nan, nan).
  Proof. destruct cv as [a b]. unfold cross_yx, find_cross_point_between_lines. cbn zeta. cbn [nmul nadd ndiv nsub FloatNum]. now rewrite fmul_nan_l, fadd_nan_l, fdiv_nan_l, fmul_nan_r, fadd_nan_l. Qed.
  Lemma cross_nan_ver ch : cross_yx ch (nan, nan) = (nan, nan).
  Proof. destruct ch as [a b]. unfold cross_yx, find_cross_point_between_lines. cbn zeta. cbn [nmul nadd ndiv nsub FloatNum]. now rewrite fmul_nan_r, fadd_nan_l, fdiv_nan_l, fmul_nan_l, fadd_nan_l. Qed.
  (** 'mean' and 'median' go on with NaN and end in the LinAlgError of the
      solver. *)
  Theorem C36_missing_average : forall polyfit argsort cos_ arctan_ lstsq lh lv xc yc method scale ch cv,
    (forall l, Permutation (argsort l) (seq 0 (length l))) ->
    (forall rows ys r, In r rows -> In nan r -> lstsq rows ys = Err LinAlgError) ->
    parabolas_hor polyfit xc yc lh ch -> parabolas_ver polyfit xc yc lv cv -> (2 <= length lh)%nat -> (2 <= length lv)%nat ->
    one_sided ch \/ one_sided cv -> method = RMean \/ method = RMedian ->
    @correct_perspective_effect _ FloatNum polyfit argsort cos_ arctan_ lstsq lh lv xc yc method scale = Err LinAlgError.
  Proof.
    intros polyfit argsort cos_ arctan_ lstsq lh lv xc yc method scale ch cv AP LN Fh Fv Lh Lv H M.
    unfold correct_perspective_effect. rewrite (parabolas_hor_fit _ _ _ _ _ Fh). cbn [bind]. rewrite (parabolas_ver_fit _ _ _ _ _ Fv). cbn [bind].
    rewrite <- (Forall2_length _ _ _ Fh), <- (Forall2_length _ _ _ Fv).
    replace (length lh <? 2)%nat with false by (symmetry; now apply Nat.ltb_ge). replace (length lv <? 2)%nat with false by (symmetry; now apply Nat.ltb_ge).
    rewrite !representative_sel. unfold cf0.
    assert (Q : filter (fun c : PrimFloat.float * PrimFloat.float * PrimFloat.float => nltb n0 (fst (fst c))) ch = [] \/
      filter (fun c : PrimFloat.float * PrimFloat.float * PrimFloat.float => nltb (fst (fst c)) n0) ch = [] \/
      filter (fun c : PrimFloat.float * PrimFloat.float * PrimFloat.float => nltb n0 (fst (fst c))) cv = [] \/
      filter (fun c : PrimFloat.float * PrimFloat.float * PrimFloat.float => nltb (fst (fst c)) n0) cv = []).
    { destruct H as [[H|H]|[H|H]]; apply filter_none in H; tauto. }
    clear H.
    assert (G : forall sel, exists r, get_representative_linear_coefs argsort sel method = Ok r /\ (sel = [] -> r = (nan, nan))).
    { intros sel. destruct M as [-> | ->]; cbn [get_representative_linear_coefs]; eexists; (split; [reflexivity|]); intros ->; reflexivity. }
    destruct (G (filter (fun c : PrimFloat.float * PrimFloat.float * PrimFloat.float => nltb n0 (fst (fst c))) ch)) as [r1 [E1 N1]].
    destruct (G (filter (fun c : PrimFloat.float * PrimFloat.float * PrimFloat.float => nltb (fst (fst c)) n0) ch)) as [r2 [E2 N2]].
    destruct (G (filter (fun c : PrimFloat.float * PrimFloat.float * PrimFloat.float => nltb n0 (fst (fst c))) cv)) as [r3 [E3 N3]].
    destruct (G (filter (fun c : PrimFloat.float * PrimFloat.float * PrimFloat.float => nltb (fst (fst c)) n0) cv)) as [r4 [E4 N4]].
    rewrite E1, E2, E3, E4. cbn [bind]. cbn zeta.
    set (pts := [cross_yx r1 r3; cross_yx r1 r4; cross_yx r2 r3; cross_yx r2 r4]).
    assert (I : In (nan, nan) pts).
    { unfold pts. destruct Q as [Q|[Q|[Q|Q]]].
      - rewrite (N1 Q). rewrite cross_nan_hor. now left.
      - rewrite (N2 Q). rewrite cross_nan_hor. right; right; now left.
      - rewrite (N3 Q). rewrite cross_nan_ver. now left.
      - rewrite (N4 Q). rewrite cross_nan_ver. right; now left. }
    destruct (four_any argsort cos_ arctan_ AP pts false scale eq_refl) as [q1 [q2 [q3 [q4 [p1 [p2 [p3 [p4 [E P]]]]]]]]].
    rewrite E. cbn [bind fst snd].
    assert (I' : In (nan, nan) [q1; q2; q3; q4]).
    { rewrite <- P. apply in_map_iff. exists (nan, nan). split; [reflexivity|exact I]. }
    unfold calc_perspective_coefficients. cbn [fliplr map length Nat.ltb Nat.leb combine concat app fst snd pers_rows]. cbn iota beta.
    match goal with |- bind (lstsq ?rows ?ys) _ = _ => assert (EE : lstsq rows ys = Err LinAlgError) end; [|now rewrite EE].
    destruct I' as [->|[->|[->|[->|[]]]]].
    - eapply LN; [left; reflexivity|left; reflexivity].
    - eapply LN; [right; right; left; reflexivity|left; reflexivity].
    - eapply LN; [do 4 right; left; reflexivity|left; reflexivity].
    - eapply LN; [do 6 right; left; reflexivity|left; reflexivity].
  Qed.
End Nan.
Print Assumptions C36_missing_average.

Definition fl_polyfit (_ _ : list PrimFloat.float) (_ : nat) : res (list PrimFloat.float) := Ok [1%float; 0%float; 0%float].
Definition fl_lstsq (rows : list (list PrimFloat.float)) (_ : list PrimFloat.float) : res (list PrimFloat.float) :=
  if existsb (existsb (fun x => negb (PrimFloat.eqb x x))) rows then Err LinAlgError else Ok (repeat 0%float 8).
(** Two lines of one point in each direction, all parabolas opening upwards. *)
Example C36_ex : let lh := [[(0%float, 0%float)]; [(1%float, 0%float)]] in
  parabolas_hor (N := FloatNum) fl_polyfit 0%float 0%float lh [(1%float, 0%float, 0%float); (1%float, 0%float, 0%float)] /\
  parabolas_ver (N := FloatNum) fl_polyfit 0%float 0%float lh [(1%float, 0%float, 0%float); (1%float, 0%float, 0%float)] /\
  one_sided (N := FloatNum) [(1%float, 0%float, 0%float); (1%float, 0%float, 0%float)] /\
  (forall l, Permutation (@argsort_ins _ FloatNum l) (seq 0 (length l))) /\
  (forall rows ys r, In r rows -> In nan r -> fl_lstsq rows ys = Err LinAlgError) /\
  @correct_perspective_effect _ FloatNum fl_polyfit (@argsort_ins _ FloatNum) (fun x => x) (fun x => x) fl_lstsq lh lh 0%float 0%float RMean ScMean = Err LinAlgError.
Proof.
  intros lh.
  assert (H1 : parabolas_hor (N := FloatNum) fl_polyfit 0%float 0%float lh [(1%float, 0%float, 0%float); (1%float, 0%float, 0%float)]).
  { unfold lh. repeat apply Forall2_cons; [| |apply Forall2_nil]; (split; [discriminate|]); exists 1%float, 0%float, 0%float; split; reflexivity. }
  assert (H2 : parabolas_ver (N := FloatNum) fl_polyfit 0%float 0%float lh [(1%float, 0%float, 0%float); (1%float, 0%float, 0%float)]).
  { unfold lh. repeat apply Forall2_cons; [| |apply Forall2_nil]; (split; [discriminate|]); exists 1%float, 0%float, 0%float; split; reflexivity. }
  assert (H3 : one_sided (N := FloatNum) [(1%float, 0%float, 0%float); (1%float, 0%float, 0%float)]).
  { right. intros c [<-|[<-|[]]]; reflexivity. }
  assert (H4 : forall l, Permutation (@argsort_ins _ FloatNum l) (seq 0 (length l))) by (intros l; unfold argsort_ins; rewrite fold_ins_perm, app_nil_r; apply Permutation_refl).
  assert (H5 : forall rows ys r, In r rows -> In nan r -> fl_lstsq rows ys = Err LinAlgError).
  { intros rows ys r Hr Hn. unfold fl_lstsq. assert (E : existsb (existsb (fun x => negb (PrimFloat.eqb x x))) rows = true).
    { apply existsb_exists. exists r. split; [exact Hr|]. apply existsb_exists. exists nan. split; [exact Hn|reflexivity]. }
    now rewrite E. }
  repeat (split; [assumption|]). eapply C36_missing_average; eauto.
Qed.

(** ** C37 two parabolas with the same axis direction *)
Theorem C37_crossing : forall roots p1 p2, roots_oracle roots -> fst (fst p1) <> fst (fst p2) ->
  (@same_direction_cross R Rexact roots p1 p2 = None <-> forall x, parabola p1 x <> parabola p2 x) /\
  (forall l, @same_direction_cross R Rexact roots p1 p2 = Some l -> exists r s, l = [r; s] /\ forall x, parabola p1 x = parabola p2 x <-> x = r \/ x = s).
Proof.
  intros roots [[a1 b1] d1] [[a2 b2] d2] [N [S _]] Ha. unfold same_direction_cross, parabola, cf0, cf1, cf2. cbn [fst snd nsub Rexact Rst] in *.
  assert (A : a1 - a2 <> 0) by lra.
  assert (Q : forall x, a1 * x ^ 2 + b1 * x + d1 = a2 * x ^ 2 + b2 * x + d2 <-> (a1 - a2) * x ^ 2 + (b1 - b2) * x + (d1 - d2) = 0) by (intros x; split; lra).
  set (a := a1 - a2) in *. set (b := b1 - b2) in *. set (d := d1 - d2) in *. clearbody a b d.
  destruct (Rlt_or_le (b ^ 2 - 4 * a * d) 0) as [D|D].
  - rewrite (N a b d A D). split.
    + split; [intros _|reflexivity]. intros x H. apply Q in H.
      assert (4 * a * (a * x ^ 2 + b * x + d) = (2 * a * x + b) ^ 2 - (b ^ 2 - 4 * a * d)) by ring. rewrite H in H0. pose proof (pow2_ge_0 (2 * a * x + b)). lra.
    + intros l H. discriminate H.
  - destruct (S a b d A D) as [r [s [E H]]]. rewrite E. split.
    + split; [discriminate|]. intros Hn. exfalso. apply (Hn r). apply Q. rewrite H. ring.
    + intros l Hl. injection Hl as <-. exists r, s. split; [reflexivity|]. intros x. rewrite Q, H. split.
      * intros Z. apply Rmult_integral in Z. destruct Z as [Z|Z]; [|right; lra]. apply Rmult_integral in Z. destruct Z as [Z|Z]; [contradiction|left; lra].
      * intros [-> | ->]; ring.
Qed.
Print Assumptions C37_crossing.
Theorem C37_equal_leading : forall roots p1 p2, roots_oracle roots -> fst (fst p1) = fst (fst p2) ->
  exists l, @same_direction_cross R Rexact roots p1 p2 = Some l /\ (length l < 2)%nat.
Proof.
  intros roots [[a1 b1] d1] [[a2 b2] d2] [_ [_ Z]] Ha. unfold same_direction_cross, cf0, cf1, cf2. cbn [fst snd nsub Rexact Rst] in *. subst a2.
  replace (a1 - a1) with 0 by ring. destruct (Z (b1 - b2) (d1 - d2)) as [l [E L]]. exists l. split; [exact E|lia].
Qed.
Print Assumptions C37_equal_leading.
