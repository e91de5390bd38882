(** Parabola masks, removal of points by mask, and normalisation in
    floating point (preprocessing.py). *)
From Coq Require Import Reals ZArith List Lra Lia Permutation.
From Coq Require Floats.
From Flocq Require Import Core.
From Verif Require Import Base Num Img Post Spec NumFacts PrepSpec PrepImg PrepPts PrepFacts2.
Local Open Scope Z_scope.
Local Existing Instance Rex.

(** *** Mask *)
(** The two ends of a margin: a number stands for both. *)
Inductive ends : margin -> R -> R -> Prop :=
| ends_one v : ends (MOne v) v v
| ends_seq l a b : nth_error l 0 = Some a -> nth_error l (length l - 1) = Some b -> ends (MSeq l) a b.
Lemma margin_ends_ok (mg : @margin R) a b : margin_ends mg = Ok (a, b) <-> ends mg a b.
Proof.
  destruct mg as [v|l]; cbn [margin_ends].
  - split; [intros H; injection H as <- <-; constructor|intros H; inversion H; reflexivity].
  - destruct l as [|x l]; [split; [discriminate|intros H; inversion H; discriminate]|].
    assert (E1 : pyget (x :: l) 0 = Ok x) by reflexivity.
    assert (E2 : exists y, pyget (x :: l) (-1) = Ok y /\ nth_error (x :: l) (length (x :: l) - 1) = Some y).
    { unfold pyget. cbn [length]. change (-1 <? 0) with true. cbv iota zeta. 
      destruct (Z.ltb_spec (-1 + Z.of_nat (S (length l))) 0); [lia|]. destruct (Z.leb_spec (Z.of_nat (S (length l))) (-1 + Z.of_nat (S (length l)))); [lia|]. cbn [orb].
      replace (Z.to_nat (-1 + Z.of_nat (S (length l)))) with (S (length l) - 1)%nat by lia.
      destruct (nth_error (x :: l) (S (length l) - 1)) as [y|] eqn:E; [exists y; split; reflexivity|].
      apply nth_error_None in E. cbn in E. lia. }
    destruct E2 as [y [E2 E3]]. rewrite E1, E2. cbn [bind]. split.
    + intros H; injection H as <- <-. now constructor.
    + intros H; inversion H as [|? ? ? Ha Hb]; subst. rewrite E3 in Hb. cbn in Ha. congruence.
Qed.
Lemma bool01_iff (b : bool) : @bool01 R Rex b = if b then 1%R else 0%R.
Proof. now destruct b. Qed.
Lemma mask_ok rot height width hc vc hm vm left right top bot : ends hm left right -> ends vm top bot ->
  1 <= height -> 1 <= width ->
  (((IZR width < left + right)%R \/ (IZR height < top + bot)%R) ->
     make_parabola_mask rot height width hc vc hm vm 0%R = Err ValueError) /\
  ((left + right <= IZR width)%R -> (top + bot <= IZR height)%R ->
     exists mask, make_parabola_mask rot height width hc vc hm vm 0%R = Ok mask /\ ih mask = height /\ iw mask = width /\
       forall y x, (px mask y x = 1%R /\ inside_parabolas height width hc vc left right top bot y x) \/
                   (px mask y x = 0%R /\ ~ inside_parabolas height width hc vc left right top bot y x)).
Proof.
  intros Hm Vm Hh Hw. apply margin_ends_ok in Hm, Vm. unfold make_parabola_mask. rewrite Vm. cbn [bind]. rewrite Hm. cbn [bind].
  unfold Rex. cbn [nltb nadd nofZ Rnum].
  destruct (Z.eqb_spec width 0) as [|Nw]; [lia|]. destruct (Z.eqb_spec height 0) as [|Nh]; [lia|].
  split.
  - intros [H|H].
    + rewrite (proj2 (Rlt_bool_true_iff _ _) H). reflexivity.
    + destruct (Rlt_bool (IZR width) (left + right)); [reflexivity|]. rewrite (proj2 (Rlt_bool_true_iff _ _) H). reflexivity.
  - intros H1 H2.
    assert (F : forall a b, (b <= a)%R -> Rlt_bool a b = false).
    { intros a b H. apply not_true_iff_false. rewrite Rlt_bool_true_iff. lra. }
    rewrite !F by assumption.
    change (@neqb R (Rnum (fun x => x)) 0%R (@n0 R (Rnum (fun x => x)))) with (Req_bool 0 0).
    rewrite (proj2 (Req_bool_true_iff 0 0) eq_refl). cbn [negb].
    eexists. split; [reflexivity|]. split; [reflexivity|]. split; [reflexivity|].
    intros y x. cbn [img_map px nf32 nmul npow nsub nadd ndiv nopp nofZ Rnum]. fold Rex. rewrite !bool01_iff.
    unfold inside_parabolas. cbv zeta.
    repeat match goal with |- context [Rlt_bool ?a ?b] =>
      let E := fresh "E" in destruct (Rlt_bool a b) eqn:E;
      [apply Rlt_bool_true_iff in E|apply not_true_iff_false in E; rewrite Rlt_bool_true_iff in E] end;
    rewrite ?Rmult_1_r, ?Rmult_0_r, ?Rmult_0_l; rewrite ?(f32_int 1), ?(f32_int 0) by lia;
    first [left; split; [reflexivity|]; repeat split; lra | right; split; [reflexivity|]; intros [A [B [C D]]]; lra].
Qed.
Lemma inside_mirror_x height width hc vc mg top bot y x : 1 <= width ->
  inside_parabolas height width hc vc mg mg top bot y x <-> inside_parabolas height width hc vc mg mg top bot y (width - x).
Proof.
  intros Hw. unfold inside_parabolas. cbv zeta. rewrite minus_IZR.
  replace (IZR width - IZR x - IZR width / 2)%R with (- (IZR x - IZR width / 2))%R by field.
  replace ((- (IZR x - IZR width / 2)) ^ 2)%R with ((IZR x - IZR width / 2) ^ 2)%R by ring. split; intros [A [B [C D]]]; repeat split; lra.
Qed.
Lemma inside_mirror_y height width hc vc left right mg y x : 1 <= height ->
  inside_parabolas height width hc vc left right mg mg y x <-> inside_parabolas height width hc vc left right mg mg (height - y) x.
Proof.
  intros Hw. unfold inside_parabolas. cbv zeta. rewrite minus_IZR.
  replace (IZR height - IZR y - IZR height / 2)%R with (- (IZR y - IZR height / 2))%R by field.
  replace ((- (IZR y - IZR height / 2)) ^ 2)%R with ((IZR y - IZR height / 2) ^ 2)%R by ring. split; intros [A [B [C D]]]; repeat split; lra.
Qed.
Lemma inside_margin height width hc vc left right top bot y x : 1 <= height -> 1 <= width -> (0 <= hc)%R -> (0 <= vc)%R ->
  inside_parabolas height width hc vc left right top bot y x ->
  (left < IZR x < IZR width - right)%R /\ (top < IZR y < IZR height - bot)%R.
Proof.
  intros Hh Hw Hc Vc [A [B [C D]]]. apply IZR_le in Hh, Hw.
  assert (P1 : (0 <= vc / IZR width * (IZR x - IZR width / 2) ^ 2)%R).
  { apply Rmult_le_pos; [apply Rmult_le_pos; [lra|apply Rlt_le, Rinv_0_lt_compat; lra]|apply pow2_ge_0]. }
  assert (P2 : (0 <= hc / IZR height * (IZR y - IZR height / 2) ^ 2)%R).
  { apply Rmult_le_pos; [apply Rmult_le_pos; [lra|apply Rlt_le, Rinv_0_lt_compat; lra]|apply pow2_ge_0]. }
  cbv zeta in *. lra.
Qed.

Lemma fancy_ok {A} (m : image A) y x : - ih m <= y < ih m -> - iw m <= x < iw m -> exists v, fancy m y x = Ok v /\
  (0 <= y -> 0 <= x -> v = px m y x).
Proof.
  intros Hy Hx. unfold fancy.
  destruct (Z.ltb_spec y 0), (Z.ltb_spec x 0);
    match goal with |- context [if ?c then _ else _] => replace c with false end;
    try (eexists; split; [reflexivity|]; intros; try lia; reflexivity);
    symmetry; rewrite !orb_false_iff; repeat split; try (apply Z.ltb_ge; lia); apply Z.leb_gt; lia.
Qed.
Lemma fancy_err {A} (m : image A) y x : ~ (- ih m <= y < ih m /\ - iw m <= x < iw m) -> fancy m y x = Err IndexError.
Proof.
  intros H. unfold fancy. match goal with |- (if ?c then _ else _) = _ => replace c with true end; [reflexivity|].
  symmetry. destruct (Z.ltb_spec y 0), (Z.ltb_spec x 0); rewrite !orb_true_iff, !Z.ltb_lt, !Z.leb_le; lia.
Qed.
Lemma remove_points_spec rot pts height width hc vc hm vm rotate mask :
  make_parabola_mask rot height width hc vc hm vm rotate = Ok mask -> ih mask = height -> iw mask = width ->
  ((forall p, In p pts -> indexable height width p) ->
     exists out, remove_points_using_parabola_mask rot pts height width hc vc hm vm rotate = Ok out /\
       selects (fun p : R * R => 0 <= Ztrunc (fst p) /\ 0 <= Ztrunc (snd p) /\ px mask (Ztrunc (fst p)) (Ztrunc (snd p)) = 1%R) pts out) /\
  (forall p, In p pts -> ~ indexable height width p ->
     remove_points_using_parabola_mask rot pts height width hc vc hm vm rotate = Err IndexError).
Proof.
  intros EM Eh Ew. unfold remove_points_using_parabola_mask. rewrite EM. cbn [bind]. change (@ntrunc R Rex) with Ztrunc. subst height width. split.
  - intros Hall. induction pts as [|p pts IH]; [exists []; split; [reflexivity|constructor]|].
    destruct IH as [out [E S]]; [intros; apply Hall; now right|].
    destruct (Hall p (or_introl eq_refl)) as [Hy Hx]. destruct (fancy_ok mask _ _ Hy Hx) as [v [Ev Vv]].
    cbn [mapM]. rewrite Ev. cbn [bind]. destruct (mapM _ pts) as [vals|] eqn:Em; [|discriminate]. cbn [bind] in E |- *.
    injection E as E. cbn [combine filter fst snd]. rewrite <- E in S.
    match goal with |- context [if ?c then _ else _] => destruct c eqn:Ec end.
    + eexists. split; [reflexivity|]. cbn [map fst]. apply sel_yes; [|exact S].
      rewrite !andb_true_iff, !Z.leb_le, !Z.ltb_lt in Ec. destruct Ec as [[[[A B] C] D] F].
      apply Req_bool_true_iff in F. split; [lia|]. split; [lia|]. now rewrite <- Vv.
    + eexists. split; [reflexivity|]. apply sel_no; [|exact S]. intros [A [B C]].
      rewrite <- (Vv A B) in C. apply not_true_iff_false in Ec. apply Ec. rewrite !andb_true_iff, !Z.leb_le, !Z.ltb_lt.
      repeat split; try lia. now apply Req_bool_true_iff.
  - intros p Hp Hno. enough (E : mapM (fun p : R * R => fancy mask (Ztrunc (fst p)) (Ztrunc (snd p))) pts = Err IndexError) by now rewrite E.
    assert (Herr : forall q e, fancy mask (Ztrunc (fst q)) (Ztrunc (snd q)) = Err e -> e = IndexError).
    { intros q e. unfold fancy. match goal with |- (if ?c then _ else _) = _ -> _ => destruct c end; congruence. }
    induction pts as [|q pts IH]; [destruct Hp|]. cbn [mapM]. destruct Hp as [->|Hp].
    + rewrite fancy_err by exact Hno. reflexivity.
    + destruct (fancy mask (Ztrunc (fst q)) (Ztrunc (snd q))) as [v|e] eqn:Ev; cbn [bind].
      * now rewrite IH.
      * f_equal. now apply (Herr q).
Qed.

(** *** Normalisation *)
Lemma normalize_by_px {T} {N : Num T} (mat bck : image T) :
  exists out, normalize_by mat bck = Ok out /\ ih out = ih mat /\ iw out = iw mat /\
    forall i j, px out i j = ndiv (nmul (mean (pixels bck)) (px mat i j)) (px bck i j).
Proof. eexists. repeat split. Qed.
(** Dividing by a zero double never gives a finite number. *)
Lemma float_div_zero (x y : PrimFloat.float) : FloatOps.Prim2SF y = SpecFloat.S754_zero false \/ FloatOps.Prim2SF y = SpecFloat.S754_zero true ->
  FloatOps.Prim2SF (PrimFloat.div x y) = SpecFloat.S754_nan \/
  FloatOps.Prim2SF (PrimFloat.div x y) = SpecFloat.S754_infinity false \/ FloatOps.Prim2SF (PrimFloat.div x y) = SpecFloat.S754_infinity true.
Proof.
  intros H. rewrite FloatAxioms.div_spec. unfold FloatAxioms.SF64div.
  destruct H as [-> | ->]; destruct (FloatOps.Prim2SF x) as [[]|[]| |[] ? ?]; cbn; tauto.
Qed.
