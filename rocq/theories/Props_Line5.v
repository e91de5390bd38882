(** Theorems C90, C89: chessboard conversion, slope and distance of lines. *)
From Coq Require Import Floats.
From Coq Require Import Reals ZArith List Lra Lia Psatz Sorted Permutation.
From Flocq Require Import Core.
From Verif Require Import Base Num NumFacts Sorting Img Spec Lsq ProcSpec Post PrepSpec PrepImg PrepImgFacts PrepImgFacts2 Props_Prep Proc ProcFacts ProcFacts2 ProcFacts5 Line LineFacts LineFacts2 LineFacts3 LineFacts5 Props_Line Props_Line2 LineSpec ProfSpec ChessSpec Props_Line4.
Import ListNotations.
Local Open Scope R_scope.
Local Existing Instance Rex.

(** *** C90 *)
Notation border_of smooth := (if smooth : bool then 4%Z else 2%Z).
Theorem C90_small : forall {T} {N : Num T} gaussian (mat : image T) (smooth : bool) bright sigma,
  (forall m s, ih (gaussian m s) = ih m /\ iw (gaussian m s) = iw m) ->
  (ih mat <= 2 * border_of smooth \/ iw mat <= 2 * border_of smooth)%Z ->
  convert_chessboard_to_linepattern gaussian mat smooth bright sigma = Err ValueError.
Proof.
  intros T N g mat smooth bright sigma G H. unfold convert_chessboard_to_linepattern. set (s := if smooth then g mat sigma else mat).
  assert (Sh : ih s = ih mat /\ iw s = iw mat) by (unfold s; destruct smooth; [apply G|auto]). destruct Sh as [S1 S2].
  destruct ((ih s <? 2) || (iw s <? 2))%bool%Z; [reflexivity|].
  destruct smooth; unfold replicate_border; cbn [ih iw]; rewrite S1, S2;
  (match goal with |- context[if (?a || ?b)%bool then _ else _] => assert (X : (a || b)%bool = true) end; [|rewrite X; reflexivity]);
  apply Bool.orb_true_iff; rewrite !Z.leb_le; lia.
Qed.
Print Assumptions C90_small.
Lemma pixels_eq (a b : image R) : img_eq a b -> pixels a = pixels b.
Proof.
  intros (H1 & H2 & H). unfold pixels. rewrite <- H1, <- H2. apply map_ext_in. intros [i j] Hij. apply H. unfold grid in Hij. rewrite in_flat_map in Hij.
  destruct Hij as [i' [Hi Hj]]. apply in_map_iff in Hj. destruct Hj as [j' [Ej Hj]]. injection Ej as <- <-. apply in_zrange in Hi, Hj. split; assumption.
Qed.
Lemma pixels_nonempty (m : image R) : (1 <= ih m)%Z -> (1 <= iw m)%Z -> pixels m <> [].
Proof. intros H1 H2 E. apply (in_nil (a := px m 0 0)). rewrite <- E. apply in_pixels. exists 0%Z, 0%Z. repeat split; lia. Qed.
Lemma gradient_inside n f k : (1 <= k)%Z -> (k < n - 1)%Z -> gradient1 n f k = (f (k + 1)%Z - f (k - 1)%Z) / 2.
Proof. intros H1 H2. unfold gradient1. destruct (Z.eqb_spec k 0); [lia|]. destruct (Z.eqb_spec k (n - 1)); [lia|]. reflexivity. Qed.
Lemma Rabs_half x : Rabs (x / 2) = Rabs x / 2.
Proof. unfold Rdiv. rewrite Rabs_mult, (Rabs_pos_eq (/ 2)) by lra. reflexivity. Qed.
Lemma replicate_ok q (m : image R) : (2 * q < ih m)%Z -> (2 * q < iw m)%Z -> replicate_border q m =
  Ok (mkimg (ih m) (iw m) (fun i j => px m (into q (ih m - 1 - q) i) (into q (iw m - 1 - q) j))).
Proof.
  intros H1 H2. unfold replicate_border. destruct (Z.leb_spec (ih m) (2 * q)); [lia|]. destruct (Z.leb_spec (iw m) (2 * q)); [lia|]. cbn [orb].
  unfold into. do 2 f_equal. replace (ih m - q - 1)%Z with (ih m - 1 - q)%Z by lia. replace (iw m - q - 1)%Z with (iw m - 1 - q)%Z by lia. reflexivity.
Qed.
(** Pixel by pixel. *)
Theorem C90_pixels : forall gaussian mat (smooth bright : bool) sigma, (forall m s, ih (gaussian m s) = ih m /\ iw (gaussian m s) = iw m) ->
  let p := border_of smooth in (2 * p < ih mat)%Z -> (2 * p < iw mat)%Z ->
  let e := edges p (if smooth then gaussian mat sigma else mat) in
  exists top out, (exists i j, in_img mat i j /\ e i j = top) /\ (forall i j, in_img mat i j -> e i j <= top) /\
  convert_chessboard_to_linepattern gaussian mat smooth bright sigma = Ok out /\ ih out = ih mat /\ iw out = iw mat /\
  let v i j := if bright then top - e i j else e i j in
  forall i j, in_img mat i j -> px out i j = v i j / average (pixels (mkimg (ih mat) (iw mat) v)).
Proof.
  intros g mat smooth bright sigma G p Hh Hw. set (s := if smooth then g mat sigma else mat). cbn zeta.
  assert (Hp : (2 <= p)%Z) by (unfold p; destruct smooth; lia).
  assert (Sh : ih s = ih mat /\ iw s = iw mat) by (unfold s; destruct smooth; [apply G|auto]). destruct Sh as [S1 S2].
  set (e := edges p s). set (E := mkimg (ih mat) (iw mat) e).
  destruct (namax (pixels E)) as [top|x] eqn:Et.
  2: { exfalso. pose proof (pixels_nonempty E). destruct (pixels E); [apply H; cbn; lia || reflexivity|discriminate]. }
  pose proof Et as Es. unfold Rex in Es. apply namax_spec in Es. destruct Es as [I B]. apply in_pixels in I. destruct I as (i0 & j0 & H0 & E0).
  exists top.
  assert (E1 : forall i j, in_img mat i j -> 0 <= e i j <= top).
  { intros i j Hij. split; [|apply B; apply in_pixels; exists i, j; split; [exact Hij|reflexivity]].
    unfold e, edges, edge_strength. match goal with |- 0 <= (Rabs ?a / 2 + Rabs ?b / 2) / 2 => pose proof (Rabs_pos a); pose proof (Rabs_pos b); lra end. }
  assert (X : exists m, (if smooth then replicate_border 4 (mkimg (ih s) (iw s) (fun i j => mean [nabs (gradient1 (ih s) (fun k => px s k j) i); nabs (gradient1 (iw s) (fun k => px s i k) j)]))
     else replicate_border 2 (mkimg (ih s) (iw s) (fun i j => mean [nabs (gradient1 (ih s) (fun k => px s k j) i); nabs (gradient1 (iw s) (fun k => px s i k) j)]))) = Ok m /\ img_eq m E).
  { match goal with |- context[replicate_border 2 ?m] => set (gm := m) end.
    assert (R1 : (if smooth then replicate_border 4 gm else replicate_border 2 gm) = replicate_border p gm) by (unfold p; destruct smooth; reflexivity). rewrite R1.
    rewrite replicate_ok by (unfold gm; cbn [ih iw]; lia). unfold gm. eexists. split; [reflexivity|]. split; [exact S1|]. split; [exact S2|].
    intros i j Hij. cbn [px ih iw]. unfold in_img in Hij. cbn [ih iw] in Hij.
    assert (Bi : (p <= into p (ih s - 1 - p) i < ih s - p)%Z) by (unfold into; lia). assert (Bj : (p <= into p (iw s - 1 - p) j < iw s - p)%Z) by (unfold into; lia).
    unfold E, e. cbn [px]. unfold edges, edge_strength. set (a := into p (ih s - 1 - p) i) in *. set (b := into p (iw s - 1 - p) j) in *.
    rewrite !gradient_inside by lia. cbn [nabs Rex Rnum]. rewrite !Rabs_half. unfold mean, nsum. cbn [fold_left nadd ndiv nofZ Rex Rnum length]. change (@n0 R Rex) with 0.
    change (IZR (Z.of_nat 2)) with 2. lra. }
  destruct X as [m [Em EE]].
  assert (Y : exists m2, (if bright then mx <- namax (pixels m) ;; Ok (img_map (fun v => nsub mx v) m) else Ok m) = Ok m2 /\
    img_eq m2 (mkimg (ih mat) (iw mat) (fun i j => if bright then top - e i j else e i j))).
  { rewrite (pixels_eq m E EE). destruct EE as (e1 & e2 & e3). destruct bright.
    - rewrite Et. cbn [bind]. eexists. split; [reflexivity|]. split; [exact e1|]. split; [exact e2|]. intros i j Hij. cbn [px img_map]. rewrite e3 by exact Hij. reflexivity.
    - exists m. split; [reflexivity|]. split; [exact e1|]. split; [exact e2|]. intros i j Hij. cbn [px]. rewrite e3 by exact Hij. reflexivity. }
  destruct Y as [m2 [Em2 (f1 & f2 & f3)]].
  exists (img_map (fun v => ndiv v (mean (pixels (img_map nabs m2)))) m2).
  split; [exists i0, j0; split; [exact H0|symmetry; exact E0]|]. split; [intros i j Hij; apply E1; exact Hij|].
  split. { unfold convert_chessboard_to_linepattern. fold s. cbn zeta. destruct (Z.ltb_spec (ih s) 2); [lia|]. destruct (Z.ltb_spec (iw s) 2); [lia|]. cbn [orb]. rewrite Em. cbn [bind]. rewrite Em2. reflexivity. }
  split; [exact f1|]. split; [exact f2|]. intros i j Hij. cbn [px img_map].
  assert (Hij2 : in_img m2 i j) by (unfold in_img in *; rewrite f1, f2; exact Hij). rewrite f3 by assumption. cbn [px].
  match goal with |- _ = _ / average (pixels ?w) => assert (P : pixels (img_map nabs m2) = pixels w) end.
  { apply pixels_eq. split; [exact f1|]. split; [exact f2|]. intros i' j' H'. cbn [px img_map]. rewrite f3 by exact H'. cbn [px].
    assert (Q : in_img mat i' j') by (unfold in_img in *; cbn [ih iw img_map] in H'; rewrite f1, f2 in H'; exact H'). specialize (E1 i' j' Q).
    change (Rabs (if bright then top - e i' j' else e i' j') = (if bright then top - e i' j' else e i' j')). apply Rabs_pos_eq. destruct bright; lra. }
  rewrite P, mean_average. reflexivity.
Qed.
Print Assumptions C90_pixels.
Lemma Rsum_nonneg' l : (forall x, In x l -> 0 <= x) -> 0 <= Rsum l.
Proof. induction l as [|x l IH]; intros H; cbn; [lra|]. assert (0 <= x) by (apply H; now left). assert (0 <= Rsum l) by (apply IH; intros y Hy; apply H; now right). lra. Qed.
Lemma Rsum_pos' l y : (forall x, In x l -> 0 <= x) -> In y l -> 0 < y -> 0 < Rsum l.
Proof.
  induction l as [|x l IH]; intros H Hy Py; [destruct Hy|]. cbn. assert (0 <= x) by (apply H; now left).
  destruct Hy as [->|Hy]; [assert (0 <= Rsum l) by (apply Rsum_nonneg'; intros z Hz; apply H; now right); lra|]. specialize (IH (fun z Hz => H z (or_intror Hz)) Hy Py). lra.
Qed.
Lemma Rsum_map_scale' c l : Rsum (map (fun x => c * x) l) = c * Rsum l.
Proof. induction l as [|x l IH]; cbn; [ring|]. rewrite IH. ring. Qed.
Lemma average_scale c l : average (map (fun x => c * x) l) = c * average l.
Proof. unfold average. rewrite Rsum_map_scale', map_length. unfold Rdiv. ring. Qed.
Lemma average_pos l y : (forall x, In x l -> 0 <= x) -> In y l -> 0 < y -> 0 < average l.
Proof.
  intros H Hy Py. unfold average. apply Rmult_lt_0_compat; [now apply (Rsum_pos' l y)|]. apply Rinv_0_lt_compat, lt_0_INR. destruct l; [destruct Hy|cbn; lia].
Qed.
(** Where not all edge strengths are equal, the result has no negative pixel and
    mean 1, and is dark (bright, for a dark background) where the edges are strong. *)
Theorem C90_normalised : forall gaussian mat (smooth bright : bool) sigma out, (forall m s, ih (gaussian m s) = ih m /\ iw (gaussian m s) = iw m) ->
  let p := border_of smooth in let e := edges p (if smooth then gaussian mat sigma else mat) in
  convert_chessboard_to_linepattern gaussian mat smooth bright sigma = Ok out ->
  (exists i j k l, in_img mat i j /\ in_img mat k l /\ e i j <> e k l) ->
  average (pixels out) = 1 /\
  forall i j, in_img mat i j -> 0 <= px out i j /\
    ((forall k l, in_img mat k l -> e k l <= e i j) -> bright = true -> px out i j = 0) /\
    forall k l, in_img mat k l -> (px out i j < px out k l <-> if bright then e k l < e i j else e i j < e k l).
Proof.
  intros g mat smooth bright sigma out G p e H (i1 & j1 & i2 & j2 & I1 & I2 & Ne).
  assert (D : (ih mat <= 2 * p \/ iw mat <= 2 * p)%Z \/ (2 * p < ih mat)%Z /\ (2 * p < iw mat)%Z) by lia.
  destruct D as [D|[Dh Dw]]; [rewrite (C90_small g mat smooth bright sigma G D) in H; discriminate|].
  destruct (C90_pixels g mat smooth bright sigma G Dh Dw) as (top & out' & Tin & Tmax & E & O1 & O2 & V). cbn zeta in V, Tin, Tmax. rewrite H in E. apply Ok_inj in E. subst out'.
  fold p in V, Tin, Tmax. fold e in V, Tin, Tmax. set (v := fun i j => if bright then top - e i j else e i j) in *. set (W := mkimg (ih mat) (iw mat) v) in *.
  assert (E0 : forall i j, 0 <= e i j). { intros i j. unfold e, edges, edge_strength. match goal with |- 0 <= (Rabs ?a / 2 + Rabs ?b / 2) / 2 => pose proof (Rabs_pos a); pose proof (Rabs_pos b); lra end. }
  assert (V0 : forall i j, in_img mat i j -> 0 <= v i j). { intros i j Hij. unfold v. specialize (Tmax i j Hij). specialize (E0 i j). destruct bright; lra. }
  assert (A : 0 < average (pixels W)).
  { assert (X : exists i j, in_img mat i j /\ 0 < v i j).
    { pose proof (Tmax i1 j1 I1). pose proof (Tmax i2 j2 I2). pose proof (E0 i1 j1). pose proof (E0 i2 j2). unfold v. destruct (Rlt_dec (e i1 j1) (e i2 j2)), bright.
      - exists i1, j1. split; [assumption|lra]. - exists i2, j2. split; [assumption|lra]. - exists i2, j2. split; [assumption|lra]. - exists i1, j1. split; [assumption|lra]. }
    destruct X as (i & j & Hij & P). apply (average_pos _ (v i j)); [|apply in_pixels; exists i, j; split; [exact Hij|reflexivity]|assumption].
    intros x Hx. apply in_pixels in Hx. destruct Hx as (a & b & Hab & ->). apply V0. exact Hab. }
  set (c := average (pixels W)) in *. assert (C : 0 < / c) by now apply Rinv_0_lt_compat. split.
  - rewrite (pixels_eq out (img_map (fun x => / c * x) W)).
    + rewrite PrepImgFacts4.pixels_map, average_scale. fold c. field. lra.
    + split; [exact O1|]. split; [exact O2|]. intros i j Hij. unfold in_img in Hij. rewrite O1, O2 in Hij. rewrite V by exact Hij. unfold W, v, Rdiv. cbn [img_map px]. apply Rmult_comm.
  - intros i j Hij. rewrite V by assumption. split; [apply Rmult_le_pos; [now apply V0|lra]|]. split.
    + intros M ->. unfold v. destruct Tin as (a & b & Hab & Eab). specialize (M a b Hab). specialize (Tmax i j Hij). replace (top - e i j) with 0 by lra. unfold Rdiv. ring.
    + intros k l Hkl. rewrite V by assumption. unfold Rdiv. split.
      * intros L. apply Rmult_lt_reg_r in L; [|assumption]. unfold v in L. destruct bright; lra.
      * intros L. apply Rmult_lt_compat_r; [assumption|]. unfold v. destruct bright; lra.
Qed.
Print Assumptions C90_normalised.
(** A change of brightness and contrast, including the exchange of black and
    white, does not change the result. *)
Theorem C90_contrast : forall gaussian mat (smooth bright : bool) sigma a b, (forall m s, ih (gaussian m s) = ih m /\ iw (gaussian m s) = iw m) ->
  (smooth = true -> forall i j, px (gaussian (affine_image a b mat) sigma) i j = a * px (gaussian mat sigma) i j + b) -> a <> 0 ->
  match convert_chessboard_to_linepattern gaussian mat smooth bright sigma, convert_chessboard_to_linepattern gaussian (affine_image a b mat) smooth bright sigma with
  | Ok out, Ok out' => img_eq out out'
  | Err x, Err x' => x = x'
  | _, _ => False
  end.
Proof.
  intros g mat smooth bright sigma a b G GA Ha.
  assert (D : (ih mat <= 2 * border_of smooth \/ iw mat <= 2 * border_of smooth)%Z \/ (2 * border_of smooth < ih mat)%Z /\ (2 * border_of smooth < iw mat)%Z) by (destruct smooth; lia).
  destruct D as [D|[Dh Dw]]; [rewrite (C90_small g mat smooth bright sigma G D), (C90_small g (affine_image a b mat) smooth bright sigma G D); reflexivity|].
  destruct (C90_pixels g mat smooth bright sigma G Dh Dw) as (top & out & Tin & Tmax & E & O1 & O2 & V).
  destruct (C90_pixels g (affine_image a b mat) smooth bright sigma G Dh Dw) as (top' & out' & Tin' & Tmax' & E' & O1' & O2' & V'). cbn zeta in *. rewrite E, E'.
  set (p := border_of smooth) in *. set (e := edges p (if smooth then g mat sigma else mat)) in *.
  assert (Ee : forall i j, edges p (if smooth then g (affine_image a b mat) sigma else affine_image a b mat) i j = Rabs a * e i j).
  { intros i j. unfold e, edges.
    assert (Q : forall (m m' : image R), ih m' = ih m -> iw m' = iw m -> (forall i j, px m' i j = a * px m i j + b) -> edge_strength m' (into p (ih m' - 1 - p) i) (into p (iw m' - 1 - p) j) = Rabs a * edge_strength m (into p (ih m - 1 - p) i) (into p (iw m - 1 - p) j)).
    { intros m m' h1 h2 h3. rewrite h1, h2. unfold edge_strength. rewrite !h3.
      match goal with |- (Rabs ?x / 2 + Rabs ?y / 2) / 2 = Rabs a * ((Rabs ?u / 2 + Rabs ?v / 2) / 2) => replace x with (a * u) by ring; replace y with (a * v) by ring end.
      rewrite !Rabs_mult. field. }
    destruct smooth; apply Q; try reflexivity.
    - rewrite (proj1 (G _ _)), (proj1 (G _ _)). reflexivity. - rewrite (proj2 (G _ _)), (proj2 (G _ _)). reflexivity. - apply GA. reflexivity. }
  assert (Pa : 0 < Rabs a) by now apply Rabs_pos_lt.
  assert (Et : top' = Rabs a * top).
  { destruct Tin as (i1 & j1 & I1 & <-). destruct Tin' as (i2 & j2 & I2 & <-). rewrite Ee. pose proof (Tmax i2 j2 I2). pose proof (Tmax' i1 j1 I1) as T2. rewrite !Ee in T2. apply Rle_antisym; nra. }
  split; [rewrite O1; symmetry; exact O1'|]. split; [rewrite O2; symmetry; exact O2'|]. intros i j Hij. unfold in_img in Hij. rewrite O1, O2 in Hij. rewrite V by exact Hij. rewrite V' by exact Hij.
  match goal with |- _ / average (pixels ?A) = _ / average (pixels ?B) => assert (PB : pixels B = map (fun x => Rabs a * x) (pixels A)) end.
  { rewrite <- PrepImgFacts4.pixels_map. apply pixels_eq. split; [reflexivity|]. split; [reflexivity|]. intros k l _. cbn [px img_map]. rewrite Ee. subst top'. destruct bright; ring. }
  rewrite PB, average_scale. rewrite Ee. subst top'. set (A := average _). unfold Rdiv. rewrite Rinv_mult.
  assert (K : forall x, x * / A = Rabs a * x * (/ Rabs a * / A)). { intros x. replace (Rabs a * x * (/ Rabs a * / A)) with (Rabs a * / Rabs a * (x * / A)) by ring. rewrite Rinv_r by lra. ring. }
  rewrite K. destruct bright; ring.
Qed.
Print Assumptions C90_contrast.
(** A uniform image: in double precision every pixel of the result is NaN. *)
Definition zero_or_nan (x : PrimFloat.float) : Prop := match Prim2SF x with S754_zero _ => True | S754_nan => True | _ => False end.
Section Uniform.
  Local Existing Instance FloatNum.
  Lemma zn_sub_self c : zero_or_nan (c - c).
  Proof.
    unfold zero_or_nan. rewrite sub_spec. unfold SF64sub, SFsub. destruct (Prim2SF c) as [[]|[]| |s m e]; try exact I.
    rewrite Z.min_id. unfold SFsub. rewrite Z.sub_diag. destruct s; cbn; rewrite ?Z.pos_sub_diag; exact I.
  Qed.
  Lemma zn_div x y : zero_or_nan x -> zero_or_nan (x / y).
  Proof. unfold zero_or_nan. rewrite div_spec. unfold SF64div. destruct (Prim2SF x) as [[]|[]| |[] ? ?]; destruct (Prim2SF y) as [[]|[]| |[] ? ?]; cbn; tauto. Qed.
  Lemma zn_div2 x y : zero_or_nan x -> zero_or_nan y -> Prim2SF (x / y) = S754_nan.
  Proof. unfold zero_or_nan. rewrite div_spec. unfold SF64div. destruct (Prim2SF x) as [[]|[]| |[] ? ?]; destruct (Prim2SF y) as [[]|[]| |[] ? ?]; cbn; tauto. Qed.
  Lemma zn_add x y : zero_or_nan x -> zero_or_nan y -> zero_or_nan (x + y).
  Proof. unfold zero_or_nan. rewrite add_spec. unfold SF64add. destruct (Prim2SF x) as [[]|[]| |[] ? ?]; destruct (Prim2SF y) as [[]|[]| |[] ? ?]; cbn; tauto. Qed.
  Lemma zn_sub x y : zero_or_nan x -> zero_or_nan y -> zero_or_nan (x - y).
  Proof. unfold zero_or_nan. rewrite sub_spec. unfold SF64sub. destruct (Prim2SF x) as [[]|[]| |[] ? ?]; destruct (Prim2SF y) as [[]|[]| |[] ? ?]; cbn; tauto. Qed.
  Lemma zn_abs x : zero_or_nan x -> zero_or_nan (PrimFloat.abs x).
  Proof. unfold zero_or_nan. rewrite abs_spec. destruct (Prim2SF x); cbn; tauto. Qed.
  Lemma zn_sum l : forall a, zero_or_nan a -> (forall x, In x l -> zero_or_nan x) -> zero_or_nan (fold_left nadd l a).
  Proof. induction l as [|x l IH]; intros a Ha H; [assumption|]. cbn [fold_left]. apply IH; [apply zn_add; [assumption|apply H; now left]|intros y Hy; apply H; now right]. Qed.
  Lemma zn_mean l : (forall x, In x l -> zero_or_nan x) -> zero_or_nan (mean l).
  Proof. intros H. apply zn_div, zn_sum; [exact I|assumption]. Qed.
  Lemma zn_max l m : namax l = Ok m -> (forall x, In x l -> zero_or_nan x) -> zero_or_nan m.
  Proof.
    destruct l as [|a l]; [discriminate|]. intros E H. apply Ok_inj in E. subst m.
    assert (Ha : zero_or_nan a) by (apply H; now left). assert (Hl : forall x, In x l -> zero_or_nan x) by (intros x Hx; apply H; now right). clear H.
    revert a Ha. induction l as [|x l IH]; intros a Ha; [assumption|]. cbn [fold_left]. apply IH; [intros y Hy; apply Hl; now right|]. unfold nmax. destruct (nltb a x); [apply Hl; now left|assumption].
  Qed.
  Theorem C90_uniform_nan : forall gaussian mat (smooth bright : bool) sigma out c, (forall m s, ih (gaussian m s) = ih m /\ iw (gaussian m s) = iw m) ->
    let s := if smooth then gaussian mat sigma else mat in (forall i j, in_img s i j -> px s i j = c) ->
    @convert_chessboard_to_linepattern PrimFloat.float FloatNum gaussian mat smooth bright sigma = Ok out ->
    forall i j, in_img mat i j -> Prim2SF (px out i j) = S754_nan.
  Proof.
    intros g mat smooth bright sigma out c G s Hc E i j Hij. unfold convert_chessboard_to_linepattern in E. fold s in E. cbn zeta in E.
    destruct ((ih s <? 2) || (iw s <? 2))%bool%Z eqn:B2; [discriminate|]. apply Bool.orb_false_iff in B2. rewrite !Z.ltb_ge in B2.
    match type of E with context[replicate_border 2 ?m] => set (gm := m) in E end.
    assert (Gm : forall a b, in_img s a b -> zero_or_nan (px gm a b)).
    { intros a b Hab. unfold gm. cbn [px]. apply zn_mean.
      assert (Q : forall n f k, (2 <= n)%Z -> (0 <= k < n)%Z -> (forall k, (0 <= k < n)%Z -> f k = c) -> zero_or_nan (nabs (gradient1 n f k))).
      { intros n f k Hn Hk Hf. apply zn_abs. unfold gradient1. destruct (Z.eqb_spec k 0); [|destruct (Z.eqb_spec k (n - 1))]; rewrite !Hf by lia; apply zn_div, zn_sub_self. }
      unfold in_img in Hab. intros x [<-|[<-|[]]]; apply Q; try lia; intros k Hk; apply Hc; unfold in_img; lia. }
    assert (X : exists m, (if smooth then replicate_border 4 gm else replicate_border 2 gm) = Ok m /\ ih m = ih s /\ iw m = iw s /\ forall a b, zero_or_nan (px m a b)).
    { assert (R1 : (if smooth then replicate_border 4 gm else replicate_border 2 gm) = replicate_border (border_of smooth) gm) by (destruct smooth; reflexivity). rewrite R1 in *. clear R1.
      unfold replicate_border in *. destruct ((ih gm <=? 2 * border_of smooth) || (iw gm <=? 2 * border_of smooth))%bool%Z eqn:B; [discriminate|]. apply Bool.orb_false_iff in B. rewrite !Z.leb_gt in B.
      eexists. split; [reflexivity|]. split; [reflexivity|]. split; [reflexivity|]. intros a b. cbn [px]. apply Gm. unfold in_img. change (ih gm) with (ih s) in *. change (iw gm) with (iw s) in *. destruct smooth; lia. }
    destruct X as [m [Em [M1 [M2 Mz]]]]. rewrite Em in E. cbn [bind] in E.
    assert (Y : exists m2, (if bright then mx <- namax (pixels m) ;; Ok (img_map (fun v => nsub mx v) m) else Ok m) = Ok m2 /\ ih m2 = ih s /\ iw m2 = iw s /\ forall a b, zero_or_nan (px m2 a b)).
    { destruct bright; [|exists m; auto]. destruct (namax (pixels m)) as [mx|x] eqn:Ex; [|discriminate]. cbn [bind]. eexists. split; [reflexivity|]. split; [exact M1|]. split; [exact M2|].
      intros a b. cbn [px img_map]. apply zn_sub; [|apply Mz]. apply (zn_max _ _ Ex). intros x Hx. apply in_pixels in Hx. destruct Hx as (k & l & _ & ->). apply Mz. }
    destruct Y as [m2 [Em2 [_ [_ Nz]]]]. rewrite Em2 in E. cbn [bind] in E. apply Ok_inj in E. subst out. cbn [px img_map]. apply zn_div2; [apply Nz|]. apply zn_mean.
    intros x Hx. apply in_pixels in Hx. destruct Hx as (k & l & _ & ->). cbn [px img_map]. apply zn_abs, Nz.
  Qed.
End Uniform.
Print Assumptions C90_uniform_nan.
Example C90_uniform_ex : match @convert_chessboard_to_linepattern _ FloatNum (fun m _ => m) (mkimg 9 10 (fun _ _ => 7%float)) true true 3%float with
  | Ok out => PrimFloat.is_nan (px out 4%Z 4%Z) | Err _ => false end = true.
Proof. vm_compute. reflexivity. Qed.
(** A 2 x 2 board of 4-pixel squares: row 2 of the result. *)
Example C90_ex : let mat := mkimg 8 8 (fun i j => if Z.odd (i / 4 + j / 4) then 0%float else 1%float) in
  match @convert_chessboard_to_linepattern _ FloatNum (fun m _ => m) mat false true 3%float with
  | Ok out => map (fun j => px out 2%Z j) (zrange 0 8) | Err _ => [] end = [0x1.5555555555555p+0; 0x1.5555555555555p+0; 0x1.5555555555555p+0; 0x1.5555555555555p-1; 0x1.5555555555555p-1; 0x1.5555555555555p+0; 0x1.5555555555555p+0; 0x1.5555555555555p+0]%float.
Proof. vm_compute. reflexivity. Qed.

(** *** C89 *)
(** A projection per angle, depending on the pixels only. *)
Definition radon_oracle (radon : image R -> list R -> list (list R)) (projection : image R -> R -> list R) : Prop :=
  (forall m angles, radon m angles = map (projection m) angles) /\
  (forall m a, (1 <= ih m)%Z -> projection m a <> []) /\
  forall m m' a, img_eq m m' -> projection m a = projection m' a.
Lemma mapM_namax (ls : list (list R)) : (forall l, In l ls -> l <> []) -> exists ms, mapM namax ls = Ok ms /\ length ms = length ls /\
  forall j, (j < length ls)%nat -> In (nth j ms 0) (nth j ls []) /\ forall v, In v (nth j ls []) -> v <= nth j ms 0.
Proof.
  induction ls as [|l ls IH]; intros H; [exists []; repeat split; cbn in *; lia|].
  destruct (IH (fun x Hx => H x (or_intror Hx))) as [ms (E & L & B)].
  destruct (namax l) as [m|] eqn:Em; [|destruct l; [exfalso; now apply (H [] (or_introl eq_refl))|discriminate]].
  exists (m :: ms). cbn [mapM]. rewrite Em. cbn [bind]. rewrite E. cbn [bind]. split; [reflexivity|]. cbn [length]. split; [lia|].
  unfold Rex in Em. apply namax_spec in Em. intros [|j] Hj; cbn [nth]; [tauto|apply B; lia].
Qed.
Lemma nth_narange s e st i d : (i < length (narange s e st))%nat -> nth i (narange s e st) d = s + INR i * st.
Proof.
  unfold narange. cbn [nadd nsub nmul ndiv nofZ Rex Rnum]. intros H. rewrite map_length in H. rewrite (nth_indep _ _ (s + IZR 0 * (s + st - s))) by now rewrite map_length.
  rewrite (map_nth (fun i => s + IZR i * (s + st - s))), (INR_IZR_INZ i).
  assert (E : nth i (zrange 0 (nceil ((e - s) / st))) 0%Z = Z.of_nat i).
  { revert H. unfold zrange. rewrite map_length, seq_length. intros H. rewrite (nth_indep _ _ (Z.of_nat 0)) by now rewrite map_length, seq_length.
    try (rewrite (map_nth Z.of_nat)). try (rewrite (map_nth (fun k => (0 + Z.of_nat k)%Z))). rewrite seq_nth by assumption. lia. }
  rewrite E. ring.
Qed.
Lemma best_column_ok radon proj m angles : radon_oracle radon proj -> (1 <= ih m)%Z -> angles <> [] -> StronglySorted Rlt angles ->
  exists a, best_column radon m angles = Ok (a, proj m a) /\ strongest (proj m) (fun b => In b angles) a.
Proof.
  intros (R1 & R2 & _) Hm Ha Hs. unfold best_column. rewrite R1.
  destruct (mapM_namax (map (proj m) angles)) as [ms (E & L & B)].
  { intros l Hl. apply in_map_iff in Hl. destruct Hl as [a [<- _]]. now apply R2. }
  rewrite E. cbn [bind]. rewrite map_length in L, B. destruct (argmax ms) as [p|] eqn:Ep.
  2:{ destruct ms; [|discriminate]. destruct angles; [congruence|discriminate]. }
  apply (argmax_first _ ms p) in Ep. destruct Ep as [k [-> (K1 & K2 & K3)]]. rewrite L in *.
  assert (Hn : forall j, (j < length angles)%nat -> nth j (map (proj m) angles) [] = proj m (nth j angles 0)).
  { intros j Hj. rewrite (nth_indep _ _ (proj m 0)) by now rewrite map_length. now rewrite map_nth. }
  assert (G : forall {A} (l : list A) d, (k < length l)%nat -> pyget l (Z.of_nat k) = Ok (nth k l d)).
  { intros A l d Hk. now apply pyget_nth. }
  cbn [bind]. rewrite (G _ angles 0 K1). cbn [bind]. rewrite (G _ (map (proj m) angles) []) by now rewrite map_length. cbn [bind].
  rewrite (Hn k K1). eexists. split; [reflexivity|]. split; [now apply nth_In|]. exists (nth k ms 0).
  destruct (B k K1) as [B1 B2]. rewrite (Hn k K1) in B1, B2. split; [assumption|]. split; [assumption|].
  intros b v Hb Hv. destruct (In_nth angles b 0 Hb) as [j [Hj <-]]. destruct (B j Hj) as [C1 C2]. rewrite (Hn j Hj) in C1, C2. specialize (C2 v Hv).
  split; [apply Rle_trans with (nth j ms 0); auto|]. intros Hlt. apply Rle_lt_trans with (nth j ms 0); [assumption|]. apply K3.
  destruct (Nat.lt_trichotomy j k) as [?|[->|Hkj]]; [assumption|exfalso; lra|]. exfalso.
  clear - Hs Hkj Hj Hlt. revert k j Hkj Hj Hlt. induction angles as [|x l IH]; intros k j Hkj Hj Hlt; [cbn in Hj; lia|].
  apply StronglySorted_inv in Hs. destruct Hs as [Hs F]. destruct j as [|j]; [lia|]. cbn [length nth] in *. destruct k as [|k].
  - rewrite Forall_forall in F. assert (Hj' : (j < length l)%nat) by lia. specialize (F (nth j l 0) (nth_In l 0 Hj')). lra.
  - apply (IH Hs k j); [lia|lia|assumption].
Qed.
Lemma strongest_ext f P Q a : (forall b, P b <-> Q b) -> strongest f P a -> strongest f Q a.
Proof. intros H [H1 [w (W1 & W2 & W3)]]. split; [now apply H|]. exists w. split; [assumption|]. split; [assumption|]. intros b v Hb. apply W3. now apply H. Qed.
Lemma sorted_nth (l : list R) : (forall i j, (i < j)%nat -> (j < length l)%nat -> nth i l 0 < nth j l 0) -> StronglySorted Rlt l.
Proof.
  induction l as [|x l IH]; intros H; constructor.
  - apply IH. intros i j Hij Hj. apply (H (S i) (S j)); cbn [length]; lia.
  - rewrite Forall_forall. intros y Hy. destruct (In_nth l y 0 Hy) as [k [Hk <-]]. apply (H O (S k)); cbn [length]; lia.
Qed.
Lemma narange_sorted s e st : 0 < st -> StronglySorted Rlt (narange s e st).
Proof. intros H. apply sorted_nth. intros i j Hij Hj. rewrite !nth_narange by lia. apply lt_INR in Hij. nra. Qed.
Lemma in_narange s e st : 0 < st -> forall a, In a (narange s e st) <-> exists k, (0 <= k)%Z /\ a = s + IZR k * st /\ a < e.
Proof.
  intros H. destruct (arange_R s e st H) as [l [E Hl]]. unfold arange_chk in E.
  match type of E with (if ?c then _ else _) = _ => destruct c; [discriminate|] end. apply Ok_inj in E. subst l. exact Hl.
Qed.
Lemma disc_pixel (m roi : image R) k f : (0 <= k)%Z -> ih roi = (2 * k)%Z -> iw roi = (2 * k)%Z ->
  (forall i j, in_img roi i j -> px roi i j = f (px m (ih m / 2 - k + i)%Z (iw m / 2 - k + j)%Z)) ->
  img_eq (img_mul roi (make_circle_mask (ih roi) (nofQ 92 100))) (central_disc m k f).
Proof.
  intros Hk H1 H2 H. unfold img_mul, central_disc. split; [assumption|]. split; [assumption|]. intros i j Hij. cbn [px]. rewrite H1.
  rewrite (H i j) by exact Hij. unfold make_circle_mask. cbn [px]. replace (2 * k / 2)%Z with k by (rewrite Z.mul_comm; symmetry; apply Z.div_mul; lia).
  unnum. cbv zeta. set (q := 92 / 100 * IZR k). replace (q ^ 2) with (q * q) by ring.
  replace ((j - k) * (j - k) + (i - k) * (i - k))%Z with ((i - k) * (i - k) + (j - k) * (j - k))%Z by ring.
  destruct (Rle_bool_spec (IZR ((i - k) * (i - k) + (j - k) * (j - k))) (q * q)); destruct (Rle_dec (IZR ((i - k) * (i - k) + (j - k) * (j - k))) (q * q)); try lra; ring.
Qed.
(** The image searched, before the square is cut out. *)
Definition prepared gaussian gaussian3 (mat : image R) (denoise chessboard : bool) (m : image R) : Prop :=
  exists c, (if chessboard then convert_chessboard_to_linepattern gaussian mat true true 3 = Ok c else c = mat) /\ m = if denoise then gaussian3 c else c.
Definition half_side (m : image R) (ratio : R) : Z := (Ztrunc (clamp ratio (5 / 100) 1 * IZR (Z.min (ih m) (iw m))) / 2)%Z.
Lemma square_exact m ratio : (1 <= ih m)%Z -> (1 <= iw m)%Z -> let roi := select_roi m ratio true in let k := half_side m ratio in
  (0 <= k)%Z /\ ih roi = (2 * k)%Z /\ iw roi = (2 * k)%Z /\ forall i j, px roi i j = px m (ih m / 2 - k + i)%Z (iw m / 2 - k + j)%Z.
Proof.
  intros H1 H2. cbv zeta. unfold select_roi, half_side. cbn [nofZ nmul ntrunc Rex Rnum].
  replace (@nclip R Rex ratio (@nofQ R Rex 5 100) (@n1 R Rex)) with (clamp ratio (5 / 100) 1) by (symmetry; apply nclip_R; change (5 / 100 <= 1); lra).
  set (s := Z.min (ih m) (iw m)). set (r := clamp ratio (5 / 100) 1). assert (Hr : 0 <= r <= 1).
  { unfold r, clamp. split; [apply Rle_trans with (5/100); [lra|apply Rmax_l]|]. apply Rmax_lub; [lra|apply Rmin_r]. }
  assert (Hs : (1 <= s)%Z) by (unfold s; lia). assert (Hs' : 1 <= IZR s) by (now apply IZR_le). set (t := Ztrunc (r * IZR s)).
  assert (Ht : (0 <= t <= s)%Z).
  { unfold t. rewrite Ztrunc_floor by nra. split; [apply Zfloor_lub; nra|]. apply le_IZR. apply Rle_trans with (r * IZR s); [apply Zfloor_lb|nra]. }
  set (k := (t / 2)%Z). assert (Hk : (0 <= k /\ 2 * k <= s)%Z) by (unfold k; split; [apply Z.div_pos; lia|]; pose proof (Z.mul_div_le t 2); lia).
  assert (Q1 : (k <= ih m / 2)%Z) by (apply Z.div_le_lower_bound; unfold s in Hk; lia). assert (Q2 : (k <= iw m / 2)%Z) by (apply Z.div_le_lower_bound; unfold s in Hk; lia).
  pose proof (Z.mul_div_le (ih m) 2). pose proof (Z.mul_div_le (iw m) 2).
  split; [lia|]. unfold slice2. cbn [ih iw px].
  assert (B : forall n v, (0 <= v <= n)%Z -> slice_bound n v = v). { intros n v Hv. unfold slice_bound. destruct (Z.ltb_spec v 0); lia. }
  assert (Z.min (ih m) (iw m) = s) by reflexivity.
  rewrite !B by lia. split; [lia|]. split; [lia|]. reflexivity.
Qed.
(** Median of the distances of neighbours when there are more than three
    points, mean otherwise. *)
Definition typical (pts : list R) (d : R) : Prop :=
  ((3 < size pts)%Z -> is_median (gaps pts) d) /\ ((size pts <= 3)%Z -> d = average (gaps pts)).
Lemma gaps_ok (l : list R) : map nabs (ndiff l) = gaps l.
Proof.
  induction l as [|a [|b l] IH]; [reflexivity|reflexivity|]. change (ndiff (a :: b :: l)) with ((b - a) :: ndiff (b :: l)).
  cbn [map]. rewrite IH. unfold gaps. cbn [length]. replace (S (S (length l)) - 1)%nat with (S (length l)) by lia. replace (S (length l) - 1)%nat with (length l) by lia.
  cbn [seq map nth]. f_equal. rewrite <- seq_shift, map_map. reflexivity.
Qed.
Lemma typical_ok (l : list R) : typical l (typical_gap l).
Proof.
  unfold typical, typical_gap. rewrite gaps_ok. unfold size. split; intros H; destruct (Z.ltb_spec 3 (Z.of_nat (length l))); try lia.
  - apply median_spec. intros E. apply (f_equal (@length R)) in E. unfold gaps in E. rewrite map_length, seq_length in E. cbn in E. lia.
  - apply mean_average.
Qed.
Lemma fine_ok c a : In a (narange (c - 1) (c + 105/100) (5/100)) <-> fine c a.
Proof.
  rewrite in_narange by lra. unfold fine. split.
  - intros [k (H1 & -> & H2)]. exists k. split; [|lra]. split; [assumption|]. assert (IZR k < 41) by lra. apply lt_IZR in H. lia.
  - intros [k (H1 & ->)]. exists k. split; [lia|]. split; [lra|]. assert (IZR k <= 40) by (apply IZR_le; lia). lra.
Qed.
Lemma coarse_ok r a : In a (narange (- r) (r + 1) 1) <-> coarse r a.
Proof. rewrite in_narange by lra. unfold coarse. split; intros [k (H1 & H2 & H3)]; exists k; rewrite ?Rmult_1_r in *; auto. Qed.
Lemma sorted_map_shift c l : StronglySorted Rlt l -> StronglySorted Rlt (map (fun a => c + a) l).
Proof. induction 1 as [|x l S IH F]; constructor; [assumption|]. rewrite Forall_forall in *. intros y Hy. apply in_map_iff in Hy. destruct Hy as [z [<- Hz]]. specialize (F z Hz). lra. Qed.
Section Slope.
  Variables (polyfit : list R -> list R -> nat -> res (list R)) (exp_ : R -> R) (cf : list R -> list R -> option (R * R * R * R))
    (gf : list R -> R -> list R) (argsort : list R -> list nat) (g3 : list R -> list R) (gaussian : image R -> R -> image R)
    (radon : image R -> list R -> list (list R)) (gaussian3 : image R -> image R) (projection : image R -> R -> list R).
  Hypothesis RO : radon_oracle radon projection.
  Variables (mat : image R) (ratio range : R) (radius : Z) (sensitive : R) (bright denoise norm subpixel chessboard : bool) (select : option (@peak_args R)) (m : image R).
  Hypothesis P : prepared gaussian gaussian3 mat denoise chessboard m.
  Hypotheses (Hh : (1 <= ih m)%Z) (Hw : (1 <= iw m)%Z) (Hr : - (1/2) < range).
  Let k := half_side m ratio.
  Hypothesis Hk : (1 <= k)%Z.
  Lemma roi_ok : exists roi top, line_roi gaussian gaussian3 mat ratio bright denoise chessboard = Ok roi /\ (bright = true -> square_top m k top) /\
    (1 <= ih roi)%Z /\
    img_eq (img_mul roi (make_circle_mask (ih roi) (nofQ 92 100))) (central_disc m k (fun v => if bright then top - v else v)).
  Proof.
    destruct P as [c [Hc Hm]]. unfold line_roi. assert (Ec : (if chessboard then convert_chessboard_to_linepattern gaussian mat true true (nofZ 3) else Ok mat) = Ok c) by (destruct chessboard; [exact Hc|now f_equal]).
    rewrite Ec. cbn [bind]. rewrite <- Hm. destruct (square_exact m ratio Hh Hw) as (_ & S1 & S2 & S3). fold k in S1, S2, S3. set (roi := select_roi m ratio true) in *.
    destruct bright.
    - destruct (namax (pixels roi)) as [top|] eqn:E.
      2:{ exfalso. destruct (pixels roi) eqn:Ep; [|discriminate]. apply (pixels_nonempty roi) in Ep; lia. }
      cbn [bind]. eexists _, top. split; [reflexivity|]. unfold Rex in E. apply namax_spec in E. destruct E as [E1 E2]. split; [intros _|].
      + apply in_pixels in E1. destruct E1 as [i [j [E1 E3]]]. split.
        * exists i, j. rewrite <- S3. split; [|congruence]. destruct E1. lia.
        * intros i' j' H. rewrite <- S3. apply E2. apply in_pixels. exists i', j'. split; [unfold in_img; lia|reflexivity].
      + split; [cbn [ih img_map]; lia|]. apply (disc_pixel m (img_map (fun v => top - v) roi) k); [lia|exact S1|exact S2|]. intros i j _. cbn [px img_map]. now rewrite S3.
    - exists roi, 0. split; [reflexivity|]. split; [discriminate|]. split; [lia|]. apply disc_pixel; [lia|assumption|assumption|]. intros i j _. apply S3.
  Qed.
  Theorem ver_lines_ok :
    exists top a1 a2, (bright = true -> square_top m k top) /\
    let disc := central_disc m k (fun v => if bright then top - v else v) in
    strongest (projection disc) (coarse range) a1 /\ strongest (projection disc) (fine a1) a2 /\
    let found := get_local_extrema_points polyfit exp_ cf gf argsort g3 (projection disc a2) true radius sensitive denoise norm subpixel select in
    let result := calc_slope_distance_ver_lines polyfit exp_ cf gf argsort g3 gaussian radon gaussian3 tan PI mat ratio range radius sensitive bright denoise norm subpixel chessboard select in
    match found with Ok pts => exists d, result = Ok (tan (radians a2), d) /\ typical pts d | Err e => result = Err e end.
  Proof.
    destruct roi_ok as [roi [top (E & Ht & H1 & D)]]. destruct RO as (R1 & R2 & R3).
    set (disc := central_disc m k (fun v => if bright then top - v else v)) in *.
    set (im := img_mul roi (make_circle_mask (ih roi) (nofQ 92 100))) in *.
    assert (Hd : forall a, projection im a = projection disc a) by (intros a; now apply R3).
    assert (Hi : (1 <= ih im)%Z) by exact H1.
    destruct (best_column_ok radon projection im (narange (- range) (range + 1) 1) RO Hi) as [a1 [B1 S1]].
    { intros X. assert (Y : In (- range) []) by (rewrite <- X; apply in_narange; [lra|]; exists 0%Z; split; [lia|lra]). exact Y. }
    { apply narange_sorted. lra. }
    destruct (best_column_ok radon projection im (narange (a1 - 1) (a1 + 105/100) (5/100)) RO Hi) as [a2 [B2 S2]].
    { intros X. assert (Y : In (a1 - 1) []) by (rewrite <- X; apply in_narange; [lra|]; exists 0%Z; split; [lia|lra]). exact Y. }
    { apply narange_sorted. lra. }
    exists top, a1, a2. split; [assumption|]. cbv zeta. fold disc.
    assert (SE : forall Q a, strongest (projection im) Q a -> strongest (projection disc) Q a).
    { intros Q a [Z1 [w (Z2 & Z3 & Z4)]]. split; [assumption|]. exists w. rewrite <- Hd. split; [assumption|]. split; [assumption|]. intros b v. rewrite <- Hd. apply Z4. }
    split; [apply SE; revert S1; apply strongest_ext; apply coarse_ok|]. split; [apply SE; revert S2; apply strongest_ext; apply fine_ok|].
    unfold calc_slope_distance_ver_lines. rewrite E. cbn [bind].
    match goal with |- context[best_column radon ?x (narange ?a ?b ?c)] => change (best_column radon x (narange a b c)) with (best_column radon im (narange (- range) (range + 1) 1)) end.
    rewrite B1. cbn [bind fst snd].
    match goal with |- context[best_column radon ?x (narange ?a ?b ?c)] => change (best_column radon x (narange a b c)) with (best_column radon im (narange (a1 - 1) (a1 + 105/100) (5/100))) end.
    rewrite B2. cbn [bind fst snd]. rewrite Hd.
    destruct (get_local_extrema_points polyfit exp_ cf gf argsort g3 (projection disc a2) true radius sensitive denoise norm subpixel select) as [pts|e]; cbn [bind]; [|reflexivity].
    exists (typical_gap pts). split; [reflexivity|apply typical_ok].
  Qed.
  Theorem hor_lines_ok :
    exists top a1 a2, (bright = true -> square_top m k top) /\
    let disc := central_disc m k (fun v => if bright then top - v else v) in
    strongest (projection disc) (fun a => coarse range (a - 90)) a1 /\ strongest (projection disc) (fine a1) a2 /\
    let found := get_local_extrema_points polyfit exp_ cf gf argsort g3 (projection disc a2) true radius sensitive denoise norm subpixel select in
    let result := calc_slope_distance_hor_lines polyfit exp_ cf gf argsort g3 gaussian radon gaussian3 tan PI mat ratio range radius sensitive bright denoise norm subpixel chessboard select in
    match found with Ok pts => exists d, result = Ok (tan (radians (90 - a2)), d) /\ typical pts d | Err e => result = Err e end.
  Proof.
    destruct roi_ok as [roi [top (E & Ht & H1 & D)]]. destruct RO as (R1 & R2 & R3).
    set (disc := central_disc m k (fun v => if bright then top - v else v)) in *.
    set (im := img_mul roi (make_circle_mask (ih roi) (nofQ 92 100))) in *.
    assert (Hd : forall a, projection im a = projection disc a) by (intros a; now apply R3).
    assert (Hi : (1 <= ih im)%Z) by exact H1.
    destruct (best_column_ok radon projection im (map (fun a => 90 + a) (narange (- range) (range + 1) 1)) RO Hi) as [a1 [B1 S1]].
    { intros X. assert (Y : In (90 + - range) []) by (rewrite <- X; apply (in_map (fun a => 90 + a)); apply in_narange; [lra|]; exists 0%Z; split; [lia|lra]). exact Y. }
    { apply sorted_map_shift. apply narange_sorted. lra. }
    destruct (best_column_ok radon projection im (narange (a1 - 1) (a1 + 105/100) (5/100)) RO Hi) as [a2 [B2 S2]].
    { intros X. assert (Y : In (a1 - 1) []) by (rewrite <- X; apply in_narange; [lra|]; exists 0%Z; split; [lia|lra]). exact Y. }
    { apply narange_sorted. lra. }
    exists top, a1, a2. split; [assumption|]. cbv zeta. fold disc.
    assert (SE : forall Q a, strongest (projection im) Q a -> strongest (projection disc) Q a).
    { intros Q a [Z1 [w (Z2 & Z3 & Z4)]]. split; [assumption|]. exists w. rewrite <- Hd. split; [assumption|]. split; [assumption|]. intros b v. rewrite <- Hd. apply Z4. }
    split.
    { apply SE. revert S1. apply strongest_ext. intros b. rewrite in_map_iff, <- coarse_ok. split; [intros [x [<- Hx]]; now replace (90 + x - 90) with x by ring|].
      intros Hb. exists (b - 90). split; [ring|assumption]. }
    split; [apply SE; revert S2; apply strongest_ext; apply fine_ok|].
    unfold calc_slope_distance_hor_lines. rewrite E. cbn [bind].
    match goal with |- context[best_column radon ?x (map ?f (narange ?a ?b ?c))] => change (best_column radon x (map f (narange a b c))) with (best_column radon im (map (fun u => 90 + u) (narange (- range) (range + 1) 1))) end.
    rewrite B1. cbn [bind fst snd].
    match goal with |- context[best_column radon ?x (narange ?a ?b ?c)] => change (best_column radon x (narange a b c)) with (best_column radon im (narange (a1 - 1) (a1 + 105/100) (5/100))) end.
    rewrite B2. cbn [bind fst snd]. rewrite Hd.
    destruct (get_local_extrema_points polyfit exp_ cf gf argsort g3 (projection disc a2) true radius sensitive denoise norm subpixel select) as [pts|e]; cbn [bind]; [|reflexivity].
    exists (typical_gap pts). split; [|apply typical_ok]. do 3 f_equal. change (- (a2 - 90) * PI / 180 = radians (90 - a2)). unfold radians. lra.
  Qed.
End Slope.
Theorem C89_vertical_lines : forall polyfit exp_ cf gf argsort g3 gaussian radon gaussian3 projection, radon_oracle radon projection ->
  forall mat ratio range radius sensitive (bright denoise norm subpixel chessboard : bool) select m,
  prepared gaussian gaussian3 mat denoise chessboard m -> (1 <= ih m)%Z -> (1 <= iw m)%Z -> - (1/2) < range ->
  let k := half_side m ratio in (1 <= k)%Z ->
  exists top a1 a2, (bright = true -> square_top m k top) /\
  let disc := central_disc m k (fun v => if bright then top - v else v) in
  strongest (projection disc) (coarse range) a1 /\ strongest (projection disc) (fine a1) a2 /\
  let found := get_local_extrema_points polyfit exp_ cf gf argsort g3 (projection disc a2) true radius sensitive denoise norm subpixel select in
  let result := calc_slope_distance_ver_lines polyfit exp_ cf gf argsort g3 gaussian radon gaussian3 tan PI mat ratio range radius sensitive bright denoise norm subpixel chessboard select in
  match found with Ok pts => exists d, result = Ok (tan (radians a2), d) /\ typical pts d | Err e => result = Err e end.
Proof. intros. now apply ver_lines_ok. Qed.
Print Assumptions C89_vertical_lines.
Theorem C89_horizontal_lines : forall polyfit exp_ cf gf argsort g3 gaussian radon gaussian3 projection, radon_oracle radon projection ->
  forall mat ratio range radius sensitive (bright denoise norm subpixel chessboard : bool) select m,
  prepared gaussian gaussian3 mat denoise chessboard m -> (1 <= ih m)%Z -> (1 <= iw m)%Z -> - (1/2) < range ->
  let k := half_side m ratio in (1 <= k)%Z ->
  exists top a1 a2, (bright = true -> square_top m k top) /\
  let disc := central_disc m k (fun v => if bright then top - v else v) in
  strongest (projection disc) (fun a => coarse range (a - 90)) a1 /\ strongest (projection disc) (fine a1) a2 /\
  let found := get_local_extrema_points polyfit exp_ cf gf argsort g3 (projection disc a2) true radius sensitive denoise norm subpixel select in
  let result := calc_slope_distance_hor_lines polyfit exp_ cf gf argsort g3 gaussian radon gaussian3 tan PI mat ratio range radius sensitive bright denoise norm subpixel chessboard select in
  match found with Ok pts => exists d, result = Ok (tan (radians (90 - a2)), d) /\ typical pts d | Err e => result = Err e end.
Proof. intros. now apply hor_lines_ok. Qed.
Print Assumptions C89_horizontal_lines.
(** Both functions with the same signature. *)
Notation slope_distance horizontal := (if horizontal : bool then @calc_slope_distance_hor_lines R Rex else @calc_slope_distance_ver_lines R Rex).
(** The slope never exceeds that of the search range by more than the fine
    search: for a range of a whole or half number of degrees below 89, the
    tangent of one degree more. *)
Theorem C89_slope_range : forall (horizontal : bool) polyfit exp_ cf gf argsort g3 gaussian radon gaussian3 projection, radon_oracle radon projection ->
  forall mat ratio n radius sensitive (bright denoise norm subpixel chessboard : bool) select m,
  prepared gaussian gaussian3 mat denoise chessboard m -> (1 <= ih m)%Z -> (1 <= iw m)%Z ->
  (1 <= half_side m ratio)%Z -> (0 <= n < 178)%Z ->
  forall slope d, slope_distance horizontal polyfit exp_ cf gf argsort g3 gaussian radon gaussian3 tan PI mat ratio (IZR n / 2) radius sensitive bright denoise norm subpixel chessboard select = Ok (slope, d) ->
  Rabs slope <= tan (radians (IZR n / 2 + 1)).
Proof.
  assert (B : forall n a1 a2, (0 <= n < 178)%Z -> coarse (IZR n / 2) a1 -> fine a1 a2 -> Rabs a2 <= IZR n / 2 + 1).
  { intros n a1 a2 Hn [k (K1 & K2 & K3)] [j (J1 & J2)]. assert (IZR k < IZR (n + 1)) by (rewrite plus_IZR; lra). apply lt_IZR in H.
    assert (IZR k <= IZR n) by (apply IZR_le; lia). apply IZR_le in K1. destruct J1 as [J0 J1]. apply IZR_le in J0, J1. apply Rabs_le. lra. }
  assert (Tn : forall n a, (0 <= n < 178)%Z -> Rabs a <= IZR n / 2 + 1 -> Rabs (tan (radians a)) <= tan (radians (IZR n / 2 + 1))).
  { intros n a Hn Ha. pose proof PI_RGT_0. assert (IZR n <= 177) by (apply IZR_le; lia). assert (0 <= IZR n) by (apply IZR_le; lia).
    assert (I : forall x y, - 90 < x -> x <= y -> y < 90 -> tan (radians x) <= tan (radians y)).
    { intros x y H2 H3 H4. unfold radians. destruct (Rle_lt_or_eq_dec _ _ H3) as [L| ->]; [|lra]. left. apply tan_increasing; nra. }
    apply Rabs_le_inv in Ha. apply Rabs_le. split; [|apply I; lra].
    replace (- tan (radians (IZR n / 2 + 1))) with (tan (radians (- (IZR n / 2 + 1)))) by (rewrite radians_opp, tan_neg; reflexivity). apply I; lra. }
  intros hor polyfit exp_ cf gf argsort g3 gaussian radon gaussian3 proj RO mat ratio n radius sens bright denoise norm sub chess select m Pm H1 H2 Hk Hn slope d E.
  assert (Hr : - (1/2) < IZR n / 2) by (assert (0 <= IZR n) by (apply IZR_le; lia); lra).
  destruct hor.
  - destruct (C89_horizontal_lines polyfit exp_ cf gf argsort g3 gaussian radon gaussian3 proj RO mat ratio (IZR n / 2) radius sens bright denoise norm sub chess select m Pm H1 H2 Hr Hk) as [top [a1 [a2 (_ & S1 & S2 & F)]]].
    rewrite E in F. destruct (get_local_extrema_points _ _ _ _ _ _ _ _ _ _ _ _ _ _) as [pts|]; [|discriminate]. destruct F as [d' [F _]]. apply Ok_inj in F. injection F as -> _.
    apply Tn; [assumption|]. destruct S1 as [S1 _], S2 as [S2 _]. replace (90 - a2) with (- (a2 - 90)) by ring. rewrite Rabs_Ropp.
    apply (B n (a1 - 90)); [assumption|assumption|]. destruct S2 as [j [J ->]]. exists j. split; [assumption|ring].
  - destruct (C89_vertical_lines polyfit exp_ cf gf argsort g3 gaussian radon gaussian3 proj RO mat ratio (IZR n / 2) radius sens bright denoise norm sub chess select m Pm H1 H2 Hr Hk) as [top [a1 [a2 (_ & S1 & S2 & F)]]].
    rewrite E in F. destruct (get_local_extrema_points _ _ _ _ _ _ _ _ _ _ _ _ _ _) as [pts|]; [|discriminate]. destruct F as [d' [F _]]. apply Ok_inj in F. injection F as -> _.
    apply Tn; [assumption|]. destruct S1 as [S1 _], S2 as [S2 _]. now apply (B n a1).
Qed.
Print Assumptions C89_slope_range.
(** The distance lies between the smallest and the largest distance of
    neighbouring lines; equally spaced lines give their spacing. *)
Theorem C89_distance_bounds : forall pts d lo hi, (2 <= size pts)%Z -> typical pts d -> (forall g, In g (gaps pts) -> lo <= g <= hi) -> lo <= d <= hi.
Proof.
  intros pts d lo hi H2 [T1 T2] H. unfold size in *. assert (L : length (gaps pts) = (length pts - 1)%nat) by (unfold gaps; now rewrite map_length, seq_length).
  destruct (Z.ltb_spec 3 (Z.of_nat (length pts))).
  - destruct (T1 ltac:(lia)) as [s (P & _ & k & K)]. assert (Ls : length s = length (gaps pts)) by now apply Permutation_length.
    assert (I : forall i, (i < length s)%nat -> lo <= nth i s 0 <= hi). { intros i Hi. apply H. apply (Permutation_in _ P). now apply nth_In. }
    destruct K as [[K ->]|[K ->]]; [apply I; lia|]. pose proof (I k ltac:(lia)). pose proof (I (S k) ltac:(lia)). lra.
  - rewrite (T2 ltac:(lia)). unfold average. assert (Pl : 0 < INR (length (gaps pts))) by (apply lt_0_INR; lia).
    assert (S : forall l, (forall g, In g l -> lo <= g <= hi) -> lo * INR (length l) <= Rsum l <= hi * INR (length l)).
    { induction l as [|x l IH]; intros Hl; [cbn; lra|]. cbn [Rsum length]. rewrite S_INR. pose proof (Hl x (or_introl eq_refl)). specialize (IH (fun g Hg => Hl g (or_intror Hg))). lra. }
    specialize (S _ H). split; [apply Rmult_le_reg_r with (INR (length (gaps pts)))|apply Rmult_le_reg_r with (INR (length (gaps pts)))]; try assumption;
    unfold Rdiv; rewrite Rmult_assoc, Rinv_l by lra; lra.
Qed.
Print Assumptions C89_distance_bounds.
Corollary C89_equal_spacing : forall first step n d, (1 <= n)%nat -> 0 < step -> typical (map (fun i => first + INR i * step) (seq 0 (S n))) d -> d = step.
Proof.
  intros f g n d Hn Hg H. enough (A : g <= d <= g) by lra. apply (C89_distance_bounds _ d g g) with (2 := H); [unfold size; rewrite map_length, seq_length; lia|].
  intros x Hx. unfold gaps in Hx. rewrite map_length, seq_length in Hx. apply in_map_iff in Hx. destruct Hx as [i [<- Hi]]. apply in_seq in Hi.
  set (F := fun i : nat => f + INR i * g). rewrite !(nth_indep _ 0 (F O)) by (rewrite map_length, seq_length; lia). fold F. rewrite !map_nth, !seq_nth by lia.
  unfold F. replace (0 + S i)%nat with (S i) by lia. replace (0 + i)%nat with i by lia. rewrite S_INR. replace (f + (INR i + 1) * g - (f + INR i * g)) with g by ring.
  rewrite Rabs_pos_eq; lra.
Qed.
Print Assumptions C89_equal_spacing.
(** Lines darker than the background: a brightness offset changes nothing. *)
Lemma line_roi_offset gaussian gaussian3 mat mat' ratio denoise chessboard m m' c :
  prepared gaussian gaussian3 mat denoise chessboard m -> prepared gaussian gaussian3 mat' denoise chessboard m' ->
  img_eq m' (affine_image 1 c m) -> (1 <= ih m)%Z -> (1 <= iw m)%Z -> (1 <= half_side m ratio)%Z ->
  exists roi roi', line_roi gaussian gaussian3 mat ratio true denoise chessboard = Ok roi /\
    line_roi gaussian gaussian3 mat' ratio true denoise chessboard = Ok roi' /\ (1 <= ih roi)%Z /\
    ih roi = ih roi' /\ img_eq (img_mul roi (make_circle_mask (ih roi) (nofQ 92 100))) (img_mul roi' (make_circle_mask (ih roi') (nofQ 92 100))).
Proof.
  intros P P' (E1 & E2 & E3) Hh Hw Hk. cbn [ih iw affine_image px] in E1, E2, E3.
  assert (K : half_side m' ratio = half_side m ratio) by (unfold half_side; now rewrite E1, E2).
  destruct (roi_ok gaussian gaussian3 mat ratio true denoise chessboard m P Hh Hw Hk) as [roi [top (R1 & R2 & R3 & R4)]].
  destruct (roi_ok gaussian gaussian3 mat' ratio true denoise chessboard m' P' ltac:(lia) ltac:(lia) ltac:(lia)) as [roi' [top' (R1' & R2' & R3' & R4')]].
  exists roi, roi'. split; [assumption|]. split; [assumption|]. split; [assumption|]. rewrite K in *. set (k := half_side m ratio) in *.
  destruct R4 as (A1 & A2 & A3), R4' as (B1 & B2 & B3). cbn [ih iw img_mul central_disc] in A1, A2, B1, B2. split; [lia|].
  assert (Q : (2 * k <= ih m /\ 2 * k <= iw m)%Z).
  { unfold k, half_side. set (s := Z.min (ih m) (iw m)). set (t := Ztrunc (clamp ratio (5 / 100) 1 * IZR s)).
    assert (Hr : 0 <= clamp ratio (5 / 100) 1 <= 1) by (unfold clamp; split; [apply Rle_trans with (5/100); [lra|apply Rmax_l]|apply Rmax_lub; [lra|apply Rmin_r]]).
    assert (Hs' : 1 <= IZR s) by (apply IZR_le; unfold s; lia). assert (Ht : (t <= s)%Z).
    { unfold t. rewrite Ztrunc_floor by nra. apply le_IZR. apply Rle_trans with (clamp ratio (5 / 100) 1 * IZR s); [apply Zfloor_lb|nra]. }
    pose proof (Z.mul_div_le t 2). unfold s in *. lia. }
  assert (Q1 : (k <= ih m / 2)%Z) by (apply Z.div_le_lower_bound; lia). assert (Q2 : (k <= iw m / 2)%Z) by (apply Z.div_le_lower_bound; lia).
  pose proof (Z.mul_div_le (ih m) 2). pose proof (Z.mul_div_le (iw m) 2).
  assert (V : forall i j, (0 <= i < 2 * k)%Z -> (0 <= j < 2 * k)%Z -> px m' (ih m' / 2 - k + i)%Z (iw m' / 2 - k + j)%Z = px m (ih m / 2 - k + i)%Z (iw m / 2 - k + j)%Z + c).
  { intros i j Hi Hj. rewrite E1, E2. rewrite E3 by (unfold in_img; rewrite E1, E2; lia). ring. }
  assert (Tt : top' = top + c).
  { destruct (R2 eq_refl) as [[i [j [Hij Hv]]] Ub], (R2' eq_refl) as [[i' [j' [Hij' Hv']]] Ub']. apply Rle_antisym.
    - rewrite <- Hv', V by tauto. apply Rplus_le_compat_r. now apply Ub.
    - rewrite <- Hv, <- V by tauto. now apply Ub'. }
  split; [cbn [ih img_mul]; lia|]. split; [cbn [iw img_mul]; lia|]. intros i j Hij. rewrite A3 by assumption.
  assert (Hij' : in_img (img_mul roi' (make_circle_mask (ih roi') (nofQ 92 100))) i j) by (unfold in_img in *; cbn [ih iw img_mul] in *; lia).
  rewrite B3 by assumption. unfold central_disc. cbn [px]. destruct (Rle_dec _ _); [|reflexivity]. unfold in_img in Hij. cbn [ih iw img_mul] in Hij.
  rewrite V by lia. rewrite Tt. ring.
Qed.
Lemma best_column_ext radon proj m m' angles : radon_oracle radon proj -> img_eq m m' -> best_column radon m angles = best_column radon m' angles.
Proof.
  intros (R1 & _ & R3) E. unfold best_column. rewrite !R1. replace (map (proj m') angles) with (map (proj m) angles); [reflexivity|].
  apply map_ext. intros a. now apply R3.
Qed.
Theorem C89_brightness : forall (horizontal : bool) polyfit exp_ cf gf argsort g3 gaussian radon gaussian3 projection, radon_oracle radon projection ->
  forall mat mat' c ratio range radius sensitive (denoise norm subpixel chessboard : bool) select m m',
  prepared gaussian gaussian3 mat denoise chessboard m -> prepared gaussian gaussian3 mat' denoise chessboard m' -> img_eq m' (affine_image 1 c m) ->
  (1 <= ih m)%Z -> (1 <= iw m)%Z -> (1 <= half_side m ratio)%Z ->
  slope_distance horizontal polyfit exp_ cf gf argsort g3 gaussian radon gaussian3 tan PI mat' ratio range radius sensitive true denoise norm subpixel chessboard select =
  slope_distance horizontal polyfit exp_ cf gf argsort g3 gaussian radon gaussian3 tan PI mat ratio range radius sensitive true denoise norm subpixel chessboard select.
Proof.
  intros hor polyfit exp_ cf gf argsort g3 gaussian radon gaussian3 proj RO mat mat' c ratio range radius sens denoise norm sub chess select m m' P P' E Hh Hw Hk.
  destruct (line_roi_offset gaussian gaussian3 mat mat' ratio denoise chess m m' c P P' E Hh Hw Hk) as [roi [roi' (L & L' & H1 & H2 & H3)]].
  destruct hor; unfold calc_slope_distance_hor_lines, calc_slope_distance_ver_lines; rewrite L, L'; cbn [bind].
  all: match goal with |- bind (best_column _ _ ?an) _ = _ => rewrite <- (best_column_ext radon proj _ _ an RO H3) end.
  all: destruct (best_column radon (img_mul roi (make_circle_mask (ih roi) (nofQ 92 100))) _) as [c1|]; cbn [bind]; [|reflexivity].
  all: match goal with |- bind (best_column _ _ ?an) _ = _ => rewrite <- (best_column_ext radon proj _ _ an RO H3) end; reflexivity.
Qed.
Print Assumptions C89_brightness.
(** Without smoothing and conversion, the image itself. *)
Corollary C89_brightness_plain : forall (horizontal : bool) polyfit exp_ cf gf argsort g3 gaussian radon gaussian3 projection, radon_oracle radon projection ->
  forall mat c ratio range radius sensitive (norm subpixel : bool) select, (1 <= ih mat)%Z -> (1 <= iw mat)%Z -> (1 <= half_side mat ratio)%Z ->
  slope_distance horizontal polyfit exp_ cf gf argsort g3 gaussian radon gaussian3 tan PI (affine_image 1 c mat) ratio range radius sensitive true false norm subpixel false select =
  slope_distance horizontal polyfit exp_ cf gf argsort g3 gaussian radon gaussian3 tan PI mat ratio range radius sensitive true false norm subpixel false select.
Proof.
  intros. eapply C89_brightness; try eassumption; [exists mat; split; reflexivity|exists (affine_image 1 c mat); split; reflexivity|].
  split; [reflexivity|]. split; reflexivity.
Qed.
(** No line or a single line found: no error, the distance is not a number. *)
Theorem C89_no_distance : forall (horizontal : bool) polyfit exp_ cf gf argsort g3 gaussian radon gaussian3 tan_ pi_ mat ratio range radius sensitive (bright denoise norm subpixel chessboard : bool) select slope d,
  (if horizontal then @calc_slope_distance_hor_lines _ FloatNum polyfit exp_ cf gf argsort g3 gaussian radon gaussian3 tan_ pi_ mat ratio range radius sensitive bright denoise norm subpixel chessboard select
   else @calc_slope_distance_ver_lines _ FloatNum polyfit exp_ cf gf argsort g3 gaussian radon gaussian3 tan_ pi_ mat ratio range radius sensitive bright denoise norm subpixel chessboard select) = Ok (slope, d) ->
  exists disc angles col pts, In col (radon disc angles) /\
  @get_local_extrema_points _ FloatNum polyfit exp_ cf gf argsort g3 col true radius sensitive denoise norm subpixel select = Ok pts /\
  ((size pts <= 1)%Z -> PrimFloat.is_nan d = true).
Proof.
  intros hor polyfit exp_ cf gf argsort g3 gaussian radon gaussian3 tan_ pi_ mat ratio range radius sens bright denoise norm sub chess select slope d E.
  assert (N : forall pts : list PrimFloat.float, (size pts <= 1)%Z -> PrimFloat.is_nan (@typical_gap _ FloatNum pts) = true).
  { intros [|x [|y l]] H; try reflexivity. unfold size in H. cbn [length] in H. lia. }
  assert (C : forall im an c, @best_column _ FloatNum radon im an = Ok c -> In (snd c) (radon im an)).
  { intros im an c H. unfold best_column in H. destruct (mapM namax (radon im an)); [|discriminate]. cbn [bind] in H. destruct (argmax _) as [p|]; [|discriminate]. cbn [bind] in H.
    destruct (pyget an p); [|discriminate]. cbn [bind] in H. destruct (pyget (radon im an) p) eqn:G; [|discriminate]. cbn [bind] in H. apply Ok_inj in H. subst c. cbn [snd].
    unfold pyget in G. destruct (orb _ _); [discriminate|]. destruct (nth_error _ _) eqn:Gn; [|discriminate]. apply Ok_inj in G. subst. eapply nth_error_In. exact Gn. }
  destruct hor; unfold calc_slope_distance_hor_lines, calc_slope_distance_ver_lines in E;
  (destruct (line_roi _ _ _ _ _ _ _) as [roi|]; [|discriminate]); cbn [bind] in E;
  (match type of E with bind ?x _ = _ => destruct x as [c1|] eqn:E1; [|discriminate] end); cbn [bind] in E;
  (match type of E with bind ?x _ = _ => destruct x as [c2|] eqn:E2; [|discriminate] end); cbn [bind] in E;
  (match type of E with bind ?x _ = _ => destruct x as [p2|] eqn:E3; [|discriminate] end); cbn [bind] in E;
  apply Ok_inj in E; injection E as _ <-; apply C in E2; eexists _, _, _, _; (split; [exact E2|]); (split; [exact E3|]); apply N.
Qed.
Print Assumptions C89_no_distance.
(** A region of no pixels. *)
Theorem C89_too_small : forall (horizontal : bool) polyfit exp_ cf gf argsort g3 gaussian radon gaussian3 mat ratio range radius sensitive (denoise norm subpixel chessboard : bool) select m,
  prepared gaussian gaussian3 mat denoise chessboard m -> (1 <= ih m)%Z -> (1 <= iw m)%Z -> half_side m ratio = 0%Z ->
  slope_distance horizontal polyfit exp_ cf gf argsort g3 gaussian radon gaussian3 tan PI mat ratio range radius sensitive true denoise norm subpixel chessboard select = Err ValueError.
Proof.
  intros hor polyfit exp_ cf gf argsort g3 gaussian radon gaussian3 mat ratio range radius sens denoise norm sub chess select m [c [Hc Hm]] Hh Hw Hk.
  assert (L : line_roi gaussian gaussian3 mat ratio true denoise chess = Err ValueError).
  { unfold line_roi. assert (Ec : (if chess then convert_chessboard_to_linepattern gaussian mat true true (nofZ 3) else Ok mat) = Ok c) by (destruct chess; [exact Hc|now f_equal]).
    rewrite Ec. cbn [bind]. rewrite <- Hm. destruct (square_exact m ratio Hh Hw) as (_ & S1 & _). rewrite Hk in S1.
    assert (Ep : pixels (select_roi m ratio true) = []) by (unfold pixels; rewrite S1; reflexivity). rewrite Ep. reflexivity. }
  destruct hor; unfold calc_slope_distance_hor_lines, calc_slope_distance_ver_lines; rewrite L; reflexivity.
Qed.
Print Assumptions C89_too_small.
(** The theorems apply: a projection along the columns, vertical bright lines. *)
Definition column_sums (m : image R) (a : R) : list R :=
  0 :: if Req_EM_T a 0 then map (fun j => Rsum (map (fun i => px m i j) (zrange 0 (ih m)))) (zrange 0 (iw m)) else [].
Lemma column_sums_ok : radon_oracle (fun m angles => map (column_sums m) angles) column_sums.
Proof.
  split; [reflexivity|]. split; [discriminate|]. intros m m' a (H1 & H2 & H). unfold column_sums. f_equal. destruct (Req_EM_T a 0); [|reflexivity].
  rewrite <- H1, <- H2. apply map_ext_in. intros j Hj. f_equal. apply map_ext_in. intros i Hi. apply in_zrange in Hi, Hj. apply H. split; assumption.
Qed.
Definition stripe : image R := mkimg 4 4 (fun _ j => if (j =? 2)%Z then 1 else 0).
Example C89_ex : forall polyfit exp_ cf gf argsort g3 gaussian gaussian3, exists d,
  calc_slope_distance_ver_lines polyfit exp_ cf gf argsort g3 gaussian (fun m angles => map (column_sums m) angles) gaussian3 tan PI stripe 1 30 1 (1/10) false false false false false None = Ok (0, d).
Proof.
  intros polyfit exp_ cf gf argsort g3 gaussian gaussian3.
  assert (K : half_side stripe 1 = 2%Z).
  { unfold half_side, stripe. cbn [ih iw]. unfold clamp. rewrite Rmin_left by lra. rewrite Rmax_right by lra. rewrite Rmult_1_l, Ztrunc_IZR. reflexivity. }
  destruct (C89_vertical_lines polyfit exp_ cf gf argsort g3 gaussian (fun m angles => map (column_sums m) angles) gaussian3 column_sums column_sums_ok
    stripe 1 30 1 (1/10) false false false false false None stripe) as [top [a1 [a2 (_ & S1 & S2 & F)]]]; [exists stripe; split; reflexivity|cbn; lia|cbn; lia|lra|rewrite K; lia|].
  rewrite K in *. cbn zeta in *. set (disc := central_disc stripe 2 (fun v => v)) in *.
  change (central_disc stripe 2 (fun v => if false then top - v else v)) with disc in *.
  assert (Pos : exists v, 0 < v /\ In v (column_sums disc 0)).
  { exists (Rsum (map (fun i => px disc i 2) (zrange 0 4))). split.
    - unfold disc, stripe, central_disc. cbn [px ih iw]. change (zrange 0 4) with [0;1;2;3]%Z. cbn [map Rsum]. change (4 / 2 - 2 + 2 =? 2)%Z with true. cbn iota. replace ((92 / 100 * 2) ^ 2) with (33856 / 10000) by (unfold pow; lra).
      repeat match goal with |- context[Rle_dec (IZR ?z) ?b] => lazymatch z with Zpos _ => fail | Z0 => fail | Zneg _ => fail | _ => idtac end; let v := eval vm_compute in z in change z with v end.
      repeat destruct (Rle_dec _ _); lra.
    - unfold column_sums. destruct (Req_EM_T 0 0); [|lra]. right. apply (in_map (fun j => Rsum (map (fun i => px disc i j) (zrange 0 4)))). apply in_zrange. cbn. lia. }
  destruct Pos as [v [Hv Iv]].
  assert (Z : forall (Q : R -> Prop) a, Q 0 -> strongest (column_sums disc) Q a -> a = 0).
  { intros Q a Q0 [_ [w (W1 & _ & W2)]]. destruct (Req_EM_T a 0) as [|n]; [assumption|]. exfalso. destruct (W2 0 v Q0 Iv) as [W3 _].
    unfold column_sums in W1. destruct (Req_EM_T a 0); [contradiction|]. destruct W1 as [<-|[]]. lra. }
  apply Z in S1; [|exists 30%Z; split; [lia|lra]]. subst a1. apply Z in S2; [|exists 20%Z; split; [lia|lra]]. subst a2.
  assert (D : column_sums disc 0 = [0; 0; 0; 3; 0]).
  { unfold column_sums. destruct (Req_EM_T 0 0); [|lra]. unfold disc, stripe, central_disc. cbn [px ih iw]. change (2 * 2)%Z with 4%Z. change (zrange 0 4) with [0;1;2;3]%Z. cbn [map Rsum].
    repeat match goal with |- context[(4 / 2 - 2 + ?z =? 2)%Z] => let v := eval vm_compute in (4 / 2 - 2 + z =? 2)%Z in change (4 / 2 - 2 + z =? 2)%Z with v end. cbn iota. replace ((92 / 100 * 2) ^ 2) with (33856 / 10000) by (unfold pow; lra).
    repeat match goal with |- context[Rle_dec (IZR ?z) ?b] => lazymatch z with Zpos _ => fail | Z0 => fail | Zneg _ => fail | _ => idtac end; let v := eval vm_compute in z in change z with v end.
    repeat f_equal; repeat destruct (Rle_dec _ _); lra. }
  rewrite D in F. destruct (C60_maximum polyfit exp_ cf gf argsort g3 [0; 0; 0; 3; 0] 1 (1/10) false false None) as [l' [(mx & _ & _ & El) EM]]; [discriminate|].
  destruct (C60_reported polyfit exp_ cf gf argsort g3 l' 1 (1/10)) as [ps [Er _]]; [rewrite El, size_map; cbn; lia|]. rewrite Er in EM. rewrite EM in F.
  destruct F as [d [F _]]. exists d. rewrite F. unfold radians. replace (0 * PI / 180) with 0 by field. now rewrite tan_0.
Qed.
