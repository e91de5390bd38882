(** C109: the correction treats both axes alike. *)
From Coq Require Import Reals ZArith List Lra Lia.
From Flocq Require Import Core.
From Verif Require Import Base Num Img Post Spec NumFacts PostImg PostPersp PostExtra Props_Post.
Import ListNotations.
Local Open Scope R_scope.

(** b is a with rows and columns exchanged. *)
Definition transposed (b a : image R) : Prop :=
  ih b = iw a /\ iw b = ih a /\ forall i j, in_img a j i -> px b i j = px a j i.

(** *** Points *)
(** Exchanging the coordinates of the points and of the centre exchanges the
    coordinates of the result, exactly, however the arithmetic rounds. *)
Theorem C109_points : forall rnd lines xc yc fact,
  @unwarp_line_forward R (Rnum rnd) (map (fun l => (fst l, map swap (snd l))) lines) yc xc fact
  = map (fun l => (fst l, map swap (snd l))) (@unwarp_line_forward R (Rnum rnd) lines xc yc fact).
Proof.
  intros rnd lines xc yc fact. unfold unwarp_line_forward. rewrite !map_map. apply map_ext. intros [d l]. cbn [fst snd].
  f_equal. rewrite !map_map. apply map_ext. intros [y x]. unfold unwarp_dot_forward, swap, py, pxc. cbn [fst snd].
  assert (E : forall a b, @nadd R (Rnum rnd) a b = @nadd R (Rnum rnd) b a) by (intros a b; cbn; f_equal; ring).
  rewrite (E (nmul (nsub y yc) _)). reflexivity.
Qed.
Print Assumptions C109_points.
Theorem C109_points_backward : forall rnd minimize lines xc yc fact,
  @unwarp_line_backward R (Rnum rnd) minimize (map (fun l => (fst l, map swap (snd l))) lines) yc xc fact
  = map (fun l => (fst l, map swap (snd l))) (@unwarp_line_backward R (Rnum rnd) minimize lines xc yc fact).
Proof.
  intros rnd minimize lines xc yc fact. unfold unwarp_line_backward. rewrite !map_map. apply map_ext. intros [d l]. cbn [fst snd].
  f_equal. rewrite !map_map. apply map_ext. intros [y x]. unfold unwarp_dot_backward, swap, py, pxc. cbn [fst snd].
  assert (E : forall a b, @nadd R (Rnum rnd) a b = @nadd R (Rnum rnd) b a) by (intros a b; cbn; f_equal; ring).
  rewrite (E (nmul (nsub y yc) _)). reflexivity.
Qed.
Print Assumptions C109_points_backward.
Example C109_points_case : @unwarp_line_forward R Rex [(DF64, [(4, 3)])] 0 0 [1; 1] = [(DF64, [(24, 18)])].
Proof.
  change [(DF64, [(4, 3)])] with (map (fun l : line => (fst l, map swap (snd l))) [(DF64, [(3, 4)])]).
  unfold Rex. rewrite C109_points. fold Rex. rewrite C01_case. reflexivity.
Qed.
(** Mirror images: reflecting the points and the centre at a column (or row)
    reflects the result. *)
Theorem C109_mirror : forall lines xc yc fact s t sx sy, sx * sx = 1 -> sy * sy = 1 ->
  (forall l, In l lines -> fst l = DF64) ->
  let mir := fun p : pt => (t + sy * py p, s + sx * pxc p) in
  @unwarp_line_forward R Rex (map (fun l => (fst l, map mir (snd l))) lines) (s + sx * xc) (t + sy * yc) fact
  = map (fun l => (fst l, map mir (snd l))) (@unwarp_line_forward R Rex lines xc yc fact).
Proof.
  intros lines xc yc fact s t sx sy Hx Hy Hd mir. unfold unwarp_line_forward. rewrite !map_map. apply map_ext_in. intros [d l] Hl. cbn [fst snd].
  specialize (Hd _ Hl). cbn in Hd. subst d.
  f_equal. rewrite !map_map. apply map_ext. intros [y x]. unfold unwarp_dot_forward, mir, py, pxc. cbn [fst snd store]. cbn [nadd nsub nmul nsqrt Rex Rnum].
  replace (s + sx * x - (s + sx * xc)) with (sx * (x - xc)) by ring. replace (t + sy * y - (t + sy * yc)) with (sy * (y - yc)) by ring.
  replace (sx * (x - xc) * (sx * (x - xc))) with ((sx * sx) * ((x - xc) * (x - xc))) by ring.
  replace (sy * (y - yc) * (sy * (y - yc))) with ((sy * sy) * ((y - yc) * (y - yc))) by ring. rewrite Hx, Hy, !Rmult_1_l. f_equal; ring.
Qed.
Print Assumptions C109_mirror.
Example C109_mirror_case : @unwarp_line_forward R Rex [(DF64, [(3, 100 + -1 * 4)])] 100 0 [1; 1] = [(DF64, [(18, 100 + -1 * 24)])].
Proof.
  assert (H := C109_mirror [(DF64, [(3, 4)])] 0 0 [1; 1] 100 0 (-1) 1 ltac:(lra) ltac:(lra)). cbv zeta in H. rewrite C01_case in H.
  cbn [map fst snd py pxc] in H. rewrite !Rmult_0_r, !Rmult_1_l, !Rplus_0_l, Rplus_0_r in H. apply H. intros l [<-|[]]. reflexivity.
Qed.

(** *** Images *)
Lemma map_swap rnd xc yc fact i j : @map_x R (Rnum rnd) yc xc fact i j = @map_y R (Rnum rnd) xc yc fact j i /\
  @map_y R (Rnum rnd) yc xc fact i j = @map_x R (Rnum rnd) xc yc fact j i.
Proof.
  unfold map_x, map_y.
  assert (E : forall a b, @nadd R (Rnum rnd) a b = @nadd R (Rnum rnd) b a) by (intros a b; cbn; f_equal; ring).
  rewrite (E (npow (nsub (nofZ j) _) 2)). split; reflexivity.
Qed.

(** The interpolation does not prefer an axis. *)
Definition axis_free (interp : image R -> R -> R -> R) : Prop :=
  forall a b y x, transposed b a -> 0 <= y <= IZR (ih a - 1) -> 0 <= x <= IZR (iw a - 1) -> interp b x y = interp a y x.
(** The default interpolation is such. *)
Theorem C109_bilinear : forall cast, axis_free (@bilinear_cast R Rex cast).
Proof.
  intros cast a b y x [Hh [Hw Hp]] Hy Hx. unfold bilinear_cast, bilinear. rewrite Hh, Hw.
  assert (0 < ih a)%Z by (assert (IZR 0 <= IZR (ih a - 1)) as H%le_IZR by lra; lia).
  assert (0 < iw a)%Z by (assert (IZR 0 <= IZR (iw a - 1)) as H1%le_IZR by lra; lia).
  rewrite !Hp by (unfold in_img; split; apply reflect_range; assumption). f_equal. cbn [nadd nsub nmul nfloor nofZ n1 Rex Rnum]. ring.
Qed.
Print Assumptions C109_bilinear.
(** Correcting the transposed image about the transposed centre is the
    transposed correction, for every rounding. *)
Theorem C109_image : forall rnd interp a b xc yc fact, axis_free interp -> transposed b a ->
  (1 <= ih a <= 2 ^ 24 + 1)%Z -> (1 <= iw a <= 2 ^ 24 + 1)%Z ->
  transposed (@unwarp_image_backward R (Rnum rnd) interp b yc xc fact) (@unwarp_image_backward R (Rnum rnd) interp a xc yc fact).
Proof.
  intros rnd interp a b xc yc fact Hi T Hh Hw. assert (T' := T). destruct T as [E1 [E2 _]].
  split; [exact E1|]. split; [exact E2|]. intros i j _.
  unfold unwarp_image_backward. cbn [px]. unfold coord_x, coord_y. destruct (map_swap rnd xc yc fact i j) as [X Y]. rewrite X, Y, E1, E2.
  apply Hi; [exact T'|exact (coord_y_range rnd xc yc fact (ih a) j i ltac:(lia))|exact (coord_x_range rnd xc yc fact (iw a) j i ltac:(lia))].
Qed.
Print Assumptions C109_image.
Example C109_image_case : let a := mkimg 2 3 (fun i j => IZR (10 * i + j)) in let b := mkimg 3 2 (fun i j => IZR (10 * j + i)) in
  transposed b a /\ transposed (@unwarp_image_backward R (Rnum f64) (@bilinear_cast R Rex f32) b 0 1 [1; 1 / 100])
                               (@unwarp_image_backward R (Rnum f64) (@bilinear_cast R Rex f32) a 1 0 [1; 1 / 100]).
Proof.
  intros a b. assert (T : transposed b a) by (split; [reflexivity|split; reflexivity]). split; [exact T|].
  apply C109_image; [apply C109_bilinear|exact T|cbn; lia|cbn; lia].
Qed.

(** The forward variant: the same as long as no two pixels land on one. *)
Theorem C109_forward : forall rnd a b xc yc fact oa ob, transposed b a ->
  @unwarp_image_forward R (Rnum rnd) a xc yc fact = Ok oa -> @unwarp_image_forward R (Rnum rnd) b yc xc fact = Ok ob ->
  (forall i j i' j', in_img a i j -> in_img a i' j' ->
     @fwd_row R (Rnum rnd) xc yc fact (ih a) i j = @fwd_row R (Rnum rnd) xc yc fact (ih a) i' j' ->
     @fwd_col R (Rnum rnd) xc yc fact (iw a) i j = @fwd_col R (Rnum rnd) xc yc fact (iw a) i' j' -> i = i' /\ j = j') ->
  transposed ob oa.
Proof.
  intros rnd a b xc yc fact oa ob [T1 [T2 T3]] Ea Eb Hinj.
  destruct (C07_forward_image_rounded rnd a xc yc fact) as [o1 [E1 [A1 [A2 A3]]]]. rewrite Ea in E1. injection E1 as <-.
  destruct (C07_forward_image_rounded rnd b yc xc fact) as [o2 [E2 [B1 [B2 B3]]]]. rewrite Eb in E2. injection E2 as <-.
  split; [congruence|]. split; [congruence|]. intros i j _.
  assert (X : forall u v, @fwd_row R (Rnum rnd) yc xc fact (ih b) u v = @fwd_col R (Rnum rnd) xc yc fact (iw a) v u).
  { intros u v. unfold fwd_row, fwd_col. destruct (map_swap rnd xc yc fact u v) as [_ Y]. rewrite Y, T1. reflexivity. }
  assert (Y : forall u v, @fwd_col R (Rnum rnd) yc xc fact (iw b) u v = @fwd_row R (Rnum rnd) xc yc fact (ih a) v u).
  { intros u v. unfold fwd_row, fwd_col. destruct (map_swap rnd xc yc fact u v) as [Y _]. rewrite Y, T2. reflexivity. }
  assert (I : forall u v, in_img b u v <-> in_img a v u) by (intros u v; unfold in_img; rewrite T1, T2; tauto).
  destruct (A3 j i) as [[P1 Q1]|[u [v [U1 [U2 [U3 _]]]]]]; destruct (B3 i j) as [[P2 Q2]|[u' [v' [V1 [V2 [V3 _]]]]]].
  - congruence.
  - exfalso. cbv beta in V2. rewrite X, Y in V2. apply (Q1 v' u'); [apply I, V1|]. apply pair_equal_spec in V2 as [W1 W2]. cbv beta. rewrite W1, W2. reflexivity.
  - exfalso. apply (Q2 v u); [apply I, U1|]. cbv beta. rewrite X, Y. apply pair_equal_spec in U2 as [W1 W2]. rewrite W1, W2. reflexivity.
  - cbv beta in V2. rewrite X, Y in V2. apply pair_equal_spec in V2 as [W1 W2]. apply pair_equal_spec in U2 as [W3 W4]. rewrite V3, U3. apply I in V1.
    destruct (Hinj u v v' u' U1 V1) as [-> ->]; [congruence|congruence|]. apply T3, V1.
Qed.
Print Assumptions C109_forward.
(** Where pixels collide the later one in row order wins, so that transposing
    can change the result. *)
Theorem C109_forward_refuted : exists a b xc yc fact oa ob, transposed b a /\
  @unwarp_image_forward R Rex a xc yc fact = Ok oa /\ @unwarp_image_forward R Rex b yc xc fact = Ok ob /\ ~ transposed ob oa.
Proof.
  set (a := mkimg 2 2 (fun i j => IZR (2 * i + j))). set (b := mkimg 2 2 (fun i j => IZR (2 * j + i))).
  destruct (C07_forward_image a 0 0 [-1; 0; 1]) as [oa [Ea [A1 [A2 A3]]]]. destruct (C07_forward_image b 0 0 [-1; 0; 1]) as [ob [Eb [B1 [B2 B3]]]].
  exists a, b, 0, 0, [-1; 0; 1], oa, ob. split; [split; [reflexivity|split; reflexivity]|]. split; [exact Ea|]. split; [exact Eb|].
  intros [_ [_ T]]. assert (H : px ob 0%Z 0%Z = px oa 0%Z 0%Z) by (apply T; unfold in_img; rewrite A1, A2; cbn; lia).
  assert (D : forall i j, poly [-1; 0; 1] (dist (zpt i j) (0, 0)) = IZR (i * i + j * j - 1)).
  { intros i j. unfold dist, zpt, py, pxc. cbn [poly fst snd]. rewrite !Rminus_0_r.
    set (q := sqrt _). assert (Q : q * q = IZR i * IZR i + IZR j * IZR j) by (apply sqrt_sqrt; nra).
    rewrite minus_IZR, plus_IZR, !mult_IZR. ring_simplify. rewrite <- (Rmult_1_r (q ^ 2)). replace (q ^ 2) with (q * q) by ring. rewrite Q. ring. }
  assert (G : forall i j, (0 <= i <= 1)%Z -> (0 <= j <= 1)%Z -> let p := radial_map [-1; 0; 1] (0, 0) (zpt i j) in
    (ZnearestE (clamp (py p) 0 (IZR (2 - 1))), ZnearestE (clamp (pxc p) 0 (IZR (2 - 1)))) = if ((i =? 1) && (j =? 1))%Z then (1, 1)%Z else (0, 0)%Z).
  { intros i j Hi Hj p.
    assert (Ep : p = (IZR ((i * i + j * j - 1) * i), IZR ((i * i + j * j - 1) * j))).
    { unfold p, radial_map. rewrite D. unfold padd, pscale, psub, zpt, py, pxc. cbn [fst snd]. rewrite !mult_IZR. f_equal; ring. }
    rewrite Ep. unfold py, pxc. cbn [fst snd].
    assert (C : forall z, (0 <= z <= 1)%Z -> ZnearestE (clamp (IZR z) 0 (IZR (2 - 1))) = z).
    { intros z Hz. unfold clamp. rewrite Rmin_left by (apply IZR_le; lia). rewrite Rmax_right by (apply IZR_le; lia). apply (Zrnd_IZR ZnearestE). }
    assert (Hi' : i = 0%Z \/ i = 1%Z) by lia. assert (Hj' : j = 0%Z \/ j = 1%Z) by lia.
    destruct Hi' as [-> | ->]; destruct Hj' as [-> | ->]; cbn [Z.eqb Z.mul Z.add Z.sub Z.opp Z.pos_sub Pos.eqb andb Pos.mul Pos.add Z.double Z.succ_double Z.pred_double Pos.pred_double];
      rewrite !C by lia; reflexivity. }
  cbn [a b ih iw] in A3, B3.
  assert (F : forall im o, ih im = 2%Z -> iw im = 2%Z -> (forall i j, let tgt := fun i j : Z => let p := radial_map [-1; 0; 1] (0, 0) (zpt i j) in
      (ZnearestE (clamp (py p) 0 (IZR (2 - 1))), ZnearestE (clamp (pxc p) 0 (IZR (2 - 1)))) in
      (px o i j = 0 /\ forall a b, in_img im a b -> tgt a b <> (i, j)) \/
      (exists a b, in_img im a b /\ tgt a b = (i, j) /\ px o i j = px im a b /\
         forall a' b', in_img im a' b' -> tgt a' b' = (i, j) -> lex_le (a', b') (a, b))) -> px o 0%Z 0%Z = px im 1%Z 0%Z).
  { intros im o H1 H2 H3. assert (I10 : in_img im 1 0) by (unfold in_img; lia). assert (G10 := G 1%Z 0%Z ltac:(lia) ltac:(lia)). cbn [Z.eqb Pos.eqb andb] in G10.
    destruct (H3 0%Z 0%Z) as [[_ Q]|[u [v [U1 [U2 [U3 U4]]]]]]; [exfalso; exact (Q _ _ I10 G10)|].
    specialize (U4 _ _ I10 G10). unfold in_img in U1. rewrite H1, H2 in U1. cbv zeta in U2. rewrite (G u v) in U2 by lia.
    assert (~ (u = 1 /\ v = 1)%Z) by (intros [-> ->]; discriminate U2). unfold lex_le in U4. cbn [fst snd] in U4.
    assert (u = 1%Z /\ v = 0%Z) as [-> ->] by lia. exact U3. }
  rewrite (F a oa eq_refl eq_refl A3), (F b ob eq_refl eq_refl B3) in H. cbn [a b px] in H. apply eq_IZR in H. discriminate.
Qed.
Print Assumptions C109_forward_refuted.

(** *** Perspective *)
(** The eight coefficients of the map with exchanged coordinates. *)
Definition swap_coefs (c : list R) : list R :=
  match c with [a; b; c; d; e; f; g; h] => [e; d; f; b; a; c; h; g] | _ => c end.
Lemma persp_swap rnd c1 c2 c3 c4 c5 c6 c7 c8 y x :
  @persp_x R (Rnum rnd) (c5, c4, c6, c2, c1, c3, c8, c7) x y = @persp_y R (Rnum rnd) (c1, c2, c3, c4, c5, c6, c7, c8) y x /\
  @persp_y R (Rnum rnd) (c5, c4, c6, c2, c1, c3, c8, c7) x y = @persp_x R (Rnum rnd) (c1, c2, c3, c4, c5, c6, c7, c8) y x.
Proof.
  unfold persp_x, persp_y. assert (E : forall a b, @nadd R (Rnum rnd) a b = @nadd R (Rnum rnd) b a) by (intros a b; cbn; f_equal; ring).
  rewrite (E (nmul c5 y)), (E (nmul c8 y)), (E (nmul c2 y)). split; reflexivity.
Qed.
Theorem C109_perspective_points : forall rnd lines c out, @correct_perspective_line R (Rnum rnd) lines c = Ok out ->
  @correct_perspective_line R (Rnum rnd) (map (map swap) lines) (swap_coefs c) = Ok (map (map swap) out).
Proof.
  intros rnd lines c out H. do 8 (destruct c as [|? c]; [discriminate H|]). destruct c; [|discriminate H].
  unfold correct_perspective_line in *. cbn [unpack8 bind swap_coefs] in *. injection H as <-. f_equal. rewrite !map_map. apply map_ext. intros l.
  rewrite !map_map. apply map_ext. intros [y x]. unfold swap, py, pxc. cbn [fst snd].
  destruct (persp_swap rnd r r0 r1 r2 r3 r4 r5 r6 y x) as [X Y]. rewrite X, Y. reflexivity.
Qed.
Print Assumptions C109_perspective_points.
Theorem C109_perspective_image : forall rnd interp a b c, axis_free interp -> transposed b a -> length c = 8%nat ->
  (1 <= ih a <= 2 ^ 24 + 1)%Z -> (1 <= iw a <= 2 ^ 24 + 1)%Z ->
  exists oa ob, @correct_perspective_image R (Rnum rnd) interp a c None = Ok oa /\
    @correct_perspective_image R (Rnum rnd) interp b (swap_coefs c) None = Ok ob /\ transposed ob oa.
Proof.
  intros rnd interp a b c Hi T Lc Hh Hw. assert (T' := T). destruct T as [T1 [T2 _]].
  do 8 (destruct c as [|? c]; [discriminate Lc|]). destruct c; [|discriminate Lc].
  destruct (perspective_image_gen rnd interp a [r; r0; r1; r2; r3; r4; r5; r6] ltac:(lia) ltac:(lia) eq_refl) as [ca [oa [U1 [E1 [A1 [A2 A3]]]]]].
  destruct (perspective_image_gen rnd interp b (swap_coefs [r; r0; r1; r2; r3; r4; r5; r6]) ltac:(lia) ltac:(lia) eq_refl) as [cb [ob [U2 [E2 [B1 [B2 B3]]]]]].
  cbn in U1, U2. injection U1 as <-. injection U2 as <-. exists oa, ob. split; [exact E1|]. split; [exact E2|].
  split; [congruence|]. split; [congruence|]. intros i j Hij. unfold in_img in Hij. rewrite A1, A2 in Hij. rewrite A3, B3 by lia.
  destruct (persp_swap rnd r r0 r1 r2 r3 r4 r5 r6 (IZR j) (IZR i)) as [X Y]. rewrite X, Y, T1, T2.
  apply Hi; [exact T'|apply f32_clamp_range; lia|apply f32_clamp_range; lia].
Qed.
Print Assumptions C109_perspective_image.
Example C109_perspective_case : exists out, @correct_perspective_line R Rex [[(1, 2)]] [1; 0; 0; 1; 1; 0; 1; 0] = Ok out /\ out = [[(1, 2 / 3)]] /\
  @correct_perspective_line R Rex [[(2, 1)]] [1; 1; 0; 0; 1; 0; 0; 1] = Ok (map (map swap) out).
Proof.
  eexists. split; [reflexivity|]. split; [|exact (C109_perspective_points (fun x => x) [[(1, 2)]] [1; 0; 0; 1; 1; 0; 1; 0] _ eq_refl)].
  cbn. unfold n1. cbn. f_equal. f_equal. f_equal; field.
Qed.
