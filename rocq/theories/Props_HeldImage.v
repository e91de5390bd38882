(** C126: Correcting a photograph does not depend on how it was held. *)
From Coq Require Import Reals ZArith List Lra Lia.
From Flocq Require Import Core.
From Verif Require Import Base Num Img Post Spec NumFacts DotFacts PostImg ProcSpec RoundFacts Props_Round SymFacts.
Import ListNotations.
Local Open Scope R_scope.

(** *** Specification *)
(** The same size and the same pixels. *)
Definition looks_like (a b : image R) : Prop := ih a = ih b /\ iw a = iw b /\ forall i j, in_img b i j -> px a i j = px b i j.
(** The picture corrected in exact arithmetic: the tent-weighted sum of the
    pixels around the position of the model, kept inside the picture. *)
Definition ideal (mat : image R) (c : pt) (fact : list R) : image R :=
  mkimg (ih mat) (iw mat) (fun i j => let e := radial_map fact c (IZR i, IZR j) in
    lin_sample mat (clamp (py e) 0 (IZR (ih mat - 1))) (clamp (pxc e) 0 (IZR (iw mat - 1)))).

(** *** Facts *)
Lemma tent_opp x : tent (- x) = tent x.
Proof. unfold tent. now rewrite Rabs_Ropp. Qed.
Lemma sample_down (m : image R) y x : lin_sample (move 0 UpsideDown m) (IZR (ih m - 1) - y) x = lin_sample m y x.
Proof.
  unfold lin_sample. cbn [move ih iw px]. rewrite sumZ_rev. apply sumZ_ext. intros i _. apply sumZ_ext. intros j _.
  replace (ih m - 1 - (ih m - 1 - i))%Z with i by lia. rewrite (minus_IZR (ih m - 1) i).
  replace (IZR (ih m - 1) - y - (IZR (ih m - 1) - IZR i)) with (- (y - IZR i)) by ring. now rewrite tent_opp.
Qed.
Lemma sample_across (m : image R) y x : lin_sample (move 0 LeftRight m) y (IZR (iw m - 1) - x) = lin_sample m y x.
Proof.
  unfold lin_sample. cbn [move ih iw px]. apply sumZ_ext. intros i _. rewrite sumZ_rev. apply sumZ_ext. intros j _.
  replace (iw m - 1 - (iw m - 1 - j))%Z with j by lia. rewrite (minus_IZR (iw m - 1) j).
  replace (IZR (iw m - 1) - x - (IZR (iw m - 1) - IZR j)) with (- (x - IZR j)) by ring. now rewrite tent_opp.
Qed.
Lemma sample_turned (m : image R) y x : lin_sample (move 0 Transposed m) y x = lin_sample m x y.
Proof.
  unfold lin_sample. cbn [move ih iw px]. rewrite sumZ_swap. apply sumZ_ext. intros i _. apply sumZ_ext. intros j _. ring.
Qed.
Lemma clamp_mirror x n : 0 <= n -> clamp (n - x) 0 n = n - clamp x 0 n.
Proof. intros Hn. unfold clamp, Rmin, Rmax. repeat destruct Rle_dec; lra. Qed.
Lemma sample_like a b y x : looks_like a b -> lin_sample a y x = lin_sample b y x.
Proof.
  intros [E1 [E2 E3]]. unfold lin_sample. rewrite E1, E2. apply sumZ_ext. intros i Hi. apply sumZ_ext. intros j Hj. rewrite E3; [reflexivity|unfold in_img; lia].
Qed.
Lemma ideal_like a b c fact : looks_like a b -> looks_like (ideal a c fact) (ideal b c fact).
Proof.
  intros H. pose proof H as [E1 [E2 _]]. split; [exact E1|]. split; [exact E2|]. intros i j _. cbn [ideal px]. rewrite E1, E2. now apply sample_like.
Qed.
Lemma like_trans a b c : looks_like a b -> looks_like b c -> looks_like a c.
Proof.
  intros [A1 [A2 A3]] [B1 [B2 B3]]. split; [congruence|]. split; [congruence|]. intros i j H. rewrite A3; [now apply B3|]. unfold in_img in *. lia.
Qed.
Lemma like_refl a : looks_like a a.
Proof. repeat split. Qed.
Lemma move_like mo a b : rigid mo -> looks_like a b -> looks_like (move 0 mo a) (move 0 mo b).
Proof.
  intros Hr [E1 [E2 E3]]. destruct mo; try contradiction Hr; cbn [move]; (split; [assumption|]; split; [assumption|]); intros i j H; unfold in_img in H; cbn [ih iw px] in *;
    rewrite ?E1, ?E2; apply E3; unfold in_img; lia.
Qed.
Lemma moves_like ms : forall a b, Forall rigid ms -> looks_like a b -> looks_like (moves 0 ms a) (moves 0 ms b).
Proof. induction ms as [|mo ms IH]; intros a b F H; [exact H|]. inversion_clear F. cbn [moves]. apply IH; [assumption|]. now apply move_like. Qed.
Lemma dist_move mo h w p q : dist (move_dot mo h w p) (move_dot mo h w q) = dist p q.
Proof. unfold dist, py, pxc. destruct p, q, mo; cbn [move_dot fst snd]; f_equal; ring. Qed.
Lemma dist_moves ms : forall h w p q, dist (moves_dot ms h w p) (moves_dot ms h w q) = dist p q.
Proof. induction ms as [|mo ms IH]; intros h w p q; [reflexivity|]. cbn [moves_dot]. rewrite IH. apply dist_move. Qed.
Lemma radial_move fact mo h w c p : radial_map fact (move_dot mo h w c) (move_dot mo h w p) = move_dot mo h w (radial_map fact c p).
Proof.
  unfold radial_map. rewrite dist_move. set (k := poly fact (dist p c)). destruct c as [cy cx], p as [y x].
  destruct mo; unfold padd, pscale, psub, py, pxc; cbn [move_dot fst snd]; apply f_equal2; ring.
Qed.
Lemma ideal_move mo (m : image R) c fact : rigid mo -> (0 < ih m)%Z -> (0 < iw m)%Z ->
  looks_like (ideal (move 0 mo m) (move_dot mo (ih m) (iw m) c) fact) (move 0 mo (ideal m c fact)).
Proof.
  intros Hr Hh Hw. assert (Ph : 0 <= IZR (ih m - 1)) by (apply IZR_le; lia). assert (Pw : 0 <= IZR (iw m - 1)) by (apply IZR_le; lia).
  destruct mo; try contradiction Hr; (split; [reflexivity|]; split; [reflexivity|]); intros i j H; cbn [ideal px].
  - replace (IZR i, IZR j) with (move_dot UpsideDown (ih m) (iw m) (IZR (ih m - 1 - i), IZR j)) by (cbn [move_dot fst snd]; rewrite (minus_IZR (ih m - 1) i); apply f_equal2; ring).
    rewrite radial_move. cbn [move px ih iw ideal]. set (e := radial_map fact c _). unfold move_dot, py, pxc. cbn [fst snd]. rewrite clamp_mirror by assumption. apply sample_down.
  - replace (IZR i, IZR j) with (move_dot LeftRight (ih m) (iw m) (IZR i, IZR (iw m - 1 - j))) by (cbn [move_dot fst snd]; rewrite (minus_IZR (iw m - 1) j); apply f_equal2; ring).
    rewrite radial_move. cbn [move px ih iw ideal]. set (e := radial_map fact c _). unfold move_dot, py, pxc. cbn [fst snd]. rewrite clamp_mirror by assumption. apply sample_across.
  - change (IZR i, IZR j) with (move_dot Transposed (ih m) (iw m) (IZR j, IZR i)).
    rewrite radial_move. cbn [move px ih iw ideal]. set (e := radial_map fact c _). unfold move_dot, py, pxc. cbn [fst snd]. apply sample_turned.
Qed.
Lemma move_size mo (m : image R) : ih (move 0 mo m) = fst (size_after mo (ih m) (iw m)) /\ iw (move 0 mo m) = snd (size_after mo (ih m) (iw m)).
Proof. destruct mo; split; reflexivity. Qed.
Lemma rigid_size mo h w : rigid mo -> (0 < h)%Z -> (0 < w)%Z -> (0 < fst (size_after mo h w))%Z /\ (0 < snd (size_after mo h w))%Z.
Proof. destruct mo; cbn; try tauto. Qed.
Lemma ideal_moves ms : forall (m : image R) c fact, Forall rigid ms -> (0 < ih m)%Z -> (0 < iw m)%Z ->
  looks_like (ideal (moves 0 ms m) (moves_dot ms (ih m) (iw m) c) fact) (moves 0 ms (ideal m c fact)).
Proof.
  induction ms as [|mo ms IH]; intros m c fact F Hh Hw; [apply like_refl|]. inversion_clear F. cbn [moves moves_dot].
  destruct (move_size mo m) as [S1 S2]. destruct (rigid_size mo (ih m) (iw m) H Hh Hw) as [P1 P2]. rewrite <- S1, <- S2 in *.
  eapply like_trans; [now apply IH|]. apply moves_like; [assumption|]. now apply ideal_move.
Qed.
(** Every pixel of the moved picture is a pixel of the picture. *)
Lemma moves_source ms : forall h w, Forall rigid ms -> forall a : image R, ih a = h -> iw a = w -> forall i j, in_img (moves 0 ms a) i j ->
  exists i0 j0, (0 <= i0 < h)%Z /\ (0 <= j0 < w)%Z /\ moves_dot ms h w (IZR i0, IZR j0) = (IZR i, IZR j) /\
    forall b : image R, ih b = h -> iw b = w -> px (moves 0 ms b) i j = px b i0 j0.
Proof.
  induction ms as [|mo ms IH]; intros h w F a A1 A2 i j H.
  - exists i, j. unfold in_img in H. cbn [moves] in H. split; [lia|]. split; [lia|]. split; [reflexivity|]. reflexivity.
  - inversion_clear F. cbn [moves moves_dot] in *. destruct (move_size mo a) as [S1 S2]. rewrite A1, A2 in S1, S2.
    destruct (IH _ _ H1 (move 0 mo a) S1 S2 i j H) as [u [v [Hu [Hv [E P]]]]].
    destruct mo; try contradiction H0; cbn [size_after fst snd] in *.
    + exists (h - 1 - u)%Z, v. split; [lia|]. split; [lia|]. split.
      * rewrite <- E. f_equal. cbn [move_dot fst snd]. rewrite (minus_IZR (h - 1) u). apply f_equal2; ring.
      * intros b B1 B2. rewrite P by assumption. cbn [move px]. now rewrite B1.
    + exists u, (w - 1 - v)%Z. split; [lia|]. split; [lia|]. split.
      * rewrite <- E. f_equal. cbn [move_dot fst snd]. rewrite (minus_IZR (w - 1) v). apply f_equal2; ring.
      * intros b B1 B2. rewrite P by assumption. cbn [move px]. now rewrite B2.
    + exists v, u. split; [lia|]. split; [lia|]. split; [exact E|].
      intros b B1 B2. rewrite P by assumption. reflexivity.
Qed.
(** Pixels next to each other differ by at most L. *)
Definition smooth (L : R) (m : image R) : Prop :=
  (forall i j, in_img m i j -> in_img m (i + 1) j -> Rabs (px m (i + 1) j - px m i j) <= L) /\
  (forall i j, in_img m i j -> in_img m i (j + 1) -> Rabs (px m i (j + 1) - px m i j) <= L).
Lemma smooth_move L mo m : rigid mo -> smooth L m -> smooth L (move 0 mo m).
Proof.
  intros Hr [V A]. destruct mo; try contradiction Hr; (split; intros i j H H'; unfold in_img in H, H'; cbn [move ih iw px] in *).
  - rewrite Rabs_minus_sym. replace (ih m - 1 - i)%Z with (ih m - 1 - (i + 1) + 1)%Z by lia. apply V; unfold in_img; lia.
  - apply A; unfold in_img; lia.
  - apply V; unfold in_img; lia.
  - rewrite Rabs_minus_sym. replace (iw m - 1 - j)%Z with (iw m - 1 - (j + 1) + 1)%Z by lia. apply A; unfold in_img; lia.
  - apply A; unfold in_img; lia.
  - apply V; unfold in_img; lia.
Qed.
Lemma smooth_moves L ms : forall m, Forall rigid ms -> smooth L m -> smooth L (moves 0 ms m).
Proof. induction ms as [|mo ms IH]; intros m F H; [exact H|]. inversion_clear F. cbn [moves]. apply IH; [assumption|]. now apply smooth_move. Qed.
Lemma moves_size ms : forall m : image R, Forall rigid ms ->
  (ih (moves 0 ms m) = ih m /\ iw (moves 0 ms m) = iw m) \/ (ih (moves 0 ms m) = iw m /\ iw (moves 0 ms m) = ih m).
Proof.
  induction ms as [|mo ms IH]; intros m F; [now left|]. inversion_clear F. cbn [moves]. specialize (IH (move 0 mo m) H0).
  destruct mo; try contradiction H; cbn [move ih iw] in *; tauto.
Qed.
(** Bound of C107 for the difference between a pixel at distance r from the
    centre and the same pixel in exact arithmetic. *)
Definition pixel_error (L : R) (fact : list R) (c : pt) (r : R) (h w : Z) : R :=
  L * (rounding_bound fact (py c) r + rounding_bound fact (pxc c) r + two (-24) * IZR (h + w - 2) + 2 * two (-150)).

(** *** C126 *)
(** With exactly stored positions, correcting the moved picture about the moved
    centre gives the moved corrected picture. *)
Theorem C126_exact : forall ms m xc yc fact, Forall rigid ms -> (0 < ih m)%Z -> (0 < iw m)%Z ->
  let c' := moves_dot ms (ih m) (iw m) (yc, xc) in
  looks_like (@unwarp_image_backward R Rexact (@bilinear R Rex) (moves 0 ms m) (snd c') (fst c') fact)
             (moves 0 ms (@unwarp_image_backward R Rexact (@bilinear R Rex) m xc yc fact)).
Proof.
  intros ms m xc yc fact F Hh Hw c'.
  assert (I : forall a c, (0 < ih a)%Z -> (0 < iw a)%Z -> looks_like (@unwarp_image_backward R Rexact (@bilinear R Rex) a (snd c) (fst c) fact) (ideal a c fact) /\
    looks_like (ideal a c fact) (@unwarp_image_backward R Rexact (@bilinear R Rex) a (snd c) (fst c) fact)).
  { intros a [cy cx] Ha Wa. cbn [fst snd].
    assert (E : forall i j, px (@unwarp_image_backward R Rexact (@bilinear R Rex) a cx cy fact) i j = px (ideal a (cy, cx) fact) i j).
    { intros i j. unfold unwarp_image_backward, ideal, coord_x, coord_y. cbn [px].
      change (@map_x R Rexact) with (@map_x R Rex). change (@map_y R Rexact) with (@map_y R Rex). rewrite map_x_R, map_y_R.
      change (@nclip R Rexact) with (@nclip R Rex). change (@nf32 R Rexact) with (fun x : R => x). change (@nofZ R Rexact) with IZR. cbv beta. unfold Rex. rewrite !nclip_R by (apply IZR_le; lia). fold Rex. apply bilinear_lin_sample; apply clamp_range; apply IZR_le; lia. }
    split; (split; [reflexivity|]; split; [reflexivity|]; intros i j _; rewrite E; reflexivity). }
  assert (P : (0 < ih (moves 0%R ms m))%Z /\ (0 < iw (moves 0%R ms m))%Z) by (destruct (moves_size ms m F) as [[-> ->]|[-> ->]]; lia).
  eapply like_trans; [apply (I _ c'); apply P|]. eapply like_trans; [now apply ideal_moves|]. apply moves_like; [exact F|]. now apply (I m (yc, xc)).
Qed.
Print Assumptions C126_exact.
(** In double precision with positions stored in single precision the two
    differ by no more than the rounding errors of both. *)
Theorem C126_rounded : forall rnd ms m xc yc fact L, 0 <= L -> exact_or_double rnd -> (length fact <= 1000)%nat ->
  Forall rigid ms -> (0 < ih m <= 2 ^ 24 + 1)%Z -> (0 < iw m <= 2 ^ 24 + 1)%Z -> smooth L m ->
  let m' := moves 0 ms m in let c' := moves_dot ms (ih m) (iw m) (yc, xc) in
  let out := @unwarp_image_backward R (Rnum rnd) (@bilinear R Rex) m xc yc fact in
  let out' := @unwarp_image_backward R (Rnum rnd) (@bilinear R Rex) m' (snd c') (fst c') fact in
  ih out' = ih (moves 0 ms out) /\ iw out' = iw (moves 0 ms out) /\
  forall i j, in_img m' i j -> let r := dist (IZR i, IZR j) c' in
    Rabs (px out' i j - px (moves 0 ms out) i j) <= pixel_error L fact c' r (ih m) (iw m) + pixel_error L fact (yc, xc) r (ih m) (iw m).
Proof.
  intros rnd ms m xc yc fact L HL Hr Hn F Hh Hw [Sv Sh] m' c' out out'.
  assert (SZ := moves_size ms m F). assert (SO := moves_size ms out F). fold m' in SZ.
  assert (MS : forall b : image R, ih b = ih m -> iw b = iw m -> ih (moves 0%R ms b) = ih m' /\ iw (moves 0%R ms b) = iw m').
  { intros b B1 B2. unfold m'. clear -F B1 B2. revert m b B1 B2. induction ms as [|mo ms IH]; intros m b B1 B2; [now split|]. inversion_clear F. cbn [moves].
    apply (IH H0); destruct mo; try contradiction H; cbn [move ih iw]; congruence. }
  destruct (MS out eq_refl eq_refl) as [O1 O2]. split; [exact (eq_sym O1)|]. split; [exact (eq_sym O2)|].
  intros i j Hij r. destruct (moves_source ms (ih m) (iw m) F m eq_refl eq_refl i j Hij) as [i0 [j0 [Hi0 [Hj0 [E P]]]]].
  rewrite (P out eq_refl eq_refl).
  assert (Er : dist (IZR i0, IZR j0) (yc, xc) = r) by (unfold r; rewrite <- E; symmetry; apply dist_moves).
  pose proof (C107_pixels rnd m xc yc fact L HL Hr Hn Hh Hw Sv Sh i0 j0 ltac:(unfold in_img; lia)) as B. cbv zeta in B. rewrite Er in B. fold out in B.
  destruct (smooth_moves L ms m F (conj Sv Sh)) as [Sv' Sh']. fold m' in Sv', Sh'.
  pose proof (C107_pixels rnd m' (snd c') (fst c') fact L HL Hr Hn ltac:(destruct SZ as [[E1 E2]|[E1 E2]]; lia) ltac:(destruct SZ as [[E1 E2]|[E1 E2]]; lia) Sv' Sh' i j Hij) as B'.
  cbv zeta in B'. rewrite <- surjective_pairing in B'. fold r out' in B'.
  assert (HS : (ih m' + iw m' - 2 = ih m + iw m - 2)%Z) by (destruct SZ as [[E1 E2]|[E1 E2]]; lia). rewrite HS in B'.
  destruct (ideal_moves ms m (yc, xc) fact F ltac:(lia) ltac:(lia)) as [_ [_ Q]]. fold m' c' in Q.
  assert (Hij' : in_img (moves 0 ms (ideal m (yc, xc) fact)) i j).
  { destruct (MS (ideal m (yc, xc) fact) eq_refl eq_refl) as [I1 I2]. unfold in_img in *. lia. }
  specialize (Q i j Hij'). rewrite (P (ideal m (yc, xc) fact) eq_refl eq_refl) in Q. cbn [ideal px] in Q. unfold pixel_error. cbn [py pxc fst snd] in *.
  unfold py, pxc in *. rewrite <- Q in B. cbn [fst snd] in *. set (A := lin_sample m' _ _) in *.
  replace (px out' i j - px out i0 j0) with ((px out' i j - A) + - (px out i0 j0 - A)) by ring.
  eapply Rle_trans; [apply Rabs_triang|]. rewrite Rabs_Ropp. apply Rplus_le_compat; assumption.
Qed.
Print Assumptions C126_rounded.
(** A picture of 2 x 3 pixels mirrored and transposed, magnified about its top
    left corner: the corrected pixel (1, 2), with value 6, is found at (0, 1). *)
Example C126_exact_ex : let m := mkimg 2 3 (fun i j => IZR (10 * i + j)) in
  px (@unwarp_image_backward R Rexact (@bilinear R Rex) m 0 0 [1 / 2]) 1 2 = 6 /\
  px (@unwarp_image_backward R Rexact (@bilinear R Rex) (moves 0 [LeftRight; Transposed] m) 0 2 [1 / 2]) 0 1 = 6.
Proof.
  intros m.
  assert (E : px (@unwarp_image_backward R Rexact (@bilinear R Rex) m 0 0 [1 / 2]) 1 2 = 6).
  { unfold unwarp_image_backward, coord_x, coord_y. cbn [px].
    change (@map_x R Rexact) with (@map_x R Rex). change (@map_y R Rexact) with (@map_y R Rex). rewrite map_x_R, map_y_R.
    change (@nclip R Rexact) with (@nclip R Rex). change (@nf32 R Rexact) with (fun x : R => x). change (@nofZ R Rexact) with IZR. cbv beta. unfold Rex. rewrite !nclip_R by (cbn; lra). fold Rex.
    unfold radial_map, padd, pscale, psub, zpt, py, pxc. cbn [fst snd poly].
    replace (clamp (0 + (1 / 2 + dist (1, 2) (0, 0) * 0) * (1 - 0)) 0 (IZR (ih m - 1))) with (1 / 2) by (unfold clamp, Rmin, Rmax; cbn; repeat destruct Rle_dec; lra).
    replace (clamp (0 + (1 / 2 + dist (1, 2) (0, 0) * 0) * (2 - 0)) 0 (IZR (iw m - 1))) with 1 by (unfold clamp, Rmin, Rmax; cbn; repeat destruct Rle_dec; lra).
    unfold bilinear. cbn [nfloor nadd nsub nmul nofZ n1 Rex Rnum].
    rewrite (Zfloor_imp 0 (1 / 2)) by (cbn; lra). rewrite (Zfloor_imp 1 1) by (cbn; lra). cbn. lra. }
  split; [exact E|].
  destruct (C126_exact [LeftRight; Transposed] m 0 0 [1 / 2] ltac:(repeat constructor) ltac:(cbn; lia) ltac:(cbn; lia)) as [_ [_ P]].
  assert (C : moves_dot [LeftRight; Transposed] (ih m) (iw m) (0, 0) = (2, 0)) by (cbn -[IZR]; apply f_equal2; lra).
  rewrite C in P. cbn [fst snd] in P. rewrite P; [exact E|]. unfold in_img. cbn. lia.
Qed.
Example C126_rounded_ex : exists m : image R, smooth 1 m /\ ih m = 1000%Z /\ iw m = 2000%Z /\ px m 1 0 <> px m 0 0 /\
  forall i j, in_img (moves 0 [UpsideDown; Transposed] m) i j ->
    let c' := moves_dot [UpsideDown; Transposed] 1000 2000 (500, 1000) in let r := dist (IZR i, IZR j) c' in
    Rabs (px (@unwarp_image_backward R (Rnum f64) (@bilinear R Rex) (moves 0 [UpsideDown; Transposed] m) (snd c') (fst c') [1; 1 / 1000000]) i j
          - px (moves 0 [UpsideDown; Transposed] (@unwarp_image_backward R (Rnum f64) (@bilinear R Rex) m 1000 500 [1; 1 / 1000000])) i j)
    <= pixel_error 1 [1; 1 / 1000000] c' r 1000 2000 + pixel_error 1 [1; 1 / 1000000] (500, 1000) r 1000 2000.
Proof.
  exists (mkimg 1000 2000 (fun i _ => IZR i)).
  assert (S : smooth 1 (mkimg 1000 2000 (fun i _ => IZR i))).
  { split; intros i j _ _; cbn [px]; [rewrite plus_IZR; replace (IZR i + 1 - IZR i) with 1 by ring; rewrite Rabs_R1; lra|]. rewrite Rminus_diag_eq, Rabs_R0 by reflexivity. lra. }
  split; [exact S|]. split; [reflexivity|]. split; [reflexivity|]. split; [cbn; lra|]. intros i j Hij c' r.
  apply (C126_rounded f64 [UpsideDown; Transposed] (mkimg 1000 2000 (fun i _ => IZR i)) 1000 500 [1; 1 / 1000000] 1); try assumption; try lra.
  - now right.
  - cbn; lia.
  - repeat constructor.
  - cbn; lia.
  - cbn; lia.
Qed.

(** *** From the photograph of the target to the corrected photograph *)
From Coq Require Import Permutation.
From Verif Require Import Sorting PrepSpec DotSpec PrepImg PrepPts Proc CalibSpec CalibSpec2 CalibFacts Props_Calib2 Props_Calib3 Props_DotOrder MirrorFacts Props_Mirror Props_Symm Props_Held.
(** A target and another photograph, both held the other way: the calibration
    of the moved target corrects the moved photograph into the moved corrected
    photograph. *)
Theorem C126_calibrated : forall argsort label binarize st polyfit minimize lstsq ms m lab n lab' n' pts slope_hor slope_ver dot_dist ratio miss accepted rows cols
    xc yc num_fact opt thr w uh uv ch cv photo,
  argsort_spec argsort -> odd_rounding st -> polyfit_oracle polyfit -> lstsq_oracle lstsq -> (num_fact <= 32767)%Z ->
  Forall rigid ms -> binary_image m -> (exists i j, in_img m i j /\ px m i j = 1) -> (exists i j, in_img m i j /\ px m i j = 0) ->
  ih photo = ih m -> iw photo = iw m ->
  let m' := moves 0 ms m in let place := moves_dot ms (ih m) (iw m) in
  label (@to_int16 R Rex m) = (lab, n) -> labelling m lab n -> label (@to_int16 R Rex m') = (lab', n') -> labelling m' lab' n' ->
  @get_points_dot_pattern R Rex label binarize m false = Ok pts ->
  clear_rows slope_hor (IZR miss * dot_dist) (ratio * dot_dist) accepted pts rows ->
  clear_columns slope_ver (IZR miss * dot_dist) (ratio * dot_dist) accepted pts cols ->
  (2 <= length rows)%nat -> (2 <= length cols)%nat -> spread_hor 3 rows -> spread_ver 3 cols ->
  @calc_undistor_intercept R (Rst st) polyfit minimize rows cols xc yc opt thr = Ok (w, (uh, uv)) ->
  fits_hor st polyfit xc yc rows ch -> fits_ver st polyfit xc yc cols cv -> one_nearest ch -> one_nearest cv ->
  let samples := line_samples (hor_sample xc yc) ch uh rows ++ line_samples (ver_sample xc yc) cv uv cols in
  distinct_values (Z.to_nat (Z.max 1 num_fact)) (map fst (map inverse_sample samples)) ->
  let sign := slope_sign ms in let x := exchanged ms in let centre' := place (yc, xc) in
  exists pts' rows' cols' B,
    @get_points_dot_pattern R Rex label binarize m' false = Ok pts' /\
    @group_dots_hor_lines R Rex argsort label (DPts pts') (sign * if x then slope_ver else slope_hor) dot_dist ratio miss accepted = Ok rows' /\
    @group_dots_ver_lines R Rex argsort label (DPts pts') (sign * if x then slope_hor else slope_ver) dot_dist ratio miss accepted = Ok cols' /\
    @calc_coef_backward R (Rst st) polyfit minimize lstsq rows cols xc yc num_fact opt thr = Ok B /\
    @calc_coef_backward R (Rst st) polyfit minimize lstsq rows' cols' (snd centre') (fst centre') num_fact opt thr = Ok B /\
    looks_like (@unwarp_image_backward R Rexact (@bilinear R Rex) (moves 0 ms photo) (snd centre') (fst centre') B)
               (moves 0 ms (@unwarp_image_backward R Rexact (@bilinear R Rex) photo xc yc B)).
Proof.
  intros argsort label binarize st polyfit minimize lstsq ms m lab n lab' n' pts slope_hor slope_ver dot_dist ratio miss accepted rows cols
    xc yc num_fact opt thr w uh uv ch cv photo HA ODD PF LS NF Hr Hb H1 H0 P1 P2 m' place El HL El' HL' Ep Cr Cc Lr Lc Sr Sc EU Fh Fv Nh Nv samples D sign x centre'.
  assert (Hms : Forall frame_ok ms) by (eapply Forall_impl; [|exact Hr]; intros [| | |? ? ? ?] Q; cbn in *; tauto).
  assert (Sz : (0 < ih m)%Z /\ (0 < iw m)%Z) by (destruct H1 as [i [j [Q _]]]; unfold in_img in Q; lia).
  destruct (C125_held argsort label binarize st polyfit minimize lstsq ms m lab n lab' n' pts slope_hor slope_ver dot_dist ratio miss accepted rows cols
    xc yc num_fact opt thr w uh uv ch cv HA ODD PF LS NF Hms Hb H1 H0 El HL El' HL' Ep Cr Cc Lr Lc Sr Sc EU Fh Fv Nh Nv)
    as [pts' [rows' [cols' [G1 [G2 [G3 [G4 [G5 [_ [_ [_ [_ [BW _]]]]]]]]]]]]].
  destruct (BW D) as [B [B1 B2]]. exists pts', rows', cols', B. do 5 (split; [assumption|]).
  pose proof (C126_exact ms photo xc yc B Hr ltac:(lia) ltac:(lia)) as Q. cbv zeta in Q. rewrite P1, P2 in Q. exact Q.
Qed.
Print Assumptions C126_calibrated.
From Verif Require Import ProcFacts5 Util UtilFacts Props_Util DotFacts Props_Dots Props_Grid PrepEx.
Lemma tg_enough_inv : distinct_values 2 (map fst (map inverse_sample (line_samples (hor_sample 27 29) (map triple (tg_off 29)) (map snd (tg_off 29)) tg_rows ++
  line_samples (ver_sample 27 29) (map triple (tg_off 27)) (map snd (tg_off 27)) tg_cols))).
Proof.
  exists [8; 18]. split; [repeat constructor; cbn [In]; intuition lra|]. split; [|cbn; lia].
  assert (Dd : forall y d, 0 <= d -> y = 29 + d -> dist (y, 27) (29, 27) = d).
  { intros y d Hd ->. unfold dist, py, pxc. cbn [fst snd]. match goal with |- sqrt ?e = _ => replace e with (d * d) by ring end. now apply sqrt_square. }
  assert (Q : In (8, 1) (line_samples (hor_sample 27 29) (map triple (tg_off 29)) (map snd (tg_off 29)) tg_rows) /\ In (18, 1) (line_samples (hor_sample 27 29) (map triple (tg_off 29)) (map snd (tg_off 29)) tg_rows)).
  { unfold line_samples, tg_rows, tg_off, tg, triple, hor_sample, pxc. cbn [map combine concat app fst snd]. split.
    - do 17 right. left. f_equal; [apply Dd; lra|field].
    - do 22 right. left. f_equal; [apply Dd; lra|field]. }
  destruct Q as [Q1 Q2]. rewrite map_map. intros x [<-|[<-|[]]]; apply in_map_iff.
  - exists (8, 1). split; [cbn; lra|]. apply in_or_app. now left.
  - exists (18, 1). split; [cbn; lra|]. apply in_or_app. now left.
Qed.
(** The generated target upside down and transposed, and any photograph of the
    same size. *)
Example C126_target : forall binarize photo, ih photo = 64%Z -> iw photo = 64%Z -> exists out label pts' rows' cols' B,
  @make_dot_pattern R Rex 64 64 10 3 (MScalar 5) = Ok out /\
  (let ms := [UpsideDown; Transposed] in let m' := moves 0 ms (inverted out) in
  @get_points_dot_pattern R Rex label binarize m' false = Ok pts' /\
  @group_dots_hor_lines R Rex (@argsort_ins R Rex) label (DPts pts') 0 10 (3/10) 2 (13/20) = Ok rows' /\
  @group_dots_ver_lines R Rex (@argsort_ins R Rex) label (DPts pts') 0 10 (3/10) 2 (13/20) = Ok cols' /\
  @calc_coef_backward R Rexact pf_R min_R ls_R rows' cols' 34 27 2 false (1/10) = Ok B /\
  looks_like (@unwarp_image_backward R Rexact (@bilinear R Rex) (moves 0 ms photo) 34 27 B)
             (moves 0 ms (@unwarp_image_backward R Rexact (@bilinear R Rex) photo 27 29 B))).
Proof.
  intros binarize photo PH1 PH2. destruct (C17_dot_pattern 64 64 10 3 (MScalar 5) 5 5) as [out [E SH]]; [left; auto|lia|lia|cbn; lia|]. exists out.
  assert (SZ : ih (inverted out) = 64%Z /\ iw (inverted out) = 64%Z).
  { cbn. clear -SH. tauto. }
  destruct SZ as [S1 S2].
  set (ms := [UpsideDown; Transposed]).
  destruct (labelling_exists (inverted out)) as [lab [num HL]]. destruct (labelling_exists (moves 0 ms (inverted out))) as [lab' [num' HL']].
  destruct (pattern_dots 64 64 10 3 (MScalar 5) 5 5 out ltac:(now left) ltac:(lia) ltac:(lia) ltac:(cbn; lia) E) as [_ [PD [Hb P0]]].
  assert (I0 : in_img (inverted out) 0 0) by (unfold in_img; lia). specialize (P0 I0).
  assert (I1 : in_img (inverted out) 7 7) by (unfold in_img; lia).
  assert (P1 : px (inverted out) 7 7 = 1).
  { assert (N : px (inverted out) 7 7 <> 0).
    { apply (PD 7%Z 7%Z I1). exists 7%Z, 7%Z. split; [split; exists 0%Z; cbn; lia|]. unfold in_disk, in_window. change (Z.min (Z.max 3 1) (Z.min 64 64 / 8))%Z with 3%Z. change (3 / 2)%Z with 1%Z. lia. }
    destruct (Hb 7%Z 7%Z I1) as [Z|Z]; [contradiction|exact Z]. }
  assert (P2 : px (moves 0 ms (inverted out)) 7 7 = 0).
  { change (px (moves 0 ms (inverted out)) 7 7) with (px (inverted out) (ih (inverted out) - 1 - 7) 7). rewrite S1. change (64 - 1 - 7)%Z with 56%Z.
    assert (I2 : in_img (inverted out) 56 7) by (unfold in_img; lia). destruct (Hb 56%Z 7%Z I2) as [Z|Z]; [exact Z|exfalso].
    destruct (proj1 (PD 56%Z 7%Z I2)) as [gy [gx [[[k [K1 [K2 K3]]] _] W]]]; [rewrite Z; lra|].
    unfold in_disk, in_window in W. change (Z.min (Z.max 3 1) (Z.min 64 64 / 8))%Z with 3%Z in *. change (3 / 2)%Z with 1%Z in *. lia. }
  set (label := fun im : image R => if Req_bool (px im 7 7) 0 then (lab', num') else (lab, num)).
  assert (L1 : label (@to_int16 R Rex (inverted out)) = (lab, num)).
  { unfold label. change (px (@to_int16 R Rex (inverted out)) 7 7) with (IZR (wrap16 (Ztrunc (px (inverted out) 7 7)))). rewrite P1, (Ztrunc_IZR 1). rewrite Req_bool_false; [reflexivity|]. cbn. lra. }
  assert (L2 : label (@to_int16 R Rex (moves 0 ms (inverted out))) = (lab', num')).
  { unfold label. change (px (@to_int16 R Rex (moves 0 ms (inverted out))) 7 7) with (IZR (wrap16 (Ztrunc (px (moves 0 ms (inverted out)) 7 7)))). rewrite P2, (Ztrunc_IZR 0). now rewrite Req_bool_true. }
  destruct (C100_centres label binarize 64 64 10 3 (MScalar 5) 5 5 out lab num 5 5) as [pts [t [G [P [T _]]]]];
    try (now left; auto); try (lia || (cbn; lia) || exact E || exact HL || exact L1 || reflexivity); try (apply dots_along_c; cbn; lia).
  rewrite T in P by reflexivity. cbv zeta in P. change (5 + Z.min (Z.max 3 1) (Z.min 64 64 / 8) / 2 + 1)%Z with 7%Z in P. rewrite Rplus_0_r in P. unfold grid_points in P.
  assert (Cr : clear_rows 0 (IZR 2 * 10) (3 / 10 * 10) (13/20) pts tg_rows).
  { unfold tg_rows. rewrite <- tg_levels. apply grid_clear; try lia; try lra. exact P. }
  assert (Cc : clear_columns 0 (IZR 2 * 10) (3 / 10 * 10) (13/20) pts tg_cols).
  { unfold clear_columns, tg_cols. rewrite <- tg_levels. rewrite map_map.
    assert (Q : map (fun x => map exchange (map (fun y => (y, x)) (levels 7 10 5))) (levels 7 10 5) = map (fun y => map (fun x => (y, x)) (levels 7 10 5)) (levels 7 10 5)).
    { apply map_ext. intros x. rewrite map_map. reflexivity. }
    rewrite Q. apply grid_clear; try lia; try lra. rewrite <- Q. rewrite <- (map_map (fun x => map (fun y => (y, x)) (levels 7 10 5)) (map exchange)), <- concat_map.
    apply Permutation_map. rewrite P. apply (grid_perm (fun y x => (y, x))). }
  destruct tg_fits as [Fh Fv]. destruct tg_spread as [Sh Sv].
  destruct (C126_calibrated (@argsort_ins R Rex) label binarize (fun x => x) pf_R min_R ls_R ms (inverted out) lab num lab' num' pts 0 0 10 (3/10) 2 (13/20) tg_rows tg_cols
    27 29 2 false (1/10) false _ _ _ _ photo (argsort_ins_ok (fun x => x)) ltac:(now intros x) pf_R_ok ls_R_ok ltac:(lia) ltac:(repeat constructor) Hb
    (ex_intro _ 7%Z (ex_intro _ 7%Z (conj I1 P1))) (ex_intro _ 0%Z (ex_intro _ 0%Z (conj I0 P0))) ltac:(now rewrite S1) ltac:(now rewrite S2) L1 HL L2 HL' G Cr Cc ltac:(cbn; lia) ltac:(cbn; lia) Sh Sv
    (tg_positions false) Fh Fv (tg_nearest 29 ltac:(lra)) (tg_nearest 27 ltac:(lra)) tg_enough_inv)
    as [pts' [rows' [cols' [B [G3 [G4 [G5 [_ [E2 LK]]]]]]]]].
  exists label, pts', rows', cols', B. split; [exact E|]. cbv zeta. fold ms.
  assert (Z0 : slope_sign ms * (if exchanged ms then 0 else 0) = 0) by (destruct (exchanged ms); ring).
  rewrite Z0 in G4, G5.
  assert (CE : moves_dot ms (ih (inverted out)) (iw (inverted out)) (29, 27) = (27, 34)).
  { rewrite S1, S2. unfold ms. cbn -[IZR]. apply f_equal2; lra. }
  rewrite CE in E2, LK. cbn [fst snd] in E2, LK.
  do 4 (split; [assumption|]). exact LK.
Qed.
