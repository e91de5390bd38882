(** C115: what the corrections do to noise and to defective pixels. *)
From Coq Require Import Reals ZArith List Lra Lia.
From Flocq Require Import Core.
From Verif Require Import Base Num NumFacts Spec Lsq Img Post PostPersp PostImg PostImg2 PostLines2 PostExtra RoundFacts Props_Post Props_Round Props_RoundPers.
Import ListNotations.
Local Open Scope R_scope.

(** *** Specification *)
Definition same_size (a b : image R) : Prop := ih a = ih b /\ iw a = iw b.
(** a exceeds b by at most D at the pixels less than a pixel away, in both
    directions, from (y, x). *)
Definition below_near (a b : image R) (D y x : R) : Prop :=
  forall k l, in_img a k l -> Rabs (y - IZR k) < 1 -> Rabs (x - IZR l) < 1 -> px a k l <= px b k l + D.
(** Anywhere. *)
Definition below (a b : image R) (D : R) : Prop := forall k l, in_img a k l -> px a k l <= px b k l + D.
Definition differ_by (a b : image R) (D : R) : Prop := forall k l, in_img a k l -> Rabs (px a k l - px b k l) <= D.

(** *** Linear interpolation *)
Lemma sum_n_le n f g : (forall k, (0 <= k < Z.of_nat n)%Z -> f k <= g k) -> sum_n n f <= sum_n n g.
Proof. induction n as [|n IH]; intros H; cbn [sum_n]; [lra|]. specialize (IH ltac:(intros k Hk; apply H; lia)). specialize (H (Z.of_nat n) ltac:(lia)). lra. Qed.
Lemma sumZ_le n f g : (forall k, (0 <= k < n)%Z -> f k <= g k) -> sumZ n f <= sumZ n g.
Proof. intros H. apply sum_n_le. intros k Hk. apply H. lia. Qed.
Lemma tent_nonneg t : 0 <= tent t. Proof. apply Rmax_l. Qed.
Lemma tent_pos t : 0 < tent t -> Rabs t < 1.
Proof. unfold tent, Rmax. destruct (Rle_dec 0 (1 - Rabs t)); lra. Qed.
Lemma sample_below a b D y x : same_size a b -> (0 < ih a)%Z -> (0 < iw a)%Z -> 0 <= y <= IZR (ih a - 1) -> 0 <= x <= IZR (iw a - 1) ->
  below_near a b D y x -> lin_sample a y x <= lin_sample b y x + D.
Proof.
  intros [Eh Ew] Hh Hw Hy Hx H. unfold lin_sample. rewrite <- Eh, <- Ew.
  assert (E : sumZ (ih a) (fun i => sumZ (iw a) (fun j => tent (y - IZR i) * tent (x - IZR j) * px b i j)) + D =
    sumZ (ih a) (fun i => sumZ (iw a) (fun j => tent (y - IZR i) * tent (x - IZR j) * (px b i j + D)))).
  { transitivity (sumZ (ih a) (fun i => sumZ (iw a) (fun j => tent (y - IZR i) * tent (x - IZR j) * px b i j) + tent (y - IZR i) * D)).
    - rewrite sumZ_plus. f_equal. rewrite (sumZ_ext _ (fun i => tent (y - IZR i) * D) (fun i => D * tent (y - IZR i))) by (intros; ring).
      rewrite sumZ_scal, tent_sum by assumption. ring.
    - apply sumZ_ext. intros i Hi. rewrite (sumZ_ext _ (fun j => tent (y - IZR i) * tent (x - IZR j) * (px b i j + D)) (fun j => tent (y - IZR i) * tent (x - IZR j) * px b i j + (tent (y - IZR i) * D) * tent (x - IZR j))) by (intros; ring).
      rewrite sumZ_plus, sumZ_scal, (tent_sum (iw a)) by assumption. ring. }
  rewrite E. apply sumZ_le. intros k Hk. apply sumZ_le. intros l Hl.
  pose proof (tent_nonneg (y - IZR k)) as P1. pose proof (tent_nonneg (x - IZR l)) as P2.
  destruct (Req_dec (tent (y - IZR k)) 0) as [Z|Z]; [rewrite Z; lra|]. destruct (Req_dec (tent (x - IZR l)) 0) as [Z'|Z']; [rewrite Z'; lra|].
  apply Rmult_le_compat_l; [now apply Rmult_le_pos|]. apply H; [split; assumption|apply tent_pos; lra|apply tent_pos; lra].
Qed.

(** *** The lens correction *)
Lemma backward_sampled rnd a xc yc fact : (0 < ih a <= 2 ^ 24 + 1)%Z -> (0 < iw a <= 2 ^ 24 + 1)%Z ->
  forall i j, px (@unwarp_image_backward R (Rnum rnd) (@bilinear R Rex) a xc yc fact) i j =
    lin_sample a (@coord_y R (Rnum rnd) xc yc fact (ih a) i j) (@coord_x R (Rnum rnd) xc yc fact (iw a) i j) /\
    0 <= @coord_y R (Rnum rnd) xc yc fact (ih a) i j <= IZR (ih a - 1) /\ 0 <= @coord_x R (Rnum rnd) xc yc fact (iw a) i j <= IZR (iw a - 1).
Proof.
  intros Hh Hw i j.
  assert (Ph : 0 <= IZR (ih a - 1)) by (apply IZR_le; lia). assert (Pw : 0 <= IZR (iw a - 1)) by (apply IZR_le; lia).
  assert (RY : 0 <= @coord_y R (Rnum rnd) xc yc fact (ih a) i j <= IZR (ih a - 1)).
  { unfold coord_y. cbn [nf32 nofZ Rnum]. rewrite nclip_R by assumption. apply f32_clamp_range. lia. }
  assert (RX : 0 <= @coord_x R (Rnum rnd) xc yc fact (iw a) i j <= IZR (iw a - 1)).
  { unfold coord_x. cbn [nf32 nofZ Rnum]. rewrite nclip_R by assumption. apply f32_clamp_range. lia. }
  split; [|split; assumption].
  change (px (@unwarp_image_backward R (Rnum rnd) (@bilinear R Rex) a xc yc fact) i j)
    with (@bilinear R Rex a (@coord_y R (Rnum rnd) xc yc fact (ih a) i j) (@coord_x R (Rnum rnd) xc yc fact (iw a) i j)).
  now apply bilinear_lin_sample.
Qed.
(** Brighter photographs are brighter after the correction; a disturbance is
    not amplified.  Any rounding of the positions. *)
Theorem C115_monotone : forall rnd a b D xc yc fact, same_size a b -> (0 < ih a <= 2 ^ 24 + 1)%Z -> (0 < iw a <= 2 ^ 24 + 1)%Z ->
  below a b D -> below (@unwarp_image_backward R (Rnum rnd) (@bilinear R Rex) a xc yc fact) (@unwarp_image_backward R (Rnum rnd) (@bilinear R Rex) b xc yc fact) D.
Proof.
  intros rnd a b D xc yc fact S Hh Hw H i j _. destruct S as [Eh Ew].
  destruct (backward_sampled rnd a xc yc fact Hh Hw i j) as [Ea [Ry Rx]]. destruct (backward_sampled rnd b xc yc fact ltac:(lia) ltac:(lia) i j) as [Eb _].
  rewrite Ea, Eb, <- Eh, <- Ew. apply sample_below; [split; assumption|lia|lia|exact Ry|exact Rx|]. intros k l Hkl _ _. now apply H.
Qed.
Print Assumptions C115_monotone.
Lemma differ_below a b D : same_size a b -> (differ_by a b D <-> below a b D /\ below b a D).
Proof.
  intros [Eh Ew]. split.
  - intros H. split; intros k l Hkl.
    + specialize (H k l Hkl). apply Rabs_le_inv in H. lra.
    + assert (I : in_img a k l) by (unfold in_img in *; lia). specialize (H k l I). apply Rabs_le_inv in H. lra.
  - intros [H1 H2] k l Hkl. specialize (H1 k l Hkl). assert (I : in_img b k l) by (unfold in_img in *; lia). specialize (H2 k l I). apply Rabs_le. lra.
Qed.
Theorem C115_noise : forall rnd a b D xc yc fact, same_size a b -> (0 < ih a <= 2 ^ 24 + 1)%Z -> (0 < iw a <= 2 ^ 24 + 1)%Z ->
  differ_by a b D ->
  differ_by (@unwarp_image_backward R (Rnum rnd) (@bilinear R Rex) a xc yc fact) (@unwarp_image_backward R (Rnum rnd) (@bilinear R Rex) b xc yc fact) D.
Proof.
  intros rnd a b D xc yc fact S Hh Hw H. assert (S' := S). destruct S' as [Eh Ew]. apply (differ_below a b D S) in H. destruct H as [H1 H2].
  apply differ_below; [split; assumption|]. split; apply C115_monotone; try assumption; try lia. split; now symmetry.
Qed.
Print Assumptions C115_noise.
(** A defective pixel (k, l) changes only pixels of the result whose (clipped)
    position in the photograph is less than a pixel away from it, up to the
    rounding errors of C107. *)
Definition same_but (a b : image R) (k l : Z) : Prop :=
  same_size a b /\ forall i j, in_img a i j -> (i, j) <> (k, l) -> px a i j = px b i j.
Lemma sample_defect a b k l y x : same_but a b k l -> (0 < ih a)%Z -> (0 < iw a)%Z -> 0 <= y <= IZR (ih a - 1) -> 0 <= x <= IZR (iw a - 1) ->
  1 <= Rabs (y - IZR k) \/ 1 <= Rabs (x - IZR l) -> lin_sample a y x = lin_sample b y x.
Proof.
  intros [[Eh Ew] H] Hh Hw Hy Hx F.
  assert (N : forall i j, in_img a i j -> Rabs (y - IZR i) < 1 -> Rabs (x - IZR j) < 1 -> px a i j = px b i j).
  { intros i j Hij N1 N2. apply H; [exact Hij|]. intros E. injection E as -> ->. destruct F; lra. }
  apply Rle_antisym.
  - rewrite <- (Rplus_0_r (lin_sample b y x)). apply sample_below; [split; assumption|exact Hh|exact Hw|exact Hy|exact Hx|].
    intros i j Hij N1 N2. rewrite (N i j Hij N1 N2). lra.
  - rewrite <- (Rplus_0_r (lin_sample a y x)). apply sample_below; [split; now symmetry|lia|lia|now rewrite <- Eh|now rewrite <- Ew|].
    intros i j Hij N1 N2. rewrite (N i j ltac:(unfold in_img in *; lia) N1 N2). lra.
Qed.
Lemma far_away Y y k B : Rabs (Y - y) <= B -> 1 + B <= Rabs (y - k) -> 1 <= Rabs (Y - k).
Proof. intros H1 H2. replace (y - k) with ((Y - k) + - (Y - y)) in H2 by ring. pose proof (Rabs_triang (Y - k) (- (Y - y))) as T. rewrite Rabs_Ropp in T. lra. Qed.
Theorem C115_defect : forall rnd a b k l xc yc fact, exact_or_double rnd -> (length fact <= 1000)%nat ->
  (0 < ih a <= 2 ^ 24 + 1)%Z -> (0 < iw a <= 2 ^ 24 + 1)%Z -> same_but a b k l ->
  forall i j, in_img a i j -> let c := (yc, xc) in let e := radial_map fact c (IZR i, IZR j) in let r := dist (IZR i, IZR j) c in
    1 + (rounding_bound fact yc r + two (-24) * IZR (ih a - 1) + two (-150)) <= Rabs (clamp (py e) 0 (IZR (ih a - 1)) - IZR k) \/
    1 + (rounding_bound fact xc r + two (-24) * IZR (iw a - 1) + two (-150)) <= Rabs (clamp (pxc e) 0 (IZR (iw a - 1)) - IZR l) ->
    px (@unwarp_image_backward R (Rnum rnd) (@bilinear R Rex) a xc yc fact) i j = px (@unwarp_image_backward R (Rnum rnd) (@bilinear R Rex) b xc yc fact) i j.
Proof.
  intros rnd a b k l xc yc fact Hr Hn Hh Hw S i j _ c e r F. assert (S' := S). destruct S' as [[Eh Ew] _].
  destruct (backward_sampled rnd a xc yc fact Hh Hw i j) as [Ea [Ry Rx]]. destruct (backward_sampled rnd b xc yc fact ltac:(lia) ltac:(lia) i j) as [Eb _].
  rewrite Ea, Eb, <- Eh, <- Ew. apply (sample_defect a b k l); try assumption; try lia.
  destruct (positions_bound rnd xc yc fact (ih a) (iw a) i j Hr Hn ltac:(lia) ltac:(lia)) as [QY QX]. fold c in QY, QX. fold e r in QY, QX.
  destruct F as [F|F]; [left|right]; eapply far_away; eassumption.
Qed.
Print Assumptions C115_defect.

(** *** The perspective correction *)
Lemma perspective_same_positions rnd a b c : same_size a b -> length c = 8%nat -> (0 < ih a <= 2 ^ 24 + 1)%Z -> (0 < iw a <= 2 ^ 24 + 1)%Z -> exact_or_double rnd ->
  exists oa ob (Y X : Z -> Z -> R), @correct_perspective_image R (Rnum rnd) (@bilinear R Rex) a c None = Ok oa /\
    @correct_perspective_image R (Rnum rnd) (@bilinear R Rex) b c None = Ok ob /\ same_size oa a /\ same_size ob a /\
    (forall i j, in_img a i j -> px oa i j = lin_sample a (Y i j) (X i j) /\ px ob i j = lin_sample b (Y i j) (X i j) /\
       0 <= Y i j <= IZR (ih a - 1) /\ 0 <= X i j <= IZR (iw a - 1)) /\
    forall i j, let p := (IZR i, IZR j) in let e := proj (coef_mat c) p in resolved c p ->
      Rabs (Y i j - clamp (py e) 0 (IZR (ih a - 1))) <= bound_y c p + two (-24) * IZR (ih a - 1) + two (-150) /\
      Rabs (X i j - clamp (pxc e) 0 (IZR (iw a - 1))) <= bound_x c p + two (-24) * IZR (iw a - 1) + two (-150).
Proof.
  intros [Eh Ew] Hc Hh Hw Hr. assert (Hc' := Hc). do 8 (destruct c as [|? c]; [discriminate|]). destruct c; [|discriminate].
  match goal with |- context [proj (coef_mat ?l)] => set (cl := l) in * end.
  destruct (perspective_image_gen rnd (@bilinear R Rex) a cl ltac:(lia) ltac:(lia) Hc') as [ca [oa [Ca [Eoa [Ha [Wa Pa]]]]]].
  destruct (perspective_image_gen rnd (@bilinear R Rex) b cl ltac:(lia) ltac:(lia) Hc') as [cb [ob [Cb [Eob [Hb [Wb Pb]]]]]].
  unfold cl in Ca, Cb. cbn [unpack8] in Ca, Cb. injection Ca as <-. injection Cb as <-. rewrite <- Eh in Hb, Pb. rewrite <- Ew in Wb, Pb.
  exists oa, ob, (fun i j => f32 (clamp (@persp_y R (Rnum rnd) (r, r0, r1, r2, r3, r4, r5, r6) (IZR i) (IZR j)) 0 (IZR (ih a - 1)))),
         (fun i j => f32 (clamp (@persp_x R (Rnum rnd) (r, r0, r1, r2, r3, r4, r5, r6) (IZR i) (IZR j)) 0 (IZR (iw a - 1)))).
  split; [exact Eoa|]. split; [exact Eob|]. split; [split; assumption|]. split; [split; assumption|]. split.
  - intros i j [Hi Hj]. rewrite (Pa i j Hi Hj), (Pb i j Hi Hj).
    set (Y := f32 _). set (X := f32 _). assert (RY : 0 <= Y <= IZR (ih a - 1)) by (apply f32_clamp_range; lia). assert (RX : 0 <= X <= IZR (iw a - 1)) by (apply f32_clamp_range; lia).
    split; [now apply bilinear_lin_sample|]. split; [apply bilinear_lin_sample; [now rewrite <- Eh|now rewrite <- Ew]|]. split; assumption.
  - intros i j p e Hp. split; apply clipped_bound; try lia; exact (quot_near rnd Hr _ _ _ _ _ p Hp).
Qed.
Theorem C115_perspective : forall rnd a b D c, same_size a b -> length c = 8%nat -> (0 < ih a <= 2 ^ 24 + 1)%Z -> (0 < iw a <= 2 ^ 24 + 1)%Z -> exact_or_double rnd ->
  exists oa ob, @correct_perspective_image R (Rnum rnd) (@bilinear R Rex) a c None = Ok oa /\
    @correct_perspective_image R (Rnum rnd) (@bilinear R Rex) b c None = Ok ob /\ same_size oa ob /\
    (below a b D -> below oa ob D) /\ (differ_by a b D -> differ_by oa ob D) /\
    forall k l, same_but a b k l -> forall i j, in_img a i j -> let p := (IZR i, IZR j) in let e := proj (coef_mat c) p in resolved c p ->
      1 + (bound_y c p + two (-24) * IZR (ih a - 1) + two (-150)) <= Rabs (clamp (py e) 0 (IZR (ih a - 1)) - IZR k) \/
      1 + (bound_x c p + two (-24) * IZR (iw a - 1) + two (-150)) <= Rabs (clamp (pxc e) 0 (IZR (iw a - 1)) - IZR l) ->
      px oa i j = px ob i j.
Proof.
  intros rnd a b D c S Hc Hh Hw Hr. destruct (perspective_same_positions rnd a b c S Hc Hh Hw Hr) as [oa [ob [Y [X [Ea [Eb [Sa [Sb [P B]]]]]]]]].
  exists oa, ob. split; [exact Ea|]. split; [exact Eb|]. assert (So : same_size oa ob) by (destruct Sa, Sb; split; congruence). split; [exact So|].
  assert (S2 : same_size b a) by (destruct S; split; now symmetry).
  assert (M1 : below a b D -> below oa ob D).
  { intros H i j Hij. assert (I : in_img a i j) by (unfold in_img in *; destruct Sa; lia). destruct (P i j I) as [-> [-> [R1 R2]]].
    apply sample_below; try assumption; try lia. intros k l Hkl _ _. now apply H. }
  assert (M2 : below b a D -> below ob oa D).
  { intros H i j Hij. assert (I : in_img a i j) by (unfold in_img in *; destruct Sb; lia). destruct (P i j I) as [-> [-> [R1 R2]]].
    destruct S2 as [Q1 Q2]. apply sample_below; [split; assumption|lia|lia|now rewrite Q1|now rewrite Q2|]. intros k l Hkl _ _. now apply H. }
  split; [exact M1|]. split.
  - intros H. apply (differ_below a b D S) in H. destruct H as [H1 H2]. apply (differ_below oa ob D So). split; [now apply M1|now apply M2].
  - intros k l Sk i j Hij p e Hp F. destruct (P i j Hij) as [-> [-> [R1 R2]]]. apply (sample_defect a b k l); try assumption; try lia.
    destruct (B i j Hp) as [B1 B2]. fold p in B1, B2. fold e in B1, B2. destruct F as [F|F]; [left|right]; eapply far_away; eassumption.
Qed.
Print Assumptions C115_perspective.
(** A hot pixel, 200 too bright. *)
Example C115_case : let a := mkimg 5 5 (fun i j => if ((i =? 2) && (j =? 2))%Z%bool then 255 else 55) in let b := mkimg 5 5 (fun _ _ => 55) in
  same_but a b 2 2 /\ differ_by a b 200 /\ below b a 0 /\
  differ_by (@unwarp_image_backward R (Rnum f64) (@bilinear R Rex) a 2 2 [1; 1 / 10]) (@unwarp_image_backward R (Rnum f64) (@bilinear R Rex) b 2 2 [1; 1 / 10]) 200.
Proof.
  intros a b. assert (D : differ_by a b 200).
  { intros k l _. unfold a, b. cbn [px]. destruct ((k =? 2) && (l =? 2))%Z%bool; rewrite Rabs_pos_eq; lra. }
  split; [|split; [exact D|split]].
  - split; [split; reflexivity|]. intros i j _ N. unfold a, b. cbn [px].
    destruct (Z.eqb_spec i 2) as [->|E1]; [|reflexivity]. destruct (Z.eqb_spec j 2) as [->|E2]; [|reflexivity]. now contradiction N.
  - intros k l _. unfold a, b. cbn [px]. destruct ((k =? 2) && (l =? 2))%Z%bool; lra.
  - apply C115_noise; [split; reflexivity|cbn; lia|cbn; lia|exact D].
Qed.
