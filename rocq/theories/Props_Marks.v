(** C132: points corrected with the backward model are as accurate as the
    numerical minimiser, and mark in the corrected picture what the measured
    points marked in the photograph.  Vocabulary: Spec.v, Props_Scene.v. *)
From Coq Require Import Reals ZArith List Lra Lia.
From Flocq Require Import Core.
From Verif Require Import Base Num NumFacts Spec Img Post PostLines PostImg Props_Round Props_Mono Props_Scene.
Import ListNotations.
Local Open Scope R_scope.

(** What the minimiser is asked for and what it returns, for a measured point
    at distance rd from the centre: a radius u making [mismatch fact rd u] zero. *)
Definition mismatch (fact : list R) (rd u : R) : R := Rabs (rd - u * poly fact u).
Definition answer (minimize : (R -> R) -> R -> R) (fact : list R) (rd : R) : R :=
  minimize (fun u => (rd - u * poly fact u) ^ 2) rd.
(** The relation C between measured and corrected points holds for all points
    of all lines, in order. *)
Definition pointwise (C : pt -> pt -> Prop) (lines out : list (dtype * list pt)) : Prop :=
  Forall2 (fun l u => fst u = fst l /\ Forall2 C (snd l) (snd u)) lines out.
(** The distorted radius grows at least k times as fast as the radius. *)
Definition rising (k : R) (fact : list R) (M : R) : Prop :=
  forall r s, 0 <= r -> r <= s -> s <= M -> k * (s - r) <= s * poly fact s - r * poly fact r.

(** *** Points on one ray *)
Lemma dist_ray c p a b : dist (padd c (pscale a (psub p c))) (padd c (pscale b (psub p c))) = Rabs (a - b) * dist p c.
Proof.
  destruct c as [cy cx], p as [y x]. unfold dist, padd, pscale, psub, py, pxc. cbn [fst snd].
  replace ((cy + a * (y - cy) - (cy + b * (y - cy))) * (cy + a * (y - cy) - (cy + b * (y - cy))) + (cx + a * (x - cx) - (cx + b * (x - cx))) * (cx + a * (x - cx) - (cx + b * (x - cx))))
    with (Rsqr (a - b) * ((y - cy) * (y - cy) + (x - cx) * (x - cx))) by (unfold Rsqr; ring).
  rewrite sqrt_mult_alt by apply Rle_0_sqr. now rewrite sqrt_Rsqr_abs.
Qed.
Lemma ray_self c (p : pt) : padd c (pscale 1 (psub p c)) = p.
Proof. destruct c, p. unfold padd, pscale, psub, py, pxc. cbn [fst snd]. apply f_equal2; ring. Qed.
Lemma ray_zero c : padd c (pscale 0 (psub c c)) = c.
Proof. destruct c. unfold padd, pscale, psub, py, pxc. cbn [fst snd]. apply f_equal2; ring. Qed.
Lemma scale_twice a b c p : padd c (pscale a (psub (padd c (pscale b (psub p c))) c)) = padd c (pscale (a * b) (psub p c)).
Proof. destruct c, p. unfold padd, pscale, psub, py, pxc. cbn [fst snd]. apply f_equal2; ring. Qed.
Lemma dist_self p : dist p p = 0.
Proof. unfold dist. rewrite !Rminus_eq_0, !Rmult_0_l, Rplus_0_l. apply sqrt_0. Qed.
Lemma center_fixed fact c : radial_map fact c c = c.
Proof. destruct c. unfold radial_map, padd, pscale, psub, py, pxc. cbn [fst snd]. apply f_equal2; ring. Qed.
Lemma pointwise_map (C : pt -> pt -> Prop) minimize lines xc yc fact : Forall (fun l => fst l = DF64) lines ->
  (forall p q : pt, let c := (yc, xc) in let ru := answer minimize fact (dist p c) in
     (p = c -> q = c) -> (p <> c -> q = padd c (pscale (ru / dist p c) (psub p c))) -> C p q) ->
  pointwise C lines (@unwarp_line_backward R Rex minimize lines xc yc fact).
Proof.
  intros D H. pose proof (backward_lines minimize lines xc yc fact D) as B. unfold pointwise. revert D. induction B as [|l u ls us [E A] B IH]; intros D; [constructor|].
  inversion D as [|? ? Dl Ds]; subst. constructor; [|now apply IH]. split; [exact (eq_trans E (eq_sym Dl))|]. clear - A H.
  destruct l as [dl l], u as [du u]. cbn [fst snd] in *. induction A as [|p q ps qs (Z & N & _) A IH]; constructor; [|exact IH]. now apply H.
Qed.
Lemma residue_eq minimize fact c p q : let ru := answer minimize fact (dist p c) in (p = c -> q = c) -> (p <> c -> q = padd c (pscale (ru / dist p c) (psub p c))) ->
  p <> c -> 0 <= ru -> dist (radial_map fact c q) p = mismatch fact (dist p c) ru.
Proof.
  intros ru _ N NE P. rewrite (N NE). pose proof (dist_pos p c) as Dp. assert (D : 0 < dist p c) by (destruct Dp as [Dp|Dp]; [exact Dp|exfalso; apply NE; now apply dist_zero_eq]).
  unfold radial_map. rewrite dist_scale. rewrite Rabs_pos_eq by (apply Rmult_le_pos; [exact P|left; now apply Rinv_0_lt_compat]).
  replace (ru / dist p c * dist p c) with ru by (field; lra). rewrite scale_twice. rewrite <- (ray_self c p) at 3. rewrite dist_ray.
  unfold mismatch. rewrite <- (Rabs_pos_eq (dist p c)) at 2 by lra. rewrite <- Rabs_mult, Rabs_minus_sym. f_equal. field. lra.
Qed.

(** Distorting the corrected point misses the measured one by exactly what the
    minimiser left over. *)
Theorem C132_residue : forall minimize lines xc yc fact, Forall (fun l => fst l = DF64) lines ->
  pointwise (fun p q => let c := (yc, xc) in let u := answer minimize fact (dist p c) in
               p <> c -> 0 <= u -> dist (radial_map fact c q) p = mismatch fact (dist p c) u)
    lines (@unwarp_line_backward R Rex minimize lines xc yc fact).
Proof. intros minimize lines xc yc fact D. apply pointwise_map; [exact D|]. intros p q c ru Z N NE P. now apply (residue_eq minimize fact c p q). Qed.
Print Assumptions C132_residue.
(** So a minimiser that never returns a worse value than at its starting point
    never makes a point fit the model worse than it did uncorrected. *)
Theorem C132_not_worse : forall minimize lines xc yc fact, Forall (fun l => fst l = DF64) lines ->
  (forall f x0, f (minimize f x0) <= f x0) -> (forall rd, 0 <= rd -> 0 <= answer minimize fact rd) ->
  pointwise (fun p q => let c := (yc, xc) in dist (radial_map fact c q) p <= dist (radial_map fact c p) p)
    lines (@unwarp_line_backward R Rex minimize lines xc yc fact).
Proof.
  intros minimize lines xc yc fact D Hm Hp. apply pointwise_map; [exact D|]. intros p q c ru Z N. cbv zeta. fold c.
  assert (Dec : p = c \/ p <> c) by (destruct (Req_dec (dist p c) 0) as [E|E]; [left; now apply dist_zero_eq|right; intros ->; apply E, dist_self]).
  destruct Dec as [E|NE]; [rewrite (Z E), E; lra|].
  pose proof (dist_pos p c) as Dp. assert (P : 0 <= ru) by (apply Hp; exact Dp). rewrite (residue_eq minimize fact c p q Z N NE P).
  assert (E2 : dist (radial_map fact c p) p = Rabs ((poly fact (dist p c) - 1) * dist p c)).
  { pose proof (dist_ray c p (poly fact (dist p c)) 1) as E. rewrite ray_self in E. unfold radial_map. rewrite E, Rabs_mult, (Rabs_pos_eq (dist p c)) by exact Dp. reflexivity. }
  rewrite E2.
  pose proof (Hm (fun u => (dist p c - u * poly fact u) ^ 2) (dist p c)) as H. cbv beta in H. fold (answer minimize fact (dist p c)) in H. fold ru in H.
  replace ((poly fact (dist p c) - 1) * dist p c) with (- (dist p c - dist p c * poly fact (dist p c))) by ring. rewrite Rabs_Ropp. unfold mismatch.
  apply Rsqr_le_abs_0. unfold Rsqr. cbn [pow] in H. rewrite !Rmult_1_r in H. exact H.
Qed.
Print Assumptions C132_not_worse.
(** If the distorted radius rises at least k times as fast as the radius, the
    corrected point is no further from the true one than the remainder over k. *)
Theorem C132_accuracy : forall minimize lines xc yc fact k M, Forall (fun l => fst l = DF64) lines -> 0 < k -> rising k fact M ->
  pointwise (fun p q => let c := (yc, xc) in let u := answer minimize fact (dist p c) in 0 <= u <= M ->
               forall t, radial_map fact c t = p -> dist t c <= M -> dist q t <= mismatch fact (dist p c) u / k)
    lines (@unwarp_line_backward R Rex minimize lines xc yc fact).
Proof.
  intros minimize lines xc yc fact k M D Hk Hr. apply pointwise_map; [exact D|]. intros p q c ru Z N. cbv zeta. fold c. fold ru. intros U t T Mt.
  pose proof (dist_pos t c) as Dt. pose proof (Hr 0 (dist t c) ltac:(lra) Dt Mt) as R0. rewrite Rmult_0_l, !Rminus_0_r in R0.
  assert (Ed : dist p c = dist t c * poly fact (dist t c)).
  { rewrite <- T. unfold radial_map. rewrite dist_scale. destruct (Req_dec (dist t c) 0) as [E0|E0]; [rewrite E0; ring|].
    assert (0 < dist t c) by lra. assert (0 < k * dist t c) by (apply Rmult_lt_0_compat; lra). rewrite Rabs_pos_eq; [ring|]. apply Rmult_le_reg_l with (dist t c); lra. }
  assert (Pm : 0 <= mismatch fact (dist p c) ru / k) by (apply Rmult_le_pos; [apply Rabs_pos|left; now apply Rinv_0_lt_compat]).
  destruct (Req_dec (dist t c) 0) as [E0|E0].
  { apply dist_zero_eq in E0. subst t. rewrite center_fixed in T. rewrite (Z (eq_sym T)), dist_self. exact Pm. }
  assert (Dt' : 0 < dist t c) by lra. assert (Kt : 0 < k * dist t c) by (apply Rmult_lt_0_compat; lra). assert (Dp : 0 < dist p c) by lra.
  assert (NE : p <> c) by (intros E; rewrite E, dist_self in Dp; lra). rewrite (N NE).
  assert (Et : t = padd c (pscale (dist t c / dist p c) (psub p c))).
  { rewrite <- T at 2. unfold radial_map. rewrite scale_twice. rewrite <- (ray_self c t) at 1. f_equal. f_equal. rewrite Ed. field. split; [|exact E0]. intros E; rewrite E, Rmult_0_r in Ed; lra. }
  rewrite Et at 1. rewrite dist_ray. rewrite <- (Rabs_pos_eq (dist p c)) at 3 by lra. rewrite <- Rabs_mult.
  replace ((ru / dist p c - dist t c / dist p c) * dist p c) with (ru - dist t c) by (field; lra).
  apply Rmult_le_reg_l with k; [exact Hk|]. replace (k * (mismatch fact (dist p c) ru / k)) with (mismatch fact (dist p c) ru) by (field; lra).
  unfold mismatch. rewrite Ed. destruct (Rle_dec ru (dist t c)) as [L|L].
  - pose proof (Hr ru (dist t c) ltac:(lra) L Mt) as H. rewrite (Rabs_left1 (ru - _)) by lra. eapply Rle_trans; [|apply Rle_abs]. lra.
  - pose proof (Hr (dist t c) ru ltac:(lra) ltac:(lra) ltac:(lra)) as H. rewrite (Rabs_pos_eq (ru - _)) by lra. rewrite Rabs_minus_sym. eapply Rle_trans; [|apply Rle_abs]. lra.
Qed.
Print Assumptions C132_accuracy.
(** Weak distortion rises fast enough. *)
Theorem C132_rising : forall a0 a M, rising (a0 - slope_bound 1 a M) (a0 :: a) M.
Proof.
  intros a0 a M r s Hr Hs HM. pose proof (poly_diff a 1 r s M Hr Hs HM) as D. cbn [Nat.add pow] in D. rewrite !Rmult_1_r in D.
  pose proof (Rle_abs (-(s * s * poly a s - r * r * poly a r))) as A. rewrite Rabs_Ropp in A. cbn [poly]. nra.
Qed.
Print Assumptions C132_rising.

(** *** Points and pictures *)
Lemma dist_l1 p q : Rabs (py p - py q) + Rabs (pxc p - pxc q) <= 2 * dist p q.
Proof.
  assert (A : forall a b, Rabs a <= sqrt (a * a + b * b)).
  { intros a b. rewrite <- sqrt_Rsqr_abs. apply sqrt_le_1_alt. unfold Rsqr. nra. }
  unfold dist. pose proof (A (py p - py q) (pxc p - pxc q)). pose proof (A (pxc p - pxc q) (py p - py q)) as B. rewrite Rplus_comm in B. lra.
Qed.
(** A feature measured at p in the photograph and corrected to q is found at q
    in the corrected picture: each pixel (i, j) has the brightness measured at
    p, up to the change of brightness of the scene between q and (i, j), the
    remainder of the minimiser, and the error of the picture itself (C110). *)
Theorem C132_marks : forall rnd minimize lines mat light scene L xc yc fact, exact_or_double rnd -> (length fact <= 1000)%nat ->
  Forall (fun l => fst l = DF64) lines -> (0 < ih mat <= 2 ^ 24 + 1)%Z -> (0 < iw mat <= 2 ^ 24 + 1)%Z ->
  0 <= L -> steep L light -> photograph mat light -> seen_through (radial_map fact (yc, xc)) scene light ->
  pointwise (fun p q => let c := (yc, xc) in let u := answer minimize fact (dist p c) in p <> c -> 0 <= u ->
      Rabs (scene q - light p) <= 2 * L * mismatch fact (dist p c) u /\
      forall i j, in_img mat i j -> let z := (IZR i, IZR j) in on_detector mat (radial_map fact c z) ->
        Rabs (px (@unwarp_image_backward R (Rnum rnd) (@bilinear R Rex) mat xc yc fact) i j - light p)
        <= Rabs (scene z - scene q) + 2 * L * mismatch fact (dist p c) u
           + L * (1 + (rounding_bound fact yc (dist z c) + rounding_bound fact xc (dist z c) + two (-24) * IZR (ih mat + iw mat - 2) + 2 * two (-150))))
    lines (@unwarp_line_backward R Rex minimize lines xc yc fact).
Proof.
  intros rnd minimize lines mat light scene L xc yc fact Hr Hn D Hh Hw HL St Ph Se. apply pointwise_map; [exact D|]. intros p q c ru Z N. cbv zeta. fold c. fold ru. intros NE P.
  assert (S1 : Rabs (scene q - light p) <= 2 * L * mismatch fact (dist p c) ru).
  { rewrite <- (Se q). fold c. eapply Rle_trans; [apply St|]. pose proof (dist_l1 (radial_map fact c q) p) as H. rewrite (residue_eq minimize fact c p q Z N NE P) in H. fold ru in H.
    apply Rmult_le_compat_l with (r := L) in H; [|exact HL]. lra. }
  split; [exact S1|]. intros i j I Dz. pose proof (C110_scene rnd mat light scene L xc yc fact Hr Hn Hh Hw HL St Ph Se i j I Dz) as S2. cbv zeta in S2. set (z := (IZR i, IZR j)) in *.
  set (o := px _ i j) in *. replace (o - light p) with ((o - scene z) + ((scene z - scene q) + (scene q - light p))) by ring.
  eapply Rle_trans; [apply Rabs_triang|]. pose proof (Rabs_triang (scene z - scene q) (scene q - light p)) as S4. fold z c in S2. lra.
Qed.
Print Assumptions C132_marks.
Lemma one_point minimize fact xc yc (p : pt) : p <> (yc, xc) -> @unwarp_line_backward R Rex minimize [(DF64, [p])] xc yc fact
  = [(DF64, [padd (yc, xc) (pscale (answer minimize fact (dist p (yc, xc)) / dist p (yc, xc)) (psub p (yc, xc)))])].
Proof.
  intros N. destruct (backward_point minimize xc yc fact p) as (_ & H & _). cbv zeta in H. specialize (H N). unfold unwarp_line_backward. cbn [map fst snd]. rewrite H. reflexivity.
Qed.
(** The radius returned must not be negative: the minimiser may reach zero at a
    negative radius, and the corrected point then misses by any amount. *)
Theorem C132_negative_refuted : exists minimize fact p, let c := (0, 0) in let u := answer minimize fact (dist p c) in
  mismatch fact (dist p c) u = 0 /\ u < 0 /\ exists q, @unwarp_line_backward R Rex minimize [(DF64, [p])] 0 0 fact = [(DF64, [q])] /\ dist (radial_map fact c q) p = 8.
Proof.
  exists (fun _ _ => -2), [1; 1], (0, 2). cbv zeta. assert (D : dist (0, 2) (0, 0) = 2).
  { unfold dist, py, pxc. cbn [fst snd]. replace ((0 - 0) * (0 - 0) + (2 - 0) * (2 - 0)) with (2 * 2) by ring. apply sqrt_square. lra. }
  rewrite D. unfold answer, mismatch. cbn [poly]. split; [match goal with |- Rabs ?a = 0 => replace a with 0 by ring end; apply Rabs_R0|]. split; [lra|].
  exists (0, -2). split.
  - rewrite one_point by (intros X; injection X; lra). rewrite D. set (q := padd _ _).
    assert (Q : q = (0, -2)) by (unfold q, answer, padd, pscale, psub, py, pxc; cbn [fst snd]; apply f_equal2; field). rewrite Q. reflexivity.
  - assert (D' : dist (0, -2) (0, 0) = 2).
    { unfold dist, py, pxc. cbn [fst snd]. replace ((0 - 0) * (0 - 0) + (-2 - 0) * (-2 - 0)) with (2 * 2) by ring. apply sqrt_square. lra. }
    unfold radial_map. rewrite D'. unfold dist, padd, pscale, psub, py, pxc. cbn [fst snd poly].
    match goal with |- sqrt ?a = _ => replace a with (8 * 8) by ring end. apply sqrt_square. lra.
Qed.
Print Assumptions C132_negative_refuted.

(** *** Cases *)
(** A poor minimiser, which tries one other value only; lens r -> r + r^2. *)
Definition try_once (f : R -> R) (x0 : R) : R := if Rle_dec (f (9 / 10)) (f x0) then 9 / 10 else x0.
Lemma try_never_worse f x0 : f (try_once f x0) <= f x0.
Proof. unfold try_once. destruct (Rle_dec (f (9 / 10)) (f x0)); lra. Qed.
Lemma try_pos fact rd : 0 <= rd -> 0 <= answer try_once fact rd.
Proof. intros H. unfold answer, try_once. destruct (Rle_dec _ _); lra. Qed.
Lemma two_right : dist (0, 2) (0, 0) = 2.
Proof. unfold dist, py, pxc. cbn [fst snd]. replace ((0 - 0) * (0 - 0) + (2 - 0) * (2 - 0)) with (2 * 2) by ring. apply sqrt_square. lra. Qed.
Lemma try_answer : answer try_once [1; 1] 2 = 9 / 10.
Proof. unfold answer, try_once. cbn [poly]. destruct (Rle_dec _ _) as [H|H]; [reflexivity|]. exfalso. apply H. lra. Qed.
Lemma square_rising M : rising 1 [1; 1] M.
Proof. intros r s Hr Hs _. cbn [poly]. nra. Qed.
(** The point measured at (0, 2) is the image of (0, 1); it is corrected to
    (0, 0.9), which the lens moves to (0, 1.71). *)
Example C132_residue_ex : exists q, @unwarp_line_backward R Rex try_once [(DF64, [(0, 2)])] 0 0 [1; 1] = [(DF64, [q])] /\
  dist (radial_map [1; 1] (0, 0) q) (0, 2) = 29 / 100 /\
  dist (radial_map [1; 1] (0, 0) q) (0, 2) <= dist (radial_map [1; 1] (0, 0) (0, 2)) (0, 2) /\ dist q (0, 1) <= 29 / 100.
Proof.
  assert (F : Forall (fun l : dtype * list pt => fst l = DF64) [(DF64, [(0, 2)])]) by (constructor; [reflexivity|constructor]).
  pose proof (C132_residue try_once [(DF64, [(0, 2)])] 0 0 [1; 1] F) as A.
  pose proof (C132_not_worse try_once [(DF64, [(0, 2)])] 0 0 [1; 1] F try_never_worse (try_pos [1; 1])) as B.
  pose proof (C132_accuracy try_once [(DF64, [(0, 2)])] 0 0 [1; 1] 1 5 F Rlt_0_1 (square_rising 5)) as C.
  rewrite one_point in * by (intros X; injection X; lra). set (q := padd _ _) in *.
  inversion A as [|? ? ? ? [_ A1] _]; subst. inversion A1 as [|? ? ? ? A3 _]; subst. inversion B as [|? ? ? ? [_ B1] _]; subst. inversion B1 as [|? ? ? ? B2 _]; subst.
  inversion C as [|? ? ? ? [_ C1] _]; subst. inversion C1 as [|? ? ? ? C2 _]; subst. cbv zeta in A3, B2, C2. rewrite two_right, try_answer in A3, C2.
  assert (Mm : mismatch [1; 1] 2 (9 / 10) = 29 / 100) by (unfold mismatch; cbn [poly]; rewrite Rabs_pos_eq; lra). rewrite Mm in A3, C2.
  exists q. split; [reflexivity|]. split; [apply A3; [intros X; injection X; lra|lra]|]. split; [exact B2|].
  replace (29 / 100) with (29 / 100 / 1) by field. assert (D1 : dist (0, 1) (0, 0) = 1).
  { unfold dist, py, pxc. cbn [fst snd]. replace ((0 - 0) * (0 - 0) + (1 - 0) * (1 - 0)) with (1 * 1) by ring. apply sqrt_square. lra. }
  apply C2; [lra| |rewrite D1; lra]. unfold radial_map. rewrite D1. unfold padd, pscale, psub, py, pxc. cbn [fst snd poly]. apply f_equal2; ring.
Qed.
(** A barrel lens over two thousand pixels. *)
Example C132_rising_ex : rising (11 / 20) [1; - (1 / 10000); - (1 / 240000000)] 2000.
Proof.
  pose proof (C132_rising 1 [- (1 / 10000); - (1 / 240000000)] 2000) as H. intros r s Hr Hs HM. specialize (H r s Hr Hs HM).
  eapply Rle_trans; [|exact H]. apply Rmult_le_compat_r; [lra|]. cbn [slope_bound Nat.add pow]. rewrite !Rabs_Ropp, !Rabs_pos_eq by lra.
  replace (INR 2) with 2 by (cbn; lra). replace (INR 3) with 3 by (cbn; lra). lra.
Qed.
(** Three by three pixels, brightness increasing downwards, seen through a lens
    that halves all distances: the feature measured at (1.5, 1) is in the
    corrected picture at (2, 1). *)
Example C132_marks_ex : let mat := mkimg 3 3 (fun i _ => IZR i) in
  @unwarp_line_backward R Rex (fun _ rd => 2 * rd) [(DF64, [(3 / 2, 1)])] 1 1 [1 / 2] = [(DF64, [(2, 1)])] /\
  Rabs (px (@unwarp_image_backward R Rex (@bilinear R Rex) mat 1 1 [1 / 2]) 2 1 - 3 / 2)
  <= 1 * (1 + (rounding_bound [1 / 2] 1 1 + rounding_bound [1 / 2] 1 1 + two (-24) * IZR 4 + 2 * two (-150))).
Proof.
  cbv zeta. set (light := fun p : pt => py p). set (scene := fun p : pt => light (radial_map [1 / 2] (1, 1) p)).
  assert (Mp : forall y x, radial_map [1 / 2] (1, 1) (y, x) = (1 + 1 / 2 * (y - 1), 1 + 1 / 2 * (x - 1))).
  { intros y x. unfold radial_map, padd, pscale, psub, py, pxc. cbn [fst snd poly]. rewrite Rmult_0_r, Rplus_0_r. reflexivity. }
  assert (S1 : steep 1 light) by (intros p q; unfold light; rewrite Rmult_1_l; pose proof (Rabs_pos (pxc q - pxc p)); lra).
  assert (F : Forall (fun l : dtype * list pt => fst l = DF64) [(DF64, [(3 / 2, 1)])]) by (constructor; [reflexivity|constructor]).
  assert (D : dist (3 / 2, 1) (1, 1) = 1 / 2).
  { unfold dist, py, pxc. cbn [fst snd]. replace ((3 / 2 - 1) * (3 / 2 - 1) + (1 - 1) * (1 - 1)) with (1 / 2 * (1 / 2)) by field. apply sqrt_square. lra. }
  assert (NE : (3 / 2, 1) <> (1, 1)) by (intros X; injection X; lra).
  pose proof (C132_marks (fun x => x) (fun _ rd => 2 * rd) [(DF64, [(3 / 2, 1)])] (mkimg 3 3 (fun i _ => IZR i)) light scene 1 1 1 [1 / 2] (or_introl (fun x => eq_refl))
    ltac:(cbn; lia) F ltac:(cbn; lia) ltac:(cbn; lia) Rle_0_1 S1 (fun i j _ => eq_refl) (fun q => eq_refl)) as A.
  rewrite one_point in * by exact NE. set (q := padd _ _) in *. assert (Q : q = (2, 1)) by (unfold q, answer; rewrite D; unfold padd, pscale, psub, py, pxc; cbn [fst snd]; apply f_equal2; field).
  clearbody q. subst q. inversion A as [|? ? ? ? [_ A1] _]; subst. inversion A1 as [|? ? ? ? A3 _]; subst.
  split; [reflexivity|]. specialize (A3 NE ltac:(unfold answer; cbv zeta; rewrite D; lra)). destruct A3 as [_ A3]. specialize (A3 2%Z 1%Z ltac:(unfold in_img; cbn; lia)). cbv zeta in A3.
  change (Rnum (fun x => x)) with Rex in A3. rewrite Mp in A3. unfold on_detector, py, pxc in A3. cbn [fst snd ih iw] in A3. change (3 - 1)%Z with 2%Z in A3. specialize (A3 ltac:(split; lra)).
  unfold answer in A3. rewrite D in A3. replace (dist (2, 1) (1, 1)) with 1 in A3.
  2:{ unfold dist, py, pxc. cbn [fst snd]. replace ((2 - 1) * (2 - 1) + (1 - 1) * (1 - 1)) with (1 * 1) by ring. symmetry. apply sqrt_square. lra. }
  unfold light, py in A3. cbn [fst] in A3. eapply Rle_trans; [exact A3|]. unfold mismatch. cbn [poly].
  replace (1 / 2 - 2 * (1 / 2) * (1 / 2 + 2 * (1 / 2) * 0)) with 0 by field. rewrite !Rminus_eq_0, !Rabs_R0. change (3 + 3 - 2)%Z with 4%Z. lra.
Qed.
