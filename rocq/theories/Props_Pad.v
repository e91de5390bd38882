(** C116: what automatic padding keeps. *)
From Coq Require Import Reals ZArith List Lra Lia.
From Flocq Require Import Core.
From Verif Require Import Base Num NumFacts Spec Img Post Util UtilFacts UtilFacts2 Props_Util.
Import ListNotations.
Local Open Scope R_scope.

(** *** Specification *)
(** The point q (in the coordinates of the photograph) lies in the padded
    frame, less than one pixel outside at the top and left and less than two at
    the bottom and right. *)
Definition in_frame (h w t b l r : Z) (q : pt) : Prop :=
  -1 < py q + IZR t < IZR (h + t + b - 1) + 2 /\ -1 < pxc q + IZR l < IZR (w + l + r - 1) + 2.
(** Factors of a barrel lens grow with the radius; those of a pincushion lens
    do not exceed one. *)
Definition growing (fact : list R) (R0 : R) : Prop := forall r s, 0 <= r -> r <= s -> s <= R0 -> poly fact r <= poly fact s.
Definition shrinking (fact : list R) (R0 : R) : Prop := forall r, 0 <= r <= R0 -> poly fact r <= 1.

(** The distance of the farthest corner. *)
Definition far_corner (h w : Z) (c : pt) (R0 : R) : Prop :=
  forall row col, (row = 0 \/ row = h - 1)%Z -> (col = 0 \/ col = w - 1)%Z -> dist (IZR row, IZR col) c <= R0.

Lemma dist_le p q c : Rabs (py p - py c) <= Rabs (py q - py c) -> Rabs (pxc p - pxc c) <= Rabs (pxc q - pxc c) -> dist p c <= dist q c.
Proof.
  intros H1 H2. unfold dist. apply sqrt_le_1_alt. apply Rplus_le_compat.
  - apply Rsqr_le_abs_1 in H1. exact H1.
  - apply Rsqr_le_abs_1 in H2. exact H2.
Qed.
(** Some corner is at least as far up or down, on the given side. *)
Lemma end_beyond n i c : (0 <= i < n)%Z -> exists e, (e = 0 \/ e = n - 1)%Z /\ Rabs (IZR i - c) <= Rabs (IZR e - c).
Proof.
  intros H. destruct (Rle_lt_dec (IZR i) c) as [C|C].
  - exists 0%Z. split; [now left|]. assert (0 <= IZR i) by (apply IZR_le; lia). rewrite !Rabs_left1; lra.
  - exists (n - 1)%Z. split; [now right|]. assert (IZR i <= IZR (n - 1)) by (apply IZR_le; lia). rewrite !Rabs_pos_eq; lra.
Qed.

(** One coordinate: a factor between 0 and that of the end, or at most 1. *)
Theorem C116_kept : forall transform h w xc yc fact tfact R0,
  transform fact = Ok tfact -> 0 <= xc <= IZR (w - 1) -> 0 <= yc <= IZR (h - 1) ->
  far_corner h w (yc, xc) R0 -> (forall r, 0 <= r <= R0 -> 0 <= poly tfact r) -> growing tfact R0 \/ shrinking tfact R0 ->
  exists t b l r, @calc_pad R Rex transform (PadBool true) h w xc yc fact = Ok (t, b, l, r) /\
    forall i j, (0 <= i < h)%Z -> (0 <= j < w)%Z -> in_frame h w t b l r (radial_map tfact (yc, xc) (IZR i, IZR j)).
Proof.
  intros transform h w xc yc fact tfact R0 Ht Hx Hy Far HF HG.
  destruct (C21_auto transform h w xc yc fact tfact Ht) as [t [b [l [r [E [[P1 [P2 [P3 P4]]] H]]]]]].
  exists t, b, l, r. split; [exact E|]. intros i j Hi Hj.
  apply IZR_le in P1, P2, P3, P4.
  assert (Bi : 0 <= IZR i <= IZR (h - 1)) by (split; apply IZR_le; lia). assert (Bj : 0 <= IZR j <= IZR (w - 1)) by (split; apply IZR_le; lia).
  assert (D0 : forall p c, 0 <= dist p c) by (intros p c; apply sqrt_pos).
  destruct (end_beyond h i yc Hi) as [re [Hre Ere]]. destruct (end_beyond w j xc Hj) as [ce [Hce Ece]].
  set (f := poly tfact (dist (IZR i, IZR j) (yc, xc))).
  assert (Din : dist (IZR i, IZR j) (yc, xc) <= R0).
  { apply Rle_trans with (dist (IZR re, IZR ce) (yc, xc)); [apply dist_le; assumption|now apply Far]. }
  assert (F0 : 0 <= f) by (apply HF; split; [apply D0|exact Din]).
  unfold in_frame, radial_map, padd, pscale, psub, py, pxc. cbn [fst snd]. fold f.
  rewrite !minus_IZR, !plus_IZR in *.
  (* a factor of a corner on the given side bounds f *)
  assert (K : shrinking tfact R0 \/ forall row col, (row = 0 \/ row = h - 1)%Z -> (col = 0 \/ col = w - 1)%Z ->
     Rabs (IZR i - yc) <= Rabs (IZR row - yc) -> Rabs (IZR j - xc) <= Rabs (IZR col - xc) -> f <= poly tfact (dist (IZR row, IZR col) (yc, xc))).
  { destruct HG as [G|G]; [right|left; exact G]. intros row col Hr Hc A1 A2. apply G; [apply D0|apply dist_le; assumption|now apply Far]. }
  assert (S1 : shrinking tfact R0 -> f <= 1) by (intros S; apply S; split; [apply D0|exact Din]).
  clearbody f. split; split.
  - (* top *) destruct (Rle_lt_dec yc (IZR i)) as [C|C]; [assert (0 <= f * (IZR i - yc)) by (apply Rmult_le_pos; lra); lra|].
    destruct K as [S|K].
    + specialize (S1 S). nra.
    + destruct (H 0%Z ce (or_introl eq_refl) Hce) as [_ [A _]]. specialize (A eq_refl). unfold corner, radial_map, padd, pscale, psub, py, pxc in A. cbn [fst snd] in A.
      assert (Q : f <= poly tfact (dist (IZR 0, IZR ce) (yc, xc))) by (apply K; [now left|exact Hce|rewrite !Rabs_left1; lra|exact Ece]).
      set (g := poly tfact _) in *. assert (f * (yc - IZR i) <= g * yc) by (apply Rmult_le_compat; lra). lra.
  - (* bottom *) destruct (Rle_lt_dec (IZR i) yc) as [C|C]; [assert (0 <= f * (yc - IZR i)) by (apply Rmult_le_pos; lra); lra|].
    destruct K as [S|K].
    + specialize (S1 S). nra.
    + destruct (H (h - 1)%Z ce (or_intror eq_refl) Hce) as [_ [_ [_ A]]]. specialize (A eq_refl). unfold corner, radial_map, padd, pscale, psub, py, pxc in A. cbn [fst snd] in A.
      assert (Q : f <= poly tfact (dist (IZR (h - 1), IZR ce) (yc, xc))) by (apply K; [now right|exact Hce|rewrite minus_IZR, !Rabs_pos_eq; lra|exact Ece]).
      rewrite ?minus_IZR, ?plus_IZR in *. set (g := poly tfact _) in *. assert (f * (IZR i - yc) <= g * (IZR h - 1 - yc)) by (apply Rmult_le_compat; lra). lra.
  - (* left *) destruct (Rle_lt_dec xc (IZR j)) as [C|C]; [assert (0 <= f * (IZR j - xc)) by (apply Rmult_le_pos; lra); lra|].
    destruct K as [S|K].
    + specialize (S1 S). nra.
    + destruct (H re 0%Z Hre (or_introl eq_refl)) as [A _]. specialize (A eq_refl). unfold corner, radial_map, padd, pscale, psub, py, pxc in A. cbn [fst snd] in A.
      assert (Q : f <= poly tfact (dist (IZR re, IZR 0) (yc, xc))) by (apply K; [exact Hre|now left|exact Ere|rewrite !Rabs_left1; lra]).
      set (g := poly tfact _) in *. assert (f * (xc - IZR j) <= g * xc) by (apply Rmult_le_compat; lra). lra.
  - (* right *) destruct (Rle_lt_dec (IZR j) xc) as [C|C]; [assert (0 <= f * (xc - IZR j)) by (apply Rmult_le_pos; lra); lra|].
    destruct K as [S|K].
    + specialize (S1 S). nra.
    + destruct (H re (w - 1)%Z Hre (or_intror eq_refl)) as [_ [_ [A _]]]. specialize (A eq_refl). unfold corner, radial_map, padd, pscale, psub, py, pxc in A. cbn [fst snd] in A.
      assert (Q : f <= poly tfact (dist (IZR re, IZR (w - 1)) (yc, xc))) by (apply K; [exact Hre|now right|exact Ere|rewrite minus_IZR, !Rabs_pos_eq; lra]).
      rewrite ?minus_IZR, ?plus_IZR in *. set (g := poly tfact _) in *. assert (f * (IZR j - xc) <= g * (IZR w - 1 - xc)) by (apply Rmult_le_compat; lra). lra.
Qed.
Print Assumptions C116_kept.

(** Only the corners decide the margins: a lens whose factor first grows and
    then falls back to one at the corners keeps the corners where they are, so
    no margin is added, although the middle of the left edge moves out by five
    pixels.  The lens is a proper one: its factor is at least one and distances
    from the centre grow strictly. *)
Definition moustache : list R := [1; 0; 1 / 12500; 0; - (1 / 62500000)].
Theorem C116_middle_refuted :
  let F := poly moustache in
  (forall row col, (row = 0 \/ row = 100)%Z -> (col = 0 \/ col = 100)%Z -> F (dist (IZR row, IZR col) (50, 50)) = 1) /\
  (forall r, 0 <= r -> r ^ 2 <= 5000 -> 1 <= F r) /\
  (forall r s, 0 <= r -> r < s -> s ^ 2 <= 5000 -> r * F r < s * F s) /\
  @calc_pad R Rex (fun _ => Ok moustache) (PadBool true) 101 101 50 50 [] = Ok (0, 0, 0, 0)%Z /\
  pxc (radial_map moustache (50, 50) (50, 0)) = -5 /\
  ~ in_frame 101 101 0 0 0 0 (radial_map moustache (50, 50) (50, 0)).
Proof.
  intros F.
  assert (EF : forall r, F r = 1 + (r * r) * (5000 - r * r) / 62500000) by (intros r; unfold F, moustache; cbn [poly]; field).
  assert (D : forall row col, (row = 0 \/ row = 100)%Z -> (col = 0 \/ col = 100)%Z -> dist (IZR row, IZR col) (50, 50) * dist (IZR row, IZR col) (50, 50) = 5000).
  { intros row col H1 H2. unfold dist, py, pxc. cbn [fst snd]. rewrite sqrt_sqrt; [|apply Rplus_le_le_0_compat; apply Rle_0_sqr].
    unfold Rsqr. destruct H1 as [-> | ->], H2 as [-> | ->]; lra. }
  assert (C1 : forall row col, (row = 0 \/ row = 100)%Z -> (col = 0 \/ col = 100)%Z -> F (dist (IZR row, IZR col) (50, 50)) = 1).
  { intros row col H1 H2. rewrite EF, (D row col H1 H2). lra. }
  assert (P5 : pxc (radial_map moustache (50, 50) (50, 0)) = -5).
  { unfold radial_map, padd, pscale, psub, pxc, py. cbn [fst snd]. fold F. rewrite EF.
    replace (dist (50, 0) (50, 50) * dist (50, 0) (50, 50)) with 2500; [lra|].
    unfold dist, py, pxc. cbn [fst snd]. rewrite sqrt_sqrt; [|apply Rplus_le_le_0_compat; apply Rle_0_sqr]. unfold Rsqr. lra. }
  split; [exact C1|]. split; [|split; [|split; [|split; [exact P5|]]]].
  - intros r Hr H. rewrite EF. assert (0 <= r * r * (5000 - r * r)) by (apply Rmult_le_pos; nra). lra.
  - intros r s Hr Hs H. rewrite !EF.
    assert (A : r * r <= s * s) by nra. assert (B : s * s <= 5000) by lra. assert (E : 0 <= r * s) by nra. assert (E2 : r * s <= s * s) by nra.
    (* (s F s - r F r) = (s-r) (1 + (5000 (s2+sr+r2) - (s4+s3r+s2r2+sr3+r4)) / k) *)
    set (q := s * s + s * r + r * r). set (v := s*s*(s*s) + s*s*(s*r) + s*s*(r*r) + s*r*(r*r) + r*r*(r*r)).
    assert (Q : 0 <= 5000 * q - v + 62500000 / 2 * 2 - 1).
    { assert (v <= 5000 * q + 5000 * (2 * 5000)).
      { unfold v, q. set (a := s * s) in *. set (b := s * r) in *. set (c := r * r) in *.
        assert (b = r * s) by (unfold b; ring). assert (0 <= c) by (unfold c; nra). assert (0 <= a) by lra.
        assert (b * c <= 5000 * 5000) by (apply Rmult_le_compat; lra). assert (c * c <= 5000 * 5000) by (apply Rmult_le_compat; lra).
        assert (a * a <= 5000 * a) by (apply Rmult_le_compat_r; lra). assert (a * b <= 5000 * b) by (apply Rmult_le_compat_r; lra).
        assert (a * c <= 5000 * c) by (apply Rmult_le_compat_r; lra). lra. }
      lra. }
    assert (G : s * (1 + s * s * (5000 - s * s) / 62500000) - r * (1 + r * r * (5000 - r * r) / 62500000) = (s - r) * (1 + (5000 * q - v) / 62500000)) by (unfold q, v; field).
    assert (0 < 1 + (5000 * q - v) / 62500000) by lra. assert (0 < (s - r) * (1 + (5000 * q - v) / 62500000)) by (apply Rmult_lt_0_compat; lra). lra.
  - unfold calc_pad. cbn [bind]. rewrite !(fun p => proj2 (point_R p 50%R 50%R moustache)). unfold swap, radial_map, padd, pscale, psub, py, pxc.
    cbn [fst snd]. rewrite !pymin_R, !pymax_R. unnum. cbn [Z.sub Z.add Z.opp Z.pos_sub Pos.pred_double]. fold F.
    rewrite !C1 by (try (now left); try (now right)).
    replace (50 + 1 * (IZR 0 - 50)) with 0 by ring. replace (50 + 1 * (IZR 100 - 50)) with 100 by ring.
    rewrite !Rmin_left, !Rmax_left by lra. rewrite !Rlt_bool_false by lra. reflexivity.
  - intros [_ [H _]]. rewrite P5 in H. lra.
Qed.
Print Assumptions C116_middle_refuted.

(** A barrel lens, 1 + r / 100 about (5, 5) of an 11 x 11 image, and a
    pincushion lens, meet the hypotheses. *)
Example C116_case : let R0 := dist (0, 0) (5, 5) in
  far_corner 11 11 (5, 5) R0 /\ (forall r, 0 <= r <= R0 -> 0 <= poly [1; 1 / 100] r) /\ growing [1; 1 / 100] R0 /\
  (forall r, 0 <= r <= R0 -> 0 <= poly [9 / 10] r) /\ shrinking [9 / 10] R0.
Proof.
  intros R0. split; [|split; [|split; [|split]]].
  - intros row col H1 H2. apply dist_le; unfold py, pxc; cbn [fst snd]; rewrite (Rabs_left1 (0 - 5)) by lra; apply Rabs_le;
      [destruct H1 as [-> | ->]|destruct H2 as [-> | ->]]; change (11 - 1)%Z with 10%Z; lra.
  - intros r H. cbn [poly]. lra.
  - intros r s H1 H2 H3. cbn [poly]. lra.
  - intros r H. cbn [poly]. lra.
  - intros r H. cbn [poly]. lra.
Qed.
