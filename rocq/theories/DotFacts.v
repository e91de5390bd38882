(** Dots of the pattern made by make_dot_pattern: their pixels, their
    connected components and their centres. *)
From Coq Require Import Reals ZArith List Lra Lia Permutation.
From Flocq Require Import Core.
From Verif Require Import Base Num Img Spec NumFacts PrepSpec PrepEx UtilFacts.
Import ListNotations.
Local Open Scope Z_scope.

(** *** Connected pixels *)
Lemma line_conn m (f : nat -> Z * Z) N : (forall k, (k <= N)%nat -> set_pixel m (f k)) ->
  (forall k, (k < N)%nat -> adjacent (f k) (f (S k))) -> connected m (f 0%nat) (f N).
Proof.
  intros Hs Ha. induction N as [|N IH]; [apply conn_refl; apply Hs; lia|].
  apply conn_step with (f N); [apply IH; intros; [apply Hs|apply Ha]; lia|apply Ha; lia|apply Hs; lia].
Qed.
Lemma sq_le a b : Z.abs a <= Z.abs b -> a * a <= b * b.
Proof. intros H. nia. Qed.
Definition toward (a b : Z) (k : nat) : Z := if a <=? b then a + Z.of_nat k else a - Z.of_nat k.
Lemma toward_0 a b : toward a b 0 = a.
Proof. unfold toward. destruct (a <=? b); lia. Qed.
Lemma toward_end a b : toward a b (Z.to_nat (Z.abs (b - a))) = b.
Proof. unfold toward. destruct (Z.leb_spec a b); lia. Qed.
Lemma toward_between a b k : (k <= Z.to_nat (Z.abs (b - a)))%nat -> Z.min a b <= toward a b k <= Z.max a b.
Proof. unfold toward. destruct (Z.leb_spec a b); lia. Qed.
Lemma toward_step a b k : Z.abs (toward a b k - toward a b (S k)) = 1.
Proof. unfold toward. destruct (Z.leb_spec a b); lia. Qed.
Section Dots.
  Variables (m : image R) (n : Z) (dot : Z -> Z -> Prop).
  Hypothesis Hn : 1 <= n.
  Hypothesis inside : forall gy gx i j, dot gy gx -> in_window n i j gy gx -> in_img m i j.
  Hypothesis dark : forall i j, in_img m i j -> (px m i j <> 0%R <-> exists gy gx, dot gy gx /\ in_disk n i j gy gx).
  Hypothesis gap : forall gy gx gy' gx', dot gy gx -> dot gy' gx' -> (gy = gy' \/ n < Z.abs (gy - gy')) /\ (gx = gx' \/ n < Z.abs (gx - gx')).

  Lemma disk_set gy gx i j : dot gy gx -> in_disk n i j gy gx -> set_pixel m (i, j).
  Proof.
    intros Hd Hk. assert (I : in_img m i j) by (eapply inside; [exact Hd|apply Hk]). split; [exact I|].
    apply dark; [exact I|]. now exists gy, gx.
  Qed.
  Lemma centre_in_disk gy gx : in_disk n gy gx gy gx.
  Proof. unfold in_disk, in_window. assert (0 <= n / 2 < n) by (split; [apply Z.div_pos; lia|apply Z.div_lt; lia]). rewrite !Z.sub_diag. nia. Qed.
  Lemma disk_closer gy gx i j i' j' : in_disk n i j gy gx ->
    (Z.min gy i <= i' <= Z.max gy i) -> (Z.min gx j <= j' <= Z.max gx j) -> in_disk n i' j' gy gx.
  Proof.
    intros [[W1 W2] D] H1 H2. assert (C : 0 <= n / 2 < n) by (split; [apply Z.div_pos; lia|apply Z.div_lt; lia]).
    split; [split; cbn zeta in *; lia|].
    assert ((i' - gy) * (i' - gy) <= (i - gy) * (i - gy)) by (apply sq_le; lia).
    assert ((j' - gx) * (j' - gx) <= (j - gx) * (j - gx)) by (apply sq_le; lia). lia.
  Qed.
  Lemma disk_connected gy gx i j : dot gy gx -> in_disk n i j gy gx -> connected m (gy, gx) (i, j).
  Proof.
    intros Hd Hk. apply conn_trans with (i, gx).
    - set (f := fun k => (toward gy i k, gx)). set (N := Z.to_nat (Z.abs (i - gy))).
      assert (E0 : f 0%nat = (gy, gx)) by (unfold f; f_equal; apply toward_0).
      assert (E1 : f N = (i, gx)) by (unfold f, N; f_equal; apply toward_end). rewrite <- E0, <- E1. apply line_conn.
      + intros k Hk'. unfold f. apply (disk_set gy gx); [exact Hd|]. apply (disk_closer gy gx i j); [exact Hk|apply toward_between; exact Hk'|lia].
      + intros k _. unfold f, adjacent. cbn [fst snd]. pose proof (toward_step gy i k). lia.
    - set (f := fun k => (i, toward gx j k)). set (N := Z.to_nat (Z.abs (j - gx))).
      assert (E0 : f 0%nat = (i, gx)) by (unfold f; f_equal; apply toward_0).
      assert (E1 : f N = (i, j)) by (unfold f, N; f_equal; apply toward_end). rewrite <- E0, <- E1. apply line_conn.
      + intros k Hk'. unfold f. apply (disk_set gy gx); [exact Hd|]. apply (disk_closer gy gx i j); [exact Hk|lia|apply toward_between; exact Hk'].
      + intros k _. unfold f, adjacent. cbn [fst snd]. pose proof (toward_step gx j k). lia.
  Qed.
  (** A connected set of dark pixels stays in one dot. *)
  Lemma same_dot p q : connected m p q -> forall gy gx, dot gy gx -> in_disk n (fst p) (snd p) gy gx -> in_disk n (fst q) (snd q) gy gx.
  Proof.
    induction 1 as [p _|p q r H IH Ha Hr]; intros gy gx Hd Hp; [exact Hp|]. specialize (IH gy gx Hd Hp).
    destruct Hr as [Ir Pr]. apply dark in Pr; [|exact Ir]. destruct Pr as [gy' [gx' [Hd' Hk]]].
    destruct (gap gy gx gy' gx' Hd Hd') as [Gy Gx]. assert (gy = gy' /\ gx = gx') as [-> ->]; [|exact Hk].
    destruct IH as [[W1 W2] _]. destruct Hk as [[V1 V2] _]. cbn zeta in *. unfold adjacent in Ha. split; lia.
  Qed.
  Lemma one_dot i j gy gx gy' gx' : dot gy gx -> dot gy' gx' -> in_disk n i j gy gx -> in_disk n i j gy' gx' -> gy = gy' /\ gx = gx'.
  Proof.
    intros Hd Hd' [[W1 W2] _] [[V1 V2] _]. destruct (gap gy gx gy' gx' Hd Hd') as [Gy Gx]. cbn zeta in *. split; lia.
  Qed.
End Dots.

(** *** Sums over a window *)
Local Open Scope R_scope.
Lemma sum_n_split a k f : sum_n (a + k) f = sum_n a f + sum_n k (fun u => f (Z.of_nat a + u)%Z).
Proof.
  induction k as [|k IH]; [rewrite Nat.add_0_r; cbn [sum_n]; lra|]. rewrite Nat.add_succ_r. cbn [sum_n]. rewrite IH.
  replace (Z.of_nat (a + k)) with (Z.of_nat a + Z.of_nat k)%Z by lia. lra.
Qed.
Lemma sumZ_window h n a f : (0 <= a)%Z -> (0 <= n)%Z -> (a + n <= h)%Z ->
  (forall k, (0 <= k < h)%Z -> ~ (a <= k < a + n)%Z -> f k = 0) -> sumZ h f = sumZ n (fun u => f (a + u)%Z).
Proof.
  intros Ha Hn Hh H. unfold sumZ. replace (Z.to_nat h) with (Z.to_nat a + (Z.to_nat n + Z.to_nat (h - a - n)))%nat by lia.
  rewrite !sum_n_split. rewrite (sum_n_zero (Z.to_nat a)) by (intros k Hk; apply H; lia).
  rewrite (sum_n_zero (Z.to_nat (h - a - n))) by (intros k Hk; apply H; lia).
  rewrite (sum_n_ext (Z.to_nat n) _ (fun u => f (a + u)%Z)) by (intros k Hk; f_equal; lia). lra.
Qed.
Lemma sumZ_rev n f : sumZ n f = sumZ n (fun u => f (n - 1 - u)%Z).
Proof.
  unfold sumZ. destruct (Z.le_gt_cases n 0) as [H|H]; [replace (Z.to_nat n) with 0%nat by lia; reflexivity|].
  replace (n - 1)%Z with (Z.of_nat (Z.to_nat n) - 1)%Z by lia. generalize (Z.to_nat n) as k. clear. intros k. revert f.
  induction k as [|k IH]; intros f; [reflexivity|]. transitivity (sum_n k f + f (Z.of_nat k)); [reflexivity|]. rewrite (IH f).
  transitivity (sum_n (1 + k) (fun u => f (Z.of_nat (S k) - 1 - u)%Z)); [|reflexivity].
  rewrite (sum_n_split 1 k). cbn [sum_n]. replace (Z.of_nat (S k) - 1 - Z.of_nat 0)%Z with (Z.of_nat k) by lia.
  rewrite (sum_n_ext k (fun u => f (Z.of_nat (S k) - 1 - (Z.of_nat 1 + u))%Z) (fun u => f (Z.of_nat k - 1 - u)%Z)) by (intros u Hu; f_equal; lia).
  lra.
Qed.
Lemma sumZ_first n f : (1 <= n)%Z -> sumZ n f = f 0%Z + sumZ (n - 1) (fun u => f (1 + u)%Z).
Proof.
  intros H. unfold sumZ. replace (Z.to_nat n) with (1 + Z.to_nat (n - 1))%nat by lia. rewrite sum_n_split. cbn [sum_n].
  change (Z.of_nat 0) with 0%Z. change (Z.of_nat 1) with 1%Z. lra.
Qed.
Lemma sumZ_swap n k f : sumZ n (fun i => sumZ k (fun j => f i j)) = sumZ k (fun j => sumZ n (fun i => f i j)).
Proof.
  unfold sumZ. generalize (Z.to_nat n) as a. induction a as [|a IH]; cbn [sum_n].
  - symmetry. apply sum_n_zero. reflexivity.
  - rewrite IH, <- sum_n_plus. reflexivity.
Qed.

(** *** The disk in its window *)
Definition disk (n u v : Z) : R := if ((u - n / 2) * (u - n / 2) + (v - n / 2) * (v - n / 2) <=? (n / 2) * (n / 2))%Z then 1 else 0.
Definition disk_sum (n : Z) (w : Z -> Z -> R) : R := sumZ n (fun u => sumZ n (fun v => disk n u v * w u v)).
Definition disk_area (n : Z) : R := disk_sum n (fun _ _ => 1).

Lemma disk_sym n u v : disk n u v = disk n v u.
Proof. unfold disk. now rewrite Z.add_comm. Qed.
Lemma disk_mirror n u u' v : (u + u' = 2 * (n / 2))%Z -> disk n u v = disk n u' v.
Proof. intros H. unfold disk. replace (u - n / 2)%Z with (- (u' - n / 2))%Z by lia. now rewrite Z.mul_opp_opp. Qed.
Lemma disk_sum_swap n w : disk_sum n w = disk_sum n (fun u v => w v u).
Proof. unfold disk_sum. rewrite sumZ_swap. apply sumZ_ext. intros u _. apply sumZ_ext. intros v _. now rewrite disk_sym. Qed.
Lemma disk_sum_plus n w w' : disk_sum n (fun u v => w u v + w' u v) = disk_sum n w + disk_sum n w'.
Proof.
  unfold disk_sum. rewrite <- sumZ_plus. apply sumZ_ext. intros u _. rewrite <- sumZ_plus. apply sumZ_ext. intros v _. ring.
Qed.
Lemma disk_sum_scal n c w : disk_sum n (fun u v => c * w u v) = c * disk_sum n w.
Proof.
  unfold disk_sum. rewrite <- sumZ_scal. apply sumZ_ext. intros u _. rewrite <- sumZ_scal. apply sumZ_ext. intros v _. ring.
Qed.
Lemma disk_sum_ext n w w' : (forall u v, w u v = w' u v) -> disk_sum n w = disk_sum n w'.
Proof. intros H. unfold disk_sum. apply sumZ_ext. intros u _. apply sumZ_ext. intros v _. now rewrite H. Qed.
Lemma disk_nonneg n u v : 0 <= disk n u v.
Proof. unfold disk. destruct (_ <=? _)%Z; lra. Qed.
Lemma sum_ge n f a : (0 <= a < n)%Z -> (forall k, (0 <= k < n)%Z -> 0 <= f k) -> f a <= sumZ n f.
Proof.
  intros Ha H. unfold sumZ. assert (Hb : (a < Z.of_nat (Z.to_nat n))%Z) by lia. assert (H' : forall k, (0 <= k < Z.of_nat (Z.to_nat n))%Z -> 0 <= f k) by (intros; apply H; lia).
  clear H. revert Hb H'. destruct Ha as [Ha _]. generalize (Z.to_nat n) as k. clear n. intros k.
  assert (P : forall k, (forall u, (0 <= u < Z.of_nat k)%Z -> 0 <= f u) -> 0 <= sum_n k f).
  { induction k0 as [|k0 IH]; intros H; cbn [sum_n]; [lra|]. assert (0 <= sum_n k0 f) by (apply IH; intros; apply H; lia). specialize (H (Z.of_nat k0)). assert (0 <= f (Z.of_nat k0)) by (apply H; lia). lra. }
  induction k as [|k IH]; intros Hb H; [lia|]. cbn [sum_n]. destruct (Z.eq_dec a (Z.of_nat k)) as [->|Ne].
  - assert (0 <= sum_n k f) by (apply P; intros; apply H; lia). lra.
  - assert (f a <= sum_n k f) by (apply IH; [lia|intros; apply H; lia]). assert (0 <= f (Z.of_nat k)) by (apply H; lia). lra.
Qed.
Lemma disk_area_pos n : (1 <= n)%Z -> 1 <= disk_area n.
Proof.
  intros Hn. assert (C : (0 <= n / 2 < n)%Z) by (split; [apply Z.div_pos; lia|apply Z.div_lt; lia]).
  unfold disk_area, disk_sum. apply Rle_trans with (sumZ n (fun v => disk n (n / 2) v * 1)).
  - apply Rle_trans with (disk n (n / 2) (n / 2) * 1).
    + unfold disk. rewrite !Z.sub_diag. destruct (Z.leb_spec (0 * 0 + 0 * 0) (n / 2 * (n / 2))) as [H|H]; [lra|]. nia.
    + apply (sum_ge n (fun v => disk n (n / 2) v * 1)); [exact C|]. intros k _. pose proof (disk_nonneg n (n / 2) k). lra.
  - apply (sum_ge n (fun u => sumZ n (fun v => disk n u v * 1))); [exact C|]. intros u _.
    unfold sumZ. generalize (Z.to_nat n) as k. induction k as [|k IH]; cbn [sum_n]; [lra|]. pose proof (disk_nonneg n u (Z.of_nat k)). lra.
Qed.
(** First moment about the middle: 0 for an odd size; for an even size the
    single pixel at the low edge has no partner. *)
Lemma disk_odd n : Z.odd n = true -> disk_sum n (fun u _ => IZR (u - n / 2)) = 0.
Proof.
  intros Ho. assert (E : n = (2 * (n / 2) + 1)%Z) by (rewrite Zodd_mod in Ho; apply Zeq_bool_eq in Ho; pose proof (Z.div_mod n 2); lia).
  set (S := disk_sum n _). assert (K : S = - S); [|lra]. unfold S at 1, disk_sum. rewrite sumZ_rev.
  replace (- S) with ((-1) * S) by ring. unfold S. rewrite <- disk_sum_scal. unfold disk_sum. apply sumZ_ext. intros u _. apply sumZ_ext. intros v _.
  rewrite (disk_mirror n (n - 1 - u) u v) by lia. replace (n - 1 - u - n / 2)%Z with (- (u - n / 2))%Z by lia. rewrite opp_IZR. ring.
Qed.
Lemma disk_even n : (1 <= n)%Z -> Z.odd n = false -> disk_sum n (fun u _ => IZR (u - n / 2)) = - IZR (n / 2).
Proof.
  intros Hn Ho. assert (E : n = (2 * (n / 2))%Z).
  { pose proof (Z.div_mod n 2). rewrite Zodd_even_bool in Ho. apply Bool.negb_false_iff in Ho. apply Z.even_spec in Ho. destruct Ho as [q Hq]. rewrite Hq. rewrite Z.mul_comm, Z.div_mul by lia. lia. }
  set (c := (n / 2)%Z) in *. unfold disk_sum. rewrite sumZ_first by exact Hn.
  set (S := sumZ (n - 1) _). assert (K : S = - S).
  { unfold S at 1. rewrite sumZ_rev. replace (- S) with ((-1) * S) by ring. unfold S. rewrite <- sumZ_scal. apply sumZ_ext. intros u _.
    rewrite <- sumZ_scal. apply sumZ_ext. intros v _. rewrite (disk_mirror n (1 + (n - 1 - 1 - u)) (1 + u) v) by (fold c; lia).
    replace (1 + (n - 1 - 1 - u) - c)%Z with (- (1 + u - c))%Z by lia. rewrite opp_IZR. ring. }
  assert (S0 : S = 0) by lra. rewrite S0, Rplus_0_r. rewrite (sumZ_single n _ c).
  - unfold disk. fold c. rewrite Z.sub_diag. destruct (Z.leb_spec ((0 - c) * (0 - c) + 0 * 0) (c * c)) as [H|H]; [|lia].
    rewrite Z.sub_0_l, opp_IZR. lra.
  - unfold c in *. lia.
  - intros v Hv Hne. unfold disk. fold c. destruct (Z.leb_spec ((0 - c) * (0 - c) + (v - c) * (v - c)) (c * c)) as [H|H]; [nia|lra].
Qed.

(** *** Labels and centres of the dots *)
Section Centres.
  Variables (m : image R) (n : Z) (dot : Z -> Z -> Prop) (lab : image Z) (num : Z).
  Hypothesis Hn : (1 <= n)%Z.
  Hypothesis inside : forall gy gx i j, dot gy gx -> in_window n i j gy gx -> in_img m i j.
  Hypothesis dark : forall i j, in_img m i j -> (px m i j <> 0 <-> exists gy gx, dot gy gx /\ in_disk n i j gy gx).
  Hypothesis gap : forall gy gx gy' gx', dot gy gx -> dot gy' gx' -> (gy = gy' \/ n < Z.abs (gy - gy'))%Z /\ (gx = gx' \/ n < Z.abs (gx - gx'))%Z.
  Hypothesis bin : binary_image m.
  Hypothesis HL : labelling m lab num.

  Lemma dot_labels gy gx : dot gy gx -> (1 <= px lab gy gx <= num)%Z.
  Proof.
    intros Hd. assert (S : set_pixel m (gy, gx)) by (apply (disk_set m n dot inside dark gy gx gy gx Hd); now apply centre_in_disk).
    destruct S as [I P]. destruct HL as [_ [_ [_ [H _]]]]. destruct (H (gy, gx) I) as [A B]. cbn [fst snd] in *. apply B in P. lia.
  Qed.
  Lemma label_in_disk gy gx i j : dot gy gx -> in_img m i j -> (px lab i j = px lab gy gx <-> in_disk n i j gy gx).
  Proof.
    intros Hd Hi. assert (S : set_pixel m (gy, gx)) by (apply (disk_set m n dot inside dark gy gx gy gx Hd); now apply centre_in_disk).
    pose proof (dot_labels gy gx Hd) as L. destruct HL as [_ [_ [_ [H [_ K]]]]]. split.
    - intros E. assert (S' : set_pixel m (i, j)).
      { split; [exact Hi|]. apply (proj2 (H (i, j) Hi)). cbn [fst snd]. lia. }
      apply (same_dot m n dot dark gap (gy, gx) (i, j)) with (gy := gy) (gx := gx); [|exact Hd|now apply centre_in_disk].
      apply (K (gy, gx) (i, j) S S'). cbn [fst snd]. now symmetry.
    - intros Hk. symmetry. apply (K (gy, gx) (i, j) S); [exact (disk_set m n dot inside dark gy gx i j Hd Hk)|].
      now apply (disk_connected m n dot).
  Qed.
  Lemma dot_part gy gx i j : dot gy gx -> in_img m i j -> (in_window n i j gy gx ->
    part m lab (px lab gy gx) i j = disk n (i - (gy - n / 2)) (j - (gx - n / 2))) /\ (~ in_window n i j gy gx -> part m lab (px lab gy gx) i j = 0).
  Proof.
    intros Hd Hi. unfold part. pose proof (label_in_disk gy gx i j Hd Hi) as L. split; intros W.
    - unfold disk. replace (i - (gy - n / 2) - n / 2)%Z with (i - gy)%Z by lia. replace (j - (gx - n / 2) - n / 2)%Z with (j - gx)%Z by lia.
      destruct (Z.eq_dec _ _) as [E|E]; destruct (Z.leb_spec ((i - gy) * (i - gy) + (j - gx) * (j - gx)) (n / 2 * (n / 2))) as [D|D]; try reflexivity.
      + destruct (bin i j Hi) as [B|B]; [|exact B]. exfalso. apply L in E. destruct (disk_set m n dot inside dark gy gx i j Hd E) as [_ P]. contradiction.
      + apply L in E. destruct E as [_ E]. lia.
      + exfalso. apply E. apply L. split; assumption.
    - destruct (Z.eq_dec _ _) as [E|E]; [|reflexivity]. apply L in E. destruct W. apply E.
  Qed.
  Lemma dot_moment gy gx w : dot gy gx ->
    moment m lab (px lab gy gx) w = disk_sum n (fun u v => w (gy - n / 2 + u)%Z (gx - n / 2 + v)%Z).
  Proof.
    intros Hd. assert (C : (0 <= n / 2 < n)%Z) by (split; [apply Z.div_pos; lia|apply Z.div_lt; lia]).
    assert (Win : forall u v, (0 <= u < n)%Z -> (0 <= v < n)%Z -> in_window n (gy - n / 2 + u) (gx - n / 2 + v) gy gx) by (intros; unfold in_window; cbn zeta; lia).
    assert (I0 : in_img m (gy - n / 2 + 0) (gx - n / 2 + 0)) by (apply (inside gy gx); [exact Hd|apply Win; lia]).
    assert (I1 : in_img m (gy - n / 2 + (n - 1)) (gx - n / 2 + (n - 1))) by (apply (inside gy gx); [exact Hd|apply Win; lia]).
    unfold in_img in I0, I1. unfold moment, disk_sum. rewrite (sumZ_window (ih m) n (gy - n / 2)); [|lia|lia|lia|].
    - apply sumZ_ext. intros u Hu. rewrite (sumZ_window (iw m) n (gx - n / 2)); [|lia|lia|lia|].
      + apply sumZ_ext. intros v Hv. assert (W : in_window n (gy - n / 2 + u) (gx - n / 2 + v) gy gx) by now apply Win.
        assert (I : in_img m (gy - n / 2 + u) (gx - n / 2 + v)) by (apply (inside gy gx); assumption).
        rewrite (proj1 (dot_part gy gx _ _ Hd I) W). do 2 f_equal; lia.
      + intros k Hk Hk'. rewrite (proj2 (dot_part gy gx (gy - n / 2 + u) k Hd ltac:(unfold in_img; lia))); [ring|]. intros [_ W]. cbn zeta in W. lia.
    - intros k Hk Hk'. unfold sumZ. apply sum_n_zero. intros j Hj.
      rewrite (proj2 (dot_part gy gx k j Hd ltac:(unfold in_img; lia))); [ring|]. intros [W _]. cbn zeta in W. lia.
  Qed.
  Definition dot_shift : R := disk_sum n (fun u _ => IZR (u - n / 2)) / disk_area n.
  Lemma dot_centre gy gx : dot gy gx -> centroid m lab (px lab gy gx) = (IZR gy + dot_shift, IZR gx + dot_shift).
  Proof.
    intros Hd. unfold centroid, mass. rewrite !dot_moment by exact Hd. fold (disk_area n). pose proof (disk_area_pos n Hn) as A.
    assert (E : forall z, disk_sum n (fun u _ => IZR (z - n / 2 + u)) / disk_area n = IZR z + dot_shift).
    { intros z. rewrite (disk_sum_ext n _ (fun u v => IZR z * 1 + IZR (u - n / 2))) by (intros; rewrite Rmult_1_r, <- plus_IZR; f_equal; lia).
      rewrite (disk_sum_plus n (fun _ _ => IZR z * 1) (fun u _ => IZR (u - n / 2))), (disk_sum_scal n (IZR z) (fun _ _ => 1)). fold (disk_area n).
      unfold dot_shift. field. lra. }
    f_equal; [apply E|]. rewrite disk_sum_swap. apply E.
  Qed.
  (** Every label belongs to a dot. *)
  Lemma label_dot k : (1 <= k <= num)%Z -> exists gy gx, dot gy gx /\ px lab gy gx = k.
  Proof.
    intros Hk. pose proof HL as HL'. destruct HL' as [_ [_ [_ [H [K _]]]]]. destruct (K k Hk) as [[i j] [I E]]. cbn [fst snd] in *.
    assert (P : px m i j <> 0) by (apply (proj2 (H (i, j) I)); cbn [fst snd]; lia).
    apply dark in P; [|exact I]. destruct P as [gy [gx [Hd Hk']]]. exists gy, gx. split; [exact Hd|].
    apply (label_in_disk gy gx i j Hd I) in Hk'. congruence.
  Qed.
  Lemma labels_inj gy gx gy' gx' : dot gy gx -> dot gy' gx' -> px lab gy gx = px lab gy' gx' -> gy = gy' /\ gx = gx'.
  Proof.
    intros Hd Hd' E. assert (I : in_img m gy gx) by (apply (inside gy gx); [exact Hd|apply centre_in_disk; exact Hn]).
    apply (label_in_disk gy' gx' gy gx Hd' I) in E. apply (one_dot n dot gap gy gx gy gx gy' gx' Hd Hd'); [now apply centre_in_disk|exact E].
  Qed.
  Lemma centres_perm pts : NoDup pts -> (forall gy gx, In (gy, gx) pts <-> dot gy gx) ->
    Permutation (map (centroid m lab) (zrange 1 (num + 1))) (map (fun g => (IZR (fst g) + dot_shift, IZR (snd g) + dot_shift)) pts).
  Proof.
    intros Nd Hi.
    assert (P : Permutation (zrange 1 (num + 1)) (map (fun g => px lab (fst g) (snd g)) pts)).
    { apply NoDup_Permutation.
      - unfold zrange. apply FinFun.Injective_map_NoDup; [intros a b; lia|apply seq_NoDup].
      - clear -Nd Hi Hn inside dark gap bin HL. assert (Hs : forall g, In g pts -> dot (fst g) (snd g)) by (intros [a b]; apply Hi). clear Hi.
        induction Nd as [|g l Hg Nd IH]; cbn [map]; constructor; [|apply IH; intros; apply Hs; now right].
        intros K. apply in_map_iff in K. destruct K as [g' [E Hg']]. apply labels_inj in E; [|apply Hs; now right|apply Hs; now left].
        destruct g, g'. cbn [fst snd] in E. destruct E as [-> ->]. contradiction.
      - intros k. unfold zrange. rewrite !in_map_iff. split.
        + intros [i [<- Hi']]. apply in_seq in Hi'. destruct (label_dot (1 + Z.of_nat i)) as [gy [gx [Hd E]]]; [lia|].
          exists (gy, gx). split; [exact E|now apply Hi].
        + intros [[gy gx] [<- Hg]]. apply Hi in Hg. cbn [fst snd]. pose proof (dot_labels gy gx Hg). exists (Z.to_nat (px lab gy gx - 1)). rewrite in_seq. lia. }
    rewrite P, map_map. apply Permutation_refl'. apply map_ext_in. intros [gy gx] Hg. apply Hi in Hg. cbn [fst snd]. now apply dot_centre.
  Qed.
End Centres.

(** *** Every image has a labelling *)
Lemma finite_choice (P : Z * Z -> Z -> Prop) l : (forall p, In p l -> exists k, P p k) -> exists f, forall p, In p l -> P p (f p).
Proof.
  induction l as [|q l IH]; intros H; [now exists (fun _ => 0%Z)|].
  destruct IH as [f Hf]; [intros p Hp; apply H; now right|]. destruct (H q) as [k Hk]; [now left|].
  assert (Dec : forall p, {p = q} + {p <> q}) by (intros p; decide equality; apply Z.eq_dec).
  exists (fun p => if Dec p then k else f p). intros p [<-|Hp]; destruct (Dec _) as [E|E]; try congruence; try (rewrite E; exact Hk). now apply Hf.
Qed.
Lemma representatives m l : exists reps, (forall r, In r reps -> set_pixel m r) /\
  (forall p, In p l -> set_pixel m p -> exists r, In r reps /\ connected m r p) /\
  (forall a b r s, nth_error reps a = Some r -> nth_error reps b = Some s -> connected m r s -> a = b).
Proof.
  induction l as [|p l [reps [S [C D]]]].
  - exists []. split; [intros r []|]. split; [intros p []|]. intros [|a] b r s H; discriminate H.
  - destruct (Classical_Prop.classic (set_pixel m p /\ ~ exists r, In r reps /\ connected m r p)) as [[Sp N]|N].
    + exists (p :: reps). split; [intros r [<-|Hr]; auto|]. split.
      * intros q [<-|Hq] Sq; [exists p; split; [now left|now apply conn_refl]|]. destruct (C q Hq Sq) as [r [Hr Cr]]. exists r. split; [now right|exact Cr].
      * intros [|a] [|b] r s H1 H2 K; cbn [nth_error] in H1, H2; try reflexivity.
        -- injection H1 as <-. exfalso. apply N. exists s. split; [exact (nth_error_In _ _ H2)|now apply conn_sym].
        -- injection H2 as <-. exfalso. apply N. exists r. split; [exact (nth_error_In _ _ H1)|exact K].
        -- f_equal. exact (D a b r s H1 H2 K).
    + exists reps. split; [exact S|]. split; [|exact D]. intros q [<-|Hq] Sq; [|now apply C].
      apply Classical_Prop.NNPP. intros K. apply N. now split.
Qed.
Lemma labelling_exists m : exists lab num, labelling m lab num.
Proof.
  set (l := list_prod (zrange 0 (ih m)) (zrange 0 (iw m))).
  assert (Hl : forall p, in_img m (fst p) (snd p) -> In p l) by (intros [i j] [Hi Hj]; cbn [fst snd] in *; apply in_prod; apply in_zrange; lia).
  destruct (representatives m l) as [reps [S [C D]]].
  destruct (finite_choice (fun p k => (~ set_pixel m p /\ k = 0%Z) \/ (set_pixel m p /\ (1 <= k <= Z.of_nat (length reps))%Z /\
    exists r, nth_error reps (Z.to_nat (k - 1)) = Some r /\ connected m r p)) l) as [f Hf].
  { intros p Hp. destruct (Classical_Prop.classic (set_pixel m p)) as [Sp|Sp]; [|exists 0%Z; now left].
    destruct (C p Hp Sp) as [r [Hr Cr]]. apply In_nth_error in Hr. destruct Hr as [k Hk].
    assert (k < length reps)%nat by (apply nth_error_Some; congruence).
    exists (Z.of_nat k + 1)%Z. right. split; [exact Sp|]. split; [lia|]. exists r. replace (Z.to_nat (Z.of_nat k + 1 - 1)) with k by lia. auto. }
  exists (mkimg (ih m) (iw m) (fun i j => f (i, j))), (Z.of_nat (length reps)).
  apply labelling_intro; try reflexivity; [lia| | |].
  - intros [i j] Hp. cbn [fst snd px] in *. destruct (Hf (i, j) (Hl (i, j) Hp)) as [[N ->]|[[_ Sp] [K _]]].
    + split; [lia|]. split; [congruence|]. intros P. exfalso. apply N. now split.
    + split; [lia|]. split; [intros _; exact Sp|lia].
  - intros [i j] [i' j'] Sp Sq A. cbn [fst snd px].
    destruct (Hf (i, j) (Hl (i, j) (proj1 Sp))) as [[N _]|[_ [K [r [Hr Cr]]]]]; [contradiction|].
    destruct (Hf (i', j') (Hl (i', j') (proj1 Sq))) as [[N _]|[_ [K' [r' [Hr' Cr']]]]]; [contradiction|].
    assert (C1 : connected m r r'). { apply conn_trans with (i', j'); [apply conn_step with (i, j); auto|now apply conn_sym]. }
    assert (E := D _ _ _ _ Hr Hr' C1). lia.
  - intros k Hk. destruct (nth_error reps (Z.to_nat (k - 1))) as [r|] eqn:E; [|apply nth_error_None in E; lia].
    assert (Sr := S r (nth_error_In _ _ E)). exists r. split; [exact Sr|]. destruct r as [i j]. cbn [fst snd px]. split.
    + destruct (Hf (i, j) (Hl (i, j) (proj1 Sr))) as [[N _]|[_ [K [r' [Hr' Cr']]]]]; [contradiction|].
      assert (E2 := D _ _ _ _ Hr' E Cr'). lia.
    + intros [i' j'] Sq V. cbn [fst snd px] in V. destruct (Hf (i', j') (Hl (i', j') (proj1 Sq))) as [[N _]|[_ [K [r' [Hr' Cr']]]]]; [contradiction|].
      rewrite V, E in Hr'. injection Hr' as <-. exact Cr'.
Qed.
