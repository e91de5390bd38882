(** The region of interest of a dot pattern after border clearing. *)
From Coq Require Import Reals ZArith List Lra Lia Permutation Sorted.
From Flocq Require Import Core.
From Verif Require Import Base Num Img Spec NumFacts PrepSpec PrepEx UtilFacts DotFacts DotSpec.
Import ListNotations.
Local Open Scope Z_scope.

Lemma conn8_trans m p q r : connected8 m p q -> connected8 m q r -> connected8 m p r.
Proof. intros H K. revert H. induction K as [q _|q r s K IH A S]; intros H; [exact H|]. apply conn8_step with r; auto. Qed.
Lemma line_conn8 m (f : nat -> Z * Z) N : (forall k, (k <= N)%nat -> set_pixel m (f k)) ->
  (forall k, (k < N)%nat -> adjacent8 (f k) (f (S k))) -> connected8 m (f 0%nat) (f N).
Proof.
  intros Hs Ha. induction N as [|N IH]; [apply conn8_refl; apply Hs; lia|].
  apply conn8_step with (f N); [apply IH; intros; [apply Hs|apply Ha]; lia|apply Ha; lia|apply Hs; lia].
Qed.
(** Straight moves. *)
Lemma move_row m i i' j : (forall k, Z.min i i' <= k <= Z.max i i' -> set_pixel m (k, j)) -> connected8 m (i, j) (i', j).
Proof.
  intros H. set (f := fun k => (toward i i' k, j)). set (N := Z.to_nat (Z.abs (i' - i))).
  assert (E0 : f 0%nat = (i, j)) by (unfold f; f_equal; apply toward_0).
  assert (E1 : f N = (i', j)) by (unfold f, N; f_equal; apply toward_end). rewrite <- E0, <- E1. apply line_conn8.
  - intros k Hk. unfold f. apply H. now apply toward_between.
  - intros k _. unfold f, adjacent8. cbn [fst snd]. pose proof (toward_step i i' k). lia.
Qed.
Lemma move_col m i j j' : (forall k, Z.min j j' <= k <= Z.max j j' -> set_pixel m (i, k)) -> connected8 m (i, j) (i, j').
Proof.
  intros H. set (f := fun k => (i, toward j j' k)). set (N := Z.to_nat (Z.abs (j' - j))).
  assert (E0 : f 0%nat = (i, j)) by (unfold f; f_equal; apply toward_0).
  assert (E1 : f N = (i, j')) by (unfold f, N; f_equal; apply toward_end). rewrite <- E0, <- E1. apply line_conn8.
  - intros k Hk. unfold f. apply H. now apply toward_between.
  - intros k _. unfold f, adjacent8. cbn [fst snd]. pose proof (toward_step j j' k). lia.
Qed.

Section Cleared.
  Variables (m m' : image R) (n : Z) (dot : Z -> Z -> Prop).
  Hypothesis Hn : 1 <= n.
  Hypothesis dark : forall i j, in_img m i j -> (px m i j <> 0%R <-> exists gy gx, dot gy gx /\ in_disk n i j gy gx).
  Hypothesis gap : forall gy gx gy' gx', dot gy gx -> dot gy' gx' -> (gy = gy' \/ n < Z.abs (gy - gy')) /\ (gx = gx' \/ n < Z.abs (gx - gx')).
  Hypothesis bin : binary_image m.
  Hypothesis clr : cleared m m'.

  (** The dot lies strictly inside the image. *)
  Definition interior (gy gx : Z) : Prop :=
    (0 < gy - n / 2 /\ gy + (n - 1 - n / 2) < ih m - 1) /\ (0 < gx - n / 2 /\ gx + (n - 1 - n / 2) < iw m - 1).
  Definition kept (gy gx : Z) : Prop := dot gy gx /\ interior gy gx.

  Lemma half : 0 <= n / 2 < n.
  Proof. split; [apply Z.div_pos; lia|apply Z.div_lt; lia]. Qed.
  Lemma set_of i j gy gx : dot gy gx -> in_disk n i j gy gx -> in_img m i j -> set_pixel m (i, j).
  Proof. intros Hd Hk Hi. split; [exact Hi|]. apply dark; [exact Hi|]. now exists gy, gx. Qed.
  Lemma axis_row gy gx i : gy - n / 2 <= i <= gy + (n - 1 - n / 2) -> in_disk n i gx gy gx.
  Proof. intros H. pose proof half. unfold in_disk, in_window. cbn zeta. rewrite Z.sub_diag. split; [lia|].
    assert ((i - gy) * (i - gy) <= n / 2 * (n / 2)); [apply sq_le|lia]. pose proof (Z.div_mod n 2). pose proof (Z.mod_pos_bound n 2). lia. Qed.
  Lemma axis_col gy gx j : gx - n / 2 <= j <= gx + (n - 1 - n / 2) -> in_disk n gy j gy gx.
  Proof. intros H. pose proof half. unfold in_disk, in_window. cbn zeta. rewrite Z.sub_diag. split; [lia|].
    assert ((j - gx) * (j - gx) <= n / 2 * (n / 2)); [apply sq_le|lia]. pose proof (Z.div_mod n 2). pose proof (Z.mod_pos_bound n 2). lia. Qed.
  (** Objects touching the border reach it. *)
  Lemma reaches_border i j gy gx : dot gy gx -> in_disk n i j gy gx -> in_img m i j -> ~ interior gy gx ->
    exists q, connected8 m (i, j) q /\ border_pixel m q.
  Proof.
    intros Hd Hk Hi Hno. pose proof half as Hh. assert (W := proj1 Hk). destruct W as [W1 W2]. cbn zeta in *. unfold in_img in Hi.
    assert (Row : ~ (0 < gy - n / 2 /\ gy + (n - 1 - n / 2) < ih m - 1) -> exists q, connected8 m (i, j) q /\ border_pixel m q).
    { intros Hr. destruct (Z_lt_le_dec gx 0) as [A|A]; [|destruct (Z_lt_le_dec gx (iw m)) as [B|B]].
      - exists (i, 0). split; [|unfold border_pixel; cbn [fst snd]; lia]. apply move_col. intros k Hk'.
        apply (set_of i k gy gx); [exact Hd|apply (disk_closer n Hn gy gx i j); [exact Hk|lia|lia]|unfold in_img; lia].
      - assert (C1 : connected8 m (i, j) (i, gx)).
        { apply move_col. intros k Hk'. apply (set_of i k gy gx); [exact Hd|apply (disk_closer n Hn gy gx i j); [exact Hk|lia|lia]|unfold in_img; lia]. }
        destruct (Z_lt_le_dec 0 (gy - n / 2)) as [U|U].
        + exists (ih m - 1, gx). split; [|unfold border_pixel; cbn [fst snd]; lia]. apply conn8_trans with (1 := C1). apply move_row.
          intros k Hk'. apply (set_of k gx gy gx); [exact Hd|apply axis_row; lia|unfold in_img; lia].
        + exists (0, gx). split; [|unfold border_pixel; cbn [fst snd]; lia]. apply conn8_trans with (1 := C1). apply move_row.
          intros k Hk'. apply (set_of k gx gy gx); [exact Hd|apply axis_row; lia|unfold in_img; lia].
      - exists (i, iw m - 1). split; [|unfold border_pixel; cbn [fst snd]; lia]. apply move_col. intros k Hk'.
        apply (set_of i k gy gx); [exact Hd|apply (disk_closer n Hn gy gx i j); [exact Hk|lia|lia]|unfold in_img; lia]. }
    assert (Col : ~ (0 < gx - n / 2 /\ gx + (n - 1 - n / 2) < iw m - 1) -> exists q, connected8 m (i, j) q /\ border_pixel m q).
    { intros Hr. destruct (Z_lt_le_dec gy 0) as [A|A]; [|destruct (Z_lt_le_dec gy (ih m)) as [B|B]].
      - exists (0, j). split; [|unfold border_pixel; cbn [fst snd]; lia]. apply move_row. intros k Hk'.
        apply (set_of k j gy gx); [exact Hd|apply (disk_closer n Hn gy gx i j); [exact Hk|lia|lia]|unfold in_img; lia].
      - assert (C1 : connected8 m (i, j) (gy, j)).
        { apply move_row. intros k Hk'. apply (set_of k j gy gx); [exact Hd|apply (disk_closer n Hn gy gx i j); [exact Hk|lia|lia]|unfold in_img; lia]. }
        destruct (Z_lt_le_dec 0 (gx - n / 2)) as [U|U].
        + exists (gy, iw m - 1). split; [|unfold border_pixel; cbn [fst snd]; lia]. apply conn8_trans with (1 := C1). apply move_col.
          intros k Hk'. apply (set_of gy k gy gx); [exact Hd|apply axis_col; lia|unfold in_img; lia].
        + exists (gy, 0). split; [|unfold border_pixel; cbn [fst snd]; lia]. apply conn8_trans with (1 := C1). apply move_col.
          intros k Hk'. apply (set_of gy k gy gx); [exact Hd|apply axis_col; lia|unfold in_img; lia].
      - exists (ih m - 1, j). split; [|unfold border_pixel; cbn [fst snd]; lia]. apply move_row. intros k Hk'.
        apply (set_of k j gy gx); [exact Hd|apply (disk_closer n Hn gy gx i j); [exact Hk|lia|lia]|unfold in_img; lia]. }
    unfold interior in Hno. destruct (Z_lt_le_dec 0 (gy - n / 2)); [|apply Row; lia]. destruct (Z_lt_le_dec (gy + (n - 1 - n / 2)) (ih m - 1)); [|apply Row; lia].
    apply Col. lia.
  Qed.
  (** An object is a dot, also through corners. *)
  Lemma same_dot8 p q : connected8 m p q -> forall gy gx, dot gy gx -> in_disk n (fst p) (snd p) gy gx -> in_disk n (fst q) (snd q) gy gx.
  Proof.
    induction 1 as [p _|p q r H IH Ha Hr]; intros gy gx Hd Hp; [exact Hp|]. specialize (IH gy gx Hd Hp).
    destruct Hr as [Ir Pr]. apply dark in Pr; [|exact Ir]. destruct Pr as [gy' [gx' [Hd' Hk]]].
    destruct (gap gy gx gy' gx' Hd Hd') as [Gy Gx]. assert (gy = gy' /\ gx = gx') as [-> ->]; [|exact Hk].
    destruct IH as [[W1 W2] _]. destruct Hk as [[V1 V2] _]. cbn zeta in *. unfold adjacent8 in Ha. split; lia.
  Qed.
  Lemma interior_stays i j gy gx : dot gy gx -> in_disk n i j gy gx -> interior gy gx -> ~ exists q, connected8 m (i, j) q /\ border_pixel m q.
  Proof.
    intros Hd Hk Hin [q [C B]]. apply (same_dot8 _ _ C gy gx Hd) in Hk. destruct Hk as [[W1 W2] _]. cbn zeta in *.
    unfold interior in Hin. unfold border_pixel in B. lia.
  Qed.
  Lemma cleared_inside gy gx i j : kept gy gx -> in_window n i j gy gx -> in_img m' i j.
  Proof.
    intros [_ Hk] [W1 W2]. cbn zeta in *. destruct clr as [Eh [Ew _]]. unfold in_img, interior in *. rewrite Eh, Ew. lia.
  Qed.
  Lemma cleared_dark i j : in_img m' i j -> (px m' i j <> 0%R <-> exists gy gx, kept gy gx /\ in_disk n i j gy gx).
  Proof.
    intros Hi. destruct clr as [Eh [Ew C]]. assert (Hi' : in_img m i j) by (unfold in_img in *; now rewrite Eh, Ew in Hi).
    destruct (C (i, j) Hi') as [C1 C2]. cbn [fst snd] in *. split.
    - intros P. assert (N : ~ exists q, connected8 m (i, j) q /\ border_pixel m q) by (intros K; apply P; now apply C1).
      rewrite (C2 N) in P. apply dark in P; [|exact Hi']. destruct P as [gy [gx [Hd Hk]]]. exists gy, gx. split; [|exact Hk]. split; [exact Hd|].
      apply Classical_Prop.NNPP. intros K. apply N. now apply (reaches_border i j gy gx).
    - intros [gy [gx [[Hd Hin] Hk]]]. rewrite C2 by (now apply (interior_stays i j gy gx)). apply dark; [exact Hi'|]. now exists gy, gx.
  Qed.
  Lemma cleared_gap gy gx gy' gx' : kept gy gx -> kept gy' gx' -> (gy = gy' \/ n < Z.abs (gy - gy')) /\ (gx = gx' \/ n < Z.abs (gx - gx')).
  Proof. intros [H _] [H' _]. now apply gap. Qed.
  Lemma cleared_bin : binary_image m'.
  Proof.
    intros i j Hi. destruct clr as [Eh [Ew C]]. assert (Hi' : in_img m i j) by (unfold in_img in *; now rewrite Eh, Ew in Hi).
    destruct (C (i, j) Hi') as [C1 C2]. cbn [fst snd] in *.
    destruct (Classical_Prop.classic (exists q, connected8 m (i, j) q /\ border_pixel m q)) as [K|K]; [left; now apply C1|rewrite C2 by exact K; now apply bin].
  Qed.
End Cleared.

Lemma cleared_exists m : exists m', cleared m m'.
Proof.
  set (l := list_prod (zrange 0 (ih m)) (zrange 0 (iw m))).
  assert (Hl : forall p, in_img m (fst p) (snd p) -> In p l) by (intros [i j] [Hi Hj]; cbn [fst snd] in *; apply in_prod; apply in_zrange; lia).
  destruct (finite_choice (fun p k => let r := exists q, connected8 m p q /\ border_pixel m q in (r /\ k = 0) \/ (~ r /\ k = 1)) l) as [f Hf].
  { intros p _. cbv zeta. destruct (Classical_Prop.classic (exists q, connected8 m p q /\ border_pixel m q)) as [K|K]; [exists 0|exists 1]; auto. }
  exists (mkimg (ih m) (iw m) (fun i j => if f (i, j) =? 0 then 0%R else px m i j)). split; [reflexivity|]. split; [reflexivity|].
  intros [i j] Hp. cbn [fst snd px] in *. specialize (Hf (i, j) (Hl (i, j) Hp)). cbv zeta in Hf. destruct Hf as [[K ->]|[K ->]]; cbn [Z.eqb]; split; tauto.
Qed.

(** *** Size and distance *)
Local Open Scope R_scope.
Lemma nearest_const l c : (forall x, In x l -> c <= x) -> In c l -> forall v vs, Permutation (v :: vs) l -> StronglySorted Rle (v :: vs) -> v = c.
Proof.
  intros Hm Hc v vs P S. apply Rle_antisym.
  - assert (I : In c (v :: vs)) by (apply (Permutation_in _ (Permutation_sym P)); exact Hc). destruct I as [->|I]; [lra|].
    inversion S as [|? ? _ F]; subst. rewrite Forall_forall in F. now apply F.
  - apply Hm. apply (Permutation_in _ P). now left.
Qed.
Section Grid.
  Variables (m : image R) (n d : Z) (dot : Z -> Z -> Prop) (lab : image Z) (num : Z).
  Hypothesis Hn : (1 <= n)%Z.
  Hypothesis Hd : (0 < d)%Z.
  Hypothesis inside : forall gy gx i j, dot gy gx -> in_window n i j gy gx -> in_img m i j.
  Hypothesis dark : forall i j, in_img m i j -> (px m i j <> 0 <-> exists gy gx, dot gy gx /\ in_disk n i j gy gx).
  Hypothesis gap : forall gy gx gy' gx', dot gy gx -> dot gy' gx' -> (gy = gy' \/ n < Z.abs (gy - gy'))%Z /\ (gx = gx' \/ n < Z.abs (gx - gx'))%Z.
  Hypothesis bin : binary_image m.
  Hypothesis HL : labelling m lab num.
  (** Different dots are at least d apart, and each has a neighbour at d. *)
  Hypothesis far : forall gy gx gy' gx', dot gy gx -> dot gy' gx' -> (gy, gx) <> (gy', gx') -> (d * d <= (gy - gy') * (gy - gy') + (gx - gx') * (gx - gx'))%Z.
  Hypothesis near : forall gy gx, dot gy gx -> exists gy' gx', dot gy' gx' /\ (d * d = (gy - gy') * (gy - gy') + (gx - gx') * (gx - gx'))%Z.

  Lemma centre_dist gy gx gy' gx' : dot gy gx -> dot gy' gx' ->
    dist (centroid m lab (px lab gy gx)) (centroid m lab (px lab gy' gx')) = sqrt (IZR ((gy - gy') * (gy - gy') + (gx - gx') * (gx - gx'))).
  Proof.
    intros A B. rewrite !(dot_centre m n dot lab num Hn inside dark gap bin HL) by assumption. unfold dist, py, pxc. cbn [fst snd]. f_equal.
    rewrite plus_IZR, !mult_IZR, !minus_IZR. ring.
  Qed.
  Lemma sqrt_dd : sqrt (IZR (d * d)) = IZR d.
  Proof. rewrite mult_IZR. apply sqrt_square. apply IZR_le. lia. Qed.
  Lemma grid_nearest k v vs : (1 <= k <= num)%Z -> neighbour_distances m lab num k (v :: vs) -> v = IZR d.
  Proof.
    intros Hk [js [Nd [Hj [P S]]]]. destruct (label_dot m n dot lab num Hn inside dark gap HL k Hk) as [gy [gx [Dg Ek]]].
    apply (nearest_const _ (IZR d)) with (3 := P); [| |exact S].
    - intros x Hx. apply in_map_iff in Hx. destruct Hx as [j [<- Ij]]. apply Hj in Ij. destruct Ij as [Ij Ne].
      destruct (label_dot m n dot lab num Hn inside dark gap HL j Ij) as [gy' [gx' [Dg' Ej]]]. rewrite <- Ek, <- Ej, centre_dist by assumption.
      rewrite <- sqrt_dd. apply sqrt_le_1_alt. apply IZR_le. apply far; [exact Dg|exact Dg'|]. intros [= -> ->]. congruence.
    - destruct (near gy gx Dg) as [gy' [gx' [Dg' E]]]. apply in_map_iff. exists (px lab gy' gx'). split.
      + rewrite <- Ek, centre_dist by assumption. now rewrite <- E, sqrt_dd.
      + apply Hj. split; [now apply (dot_labels m n dot lab num Hn inside dark HL)|]. intros K. rewrite <- Ek in K.
        apply (labels_inj m n dot lab num Hn inside dark gap HL) in K; [|assumption|assumption]. destruct K as [-> ->]. rewrite !Z.sub_diag in E. nia.
  Qed.
  Lemma grid_mass k : (1 <= k <= num)%Z -> mass m lab k = disk_area n.
  Proof.
    intros Hk. destruct (label_dot m n dot lab num Hn inside dark gap HL k Hk) as [gy [gx [Dg <-]]].
    unfold mass. now rewrite (dot_moment m n dot lab num Hn inside dark gap bin HL) by exact Dg.
  Qed.
  Lemma grid_two gy gx : dot gy gx -> (2 <= num)%Z.
  Proof.
    intros Dg. destruct (near gy gx Dg) as [gy' [gx' [Dg' E]]].
    pose proof (dot_labels m n dot lab num Hn inside dark HL _ _ Dg). pose proof (dot_labels m n dot lab num Hn inside dark HL _ _ Dg').
    destruct (Z.eq_dec num 1) as [E1|Ne]; [|lia]. exfalso.
    assert (K : px lab gy gx = px lab gy' gx') by lia. apply (labels_inj m n dot lab num Hn inside dark gap HL) in K; [|assumption|assumption].
    destruct K as [-> ->]. rewrite !Z.sub_diag in E. nia.
  Qed.
End Grid.
