(** Selecting the dots of a pattern by size and by distance. *)
From Coq Require Import Reals ZArith List Lra Lia Permutation Sorted.
From Flocq Require Import Core.
From Verif Require Import Base Num Img Spec Post NumFacts Sorting Lsq PrepSpec PrepImg PrepPts PrepEx PrepFacts2 PrepImgFacts PrepImgFacts2 PrepImgFacts3 PrepImgFacts4 Props_Prep
  Util UtilFacts Props_Util Props_Grid DotFacts Props_Dots DotSpec ChainFacts ChainFacts2.
Import ListNotations.
Local Open Scope R_scope.
Local Existing Instance Rex.

Section Boxes.
  Variables (m : image R) (n : Z) (dot : Z -> Z -> Prop) (lab : image Z) (num : Z).
  Hypothesis Hn : (1 <= n)%Z.
  Hypothesis inside : forall gy gx i j, dot gy gx -> in_window n i j gy gx -> in_img m i j.
  Hypothesis dark : forall i j, in_img m i j -> (px m i j <> 0 <-> exists gy gx, dot gy gx /\ in_disk n i j gy gx).
  Hypothesis gap : forall gy gx gy' gx', dot gy gx -> dot gy' gx' -> (gy = gy' \/ n < Z.abs (gy - gy'))%Z /\ (gx = gx' \/ n < Z.abs (gx - gx'))%Z.
  Hypothesis bin : binary_image m.
  Hypothesis HL : labelling m lab num.

  Lemma labelled_disk gy gx i j : dot gy gx -> (labelled lab (px lab gy gx) (i, j) <-> in_disk n i j gy gx).
  Proof.
    intros Hd. assert (Eh : ih lab = ih m) by apply HL. assert (Ew : iw lab = iw m) by apply HL. unfold labelled. cbn [fst snd]. split.
    - intros [I E]. apply (label_in_disk m n dot lab num Hn inside dark gap HL); [exact Hd| |exact E]. unfold in_img in *. now rewrite Eh, Ew in I.
    - intros K. assert (I : in_img m i j) by (apply (inside gy gx); [exact Hd|apply K]). split; [unfold in_img in *; now rewrite Eh, Ew|].
      now apply (label_in_disk m n dot lab num Hn inside dark gap HL).
  Qed.
  Lemma dot_box gy gx : dot gy gx -> hull_box lab (px lab gy gx) (gy - n / 2) (gy + (n - n / 2)) (gx - n / 2) (gx + (n - n / 2)).
  Proof.
    intros Hd. pose proof (half n Hn) as H. split; [lia|]. split; [lia|]. intros i j. split.
    - intros [[[pi pj] [[qi qj] [P [Q B]]]] [[pi' pj'] [[qi' qj'] [P' [Q' B']]]]]. cbn [fst snd] in *.
      apply labelled_disk in P, Q, P', Q'; [|exact Hd..]. destruct P as [[P _] _], Q as [[Q _] _], P' as [[_ P'] _], Q' as [[_ Q'] _]. cbn zeta in *. lia.
    - intros [B B']. split.
      + exists ((gy - n / 2)%Z, gx), ((gy + (n - 1 - n / 2))%Z, gx). rewrite !labelled_disk by exact Hd.
        split; [apply axis_row; [exact Hn|lia]|]. split; [apply axis_row; [exact Hn|lia]|]. cbn [fst]. lia.
      + exists (gy, (gx - n / 2)%Z), (gy, (gx + (n - 1 - n / 2))%Z). rewrite !labelled_disk by exact Hd.
        split; [apply axis_col; [exact Hn|lia]|]. split; [apply axis_col; [exact Hn|lia]|]. cbn [snd]. lia.
  Qed.
  Lemma window_px gy gx u v : dot gy gx -> (0 <= u < n)%Z -> (0 <= v < n)%Z -> px m (gy - n / 2 + u) (gx - n / 2 + v) = disk n u v.
  Proof.
    intros Hd Hu Hv. pose proof (half n Hn) as H. set (i := (gy - n / 2 + u)%Z). set (j := (gx - n / 2 + v)%Z).
    assert (W : in_window n i j gy gx) by (unfold in_window, i, j; cbn zeta; lia). assert (I : in_img m i j) by (now apply (inside gy gx)).
    unfold disk. replace (u - n / 2)%Z with (i - gy)%Z by (unfold i; lia). replace (v - n / 2)%Z with (j - gx)%Z by (unfold j; lia).
    destruct (Z.leb_spec ((i - gy) * (i - gy) + (j - gx) * (j - gx)) (n / 2 * (n / 2))) as [D|D].
    - destruct (bin i j I) as [Z|Z]; [|exact Z]. exfalso. apply (proj2 (dark i j I)); [|exact Z]. exists gy, gx. split; [exact Hd|now split].
    - destruct (bin i j I) as [Z|Z]; [exact Z|]. exfalso. assert (P : px m i j <> 0) by lra. apply (dark i j I) in P. destruct P as [gy' [gx' [Hd' K]]].
      destruct (gap gy gx gy' gx' Hd Hd') as [Gy Gx]. pose proof (proj1 K) as [V1 V2]. destruct W as [W1 W2]. cbn zeta in *.
      assert (gy' = gy) by lia. assert (gx' = gx) by lia. subst gy' gx'. destruct K as [_ K]. lia.
  Qed.
  Lemma box_sum gy gx : dot gy gx -> img_sum (subimage m (gy - n / 2) (gy + (n - n / 2)) (gx - n / 2) (gx + (n - n / 2))) = disk_area n.
  Proof.
    intros Hd. unfold img_sum. cbn [subimage ih iw px]. replace (gy + (n - n / 2) - (gy - n / 2))%Z with n by lia. replace (gx + (n - n / 2) - (gx - n / 2))%Z with n by lia.
    unfold disk_area, disk_sum. apply sumZ_ext. intros u Hu. apply sumZ_ext. intros v Hv. rewrite (window_px gy gx u v Hd Hu Hv). ring.
  Qed.
  (** Every set pixel is in the box of a dot. *)
  Lemma set_in_box i j : in_img m i j -> px m i j <> 0 -> exists gy gx, dot gy gx /\ in_hull lab (px lab gy gx) i j.
  Proof.
    intros I P. apply dark in P; [|exact I]. destruct P as [gy [gx [Hd K]]]. exists gy, gx. split; [exact Hd|].
    apply (dot_box gy gx Hd). destruct K as [[W1 W2] _]. cbn zeta in *. lia.
  Qed.
  Lemma size_keeps label ratio : label (to_int16 m) = (lab, num) -> 0 <= ratio ->
    let out := select_dots_based_size label m (disk_area n) ratio in ih out = ih m /\ iw out = iw m /\ forall i j, in_img m i j -> px out i j = px m i j.
  Proof.
    intros El Hr out. destruct (C41_size label m lab num (disk_area n) ratio (binary_int16 m bin) El HL) as [E1 [E2 H]]. fold out in E1, E2, H.
    split; [exact E1|]. split; [exact E2|]. intros i j I. destruct (H i j I) as [[E _]|[E N]]; [exact E|]. rewrite E.
    destruct (bin i j I) as [Z|Z]; [now rewrite Z|]. exfalso. apply N. destruct (set_in_box i j I ltac:(lra)) as [gy [gx [Hd K]]].
    exists (px lab gy gx). split; [now apply (dot_labels m n dot lab num Hn inside dark HL)|]. split; [|exact K].
    exists (gy - n / 2)%Z, (gy + (n - n / 2))%Z, (gx - n / 2)%Z, (gx + (n - n / 2))%Z. split; [now apply dot_box|]. rewrite box_sum by exact Hd.
    pose proof (disk_area_pos n Hn) as A. unfold Rmax. destruct (Rle_dec _ _); split; nra.
  Qed.
  Variable d : Z.
  Hypothesis Hd : (0 < d)%Z.
  Hypothesis far : forall gy gx gy' gx', dot gy gx -> dot gy' gx' -> (gy, gx) <> (gy', gx') -> (d * d <= (gy - gy') * (gy - gy') + (gx - gx') * (gx - gx'))%Z.
  Hypothesis near : forall gy gx, dot gy gx -> exists gy' gx', dot gy' gx' /\ (d * d = (gy - gy') * (gy - gy') + (gx - gx') * (gx - gx'))%Z.
  Lemma distance_keeps label ratio : label (to_int16 m) = (lab, num) -> 0 < ratio <= 1 ->
    let out := select_dots_based_distance label m (IZR d) ratio in ih out = ih m /\ iw out = iw m /\ forall i j, in_img m i j -> px out i j = px m i j.
  Proof.
    intros El Hr out. assert (D : 0 < IZR d) by (apply IZR_lt; lia).
    destruct (C42_distance label m lab num (IZR d) ratio (binary_int16 m bin) El HL D ltac:(lra)) as [E1 [E2 H]]. fold out in E1, E2, H.
    split; [exact E1|]. split; [exact E2|]. intros i j I. destruct (H i j I) as [[E _]|[E N]]; [exact E|]. rewrite E.
    destruct (bin i j I) as [Z|Z]; [now rewrite Z|]. exfalso. apply N. destruct (set_in_box i j I ltac:(lra)) as [gy [gx [Hg K]]].
    pose proof (dot_labels m n dot lab num Hn inside dark HL gy gx Hg) as Hk. pose proof (grid_two m n d dot lab num Hn Hd inside dark gap HL near gy gx Hg) as H2.
    exists (px lab gy gx). split; [exact Hk|]. split; [|exact K].
    destruct (sorted_distances m lab num (px lab gy gx) Hk) as [ds [_ [Nds Lds]]]. exists ds. split; [exact Nds|].
    destruct ds as [|v ds]; [cbn in Lds; lia|]. exists v, 1%Z. split; [now left|].
    rewrite (grid_nearest m n d dot lab num Hn Hd inside dark gap bin HL far near _ v ds Hk Nds). nra.
  Qed.
End Boxes.

(** *** The size and distance found *)
Lemma size_distance label clear (M : image R) (ratio : R) n d (dot : Z -> Z -> Prop) lab num gy gx :
  let roi := clear (select_roi M ratio false) in (1 <= n)%Z -> (0 < d)%Z ->
  (forall gy gx i j, dot gy gx -> in_window n i j gy gx -> in_img roi i j) ->
  (forall i j, in_img roi i j -> (px roi i j <> 0 <-> exists gy gx, dot gy gx /\ in_disk n i j gy gx)) ->
  (forall gy gx gy' gx', dot gy gx -> dot gy' gx' -> (gy = gy' \/ n < Z.abs (gy - gy'))%Z /\ (gx = gx' \/ n < Z.abs (gx - gx'))%Z) ->
  binary_image roi ->
  (forall gy gx gy' gx', dot gy gx -> dot gy' gx' -> (gy, gx) <> (gy', gx') -> (d * d <= (gy - gy') * (gy - gy') + (gx - gx') * (gx - gx'))%Z) ->
  (forall gy gx, dot gy gx -> exists gy' gx', dot gy' gx' /\ (d * d = (gy - gy') * (gy - gy') + (gx - gx') * (gx - gx'))%Z) ->
  label (to_int16 roi) = (lab, num) -> labelling roi lab num -> dot gy gx ->
  calc_size_distance label clear M ratio = Ok (disk_area n, IZR d).
Proof.
  intros roi Hn Hd inside dark gap bin far near El HL Dg. pose proof (grid_two roi n d dot lab num Hn Hd inside dark gap HL near gy gx Dg) as H2.
  destruct (C80_medians label clear M ratio lab num (binary_int16 roi bin) El HL H2) as [sz [ds [nearest [E [M1 [F M2]]]]]]. fold roi in M1, F. rewrite E.
  assert (Ne : zrange 1 (num + 1) <> []) by (intros K; assert (I : In 1%Z (zrange 1 (num + 1))) by (apply in_zrange; lia); rewrite K in I; destruct I).
  do 2 f_equal.
  - revert M1. apply median_const; [intros K; apply map_eq_nil in K; contradiction|]. intros x Hx. apply in_map_iff in Hx. destruct Hx as [k [<- Hk]]. apply in_zrange in Hk.
    apply (grid_mass roi n dot lab num); auto. lia.
  - revert M2. apply median_const.
    + intros K. subst nearest. inversion F as [Z|]. symmetry in Z. contradiction.
    + intros x Hx. assert (G : forall ks vs, Forall2 (fun k v => exists ds, neighbour_distances roi lab num k (v :: ds)) ks vs -> (forall k, In k ks -> (1 <= k <= num)%Z) -> In x vs -> x = IZR d).
      { induction 1 as [|k v ks vs [dl Nd] _ IH]; intros Hks Hin; [destruct Hin|]. destruct Hin as [<-|Hin]; [|apply IH; [intros; apply Hks; now right|exact Hin]].
        apply (grid_nearest roi n d dot lab num Hn Hd inside dark gap bin HL far near k v dl); [apply Hks; now left|exact Nd]. }
      apply (G _ _ F); [|exact Hx]. intros k Hk. apply in_zrange in Hk. lia.
Qed.

(** *** The slopes found *)
Lemma argmax_at (l : list R) k : (k < length l)%nat -> (forall j, (j < length l)%nat -> j <> k -> nth j l 0 < nth k l 0) -> nargmax l = k.
Proof.
  intros Hk Hs. destruct (nargmax_spec l) as [B1 B2]; [intros E; rewrite E in Hk; cbn in Hk; lia|].
  destruct (Nat.eq_dec (nargmax l) k) as [E|Ne]; [exact E|]. exfalso. pose proof (Hs _ B1 Ne). pose proof (B2 (nth k l 0) (nth_In _ _ Hk)). lra.
Qed.
Section SlopesOfGrid.
  Variables (label : image R -> image Z * Z) (radon_max : image R -> list R -> list R) (argsort : list R -> list nat) (slope_fit : list R -> list R -> R).
  Hypothesis argsort_ok : argsort_spec argsort.
  Hypothesis fit_ok : forall xs ys, length xs = length ys -> xs <> [] -> exists i, polyfit_spec 1 xs ys [slope_fit xs ys; i].
  Hypothesis radon_len : forall im l, length (radon_max im l) = length l.
  Variables (clear : image R -> image R) (M : image R) (ratio : R) (lab : image Z) (num : Z).
  Let roi := clear (select_roi M ratio false).
  Hypothesis bin : binary_image roi.
  Hypothesis El : label (to_int16 roi) = (lab, num).
  Hypothesis HL : labelling roi lab num.
  Variables ys xs : list R.
  Hypothesis P : Permutation (map (centroid roi lab) (zrange 1 (num + 1))) (grid_points ys xs).
  Hypothesis Hw : (0 < iw roi)%Z.

  Lemma grid_neg us vs : map (fun p : R * R => (- fst p, - snd p)) (grid_points us vs) = grid_points (map Ropp us) (map Ropp vs).
  Proof. unfold grid_points. induction us as [|u us IH]; [reflexivity|]. cbn [map concat]. rewrite map_app, IH, !map_map. reflexivity. Qed.
  Lemma grid_flip us vs : Permutation (map (fun p : R * R => (snd p, fst p)) (grid_points us vs)) (grid_points vs us).
  Proof.
    unfold grid_points. induction us as [|u us IH]; cbn [map concat].
    - clear. induction vs as [|v vs IH]; [reflexivity|exact IH].
    - rewrite map_app, map_map. cbn [fst snd]. rewrite IH. symmetry. rewrite (perm_concat_cons (fun v => (v, u)) (fun v => map (fun x => (v, x)) us) vs). reflexivity.
  Qed.
  Definition straight_hor : Prop := let profile := radon_max (to_int16 roi) (map IZR (zrange 60 121)) in
    forall j, (j < 61)%nat -> j <> 30%nat -> nth j profile 0 < nth 30 profile 0.
  Definition straight_ver : Prop := let profile := radon_max (to_int16 roi) (map IZR (zrange (-30) 31)) in
    forall j, (j < 61)%nat -> j <> 30%nat -> nth j profile 0 < nth 30 profile 0.
  Lemma hor_zero x1 x2 : straight_hor -> ys <> [] -> In x1 xs -> In x2 xs -> x1 <> x2 ->
    calc_hor_slope label radon_max tan cos PI argsort slope_fit clear M ratio = Ok 0.
  Proof.
    intros Hs Ny I1 I2 Nx. unfold calc_hor_slope. cbv zeta. fold roi. rewrite El.
    change (centers (to_int16 roi) lab num) with (centers (to_int16 (clear (select_roi M ratio false))) lab num).
    rewrite (cents clear M ratio lab num (binary_int16 _ bin) HL). fold roi.
    assert (EA : map (fun a : R => (@nofZ R Rex 90 +! a)%num) (@coarse_angles R Rex) = map IZR (zrange 60 121)).
    { unfold coarse_angles, Rex. rewrite map_map. cbn [nadd nofZ Rnum].
      change (zrange 60 121) with (map (fun z => 90 + z)%Z (zrange (-30) 31)). rewrite map_map. apply map_ext. intros z. now rewrite plus_IZR. }
    rewrite EA, (argmax_at _ 30); [|rewrite radon_len, map_length, zrange_length; cbn; lia|
      intros j Hj Nj; rewrite radon_len, map_length, zrange_length in Hj; now apply Hs].
    assert (Ea : (@nopp R Rex (nth 30 (map IZR (zrange 60 121)) (@n0 R Rex) -! @nofZ R Rex 90))%num = 0).
    { unfold Rex, n0. cbn [nopp nsub nofZ Rnum]. rewrite map_nth, zrange_nth by lia. cbn. lra. }
    rewrite Ea. unfold Rex. cbn [nmul ndiv nofZ Rnum]. rewrite Rmult_0_l, tan_0, cos_0. fold Rex.
    apply (slope_grid argsort slope_fit argsort_ok fit_ok IndexError _ (map Ropp ys) (map Ropp xs) _ (- x1) (- x2)).
    - rewrite <- grid_neg. apply Permutation_map. exact P.
    - intros K. apply map_eq_nil in K. contradiction.
    - now apply in_map.
    - now apply in_map.
    - lra.
    - pose proof deg_tan. assert (0 < IZR (iw roi)) by now apply IZR_lt. change (@nofQ R Rex 1 2) with (1 / 2)%R. cbn [to_int16 img_map iw].
      unfold Rdiv at 2. rewrite Rinv_1, Rmult_1_r. apply Rmult_lt_0_compat; [lra|assumption].
  Qed.
  Lemma ver_zero y1 y2 : straight_ver -> xs <> [] -> In y1 ys -> In y2 ys -> y1 <> y2 ->
    calc_ver_slope label radon_max tan cos PI argsort slope_fit clear M ratio = Ok 0.
  Proof.
    intros Hs Nx I1 I2 Ny. unfold calc_ver_slope. cbv zeta. fold roi. rewrite El.
    change (centers (to_int16 roi) lab num) with (centers (to_int16 (clear (select_roi M ratio false))) lab num).
    rewrite (cents clear M ratio lab num (binary_int16 _ bin) HL). fold roi.
    change (@coarse_angles R Rex) with (map IZR (zrange (-30) 31)).
    rewrite (argmax_at _ 30); [|rewrite radon_len, map_length, zrange_length; cbn; lia|
      intros j Hj Nj; rewrite radon_len, map_length, zrange_length in Hj; now apply Hs].
    assert (Ea : nth 30 (map IZR (zrange (-30) 31)) (@n0 R Rex) = 0).
    { unfold Rex, n0. cbn [nofZ Rnum]. rewrite map_nth, zrange_nth by lia. cbn. lra. }
    rewrite Ea. unfold Rex. cbn [nmul ndiv nofZ Rnum]. rewrite Rmult_0_l, tan_0, cos_0. fold Rex.
    apply (slope_grid argsort slope_fit argsort_ok fit_ok ValueError _ xs ys _ y1 y2); try assumption.
    - rewrite <- grid_flip. apply Permutation_map. exact P.
    - pose proof deg_tan. assert (0 < IZR (iw roi)) by now apply IZR_lt. change (@nofQ R Rex 1 2) with (1 / 2)%R. cbn [to_int16 img_map iw].
      unfold Rdiv at 1. rewrite Rinv_1, Rmult_1_r. apply Rmult_lt_0_compat; [lra|assumption].
  Qed.
End SlopesOfGrid.
