(** Dot centres, slopes, threshold, masks and normalisation of
    preprocessing.py. *)
From Coq Require Import Reals ZArith List Lra Lia Permutation Sorted.

From Flocq Require Import Core.
From Verif Require Import Base Num Img Post Spec Lsq NumFacts PostImg Sorting PrepSpec PrepImg PrepPts PrepFacts PrepFacts2 PrepFacts4 PrepImgFacts PrepImgFacts2.
Local Open Scope Z_scope.

(** *** Centres lie in the dots' boxes *)
Lemma moment_nonneg m lab k w : (forall i j, in_img m i j -> (0 <= part m lab k i j * w i j)%R) -> (0 <= moment m lab k w)%R.
Proof. intros H. apply sumZ_nonneg. intros i Hi. apply sumZ_nonneg. intros j Hj. apply H. split; lia. Qed.
Lemma moment_lin m lab k w w' a b : moment m lab k (fun i j => (a * w i j + b * w' i j)%R) = (a * moment m lab k w + b * moment m lab k w')%R.
Proof.
  unfold moment. rewrite <- !sumZ_scal, <- sumZ_plus. apply sumZ_ext. intros i _.
  rewrite <- !sumZ_scal, <- sumZ_plus. apply sumZ_ext. intros j _. ring.
Qed.
Lemma moment_ext m lab k w w' : (forall i j, w i j = w' i j) -> moment m lab k w = moment m lab k w'.
Proof. intros H. unfold moment. apply sumZ_ext. intros. apply sumZ_ext. intros. now rewrite H. Qed.
Lemma mass_pos m lab k p : (forall i j, in_img m i j -> (0 <= px m i j)%R) -> labelled lab k p -> ih lab = ih m -> iw lab = iw m ->
  (0 < px m (fst p) (snd p))%R -> (0 < mass m lab k)%R.
Proof.
  intros Hn [Hp Ek] Eh Ew Hpos. unfold in_img in Hp.
  assert (G : forall i j, in_img m i j -> (0 <= part m lab k i j * 1)%R).
  { intros i j Hij. unfold part. destruct (Z.eq_dec _ _); [specialize (Hn i j Hij); lra|lra]. }
  unfold mass, moment. apply (sumZ_pos _ _ (fst p)); [lia| |].
  - intros i Hi. apply sumZ_nonneg. intros j Hj. apply G. split; lia.
  - apply (sumZ_pos _ _ (snd p)); [lia| |].
    + intros j Hj. apply G. split; lia.
    + unfold part. destruct (Z.eq_dec _ _); [lra|congruence].
Qed.
Lemma centroid_in_box m lab k a b c d : (forall i j, in_img m i j -> (0 <= px m i j)%R) -> ih lab = ih m -> iw lab = iw m ->
  hull_box lab k a b c d -> (0 < mass m lab k)%R ->
  (IZR a <= py (centroid m lab k) <= IZR (b - 1))%R /\ (IZR c <= pxc (centroid m lab k) <= IZR (d - 1))%R.
Proof.
  intros Hn Eh Ew HB HM.
  assert (G : forall i j, in_img m i j -> (0 <= part m lab k i j)%R /\ (part m lab k i j <> 0%R -> a <= i <= b - 1 /\ c <= j <= d - 1)).
  { intros i j Hij. unfold part. destruct (Z.eq_dec _ _) as [E|]; [|split; [lra|easy]]. split; [now apply Hn|]. intros _.
    assert (L : labelled lab k (i, j)) by (split; [unfold in_img in *; cbn; lia|exact E]).
    destruct HB as [_ [_ H]]. assert (HH : in_hull lab k i j).
    { split; exists (i, j), (i, j); (split; [assumption|split; [assumption|cbn; lia]]). }
    apply H in HH. lia. }
  assert (Q : forall (w : Z -> Z -> R) lo hi, (forall i j, in_img m i j -> a <= i <= b - 1 -> c <= j <= d - 1 -> (lo <= w i j <= hi)%R) ->
    (lo <= moment m lab k w / mass m lab k <= hi)%R).
  { intros w lo hi Hw.
    assert (A : (0 <= 1 * moment m lab k w + - lo * mass m lab k)%R).
    { unfold mass. rewrite <- moment_lin. apply moment_nonneg. intros i j Hij. destruct (G i j Hij) as [G1 G2].
      destruct (Req_dec (part m lab k i j) 0) as [->|Ne]; [lra|]. destruct (G2 Ne). specialize (Hw i j Hij ltac:(lia) ltac:(lia)).
      apply Rmult_le_pos; lra. }
    assert (B : (0 <= -1 * moment m lab k w + hi * mass m lab k)%R).
    { unfold mass. rewrite <- moment_lin. apply moment_nonneg. intros i j Hij. destruct (G i j Hij) as [G1 G2].
      destruct (Req_dec (part m lab k i j) 0) as [->|Ne]; [lra|]. destruct (G2 Ne). specialize (Hw i j Hij ltac:(lia) ltac:(lia)).
      apply Rmult_le_pos; lra. }
    split; apply (Rmult_le_reg_r (mass m lab k)); try assumption;
      replace (moment m lab k w / mass m lab k * mass m lab k)%R with (moment m lab k w) by (field; lra); lra. }
  unfold centroid, py, pxc. cbn [fst snd]. split; apply Q; intros i j _ Hi Hj; split; apply IZR_le; lia.
Qed.

(** *** Slopes *)
Lemma in_pow_row1 xs x : In x xs -> In [x; 1%R] (map (pow_row 1) xs).
Proof. intros H. apply in_map_iff. exists x. split; [|assumption]. cbn. f_equal. ring. Qed.
Lemma line_fit_unique xs ys s i s' i' x1 x2 : length xs = length ys -> In x1 xs -> In x2 xs -> x1 <> x2 ->
  polyfit_spec 1 xs ys [s; i] -> polyfit_spec 1 xs ys [s'; i'] -> s = s' /\ i = i'.
Proof.
  intros Hl H1 H2 Ne P P'.
  assert (Hl' : length (map (pow_row 1) xs) = length ys) by now rewrite map_length.
  pose proof (lsq_fitted_unique _ _ _ _ _ Hl' P P' _ (in_pow_row1 _ _ H1)) as E1.
  pose proof (lsq_fitted_unique _ _ _ _ _ Hl' P P' _ (in_pow_row1 _ _ H2)) as E2. cbn in E1, E2.
  assert (E : ((s - s') * (x1 - x2) = 0)%R) by lra. apply Rmult_integral in E. assert (s = s') by lra. split; [assumption|]. subst. lra.
Qed.
Lemma line_fit_exact {A} (fx fy : A -> R) l s c : (forall a, In a l -> fy a = s * fx a + c)%R ->
  polyfit_spec 1 (map fx l) (map fy l) [s; c].
Proof.
  intros H. split; [reflexivity|]. intros v' _.
  replace (sqerr _ _ [s; c]) with 0%R; [apply sqerr_nonneg|].
  unfold sqerr. induction l as [|a l IH]; cbn [map combine Rsum]; [reflexivity|].
  rewrite <- IH by (intros; apply H; now right). cbn [fst snd]. rewrite (H a) by now left. cbn. ring.
Qed.
Lemma nargmax_gen (l : list R) : forall i best (m : R),
  let r := @argmax_from R Rex i best m l in
  (r = best /\ (forall x, In x l -> (x <= m)%R)) \/
  ((i <= r < i + length l)%nat /\ (m < nth (r - i) l 0)%R /\ forall x, In x l -> (x <= nth (r - i) l 0)%R).
Proof.
  induction l as [|x l IH]; intros i best m; [left; split; [reflexivity|intros ? []]|].
  cbv zeta in *. cbn [argmax_from]. change (@nltb R Rex m x) with (Rlt_bool m x). destruct (Rlt_bool m x) eqn:E.
  - apply Rlt_bool_true_iff in E. right. destruct (IH (S i) i x) as [[E1 H]|[B [L H]]]; cbn [length].
    + rewrite E1, Nat.sub_diag. cbn [nth]. split; [lia|]. split; [assumption|]. intros y [<-|Hy]; [lra|]. now apply H.
    + set (r := argmax_from _ _ _ _) in *. replace (r - i)%nat with (S (r - S i)) by lia. cbn [nth].
      split; [lia|]. split; [lra|]. intros y [<-|Hy]; [lra|]. now apply H.
  - apply not_true_iff_false in E. rewrite Rlt_bool_true_iff in E. apply Rnot_lt_le in E.
    destruct (IH (S i) best m) as [[E1 H]|[B [L H]]]; cbn [length].
    + left. split; [assumption|]. intros y [<-|Hy]; [lra|]. now apply H.
    + right. set (r := argmax_from _ _ _ _) in *. replace (r - i)%nat with (S (r - S i)) by lia. cbn [nth].
      split; [lia|]. split; [lra|]. intros y [<-|Hy]; [lra|]. now apply H.
Qed.
Lemma nargmax_spec l : l <> [] -> (@nargmax R Rex l < length l)%nat /\ forall x, In x l -> (x <= nth (@nargmax R Rex l) l 0)%R.
Proof.
  destruct l as [|x l]; [congruence|]. intros _. unfold nargmax. destruct (nargmax_gen l 1 0 x) as [[E H]|[B [L H]]].
  - rewrite E. cbn. split; [lia|]. intros y [<-|Hy]; [lra|]. now apply H.
  - set (r := argmax_from _ _ _ _) in *. destruct r as [|r]; [lia|]. cbn [nth length].
    replace (S r - 1)%nat with r in * by lia. split; [lia|]. intros y [<-|Hy]; [lra|]. now apply H.
Qed.

Section Slope.
  Variable argsort : list R -> list nat.
  Variable slope_fit : list R -> list R -> R.
  Hypothesis argsort_ok : argsort_spec argsort.
  Hypothesis fit_ok : forall xs ys, length xs = length ys -> xs <> [] -> exists i, polyfit_spec 1 xs ys [slope_fit xs ys; i].

  Lemma pyget_nat {A} (l : list A) k d : (k < length l)%nat -> pyget l (Z.of_nat k) = Ok (nth k l d).
  Proof.
    intros H. unfold pyget. destruct (Z.ltb_spec (Z.of_nat k) 0); [lia|]. cbv iota zeta.
    destruct (Z.ltb_spec (Z.of_nat k) 0); [lia|]. destruct (Z.leb_spec (Z.of_nat (length l)) (Z.of_nat k)); [lia|]. cbn [orb].
    rewrite Nat2Z.id, (nth_error_nth' l d H). reflexivity.
  Qed.
  (** Slope of collinear dots (y = s x + c, all x distinct). *)
  Lemma slope_collinear err (l : list (R * R)) t de s c : l <> [] -> NoDup (map snd l) ->
    (forall p, In p l -> fst p = s * snd p + c)%R ->
    exists r, @slope_from R Rex argsort slope_fit err l t de = Ok r /\ (r = s \/ r = t) /\
      ((forall p, In p l -> exists q, In q l /\ p <> q /\ (Rabs (snd q - snd p) * Rabs (t - s) < de)%R) -> r = s).
  Proof.
    intros Hne Hnd Hl. unfold slope_from. destruct l as [|p0 l0] eqn:El; [congruence|]. rewrite <- El in *. clear Hne.
    set (dm := map _ l). assert (Ldm : length dm = length l) by (unfold dm; now rewrite map_length).
    destruct (argsort_ok dm) as [Pa _].
    assert (La : length (argsort dm) = length l) by (rewrite (Permutation_length Pa), seq_length; assumption).
    assert (Ll : (0 < length l)%nat) by (subst l; cbn; lia).
    assert (I0 : exists k, pyget (map Z.of_nat (argsort dm)) 0 = Ok (Z.of_nat k) /\ (k < length l)%nat).
    { destruct (argsort dm) as [|k a] eqn:E; [cbn in La; lia|]. exists k. split; [reflexivity|].
      assert (In k (seq 0 (length dm))) by (apply (Permutation_in _ Pa); now left). apply in_seq in H. lia. }
    destruct I0 as [k [-> Hk]]. cbn [bind]. rewrite (pyget_nat l k p0 Hk). cbn [bind].
    set (u := nth k l p0). assert (Hu : In u l) by (now apply nth_In).
    unfold Rex. cbn [nsqrt npow nadd nofZ nsub nmul nabs ndiv nltb Rnum]. change (@n1 R (Rnum (fun x => x))) with 1%R.
    set (sel := filter _ l).
    assert (Hsel : forall q, In q sel <-> In q l /\ (Rabs (t * snd q - fst q + (fst u - t * snd u)) / sqrt (t ^ 2 + 1) < de)%R).
    { intros q. unfold sel. rewrite filter_In, Rlt_bool_true_iff. reflexivity. }
    assert (Hnds : NoDup (map snd sel)).
    { unfold sel. clearbody u. clear - Hnd. induction l as [|a l IH]; cbn; [constructor|]. inversion Hnd; subst.
      destruct (Rlt_bool _ _); cbn; [|now apply IH]. constructor; [|now apply IH].
      intros H. apply H1. apply in_map_iff in H. destruct H as [x [E Hx]]. apply filter_In in Hx. apply in_map_iff. exists x. tauto. }
    clearbody sel.
    assert (Fit : forall a b r, sel = a :: b :: r -> slope_fit (map snd sel) (map fst sel) = s).
    { intros a b r E.
      assert (Ex : polyfit_spec 1 (map snd sel) (map fst sel) [s; c]).
      { apply line_fit_exact. intros q Hq. apply Hsel in Hq. now apply Hl. }
      destruct (fit_ok (map snd sel) (map fst sel)) as [i Hi]; [now rewrite !map_length|rewrite E; discriminate|].
      apply (line_fit_unique (map snd sel) (map fst sel) _ i s c (snd a) (snd b)); try assumption.
      - now rewrite !map_length.
      - rewrite E. now left.
      - rewrite E. right. now left.
      - intros Eq. rewrite E in Hnds. cbn in Hnds. inversion Hnds; subst. apply H1. left. congruence. }
    destruct (Z.ltb_spec 1 (Z.of_nat (length sel))) as [Hlt|Hge].
    - eexists. split; [reflexivity|]. destruct sel as [|a [|b r]]; cbn [length] in Hlt; try lia.
      rewrite (Fit a b r) by reflexivity. split; [now left|reflexivity].
    - exists t. split; [reflexivity|]. split; [now right|]. intros Hall. exfalso.
      destruct (Hall u Hu) as [q [Hq [Nq Hd]]].
      assert (Hsq : (1 <= sqrt (t ^ 2 + 1))%R).
      { rewrite <- sqrt_1 at 1. apply sqrt_le_1; nra. }
      assert (Hin : forall z, In z l -> (Rabs (snd z - snd u) * Rabs (t - s) < de)%R -> In z sel).
      { intros z Hz Hlt. apply Hsel. split; [assumption|].
        replace (t * snd z - fst z + (fst u - t * snd u))%R with ((snd z - snd u) * (t - s))%R
          by (rewrite (Hl z Hz), (Hl u Hu); ring).
        rewrite Rabs_mult. apply Rle_lt_trans with (2 := Hlt).
        apply (Rmult_le_reg_r (sqrt (t ^ 2 + 1))); [lra|].
        replace (Rabs (snd z - snd u) * Rabs (t - s) / sqrt (t ^ 2 + 1) * sqrt (t ^ 2 + 1))%R with (Rabs (snd z - snd u) * Rabs (t - s))%R by (field; lra).
        pose proof (Rmult_le_pos _ _ (Rabs_pos (snd z - snd u)) (Rabs_pos (t - s))). nra. }
      pose proof (Hin q Hq Hd) as Iq.
      assert (Iu : In u sel).
      { apply Hin; [assumption|]. rewrite Rminus_diag_eq by reflexivity. rewrite Rabs_R0, Rmult_0_l.
        pose proof (Rmult_le_pos _ _ (Rabs_pos (snd q - snd u)) (Rabs_pos (t - s))). lra. }
      destruct sel as [|a [|b r]]; cbn in Iu, Iq, Hge; try lia. destruct Iu as [->|[]], Iq as [->|[]]. congruence.
  Qed.
End Slope.

Lemma deg_cos a : -30 <= a <= 30 -> (0 < cos (IZR a * (PI / 180)) <= 1)%R.
Proof.
  intros H. assert (-30 <= IZR a <= 30)%R by (split; apply IZR_le; lia). pose proof PI_RGT_0. split; [|apply COS_bound].
  apply cos_gt_0; nra.
Qed.
Lemma deg_tan : (0 < tan (PI / 180))%R.
Proof. pose proof PI_RGT_0. apply tan_gt_0; nra. Qed.
Lemma nth_coarse i : (i < 61)%nat -> nth i (@coarse_angles R Rex) 0%R = IZR (Z.of_nat i - 30).
Proof.
  intros H. unfold coarse_angles, Rex. cbn [nofZ Rnum]. change 0%R with (IZR 0). rewrite map_nth. f_equal.
  rewrite zrange_nth by lia. lia.
Qed.

Section Slopes.
  Local Existing Instance Rex.
  Variable label : image R -> image Z * Z.
  Variable radon_max : image R -> list R -> list R.
  Variable argsort : list R -> list nat.
  Variable slope_fit : list R -> list R -> R.
  Hypothesis argsort_ok : argsort_spec argsort.
  Hypothesis fit_ok : forall xs ys, length xs = length ys -> xs <> [] -> exists i, polyfit_spec 1 xs ys [slope_fit xs ys; i].
  Hypothesis radon_len : forall im l, length (radon_max im l) = length l.
  Variable clear : image R -> image R.
  Variables (m : image R) (ratio : R) (lab : image Z) (n : Z).
  Let roi := clear (@select_roi R Rex m ratio false).
  Hypothesis Hi : int16_image roi.
  Hypothesis El : label (@to_int16 R Rex roi) = (lab, n).
  Hypothesis HL : labelling roi lab n.
  Hypothesis Hn : 1 <= n.
  Hypothesis Hw : 0 <= iw roi.

  Lemma cents : @centers R Rex (@to_int16 R Rex roi) lab n = map (centroid roi lab) (zrange 1 (n + 1)).
  Proof.
    apply centers_centroids; try apply HL. intros. now apply (to_int16_px (fun x => x)).
  Qed.
  Lemma in_map_z {B} (f : Z -> B) x : In x (map f (zrange 1 (n + 1))) -> exists k, 1 <= k <= n /\ x = f k.
  Proof. intros H. apply in_map_iff in H. destruct H as [k [<- H]]. apply in_zrange in H. exists k. split; [lia|reflexivity]. Qed.
  Lemma map_z_nodup {B} (f : Z -> B) : (forall k k', 1 <= k <= n -> 1 <= k' <= n -> k <> k' -> f k <> f k') -> NoDup (map f (zrange 1 (n + 1))).
  Proof.
    intros H. assert (G : forall k, In k (zrange 1 (n + 1)) -> 1 <= k <= n) by (intros k Hk; apply in_zrange in Hk; lia).
    pose proof (zrange_nodup 1 (n + 1)) as Nd. induction (zrange 1 (n + 1)) as [|k l IH]; cbn; constructor.
    - intros I. apply in_map_iff in I. destruct I as [k' [E I]]. inversion Nd; subst.
      apply (H k' k); [apply G; now right|apply G; now left|congruence|assumption].
    - apply IH; [intros; apply G; now right|]. now inversion Nd.
  Qed.
  Lemma map_z_ne {B} (f : Z -> B) : map f (zrange 1 (n + 1)) <> [].
  Proof. intros E. assert (In (f 1) (map f (zrange 1 (n + 1)))) by (apply in_map, in_zrange; lia). rewrite E in H. destruct H. Qed.

  Definition close_pair (far : Z -> R) (s : R) (a : Z) : Prop :=
    forall k, 1 <= k <= n -> exists k', 1 <= k' <= n /\ k' <> k /\
      (Rabs (far k' - far k) * Rabs (tan (IZR a * (PI / 180)) - s) < IZR (iw roi) / 2 * tan (PI / 180))%R.

  Lemma hor_slope_collinear s c :
    (forall k, 1 <= k <= n -> (py (centroid roi lab k) = s * pxc (centroid roi lab k) + c)%R) ->
    (forall k k', 1 <= k <= n -> 1 <= k' <= n -> k <> k' -> pxc (centroid roi lab k) <> pxc (centroid roi lab k')) ->
    exists a v, -30 <= a <= 30 /\
      @calc_hor_slope R Rex label radon_max tan cos PI argsort slope_fit clear m ratio = Ok v /\
      (forall x, In x (radon_max (@to_int16 R Rex roi) (map IZR (zrange 60 121))) ->
         (x <= nth (Z.to_nat (30 - a)) (radon_max (@to_int16 R Rex roi) (map IZR (zrange 60 121))) 0)%R) /\
      (v = s \/ v = tan (IZR a * (PI / 180))) /\
      (close_pair (fun k => pxc (centroid roi lab k)) s a -> v = s).
  Proof.
    intros Hc Hd. unfold calc_hor_slope. cbv zeta. fold roi. rewrite El, cents, map_map.
    assert (EA : map (fun a : R => (@nofZ R Rex 90 +! a)%num) (@coarse_angles R Rex) = map IZR (zrange 60 121)).
    { unfold coarse_angles, Rex. rewrite map_map. reflexivity || idtac. cbn [nadd nofZ Rnum].
      change (zrange 60 121) with (map (fun z => 90 + z) (zrange (-30) 31)). rewrite map_map.
      apply map_ext. intros z. now rewrite plus_IZR. }
    rewrite EA. set (l := radon_max _ _).
    assert (Hl : length l = 61%nat) by (unfold l; rewrite radon_len, map_length, zrange_length; reflexivity).
    destruct (nargmax_spec l) as [B1 B2]; [intros E; rewrite E in Hl; discriminate|].
    set (i := nargmax l) in *. exists (30 - Z.of_nat i).
    assert (Ea : (@nopp R Rex (nth i (map IZR (zrange 60 121)) (@n0 R Rex) -! @nofZ R Rex 90))%num = IZR (30 - Z.of_nat i)).
    { unfold Rex, n0. cbn [nopp nsub nofZ Rnum]. rewrite map_nth, zrange_nth by lia. rewrite <- minus_IZR, <- opp_IZR. f_equal. lia. }
    rewrite Ea. unfold Rex. cbn [nmul ndiv nofZ Rnum]. change (@nofQ R (Rnum (fun x => x)) 1 2) with (1 / 2)%R.
    assert (Ha : -30 <= 30 - Z.of_nat i <= 30) by lia. set (a := 30 - Z.of_nat i) in *.
    set (t := tan (IZR a * (PI / 180))). set (de := (1 / 2 * IZR (iw (to_int16 roi)) * (tan (PI / 180) / cos (IZR a * (PI / 180))))%R).
    destruct (slope_collinear argsort slope_fit argsort_ok fit_ok IndexError
       (map (fun x => (- fst (centroid roi lab x), - snd (centroid roi lab x))%R) (zrange 1 (n + 1))) t de s (- c)) as [v [E [V1 V2]]].
    - apply map_z_ne.
    - rewrite map_map. cbn [snd]. apply map_z_nodup. intros k k' Hk Hk' Ne E. apply (Hd k k' Hk Hk' Ne). unfold pxc. lra.
    - intros p Hp. apply in_map_z in Hp. destruct Hp as [k [Hk ->]]. cbn [fst snd]. specialize (Hc k Hk). unfold py, pxc in Hc. lra.
    - exists v. split; [assumption|]. split; [exact E|]. split.
      { intros x Hx. replace (Z.to_nat (30 - a)) with i by lia. now apply B2. }
      split; [assumption|]. intros Hcl. apply V2. intros p Hp. apply in_map_z in Hp. destruct Hp as [k [Hk ->]].
      destruct (Hcl k Hk) as [k' [Hk' [Ne Hlt]]]. exists (- fst (centroid roi lab k'), - snd (centroid roi lab k'))%R.
      split; [exact (in_map (fun x => (- fst (centroid roi lab x), - snd (centroid roi lab x))%R) _ _ (proj2 (in_zrange _ _ _) (ltac:(lia) : 1 <= k' < n + 1)))|].
      split; [intros Eq; apply (Hd k k' Hk Hk'); [congruence|]; unfold pxc; apply (f_equal snd) in Eq; cbn [snd] in Eq; lra|].
      cbn [snd]. unfold pxc in Hlt. replace (- snd (centroid roi lab k') - - snd (centroid roi lab k))%R with (- (snd (centroid roi lab k') - snd (centroid roi lab k)))%R by ring.
      rewrite Rabs_Ropp. fold t in Hlt. apply Rlt_le_trans with (1 := Hlt). unfold de. cbn [to_int16 img_map iw].
      destruct (deg_cos a Ha) as [C1 C2]. pose proof deg_tan as T1. apply IZR_le in Hw.
      assert (1 <= / cos (IZR a * (PI / 180)))%R by (rewrite <- Rinv_1 at 1; apply Rinv_le_contravar; assumption).
      unfold Rdiv at 3 4. replace (1 * / 2 * IZR (iw roi) * (tan (PI / 180) * / cos (IZR a * (PI / 180))))%R
        with (IZR (iw roi) / 2 * tan (PI / 180) * / cos (IZR a * (PI / 180)))%R by (unfold Rdiv; ring).
      assert (0 <= IZR (iw roi) / 2 * tan (PI / 180))%R by (apply Rmult_le_pos; lra). nra.
  Qed.
  Lemma ver_slope_collinear s c :
    (forall k, 1 <= k <= n -> (pxc (centroid roi lab k) = s * py (centroid roi lab k) + c)%R) ->
    (forall k k', 1 <= k <= n -> 1 <= k' <= n -> k <> k' -> py (centroid roi lab k) <> py (centroid roi lab k')) ->
    exists a v, -30 <= a <= 30 /\
      @calc_ver_slope R Rex label radon_max tan cos PI argsort slope_fit clear m ratio = Ok v /\
      (forall x, In x (radon_max (@to_int16 R Rex roi) (map IZR (zrange (-30) 31))) ->
         (x <= nth (Z.to_nat (a + 30)) (radon_max (@to_int16 R Rex roi) (map IZR (zrange (-30) 31))) 0)%R) /\
      (v = s \/ v = tan (IZR a * (PI / 180))) /\
      (close_pair (fun k => py (centroid roi lab k)) s a -> v = s).
  Proof.
    intros Hc Hd. unfold calc_ver_slope. cbv zeta. fold roi. rewrite El, cents, map_map.
    change (@coarse_angles R Rex) with (map IZR (zrange (-30) 31)).
    set (l := radon_max _ _).
    assert (Hl : length l = 61%nat) by (unfold l; rewrite radon_len, map_length, zrange_length; reflexivity).
    destruct (nargmax_spec l) as [B1 B2]; [intros E; rewrite E in Hl; discriminate|].
    set (i := nargmax l) in *. exists (Z.of_nat i - 30).
    assert (Ea : nth i (map IZR (zrange (-30) 31)) (@n0 R Rex) = IZR (Z.of_nat i - 30)).
    { unfold Rex, n0. cbn [nofZ Rnum]. rewrite map_nth, zrange_nth by lia. f_equal. lia. }
    rewrite Ea. unfold Rex. cbn [nmul ndiv nofZ Rnum]. change (@nofQ R (Rnum (fun x => x)) 1 2) with (1 / 2)%R.
    assert (Ha : -30 <= Z.of_nat i - 30 <= 30) by lia. set (a := Z.of_nat i - 30) in *.
    set (t := tan (IZR a * (PI / 180))). set (de := (1 / 2 * IZR (iw (to_int16 roi)) * tan (PI / 180) / cos (IZR a * (PI / 180)))%R).
    destruct (slope_collinear argsort slope_fit argsort_ok fit_ok ValueError
       (map (fun x => (snd (centroid roi lab x), fst (centroid roi lab x))) (zrange 1 (n + 1))) t de s c) as [v [E [V1 V2]]].
    - apply map_z_ne.
    - rewrite map_map. cbn [snd]. apply map_z_nodup. intros k k' Hk Hk' Ne E. now apply (Hd k k' Hk Hk' Ne).
    - intros p Hp. apply in_map_z in Hp. destruct Hp as [k [Hk ->]]. cbn [fst snd]. now apply Hc.
    - exists v. split; [assumption|]. split; [exact E|]. split.
      { intros x Hx. replace (Z.to_nat (a + 30)) with i by lia. now apply B2. }
      split; [assumption|]. intros Hcl. apply V2. intros p Hp. apply in_map_z in Hp. destruct Hp as [k [Hk ->]].
      destruct (Hcl k Hk) as [k' [Hk' [Ne Hlt]]]. exists (snd (centroid roi lab k'), fst (centroid roi lab k')).
      split; [exact (in_map (fun x => (snd (centroid roi lab x), fst (centroid roi lab x))) _ _ (proj2 (in_zrange _ _ _) (ltac:(lia) : 1 <= k' < n + 1)))|].
      split; [intros Eq; apply (Hd k k' Hk Hk'); [congruence|]; unfold py; apply (f_equal snd) in Eq; cbn [snd] in Eq; congruence|].
      cbn [snd]. unfold py in Hlt. 
      fold t in Hlt. apply Rlt_le_trans with (1 := Hlt). unfold de. cbn [to_int16 img_map iw].
      destruct (deg_cos a Ha) as [C1 C2]. pose proof deg_tan as T1. apply IZR_le in Hw.
      assert (1 <= / cos (IZR a * (PI / 180)))%R by (rewrite <- Rinv_1 at 1; apply Rinv_le_contravar; assumption).
      replace (1 / 2 * IZR (iw roi) * tan (PI / 180) / cos (IZR a * (PI / 180)))%R
        with (IZR (iw roi) / 2 * tan (PI / 180) * / cos (IZR a * (PI / 180)))%R by (unfold Rdiv; ring).
      assert (0 <= IZR (iw roi) / 2 * tan (PI / 180))%R by (apply Rmult_le_pos; lra). nra.
  Qed.
End Slopes.
