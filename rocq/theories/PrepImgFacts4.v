(** Points of a dot image, threshold, masks and normalisation of
    preprocessing.py. *)
From Coq Require Import Reals ZArith List Lra Lia Permutation Sorted.
From Flocq Require Import Core.
From Verif Require Import Base Num Img Post Spec Lsq NumFacts PostImg Sorting PrepSpec PrepImg PrepPts PrepFacts PrepFacts2 PrepFacts4 PrepImgFacts PrepImgFacts2 PrepImgFacts3.
Local Open Scope Z_scope.
Local Existing Instance Rex.

(** *** Points of a binary image *)
Lemma namax_is (l : list R) v : In v l -> (forall x, In x l -> (x <= v)%R) -> namax l = Ok v.
Proof.
  intros Hv Hle. destruct (namax l) as [m|e] eqn:E.
  - pose proof E as E0. unfold Rex in E0. apply namax_spec in E0. destruct E0 as [Hm Hm']. f_equal. apply Rle_antisym; auto.
  - destruct l; [destruct Hv|discriminate].
Qed.
Lemma namin_is (l : list R) v : In v l -> (forall x, In x l -> (v <= x)%R) -> namin l = Ok v.
Proof.
  intros Hv Hle. destruct (namin l) as [m|e] eqn:E.
  - pose proof E as E0. unfold Rex in E0. apply namin_spec in E0. destruct E0 as [Hm Hm']. f_equal. apply Rle_antisym; auto.
  - destruct l; [destruct Hv|discriminate].
Qed.
Lemma get_points_ok label bin m lab n : binary_image m ->
  (exists i j, in_img m i j /\ px m i j = 1%R) -> (exists i j, in_img m i j /\ px m i j = 0%R) ->
  label (to_int16 m) = (lab, n) -> labelling m lab n ->
  get_points_dot_pattern label bin m false = Ok (map (centroid m lab) (zrange 1 (n + 1))).
Proof.
  intros Hb [i1 [j1 [I1 E1]]] [i0 [j0 [I0 E0]]] El HL. unfold get_points_dot_pattern.
  assert (B : forall x, In x (pixels m) -> x = 0%R \/ x = 1%R).
  { intros x Hx. apply in_pixels in Hx. destruct Hx as [i [j [H ->]]]. now apply Hb. }
  rewrite (namax_is _ 1%R); [|apply in_pixels; exists i1, j1; now rewrite E1|intros x Hx; destruct (B x Hx); lra]. cbn [bind].
  rewrite (namin_is _ 0%R); [|apply in_pixels; exists i0, j0; now rewrite E0|intros x Hx; destruct (B x Hx); lra]. cbn [bind].
  change (@neqb R Rex 1%R n1) with (Req_bool 1%R 1%R). change (@neqb R Rex 0%R n0) with (Req_bool 0%R 0%R).
  rewrite !(proj2 (Req_bool_true_iff _ _)) by reflexivity. cbn [negb orb bind].
  rewrite El. f_equal. apply centers_centroids; [apply HL|apply HL|]. reflexivity.
Qed.
Lemma get_points_err label bin m : 1 <= ih m -> 1 <= iw m ->
  ((exists v, get_points_dot_pattern label bin m false = Ok v) <->
   ((exists i j, in_img m i j /\ px m i j = 1%R) /\ (exists i j, in_img m i j /\ px m i j = 0%R) /\
    forall i j, in_img m i j -> (0 <= px m i j <= 1)%R)) /\
  ((exists e, get_points_dot_pattern label bin m false = Err e) -> get_points_dot_pattern label bin m false = Err ValueError).
Proof.
  intros Hh Hw. unfold get_points_dot_pattern.
  assert (Ne : In (px m 0 0) (pixels m)) by (apply in_pixels; exists 0, 0; split; [split; lia|reflexivity]).
  destruct (namax (pixels m)) as [mx|] eqn:E1; [|destruct (pixels m); [destruct Ne|discriminate]].
  destruct (namin (pixels m)) as [mn|] eqn:E2; [|destruct (pixels m); [destruct Ne|discriminate]].
  cbn [bind]. unfold Rex in E1, E2. apply namax_spec in E1. apply namin_spec in E2.
  destruct E1 as [I1 L1], E2 as [I2 L2].
  apply in_pixels in I1, I2.
  change (@neqb R Rex mx n1) with (Req_bool mx 1). change (@neqb R Rex mn n0) with (Req_bool mn 0).
  destruct (Req_bool mx 1) eqn:D1; [apply Req_bool_true_iff in D1|]; [destruct (Req_bool mn 0) eqn:D2; [apply Req_bool_true_iff in D2|]|]; cbn [negb orb bind].
  - destruct (label _) as [lab n]. split; [|intros [e H]; discriminate]. split; [|eauto]. intros _. subst. split; [|split].
    + destruct I1 as [i [j [H ->]]]. eauto.
    + destruct I2 as [i [j [H ->]]]. eauto.
    + intros i j Hij. assert (In (px m i j) (pixels m)) by (apply in_pixels; eauto). split; [now apply L2|now apply L1].
  - split; [|reflexivity]. split; [intros [v H]; discriminate|]. intros [_ [[i [j [Hij E]]] HA]]. exfalso.
    assert (HH : Req_bool mn 0 = true); [|congruence]. apply Req_bool_true_iff. apply Rle_antisym.
    + rewrite <- E. apply L2, in_pixels. eauto.
    + destruct I2 as [a [b [Hab ->]]]. now apply HA.
  - split; [|reflexivity]. split; [intros [v H]; discriminate|]. intros [[i [j [Hij E]]] [_ HA]]. exfalso.
    assert (HH : Req_bool mx 1 = true); [|congruence]. apply Req_bool_true_iff. apply Rle_antisym.
    + destruct I1 as [a [b [Hab ->]]]. now apply HA.
    + rewrite <- E. apply L1, in_pixels. eauto.
Qed.

(** *** Threshold *)
Lemma skipn_map {A B} (f : A -> B) k l : skipn k (map f l) = map f (skipn k l).
Proof. revert l; induction k as [|k IH]; intros [|a l]; cbn; try reflexivity. apply IH. Qed.
Lemma firstn_map {A B} (f : A -> B) k l : firstn k (map f l) = map f (firstn k l).
Proof. revert l; induction k as [|k IH]; intros [|a l]; cbn; try reflexivity. now rewrite IH. Qed.
Lemma lslice_map {A B} (f : A -> B) l a b : lslice (map f l) a b = map f (lslice l a b).
Proof. unfold lslice. now rewrite map_length, skipn_map, firstn_map. Qed.
Lemma skipn_seq k a n : skipn k (seq a n) = seq (a + k) (n - k).
Proof. revert a n; induction k as [|k IH]; intros a [|n]; cbn; rewrite ?Nat.add_0_r, ?Nat.sub_0_r; try reflexivity. rewrite IH. f_equal; lia. Qed.
Lemma firstn_seq k a n : (k <= n)%nat -> firstn k (seq a n) = seq a k.
Proof. revert a n; induction k as [|k IH]; intros a [|n] H; cbn; try reflexivity; try lia. now rewrite IH by lia. Qed.
Lemma seq_add a k : seq a k = map (fun x => (a + x)%nat) (seq 0 k).
Proof.
  rewrite <- (Nat.add_0_r a) at 1. generalize 0%nat as b. induction k as [|k IH]; intros b; cbn; [reflexivity|].
  f_equal. rewrite <- IH. f_equal. lia.
Qed.
Lemma lslice_length {A} (l : list A) d : 0 <= d -> 2 * d + 1 <= Z.of_nat (length l) ->
  length (lslice l d (- d - 1)) = Z.to_nat (Z.of_nat (length l) - 2 * d - 1).
Proof.
  intros Hd Hl. unfold lslice, slice_bound. destruct (Z.ltb_spec d 0); [lia|]. destruct (Z.ltb_spec (- d - 1) 0); [|lia].
  rewrite firstn_length, skipn_length. lia.
Qed.
Lemma lslice_range n d : 0 <= d -> 2 * d + 1 <= n ->
  lslice (zrange 0 n) d (- d - 1) = zrange d (n - d - 1).
Proof.
  intros Hd Hl. unfold lslice, slice_bound. rewrite zrange_length. destruct (Z.ltb_spec d 0); [lia|]. destruct (Z.ltb_spec (- d - 1) 0); [|lia].
  unfold zrange. rewrite skipn_map, firstn_map, skipn_seq, firstn_seq by lia. rewrite (seq_add (0 + _)), map_map.
  match goal with |- map _ (seq 0 ?k) = _ => replace k with (Z.to_nat (n - d - 1 - d)) by lia end.
  apply map_ext. intros. lia.
Qed.
Lemma sqerr_affine a b xs ys s i : 
  sqerr (map (pow_row 1) xs) (map (fun v => a * v + b)%R ys) [a * s; a * i + b]%R = (a ^ 2 * sqerr (map (pow_row 1) xs) ys [s; i])%R.
Proof.
  unfold sqerr. revert ys; induction xs as [|x xs IH]; intros ys; cbn [map combine Rsum]; [lra|].
  destruct ys as [|y ys]; cbn [map combine Rsum]; [lra|]. rewrite IH. cbn. ring.
Qed.
Lemma polyfit1_affine a b xs ys s i : (0 < a)%R -> polyfit_spec 1 xs ys [s; i] ->
  polyfit_spec 1 xs (map (fun v => a * v + b)%R ys) [a * s; a * i + b]%R.
Proof.
  intros Ha [_ H]. split; [reflexivity|]. intros v Hv. destruct v as [|s' [|i' [|]]]; try discriminate.
  rewrite sqerr_affine. replace [s'; i'] with [a * (s' / a); a * ((i' - b) / a) + b]%R by (repeat f_equal; field; lra).
  rewrite sqerr_affine. apply Rmult_le_compat_l; [apply pow2_ge_0|]. now apply H.
Qed.
Lemma nsort_affine a b l : (0 < a)%R -> nsort (map (fun v => a * v + b)%R l) = map (fun v => a * v + b)%R (nsort l).
Proof.
  intros Ha. apply sorted_unique; [apply nsort_sorted| |].
  - pose proof (nsort_sorted l) as S. induction S as [|x s S IH F]; cbn; constructor; [assumption|].
    apply Forall_forall. intros y Hy. apply in_map_iff in Hy. destruct Hy as [z [<- Hz]]. rewrite Forall_forall in F. specialize (F z Hz). nra.
  - unfold nsort at 1. rewrite sorted_perm. apply Permutation_map, Permutation_sym, sorted_perm.
Qed.
Lemma pixels_map {A B} (f : A -> B) m : pixels (img_map f m) = map f (pixels m).
Proof. unfold pixels. rewrite map_map. reflexivity. Qed.
Lemma quarter n : 0 <= n -> ntrunc (nofQ 1 4 *! nofZ n)%num = n / 4.
Proof.
  intros Hn. unfold Rex. change (@nofQ R (Rnum (fun x => x)) 1 4) with (1 / 4)%R. cbn [ntrunc nmul nofZ Rnum].
  apply IZR_le in Hn. rewrite Ztrunc_floor by lra. apply Zfloor_imp. apply le_IZR in Hn.
  pose proof (Z.div_mod n 4 ltac:(lia)) as E. pose proof (Z.mod_pos_bound n 4 ltac:(lia)) as B.
  rewrite plus_IZR. assert (H1 : (IZR (4 * (n / 4)) <= IZR n)%R) by (apply IZR_le; lia).
  assert (H2 : (IZR n < IZR (4 * (n / 4) + 4))%R) by (apply IZR_lt; lia). rewrite plus_IZR, !mult_IZR in *. lra.
Qed.
Section Threshold.
  Variable zoom : list R -> Z -> list R.
  Variable fit1 : list R -> list R -> res (R * R).
  Hypothesis zoom_len : forall l k, l <> [] -> 0 < k -> length (zoom l k) = Z.to_nat k.
  Hypothesis fit_ok : forall xs ys, length xs = length ys -> xs <> [] -> exists s i, fit1 xs ys = Ok (s, i) /\ polyfit_spec 1 xs ys [s; i].
  (** The fitted line y = i + s x over the central half of the resampled grey
      levels. *)
  Lemma threshold_unfold m bright snr : 1 <= ih m -> 1 <= iw m -> 3 <= Z.max (ih m) (iw m) -> Z.max (ih m) (iw m) <> 4 ->
    let n := Z.max (ih m) (iw m) in
    let xs := map IZR (zrange (n / 4) (n - n / 4 - 1)) in
    let ys := lslice (zoom (nsort (pixels m)) n) (n / 4) (- (n / 4) - 1) in
    length xs = length ys /\ In (IZR (n / 4)) xs /\ In (IZR (n / 4 + 1)) xs /\
    exists s i, fit1 xs ys = Ok (s, i) /\ polyfit_spec 1 xs ys [s; i] /\
      calculate_threshold zoom fit1 m bright snr = Ok (
        let e := (i + s * IZR (n - 1))%R in
        if bright then i - Rabs (e - i) * snr * (1 / 2) else e + Rabs (e - i) * snr * (1 / 2))%R.
  Proof.
    intros Hh Hw Hn Hn4 n xs ys.
    assert (Ne : nsort (pixels m) <> []).
    { intros E. assert (In (px m 0 0) (pixels m)) by (apply in_pixels; exists 0, 0; split; [split; lia|reflexivity]).
      apply (Permutation_in _ (Permutation_sym (sorted_perm (fun x => x) (pixels m)))) in H. fold (nsort (pixels m)) in H. rewrite E in H. destruct H. }
    assert (Hq : 0 <= n / 4 /\ 2 * (n / 4) + 3 <= n).
    { pose proof (Z.div_mod n 4 ltac:(lia)). pose proof (Z.mod_pos_bound n 4 ltac:(lia)). lia. }
    assert (Ll : length (zoom (nsort (pixels m)) n) = Z.to_nat n) by (apply zoom_len; [assumption|lia]).
    assert (L : length xs = length ys).
    { unfold xs, ys. rewrite map_length, zrange_length, lslice_length by lia. lia. }
    split; [assumption|].
    assert (I1 : In (IZR (n / 4)) xs) by (apply in_map, in_zrange; lia). split; [assumption|].
    split; [apply in_map, in_zrange; lia|].
    destruct (fit_ok xs ys L) as [s [i [E P]]]; [intros E; rewrite E in I1; destruct I1|].
    exists s, i. split; [assumption|]. split; [assumption|].
    unfold calculate_threshold. cbv zeta. fold n. rewrite Ll, Z2Nat.id by lia. rewrite quarter by lia.
    rewrite lslice_map, lslice_range by lia. change (map nofZ (zrange (n / 4) (n - n / 4 - 1))) with xs. fold ys. rewrite E. cbn [bind].
    assert (EL : pyget (map (@nofZ R Rex) (zrange 0 n)) (-1) = Ok (IZR (n - 1))).
    { unfold pyget. rewrite map_length, zrange_length. change (-1 <? 0) with true. cbv iota zeta.
      destruct (Z.ltb_spec (-1 + Z.of_nat (Z.to_nat (n - 0))) 0); [lia|]. destruct (Z.leb_spec (Z.of_nat (Z.to_nat (n - 0))) (-1 + Z.of_nat (Z.to_nat (n - 0)))); [lia|].
      cbn [orb]. rewrite (nth_error_nth' _ (nofZ 0)) by (rewrite map_length, zrange_length; lia).
      rewrite map_nth, zrange_nth by lia. f_equal. change (@nofZ R Rex) with IZR. f_equal. lia. }
    rewrite EL. cbn [bind]. reflexivity.
  Qed.
  Hypothesis zoom_affine : forall a b l k, zoom (map (fun v => a * v + b)%R l) k = map (fun v => a * v + b)%R (zoom l k).
  Lemma threshold_affine a b m bright snr : (0 < a)%R -> 1 <= ih m -> 1 <= iw m -> 3 <= Z.max (ih m) (iw m) -> Z.max (ih m) (iw m) <> 4 ->
    exists t, calculate_threshold zoom fit1 m bright snr = Ok t /\
      calculate_threshold zoom fit1 (img_map (fun v => a * v + b)%R m) bright snr = Ok (a * t + b)%R.
  Proof.
    intros Ha Hh Hw Hn Hn4. destruct (threshold_unfold m bright snr Hh Hw Hn Hn4) as [L [I1 [I2 [s [i [_ [P E]]]]]]].
    eexists. split; [exact E|].
    destruct (threshold_unfold (img_map (fun v => a * v + b)%R m) bright snr Hh Hw Hn Hn4) as [L' [_ [_ [s' [i' [_ [P' E']]]]]]].
    rewrite E'. cbn [img_map ih iw] in P', L'. rewrite pixels_map, nsort_affine, zoom_affine, lslice_map in P', L' by assumption.
    set (n := Z.max (ih m) (iw m)) in *. cbv zeta in *. cbn [img_map ih iw] in *. fold n.
    destruct (line_fit_unique _ _ s' i' (a * s) (a * i + b) (IZR (n / 4)) (IZR (n / 4 + 1)) L' I1 I2) as [-> ->].
    - intros Eq. apply eq_IZR in Eq. lia.
    - exact P'.
    - now apply polyfit1_affine.
    - f_equal. replace (a * i + b + a * s * IZR (n - 1) - (a * i + b))%R with (a * (i + s * IZR (n - 1) - i))%R by ring.
      rewrite Rabs_mult, (Rabs_pos_eq a) by lra. destruct bright; field.
  Qed.
End Threshold.
Lemma threshold_perm {T} {N : Num T} zoom fit1 (m m' : image T) bright snr : nsort (pixels m) = nsort (pixels m') ->
  Z.max (ih m) (iw m) = Z.max (ih m') (iw m') ->
  calculate_threshold zoom fit1 m bright snr = calculate_threshold zoom fit1 m' bright snr.
Proof. intros H1 H2. unfold calculate_threshold. now rewrite H1, H2. Qed.
