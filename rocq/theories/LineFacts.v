(** Lemmas about the line-pattern functions: fits, sub-pixel positions,
    sliding windows. *)
From Coq Require Import Reals ZArith List Lra Lia Psatz.
From Flocq Require Import Core.
From Verif Require Import Base Num NumFacts Img Spec Lsq LsqEx PolyUniq ProcSpec LineSpec Post PrepImg PrepImgFacts4 Proc ProcFacts ProcFacts2 Line.
Import ListNotations.
Local Open Scope R_scope.

Lemma lsq_unique deg xs ys u v : polyfit_spec deg xs ys u -> polyfit_spec deg xs ys v -> length xs = length ys ->
  distinct_values (S deg) xs -> u = v.
Proof.
  intros Pu Pv L D.
  pose proof (lsq_fitted_unique (S deg) _ _ _ _ ltac:(rewrite map_length; exact L) Pu Pv) as F.
  destruct Pu as [Lu _], Pv as [Lv _]. destruct D as [d [Nd [Id Ld]]].
  apply vlin_zero; [congruence|]. apply (evh_roots (S deg) _ d); [now apply vlin_length|assumption|assumption|].
  intros x Hx. rewrite <- (dot_pow_row deg) by now apply vlin_length. rewrite dot_vlin by congruence.
  rewrite (F (pow_row deg x)); [ring|]. now apply in_map, Id.
Qed.
(** The fit of affinely transformed ordinates. *)
Definition last_unit (deg : nat) : list R := repeat 0 deg ++ [1].
Lemma last_unit_length deg : length (last_unit deg) = S deg.
Proof. unfold last_unit. rewrite app_length, repeat_length. cbn. lia. Qed.
Lemma dot_last_unit deg x : dot (pow_row deg x) (last_unit deg) = 1.
Proof.
  induction deg as [|k IH]; [cbn; ring|]. change (last_unit (S k)) with (0 :: last_unit k). cbn [pow_row dot]. rewrite IH. ring.
Qed.
Lemma sqerr_lin deg a b xs v : length v = S deg -> forall ys,
  sqerr (map (pow_row deg) xs) (map (fun y => a * y + b) ys) (vlin a v b (last_unit deg)) = a ^ 2 * sqerr (map (pow_row deg) xs) ys v.
Proof.
  intros Lv. unfold sqerr. induction xs as [|x xs IH]; intros ys; [cbn; ring|]. destruct ys as [|y ys]; [cbn; ring|].
  cbn [map combine Rsum fst snd]. rewrite IH. rewrite dot_vlin by (rewrite last_unit_length; assumption). rewrite dot_last_unit. ring.
Qed.
Lemma vlin_inv deg a b v : a <> 0 -> length v = S deg ->
  vlin a (vlin (/ a) v (- b / a) (last_unit deg)) b (last_unit deg) = v.
Proof.
  intros Ha. generalize (last_unit_length deg). generalize (last_unit deg) as e. generalize (S deg) as n.
  intros n e. revert n v. induction e as [|x e IH]; intros n [|y v] Le Lv; cbn [vlin length] in *; try reflexivity; try lia.
  f_equal; [field; assumption|]. apply (IH (length e)); lia.
Qed.
Lemma polyfit_affine deg a b xs ys v : a <> 0 -> polyfit_spec deg xs ys v ->
  polyfit_spec deg xs (map (fun y => a * y + b) ys) (vlin a v b (last_unit deg)).
Proof.
  intros Ha [Lv H]. split; [apply vlin_length; [assumption|apply last_unit_length]|].
  intros v' Lv'. rewrite sqerr_lin by assumption. rewrite <- (vlin_inv deg a b v') by assumption.
  assert (L2 : length (vlin (/ a) v' (- b / a) (last_unit deg)) = S deg) by (apply vlin_length; [assumption|apply last_unit_length]).
  rewrite sqerr_lin by assumption. apply Rmult_le_compat_l; [apply pow2_ge_0|]. now apply H.
Qed.
Lemma distinct_abscissae n k : (Z.of_nat k <= n)%Z -> distinct_values k (abscissae n).
Proof.
  intros H. exists (abscissae n). repeat split; [| |unfold abscissae; rewrite map_length, zrange_length; lia].
  - unfold abscissae. apply FinFun.Injective_map_NoDup; [intros a b; apply eq_IZR|]. unfold zrange.
    apply FinFun.Injective_map_NoDup; [intros a b; lia|apply seq_NoDup].
  - auto.
Qed.
Lemma abscissae_length n : length (abscissae n) = Z.to_nat n.
Proof. unfold abscissae. rewrite map_length, zrange_length. lia. Qed.

Section Fits.
  Variable polyfit : list R -> list R -> nat -> res (list R).
  Hypothesis PF : polyfit_oracle polyfit.
  Lemma polyfit_call deg n ys : (S deg <= Z.to_nat n)%nat -> length ys = Z.to_nat n ->
    exists v, polyfit (abscissae n) ys deg = Ok v /\ polyfit_spec deg (abscissae n) ys v /\
      forall w, polyfit_spec deg (abscissae n) ys w -> w = v.
  Proof.
    intros Hn L. destruct (PF (abscissae n) ys deg) as [v [E P]].
    - intros E. apply (f_equal (@length R)) in E. rewrite abscissae_length in E. cbn in E. lia.
    - now rewrite abscissae_length.
    - exists v. repeat split; [assumption|apply P|apply P|]. intros w Pw. apply (lsq_unique deg _ _ _ _ Pw P).
      + now rewrite abscissae_length.
      + apply distinct_abscissae. lia.
  Qed.
  Lemma polyfit_call_affine deg n ys v a b : (S deg <= Z.to_nat n)%nat -> length ys = Z.to_nat n -> a <> 0 ->
    polyfit (abscissae n) ys deg = Ok v ->
    polyfit (abscissae n) (map (fun y => a * y + b) ys) deg = Ok (vlin a v b (last_unit deg)).
  Proof.
    intros Hn L Ha E. destruct (polyfit_call deg n ys Hn L) as [v1 [E1 [P1 U1]]]. rewrite E1 in E. apply Ok_inj in E. subst v1.
    destruct (polyfit_call deg n (map (fun y => a * y + b) ys) Hn ltac:(now rewrite map_length)) as [v2 [E2 [P2 U2]]].
    rewrite E2. f_equal. symmetry. apply U2. now apply polyfit_affine.
  Qed.
End Fits.

(** *** Sub-pixel position *)
Section AnyArithmetic.
  Context {T : Type} {N : Num T}.
  Local Open Scope num_scope.
  Lemma argmax_range (l : list T) p : argmax l = Ok p -> (0 <= p < Z.of_nat (length l))%Z.
  Proof.
    assert (G : forall (m : list T) i best bm, (best < i)%nat -> (argmax_from i best bm m < i + length m)%nat).
    { induction m as [|y m IH]; intros i best bm Hb; cbn [argmax_from length]; [lia|].
      destruct (bm <?! y); [specialize (IH (S i) i y)|specialize (IH (S i) best bm)]; lia. }
    destruct l as [|x l]; [discriminate|]. cbn [argmax nargmax]. intros H. apply Ok_inj in H. subst p.
    specialize (G l 1%nat 0%nat x). cbn [length]. lia.
  Qed.
  Lemma argmin_range (l : list T) p : argmin l = Ok p -> (0 <= p < Z.of_nat (length l))%Z.
  Proof.
    assert (G : forall (m : list T) i best bm, (best < i)%nat -> (argmin_from i best bm m < i + length m)%nat).
    { induction m as [|y m IH]; intros i best bm Hb; cbn [argmin_from length]; [lia|].
      destruct (y <?! bm); [specialize (IH (S i) i y)|specialize (IH (S i) best bm)]; lia. }
    destruct l as [|x l]; [discriminate|]. cbn [argmin]. intros H. apply Ok_inj in H. subst p.
    specialize (G l 1%nat 0%nat x). cbn [length]. lia.
  Qed.
  Lemma locate_range polyfit (l : list T) b v : locate_subpixel_point polyfit l b = Ok v ->
    (exists k, (0 <= k < Z.of_nat (length l))%Z /\ v = nofZ k) \/
    ((n0 <=?! v) = true /\ (v <?! nofZ (Z.of_nat (length l))) = true).
  Proof.
    unfold locate_subpixel_point. destruct (polyfit _ _ _) as [f|e]; [|discriminate]. cbn [bind].
    destruct f as [|x [|y [|z [|]]]]; try discriminate.
    destruct (if b then argmin l else argmax l) as [p|e] eqn:E; [|discriminate]. cbn [bind].
    assert (Hp : (0 <= p < Z.of_nat (length l))%Z) by (destruct b; [now apply argmin_range|now apply argmax_range]).
    intros H. apply Ok_inj in H. subst v. destruct (negb _); [|left; now exists p].
    destruct (_ && _) eqn:C; [|left; now exists p]. right. apply andb_prop in C. exact C.
  Qed.
End AnyArithmetic.

Section Subpixel.
  Local Existing Instance Rex.
  Variable polyfit : list R -> list R -> nat -> res (list R).
  Hypothesis PF : polyfit_oracle polyfit.
  Lemma iota_R n : iota n = abscissae (Z.of_nat n). Proof. reflexivity. Qed.
  (** The list of samples as a function of the position. *)
  Lemma list_zmap (l : list R) : l = map (sample l) (zrange 0 (size l)).
  Proof.
    unfold size, zrange. rewrite map_map, Z.sub_0_r, Nat2Z.id.
    apply (nth_ext _ _ 0 0); [now rewrite map_length, seq_length|].
    intros n Hn. rewrite (nth_indep (map _ _) 0 (sample l (0 + Z.of_nat 0))) by now rewrite map_length, seq_length.
    rewrite (map_nth (fun x => sample l (0 + Z.of_nat x))), seq_nth by assumption. unfold sample. cbn [plus]. now rewrite Z.add_0_l, Nat2Z.id.
  Qed.
  Lemma locate_fit (l : list R) (b : bool) : (3 <= size l)%Z -> exists u v w p, polyfit_spec 2 (abscissae (size l)) l [u; v; w] /\
    (if b then argmin l else argmax l) = Ok p /\
    locate_subpixel_point polyfit l b = Ok (if Req_EM_T u 0 then IZR p else
      if Rle_dec 0 (- v / (2 * u)) then if Rlt_dec (- v / (2 * u)) (IZR (size l)) then - v / (2 * u) else IZR p else IZR p).
  Proof.
    intros Hl. destruct (polyfit_call polyfit PF 2 (size l) l) as [f [E [P U]]]; [unfold size in *; lia|unfold size; lia|].
    pose proof P as [Lf _]. destruct f as [|u [|v [|w [|]]]]; try discriminate.
    assert (Ne : l <> []) by (intros ->; cbn in Hl; lia).
    assert (X : exists p, (if b then argmin l else argmax l) = Ok p).
    { destruct l as [|x l]; [congruence|]. destruct b; eexists; reflexivity. }
    destruct X as [p Ep]. exists u, v, w, p. repeat split; try assumption; [apply P|].
    unfold locate_subpixel_point. rewrite iota_R. unfold size in E. rewrite E. cbn [bind]. rewrite Ep. cbn [bind]. f_equal.
    cbn [neqb nleb nltb nofZ nopp ndiv nmul Rex Rnum]. fold (size l).
    destruct (Req_EM_T u 0) as [Hu|Hu].
    - rewrite Req_bool_true by exact Hu. reflexivity.
    - rewrite Req_bool_false by exact Hu. cbn [negb]. change (@n0 R Rex) with 0.
      destruct (Rle_dec 0 (- v / (2 * u))) as [H1|H1].
      + rewrite Rle_bool_true by exact H1. destruct (Rlt_dec (- v / (2 * u)) (IZR (size l))) as [H2|H2].
        * rewrite Rlt_bool_true by exact H2. reflexivity.
        * rewrite Rlt_bool_false by lra. reflexivity.
      + rewrite Rle_bool_false by lra. reflexivity.
  Qed.
  (** Samples on a polynomial. *)
  Lemma fit_is deg l w : length w = S deg -> (Z.of_nat (S deg) <= size l)%Z ->
    (forall i, (0 <= i < size l)%Z -> sample l i = evh w (IZR i)) ->
    forall v, polyfit_spec deg (abscissae (size l)) l v -> v = w.
  Proof.
    intros Lw Hl H v P. apply (polyfit_unique deg _ _ _ _ P Lw).
    - rewrite abscissae_length. unfold size. lia.
    - now apply distinct_abscissae.
    - assert (G : Forall2 (fun x y => y = evh w x) (abscissae (size l)) (map (sample l) (zrange 0 (size l)))).
      { unfold abscissae. assert (K : forall m, (forall i, In i m -> (0 <= i < size l)%Z) -> Forall2 (fun x y => y = evh w x) (map IZR m) (map (sample l) m)).
        { induction m as [|i m IH]; intros Hm; cbn [map]; constructor; [apply H, Hm; now left|]. apply IH. intros; apply Hm; now right. }
        apply K. intros i Hi. apply in_zrange in Hi. lia. }
      rewrite <- list_zmap in G. exact G.
  Qed.
End Subpixel.

(** *** Sliding windows *)
Lemma nth_repeat_lt {A} (a d : A) n k : (k < n)%nat -> nth k (repeat a n) d = a.
Proof. revert k; induction n as [|n IH]; intros [|k] H; cbn; try lia; [reflexivity|]. apply IH. lia. Qed.
Lemma nth_firstn_lt {A} (l : list A) n k d : (k < n)%nat -> nth k (firstn n l) d = nth k l d.
Proof. revert n k; induction l as [|a l IH]; intros [|n] [|k] H; cbn; try lia; try reflexivity. apply IH. lia. Qed.
Lemma nth_skipn_add {A} (l : list A) n k d : nth k (skipn n l) d = nth (n + k) l d.
Proof. revert l; induction n as [|n IH]; intros [|a l]; cbn; try reflexivity; [now destruct k|]. apply IH. Qed.
Lemma lslice_nth {A} (l : list A) a b k d : (0 <= a)%Z -> (b <= Z.of_nat (length l))%Z -> (a + Z.of_nat k < b)%Z ->
  nth k (lslice l a b) d = nth (Z.to_nat a + k) l d.
Proof.
  intros Ha Hb Hk. unfold lslice. unfold slice_bound.
  destruct (Z.ltb_spec a 0); [lia|]. destruct (Z.ltb_spec b 0); [lia|]. rewrite !Z.min_l by lia.
  rewrite nth_firstn_lt by lia. now rewrite nth_skipn_add.
Qed.
Lemma lslice_len {A} (l : list A) a b : (0 <= a)%Z -> (b <= Z.of_nat (length l))%Z -> (a <= b)%Z -> length (lslice l a b) = Z.to_nat (b - a).
Proof.
  intros Ha Hb Hk. unfold lslice, slice_bound.
  destruct (Z.ltb_spec a 0); [lia|]. destruct (Z.ltb_spec b 0); [lia|]. rewrite !Z.min_l by lia.
  rewrite firstn_length, skipn_length. lia.
Qed.
Lemma last_nth {A} (l : list A) d : last l d = nth (length l - 1) l d.
Proof.
  induction l as [|a l IH]; [reflexivity|]. destruct l as [|b l]; [reflexivity|].
  change (last (a :: b :: l) d) with (last (b :: l) d). rewrite IH. cbn [length]. replace (S (S (length l)) - 1)%nat with (S (S (length l) - 1)) by lia. reflexivity.
Qed.
Lemma nth_map_zrange {A} (f : Z -> A) a b k d : (k < Z.to_nat (b - a))%nat -> nth k (map f (zrange a b)) d = f (a + Z.of_nat k)%Z.
Proof.
  intros H. rewrite (nth_indep _ d (f 0%Z)) by now rewrite map_length, zrange_length.
  rewrite map_nth. now rewrite zrange_nth.
Qed.
Lemma mapM_spec {A B} (f : A -> res B) (P : A -> B -> Prop) l : (forall a, In a l -> exists b, f a = Ok b /\ P a b) ->
  exists bs, mapM f l = Ok bs /\ Forall2 P l bs.
Proof.
  induction l as [|a l IH]; intros H; [exists []; now split; [|constructor]|].
  destruct (H a (or_introl eq_refl)) as [b [E Pb]]. destruct IH as [bs [Es Ps]]; [intros; apply H; now right|].
  exists (b :: bs). split; [cbn [mapM]; rewrite E; cbn [bind]; rewrite Es; reflexivity|now constructor].
Qed.
Lemma Forall2_nth {A B} (P : A -> B -> Prop) l m a b k : Forall2 P l m -> (k < length l)%nat -> P (nth k l a) (nth k m b).
Proof. intros F. revert k; induction F as [|x y l m Hp F IH]; intros [|k] H; cbn in *; try lia; [assumption|]. apply IH. lia. Qed.

Section Sliding.
  Local Existing Instance Rex.
  Lemma pad_nth (l : list R) r k : l <> [] -> (0 <= r)%Z -> (k < length l + 2 * Z.to_nat r)%nat ->
    nth k (pad_edge l r) 0 = sample l (Z.max 0 (Z.min (Z.of_nat k - r) (size l - 1))).
  Proof.
    intros Ne Hr Hk. unfold pad_edge, sample, size.
    assert (0 < length l)%nat by (destruct l; [congruence|cbn; lia]).
    destruct (Nat.lt_ge_cases k (Z.to_nat r)) as [H1|H1].
    - rewrite app_nth1 by now rewrite repeat_length. rewrite nth_repeat_lt by assumption.
      replace (Z.to_nat _) with 0%nat by lia. now destruct l.
    - rewrite app_nth2 by now rewrite repeat_length. rewrite repeat_length.
      destruct (Nat.lt_ge_cases (k - Z.to_nat r) (length l)) as [H2|H2].
      + rewrite app_nth1 by assumption. f_equal. lia.
      + rewrite app_nth2 by assumption. rewrite nth_repeat_lt by lia. rewrite last_nth. change (@n0 R Rex) with 0. f_equal. lia.
  Qed.
  Lemma pad_length (l : list R) r : length (pad_edge l r) = (length l + 2 * Z.to_nat r)%nat.
  Proof. unfold pad_edge. rewrite !app_length, !repeat_length. lia. Qed.
  Lemma edge_window_length l i r : (0 <= r)%Z -> length (edge_window l i r) = Z.to_nat (2 * r + 1).
  Proof. intros. unfold edge_window. rewrite map_length, zrange_length. f_equal. lia. Qed.
  Lemma window_eq (l : list R) r i : (0 <= r)%Z -> (0 <= i < size l)%Z ->
    lslice (pad_edge l r) i (i + (2 * r + 1)) = edge_window l i r.
  Proof.
    intros Hr Hi. assert (Ne : l <> []) by (intros ->; cbn in Hi; lia). unfold size in Hi.
    assert (L : length (lslice (pad_edge l r) i (i + (2 * r + 1))) = Z.to_nat (2 * r + 1)).
    { rewrite lslice_len; rewrite ?pad_length; lia. }
    apply (nth_ext _ _ 0 0); [now rewrite L, edge_window_length|].
    intros k Hk. rewrite L in Hk. rewrite lslice_nth; rewrite ?pad_length; try lia.
    rewrite pad_nth by (auto; lia). unfold edge_window. rewrite nth_map_zrange by lia. f_equal. unfold size. lia.
  Qed.
  Variable polyfit : list R -> list R -> nat -> res (list R).
  Hypothesis PF : polyfit_oracle polyfit.
  (** The result before normalisation. *)
  Definition scaled_by_mean (norm : bool) (l : list R) : list R :=
    if norm then if Req_EM_T (average l) 0 then l else map (fun v => v / average l) l else l.
  Lemma Rsum_fold l a : fold_left Rplus l a = a + Rsum l.
  Proof. revert a; induction l as [|x l IH]; intros a; cbn [fold_left Rsum]; [ring|]. rewrite IH. ring. Qed.
  Lemma mean_average (l : list R) : mean l = average l.
  Proof.
    unfold mean, average, nsum. cbn [ndiv nofZ Rex Rnum]. change (fold_left (fun a b : R => a + b) l (IZR 0) / IZR (Z.of_nat (length l)) = Rsum l / INR (length l)).
    rewrite Rsum_fold, <- INR_IZR_INZ. f_equal. ring.
  Qed.
  Lemma radius_bounds n s : (3 <= n)%Z -> (1 <= window_radius n s)%Z /\
    (let sz := Z.min (Z.max s 3) n in (if sz mod 2 =? 0 then sz + 1 else sz) = 2 * window_radius n s + 1)%Z.
  Proof.
    intros Hn. unfold window_radius. set (sz := Z.min (Z.max s 3) n). assert (3 <= sz)%Z by lia. cbn zeta.
    pose proof (Z.div_mod sz 2 ltac:(lia)). pose proof (Z.mod_pos_bound sz 2 ltac:(lia)).
    destruct (Z.eqb_spec (sz mod 2) 0); lia.
  Qed.
  Lemma sliding_spec store (l : list R) s norm : (3 <= size l)%Z ->
    exists ss, length ss = length l /\
      (forall i, (0 <= i < size l)%Z -> window_slope l i (window_radius (size l) s) (sample ss i)) /\
      sliding_window_slope polyfit store l s norm = Ok (scaled_by_mean norm (map (fun v => Rabs (store v)) ss)).
  Proof.
    intros Hn. destruct (radius_bounds (size l) s Hn) as [Hr Hs]. cbn zeta in Hs. set (r := window_radius (size l) s) in *.
    destruct (mapM_spec (fun i => v <- polyfit (abscissae (2 * r + 1)) (edge_window l i r) 1%nat ;; pyget v 0)
       (fun i a => window_slope l i r a) (zrange 0 (size l))) as [ss [Es Fs]].
    { intros i Hi. apply in_zrange in Hi.
      destruct (polyfit_call polyfit PF 1 (2 * r + 1) (edge_window l i r)) as [v [E [P U]]]; [lia|apply edge_window_length; lia|].
      pose proof P as [Lv _]. destruct v as [|a [|b [|]]]; try discriminate. exists a. split; [rewrite E; reflexivity|]. now exists b. }
    exists ss. pose proof (Forall2_length _ _ _ Fs) as Ls. rewrite zrange_length in Ls. unfold size in Ls.
    split; [lia|]. split.
    - intros i Hi. pose proof (Forall2_nth _ _ _ 0%Z 0 (Z.to_nat i) Fs) as F.
      rewrite zrange_length in F. rewrite zrange_nth in F by (unfold size in *; lia). unfold sample.
      replace (0 + Z.of_nat (Z.to_nat i))%Z with i in F by lia. apply F. lia.
    - unfold sliding_window_slope. fold (size l). destruct (Z.ltb_spec (size l) 3); [lia|]. rewrite Hs.
      replace ((2 * r + 1) / 2)%Z with r by (rewrite Z.mul_comm, Z.div_add_l by lia; cbn; lia).
      assert (EM : mapM (fun i => v <- polyfit (iota (Z.to_nat (2 * r + 1))) (lslice (pad_edge l r) i (i + (2 * r + 1))) 1%nat ;;
                           a <- pyget v 0 ;; Ok (store a)) (zrange 0 (size l)) = Ok (map store ss)).
      { rewrite iota_R, Z2Nat.id by lia. clear -Es Hr.
        assert (G : forall m ss, (forall i, In i m -> (0 <= i < size l)%Z) ->
          mapM (fun i => v <- polyfit (abscissae (2 * r + 1)) (edge_window l i r) 1%nat ;; pyget v 0) m = Ok ss ->
          mapM (fun i => v <- polyfit (abscissae (2 * r + 1)) (lslice (pad_edge l r) i (i + (2 * r + 1))) 1%nat ;;
                           a <- pyget v 0 ;; Ok (store a)) m = Ok (map store ss)).
        { induction m as [|i m IH]; intros s1 Hm H; cbn [mapM] in *; [apply Ok_inj in H; subst; reflexivity|].
          rewrite window_eq by first [lia | apply Hm; now left].
          destruct (polyfit (abscissae (2 * r + 1)) (edge_window l i r) 1%nat) as [v|e]; cbn [bind] in *; [|discriminate].
          destruct (pyget v 0) as [a|e]; cbn [bind] in *; [|discriminate].
          destruct (mapM _ m) as [s'|e] eqn:Em in H; cbn [bind] in H; [|discriminate]. apply Ok_inj in H. subst s1.
          rewrite (IH s' ltac:(intros; apply Hm; now right) Em). reflexivity. }
        apply G; [intros i Hi; apply in_zrange in Hi; lia|exact Es]. }
      rewrite EM. cbn [bind]. f_equal. rewrite map_map. cbn [nabs Rex Rnum]. unfold scaled_by_mean. destruct norm; [|reflexivity].
      rewrite mean_average. cbn [neqb Rex Rnum]. change (@n0 R Rex) with 0.
      destruct (Req_EM_T _ 0) as [H0|H0]; [rewrite Req_bool_true by exact H0|rewrite Req_bool_false by exact H0]; reflexivity.
  Qed.
End Sliding.

Lemma sample_map (f : R -> R) l i : (0 <= i < size l)%Z -> sample (map f l) i = f (sample l i).
Proof. unfold sample, size. intros H. rewrite (nth_indep _ 0 (f 0)) by (rewrite map_length; lia). apply map_nth. Qed.
Lemma size_map {A B} (f : A -> B) l : size (map f l) = size l.
Proof. unfold size. now rewrite map_length. Qed.
Lemma edge_window_map f l i r : (0 < size l)%Z -> edge_window (map f l) i r = map f (edge_window l i r).
Proof.
  intros H. unfold edge_window. rewrite size_map, map_map. apply map_ext. intros k. apply sample_map. lia.
Qed.
Lemma window_slope_unique l i r s t : (1 <= r)%Z -> window_slope l i r s -> window_slope l i r t -> s = t.
Proof.
  intros Hr [b Hb] [c Hc]. assert (E : [s; b] = [t; c]); [|congruence].
  apply (lsq_unique 1 _ _ _ _ Hb Hc); [rewrite abscissae_length, edge_window_length; lia|]. apply distinct_abscissae. lia.
Qed.
Lemma window_slope_affine l i r s a c : a <> 0 -> (0 < size l)%Z -> window_slope l i r s ->
  window_slope (map (fun v => a * v + c) l) i r (a * s).
Proof.
  intros Ha Hl [b Hb]. exists (a * b + c). rewrite edge_window_map by assumption.
  pose proof (polyfit_affine 1 a c _ _ _ Ha Hb) as P. cbn in P.
  replace (a * s + c * 0) with (a * s) in P by ring. replace (a * b + c * 1) with (a * b + c) in P by ring. exact P.
Qed.
(** Windows on a straight line. *)
Lemma polyfit_line m a c ys : (forall k, (0 <= k < m)%Z -> sample ys k = a * IZR k + c) -> length ys = Z.to_nat m -> (2 <= m)%Z ->
  polyfit_spec 1 (abscissae m) ys [a; c].
Proof.
  intros H L Hm. split; [reflexivity|]. intros v' Lv'.
  assert (Z0 : sqerr (map (pow_row 1) (abscissae m)) ys [a; c] <= 0); [|pose proof (sqerr_nonneg (map (pow_row 1) (abscissae m)) ys v'); lra].
  apply sqerr_zero; [rewrite map_length, abscissae_length; lia|].
  rewrite (list_zmap ys). replace (size ys) with m by (unfold size; lia).
  assert (G : forall q, (forall k, In k q -> (0 <= k < m)%Z) -> Forall2 (fun r y => dot r [a; c] = y) (map (pow_row 1) (map IZR q)) (map (sample ys) q)).
  { induction q as [|k q IH]; intros Hq; cbn [map]; constructor; [|apply IH; intros; apply Hq; now right].
    rewrite H by (apply Hq; now left). cbn. ring. }
  apply G. intros k Hk. apply in_zrange in Hk. lia.
Qed.
Lemma edge_window_sample l i r k : (0 <= r)%Z -> (0 <= k < 2 * r + 1)%Z ->
  sample (edge_window l i r) k = sample l (Z.max 0 (Z.min (i - r + k) (size l - 1))).
Proof.
  intros Hr Hk. unfold sample at 1, edge_window. rewrite nth_map_zrange by lia. f_equal. lia.
Qed.
Lemma window_slope_line l i r a c : (1 <= r)%Z -> (forall k, (i - r <= k <= i + r)%Z -> sample l k = a * IZR k + c) ->
  (r <= i < size l - r)%Z -> window_slope l i r a.
Proof.
  intros Hr H Hi. exists (a * IZR (i - r) + c). apply polyfit_line; [|rewrite edge_window_length; lia|lia].
  intros k Hk. rewrite edge_window_sample by lia. rewrite Z.max_r, Z.min_l by lia. rewrite H by lia. rewrite (plus_IZR (i - r) k). ring.
Qed.
Lemma window_slope_const l i r c : (1 <= r)%Z -> (0 < size l)%Z -> (forall k, (0 <= k < size l)%Z -> sample l k = c) -> window_slope l i r 0.
Proof.
  intros Hr Hl H. exists c. apply polyfit_line; [|rewrite edge_window_length; lia|lia].
  intros k Hk. rewrite edge_window_sample by lia. rewrite H by lia. ring.
Qed.
(** Three samples: half the difference of the neighbours. *)
Lemma window_slope_three l i : (3 <= size l)%Z -> (0 <= i < size l)%Z ->
  window_slope l i 1 ((sample l (Z.min (i + 1) (size l - 1)) - sample l (Z.max 0 (i - 1))) / 2).
Proof.
  intros Hl Hi. set (y2 := sample l (Z.min (i + 1) (size l - 1))). set (y0 := sample l (Z.max 0 (i - 1))). set (y1 := sample l i).
  exists ((5 * y0 + 2 * y1 - y2) / 6).
  assert (E : edge_window l i 1 = [y0; y1; y2]).
  { unfold edge_window. change (zrange (- (1)) (1 + 1)) with [-1; 0; 1]%Z. cbn [map]. unfold y0, y1, y2. f_equal; [f_equal; lia|f_equal; [f_equal; lia|f_equal; f_equal; lia]]. }
  rewrite E. split; [reflexivity|]. intros [|s [|t [|]]] Lv; try discriminate.
  change (abscissae (2 * 1 + 1)) with [0; 1; 2]. unfold sqerr. cbn [map pow_row combine Rsum dot fst snd].
  set (ds := s - (y2 - y0) / 2). set (dt := t - (5 * y0 + 2 * y1 - y2) / 6).
  replace s with ((y2 - y0) / 2 + ds) by (unfold ds; ring). replace t with ((5 * y0 + 2 * y1 - y2) / 6 + dt) by (unfold dt; field).
  apply Rminus_le. match goal with |- ?e <= 0 => replace e with (- (dt ^ 2 + (ds + dt) ^ 2 + (2 * ds + dt) ^ 2)) by field end.
  pose proof (pow2_ge_0 dt). pose proof (pow2_ge_0 (ds + dt)). pose proof (pow2_ge_0 (2 * ds + dt)). lra.
Qed.
(** *** Averages *)
Lemma Rsum_map_div l m : Rsum (map (fun v => v / m) l) = Rsum l / m.
Proof. induction l as [|x l IH]; cbn [map Rsum]; [unfold Rdiv; ring|]. rewrite IH. unfold Rdiv. ring. Qed.
Lemma Rsum_map_mul l m : Rsum (map (fun v => m * v) l) = m * Rsum l.
Proof. induction l as [|x l IH]; cbn [map Rsum]; [ring|]. rewrite IH. ring. Qed.
Lemma average_div l m : average (map (fun v => v / m) l) = average l / m.
Proof. unfold average. rewrite Rsum_map_div, map_length. unfold Rdiv. ring. Qed.
Lemma average_mul l m : average (map (fun v => m * v) l) = m * average l.
Proof. unfold average. rewrite Rsum_map_mul, map_length. unfold Rdiv. ring. Qed.
Lemma average_nonneg l : (forall x, In x l -> 0 <= x) -> 0 <= average l.
Proof.
  intros H. unfold average. destruct l as [|x l]; [unfold Rdiv; cbn; lra|].
  apply Rmult_le_pos; [now apply Rsum_nonneg|]. left. apply Rinv_0_lt_compat. apply lt_0_INR. cbn. lia.
Qed.
Lemma average_zero l : (forall x, In x l -> 0 <= x) -> average l = 0 -> forall x, In x l -> x = 0.
Proof.
  intros H E x Hx. apply (Rsum_nonneg_zero l H); [|assumption]. unfold average in E.
  assert (P : 0 < INR (length l)) by (apply lt_0_INR; destruct l; [destruct Hx|cbn; lia]).
  apply (Rmult_eq_compat_r (INR (length l))) in E. unfold Rdiv in E. rewrite Rmult_assoc, Rinv_l in E by lra. lra.
Qed.
Lemma scaled_scale norm l c : 0 < c -> norm = true -> average l <> 0 -> scaled_by_mean norm (map (fun v => c * v) l) = scaled_by_mean norm l.
Proof.
  intros Hc -> Hm. unfold scaled_by_mean. rewrite average_mul.
  destruct (Req_EM_T (c * average l) 0) as [h|h]; [apply Rmult_integral in h; lra|].
  destruct (Req_EM_T (average l) 0); [lra|]. rewrite map_map. apply map_ext. intros v. field. split; lra.
Qed.
