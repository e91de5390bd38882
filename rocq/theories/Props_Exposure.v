(** C130: noise, exposure and contrast do not change the dots that are found.
    Vocabulary: [img_eq] (Img.v: same size and pixels), [binary_image] and
    [img_sum] (PrepSpec.v).  External parts of the binarization (the median
    filter, the threshold finder, the morphological operations, the labelling)
    are arguments, restricted only by the hypotheses written in each theorem. *)
From Coq Require Import Reals ZArith List Lra Lia Bool Permutation Sorting.Sorted.
From Flocq Require Import Core.
From Verif Require Import Base Num Img Post Spec NumFacts PrepSpec PrepImg PrepImgFacts PrepImgFacts2 PersFacts2.
From Verif Require Props_Symm Props_Line5.
Import ListNotations.
Local Open Scope R_scope.
Local Existing Instance Rex.

(** *** Specification *)
(** Two outcomes agree: the same failure, or the same picture. *)
Definition same_outcome (r r' : res (image R)) : Prop :=
  match r, r' with Ok a, Ok b => img_eq a b | Err e, Err e' => e = e' | _, _ => False end.
(** An operation that only looks at the pixels inside the picture. *)
Definition pixelwise (f : image R -> image R) : Prop := forall a b, img_eq a b -> img_eq (f a) (f b).
(** v is the k-th smallest of l, counting from zero. *)
Definition ranked (k : nat) (l : list R) (v : R) : Prop :=
  exists s, Permutation s l /\ StronglySorted Rle s /\ nth_error s k = Some v.
(** A rank filter such as a median filter: there are a rank and, for each
    picture size and pixel, a window inside the picture, and the new value is
    the value of that rank in the window. *)
Definition rank_filter (f : image R -> image R) : Prop :=
  exists (k : nat) (window : Z -> Z -> Z -> Z -> list (Z * Z)),
    forall m, ih (f m) = ih m /\ iw (f m) = iw m /\
      forall i j, in_img m i j ->
        (forall p, In p (window (ih m) (iw m) i j) -> in_img m (fst p) (snd p)) /\
        ranked k (map (fun p => px m (fst p) (snd p)) (window (ih m) (iw m) i j)) (px (f m) i j).
(** No pixel of a differs from the same pixel of b by more than e. *)
Definition within (e : R) (a b : image R) : Prop :=
  ih a = ih b /\ iw a = iw b /\ forall i j, in_img a i j -> Rabs (px a i j - px b i j) <= e.
(** The picture that is compared with the threshold, and the threshold. *)
Definition compared (median : image R -> image R) (denoise : bool) (m : image R) : image R :=
  if denoise then median (mkimg (ih m) (iw m) (fun i j => Rabs (px m i j))) else m.
Definition level (otsu : image R -> R) (src : image R) (ratio : R) (thres : option R) : R :=
  match thres with Some t => t | None => otsu (select_roi src ratio false) end.
(** Every value of m is at least e away from the levels t and t', on the same
    side of both. *)
Definition clear_of (e t t' : R) (m : image R) : Prop :=
  forall i j, in_img m i j ->
    (px m i j <= t - e /\ px m i j <= t' - e) \/ (t + e < px m i j /\ t' + e < px m i j).
Definition brighter (t : R) (m : image R) : image R :=
  mkimg (ih m) (iw m) (fun i j => if Rlt_bool t (px m i j) then 1 else 0).

(** *** Counting *)
Lemma fewer {A} (f : A -> bool) l : (List.length (filter f l) <= List.length l)%nat.
Proof. induction l as [|a l IH]; [apply le_n|]. cbn. destruct (f a); cbn; lia. Qed.
Definition upto (x : R) (l : list R) : nat := List.length (filter (fun v => Rle_bool v x) l).
Lemma upto_perm x l l' : Permutation l l' -> upto x l = upto x l'.
Proof. intros P. unfold upto. apply Permutation_length. now apply Permutation_filter'. Qed.
Lemma upto_all x l : (forall v, In v l -> v <= x) -> upto x l = List.length l.
Proof.
  induction l as [|a l IH]; intros H; [reflexivity|]. unfold upto in *. cbn. rewrite Rle_bool_true by (apply H; now left). cbn. f_equal. apply IH. intros v Hv. apply H. now right.
Qed.
Lemma upto_none x l : (forall v, In v l -> x < v) -> upto x l = 0%nat.
Proof.
  induction l as [|a l IH]; intros H; [reflexivity|]. unfold upto in *. cbn. rewrite Rle_bool_false by (apply H; now left). apply IH. intros v Hv. apply H. now right.
Qed.
Lemma upto_app x l l' : upto x (l ++ l') = (upto x l + upto x l')%nat.
Proof. unfold upto. now rewrite filter_app, app_length. Qed.
Lemma sorted_split s : forall k v, StronglySorted Rle s -> nth_error s k = Some v ->
  exists a b, s = a ++ v :: b /\ List.length a = k /\ (forall x, In x a -> x <= v) /\ (forall x, In x b -> v <= x).
Proof.
  induction s as [|y s IH]; intros k v S E; [destruct k; discriminate|]. apply StronglySorted_inv in S. destruct S as [S F]. rewrite Forall_forall in F.
  destruct k as [|k]; cbn in E.
  - injection E as <-. exists [], s. split; [reflexivity|]. split; [reflexivity|]. split; [intros x []|exact F].
  - destruct (IH k v S E) as (a & b & -> & L & A & B). exists (y :: a), b. split; [reflexivity|]. split; [cbn; now rewrite L|]. split; [|exact B].
    intros x [<-|Hx]; [|now apply A]. apply F. apply in_or_app. right. now left.
Qed.
Lemma ranked_upto k l v : ranked k l v -> (k < upto v l)%nat.
Proof.
  intros (s & P & S & E). rewrite <- (upto_perm v _ _ P). destruct (sorted_split s k v S E) as (a & b & -> & L & A & B).
  rewrite upto_app, (upto_all v a A), L. unfold upto. cbn. rewrite Rle_bool_true by lra. cbn. lia.
Qed.
Lemma ranked_below k l v x : ranked k l v -> x < v -> (upto x l <= k)%nat.
Proof.
  intros (s & P & S & E) H. rewrite <- (upto_perm x _ _ P). destruct (sorted_split s k v S E) as (a & b & -> & L & A & B).
  rewrite upto_app, (upto_none x (v :: b)).
  - unfold upto. pose proof (fewer (fun v => Rle_bool v x) a). lia.
  - intros y [<-|Hy]; [exact H|]. specialize (B y Hy). lra.
Qed.
Lemma upto_mono {A} (f g : A -> R) x y l : (forall p, In p l -> f p <= x -> g p <= y) -> (upto x (map f l) <= upto y (map g l))%nat.
Proof.
  unfold upto. induction l as [|a l IH]; intros H; [apply le_n|]. cbn. specialize (IH (fun p Hp => H p (or_intror Hp))).
  destruct (Rle_bool_spec (f a) x) as [Hx|Hx].
  - rewrite Rle_bool_true by (apply H; [now left|exact Hx]). cbn. lia.
  - destruct (Rle_bool (g a) y); cbn; lia.
Qed.
(** A rank is monotone: if g is at most y wherever f is at most its k-th
    smallest value, the k-th smallest value of g is at most y. *)
Lemma ranked_mono {A} (f g : A -> R) k l v v' y :
  ranked k (map f l) v -> ranked k (map g l) v' -> (forall p, In p l -> f p <= v -> g p <= y) -> v' <= y.
Proof.
  intros K K' H. apply Rnot_lt_le. intros C. pose proof (ranked_upto _ _ _ K). pose proof (ranked_below _ _ _ _ K' C). pose proof (upto_mono f g v y l H). lia.
Qed.
Lemma ranked_lipschitz {A} (f g : A -> R) k l v v' e :
  ranked k (map f l) v -> ranked k (map g l) v' -> (forall p, In p l -> Rabs (f p - g p) <= e) -> Rabs (v - v') <= e.
Proof.
  intros K K' H. assert (v' <= v + e).
  { apply (ranked_mono f g k l v v' _ K K'). intros p Hp L. specialize (H p Hp). apply Rabs_le_inv in H. lra. }
  assert (v <= v' + e).
  { apply (ranked_mono g f k l v' v _ K' K). intros p Hp L. specialize (H p Hp). apply Rabs_le_inv in H. lra. }
  apply Rabs_le. lra.
Qed.
Lemma ranked_in k l v : ranked k l v -> In v l.
Proof. intros (s & P & S & E). apply (Permutation_in _ P). now apply nth_error_In in E. Qed.
(** A rank follows a strictly increasing change of values. *)
Lemma ranked_increasing {A} (f : A -> R) (g : R -> R) k l v v' :
  (forall p q, In p l -> In q l -> f p <= f q -> g (f p) <= g (f q)) ->
  ranked k (map f l) v -> ranked k (map (fun p => g (f p)) l) v' -> v' = g v.
Proof.
  intros I K K'. destruct (proj1 (in_map_iff _ _ _) (ranked_in _ _ _ K)) as (p & <- & Hp). destruct (proj1 (in_map_iff _ _ _) (ranked_in _ _ _ K')) as (q & <- & Hq).
  apply Rle_antisym.
  - apply (ranked_mono f (fun p => g (f p)) k l _ _ _ K K'). intros r Hr L. now apply I.
  - apply Rnot_lt_le. intros C. pose proof (ranked_below k _ _ (f q) K) as U. pose proof (ranked_upto _ _ _ K') as V.
    assert (f q < f p). { apply Rnot_le_lt. intros D. specialize (I p q Hp Hq D). lra. }
    specialize (U H).
    (* values of g f up to g f q: all have f < f p *)
    assert (W : (upto (g (f q)) (map (fun p => g (f p)) l) <= List.length (filter (fun v => Rlt_bool v (f p)) (map f l)))%nat).
    { clear -I C Hp Hq. assert (G : forall l', (forall x, In x l' -> In x l) -> (upto (g (f q)) (map (fun p => g (f p)) l') <= List.length (filter (fun v => Rlt_bool v (f p)) (map f l')))%nat); [|apply G; auto].
      induction l' as [|a l' IH]; intros S; [apply le_n|]. specialize (IH (fun x Hx => S x (or_intror Hx))). unfold upto in *. cbn.
      destruct (Rle_bool_spec (g (f a)) (g (f q))) as [La|La].
      - rewrite Rlt_bool_true. { cbn. lia. } apply Rnot_le_lt. intros D. specialize (I p a Hp (S a (or_introl eq_refl)) D). lra.
      - destruct (Rlt_bool (f a) (f p)); cbn; lia. }
    assert (X : (List.length (filter (fun v => Rlt_bool v (f p)) (map f l)) <= k)%nat).
    { destruct K as (s & P & S & E). destruct (sorted_split s k _ S E) as (a & b & -> & L & A' & B). rewrite <- (Permutation_length (Permutation_filter' (fun v => Rlt_bool v (f p)) _ _ P)).
      rewrite filter_app, app_length. replace (filter _ (f p :: b)) with (@nil R).
      - cbn. pose proof (fewer (fun v => Rlt_bool v (f p)) a). lia.
      - symmetry. cbn. rewrite Rlt_bool_false by lra. clear -B. induction b as [|y b IH]; [reflexivity|]. cbn. rewrite Rlt_bool_false by (apply B; now left). apply IH. intros x Hx. apply B. now right. }
    lia.
Qed.

(** *** The binary picture *)
Lemma invert_same a b : img_eq a b -> same_outcome (invert_dots_contrast a) (invert_dots_contrast b).
Proof.
  intros E. unfold invert_dots_contrast. rewrite (Props_Line5.pixels_eq _ _ E).
  assert (Ea : (ih a * iw a = ih b * iw b)%Z) by (destruct E as (-> & -> & _); reflexivity). rewrite Ea.
  destruct (namax (pixels b)) as [mx|e]; [|reflexivity]. cbn [bind same_outcome]. destruct (_ <?! _)%num; [|exact E]. now apply Props_Symm.map_img_eq.
Qed.
Lemma binary_brighter t m : binary_image (brighter t m).
Proof. intros i j I. cbn. destruct (Rlt_bool t (px m i j)); [now right|now left]. Qed.
Lemma finish (clear op fill : image R -> image R) r r' : pixelwise clear -> pixelwise op -> pixelwise fill -> same_outcome r r' ->
  same_outcome (mat <- r ;; Ok (fill (op (clear mat)))) (mat <- r' ;; Ok (fill (op (clear mat)))).
Proof. intros C O F S. destruct r, r'; cbn in *; try contradiction; [|exact S]. now apply F, O, C. Qed.
Lemma binarization_steps med otsu clear op fill m ratio thres denoise :
  binarization med otsu clear op fill m ratio thres denoise =
  (let src := compared med denoise m in
   mat <- invert_dots_contrast (brighter (level otsu src ratio thres) src) ;; Ok (fill (op (clear mat)))).
Proof. reflexivity. Qed.

Lemma median_within med e a b : rank_filter med -> within e a b -> within e (med a) (med b).
Proof.
  intros (k & win & K) (Eh & Ew & E). destruct (K a) as (Ah & Aw & A), (K b) as (Bh & Bw & B). split; [congruence|]. split; [congruence|].
  intros i j I. assert (Ia : in_img a i j) by (unfold in_img in *; lia). assert (Ib : in_img b i j) by (unfold in_img in *; lia).
  destruct (A i j Ia) as [Wa Ra], (B i j Ib) as [Wb Rb]. rewrite <- Eh, <- Ew in Rb. apply (ranked_lipschitz _ _ _ _ _ _ e Ra Rb). intros p Hp. apply E. now apply Wa.
Qed.
Lemma compared_within med e denoise a b : rank_filter med -> within e a b -> within e (compared med denoise a) (compared med denoise b).
Proof.
  intros K W. destruct denoise; [|exact W]. cbn [compared]. apply median_within; [exact K|]. destruct W as (Eh & Ew & E). split; [exact Eh|]. split; [exact Ew|]. intros i j I. cbn.
  eapply Rle_trans; [apply Rabs_triang_inv2|]. now apply E.
Qed.

(** Two photographs that differ by noise of at most e, and thresholds (given,
    or found automatically for each) that stay more than e away from the
    values of the first: the same binary picture. *)
Theorem C130_noise : forall median otsu clear opening fill m m' ratio thres thres' denoise e,
  rank_filter median -> pixelwise clear -> pixelwise opening -> pixelwise fill ->
  within e m m' ->
  clear_of e (level otsu (compared median denoise m) ratio thres) (level otsu (compared median denoise m') ratio thres') (compared median denoise m) ->
  same_outcome (binarization median otsu clear opening fill m ratio thres denoise)
    (binarization median otsu clear opening fill m' ratio thres' denoise).
Proof.
  intros med otsu clear op fill m m' ratio thres thres' dn e K C O F W S. rewrite !binarization_steps. cbv zeta. apply finish; [exact C|exact O|exact F|]. apply invert_same.
  destruct (compared_within med e dn m m' K W) as (Eh & Ew & E). split; [exact Eh|]. split; [exact Ew|]. intros i j I. cbn. specialize (E i j I). specialize (S i j I). apply Rabs_le_inv in E.
  destruct S as [[S1 S2]|[S1 S2]].
  - rewrite !Rlt_bool_false; [reflexivity|lra|]. assert (0 <= e) by lra. lra.
  - rewrite !Rlt_bool_true; [reflexivity|lra|]. assert (0 <= e) by lra. lra.
Qed.
Print Assumptions C130_noise.

Lemma sum13 m : ih m = 1%Z -> iw m = 3%Z -> img_sum m = px m 0 0 + (px m 0 1 + px m 0 2).
Proof.
  intros Eh Ew. unfold img_sum. rewrite Eh, Ew. unfold sumZ. change (Z.to_nat 1) with 1%nat. change (Z.to_nat 3) with 3%nat. cbn [sum_n].
  change (Z.of_nat 0) with 0%Z. change (Z.of_nat 1) with 1%Z. change (Z.of_nat 2) with 2%Z. ring.
Qed.
(** The margin cannot be dropped: with noise e and a value closer than e to
    the threshold, the binary pictures differ. *)
Definition idf (m : image R) : image R := m.
Theorem C130_noise_margin_refuted : exists m m' t e, within e m m' /\ 0 < e /\
  (forall i j, in_img m i j -> px m i j <> t /\ px m' i j <> t) /\
  ~ same_outcome (binarization idf (fun _ => 0) idf idf idf m 1 (Some t) false) (binarization idf (fun _ => 0) idf idf idf m' 1 (Some t) false).
Proof.
  exists (mkimg 1 3 (fun _ j => if (j =? 0)%Z then 6 else 1)), (mkimg 1 3 (fun _ j => if (j =? 0)%Z then 4 else 1)), 5, 2.
  split. { split; [reflexivity|]. split; [reflexivity|]. intros i j I. cbn. destruct (j =? 0)%Z; apply Rabs_le; lra. }
  split; [lra|]. split. { intros i j I. cbn. destruct (j =? 0)%Z; split; lra. }
  intros S. rewrite !binarization_steps in S. cbv zeta in S. cbn [compared level] in S.
  set (a := brighter 5 (mkimg 1 3 (fun _ j => if (j =? 0)%Z then 6 else 1))) in *. set (b := brighter 5 (mkimg 1 3 (fun _ j => if (j =? 0)%Z then 4 else 1))) in *.
  destruct (invert_minority a (binary_brighter _ _) ltac:(cbn; lia) ltac:(cbn; lia)) as (x & Ex & Bx & Hx & Wx & Sx & Cx).
  destruct (invert_minority b (binary_brighter _ _) ltac:(cbn; lia) ltac:(cbn; lia)) as (y & Ey & By & Hy & Wy & Sy & Cy).
  rewrite Ex, Ey in S. cbn in S. destruct S as (_ & _ & S). unfold idf in S.
  assert (Pa : px a 0 0 = 1 /\ px a 0 1 = 0 /\ px a 0 2 = 0) by (cbn; rewrite Rlt_bool_true by lra; rewrite Rlt_bool_false by lra; auto).
  assert (Pb : px b 0 0 = 0 /\ px b 0 1 = 0 /\ px b 0 2 = 0) by (cbn; rewrite !Rlt_bool_false by lra; auto).
  assert (Sa : img_sum x = px x 0 0 + (px x 0 1 + px x 0 2)) by (now apply sum13).
  assert (Sb : img_sum y = px y 0 0 + (px y 0 1 + px y 0 2)) by (now apply sum13).
  assert (I : forall j, (0 <= j < 3)%Z -> in_img x 0 j) by (intros j Hj; unfold in_img; rewrite Hx, Wx; cbn; lia).
  assert (Ia : forall j, (0 <= j < 3)%Z -> in_img a 0 j) by (intros j Hj; unfold in_img; cbn; lia).
  assert (Ib : forall j, (0 <= j < 3)%Z -> in_img b 0 j) by (intros j Hj; unfold in_img; cbn; lia).
  pose proof (S 0%Z 0%Z (I 0%Z ltac:(lia))) as S0. pose proof (S 0%Z 1%Z (I 1%Z ltac:(lia))) as S1. 
  replace (IZR (ih a * iw a)) with 3 in Sx by reflexivity. replace (IZR (ih b * iw b)) with 3 in Sy by reflexivity.
  destruct Cx as [Cx|Cx], Cy as [Cy|Cy];
  pose proof (Cx 0 0 (Ia 0 ltac:(lia)))%Z; pose proof (Cx 0 1 (Ia 1 ltac:(lia)))%Z; pose proof (Cx 0 2 (Ia 2 ltac:(lia)))%Z;
  pose proof (Cy 0 0 (Ib 0 ltac:(lia)))%Z; pose proof (Cy 0 1 (Ib 1 ltac:(lia)))%Z; pose proof (Cy 0 2 (Ib 2 ltac:(lia)))%Z; lra.
Qed.
Print Assumptions C130_noise_margin_refuted.

(** *** Exposure *)
(** m' is m with every brightness v replaced by g v. *)
Definition exposed (g : R -> R) (m m' : image R) : Prop :=
  ih m' = ih m /\ iw m' = iw m /\ forall i j, in_img m i j -> px m' i j = g (px m i j).
Lemma exposed_median med g a b : rank_filter med -> (forall x y, 0 <= x -> x < y -> g x < g y) -> (forall i j, in_img a i j -> 0 <= px a i j) ->
  exposed g a b -> exposed g (med a) (med b) /\ forall i j, in_img (med a) i j -> 0 <= px (med a) i j.
Proof.
  intros (k & win & K) G P (Eh & Ew & E). destruct (K a) as (Ah & Aw & A), (K b) as (Bh & Bw & B). split; [split; [congruence|]; split; [congruence|]|].
  - intros i j I. assert (Ia : in_img a i j) by (unfold in_img in *; lia). assert (Ib : in_img b i j) by (unfold in_img in *; lia).
    destruct (A i j Ia) as [Wa Ra], (B i j Ib) as [Wb Rb]. rewrite Eh, Ew in Rb.
    rewrite (map_ext_in _ (fun p => g (px a (fst p) (snd p)))) in Rb by (intros p Hp; apply E; now apply Wa).
    apply (ranked_increasing (fun p => px a (fst p) (snd p)) g k _ _ _ (fun p q Hp Hq L => ltac:(destruct (Req_dec (px a (fst p) (snd p)) (px a (fst q) (snd q))) as [Q|Q]; [rewrite Q; apply Rle_refl|apply Rlt_le, G; [apply P, Wa, Hp|lra]])) Ra Rb).
  - intros i j I. assert (Ia : in_img a i j) by (unfold in_img in *; lia). destruct (A i j Ia) as [Wa Ra].
    apply ranked_in, in_map_iff in Ra. destruct Ra as (p & <- & Hp). apply P. now apply Wa.
Qed.
Lemma bounds_inside n a : (0 <= n)%Z -> (0 <= slice_bound n a <= n)%Z.
Proof. intros H. unfold slice_bound. destruct (a <? 0)%Z eqn:E; lia. Qed.
Lemma roi_exposed g a b ratio : (0 <= ih a)%Z -> (0 <= iw a)%Z -> exposed g a b -> exposed g (select_roi a ratio false) (select_roi b ratio false).
Proof.
  intros H W (Eh & Ew & E). unfold select_roi, slice2. rewrite Eh, Ew. split; [reflexivity|]. split; [reflexivity|]. intros i j I. cbn [px]. apply E.
  unfold in_img in I. cbn [ih iw] in I. unfold in_img.
  match type of I with context[(slice_bound (ih a) ?y - slice_bound (ih a) ?x)%Z] => pose proof (bounds_inside (ih a) x H); pose proof (bounds_inside (ih a) y H) end.
  match type of I with context[(slice_bound (iw a) ?y - slice_bound (iw a) ?x)%Z] => pose proof (bounds_inside (iw a) x W); pose proof (bounds_inside (iw a) y W) end. lia.
Qed.
(** A threshold finder that follows the change g of brightness. *)
Definition follows (g : R -> R) (otsu : image R -> R) : Prop := forall a b, exposed g a b -> otsu b = g (otsu a).

(** A brighter or darker photograph of the same scene: a strictly increasing
    change of brightness, applied to the given threshold as well, leaves the
    binary picture unchanged; so it does with the automatic threshold, if that
    follows the change.  Values and changed values are brightnesses, not
    negative, where the median filter is used (it is applied to absolute
    values). *)
Theorem C130_exposure : forall median otsu clear opening fill m m' ratio thres denoise g,
  rank_filter median -> pixelwise clear -> pixelwise opening -> pixelwise fill ->
  (0 <= ih m)%Z -> (0 <= iw m)%Z -> exposed g m m' ->
  (forall x y, x < y -> g x < g y) ->
  (denoise = true -> forall i j, in_img m i j -> 0 <= px m i j /\ 0 <= px m' i j) ->
  (thres = None -> follows g otsu) ->
  same_outcome (binarization median otsu clear opening fill m ratio thres denoise)
    (binarization median otsu clear opening fill m' ratio (option_map g thres) denoise).
Proof.
  intros med otsu clear op fill m m' ratio thres dn g K C O F H W E G P T. rewrite !binarization_steps. cbv zeta. apply finish; [exact C|exact O|exact F|]. apply invert_same.
  assert (X : exposed g (compared med dn m) (compared med dn m')).
  { destruct dn; [|exact E]. cbn [compared]. apply exposed_median; [exact K|intros; now apply G|intros i j I; apply Rabs_pos|].
    destruct E as (Eh & Ew & E). split; [exact Eh|]. split; [exact Ew|]. intros i j I. cbn in *. destruct (P eq_refl i j I) as [P1 P2]. rewrite !Rabs_pos_eq by assumption. now apply E. }
  assert (L : level otsu (compared med dn m') ratio (option_map g thres) = g (level otsu (compared med dn m) ratio thres)).
  { destruct thres as [t|]; [reflexivity|]. cbn [level option_map]. apply (T eq_refl). apply roi_exposed; [| |exact X]; (destruct dn; [|assumption]); cbn [compared]; destruct K as (k & win & K); destruct (K (mkimg (ih m) (iw m) (fun i j => Rabs (px m i j)))) as (Y1 & Y2 & _); cbn in Y1, Y2; lia. }
  rewrite L. destruct X as (Eh & Ew & X). split; [now symmetry|]. split; [now symmetry|]. intros i j I. cbn. rewrite (X i j I). set (t := level otsu _ ratio thres). set (v := px (compared med dn m) i j).
  destruct (Rlt_bool_spec t v) as [Q|Q].
  - now rewrite Rlt_bool_true by now apply G.
  - rewrite Rlt_bool_false; [reflexivity|]. destruct Q as [Q| ->]; [apply Rlt_le; now apply G|apply Rle_refl].
Qed.
Print Assumptions C130_exposure.

(** *** Contrast *)
(** How many pixels are brighter than t. *)
Definition bright_pixels (t : R) (m : image R) : R := img_sum (brighter t m).
Lemma half_sum b : img_sum b <> IZR (ih b * iw b) / 2 -> (1 <= ih b)%Z -> (1 <= iw b)%Z -> binary_image b ->
  forall b', img_eq b' (img_map (fun v => 1 - v) b) -> same_outcome (invert_dots_contrast b) (invert_dots_contrast b').
Proof.
  intros NH H W B b' E. assert (B' : binary_image b').
  { intros i j I. destruct E as (Eh & Ew & E). rewrite (E i j I). cbn in *. destruct (B i j ltac:(unfold in_img in *; lia)) as [-> | ->]; [right|left]; ring. }
  assert (S' : img_sum b' = IZR (ih b * iw b) - img_sum b) by (rewrite (img_sum_ext _ _ E); apply complement_sum; lia).
  destruct E as (Eh & Ew & E). cbn in Eh, Ew, E.
  destruct (invert_minority b B H W) as (x & Ex & Bx & Hx & Wx & Sx & Cx). destruct (invert_minority b' B' ltac:(lia) ltac:(lia)) as (y & Ey & By & Hy & Wy & Sy & Cy).
  rewrite Ex, Ey. cbn [same_outcome]. rewrite Eh, Ew in Sy.
  assert (Ib : forall i j, in_img x i j -> in_img b i j /\ in_img b' i j) by (intros i j I; unfold in_img in *; lia).
  split; [congruence|]. split; [congruence|]. intros i j I. destruct (Ib i j I) as [I1 I2].
  destruct Cx as [Cx|Cx], Cy as [Cy|Cy]; rewrite (Cx i j I1), (Cy i j I2), (E i j I2); try ring; exfalso.
  - assert (Es : img_eq x b) by (split; [exact Hx|]; split; [exact Wx|]; intros; apply Cx; unfold in_img in *; lia). rewrite (img_sum_ext _ _ Es) in Sx.
    assert (Es' : img_eq y b') by (split; [exact Hy|]; split; [exact Wy|]; intros; apply Cy; unfold in_img in *; lia). rewrite (img_sum_ext _ _ Es') in Sy. lra.
  - assert (Es : img_eq x (img_map (fun v => 1 - v) b)) by (split; [exact Hx|]; split; [exact Wx|]; intros; apply Cx; unfold in_img in *; lia). rewrite (img_sum_ext _ _ Es), complement_sum in Sx by lia.
    assert (Es' : img_eq y (img_map (fun v => 1 - v) b')) by (split; [exact Hy|]; split; [exact Wy|]; intros; apply Cy; unfold in_img in *; lia). rewrite (img_sum_ext _ _ Es'), complement_sum in Sy by lia. rewrite Eh, Ew in Sy. lra.
Qed.
(** Dark dots on a bright ground or bright dots on a dark ground: the negative
    of a photograph, with the threshold taken from the negative as well, gives
    the same binary picture, unless a pixel is exactly at the threshold or
    exactly half of the pixels are bright.  The median filter is not applied
    here (see below). *)
Theorem C130_contrast : forall median otsu clear opening fill m m' ratio thres c,
  pixelwise clear -> pixelwise opening -> pixelwise fill -> (1 <= ih m)%Z -> (1 <= iw m)%Z ->
  exposed (fun v => c - v) m m' ->
  let t := level otsu m ratio thres in
  (thres = None -> follows (fun v => c - v) otsu) ->
  (forall i j, in_img m i j -> px m i j <> t) -> bright_pixels t m <> IZR (ih m * iw m) / 2 ->
  same_outcome (binarization median otsu clear opening fill m ratio thres false)
    (binarization median otsu clear opening fill m' ratio (option_map (fun v => c - v) thres) false).
Proof.
  intros med otsu clear op fill m m' ratio thres c C O F H W E t T N NH. rewrite !binarization_steps. cbv zeta. apply finish; [exact C|exact O|exact F|]. cbn [compared].
  assert (L : level otsu m' ratio (option_map (fun v => c - v) thres) = c - t).
  { subst t. destruct thres as [t|]; [reflexivity|]. cbn [level option_map] in *. apply (T eq_refl (select_roi m ratio false)). apply roi_exposed; [lia|lia|exact E]. }
  rewrite L. fold t. apply half_sum; [exact NH|exact H|exact W|apply binary_brighter|]. destruct E as (Eh & Ew & E). split; [exact Eh|]. split; [exact Ew|]. intros i j I. cbn in *.
  assert (I' : in_img m i j) by (unfold in_img in *; cbn in *; lia). rewrite (E i j I'). specialize (N i j I').
  destruct (Rlt_bool_spec t (px m i j)) as [Q|Q]; [rewrite Rlt_bool_false by lra|rewrite Rlt_bool_true by lra]; ring.
Qed.
Print Assumptions C130_contrast.

(** The exception for exactly half of the pixels is needed. *)
Theorem C130_contrast_half_refuted : exists m m' c t, exposed (fun v => c - v) m m' /\ (1 <= ih m)%Z /\ (1 <= iw m)%Z /\
  (forall i j, in_img m i j -> px m i j <> t) /\
  ~ same_outcome (binarization idf (fun _ => 0) idf idf idf m 1 (Some t) false) (binarization idf (fun _ => 0) idf idf idf m' 1 (Some (c - t)) false).
Proof.
  exists (mkimg 1 2 (fun _ j => if (j =? 0)%Z then 2 else 0)), (mkimg 1 2 (fun _ j => if (j =? 0)%Z then 0 else 2)), 2, 1.
  split. { split; [reflexivity|]. split; [reflexivity|]. intros i j I. cbn. destruct (j =? 0)%Z; ring. }
  split; [cbn; lia|]. split; [cbn; lia|]. split. { intros i j I. cbn. destruct (j =? 0)%Z; lra. }
  intros S. rewrite !binarization_steps in S. cbv zeta in S. cbn [compared level] in S.
  assert (Q : forall u v t, Rlt_bool t u = true -> Rlt_bool t v = false ->
    invert_dots_contrast (brighter t (mkimg 1 2 (fun _ j => if (j =? 0)%Z then u else v))) = Ok (brighter t (mkimg 1 2 (fun _ j => if (j =? 0)%Z then u else v))) /\
    invert_dots_contrast (brighter t (mkimg 1 2 (fun _ j => if (j =? 0)%Z then v else u))) = Ok (brighter t (mkimg 1 2 (fun _ j => if (j =? 0)%Z then v else u)))).
  { intros u v t U V. split; unfold invert_dots_contrast; rewrite sum_pixels;
    (replace (img_sum _) with 1 by (unfold img_sum, sumZ; cbn [brighter ih iw px]; change (Z.to_nat 1) with 1%nat; change (Z.to_nat 2) with 2%nat; cbn [sum_n]; change (Z.of_nat 0) with 0%Z; change (Z.of_nat 1) with 1%Z; cbn [Z.eqb]; rewrite U, V; ring));
    unfold pixels; cbn [brighter ih iw]; cbn [namax grid map flat_map zrange]; cbn [bind]; change (nofZ (1 * 2)) with 2; change (@nofQ R Rex 1 2) with (1 / 2);
    (match goal with |- context[(?a <?! ?b)%num] => replace (a <?! b)%num with false by (symmetry; apply Rlt_bool_false; cbn; lra) end); reflexivity. }
  destruct (Q 2 0 1 ltac:(apply Rlt_bool_true; lra) ltac:(apply Rlt_bool_false; lra)) as [Q1 _]. destruct (Q 2 0 (2 - 1) ltac:(apply Rlt_bool_true; lra) ltac:(apply Rlt_bool_false; lra)) as [_ Q2].
  rewrite Q1, Q2 in S. destruct S as (_ & _ & S). specialize (S 0 0 ltac:(unfold in_img; cbn; lia))%Z. cbn in S. rewrite Rlt_bool_true in S by lra. rewrite Rlt_bool_false in S by lra. lra.
Qed.
Print Assumptions C130_contrast_half_refuted.

(** A median filter on squares of two by two pixels (the pixel, the one above,
    the one to the left and the one above that, edges repeated): the third
    smallest of the four values. *)
Definition square (h w i j : Z) : list (Z * Z) :=
  [(Z.max 0 (i - 1), Z.max 0 (j - 1)); (Z.max 0 (i - 1), j); (i, Z.max 0 (j - 1)); (i, j)]%Z.
Definition median_2x2 (f : image R -> image R) : Prop :=
  forall m, ih (f m) = ih m /\ iw (f m) = iw m /\
    forall i j, in_img m i j -> ranked 2 (map (fun p => px m (fst p) (snd p)) (square (ih m) (iw m) i j)) (px (f m) i j).
Lemma median_rank f : median_2x2 f -> rank_filter f.
Proof.
  intros M. exists 2%nat, square. intros m. destruct (M m) as (H & W & P). split; [exact H|]. split; [exact W|]. intros i j I. split; [|now apply P].
  intros p [<-|[<-|[<-|[<-|[]]]]]; unfold in_img in *; cbn; lia.
Qed.
Fixpoint insert (x : R) (l : list R) : list R := match l with [] => [x] | y :: l' => if Rle_bool x y then x :: l else y :: insert x l' end.
Definition rsort (l : list R) : list R := fold_right insert [] l.
Lemma insert_perm x l : Permutation (insert x l) (x :: l).
Proof. induction l as [|y l IH]; [reflexivity|]. cbn. destruct (Rle_bool x y); [reflexivity|]. rewrite IH. apply perm_swap. Qed.
Lemma insert_sorted x l : StronglySorted Rle l -> StronglySorted Rle (insert x l).
Proof.
  induction l as [|y l IH]; intros S; cbn; [now repeat constructor|]. pose proof (StronglySorted_inv S) as [S' F]. destruct (Rle_bool_spec x y) as [L|L].
  - constructor; [exact S|]. constructor; [exact L|]. eapply Forall_impl; [|exact F]. cbn. intros; lra.
  - constructor; [now apply IH|]. apply Forall_forall. intros z Hz. apply (Permutation_in _ (insert_perm x l)) in Hz. rewrite Forall_forall in F. destruct Hz as [<-|Hz]; [lra|now apply F].
Qed.
Lemma rsort_ok l : Permutation (rsort l) l /\ StronglySorted Rle (rsort l).
Proof.
  induction l as [|x l [P S]]; [split; constructor|]. cbn [rsort fold_right]. fold (rsort l). split; [|now apply insert_sorted]. rewrite insert_perm. now constructor.
Qed.
Lemma median_exists : exists f, median_2x2 f.
Proof.
  exists (fun m => mkimg (ih m) (iw m) (fun i j => nth 2 (rsort (map (fun p => px m (fst p) (snd p)) (square (ih m) (iw m) i j))) 0)).
  intros m. split; [reflexivity|]. split; [reflexivity|]. intros i j I. cbn [px]. destruct (rsort_ok (map (fun p => px m (fst p) (snd p)) (square (ih m) (iw m) i j))) as [P S].
  exists (rsort (map (fun p => px m (fst p) (snd p)) (square (ih m) (iw m) i j))). split; [exact P|]. split; [exact S|]. apply nth_error_nth'. rewrite (Permutation_length P). cbn. lia.
Qed.

Lemma third_of x y v : x < y -> ranked 2 [x; y; x; y] v -> v = y.
Proof.
  intros L K. assert (I := ranked_in _ _ _ K). assert (U := ranked_upto _ _ _ K). destruct I as [<-|[<-|[<-|[<-|[]]]]]; try reflexivity; exfalso; revert U; unfold upto; cbn;
  rewrite !(Rle_bool_true x x) by lra; rewrite !(Rle_bool_false y x) by lra; cbn; lia.
Qed.
Lemma third_of' x y v : x < y -> ranked 2 [y; x; y; x] v -> v = y.
Proof.
  intros L (s & P & S). apply (third_of x y v L). exists s. split; [|exact S]. rewrite P. change [y; x; y; x] with ([y] ++ [x; y; x]). apply Permutation_app_comm.
Qed.
Lemma third_same x v : ranked 2 [x; x; x; x] v -> v = x.
Proof. intros K. apply ranked_in in K. destruct K as [<-|[<-|[<-|[<-|[]]]]]; reflexivity. Qed.

(** With the median filter the negative need not give the same picture: with
    an even number of values, the filter takes the upper of the two middle
    ones, so that bright dots grow and dark dots shrink. *)
Theorem C130_contrast_denoise_refuted : exists m m' c t, exposed (fun v => c - v) m m' /\ (1 <= ih m)%Z /\ (1 <= iw m)%Z /\
  (forall i j, in_img m i j -> 0 <= px m i j <= c /\ px m i j <> t) /\ bright_pixels t m < IZR (ih m * iw m) / 2 /\
  forall median, median_2x2 median -> bright_pixels t (median m) < IZR (ih m * iw m) / 2 /\
  ~ same_outcome (binarization median (fun _ => 0) idf idf idf m 1 (Some t) true) (binarization median (fun _ => 0) idf idf idf m' 1 (Some (c - t)) true).
Proof.
  exists (mkimg 1 5 (fun _ j => if (j =? 2)%Z then 4 else 0)), (mkimg 1 5 (fun _ j => if (j =? 2)%Z then 0 else 4)), 4, 2.
  assert (S5 : forall m, ih m = 1%Z -> iw m = 5%Z -> img_sum m = px m 0 0 + px m 0 1 + px m 0 2 + px m 0 3 + px m 0 4).
  { intros m Eh Ew. unfold img_sum. rewrite Eh, Ew. unfold sumZ. change (Z.to_nat 1) with 1%nat. change (Z.to_nat 5) with 5%nat. cbn [sum_n].
    change (Z.of_nat 0) with 0%Z. change (Z.of_nat 1) with 1%Z. change (Z.of_nat 2) with 2%Z. change (Z.of_nat 3) with 3%Z. change (Z.of_nat 4) with 4%Z. ring. }
  split. { split; [reflexivity|]. split; [reflexivity|]. intros i j I. cbn. destruct (j =? 2)%Z; ring. }
  split; [cbn; lia|]. split; [cbn; lia|]. split. { intros i j I. cbn. destruct (j =? 2)%Z; split; lra. }
  split. { unfold bright_pixels. rewrite S5 by reflexivity. cbn -[IZR]. rewrite !(Rlt_bool_true 2 4) by lra. rewrite !(Rlt_bool_false 2 0) by lra. lra. }
  intros med M.
  set (a := mkimg 1 5 (fun _ j => if (j =? 2)%Z then 4 else 0)). set (b := mkimg 1 5 (fun _ j => if (j =? 2)%Z then 0 else 4)).
  assert (W : forall m, ih m = 1%Z -> iw m = 5%Z -> ih (med m) = 1%Z /\ iw (med m) = 5%Z /\ forall j, (0 <= j < 5)%Z -> ranked 2 (map (fun p => px m (fst p) (snd p)) (square 1 5 0 j)) (px (med m) 0 j)).
  { intros m H5 W5. destruct (M m) as (H & W & P). split; [congruence|]. split; [congruence|]. intros j Hj. rewrite <- H5, <- W5 at 1. apply P. unfold in_img. lia. }
  assert (Va : forall m, ih m = 1%Z -> iw m = 5%Z -> (forall j, px m 0 j = if (j =? 2)%Z then 4 else 0) ->
    px (med m) 0 0 = 0 /\ px (med m) 0 1 = 0 /\ px (med m) 0 2 = 4 /\ px (med m) 0 3 = 4 /\ px (med m) 0 4 = 0).
  { intros m H5 W5 Pm. destruct (W m H5 W5) as (_ & _ & K). pose proof (K 0 ltac:(lia))%Z as K0. pose proof (K 1 ltac:(lia))%Z as K1. pose proof (K 2 ltac:(lia))%Z as K2. pose proof (K 3 ltac:(lia))%Z as K3. pose proof (K 4 ltac:(lia))%Z as K4.
    cbn -[IZR] in K0, K1, K2, K3, K4. repeat rewrite Pm in K0; repeat rewrite Pm in K1; repeat rewrite Pm in K2; repeat rewrite Pm in K3; repeat rewrite Pm in K4. cbn -[IZR] in K0, K1, K2, K3, K4.
    split; [now apply third_same in K0|]. split; [now apply third_same in K1|]. split; [apply (third_of 0 4); [lra|exact K2]|]. split; [apply (third_of' 0 4); [lra|exact K3]|now apply third_same in K4]. }
  assert (Vb : forall m, ih m = 1%Z -> iw m = 5%Z -> (forall j, px m 0 j = if (j =? 2)%Z then 0 else 4) ->
    px (med m) 0 0 = 4 /\ px (med m) 0 1 = 4 /\ px (med m) 0 2 = 4 /\ px (med m) 0 3 = 4 /\ px (med m) 0 4 = 4).
  { intros m H5 W5 Pm. destruct (W m H5 W5) as (_ & _ & K). pose proof (K 0 ltac:(lia))%Z as K0. pose proof (K 1 ltac:(lia))%Z as K1. pose proof (K 2 ltac:(lia))%Z as K2. pose proof (K 3 ltac:(lia))%Z as K3. pose proof (K 4 ltac:(lia))%Z as K4.
    cbn -[IZR] in K0, K1, K2, K3, K4. repeat rewrite Pm in K0; repeat rewrite Pm in K1; repeat rewrite Pm in K2; repeat rewrite Pm in K3; repeat rewrite Pm in K4. cbn -[IZR] in K0, K1, K2, K3, K4.
    split; [now apply third_same in K0|]. split; [now apply third_same in K1|]. split; [apply (third_of' 0 4); [lra|exact K2]|]. split; [apply (third_of 0 4); [lra|exact K3]|now apply third_same in K4]. }
  split.
  { destruct (Va a eq_refl eq_refl (fun j => eq_refl)) as (A0 & A1 & A2 & A3 & A4). destruct (W a eq_refl eq_refl) as (Wh & Ww & _).
    unfold bright_pixels. rewrite S5 by assumption. cbn -[IZR]. rewrite A0, A1, A2, A3, A4. rewrite !(Rlt_bool_true 2 4) by lra. rewrite !(Rlt_bool_false 2 0) by lra. lra. }
  intros S. rewrite !binarization_steps in S. cbv zeta in S. cbn [compared level] in S.
  set (a' := mkimg (ih a) (iw a) (fun i j => Rabs (px a i j))) in *. set (b' := mkimg (ih b) (iw b) (fun i j => Rabs (px b i j))) in *.
  assert (Pa : forall j, px a' 0 j = if (j =? 2)%Z then 4 else 0) by (intros j; cbn; destruct (j =? 2)%Z; apply Rabs_pos_eq; lra).
  assert (Pb : forall j, px b' 0 j = if (j =? 2)%Z then 0 else 4) by (intros j; cbn; destruct (j =? 2)%Z; apply Rabs_pos_eq; lra).
  destruct (Va a' eq_refl eq_refl Pa) as (A0 & A1 & A2 & A3 & A4). destruct (W a' eq_refl eq_refl) as (Ah & Aw & _).
  destruct (Vb b' eq_refl eq_refl Pb) as (B0 & B1 & B2 & B3 & B4). destruct (W b' eq_refl eq_refl) as (Bh & Bw & _).
  destruct (invert_minority (brighter 2 (med a')) (binary_brighter _ _) ltac:(cbn; lia) ltac:(cbn; lia)) as (x & Ex & Bx & Hx & Wx & Sx & Cx).
  destruct (invert_minority (brighter (4 - 2) (med b')) (binary_brighter _ _) ltac:(cbn; lia) ltac:(cbn; lia)) as (y & Ey & By & Hy & Wy & Sy & Cy).
  rewrite Ex, Ey in S. cbn [bind same_outcome] in S. destruct S as (_ & _ & S). unfold idf in S. cbn [ih iw brighter] in Hx, Wx, Hy, Wy, Sx, Sy.
  rewrite Ah in Hx. rewrite Aw in Wx. rewrite Bh in Hy. rewrite Bw in Wy. rewrite Ah, Aw in Sx. rewrite Bh, Bw in Sy. change (IZR (1 * 5)) with 5 in Sx, Sy.
  rewrite S5 in Sx, Sy by assumption.
  assert (I : forall j, (0 <= j < 5)%Z -> in_img x 0 j /\ in_img (brighter 2 (med a')) 0 j /\ in_img (brighter (4 - 2) (med b')) 0 j) by (intros j Hj; unfold in_img; cbn [brighter ih iw]; rewrite Hx, Wx, Ah, Aw, Bh, Bw; lia).
  assert (T : Rlt_bool 2 4 = true /\ Rlt_bool 2 0 = false /\ Rlt_bool (4 - 2) 4 = true) by (split; [apply Rlt_bool_true; lra|]; split; [apply Rlt_bool_false; lra|apply Rlt_bool_true; lra]). destruct T as (T1 & T2 & T3).
  pose proof (S 0 2 (proj1 (I 2 ltac:(lia))))%Z as S2. pose proof (S 0 0 (proj1 (I 0 ltac:(lia))))%Z as S0.
  assert (X : forall j, (0 <= j < 5)%Z -> in_img (brighter 2 (med a')) 0 j) by (intros j Hj; apply I, Hj). assert (Y : forall j, (0 <= j < 5)%Z -> in_img (brighter (4 - 2) (med b')) 0 j) by (intros j Hj; apply I, Hj).
  destruct Cx as [Cx|Cx], Cy as [Cy|Cy];
  pose proof (Cx 0 0 (X 0 ltac:(lia)))%Z as X0; pose proof (Cx 0 1 (X 1 ltac:(lia)))%Z as X1; pose proof (Cx 0 2 (X 2 ltac:(lia)))%Z as X2; pose proof (Cx 0 3 (X 3 ltac:(lia)))%Z as X3; pose proof (Cx 0 4 (X 4 ltac:(lia)))%Z as X4;
  pose proof (Cy 0 0 (Y 0 ltac:(lia)))%Z as Y0; pose proof (Cy 0 1 (Y 1 ltac:(lia)))%Z as Y1; pose proof (Cy 0 2 (Y 2 ltac:(lia)))%Z as Y2; pose proof (Cy 0 3 (Y 3 ltac:(lia)))%Z as Y3; pose proof (Cy 0 4 (Y 4 ltac:(lia)))%Z as Y4;
  cbn [brighter px] in X0, X1, X2, X3, X4, Y0, Y1, Y2, Y3, Y4; rewrite A0, T2 in X0; rewrite A1, T2 in X1; rewrite A2, T1 in X2; rewrite A3, T1 in X3; rewrite A4, T2 in X4;
  rewrite B0, T3 in Y0; rewrite B1, T3 in Y1; rewrite B2, T3 in Y2; rewrite B3, T3 in Y3; rewrite B4, T3 in Y4; lra.
Qed.
Print Assumptions C130_contrast_denoise_refuted.

(** *** The dots that are found *)
(** A labelling that only looks at the pixels inside the picture, and labels
    just these. *)
Definition labels_pixels (label : image R -> image Z * Z) : Prop :=
  (forall a, ih (fst (label a)) = ih a /\ iw (fst (label a)) = iw a) /\
  (forall a b, img_eq a b -> img_eq (fst (label a)) (fst (label b)) /\ snd (label a) = snd (label b)).
Lemma region_same (a b : image Z) k : img_eq a b -> region a k = region b k.
Proof.
  intros (Eh & Ew & E). unfold region. rewrite <- Eh, <- Ew. apply filter_ext_in. intros [i j] I. apply PostImg.in_grid in I. cbn. now rewrite E by (unfold in_img; lia).
Qed.
Lemma centers_same a b (la lb : image Z) n : img_eq a b -> img_eq la lb -> ih la = ih a -> iw la = iw a -> centers a la n = centers b lb n.
Proof.
  intros (Eh & Ew & E) L Lh Lw. unfold centers. apply map_ext. intros k. unfold center_of_mass, label_sum. rewrite <- (region_same la lb k L).
  assert (P : forall p, In p (region la k) -> px a (fst p) (snd p) = px b (fst p) (snd p)).
  { intros [i j] I. apply filter_In in I. destruct I as [I _]. apply PostImg.in_grid in I. apply E. unfold in_img. cbn. lia. }
  rewrite (map_ext_in (fun p => px a (fst p) (snd p)) (fun p => px b (fst p) (snd p)) _ P).
  apply f_equal2; (apply f_equal2; [|reflexivity]); f_equal; apply map_ext_in; intros p I; now rewrite (P p I).
Qed.
(** The same binary picture gives the same list of dot centres. *)
Theorem C130_points : forall label bin bin' m m', labels_pixels label -> same_outcome (bin m) (bin' m') ->
  get_points_dot_pattern label bin m true = get_points_dot_pattern label bin' m' true.
Proof.
  intros label bin bin' m m' (Ls & Lc) S. unfold get_points_dot_pattern. destruct (bin m) as [a|e], (bin' m') as [b|e']; cbn [bind same_outcome] in *; try contradiction; [|congruence].
  pose proof (Ls (@to_int16 R Rex a)) as Sa. pose proof (Lc _ _ (Props_Symm.map_img_eq (fun v => nofZ (wrap16 (ntrunc v))) a b S)) as [E1 E2]. change (img_map _ a) with (@to_int16 R Rex a) in E1, E2. change (img_map _ b) with (@to_int16 R Rex b) in E1, E2.
  destruct (label (to_int16 a)) as [la na], (label (to_int16 b)) as [lb nb]. cbn [fst snd] in *. subst nb. f_equal. apply centers_same; [exact S|exact E1|apply Sa|apply Sa].
Qed.
Print Assumptions C130_points.
(** So the dots found in a photograph are the dots found in a noisy one. *)
Theorem C130_noise_points : forall label median otsu clear opening fill m m' ratio thres thres' e,
  labels_pixels label -> rank_filter median -> pixelwise clear -> pixelwise opening -> pixelwise fill -> within e m m' ->
  clear_of e (level otsu (compared median true m) ratio thres) (level otsu (compared median true m') ratio thres') (compared median true m) ->
  get_points_dot_pattern label (fun im => binarization median otsu clear opening fill im ratio thres true) m true =
  get_points_dot_pattern label (fun im => binarization median otsu clear opening fill im ratio thres' true) m' true.
Proof. intros label med otsu clear op fill m m' ratio thres thres' e L K C O F W S. apply C130_points; [exact L|]. now apply (C130_noise med otsu clear op fill m m' ratio thres thres' true e). Qed.
Print Assumptions C130_noise_points.

(** *** Cases *)
(** A picture with a bright square, and a noisy version of it; the median
    filter is the one of two by two pixels. *)
Definition square_img : image R := mkimg 6 6 (fun i j => if ((2 <=? i) && (i <=? 3) && (2 <=? j) && (j <=? 3))%Z then 100 else 10).
Definition noisy_img : image R := mkimg 6 6 (fun i j => px square_img i j + (if (Z.even (i + j)) then 8 else -8)).
Lemma two_valued med : median_2x2 med -> forall m x y, (forall i j, px m i j = x \/ px m i j = y) -> forall i j, in_img (med m) i j -> px (med m) i j = x \/ px (med m) i j = y.
Proof.
  intros M m x y P i j I. destruct (M m) as (H & W & K). assert (I' : in_img m i j) by (unfold in_img in *; lia). specialize (K i j I'). apply ranked_in, in_map_iff in K. destruct K as (p & <- & _). apply P.
Qed.
Example C130_noise_ex : exists med, median_2x2 med /\
  within 8 square_img noisy_img /\ clear_of 8 (level (fun _ => 0) (compared med true square_img) 1 (Some 50)) (level (fun _ => 0) (compared med true noisy_img) 1 (Some 60)) (compared med true square_img) /\
  same_outcome (binarization med (fun _ => 0) idf idf idf square_img 1 (Some 50) true) (binarization med (fun _ => 0) idf idf idf noisy_img 1 (Some 60) true).
Proof.
  destruct median_exists as [med M]. exists med. split; [exact M|].
  assert (W : within 8 square_img noisy_img).
  { split; [reflexivity|]. split; [reflexivity|]. intros i j I. unfold noisy_img. cbn [px]. destruct (Z.even (i + j)); apply Rabs_le; lra. }
  assert (C : clear_of 8 (level (fun _ => 0) (compared med true square_img) 1 (Some 50)) (level (fun _ => 0) (compared med true noisy_img) 1 (Some 60)) (compared med true square_img)).
  { cbn [level compared]. intros i j I. set (a := mkimg (ih square_img) _ _) in *.
    assert (P : forall i j, px a i j = 100 \/ px a i j = 10) by (intros i' j'; cbn; destruct (_ && _)%bool; [left|right]; apply Rabs_pos_eq; lra).
    destruct (two_valued med M a 100 10 P i j I) as [-> | ->]; [right|left]; lra. }
  split; [exact W|]. split; [exact C|].
  assert (D : pixelwise idf) by (intros x y E; exact E). apply (C130_noise med (fun _ => 0) idf idf idf square_img noisy_img 1 (Some 50) (Some 60) true 8 (median_rank med M) D D D W C).
Qed.
(** The same picture twice as bright, and its negative. *)
Example C130_exposure_ex : exists med, median_2x2 med /\
  same_outcome (binarization med (fun _ => 0) idf idf idf square_img 1 (Some 50) true)
    (binarization med (fun _ => 0) idf idf idf (img_map (fun v => 2 * v + 1) square_img) 1 (Some (2 * 50 + 1)) true).
Proof.
  destruct median_exists as [med M]. exists med. split; [exact M|]. assert (D : pixelwise idf) by (intros x y E; exact E).
  apply (C130_exposure med (fun _ => 0) idf idf idf square_img _ 1 (Some 50) true (fun v => 2 * v + 1) (median_rank med M) D D D); try (cbn; lia); try discriminate.
  - split; [reflexivity|]. split; [reflexivity|]. intros; reflexivity.
  - intros; lra.
  - intros _ i j I. cbn. destruct (_ && _)%bool; lra.
Qed.
(** The negative, with one bright pixel among three and with the middle of the
    first two values as the automatic threshold. *)
Example C130_contrast_ex :
  let m := mkimg 1 3 (fun _ j => if (j =? 0)%Z then 100 else 10) in
  let otsu := fun a : image R => if ((1 <=? ih a) && (2 <=? iw a))%Z then (px a 0 0 + px a 0 1) / 2 else 55 in
  follows (fun v => 110 - v) otsu /\ bright_pixels (level otsu m 1 None) m <> IZR (ih m * iw m) / 2 /\
  same_outcome (binarization idf otsu idf idf idf m 1 None false) (binarization idf otsu idf idf idf (img_map (fun v => 110 - v) m) 1 None false).
Proof.
  intros m otsu. assert (D : pixelwise idf) by (intros x y E; exact E).
  assert (F : follows (fun v => 110 - v) otsu).
  { intros a b (Eh & Ew & E). unfold otsu. rewrite Eh, Ew. destruct ((1 <=? ih a) && (2 <=? iw a))%Z eqn:Q; [|lra]. apply andb_prop in Q. destruct Q as [Q1 Q2]. apply Z.leb_le in Q1, Q2. rewrite !E by (unfold in_img; lia). lra. }
  assert (S3 : img_eq (select_roi m 1 false) m).
  { unfold select_roi. replace (nclip 1 (nofQ 5 100) n1) with 1.
    2:{ symmetry. refine (eq_trans (nclip_R (fun x => x) 1 (nofQ 5 100) n1 _) _); [cbn; lra|]. unfold clamp, Rmin, Rmax. cbn. repeat destruct Rle_dec; lra. }
    cbn [ih iw m]. change (nofZ 1) with 1. change (nofZ 3) with 3. change (nofZ 2) with 2.
    replace ((1 -! 1 *! 1) /! 2)%num with 0 by (cbn; field). replace ((3 -! 1 *! 3) /! 2)%num with 0 by (cbn; field). cbn [ntrunc Rex Rnum]. rewrite Ztrunc_IZR. split; [reflexivity|]. split; [reflexivity|]. intros i j I. reflexivity. }
  assert (L : level otsu m 1 None = 55).
  { destruct S3 as (Eh & Ew & E). cbn [level]. unfold otsu. rewrite Eh, Ew. cbn [m ih iw]. cbn [Z.leb Z.compare andb]. change ((1 <=? 1) && (2 <=? 3))%Z with true. cbv iota. rewrite !E by (unfold in_img; rewrite Eh, Ew; cbn; lia). cbn -[IZR]. field. }
  assert (B : bright_pixels (level otsu m 1 None) m <> IZR (ih m * iw m) / 2).
  { rewrite L. unfold bright_pixels. rewrite sum13 by reflexivity. cbn -[IZR]. rewrite (Rlt_bool_true 55 100) by lra. rewrite !(Rlt_bool_false 55 10) by lra. change (IZR (1 * 3)) with 3. lra. }
  split; [exact F|]. split; [exact B|].
  apply (C130_contrast idf otsu idf idf idf m _ 1 None 110 D D D ltac:(cbn; lia) ltac:(cbn; lia)); [|intros _; exact F| |exact B].
  - split; [reflexivity|]. split; [reflexivity|]. intros; reflexivity.
  - intros i j I. rewrite L. cbn. destruct (j =? 0)%Z; lra.
Qed.
