(** C124: the measurements on the dots follow the photograph however it is
    held.  Vocabulary: SymFacts.v (motions), PrepSpec.v (labelled dots). *)
From Coq Require Import Reals ZArith List Lra Lia Bool Permutation Sorting.Sorted.
From Verif Require Import Base Num Img Post Spec NumFacts PrepSpec DotSpec PrepImg PrepImgFacts PrepImgFacts2 PrepImgFacts3 PrepImgFacts4 PrepEx DotFacts PrepFacts4 SymFacts.
From Verif Require Import Util UtilFacts Props_Util ChainFacts.
From Verif Require Props_Prep Props_Dots Props_Chain PolyRowsFacts.
Import ListNotations.
Local Open Scope R_scope.
Local Existing Instance Rex.

Lemma moved_in ms (m : image R) : Forall frame_ok ms -> seen 0 (gm (affs ms (ih m) (iw m))) m (moves 0 ms m).
Proof. apply seen_moves. Qed.
Lemma binary_moved ms m : Forall frame_ok ms -> binary_image m -> binary_image (moves 0 ms m).
Proof.
  intros F B i j I. destruct (moved_in ms m F) as [A C]. destruct (C (i, j) I) as [Z|[p [Ip E]]]; [now left|].
  destruct (A p Ip) as [_ X]. rewrite E in X. cbn in X. rewrite X. now apply B.
Qed.
Lemma int16_moved ms m : Forall frame_ok ms -> int16_image m -> int16_image (moves 0 ms m).
Proof.
  intros F B i j I. destruct (moved_in ms m F) as [A C]. destruct (C (i, j) I) as [Z|[p [Ip E]]]; [exists 0%Z; split; [lia|exact Z]|].
  destruct (A p Ip) as [_ X]. rewrite E in X. cbn in X. rewrite X. now apply B.
Qed.
Lemma value_moved ms m v : Forall frame_ok ms -> (exists i j, in_img m i j /\ px m i j = v) -> exists i j, in_img (moves 0 ms m) i j /\ px (moves 0 ms m) i j = v.
Proof.
  intros F [i [j [I E]]]. destruct (moved_in ms m F) as [A _]. destruct (A (i, j) I) as [I' X]. eexists. eexists. split; [exact I'|]. rewrite X. exact E.
Qed.

(** *** Dots *)
Theorem C124_points : forall label binarize ms m lab n lab' n', Forall frame_ok ms -> binary_image m ->
  (exists i j, in_img m i j /\ px m i j = 1) -> (exists i j, in_img m i j /\ px m i j = 0) ->
  let m' := moves 0 ms m in
  label (to_int16 m) = (lab, n) -> labelling m lab n -> label (to_int16 m') = (lab', n') -> labelling m' lab' n' ->
  exists pts pts', get_points_dot_pattern label binarize m false = Ok pts /\ get_points_dot_pattern label binarize m' false = Ok pts' /\
    Permutation pts' (map (moves_dot ms (ih m) (iw m)) pts).
Proof.
  intros label bin ms m lab n lab' n' F B H1 H0 m' El HL El' HL'. set (c := affs ms (ih m) (iw m)).
  pose proof (affs_units ms (ih m) (iw m)) as Un. pose proof (moved_in ms m F) as Sn. fold c m' in Un, Sn.
  assert (P0 : forall i j, in_img m i j -> 0 <= px m i j) by (intros i j I; destruct (B i j I) as [-> | ->]; lra).
  do 2 eexists. split; [now apply (get_points_ok label bin m lab n)|]. split.
  - apply (get_points_ok label bin m' lab' n'); auto; [now apply binary_moved|now apply value_moved|now apply value_moved].
  - destruct (same_perm c m m' lab lab' n n' Un Sn HL HL') as [ks [P Q]]. rewrite (Permutation_map _ P), map_map.
    erewrite <- (Forall2_map_eq _ _ _ _ _ Q); [apply Permutation_refl|]. intros k k' X. cbv beta.
    rewrite (centroid_moved c m m' lab lab' n n' Un Sn HL HL' P0 k k' X). symmetry. apply affs_dot.
Qed.
Print Assumptions C124_points.
Theorem C124_number : forall label ms (m : image R) lab n lab' n', Forall frame_ok ms -> let m' := moves 0 ms m in
  label m = (lab, n) -> labelling m lab n -> label m' = (lab', n') -> labelling m' lab' n' ->
  check_num_dots label m' = check_num_dots label m.
Proof.
  intros label ms m lab n lab' n' F m' El HL El' HL'. unfold check_num_dots. rewrite El, El'. cbn [snd].
  now rewrite (same_number _ m m' lab lab' n n' (affs_units ms (ih m) (iw m)) (moved_in ms m F) HL HL').
Qed.
Print Assumptions C124_number.

(** *** Selections *)
Lemma selected_moved ms m out out' lab n lab' n' (acc acc' : Z -> Prop) : Forall frame_ok ms -> let m' := moves 0 ms m in
  labelling m lab n -> labelling m' lab' n' ->
  (forall k k', same_dot (affs ms (ih m) (iw m)) m lab lab' k k' -> acc k <-> acc' k') ->
  (ih out = ih m /\ iw out = iw m /\ forall i j, in_img m i j ->
    (px out i j = px m i j /\ exists k, (1 <= k <= n)%Z /\ acc k /\ in_hull lab k i j) \/
    (px out i j = 0 /\ ~ exists k, (1 <= k <= n)%Z /\ acc k /\ in_hull lab k i j)) ->
  (ih out' = ih m' /\ iw out' = iw m' /\ forall i j, in_img m' i j ->
    (px out' i j = px m' i j /\ exists k, (1 <= k <= n')%Z /\ acc' k /\ in_hull lab' k i j) \/
    (px out' i j = 0 /\ ~ exists k, (1 <= k <= n')%Z /\ acc' k /\ in_hull lab' k i j)) ->
  img_eq out' (moves 0 ms out).
Proof.
  intros F m' HL HL' HA [E1 [E2 O]] [E1' [E2' O']]. set (c := affs ms (ih m) (iw m)) in *.
  pose proof (affs_units ms (ih m) (iw m)) as Un. pose proof (moved_in ms m F) as Sn. fold c m' in Un, Sn.
  pose proof (moved_in ms out F) as So. rewrite E1, E2 in So. fold c in So.
  destruct (moves_size 0 ms (ih m) (iw m) m eq_refl eq_refl R 0 out E1 E2) as [D1 D2]. fold m' in D1, D2.
  apply (seen_unique 0 (gm c) out); [|exact So|congruence|congruence]. destruct Sn as [A B]. split.
  - intros [i j] I. assert (I0 : in_img m i j) by (unfold in_img in *; cbn [fst snd] in I; lia). destruct (A (i, j) I0) as [I' E]. cbn [fst snd] in *.
    split; [unfold in_img in *; lia|]. destruct (O i j I0) as [[X1 [k [K [Ak Hk]]]]|[X1 N]], (O' _ _ I') as [[Y1 [k' [K' [Ak' Hk']]]]|[Y1 N']].
    + congruence.
    + exfalso. apply N'. destruct (same_total c m m' lab lab' n n' (conj A B) HL HL' k K) as [k' [K' Xk]]. exists k'. split; [exact K'|]. split; [now apply (HA k k')|].
      now apply (hull_moved c m m' lab lab' n n' Un (conj A B) HL HL' k k' i j Xk).
    + exfalso. apply N. destruct (same_onto c m m' lab lab' n n' (conj A B) HL HL' k' K') as [k [K Xk]]. exists k. split; [exact K|]. split; [now apply (HA k k')|].
      now apply (hull_moved c m m' lab lab' n n' Un (conj A B) HL HL' k k' i j Xk).
    + congruence.
  - intros [i j] I. assert (I0 : in_img m' i j) by (unfold in_img in *; cbn [fst snd] in I; lia). destruct (B (i, j) I0) as [Z|[p [Ip Ep]]]; cbn [fst snd] in *.
    + left. destruct (O' i j I0) as [[X _]|[X _]]; congruence.
    + right. exists p. split; [unfold in_img in *; lia|exact Ep].
Qed.
Lemma dot_box c m lab lab' n k k' : labelling m lab n -> same_dot c m lab lab' k k' -> exists a b d e, hull_box lab k a b d e.
Proof.
  intros HL [p [[I Z] [E _]]]. destruct HL as (E1 & E2 & _). assert (L : labelled lab k p) by (split; [unfold in_img in *; lia|exact E]).
  do 4 eexists. exact (bbox_hull lab k p L).
Qed.
(** Selecting the dots of the moved photograph gives the moved selection. *)
Theorem C124_selected_by_size : forall label ms m lab n lab' n' dot_size ratio, Forall frame_ok ms -> int16_image m ->
  let m' := moves 0 ms m in
  label (to_int16 m) = (lab, n) -> labelling m lab n -> label (to_int16 m') = (lab', n') -> labelling m' lab' n' ->
  img_eq (select_dots_based_size label m' dot_size ratio) (moves 0 ms (select_dots_based_size label m dot_size ratio)).
Proof.
  intros label ms m lab n lab' n' ds ratio F B m' El HL El' HL'.
  pose proof (affs_units ms (ih m) (iw m)) as Un. pose proof (moved_in ms m F) as Sn. fold m' in Sn.
  refine (selected_moved ms m _ _ lab n lab' n' _ _ F HL HL' _
    (Props_Prep.C41_size label m lab n ds ratio B El HL) (Props_Prep.C41_size label m' lab' n' ds ratio (int16_moved ms m F B) El' HL')).
  intros k k' X. destruct (dot_box _ m lab lab' n k k' HL X) as [a [b [d [e HB]]]].
  pose proof (hull_box_moved _ m m' lab lab' n n' Un Sn HL HL' k k' a b d e X HB) as HB'.
  pose proof (part_moved _ m m' lab lab' n Un Sn HL k k' a b d e X HB) as P.
  destruct (box_moved (affs ms (ih m) (iw m)) a b d e) as [[[a' b'] d'] e']. apply img_sum_ext in P. rewrite (img_sum_moves _ _ (turn_rigid _)) in P. split.
  - intros [a1 [b1 [d1 [e1 [HB1 Q]]]]]. destruct (hull_box_unique _ _ _ _ _ _ _ _ _ _ HB1 HB) as [-> [-> [-> ->]]]. exists a', b', d', e'. split; [exact HB'|]. now rewrite P.
  - intros [a1 [b1 [d1 [e1 [HB1 Q]]]]]. destruct (hull_box_unique _ _ _ _ _ _ _ _ _ _ HB1 HB') as [-> [-> [-> ->]]]. exists a, b, d, e. split; [exact HB|]. now rewrite <- P.
Qed.
Print Assumptions C124_selected_by_size.
(** [axes]: the axis lengths of a region do not depend on how it is turned. *)
Theorem C124_selected_by_ratio : forall label axes ms m lab n lab' n' ratio, Forall frame_ok ms -> int16_image m ->
  (forall a b, img_eq a b -> axes a = axes b) -> (forall turn a, rigid turn -> axes (move 0 turn a) = axes a) ->
  let m' := moves 0 ms m in
  label (to_int16 m) = (lab, n) -> labelling m lab n -> label (to_int16 m') = (lab', n') -> labelling m' lab' n' ->
  img_eq (select_dots_based_ratio label axes m' ratio) (moves 0 ms (select_dots_based_ratio label axes m ratio)).
Proof.
  intros label axes ms m lab n lab' n' ratio F B Ax At m' El HL El' HL'.
  pose proof (affs_units ms (ih m) (iw m)) as Un. pose proof (moved_in ms m F) as Sn. fold m' in Sn.
  refine (selected_moved ms m _ _ lab n lab' n' _ _ F HL HL' _
    (Props_Prep.C41_ratio label axes m lab n ratio B El HL Ax) (Props_Prep.C41_ratio label axes m' lab' n' ratio (int16_moved ms m F B) El' HL' Ax)).
  intros k k' X. destruct (dot_box _ m lab lab' n k k' HL X) as [a [b [d [e HB]]]].
  pose proof (hull_box_moved _ m m' lab lab' n n' Un Sn HL HL' k k' a b d e X HB) as HB'.
  pose proof (part_moved _ m m' lab lab' n Un Sn HL k k' a b d e X HB) as P.
  assert (Dim : let '(a', b', d', e') := box_moved (affs ms (ih m) (iw m)) a b d e in ((2 <= b - a /\ 2 <= e - d) <-> (2 <= b' - a' /\ 2 <= e' - d'))%Z).
  { clear. destruct (affs ms (ih m) (iw m)) as [[[[sw s] t] o] p]. unfold box_moved. destruct sw, (s =? 1)%Z, (t =? 1)%Z; lia. }
  destruct (box_moved (affs ms (ih m) (iw m)) a b d e) as [[[a' b'] d'] e'].
  assert (AM : forall l im, Forall rigid l -> axes (moves 0 l im) = axes im).
  { induction l as [|x l IH]; intros im Fr; [reflexivity|]. inversion Fr; subst. cbn [moves]. rewrite IH by assumption. now apply At. }
  apply Ax in P. rewrite (AM _ _ (turn_rigid _)) in P. split.
  - intros [a1 [b1 [d1 [e1 [HB1 [Q1 [Q2 Q]]]]]]]. destruct (hull_box_unique _ _ _ _ _ _ _ _ _ _ HB1 HB) as [-> [-> [-> ->]]]. exists a', b', d', e'. split; [exact HB'|]. rewrite P. tauto.
  - intros [a1 [b1 [d1 [e1 [HB1 [Q1 [Q2 Q]]]]]]]. destruct (hull_box_unique _ _ _ _ _ _ _ _ _ _ HB1 HB') as [-> [-> [-> ->]]]. exists a, b, d, e. split; [exact HB|]. rewrite P in Q. tauto.
Qed.
Print Assumptions C124_selected_by_ratio.
Theorem C124_selected_by_distance : forall label ms m lab n lab' n' dot_dist ratio, Forall frame_ok ms -> int16_image m ->
  (forall i j, in_img m i j -> 0 <= px m i j) -> 0 < dot_dist -> ratio <= 1 ->
  let m' := moves 0 ms m in
  label (to_int16 m) = (lab, n) -> labelling m lab n -> label (to_int16 m') = (lab', n') -> labelling m' lab' n' ->
  img_eq (select_dots_based_distance label m' dot_dist ratio) (moves 0 ms (select_dots_based_distance label m dot_dist ratio)).
Proof.
  intros label ms m lab n lab' n' dd ratio F B P0 Hd Hr m' El HL El' HL'.
  pose proof (affs_units ms (ih m) (iw m)) as Un. pose proof (moved_in ms m F) as Sn. fold m' in Sn.
  refine (selected_moved ms m _ _ lab n lab' n' _ _ F HL HL' _
    (Props_Prep.C42_distance label m lab n dd ratio B El HL Hd Hr) (Props_Prep.C42_distance label m' lab' n' dd ratio (int16_moved ms m F B) El' HL' Hd Hr)).
  intros k k' X. pose proof (same_range _ m m' lab lab' n n' Sn HL HL' k k' X) as [K K'].
  destruct (sorted_distances m lab n k K) as [ds [_ [Nd _]]]. pose proof (neighbours_moved _ m m' lab lab' n n' Un Sn HL HL' P0 k k' ds X Nd) as Nd'. split.
  - intros [ds1 [N1 Q]]. rewrite (neighbour_distances_unique _ _ _ _ _ _ N1 Nd) in Q. exists ds. now split.
  - intros [ds1 [N1 Q]]. rewrite (neighbour_distances_unique _ _ _ _ _ _ N1 Nd') in Q. exists ds. now split.
Qed.
Print Assumptions C124_selected_by_distance.

(** *** Typical size and distance *)
Lemma move_eq a (m m' : image R) : rigid a -> img_eq m m' -> img_eq (move 0 a m) (move 0 a m').
Proof.
  intros H [E1 [E2 E]]. destruct a as [| | |t u l r]; [| | |destruct H]; cbn [move]; (split; [cbn; congruence|split; [cbn; congruence|]]); intros i j [I1 I2]; cbn in *.
  - rewrite E by (unfold in_img; lia). now rewrite E1.
  - rewrite E by (unfold in_img; lia). now rewrite E2.
  - apply E. unfold in_img; lia.
Qed.
Lemma moves_eq ms : forall m m' : image R, Forall rigid ms -> img_eq m m' -> img_eq (moves 0 ms m) (moves 0 ms m').
Proof. induction ms as [|a ms IH]; intros m m' F E; [exact E|]. inversion F; subst. cbn [moves]. apply IH; [assumption|now apply move_eq]. Qed.
Lemma img_eq_trans (a b c : image R) : img_eq a b -> img_eq b c -> img_eq a c.
Proof. intros [A1 [A2 A]] [B1 [B2 B]]. split; [congruence|]. split; [congruence|]. intros i j I. rewrite A by exact I. apply B. unfold in_img in *; lia. Qed.
Lemma img_eq_sym (a b : image R) : img_eq a b -> img_eq b a.
Proof. intros [A1 [A2 A]]. split; [congruence|]. split; [congruence|]. intros i j I. symmetry. apply A. unfold in_img in *; lia. Qed.
Lemma roi_move a m r : rigid a -> (1 <= ih m)%Z -> (1 <= iw m)%Z -> img_eq (select_roi (move 0 a m) r false) (move 0 a (select_roi m r false)).
Proof.
  intros H H1 H2. destruct (roi_false_exact m r H1 H2) as (dy & dx & P1 & P2 & P3 & P4 & Eh & Ew & E & Oy & Ox).
  assert (H' : (1 <= ih (move 0%R a m) /\ 1 <= iw (move 0%R a m))%Z) by (destruct a; [| | |destruct H]; cbn; lia).
  destruct (roi_false_exact (move 0 a m) r (proj1 H') (proj2 H')) as (dy' & dx' & Q1 & Q2 & Q3 & Q4 & Eh' & Ew' & E' & Oy' & Ox').
  destruct a as [| | |t u l q]; [| | |destruct H]; cbn [move ih iw px] in *.
  - pose proof (Props_Chain.offset_unique _ _ _ _ Oy' Oy) as D1. pose proof (Props_Chain.offset_unique _ _ _ _ Ox' Ox) as D2. subst dy' dx'. split; [cbn; congruence|]. split; [cbn; congruence|].
    intros i j I. cbn [move ih iw px]. rewrite E', E, Eh. f_equal; lia.
  - pose proof (Props_Chain.offset_unique _ _ _ _ Oy' Oy) as D1. pose proof (Props_Chain.offset_unique _ _ _ _ Ox' Ox) as D2. subst dy' dx'. split; [cbn; congruence|]. split; [cbn; congruence|].
    intros i j I. cbn [move ih iw px]. rewrite E', E, Ew. f_equal; lia.
  - pose proof (Props_Chain.offset_unique _ _ _ _ Oy' Ox) as D1. pose proof (Props_Chain.offset_unique _ _ _ _ Ox' Oy) as D2. subst dy' dx'. split; [cbn; congruence|]. split; [cbn; congruence|].
    intros i j I. cbn [move ih iw px]. rewrite E', E. reflexivity.
Qed.
Lemma roi_moves r ms : forall m, Forall rigid ms -> (1 <= ih m)%Z -> (1 <= iw m)%Z -> img_eq (select_roi (moves 0 ms m) r false) (moves 0 ms (select_roi m r false)).
Proof.
  induction ms as [|a ms IH]; intros m F H1 H2; [now split|]. inversion F; subst. cbn [moves].
  apply (img_eq_trans _ (moves 0 ms (select_roi (move 0 a m) r false))).
  - apply IH; [assumption| |]; destruct a; cbn in *; lia.
  - apply moves_eq; [assumption|]. now apply roi_move.
Qed.
(** Border clearing. *)
Lemma conn8_moved c m m' p q : units c -> seen 0 (gm c) m m' -> connected8 m p q -> connected8 m' (gm c p) (gm c q).
Proof.
  intros Un Sn. induction 1 as [p H|p q r H IH A S1]; [constructor; now apply (set_moved c m)|]. apply conn8_step with (gm c q); [exact IH| |now apply (set_moved c m)].
  destruct c as [[[[sw s] t] e] f], q as [i j], r as [k l]. destruct Un as [Us Ut]. unfold adjacent8, gm, gmap, unit in *.
  destruct Us, Ut; subst; destruct sw; cbn [fst snd] in *; lia.
Qed.
Lemma conn8_set m p q : connected8 m p q -> set_pixel m q.
Proof. now destruct 1. Qed.
Lemma conn8_back c m m' a b : units c -> seen 0 (gm c) m m' -> connected8 m' a b -> forall p q, gm c p = a -> gm c q = b -> connected8 m p q.
Proof.
  intros Un Sn. induction 1 as [a H|a b d H IH A S1]; intros p q E1 E2.
  - assert (p = q) by (apply (gm_inj c m m' Un Sn); congruence). subst q. constructor. destruct (set_back c m m' Sn a H) as [r [Hr Er]]. assert (r = p) by (apply (gm_inj c m m' Un Sn); congruence). now subst r.
  - destruct (set_back c m m' Sn b (conn8_set _ _ _ H)) as [r [Hr Er]]. apply conn8_step with r; [now apply IH| |].
    + rewrite <- Er, <- E2 in A. clear -Un A. destruct c as [[[[sw s] t] e] f], q as [i j], r as [k l]. destruct Un as [Us Ut]. unfold adjacent8, gm, gmap, unit in *.
      destruct Us, Ut; subst; destruct sw; cbn [fst snd] in *; lia.
    + destruct (set_back c m m' Sn d S1) as [r' [Hr' Er']]. assert (r' = q) by (apply (gm_inj c m m' Un Sn); congruence). now subst r'.
Qed.
Lemma aff_units a h w : units (aff a h w).
Proof. destruct a; cbn; unfold unit; lia. Qed.
Lemma border_move a m p : rigid a -> border_pixel (move 0 a m) (gm (aff a (ih m) (iw m)) p) <-> border_pixel m p.
Proof. intros H. destruct p as [i j]. destruct a; [| | |destruct H]; unfold border_pixel, gm, aff, gmap; cbn [move ih iw fst snd]; lia. Qed.
Lemma cleared_move a m r : rigid a -> cleared m r -> cleared (move 0 a m) (move 0 a r).
Proof.
  intros H [E1 [E2 C]]. pose proof (aff_units a (ih m) (iw m)) as Un. pose proof (seen_move 0 a m (rigid_ok a H)) as Sn.
  pose proof (seen_move 0 a r (rigid_ok a H)) as Sr. rewrite E1, E2 in Sr. pose proof (onto_move 0 a m H) as On. set (c := aff a (ih m) (iw m)) in *.
  split; [destruct a; cbn in *; congruence|]. split; [destruct a; cbn in *; congruence|]. intros q I. destruct (On q I) as [p [Ip Ep]]. subst q.
  assert (Ip' : in_img r (fst p) (snd p)) by (unfold in_img in *; lia). destruct Sr as [Ar _]. destruct (Ar p Ip') as [_ ->]. destruct (proj1 Sn p Ip) as [_ ->].
  destruct (C p Ip) as [C1 C2]. cbv zeta. split.
  - intros [q' [Hc Hb]]. apply C1. destruct (set_back c m _ Sn q' (conn8_set _ _ _ Hc)) as [q [Sq Eq]]. exists q. split; [now apply (conn8_back c m _ _ _ Un Sn Hc)|]. rewrite <- Eq in Hb. now apply border_move in Hb.
  - intros N. apply C2. intros [q [Hc Hb]]. apply N. exists (gm c q). split; [now apply conn8_moved with m|]. now apply border_move.
Qed.
Lemma cleared_moves ms : forall m r, Forall rigid ms -> cleared m r -> cleared (moves 0 ms m) (moves 0 ms r).
Proof. induction ms as [|a ms IH]; intros m r F C; [exact C|]. inversion F; subst. cbn [moves]. apply IH; [assumption|now apply cleared_move]. Qed.
Lemma conn8_eq a b p q : img_eq a b -> connected8 a p q -> connected8 b p q.
Proof.
  intros [E1 [E2 E]]. assert (Sx : forall x, set_pixel a x -> set_pixel b x) by (intros x [I Z]; split; [unfold in_img in *; lia|now rewrite <- E]).
  induction 1 as [p H|p q r H IH A S1]; [constructor; auto|]. apply conn8_step with q; auto.
Qed.
Lemma cleared_unique a b r s : img_eq a b -> cleared a r -> cleared b s -> img_eq r s.
Proof.
  intros E [R1 [R2 R3]] [S1 [S2 S3]]. pose proof E as [E1 [E2 E3]]. split; [congruence|]. split; [congruence|]. intros i j I.
  assert (Ia : in_img a i j) by (unfold in_img in *; lia). assert (Ib : in_img b i j) by (unfold in_img in *; lia).
  destruct (R3 (i, j) Ia) as [Ra Rb], (S3 (i, j) Ib) as [Sa Sb]. cbn [fst snd] in *.
  assert (Br : forall q, border_pixel a q <-> border_pixel b q) by (intros q; unfold border_pixel; rewrite E1, E2; tauto).
  destruct (Classical_Prop.classic (exists q, connected8 a (i, j) q /\ border_pixel a q)) as [K|K].
  - rewrite (Ra K). symmetry. apply Sa. destruct K as [q [K1 K2]]. exists q. split; [now apply (conn8_eq a)|now apply Br].
  - rewrite (Rb K), Sb; [now apply E3|]. intros [q [K1 K2]]. apply K. exists q. split; [apply (conn8_eq b); [now apply img_eq_sym|exact K1]|now apply Br].
Qed.
Lemma seen_eq (g : Z * Z -> Z * Z) (m a b : image R) : seen 0 g m a -> img_eq b a -> seen 0 g m b.
Proof.
  intros [A B] [E1 [E2 E]]. split.
  - intros p I. destruct (A p I) as [I' X]. assert (I2 : in_img b (fst (g p)) (snd (g p))) by (unfold in_img in *; lia). split; [exact I2|]. now rewrite E.
  - intros q I. rewrite E by exact I. apply B. unfold in_img in *; lia.
Qed.
Lemma median_same l l' v v' : Permutation l l' -> is_median l v -> is_median l' v' -> v = v'.
Proof.
  intros P M M'. apply (PolyRowsFacts.is_median_unique l); [exact M|]. destruct M' as [s [Ps [Ss [k K]]]]. exists s. split; [now rewrite Ps, P|].
  split; [exact Ss|]. exists k. now rewrite (Permutation_length P).
Qed.
Lemma nearest_map m lab n l : (forall k, In k l -> (1 <= k <= n)%Z) -> forall vs, Forall2 (fun k v => exists ds, neighbour_distances m lab n k (v :: ds)) l vs ->
  vs = map (fun k => hd 0 (tl (@nsort R Rex (map (dist (centroid m lab k)) (map (centroid m lab) (zrange 1 (n + 1))))))) l.
Proof.
  intros H vs F. induction F as [|k v l vs [ds D] F IH]; [reflexivity|]. cbn [map]. rewrite <- IH by (intros x Hx; apply H; now right). f_equal.
  destruct (sorted_distances m lab n k (H k (or_introl eq_refl))) as [ds' [E [N _]]]. rewrite E. cbn [tl]. now rewrite <- (neighbour_distances_unique _ _ _ _ _ _ D N).
Qed.
Theorem C124_size_distance : forall label clear ms m ratio lab n lab' n', Forall rigid ms -> (1 <= ih m)%Z -> (1 <= iw m)%Z ->
  int16_image m -> (forall i j, in_img m i j -> 0 <= px m i j) ->
  let m' := moves 0 ms m in
  let centre := select_roi m ratio false in let centre' := select_roi m' ratio false in
  cleared centre (clear centre) -> cleared centre' (clear centre') ->
  label (to_int16 (clear centre)) = (lab, n) -> labelling (clear centre) lab n ->
  label (to_int16 (clear centre')) = (lab', n') -> labelling (clear centre') lab' n' ->
  calc_size_distance label clear m' ratio = calc_size_distance label clear m ratio.
Proof.
  intros label clear ms m ratio lab n lab' n' F H1 H2 B P0 m' src src' C C' El HL El' HL'.
  assert (Fo : Forall frame_ok ms) by (eapply Forall_impl; [|exact F]; apply rigid_ok).
  set (roi := clear src) in *. set (roi' := clear src') in *.
  assert (Er : img_eq roi' (moves 0 ms roi)) by (apply (cleared_unique src' (moves 0 ms src)); [now apply roi_moves|exact C'|now apply cleared_moves]).
  pose proof (affs_units ms (ih roi) (iw roi)) as Un. pose proof (seen_eq _ _ _ _ (moved_in ms roi Fo) Er) as Sn. set (c := affs ms (ih roi) (iw roi)) in *.
  assert (Vals : forall i j, in_img roi i j -> px roi i j = 0 \/ exists u v, in_img m u v /\ px roi i j = px m u v).
  { intros i j I. destruct C as [C1 [C2 C3]]. fold roi in C1, C2, C3. destruct (roi_false_exact m ratio H1 H2) as (dy & dx & Q1 & Q2 & Q3 & Q4 & Eh & Ew & E & _). fold src in Eh, Ew, E.
    assert (Is : in_img src i j) by (unfold in_img in *; lia). destruct (C3 (i, j) Is) as [Ca Cb]. cbn [fst snd] in *.
    destruct (Classical_Prop.classic (exists q, connected8 src (i, j) q /\ border_pixel src q)) as [K|K]; [left; now apply Ca|]. right. exists (dy + i)%Z, (dx + j)%Z. rewrite (Cb K), E.
    split; [unfold in_img in *; lia|reflexivity]. }
  assert (Br : int16_image roi) by (intros i j I; destruct (Vals i j I) as [Z|[u [v [Iu E]]]]; [exists 0%Z; split; [lia|exact Z]|rewrite E; now apply B]).
  assert (Pr : forall i j, in_img roi i j -> 0 <= px roi i j) by (intros i j I; destruct (Vals i j I) as [Z|[u [v [Iu E]]]]; [lra|rewrite E; now apply P0]).
  assert (Br' : int16_image roi').
  { intros i j I. destruct Sn as [A A']. destruct (A' (i, j) I) as [Z|[p [Ip Ep]]]; [exists 0%Z; split; [lia|exact Z]|]. destruct (A p Ip) as [_ X]. rewrite Ep in X. cbn [fst snd] in X. rewrite X. now apply Br. }
  pose proof (same_number c roi roi' lab lab' n n' Un Sn HL HL') as En. subst n'.
  assert (Hn : (0 <= n)%Z) by apply HL. destruct (Z_lt_le_dec n 2) as [Small|Big].
  - assert (Cs : n = 0%Z \/ n = 1%Z) by lia. destruct Cs as [-> | ->].
    + unfold calc_size_distance. cbv zeta. fold src src'. fold roi roi'. rewrite El, El'. reflexivity.
    + rewrite (Props_Prep.C80_single_dot label clear m ratio lab El). exact (Props_Prep.C80_single_dot label clear m' ratio lab' El').
  - destruct (calc_size_distance_ok label clear m ratio lab n Br El HL Big) as (s & d & vs & E & M1 & F1 & M2).
    destruct (calc_size_distance_ok label clear m' ratio lab' n Br' El' HL' Big) as (s' & d' & vs' & E' & M1' & F1' & M2').
    rewrite E, E'. fold src in M1, F1. fold src' in M1', F1'. fold roi in M1, F1. fold roi' in M1', F1'.
    destruct (same_perm c roi roi' lab lab' n n Un Sn HL HL') as [ks [P Q]].
    assert (Rg : forall k, In k (zrange 1 (n + 1)) -> (1 <= k <= n)%Z) by (intros k K; apply in_zrange in K; lia).
    apply nearest_map in F1; [|exact Rg]. apply nearest_map in F1'; [|exact Rg]. f_equal. apply f_equal2.
    + eapply median_same; [|exact M1'|exact M1]. rewrite (Permutation_map _ P). erewrite <- (Forall2_map_eq _ _ _ _ _ Q); [apply Permutation_refl|].
      intros k k' X. symmetry. exact (mass_moved c roi roi' lab lab' n n Un Sn HL HL' k k' X).
    + eapply median_same; [|exact M2'|exact M2]. rewrite F1, F1', (Permutation_map _ P). erewrite <- (Forall2_map_eq _ _ _ _ _ Q); [apply Permutation_refl|].
      intros k k' X. cbv beta. pose proof (same_range c roi roi' lab lab' n n Sn HL HL' k k' X) as [K K'].
      destruct (sorted_distances roi lab n k K) as [ds [Ed [Nd _]]]. destruct (sorted_distances roi' lab' n k' K') as [ds' [Ed' [Nd' _]]]. rewrite Ed, Ed'. cbn [tl].
      now rewrite (neighbour_distances_unique _ _ _ _ _ _ (neighbours_moved c roi roi' lab lab' n n Un Sn HL HL' Pr k k' ds X Nd) Nd').
Qed.
Print Assumptions C124_size_distance.

(** *** Binarization *)
(** A filter that treats all directions alike. *)
Definition direction_free (f : image R -> image R) : Prop :=
  (forall a b, img_eq a b -> img_eq (f a) (f b)) /\ forall turn a, rigid turn -> img_eq (f (move 0 turn a)) (move 0 turn (f a)).
Lemma free_moves f ms : direction_free f -> forall a b, Forall rigid ms -> img_eq a (moves 0 ms b) -> img_eq (f a) (moves 0 ms (f b)).
Proof.
  intros [F1 F2] a b Fr E. apply (img_eq_trans _ (f (moves 0 ms b))); [now apply F1|]. clear a E. revert b. induction Fr as [|t ms Ht Fr IH]; intros b; [now split|]. cbn [moves].
  apply (img_eq_trans _ (moves 0 ms (f (move 0 t b)))); [apply IH|]. apply moves_eq; [exact Fr|now apply F2].
Qed.
Lemma map_moves (f : R -> R) ms : forall m, Forall rigid ms -> img_map f (moves 0 ms m) = moves 0 ms (img_map f m).
Proof. induction ms as [|a ms IH]; intros m F; [reflexivity|]. inversion F as [|? ? Ha Hm]; subst. cbn [moves]. rewrite IH by exact Hm. f_equal. destruct a; [reflexivity|reflexivity|reflexivity|destruct Ha]. Qed.
Lemma map_img_eq (f : R -> R) a b : img_eq a b -> img_eq (img_map f a) (img_map f b).
Proof. intros [E1 [E2 E]]. split; [exact E1|]. split; [exact E2|]. intros i j I. cbn. f_equal. now apply E. Qed.
Lemma pixels_move a m x : rigid a -> In x (pixels (move 0 a m)) <-> In x (pixels m).
Proof.
  intros H. rewrite !in_pixels. pose proof (seen_move 0 a m (rigid_ok a H)) as [A _]. pose proof (onto_move 0 a m H) as On. split.
  - intros [i [j [I E]]]. destruct (On (i, j) I) as [[u v] [Ip Ep]]. exists u, v. split; [exact Ip|]. destruct (A (u, v) Ip) as [_ X]. rewrite Ep in X. cbn [fst snd] in X. congruence.
  - intros [i [j [I E]]]. destruct (A (i, j) I) as [I' X]. do 2 eexists. split; [exact I'|]. cbn [fst snd] in X. congruence.
Qed.
Lemma pixels_moves ms : forall m x, Forall rigid ms -> In x (pixels (moves 0 ms m)) <-> In x (pixels m).
Proof. induction ms as [|a ms IH]; intros m x F; [tauto|]. inversion F; subst. cbn [moves]. rewrite IH by assumption. now apply pixels_move. Qed.
Lemma pixels_eq (a b : image R) x : img_eq a b -> In x (pixels a) <-> In x (pixels b).
Proof. intros [E1 [E2 E]]. rewrite !in_pixels. split; intros [i [j [I X]]]; exists i, j; (split; [unfold in_img in *; lia|]); [rewrite <- E; auto|rewrite E; auto; unfold in_img in *; lia]. Qed.
Lemma area_moves ms : forall m : image R, Forall rigid ms -> (ih (moves 0%R ms m) * iw (moves 0%R ms m) = ih m * iw m)%Z.
Proof. induction ms as [|a ms IH]; intros m F; [reflexivity|]. inversion F as [|? ? Ha Hm]; subst. cbn [moves]. rewrite IH by exact Hm. destruct a; cbn; [lia|lia|lia|destruct Ha]. Qed.
Lemma same_max (l l' : list R) : (forall x, In x l <-> In x l') -> namax l = namax l'.
Proof.
  intros P. destruct (namax l) as [a|e] eqn:E1.
  - destruct (namax l') as [b|e] eqn:E2.
    + apply (namax_spec (fun x => x)) in E1. apply (namax_spec (fun x => x)) in E2. destruct E1 as [I1 M1], E2 as [I2 M2]. f_equal. apply Rle_antisym; [apply M2|apply M1]; now apply P.
    + destruct l' as [|x l']; [|discriminate]. apply (namax_spec (fun x => x)) in E1. destruct (proj1 (P a) (proj1 E1)).
  - destruct l as [|x l]; [|discriminate]. destruct l' as [|y l']; [now rewrite <- E1|]. destruct (proj2 (P y) (or_introl eq_refl)).
Qed.
(** The results of binarizing the photograph and the turned photograph: both
    fail in the same way, or the second image is the first one turned. *)
Definition turned_result (ms : list motion) (r r' : res (image R)) : Prop :=
  match r, r' with
  | Ok im, Ok im' => img_eq im' (moves 0 ms im)
  | Err e, Err e' => e = e'
  | _, _ => False
  end.
Lemma invert_turned ms b b' : Forall rigid ms -> img_eq b' (moves 0 ms b) -> turned_result ms (invert_dots_contrast b) (invert_dots_contrast b').
Proof.
  intros F E. unfold invert_dots_contrast.
  assert (Es : nsum (pixels b') = nsum (pixels b)) by (rewrite !sum_pixels, (img_sum_ext _ _ E); now apply img_sum_moves).
  assert (Em : namax (pixels b') = namax (pixels b)) by (apply same_max; intros x; rewrite (pixels_eq _ _ x E); now apply pixels_moves).
  assert (Ea : (ih b' * iw b' = ih b * iw b)%Z) by (destruct E as [-> [-> _]]; now apply area_moves).
  rewrite Es, Em, Ea. destruct (namax (pixels b)) as [mx|e]; [|reflexivity]. cbn [bind turned_result]. destruct (_ <?! _)%num; [|exact E].
  rewrite <- map_moves by exact F. now apply map_img_eq.
Qed.
Theorem C124_binarization : forall median22 otsu clear opening fill ms m ratio thres, Forall rigid ms -> (1 <= ih m)%Z -> (1 <= iw m)%Z ->
  (forall a b, img_eq a b -> otsu a = otsu b) -> (forall turn a, rigid turn -> otsu (move 0 turn a) = otsu a) ->
  direction_free clear -> direction_free opening -> direction_free fill ->
  turned_result ms (binarization median22 otsu clear opening fill m ratio thres false)
    (binarization median22 otsu clear opening fill (moves 0 ms m) ratio thres false).
Proof.
  intros med otsu clear op fill ms m ratio thres F H1 H2 Ot Ot' Fc Fo Ff. unfold binarization. cbv zeta.
  set (t := match thres with Some t => t | None => otsu (select_roi m ratio false) end). set (t' := match thres with Some t => t | None => otsu (select_roi (moves 0 ms m) ratio false) end).
  assert (Et : t' = t).
  { unfold t, t'. destruct thres; [reflexivity|]. rewrite (Ot _ _ (roi_moves ratio ms m F H1 H2)). generalize (select_roi m ratio false) as im. clear -F Ot'. induction F as [|a ms Ha F IH]; intros im; [reflexivity|].
    cbn [moves]. rewrite IH. now apply Ot'. }
  rewrite Et. pose proof (invert_turned ms (img_map (fun v => if (t <?! v)%num then n1 else n0) m) (img_map (fun v => if (t <?! v)%num then n1 else n0) (moves 0 ms m)) F) as I.
  rewrite map_moves in I |- * by exact F. specialize (I ltac:(now split)).
  destruct (invert_dots_contrast (img_map _ m)) as [im|e], (invert_dots_contrast (moves 0 ms _)) as [im'|e']; cbn [turned_result bind] in *; try contradiction; [|exact I].
  apply free_moves; [exact Ff|exact F|]. apply free_moves; [exact Fo|exact F|]. apply free_moves; [exact Fc|exact F|exact I].
Qed.
Print Assumptions C124_binarization.

(** *** Cases *)
(** Two dots in a row, mirrored, framed and transposed. *)
Example C124_points_ex : let ms := [LeftRight; Framed 1 0 2 1; Transposed] in
  exists label pts', get_points_dot_pattern label (fun m => Ok m) (moves 0 ms (row_img 4)) false = Ok pts' /\ Permutation pts' [(5, 1); (3, 1)] /\
    check_num_dots label (moves 0 ms (row_img 4)) = true.
Proof.
  intros ms. destruct (labelling_exists (moves 0 ms (row_img 4))) as [lab' [n' HL']]. assert (HL := row_labelling 4 ltac:(lia)). change ((4 + 1) / 2)%Z with 2%Z in HL.
  set (label := fun im : image R => if (ih im =? 1)%Z then (row_lab 4, 2%Z) else (lab', n')). exists label.
  assert (F : Forall frame_ok ms) by (repeat constructor; cbn; lia).
  destruct (C124_points label (fun m => Ok m) ms (row_img 4) (row_lab 4) 2 lab' n' F (row_binary 4)) as [pts [pts' [E [E' P]]]]; auto.
  - exists 0%Z, 0%Z. split; [unfold in_img; cbn; lia|reflexivity].
  - exists 0%Z, 1%Z. split; [unfold in_img; cbn; lia|reflexivity].
  - exists pts'. split; [exact E'|]. split.
    + rewrite P. destruct (Props_Prep.C82_centres label (fun m => Ok m) (row_img 4) (row_lab 4) 2 (row_binary 4)) as [q [Eq [L Q]]]; auto.
      * exists 0%Z, 0%Z. split; [unfold in_img; cbn; lia|reflexivity].
      * exists 0%Z, 1%Z. split; [unfold in_img; cbn; lia|reflexivity].
      * assert (q = pts) by congruence. subst q. assert (C : forall k, (1 <= k <= 2)%Z -> centroid (row_img 4) (row_lab 4) k = (0, 2 * (IZR k - 1))).
        { intros k K. unfold centroid, mass, moment, part. Props_Prep.sums. assert (Ck : k = 1%Z \/ k = 2%Z) by lia. destruct Ck as [-> | ->]; cbn; apply f_equal2; lra. }
        destruct pts as [|a [|b [|? ?]]]; try discriminate L. pose proof (proj1 (Q 1%Z ltac:(lia))) as Q1. pose proof (proj1 (Q 2%Z ltac:(lia))) as Q2. change (Z.to_nat (1 - 1)) with 0%nat in Q1. change (Z.to_nat (2 - 1)) with 1%nat in Q2. cbn [nth] in Q1, Q2. rewrite C in Q1, Q2 by lia.
        assert (X1 : moves_dot ms 1 4 (0, 2 * (IZR 1 - 1)) = (5, 1)) by (unfold ms; cbn -[IZR]; apply f_equal2; lra).
        assert (X2 : moves_dot ms 1 4 (0, 2 * (IZR 2 - 1)) = (3, 1)) by (unfold ms; cbn -[IZR]; apply f_equal2; lra).
        rewrite Q1, Q2. cbn [map row_img ih iw]. rewrite X1, X2. apply Permutation_refl.
    + pose proof (same_number _ (row_img 4) _ (row_lab 4) lab' 2 n' (affs_units ms 1 4) (moved_in ms (row_img 4) F) HL HL') as En.
      unfold check_num_dots, label. change (ih (moves 0%R ms (row_img 4)) =? 1)%Z with false. cbn [snd]. now rewrite <- En.
Qed.
(** A dot pattern of 64 x 74 pixels, transposed and turned upside down. *)
Example C124_size_distance_ex : let ms := [Transposed; UpsideDown] in
  exists out label clear, make_dot_pattern 64 74 10 3 (MScalar 5) = Ok out /\ calc_size_distance label clear (moves 0 ms (Props_Dots.inverted out)) (3 / 10) = Ok (5, 10).
Proof.
  intros ms. destruct (C17_dot_pattern 64 74 10 3 (MScalar 5) 5 5) as [out [E [Eh [Ew _]]]]; [left; auto|lia|lia|cbn; lia|]. exists out.
  set (src := select_roi (Props_Dots.inverted out) (3 / 10) false). destruct (cleared_exists src) as [roi Hc]. destruct (labelling_exists roi) as [lab [num HL]].
  set (src' := select_roi (moves 0 ms (Props_Dots.inverted out)) (3 / 10) false). destruct (cleared_exists src') as [roi' Hc']. destruct (labelling_exists roi') as [lab' [num' HL']].
  assert (Cl : clamp (3 / 10) (1 / 20) 1 = 3 / 10) by (unfold clamp, Rmin, Rmax; repeat destruct (Rle_dec _ _); lra).
  assert (Off : Props_Chain.roi_offset 64 (3 / 10) 22) by (unfold Props_Chain.roi_offset; rewrite Cl; lra).
  assert (Off2 : Props_Chain.roi_offset 74 (3 / 10) 25) by (unfold Props_Chain.roi_offset; rewrite Cl; lra).
  assert (Esrc : ih src = 20%Z /\ iw src = 24%Z).
  { destruct (Props_Prep.C39_roi_exact (Props_Dots.inverted out) (3 / 10)) as [dy' [dx' [S [_ [B1 B2]]]]]; [cbn [Props_Dots.inverted ih]; lia|cbn [Props_Dots.inverted iw]; lia|].
    fold src in S. cbn [Props_Dots.inverted ih iw] in S, B1, B2. rewrite Eh in S, B1. rewrite Ew in S, B2. cbv zeta in B1, B2.
    assert (dy' = 22%Z) by (apply (Props_Chain.offset_unique 64 (3 / 10)); assumption). assert (dx' = 25%Z) by (apply (Props_Chain.offset_unique 74 (3 / 10)); assumption). lia. }
  assert (Rg : Forall rigid ms) by (repeat constructor).
  assert (Esrc' : ih src' = 24%Z).
  { destruct (roi_moves (3 / 10) ms (Props_Dots.inverted out) Rg) as [R1 _]; [cbn [Props_Dots.inverted ih]; lia|cbn [Props_Dots.inverted iw]; lia|]. unfold src'. rewrite R1. fold src. cbn. apply Esrc. }
  assert (Er : ih roi = 20%Z) by (destruct Hc as [-> _]; apply Esrc). assert (Er' : ih roi' = 24%Z) by (destruct Hc' as [-> _]; exact Esrc').
  set (label := fun im : image R => if (ih im =? 20)%Z then (lab, num) else (lab', num')). set (clear := fun im : image R => if (ih im =? 20)%Z then roi else roi').
  assert (Ec : clear src = roi) by (unfold clear; now rewrite (proj1 Esrc)). assert (Ec' : clear src' = roi') by (unfold clear; now rewrite Esrc').
  assert (El : label (to_int16 roi) = (lab, num)) by (unfold label; cbn [to_int16 img_map ih]; now rewrite Er).
  assert (El' : label (to_int16 roi') = (lab', num')) by (unfold label; cbn [to_int16 img_map ih]; now rewrite Er').
  exists label, clear. split; [exact E|].
  destruct (Props_Dots.pattern_dots 64 74 10 3 (MScalar 5) 5 5 out) as [_ [_ [Bin _]]]; [left; auto|lia|lia|cbn; lia|exact E|].
  rewrite (C124_size_distance label clear ms (Props_Dots.inverted out) (3 / 10) lab num lab' num' Rg); fold src src'; rewrite ?Ec, ?Ec'; auto; try (cbn [Props_Dots.inverted ih iw]; lia).
  - assert (S1 := Props_Chain.C108_size_distance label clear 64 74 10 3 (MScalar 5) 5 5 out (3 / 10) 22 25 2 2 2 2 lab num ltac:(left; auto) ltac:(lia) ltac:(lia) ltac:(cbn; lia) E).
    cbv zeta in S1. change (Z.min (Z.max 3 1) (Z.min 64 74 / 8))%Z with 3%Z in S1. rewrite Props_Chain.area3 in S1. fold src in S1. rewrite Ec in S1.
    apply S1; auto; try lia; (split; [lia|]); intros i Hi; change (3 / 2)%Z with 1%Z; change (Z.of_nat 2) with 2%Z; lia.
  - now apply binary_int16.
  - intros i j I. destruct (Bin i j I) as [-> | ->]; lra.
Qed.
(** A hook of six pixels with a single pixel inside its box, turned upside
    down and framed: the single pixel is kept with the hook. *)
Example C124_selected_ex : let ms := [UpsideDown; Framed 1 1 1 1] in
  exists label, px (select_dots_based_size label (moves 0 ms hook_img) 6 (1 / 10)) 3 3 = 1 /\ px (select_dots_based_size label (moves 0 ms hook_img) 1 (1 / 10)) 1 1 = 0.
Proof.
  intros ms. destruct (labelling_exists (moves 0 ms hook_img)) as [lab' [n' HL']].
  set (label := fun im : image R => if (ih im =? 3)%Z then (hook_lab, 2%Z) else (lab', n')). exists label.
  assert (F : Forall frame_ok ms) by (repeat constructor; cbn; lia).
  pose proof (fun s => C124_selected_by_size label ms hook_img hook_lab 2 lab' n' s (1 / 10) F hook_int16 eq_refl hook_labelling eq_refl HL') as H.
  split; destruct (H 6) as [D1 [D2 H6]]; destruct (H 1) as [D3 [D4 H1]].
  - destruct (Props_Prep.C41_size label hook_img hook_lab 2 6 (1 / 10) hook_int16 eq_refl hook_labelling) as [E1 [E2 Q]]. cbn [hook_img ih iw] in E1, E2.
    rewrite H6 by (unfold in_img; rewrite D1, D2; cbn [ms moves move ih iw]; rewrite E1, E2; lia). cbn [ms moves move ih iw px].
    rewrite E1, E2. change (px (select_dots_based_size label hook_img 6 (1 / 10)) 0 2 = 1). destruct (Q 0%Z 2%Z) as [[E _]|[_ N]]; [unfold in_img; cbn; lia|rewrite E; reflexivity|]. exfalso. apply N. exists 1%Z. split; [lia|]. split.
    + exists 0%Z, 3%Z, 0%Z, 3%Z. split; [apply hook_box1|]. rewrite Props_Prep.hook_sum1. unfold Rmax. destruct (Rle_dec _ _); lra.
    + apply hook_box1. lia.
  - destruct (Props_Prep.C41_size label hook_img hook_lab 2 1 (1 / 10) hook_int16 eq_refl hook_labelling) as [E1 [E2 Q]]. cbn [hook_img ih iw] in E1, E2.
    rewrite H1 by (unfold in_img; rewrite D3, D4; cbn [ms moves move ih iw]; rewrite E1, E2; lia). cbn [ms moves move ih iw px].
    rewrite E1, E2. change (px (select_dots_based_size label hook_img 1 (1 / 10)) 2 0 = 0). destruct (Q 2%Z 0%Z) as [[_ [k [K [[a [b [d [e [HB S]]]]] HH]]]]|[E _]]; [unfold in_img; cbn; lia| |exact E]. exfalso.
    assert (Ck : k = 1%Z \/ k = 2%Z) by lia. destruct Ck as [-> | ->].
    + destruct (hull_box_unique _ _ _ _ _ _ _ _ _ _ HB hook_box1) as [-> [-> [-> ->]]]. rewrite Props_Prep.hook_sum1 in S. lra.
    + apply hook_box2 in HH. lia.
Qed.
(** Border clearing is such a filter, and so is doing nothing. *)
Example C124_filters : direction_free (fun a => a) /\ forall clear, (forall a, cleared a (clear a)) -> direction_free clear.
Proof.
  split; [split; [auto|intros turn a _; now split]|]. intros clear C. split.
  - intros a b E. exact (cleared_unique a b _ _ E (C a) (C b)).
  - intros turn a H. apply (cleared_unique (move 0 turn a) (move 0 turn a)); [now split|apply C|]. now apply cleared_move.
Qed.
