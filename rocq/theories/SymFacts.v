(** Photographs held differently: upside down, mirrored, transposed, or with a
    blank frame around them (specification), and what this does to their dots. *)
From Coq Require Import Reals ZArith List Lra Lia Bool Permutation Sorting.Sorted.
From Verif Require Import Base Num Img Post Spec NumFacts PrepSpec DotSpec PrepImg PrepImgFacts PrepImgFacts2 PrepImgFacts3 PrepImgFacts4 PrepEx DotFacts PrepFacts4.
Import ListNotations.
Local Open Scope Z_scope.

(** *** Specification *)
Inductive motion := UpsideDown | LeftRight | Transposed | Framed (top bottom lft rgt : Z).
Section Move.
  Context {T : Type} (blank : T).
  Definition move (a : motion) (m : image T) : image T :=
    match a with
    | UpsideDown => mkimg (ih m) (iw m) (fun i j => px m (ih m - 1 - i) j)
    | LeftRight => mkimg (ih m) (iw m) (fun i j => px m i (iw m - 1 - j))
    | Transposed => mkimg (iw m) (ih m) (fun i j => px m j i)
    | Framed top bottom lft rgt => mkimg (top + ih m + bottom) (lft + iw m + rgt) (fun i j =>
        if (top <=? i) && (i <? top + ih m) && (lft <=? j) && (j <? lft + iw m) then px m (i - top) (j - lft) else blank)
    end.
  (** One after the other. *)
  Fixpoint moves (ms : list motion) (m : image T) : image T :=
    match ms with [] => m | a :: ms => moves ms (move a m) end.
End Move.
(** Where a point of an image of the given height and width goes. *)
Definition move_dot (a : motion) (h w : Z) (p : pt) : pt :=
  match a with
  | UpsideDown => (IZR (h - 1) - fst p, snd p)%R
  | LeftRight => (fst p, IZR (w - 1) - snd p)%R
  | Transposed => (snd p, fst p)
  | Framed top _ lft _ => (IZR top + fst p, IZR lft + snd p)%R
  end.
Definition size_after (a : motion) (h w : Z) : Z * Z :=
  match a with
  | UpsideDown | LeftRight => (h, w)
  | Transposed => (w, h)
  | Framed top bottom lft rgt => (top + h + bottom, lft + w + rgt)
  end.
Fixpoint moves_dot (ms : list motion) (h w : Z) (p : pt) : pt :=
  match ms with
  | [] => p
  | a :: ms => moves_dot ms (fst (size_after a h w)) (snd (size_after a h w)) (move_dot a h w p)
  end.
(** Frames have no negative width. *)
Definition frame_ok (a : motion) : Prop :=
  match a with Framed top bottom lft rgt => 0 <= top /\ 0 <= bottom /\ 0 <= lft /\ 0 <= rgt | _ => True end.
(** No frame is added. *)
Definition rigid (a : motion) : Prop := match a with Framed _ _ _ _ => False | _ => True end.

(** *** All of them are exchange, signs and offset *)
Definition unit (s : Z) : Prop := s = 1 \/ s = -1.
Definition gmap (sw : bool) (s t e f : Z) (p : Z * Z) : Z * Z :=
  let q := if sw then (snd p, fst p) else p in (e + s * fst q, f + t * snd q).
Definition Gmap (sw : bool) (s t e f : Z) (p : pt) : pt :=
  let q := if sw then (snd p, fst p) else p in (IZR e + IZR s * fst q, IZR f + IZR t * snd q)%R.
Definition seen {T} (blank : T) (g : Z * Z -> Z * Z) (m m' : image T) : Prop :=
  (forall p, in_img m (fst p) (snd p) -> in_img m' (fst (g p)) (snd (g p)) /\ px m' (fst (g p)) (snd (g p)) = px m (fst p) (snd p)) /\
  (forall q, in_img m' (fst q) (snd q) -> px m' (fst q) (snd q) = blank \/ exists p, in_img m (fst p) (snd p) /\ g p = q).
(** Nothing is blank around the image. *)
Definition onto {T} (g : Z * Z -> Z * Z) (m m' : image T) : Prop :=
  forall q, in_img m' (fst q) (snd q) -> exists p, in_img m (fst p) (snd p) /\ g p = q.

Lemma moves_size {T} (blank : T) ms : forall h w (m : image T), ih m = h -> iw m = w ->
  forall T' (b' : T') (m' : image T'), ih m' = h -> iw m' = w ->
  ih (moves blank ms m) = ih (moves b' ms m') /\ iw (moves blank ms m) = iw (moves b' ms m').
Proof.
  induction ms as [|a ms IH]; intros h w m E1 E2 T' b' m' E1' E2'; cbn [moves]; [lia|].
  apply (IH (fst (size_after a h w)) (snd (size_after a h w))); destruct a; cbn; lia.
Qed.
Definition aff (a : motion) (h w : Z) : bool * Z * Z * Z * Z :=
  match a with
  | UpsideDown => (false, -1, 1, h - 1, 0)
  | LeftRight => (false, 1, -1, 0, w - 1)
  | Transposed => (true, 1, 1, 0, 0)
  | Framed top _ lft _ => (false, 1, 1, top, lft)
  end.
Definition after (b a : bool * Z * Z * Z * Z) : bool * Z * Z * Z * Z :=
  let '(sw2, s2, t2, e2, f2) := b in let '(sw1, s1, t1, e1, f1) := a in
  if sw2 then (xorb sw2 sw1, s2 * t1, t2 * s1, e2 + s2 * f1, f2 + t2 * e1) else (xorb sw2 sw1, s2 * s1, t2 * t1, e2 + s2 * e1, f2 + t2 * f1).
Fixpoint affs (ms : list motion) (h w : Z) : bool * Z * Z * Z * Z :=
  match ms with [] => (false, 1, 1, 0, 0) | a :: ms => after (affs ms (fst (size_after a h w)) (snd (size_after a h w))) (aff a h w) end.
Definition gm (c : bool * Z * Z * Z * Z) : Z * Z -> Z * Z := let '(sw, s, t, e, f) := c in gmap sw s t e f.
Definition Gm (c : bool * Z * Z * Z * Z) : pt -> pt := let '(sw, s, t, e, f) := c in Gmap sw s t e f.
Definition units (c : bool * Z * Z * Z * Z) : Prop := let '(sw, s, t, e, f) := c in unit s /\ unit t.
Lemma gm_after b a p : gm (after b a) p = gm b (gm a p).
Proof. destruct b as [[[[sw2 s2] t2] e2] f2], a as [[[[sw1 s1] t1] e1] f1], p as [i j], sw2, sw1; unfold gm, after, gmap; cbn -[Z.mul Z.add]; apply f_equal2; ring. Qed.
Lemma Gm_after b a p : Gm (after b a) p = Gm b (Gm a p).
Proof. destruct b as [[[[sw2 s2] t2] e2] f2], a as [[[[sw1 s1] t1] e1] f1], p as [i j], sw2, sw1; unfold Gm, after, Gmap; cbn -[IZR Z.mul Z.add]; rewrite ?plus_IZR, ?mult_IZR; apply f_equal2; ring. Qed.
Lemma units_after b a : units b -> units a -> units (after b a).
Proof. destruct b as [[[[sw2 s2] t2] e2] f2], a as [[[[sw1 s1] t1] e1] f1], sw2, sw1; cbn; unfold unit; intros [A B] [C D]; split; nia. Qed.
Lemma aff_dot a h w p : Gm (aff a h w) p = move_dot a h w p.
Proof. destruct p as [y x], a; unfold Gm, aff, Gmap; cbn -[IZR Z.sub]; rewrite ?minus_IZR; apply f_equal2; ring. Qed.
Lemma affs_dot ms : forall h w p, Gm (affs ms h w) p = moves_dot ms h w p.
Proof.
  induction ms as [|a ms IH]; intros h w p; cbn [affs moves_dot]; [destruct p; unfold Gm, Gmap; cbn -[IZR]; apply f_equal2; ring|].
  now rewrite Gm_after, IH, aff_dot.
Qed.
Lemma affs_units ms : forall h w, units (affs ms h w).
Proof. induction ms as [|a ms IH]; intros h w; cbn [affs]; [cbn; unfold unit; lia|]. apply units_after; [apply IH|]. destruct a; cbn; unfold unit; lia. Qed.
Lemma seen_comp {T} (b : T) g g' m m' m'' : seen b g m m' -> seen b g' m' m'' -> seen b (fun p => g' (g p)) m m''.
Proof.
  intros [A B] [C D]. split.
  - intros p I. destruct (A p I) as [I' E]. destruct (C _ I') as [I'' E']. split; [exact I''|congruence].
  - intros q I. destruct (D q I) as [Z|[p' [I' E]]]; [now left|]. destruct (B p' I') as [Z|[p [I2 E2]]].
    + left. subst q. destruct (C _ I') as [_ ->]. exact Z.
    + right. exists p. split; [exact I2|]. congruence.
Qed.
Lemma seen_move {T} (b : T) a m : frame_ok a -> seen b (gm (aff a (ih m) (iw m))) m (move b a m).
Proof.
  intros H. destruct a as [| | |t u l r]; cbn [aff gm gmap move]; (split; [intros [i j] [I1 I2]|intros [i j] [I1 I2]]); unfold in_img, gmap in *; cbn [ih iw px fst snd] in *.
  - split; [lia|]. f_equal; lia.
  - right. exists (ih m - 1 - i, j). unfold gm, aff, gmap. cbn [fst snd]. split; [lia|]. apply f_equal2; lia.
  - split; [lia|]. f_equal; lia.
  - right. exists (i, iw m - 1 - j). unfold gm, aff, gmap. cbn [fst snd]. split; [lia|]. apply f_equal2; lia.
  - split; [lia|]. f_equal; lia.
  - right. exists (j, i). unfold gm, aff, gmap. cbn [fst snd]. split; [lia|]. apply f_equal2; lia.
  - cbn in H. split; [lia|].
    assert (X : (t <=? t + 1 * i) && (t + 1 * i <? t + ih m) && (l <=? l + 1 * j) && (l + 1 * j <? l + iw m) = true) by (rewrite !andb_true_iff, !Z.leb_le, !Z.ltb_lt; lia).
    rewrite X. f_equal; lia.
  - destruct ((t <=? i) && (i <? t + ih m) && (l <=? j) && (j <? l + iw m)) eqn:X; [right|now left].
    rewrite !andb_true_iff, !Z.leb_le, !Z.ltb_lt in X. exists (i - t, j - l). unfold gm, aff, gmap. cbn [fst snd]. split; [lia|]. apply f_equal2; lia.
Qed.
Lemma onto_move {T} (b : T) a m : rigid a -> onto (gm (aff a (ih m) (iw m))) m (move b a m).
Proof.
  intros H [i j] I. destruct a as [| | |t u l r]; [| | |destruct H]; unfold in_img in *; cbn [move ih iw fst snd] in I.
  - exists (ih m - 1 - i, j). unfold gm, aff, gmap. cbn [fst snd]. split; [lia|]. apply f_equal2; lia.
  - exists (i, iw m - 1 - j). unfold gm, aff, gmap. cbn [fst snd]. split; [lia|]. apply f_equal2; lia.
  - exists (j, i). unfold gm, aff, gmap. cbn [fst snd]. split; [lia|]. apply f_equal2; lia.
Qed.
Lemma seen_ext {T} (b : T) g g' m m' : (forall p, g p = g' p) -> seen b g m m' -> seen b g' m m'.
Proof. intros E [A B]. split; [intros p I; rewrite <- E; now apply A|]. intros q I. destruct (B q I) as [Z|[p [I' E']]]; [now left|right; exists p; now rewrite <- E]. Qed.
Lemma gm_id p : gm (false, 1, 1, 0, 0) p = p.
Proof. destruct p as [i j]. unfold gm, gmap. cbn [fst snd]. apply f_equal2; ring. Qed.
Lemma seen_moves {T} (b : T) ms : forall m, Forall frame_ok ms -> seen b (gm (affs ms (ih m) (iw m))) m (moves b ms m).
Proof.
  induction ms as [|a ms IH]; intros m F; cbn [affs moves].
  - split; [intros p I; rewrite gm_id; now split|intros q I; right; exists q; now rewrite gm_id].
  - inversion F as [|x y Fa Fm]; subst. eapply seen_ext; [|eapply seen_comp; [apply seen_move; exact Fa|apply IH; exact Fm]].
    intros p. cbv beta. rewrite gm_after. f_equal. destruct a; reflexivity.
Qed.
Lemma onto_moves {T} (b : T) ms : forall m, Forall rigid ms -> onto (gm (affs ms (ih m) (iw m))) m (moves b ms m).
Proof.
  induction ms as [|a ms IH]; intros m F q I; cbn [affs moves] in *.
  - exists q. now rewrite gm_id.
  - inversion F as [|x y Fa Fm]; subst. destruct (IH _ Fm q I) as [p' [I' E']]. destruct (onto_move b a m Fa p' I') as [p [I2 E2]].
    exists p. split; [exact I2|]. rewrite gm_after, E2. rewrite <- E'. destruct a; reflexivity.
Qed.
Lemma rigid_ok a : rigid a -> frame_ok a. Proof. now destruct a. Qed.
(** What is seen is determined. *)
Lemma seen_unique {T} (b : T) g m m1 m2 : seen b g m m1 -> seen b g m m2 -> ih m1 = ih m2 -> iw m1 = iw m2 -> img_eq m1 m2.
Proof.
  intros [A1 B1] [A2 B2] E1 E2. split; [exact E1|]. split; [exact E2|]. intros i j I.
  assert (I2 : in_img m2 i j) by (unfold in_img in *; lia). destruct (B1 (i, j) I) as [Z1|[p [Ip Ep]]].
  - destruct (B2 (i, j) I2) as [Z2|[p [Ip Ep]]]; [cbn in *; congruence|]. destruct (A1 p Ip) as [_ X1], (A2 p Ip) as [_ X2]. rewrite Ep in *. cbn in *. congruence.
  - destruct (A1 p Ip) as [_ X1], (A2 p Ip) as [_ X2]. rewrite Ep in *. cbn in *. congruence.
Qed.
Lemma seen_map {T U} (b : T) (c : U) (f : T -> U) g m m' : f b = c -> seen b g m m' -> seen c g (img_map f m) (img_map f m').
Proof. intros E [A B]. split; [intros p I; destruct (A p I) as [I' E']; split; [exact I'|]; cbn [img_map px]; now rewrite E'|]. intros q I. destruct (B q I) as [Z|X]; [left; cbn; congruence|now right]. Qed.

(** *** Dots *)
Lemma rel_perm {A B} (rel : A -> B -> Prop) : forall l l', NoDup l -> NoDup l' ->
  (forall a, In a l -> exists b, In b l' /\ rel a b) -> (forall b, In b l' -> exists a, In a l /\ rel a b) ->
  (forall a a' b, In a l -> In a' l -> rel a b -> rel a' b -> a = a') -> (forall a b b', In b l' -> In b' l' -> rel a b -> rel a b' -> b = b') ->
  exists l2, Permutation l' l2 /\ Forall2 rel l l2.
Proof.
  induction l as [|a l IH]; intros l' N N' H1 H2 H3 H4.
  - exists []. destruct l' as [|b l']; [now split|]. destruct (H2 b (or_introl eq_refl)) as [a [[] _]].
  - destruct (H1 a (or_introl eq_refl)) as [b [Ib Rb]]. destruct (in_split _ _ Ib) as [u [v ->]]. inversion N as [|? ? Na Nl]; subst.
    pose proof (NoDup_remove_1 _ _ _ N') as Nuv. pose proof (NoDup_remove_2 _ _ _ N') as Nb.
    assert (Sub : forall x, In x (u ++ v) -> In x (u ++ b :: v)) by (intros x Hx; rewrite in_app_iff in *; cbn; tauto).
    destruct (IH (u ++ v)) as [l2 [P F]]; auto.
    + intros a' Ia. destruct (H1 a' (or_intror Ia)) as [b' [Ib' Rb']]. exists b'. split; [|exact Rb'].
      rewrite in_app_iff in *. cbn in Ib'. destruct Ib' as [?|[E|?]]; [now left| |now right]. subst b'.
      exfalso. apply Na. rewrite (H3 a a' b (or_introl eq_refl) (or_intror Ia) Rb Rb'). exact Ia.
    + intros b' Ib'. destruct (H2 b' (Sub _ Ib')) as [a' [Ia Ra]]. exists a'. split; [|exact Ra]. destruct Ia as [E|Ia]; [|exact Ia].
      subst a'. exfalso. apply Nb. rewrite (H4 a b b' Ib (Sub _ Ib') Rb Ra). exact Ib'.
    + intros x y z Hx Hy. apply H3; now right.
    + intros x y z Hy Hz. apply H4; auto.
    + exists (b :: l2). split; [|now constructor]. rewrite <- P. symmetry. apply Permutation_middle.
Qed.
Lemma Forall2_map_eq {A B C} (rel : A -> B -> Prop) (f : A -> C) (g : B -> C) l l' : Forall2 rel l l' -> (forall a b, rel a b -> f a = g b) -> map f l = map g l'.
Proof. intros F H. induction F as [|a b l l' Rab F IH]; [reflexivity|]. cbn. now rewrite IH, (H a b Rab). Qed.

Lemma grid_once h w : NoDup (grid h w).
Proof.
  unfold grid. generalize (zrange_nodup 0 h). generalize (zrange 0 h) as l. induction l as [|i l IH]; intros H; cbn [flat_map]; [constructor|].
  inversion H as [|? ? H1 H2]; subst. 
  assert (X : NoDup (map (fun j => (i, j)) (zrange 0 w))) by (apply FinFun.Injective_map_NoDup; [intros a b E; now injection E|apply zrange_nodup]).
  specialize (IH H2). assert (Y : forall p, In p (map (fun j => (i, j)) (zrange 0 w)) -> ~ In p (flat_map (fun i => map (fun j => (i, j)) (zrange 0 w)) l)).
  { intros p Hp Hq. apply in_map_iff in Hp. destruct Hp as [j [<- _]]. apply in_flat_map in Hq. destruct Hq as [i' [Hi Hq]]. apply in_map_iff in Hq. destruct Hq as [j' [E _]]. injection E as -> ->. contradiction. }
  induction (map (fun j => (i, j)) (zrange 0 w)) as [|p k IHk]; cbn [app]; [assumption|]. inversion X; subst. constructor.
  - rewrite in_app_iff. intros [?|?]; [contradiction|]. apply (Y p); [now left|assumption].
  - apply IHk; [assumption|]. intros q Hq. apply Y. now right.
Qed.
Lemma Forall2_len {A B} (r : A -> B -> Prop) l l' : Forall2 r l l' -> length l = length l'.
Proof. induction 1; cbn; congruence. Qed.

Section Dots.
  Variables (c : bool * Z * Z * Z * Z) (m m' : image R) (lab lab' : image Z) (n n' : Z).
  Hypothesis U : units c.
  Hypothesis S0 : seen 0%R (gm c) m m'.
  Hypothesis HL : labelling m lab n.
  Hypothesis HL' : labelling m' lab' n'.
  Lemma gm_inj p q : gm c p = gm c q -> p = q.
  Proof.
    destruct c as [[[[sw s] t] e] f], p as [i j], q as [k l]. destruct U as [Us Ut]. unfold gm, gmap. intros E. apply pair_equal_spec in E.
    unfold unit in *. destruct sw; cbn [fst snd] in E; apply f_equal2; nia.
  Qed.
  Lemma gm_adj p q : adjacent (gm c p) (gm c q) <-> adjacent p q.
  Proof.
    destruct c as [[[[sw s] t] e] f], p as [i j], q as [k l]. destruct U as [Us Ut]. unfold adjacent, gm, gmap, unit in *.
    destruct Us, Ut; subst; destruct sw; cbn [fst snd]; lia.
  Qed.
  Lemma set_moved p : set_pixel m p -> set_pixel m' (gm c p).
  Proof. intros [I Z]. destruct S0 as [A _]. destruct (A p I) as [I' E]. split; [exact I'|now rewrite E]. Qed.
  Lemma set_back q : set_pixel m' q -> exists p, set_pixel m p /\ gm c p = q.
  Proof. intros [I Z]. destruct S0 as [A B]. destruct (B q I) as [Z'|[p [Ip E]]]; [contradiction|]. exists p. split; [|exact E]. split; [exact Ip|]. destruct (A p Ip) as [_ X]. rewrite E in X. now rewrite <- X. Qed.
  Lemma conn_moved p q : connected m p q -> connected m' (gm c p) (gm c q).
  Proof. induction 1 as [p H|p q r H IH A S1]; [constructor; now apply set_moved|]. apply conn_step with (gm c q); [exact IH|now apply gm_adj|now apply set_moved]. Qed.
  Lemma conn_back a b : connected m' a b -> forall p q, gm c p = a -> gm c q = b -> connected m p q.
  Proof.
    induction 1 as [a H|a b d H IH A S1]; intros p q E1 E2.
    - assert (p = q) by (apply gm_inj; congruence). subst q. constructor. destruct (set_back a H) as [r [Hr Er]]. assert (r = p) by (apply gm_inj; congruence). now subst r.
    - destruct (set_back b (conn_set _ _ _ H)) as [r [Hr Er]]. apply conn_step with r; [now apply IH|apply gm_adj; congruence|].
      destruct (set_back d S1) as [r' [Hr' Er']]. assert (r' = q) by (apply gm_inj; congruence). now subst r'.
  Qed.
  (** The dot k of m is the dot k' of m'. *)
  Definition same_dot (k k' : Z) : Prop := exists p, set_pixel m p /\ px lab (fst p) (snd p) = k /\ px lab' (fst (gm c p)) (snd (gm c p)) = k'.
  Lemma set_label p : set_pixel m p -> 1 <= px lab (fst p) (snd p) <= n.
  Proof. intros [I Z]. destruct HL as (_ & _ & _ & A & _). destruct (A p I) as [B C]. apply C in Z. lia. Qed.
  Lemma set_label' p : set_pixel m' p -> 1 <= px lab' (fst p) (snd p) <= n'.
  Proof. intros [I Z]. destruct HL' as (_ & _ & _ & A & _). destruct (A p I) as [B C]. apply C in Z. lia. Qed.
  Lemma label_set k : 1 <= k <= n -> exists p, set_pixel m p /\ px lab (fst p) (snd p) = k.
  Proof. intros K. destruct HL as (_ & _ & _ & A & B & _). destruct (B k K) as [p [I E]]. exists p. split; [|exact E]. split; [exact I|]. apply (A p I). lia. Qed.
  Lemma label_set' k : 1 <= k <= n' -> exists p, set_pixel m' p /\ px lab' (fst p) (snd p) = k.
  Proof. intros K. destruct HL' as (_ & _ & _ & A & B & _). destruct (B k K) as [p [I E]]. exists p. split; [|exact E]. split; [exact I|]. apply (A p I). lia. Qed.
  Lemma same_total k : 1 <= k <= n -> exists k', 1 <= k' <= n' /\ same_dot k k'.
  Proof. intros K. destruct (label_set k K) as [p [Sp E]]. exists (px lab' (fst (gm c p)) (snd (gm c p))). split; [apply set_label', set_moved, Sp|now exists p]. Qed.
  Lemma same_onto k' : 1 <= k' <= n' -> exists k, 1 <= k <= n /\ same_dot k k'.
  Proof. intros K. destruct (label_set' k' K) as [q [Sq E]]. destruct (set_back q Sq) as [p [Sp Ep]]. exists (px lab (fst p) (snd p)). split; [now apply set_label|]. exists p. rewrite Ep. auto. Qed.
  Lemma same_inj k1 k2 k' : same_dot k1 k' -> same_dot k2 k' -> k1 = k2.
  Proof.
    intros [p [Sp [E1 E2]]] [q [Sq [F1 F2]]]. destruct HL as (_ & _ & _ & _ & _ & A), HL' as (_ & _ & _ & _ & _ & A').
    rewrite <- E1, <- F1. apply A; auto. apply (conn_back (gm c p) (gm c q)); auto. apply A'; try now apply set_moved. congruence.
  Qed.
  Lemma same_fun k k1 k2 : same_dot k k1 -> same_dot k k2 -> k1 = k2.
  Proof.
    intros [p [Sp [E1 E2]]] [q [Sq [F1 F2]]]. destruct HL as (_ & _ & _ & _ & _ & A), HL' as (_ & _ & _ & _ & _ & A').
    rewrite <- E2, <- F2. apply A'; try now apply set_moved. apply conn_moved. apply A; auto. congruence.
  Qed.
  Lemma same_perm : exists ks, Permutation (zrange 1 (n' + 1)) ks /\ Forall2 same_dot (zrange 1 (n + 1)) ks.
  Proof.
    apply rel_perm; try apply zrange_nodup.
    - intros k K. apply in_zrange in K. destruct (same_total k ltac:(lia)) as [k' [K' X]]. exists k'. split; [apply in_zrange; lia|exact X].
    - intros k K. apply in_zrange in K. destruct (same_onto k ltac:(lia)) as [k' [K' X]]. exists k'. split; [apply in_zrange; lia|exact X].
    - intros a a' b _ _. apply same_inj.
    - intros a b b' _ _. apply same_fun.
  Qed.
  Lemma same_number : n = n'.
  Proof.
    destruct same_perm as [ks [P F]]. apply Permutation_length in P. apply Forall2_len in F. rewrite zrange_length in *.
    destruct HL as (_ & _ & X & _), HL' as (_ & _ & X' & _). lia.
  Qed.
  Lemma same_labelled k k' p : same_dot k k' -> labelled lab k p -> set_pixel m p -> labelled lab' k' (gm c p).
  Proof.
    intros [q [Sq [E1 E2]]] [I E] Sp. destruct HL as (_ & _ & _ & _ & _ & A), HL' as (H1 & H2 & _ & _ & _ & A').
    pose proof (set_moved p Sp) as [I' _]. split; [unfold in_img in *; lia|]. rewrite <- E2. apply A'; try now apply set_moved. apply conn_moved. apply A; auto. congruence.
  Qed.
  Lemma same_labelled_back k k' q : same_dot k k' -> labelled lab' k' q -> set_pixel m' q -> exists p, labelled lab k p /\ set_pixel m p /\ gm c p = q.
  Proof.
    intros [r [Sr [E1 E2]]] [I E] Sq. destruct (set_back q Sq) as [p [Sp Ep]]. exists p. split; [|now split].
    destruct HL as (H1 & H2 & _ & _ & _ & A), HL' as (_ & _ & _ & _ & _ & A'). pose proof Sp as [Ip _].
    split; [unfold in_img in *; lia|]. rewrite <- E1. apply A; auto. apply (conn_back (gm c p) (gm c r)); auto. apply A'; try now apply set_moved. rewrite Ep. congruence.
  Qed.
  Lemma labelled_set k p : k <> 0 -> labelled lab k p -> set_pixel m p.
  Proof. intros K [I E]. destruct HL as (H1 & H2 & _ & A & _). assert (I2 : in_img m (fst p) (snd p)) by (unfold in_img in *; lia). split; [exact I2|]. apply (A p I2). congruence. Qed.
  Lemma labelled_set' k p : k <> 0 -> labelled lab' k p -> set_pixel m' p.
  Proof. intros K [I E]. destruct HL' as (H1 & H2 & _ & A & _). assert (I2 : in_img m' (fst p) (snd p)) by (unfold in_img in *; lia). split; [exact I2|]. apply (A p I2). congruence. Qed.
  Lemma same_range k k' : same_dot k k' -> 1 <= k <= n /\ 1 <= k' <= n'.
  Proof. intros [p [Sp [<- <-]]]. split; [now apply set_label|apply set_label', set_moved, Sp]. Qed.
  Lemma same_region k k' : same_dot k k' -> Permutation (region lab' k') (map (gm c) (region lab k)).
  Proof.
    intros X. pose proof (same_range k k' X) as [K K']. apply NoDup_Permutation.
    - apply NoDup_filter, grid_once.
    - apply FinFun.Injective_map_NoDup; [intros a b; apply gm_inj|]. apply NoDup_filter, grid_once.
    - intros q. rewrite in_region, in_map_iff. split.
      + intros L. destruct (same_labelled_back k k' q X L (labelled_set' k' q ltac:(lia) L)) as [p [Lp [_ E]]]. exists p. split; [exact E|]. now apply in_region.
      + intros [p [E L]]. apply in_region in L. subst q. apply (same_labelled k k'); auto. apply (labelled_set k); [lia|exact L].
  Qed.
End Dots.

Section Measures.
  Variables (c : bool * Z * Z * Z * Z) (m m' : image R) (lab lab' : image Z) (n n' : Z).
  Hypothesis U : units c.
  Hypothesis S0 : seen 0%R (gm c) m m'.
  Hypothesis HL : labelling m lab n.
  Hypothesis HL' : labelling m' lab' n'.
  Hypothesis Pos : forall i j, in_img m i j -> (0 <= px m i j)%R.
  Notation same := (same_dot c m lab lab').
  Lemma moment_moved k k' w : same k k' -> moment m' lab' k' w = moment m lab k (fun i j => w (fst (gm c (i, j))) (snd (gm c (i, j)))).
  Proof.
    intros X. destruct HL as (E1 & E2 & _), HL' as (E1' & E2' & _).
    rewrite <- (region_moment m' m' lab' k' w E1' E2') by auto. rewrite <- (region_moment m m lab k _ E1 E2) by auto.
    rewrite (Rsum_perm _ _ (Permutation_map _ (same_region c m m' lab lab' n n' U S0 HL HL' k k' X))), map_map.
    apply Rsum_map_ext. intros p Hp. apply in_region in Hp. destruct Hp as [I _]. destruct S0 as [A _].
    destruct (A p) as [_ E]; [unfold in_img in *; lia|]. destruct p as [i j]. cbn [fst snd] in *. now rewrite E.
  Qed.
  Lemma moment_lin k a b d u v : moment m lab k (fun i j => a + b * u i j + d * v i j)%R =
    (a * mass m lab k + b * moment m lab k u + d * moment m lab k v)%R.
  Proof.
    unfold mass, moment. rewrite <- !sumZ_scal, <- !sumZ_plus. apply sumZ_ext. intros i _. rewrite <- !sumZ_scal, <- !sumZ_plus. apply sumZ_ext. intros j _. ring.
  Qed.
  Lemma moment_ext k u v : (forall i j, u i j = v i j) -> moment m lab k u = moment m lab k v.
  Proof. intros E. unfold moment. apply sumZ_ext. intros i _. apply sumZ_ext. intros j _. now rewrite E. Qed.
  Lemma mass_moved k k' : same k k' -> mass m' lab' k' = mass m lab k.
  Proof. intros X. unfold mass. now rewrite (moment_moved k k' _ X). Qed.
  Lemma mass_positive k k' : same k k' -> (0 < mass m lab k)%R.
  Proof.
    intros [p [[I Z] [E _]]]. destruct HL as (E1 & E2 & _). apply (mass_pos m lab k p); auto.
    - split; [unfold in_img in *; lia|exact E].
    - specialize (Pos _ _ I). lra.
  Qed.
  Lemma centroid_moved k k' : same k k' -> centroid m' lab' k' = Gm c (centroid m lab k).
  Proof.
    intros X. pose proof (mass_positive k k' X) as M. unfold centroid. rewrite (mass_moved k k' X), !(moment_moved k k' _ X).
    destruct c as [[[[sw s] t] e] f]. unfold Gm, Gmap, gm, gmap.
    assert (A : forall e s u, moment m lab k (fun i j => IZR (e + s * u i j)) = (IZR e * mass m lab k + IZR s * moment m lab k (fun i j => IZR (u i j)))%R).
    { clear. intros e s u. rewrite (moment_ext k _ (fun i j => IZR e + IZR s * IZR (u i j) + 0 * 0)%R) by (intros; rewrite plus_IZR, mult_IZR; ring).
      rewrite (moment_lin k _ _ 0 (fun i j => IZR (u i j)) (fun _ _ => 0%R)). ring. }
    pose proof (A e s (fun i _ => i)) as A1. pose proof (A e s (fun _ j => j)) as A2. pose proof (A f t (fun i _ => i)) as A3. pose proof (A f t (fun _ j => j)) as A4. cbv beta in *.
    destruct sw; cbn [fst snd]; rewrite ?A1, ?A2, ?A3, ?A4; apply f_equal2; field; lra.
  Qed.
  Lemma Gm_dist p q : dist (Gm c p) (Gm c q) = dist p q.
  Proof.
    destruct c as [[[[sw s] t] e] f], p as [y x], q as [y' x']. destruct U as [Us Ut]. unfold dist, Gm, Gmap, py, pxc, unit in *. f_equal.
    destruct Us, Ut; subst; destruct sw; cbn [fst snd]; ring.
  Qed.
  Lemma neighbours_moved k k' ds : same k k' -> neighbour_distances m lab n k ds -> neighbour_distances m' lab' n' k' ds.
  Proof.
    intros X [js [N [I [P So]]]]. pose proof (same_range c m m' lab lab' n n' S0 HL HL' k k' X) as [K K'].
    destruct (rel_perm same js (filter (fun j => negb (j =? k')) (zrange 1 (n' + 1)))) as [ks [Pk F]].
    - exact N.
    - apply NoDup_filter, zrange_nodup.
    - intros j J. apply I in J. destruct (same_total c m m' lab lab' n n' S0 HL HL' j ltac:(lia)) as [j' [J' Xj]]. exists j'. split; [|exact Xj].
      apply filter_In. split; [apply in_zrange; lia|]. apply negb_true_iff, Z.eqb_neq. intros ->. apply (proj2 J). exact (same_inj c m m' lab lab' n n' U S0 HL HL' j k k' Xj X).
    - intros j J. apply filter_In in J. destruct J as [J1 J2]. apply in_zrange in J1. apply negb_true_iff, Z.eqb_neq in J2.
      destruct (same_onto c m m' lab lab' n n' S0 HL HL' j ltac:(lia)) as [j0 [J0 Xj]]. exists j0. split; [|exact Xj]. apply I. split; [exact J0|]. intros ->. apply J2.
      exact (same_fun c m m' lab lab' n n' U S0 HL HL' k j k' Xj X).
    - intros a a' b _ _. apply (same_inj c m m' lab lab' n n' U S0 HL HL').
    - intros a b b' _ _. apply (same_fun c m m' lab lab' n n' U S0 HL HL').
    - exists ks. split; [|split; [|split; [|exact So]]].
      + apply (Permutation_NoDup Pk). apply NoDup_filter, zrange_nodup.
      + intros j. assert (Q : In j ks <-> In j (filter (fun j => negb (j =? k')) (zrange 1 (n' + 1)))) by (split; apply Permutation_in; [now symmetry|exact Pk]).
        rewrite Q, filter_In, in_zrange, negb_true_iff, Z.eqb_neq. lia.
      + rewrite P. erewrite (Forall2_map_eq same); [apply Permutation_refl|exact F|].
        intros a b Xab. rewrite (centroid_moved k k' X), (centroid_moved a b Xab), Gm_dist. reflexivity.
  Qed.
  (** Boxes. *)
  Definition box_moved (a b d e : Z) : Z * Z * Z * Z :=
    let '(sw, s, t, o, p) := c in
    let '(a, b, d, e) := if sw then (d, e, a, b) else (a, b, d, e) in
    let (a', b') := if s =? 1 then (o + a, o + b) else (o - b + 1, o - a + 1) in
    let (d', e') := if t =? 1 then (p + d, p + e) else (p - e + 1, p - d + 1) in (a', b', d', e').
  Lemma hull_moved k k' i j : same k k' -> in_hull lab k i j <-> in_hull lab' k' (fst (gm c (i, j))) (snd (gm c (i, j))).
  Proof.
    intros X. pose proof (same_range c m m' lab lab' n n' S0 HL HL' k k' X) as [K K'].
    assert (Fw : forall p, labelled lab k p -> labelled lab' k' (gm c p)).
    { intros p L. apply (same_labelled c m m' lab lab' n n' U S0 HL HL' k k' p X L). apply (labelled_set m lab n HL k p); [lia|exact L]. }
    assert (Bw : forall q, labelled lab' k' q -> exists p, labelled lab k p /\ gm c p = q).
    { intros q L. destruct (same_labelled_back c m m' lab lab' n n' U S0 HL HL' k k' q X L) as [p [A [_ B]]]; [|eauto]. apply (labelled_set' m' lab' n' HL' k' q); [lia|exact L]. }
    destruct c as [[[[sw s] t] e] f]. destruct U as [Us Ut]. unfold gm, gmap, unit in *. unfold in_hull. split.
    - intros [[p [q [Lp [Lq C1]]]] [p2 [q2 [Lp2 [Lq2 C2]]]]]. apply Fw in Lp, Lq, Lp2, Lq2.
      destruct Us, Ut; subst; destruct sw; cbn [fst snd] in *; split;
      match goal with
      | |- exists p q, _ /\ _ /\ fst p <= ?z <= fst q => idtac
      | _ => idtac
      end;
      solve [ eexists; eexists; split; [exact Lp|split; [exact Lq|cbn [fst snd]; lia]]
            | eexists; eexists; split; [exact Lq|split; [exact Lp|cbn [fst snd]; lia]]
            | eexists; eexists; split; [exact Lp2|split; [exact Lq2|cbn [fst snd]; lia]]
            | eexists; eexists; split; [exact Lq2|split; [exact Lp2|cbn [fst snd]; lia]] ].
    - intros [[p' [q' [Lp [Lq C1]]]] [p2' [q2' [Lp2 [Lq2 C2]]]]].
      apply Bw in Lp, Lq, Lp2, Lq2. destruct Lp as [p [Lp Ep]], Lq as [q [Lq Eq]], Lp2 as [p2 [Lp2 Ep2]], Lq2 as [q2 [Lq2 Eq2]]. subst p' q' p2' q2'.
      destruct Us, Ut; subst; destruct sw; cbn [fst snd] in *; split;
      solve [ eexists; eexists; split; [exact Lp|split; [exact Lq|cbn [fst snd]; lia]]
            | eexists; eexists; split; [exact Lq|split; [exact Lp|cbn [fst snd]; lia]]
            | eexists; eexists; split; [exact Lp2|split; [exact Lq2|cbn [fst snd]; lia]]
            | eexists; eexists; split; [exact Lq2|split; [exact Lp2|cbn [fst snd]; lia]] ].
  Qed.
End Measures.

(** The same rotation and mirroring, of a part of the image. *)
Definition turn_of (c : bool * Z * Z * Z * Z) : list motion :=
  let '(sw, s, t, _, _) := c in
  (if sw then [Transposed] else []) ++ (if s =? 1 then [] else [UpsideDown]) ++ (if t =? 1 then [] else [LeftRight]).
Lemma turn_rigid c : Forall rigid (turn_of c).
Proof. destruct c as [[[[sw s] t] e] f]. unfold turn_of. destruct sw, (s =? 1), (t =? 1); repeat constructor. Qed.
Lemma img_sum_move a m : rigid a -> img_sum (move 0%R a m) = img_sum m.
Proof.
  unfold img_sum. destruct a; intros H; cbn [move ih iw px]; [| | |destruct H].
  - symmetry. apply sumZ_rev.
  - apply sumZ_ext. intros i _. symmetry. apply sumZ_rev.
  - symmetry. apply (sumZ_swap (ih m) (iw m) (px m)).
Qed.
Lemma img_sum_moves ms : forall m, Forall rigid ms -> img_sum (moves 0%R ms m) = img_sum m.
Proof. induction ms as [|a ms IH]; intros m F; [reflexivity|]. inversion F; subst. cbn [moves]. rewrite IH by assumption. now apply img_sum_move. Qed.
Section Boxes.
  Variables (c : bool * Z * Z * Z * Z) (m m' : image R) (lab lab' : image Z) (n n' : Z).
  Hypothesis U : units c.
  Hypothesis S0 : seen 0%R (gm c) m m'.
  Hypothesis HL : labelling m lab n.
  Hypothesis HL' : labelling m' lab' n'.
  Notation same := (same_dot c m lab lab').
  Lemma gm_surj q : exists p, gm c p = q.
  Proof.
    destruct c as [[[[sw s] t] e] f], q as [i j]. destruct U as [Us Ut]. unfold gm, gmap, unit in *.
    destruct sw; [exists ((j - f) * t, (i - e) * s)|exists ((i - e) * s, (j - f) * t)]; cbn [fst snd]; apply f_equal2; nia.
  Qed.
  Lemma hull_box_moved k k' a b d e : same k k' -> hull_box lab k a b d e ->
    let '(a', b', d', e') := box_moved c a b d e in hull_box lab' k' a' b' d' e'.
  Proof.
    intros X [H1 [H2 H3]]. destruct (box_moved c a b d e) as [[[a' b'] d'] e'] eqn:Eb.
    assert (B : a' < b' /\ d' < e' /\ forall i j, (a <= i < b /\ d <= j < e) <-> (a' <= fst (gm c (i, j)) < b' /\ d' <= snd (gm c (i, j)) < e')).
    { clear -U H1 H2 Eb. destruct c as [[[[sw s] t] o] p]. destruct U as [Us Ut]. unfold box_moved, gm, gmap, unit in *.
      destruct Us, Ut; subst; cbn [Z.eqb Pos.eqb] in Eb; destruct sw; apply pair_equal_spec in Eb; destruct Eb as [Eb E4]; apply pair_equal_spec in Eb; destruct Eb as [Eb E3];
        apply pair_equal_spec in Eb; destruct Eb as [E1 E2]; subst; cbn [fst snd]; repeat split; intros; try lia. }
    destruct B as [B1 [B2 B3]]. split; [exact B1|]. split; [exact B2|]. intros i j. destruct (gm_surj (i, j)) as [[u v] E].
    pose proof (hull_moved c m m' lab lab' n n' U S0 HL HL' k k' u v X) as Y. specialize (B3 u v). rewrite E in *. cbn [fst snd] in *. rewrite <- Y, H3. exact B3.
  Qed.
  Lemma part_moved k k' a b d e : same k k' -> hull_box lab k a b d e ->
    let '(a', b', d', e') := box_moved c a b d e in img_eq (subimage m' a' b' d' e') (moves 0%R (turn_of c) (subimage m a b d e)).
  Proof.
    intros X HB. destruct (hull_in_img _ _ _ _ _ _ HB) as [I1 [I2 [I3 I4]]]. destruct HL as (E1 & E2 & _). destruct HB as [H1 [H2 _]].
    assert (A : forall i j, in_img m i j -> px m' (fst (gm c (i, j))) (snd (gm c (i, j))) = px m i j) by (intros i j I; apply (proj1 S0 (i, j) I)).
    clear S0 X. destruct c as [[[[sw s] t] o] p]. destruct U as [Us Ut]. unfold box_moved, turn_of, gm, gmap, unit in *.
    destruct Us, Ut; subst; cbn [Z.eqb Pos.eqb]; destruct sw; cbn [app moves move subimage ih iw px fst snd] in *; (split; [cbn; lia|split; [cbn; lia|]]);
      unfold in_img, subimage in *; cbn [ih iw px]; intros i j I; rewrite <- A by lia; f_equal; lia.
  Qed.
End Boxes.
