(** Proofs about the pattern generators of util/utility.py. *)
From Coq Require Import Reals ZArith List Lra Lia Bool ZifyBool.
From Flocq Require Import Core.
From Verif Require Import Base Num Img Spec Post NumFacts PostImg PostImg2 PostPersp Util.
Local Open Scope Z_scope.

(** ** Circle mask *)
Lemma circle_mask_R width ratio i j :
  px (@make_circle_mask R Rex width ratio) i j =
  let c := width / 2 in
  if Rle_dec (IZR ((i - c) * (i - c) + (j - c) * (j - c))) ((ratio * IZR c) * (ratio * IZR c))
  then 1%R else 0%R.
Proof.
  unfold make_circle_mask. cbn [px]. unnum. cbv zeta.
  replace ((j - width / 2) * (j - width / 2) + (i - width / 2) * (i - width / 2))
    with ((i - width / 2) * (i - width / 2) + (j - width / 2) * (j - width / 2)) by ring.
  destruct (Rle_bool_spec (IZR ((i - width / 2) * (i - width / 2) + (j - width / 2) * (j - width / 2)))
    (ratio * IZR (width / 2) * (ratio * IZR (width / 2))));
  destruct (Rle_dec (IZR ((i - width / 2) * (i - width / 2) + (j - width / 2) * (j - width / 2)))
    (ratio * IZR (width / 2) * (ratio * IZR (width / 2)))); try reflexivity; lra.
Qed.

Lemma circle_mask_sym {T} {N : Num T} width ratio i j :
  px (make_circle_mask width ratio) j i = px (make_circle_mask width ratio) i j.
Proof.
  unfold make_circle_mask. cbn [px].
  now replace ((i - width / 2) * (i - width / 2) + (j - width / 2) * (j - width / 2))
    with ((j - width / 2) * (j - width / 2) + (i - width / 2) * (i - width / 2)) by ring.
Qed.

Lemma circle_mask_flip {T} {N : Num T} width ratio i j : width mod 2 = 1 ->
  px (make_circle_mask width ratio) (width - 1 - i) j = px (make_circle_mask width ratio) i j /\
  px (make_circle_mask width ratio) i (width - 1 - j) = px (make_circle_mask width ratio) i j.
Proof.
  intros H. unfold make_circle_mask. cbn [px].
  assert (E : width = 2 * (width / 2) + 1).
  { rewrite <- H. apply Z.div_mod. lia. }
  set (c := width / 2) in *. clearbody c. subst width.
  replace (2 * c + 1 - 1 - i - c) with (- (i - c)) by ring.
  replace (2 * c + 1 - 1 - j - c) with (- (j - c)) by ring.
  rewrite !Z.mul_opp_opp. now split.
Qed.

(** ** Slices *)
Lemma fill_px {T} (m : image T) r0 r1 c0 c1 v i j :
  0 <= r0 <= ih m -> 0 <= r1 <= ih m -> 0 <= c0 <= iw m -> 0 <= c1 <= iw m ->
  px (fill m r0 r1 c0 c1 v) i j =
  if (r0 <=? i) && (i <? r1) && (c0 <=? j) && (j <? c1) then v else px m i j.
Proof. intros. unfold fill. cbn [px]. now rewrite !slice_bound_id by lia. Qed.
Lemma fill_ih {T} (m : image T) r0 r1 c0 c1 v : ih (fill m r0 r1 c0 c1 v) = ih m.
Proof. reflexivity. Qed.
Lemma fill_iw {T} (m : image T) r0 r1 c0 c1 v : iw (fill m r0 r1 c0 c1 v) = iw m.
Proof. reflexivity. Qed.

(** Specification of an arithmetic progression. *)
Definition prog (a b s x : Z) : Prop := exists k, 0 <= k /\ x = a + s * k /\ x < b.

Lemma prog_iff a b s x : 0 < s -> In x (zrange_step a b s) <-> prog a b s x.
Proof. exact (in_zrange_step a b s x). Qed.

Lemma existsb_eqb i l : existsb (Z.eqb i) l = true <-> In i l.
Proof.
  rewrite existsb_exists. split.
  - intros [x [H E]]. apply Z.eqb_eq in E. now subst.
  - intros H. exists i. split; [assumption|apply Z.eqb_refl].
Qed.

(** Comparison with zero. *)
Lemma nz_0 : negb (@neqb R Rex 0%R (@n0 R Rex)) = false.
Proof. unnum. rewrite Req_bool_true by reflexivity. reflexivity. Qed.
Lemma nz_1 : negb (@neqb R Rex 1%R (@n0 R Rex)) = true.
Proof. unnum. rewrite Req_bool_false by lra. reflexivity. Qed.
Lemma nz_n0 : negb (@neqb R Rex (@n0 R Rex) (@n0 R Rex)) = false.
Proof. replace (@n0 R Rex) with 0%R at 1 by (unnum; reflexivity). apply nz_0. Qed.
Lemma nz_n1 : negb (@neqb R Rex (@n1 R Rex) (@n0 R Rex)) = true.
Proof. replace (@n1 R Rex) with 1%R by (unnum; reflexivity). apply nz_1. Qed.

(** ** Dot pattern *)
Definition clip_size (s h w : Z) : Z := Z.min (Z.max s 1) (Z.min h w / 8).

(** The pixel (i, j) lies in the disk of the dot centred at (gy, gx). *)
Definition in_window (n i j gy gx : Z) : Prop :=
  let c := n / 2 in - c <= i - gy < n - c /\ - c <= j - gx < n - c.
Definition in_disk (n i j gy gx : Z) : Prop :=
  in_window n i j gy gx /\ (i - gy) * (i - gy) + (j - gx) * (j - gx) <= (n / 2) * (n / 2).

Lemma dot_pattern_error h w d s m :
  @make_dot_pattern R Rex h w d s m = Err ValueError <->
  d < clip_size s h w \/ margins m = Err ValueError.
Proof.
  unfold make_dot_pattern. fold (clip_size s h w).
  destruct (Z.ltb_spec d (clip_size s h w)) as [H|H]; [intuition|].
  destruct (margins m) as [[mv mh]|e] eqn:E; cbn [bind].
  - split; [|intros [?|?]; [lia|discriminate]].
    destruct (clip_size s h w <=? 0); discriminate.
  - split; [intros [= ->]; auto|]. intros [?|[= ->]]; [lia|reflexivity].
Qed.

Lemma dot_pattern_ok h w d s m mv mh :
  margins m = Ok (mv, mh) -> 0 <= mv -> 0 <= mh ->
  1 <= clip_size s h w <= d ->
  let n := clip_size s h w in
  exists out, @make_dot_pattern R Rex h w d s m = Ok out /\ ih out = h /\ iw out = w /\
    forall i j, in_img out i j ->
      (px out i j = 0%R /\ (exists gy gx,
          prog (mv + n / 2 + 1) (h - mv - n / 2 - 1) d gy /\
          prog (mh + n / 2 + 1) (w - mh - n / 2 - 1) d gx /\ in_disk n i j gy gx)) \/
      (px out i j = 1%R /\ ~ (exists gy gx,
          prog (mv + n / 2 + 1) (h - mv - n / 2 - 1) d gy /\
          prog (mh + n / 2 + 1) (w - mh - n / 2 - 1) d gx /\ in_disk n i j gy gx)).
Proof.
  intros Hm Hv Hh Hn. cbv zeta. set (n := clip_size s h w) in *.
  unfold make_dot_pattern. fold (clip_size s h w). fold n.
  destruct (Z.ltb_spec d n) as [?|_]; [lia|]. rewrite Hm. cbn [bind fst snd].
  destruct (Z.leb_spec n 0) as [?|_]; [lia|].
  eexists. split; [reflexivity|]. cbn [ih iw px]. split; [reflexivity|split; [reflexivity|]].
  intros i j [Hi Hj]. cbn [ih iw] in Hi, Hj.
  match goal with |- context [binary_dilation ?a ?b] => set (mat := a); set (mask := b) end.
  set (c := n / 2) in *.
  assert (Hc : 0 <= c /\ (n = 2 * c \/ n = 2 * c + 1)).
  { unfold c. pose proof (Z.div_mod n 2 ltac:(lia)). pose proof (Z.mod_pos_bound n 2 ltac:(lia)). lia. }
  assert (Hwh : 8 * n <= h /\ 8 * n <= w).
  { unfold n, clip_size in *. pose proof (Z.div_mod (Z.min h w) 8 ltac:(lia)).
    pose proof (Z.mod_pos_bound (Z.min h w) 8 ltac:(lia)). lia. }
  assert (Hprog : forall L mg x, 0 <= mg -> 8 * n <= L ->
     In x (zrange_step (slice_bound L (mg + (c + 1))) (slice_bound L (L - mg - (c + 1))) d) <->
     prog (mg + c + 1) (L - mg - c - 1) d x).
  { intros L mg x Hmg HL. rewrite in_zrange_step by lia. unfold prog, slice_bound.
    destruct (Z.ltb_spec (mg + (c + 1)) 0) as [?|_]; [lia|].
    destruct (Z.ltb_spec (L - mg - (c + 1)) 0) as [Hneg|Hpos].
    - split; intros [k [H1 [H2 H3]]]; nia.
    - destruct (Z.le_gt_cases (mg + (c + 1)) L) as [Hle|Hgt].
      + replace (Z.min (mg + (c + 1)) L) with (mg + c + 1) by lia.
        replace (Z.min (L - mg - (c + 1)) L) with (L - mg - c - 1) by lia. reflexivity.
      + lia. }
  assert (Hmat : forall y x, 0 <= y < h -> 0 <= x < w ->
     (negb (@neqb R Rex (px mat y x) (@n0 R Rex)) = true <->
       prog (mv + c + 1) (h - mv - c - 1) d y /\ prog (mh + c + 1) (w - mh - c - 1) d x)).
  { intros y x Hy Hx. unfold mat, fill_step. cbn [px ih iw].
    rewrite <- (Hprog h mv y), <- (Hprog w mh x) by lia.
    rewrite <- !existsb_eqb.
    destruct (existsb (Z.eqb y) _), (existsb (Z.eqb x) _); cbn [andb];
      rewrite ?nz_n1, ?nz_n0; intuition discriminate. }
  assert (Hmask : forall a b, (negb (@neqb R Rex (px mask a b) (@n0 R Rex)) = true <->
     (a - c) * (a - c) + (b - c) * (b - c) <= c * c)).
  { intros a b. unfold mask. rewrite circle_mask_R. cbv zeta. fold c.
    replace (@n1 R Rex) with 1%R by (unnum; reflexivity).
    rewrite Rmult_1_l, <- mult_IZR.
    destruct (Rle_dec _ _) as [H|H].
    - apply le_IZR in H. rewrite nz_1. tauto.
    - rewrite nz_0. split; [discriminate|]. intros H'. apply IZR_le in H'. lra. }
  assert (Hdil : @binary_dilation R Rex mat mask i j = true <-> (exists gy gx,
          prog (mv + c + 1) (h - mv - c - 1) d gy /\
          prog (mh + c + 1) (w - mh - c - 1) d gx /\ in_disk n i j gy gx)).
  { unfold binary_dilation. change (ih mask) with n. fold c. rewrite existsb_exists.
    change (ih mat) with h. change (iw mat) with w.
    split.
    - intros [[a b] [Hab H]]. apply in_grid in Hab. cbn [fst snd] in H.
      apply andb_prop in H. destruct H as [H H3]. apply andb_prop in H. destruct H as [H1 H2].
      apply Hmask in H1. apply Hmat in H3; [|lia|lia].
      exists (i - a + c), (j - b + c). destruct H3 as [P1 P2]. split; [assumption|]. split; [assumption|].
      unfold in_disk, in_window. fold c. split; [lia|].
      replace (i - (i - a + c)) with (a - c) by ring. replace (j - (j - b + c)) with (b - c) by ring.
      assumption.
    - intros [gy [gx [P1 [P2 [HW HD]]]]]. unfold in_window in HW. cbv zeta in HW. fold c in HW, HD.
      exists (i - gy + c, j - gx + c). split; [apply in_grid; lia|]. cbn [fst snd].
      replace (i - (i - gy + c) + c) with gy by ring. replace (j - (j - gx + c) + c) with gx by ring.
      assert (Hgy : 0 <= gy < h).
      { destruct P1 as [k [Hk [Ek Hb]]]. nia. }
      assert (Hgx : 0 <= gx < w).
      { destruct P2 as [k [Hk [Ek Hb]]]. nia. }
      rewrite (proj2 (Hmat gy gx Hgy Hgx)) by now split.
      rewrite (proj2 (Hmask _ _)).
      + lia.
      + replace (i - gy + c - c) with (i - gy) by ring. replace (j - gx + c - c) with (j - gx) by ring.
        assumption. }
  destruct (@binary_dilation R Rex mat mask i j) eqn:E; unnum.
  - left. split; [ring|]. now apply Hdil.
  - right. split; [ring|]. rewrite <- Hdil. discriminate.
Qed.

(** Windows of different dots are disjoint. *)
Lemma dot_windows_disjoint n d a b a' b' i j gy gx gy' gx' : 1 <= n <= d ->
  prog a b d gy -> prog a' b' d gx -> prog a b d gy' -> prog a' b' d gx' ->
  in_window n i j gy gx -> in_window n i j gy' gx' -> gy = gy' /\ gx = gx'.
Proof.
  unfold prog, in_window. cbv zeta.
  intros Hn [k1 [K1 [-> _]]] [k2 [K2 [-> _]]] [k3 [K3 [-> _]]] [k4 [K4 [-> _]]] W1 W2.
  assert (k1 = k3) by nia. assert (k2 = k4) by nia. subst. auto.
Qed.

(** Pixels near the border are blank. *)
Lemma dot_margin n d L mg g i : 1 <= n -> 0 < d ->
  prog (mg + n / 2 + 1) (L - mg - n / 2 - 1) d g ->
  - (n / 2) <= i - g < n - n / 2 -> mg < i < L - mg - 1.
Proof.
  intros Hn Hd [k [Hk [-> Hb]]] Hw.
  pose proof (Z.div_mod n 2 ltac:(lia)). pose proof (Z.mod_pos_bound n 2 ltac:(lia)). nia.
Qed.

(** ** Line pattern *)
Definition covered (size i : Z) (l : list Z) : Prop := exists s, In s l /\ s <= i < s + size.

Lemma pyget_first {A} (a : A) l : pyget (a :: l) 0 = Ok a.
Proof.
  unfold pyget. change (0 <? 0) with false. cbn iota. cbn [length].
  replace ((0 <? 0) || (Z.of_nat (S (length l)) <=? 0)) with false by (symmetry; lia).
  reflexivity.
Qed.
Lemma pyget_last {A} (l : list A) a : pyget (l ++ [a]) (-1) = Ok a.
Proof.
  unfold pyget. rewrite app_length. cbn [length].
  change (-1 <? 0) with true. cbn iota.
  replace ((-1 + Z.of_nat (length l + 1) <? 0) || (Z.of_nat (length l + 1) <=? -1 + Z.of_nat (length l + 1)))
    with false by (symmetry; lia).
  replace (Z.to_nat (-1 + Z.of_nat (length l + 1))) with (length l) by lia.
  rewrite nth_error_app2 by lia. now rewrite Nat.sub_diag.
Qed.
Lemma pyget_nil {A} i : @pyget A [] i = Err IndexError.
Proof.
  unfold pyget. cbn [length Z.of_nat]. destruct (i <? 0) eqn:E.
  - replace ((i + 0 <? 0) || (0 <=? i + 0)) with true by (symmetry; lia). reflexivity.
  - replace ((i <? 0) || (0 <=? i)) with true by (symmetry; lia). reflexivity.
Qed.

(** First and last elements of a progression bound all the others. *)
Lemma zrange_step_ends a b s : 0 < s -> zrange_step a b s <> [] ->
  pyget (zrange_step a b s) 0 = Ok a /\
  exists z, pyget (zrange_step a b s) (-1) = Ok z /\ In z (zrange_step a b s) /\
    forall x, In x (zrange_step a b s) -> a <= x <= z.
Proof.
  intros Hs. unfold zrange_step. destruct (Z.to_nat _) as [|k] eqn:E; [cbn; congruence|]. intros _.
  split.
  - cbn [seq map]. rewrite pyget_first. f_equal. lia.
  - exists (a + s * Z.of_nat k). split; [|split].
    + rewrite seq_S, map_app. cbn [map]. apply pyget_last.
    + apply in_map_iff. exists k. split; [reflexivity|]. apply in_seq. lia.
    + intros x Hx. apply in_map_iff in Hx. destruct Hx as [q [<- Hq]]. apply in_seq in Hq. nia.
Qed.

Lemma line_rows_ok {T} {N : Num T} m is js size j0 j1 :
  pyget js 0 = Ok j0 -> pyget js (-1) = Ok j1 -> 0 <= size ->
  (forall i, In i is -> 0 <= i /\ i + size <= ih m) -> 0 <= j0 <= iw m -> 0 <= j1 + size <= iw m ->
  exists out, line_rows m is js size = Ok out /\ ih out = ih m /\ iw out = iw m /\
    forall i j, (px out i j = n1 /\ covered size i is /\ j0 <= j < j1 + size) \/
                (px out i j = px m i j /\ ~ (covered size i is /\ j0 <= j < j1 + size)).
Proof.
  intros E0 E1 Hs. revert m. induction is as [|r is IH]; intros m Hin H0 H1; cbn [line_rows].
  - exists m. split; [reflexivity|split; [reflexivity|split; [reflexivity|]]].
    intros i j. right. split; [reflexivity|]. intros [[s [[] _]] _].
  - rewrite E0, E1. cbn [bind].
    destruct (Hin r (or_introl eq_refl)) as [Hr0 Hr1].
    destruct (IH (fill m r (r + size) j0 (j1 + size) n1)) as [out [Eo [Eh [Ew H]]]];
      rewrite ?fill_ih, ?fill_iw; [intros; apply Hin; now right|assumption|assumption|].
    rewrite fill_ih in Eh. rewrite fill_iw in Ew.
    exists out. split; [exact Eo|]. split; [exact Eh|]. split; [exact Ew|].
    intros i j. destruct (H i j) as [[P [C J]]|[P C]].
    + left. split; [exact P|]. split; [|exact J]. destruct C as [s [Hs1 Hs2]]. exists s.
      split; [now right|assumption].
    + rewrite P, fill_px by lia.
      destruct ((r <=? i) && (i <? r + size) && (j0 <=? j) && (j <? j1 + size)) eqn:B.
      * left. split; [reflexivity|]. split; [exists r; split; [now left|lia]|lia].
      * right. split; [reflexivity|]. intros [[s [[<-|Hs1] Hs2]] J]; [lia|].
        apply C. split; [exists s; auto|exact J].
Qed.

Lemma line_cols_ok {T} {N : Num T} m is js size i0 i1 :
  pyget is 0 = Ok i0 -> pyget is (-1) = Ok i1 -> 0 <= size ->
  (forall j, In j js -> 0 <= j /\ j + size <= iw m) -> 0 <= i0 <= ih m -> 0 <= i1 + size <= ih m ->
  exists out, line_cols m is js size = Ok out /\ ih out = ih m /\ iw out = iw m /\
    forall i j, (px out i j = n1 /\ covered size j js /\ i0 <= i < i1 + size) \/
                (px out i j = px m i j /\ ~ (covered size j js /\ i0 <= i < i1 + size)).
Proof.
  intros E0 E1 Hs. revert m. induction js as [|r js IH]; intros m Hin H0 H1; cbn [line_cols].
  - exists m. split; [reflexivity|split; [reflexivity|split; [reflexivity|]]].
    intros i j. right. split; [reflexivity|]. intros [[s [[] _]] _].
  - rewrite E0, E1. cbn [bind].
    destruct (Hin r (or_introl eq_refl)) as [Hr0 Hr1].
    destruct (IH (fill m i0 (i1 + size) r (r + size) n1)) as [out [Eo [Eh [Ew H]]]];
      rewrite ?fill_ih, ?fill_iw; [intros; apply Hin; now right|assumption|assumption|].
    rewrite fill_ih in Eh. rewrite fill_iw in Ew.
    exists out. split; [exact Eo|]. split; [exact Eh|]. split; [exact Ew|].
    intros i j. destruct (H i j) as [[P [C J]]|[P C]].
    + left. split; [exact P|]. split; [|exact J]. destruct C as [s [Hs1 Hs2]]. exists s.
      split; [now right|assumption].
    + rewrite P, fill_px by lia.
      destruct ((i0 <=? i) && (i <? i1 + size) && (r <=? j) && (j <? r + size)) eqn:B.
      * left. split; [reflexivity|]. split; [exists r; split; [now left|lia]|lia].
      * right. split; [reflexivity|]. intros [[s [[<-|Hs1] Hs2]] J]; [lia|].
        apply C. split; [exists s; auto|exact J].
Qed.

(** Starts of the stripes along an axis of length L. *)
Definition stripe (L mg size d s : Z) : Prop := prog mg (L - mg - size) d s.
Definition on_stripe (L mg size d i : Z) : Prop := exists s, stripe L mg size d s /\ s <= i < s + size.
(** Between the start of the first and the end of the last stripe. *)
Definition within_stripes (L mg size d i : Z) : Prop :=
  exists s1 s2, stripe L mg size d s1 /\ stripe L mg size d s2 /\ s1 <= i < s2 + size.

Lemma stripe_empty L mg size d : 0 < d ->
  (forall s, ~ stripe L mg size d s) <-> zrange_step mg (L - mg - size) d = [].
Proof.
  intros Hd. split.
  - intros H. destruct (zrange_step mg (L - mg - size) d) as [|x l] eqn:E; [reflexivity|].
    destruct (H x). apply prog_iff; [assumption|]. rewrite E. now left.
  - intros E s Hs. apply prog_iff in Hs; [|assumption]. now rewrite E in Hs.
Qed.

Lemma line_pattern_ok h w d s m mv mh :
  margins m = Ok (mv, mh) -> 0 <= mv -> 0 <= mh -> 0 < d -> 1 <= clip_size s h w ->
  let n := clip_size s h w in
  ((exists x, stripe h mv n d x) <-> (exists x, stripe w mh n d x)) ->
  exists out, @make_line_pattern R Rex h w d s m = Ok out /\ ih out = h /\ iw out = w /\
    forall i j, in_img out i j ->
      let dark := (on_stripe h mv n d i /\ within_stripes w mh n d j) \/
                  (on_stripe w mh n d j /\ within_stripes h mv n d i) in
      (px out i j = 0%R /\ dark) \/ (px out i j = 1%R /\ ~ dark).
Proof.
  intros Hm Hv Hh Hd Hn. cbv zeta. set (n := clip_size s h w) in *. intros Hne.
  assert (Hwh : 8 * n <= h /\ 8 * n <= w).
  { unfold n, clip_size in *. pose proof (Z.div_mod (Z.min h w) 8 ltac:(lia)).
    pose proof (Z.mod_pos_bound (Z.min h w) 8 ltac:(lia)). lia. }
  unfold make_line_pattern. fold (clip_size s h w). fold n. rewrite Hm. cbn [bind fst snd].
  unfold arange. destruct (Z.eqb_spec d 0) as [?|_]; [lia|]. destruct (Z.ltb_spec d 0) as [?|_]; [lia|].
  cbn [bind]. set (is := zrange_step mv (h - mv - n) d). set (js := zrange_step mh (w - mh - n) d).
  assert (Hi : forall i, In i is <-> stripe h mv n d i) by (intros; apply prog_iff; lia).
  assert (Hj : forall j, In j js <-> stripe w mh n d j) by (intros; apply prog_iff; lia).
  assert (Hib : forall i, In i is -> 0 <= i /\ i + n <= h).
  { intros i Hii. apply Hi in Hii. destruct Hii as [k [K1 [-> K2]]]. nia. }
  assert (Hjb : forall j, In j js -> 0 <= j /\ j + n <= w).
  { intros j Hjj. apply Hj in Hjj. destruct Hjj as [k [K1 [-> K2]]]. nia. }
  assert (Hcov_i : forall i, covered n i is <-> on_stripe h mv n d i).
  { intros i. unfold covered, on_stripe. split; intros [x [Hx1 Hx2]]; exists x; (split; [now apply Hi|assumption]). }
  assert (Hcov_j : forall j, covered n j js <-> on_stripe w mh n d j).
  { intros j. unfold covered, on_stripe. split; intros [x [Hx1 Hx2]]; exists x; (split; [now apply Hj|assumption]). }
  destruct (list_eq_dec Z.eq_dec is []) as [Ei|NEi].
  - assert (Ej : js = []).
    { unfold js. apply stripe_empty; [assumption|]. intros x Hx.
      destruct (proj2 Hne (ex_intro _ x Hx)) as [y Hy]. apply Hi in Hy. now rewrite Ei in Hy. }
    rewrite Ei, Ej. cbn [line_rows line_cols bind]. eexists. split; [reflexivity|]. cbn [ih iw px].
    split; [reflexivity|split; [reflexivity|]]. intros i j _. right. unnum. split; [ring|].
    rewrite <- Hcov_i, <- Hcov_j, Ei, Ej. intros [[[x [[] _]] _]|[[x [[] _]] _]].
  - assert (NEj : js <> []).
    { intros Ej. destruct is as [|x l] eqn:E; [congruence|].
      assert (Hx : stripe h mv n d x) by (apply Hi; now left).
      destruct (proj1 Hne (ex_intro _ x Hx)) as [y Hy]. apply Hj in Hy. now rewrite Ej in Hy. }
    destruct (zrange_step_ends mv (h - mv - n) d Hd NEi) as [Ei0 [i1 [Ei1 [Hi1 Hir]]]].
    destruct (zrange_step_ends mh (w - mh - n) d Hd NEj) as [Ej0 [j1 [Ej1 [Hj1 Hjr]]]].
    fold is in Ei0, Ei1, Hi1, Hir. fold js in Ej0, Ej1, Hj1, Hjr.
    pose proof (Hib i1 Hi1) as Q1. pose proof (Hjb j1 Hj1) as Q2. pose proof (Hir i1 Hi1) as Q3. pose proof (Hjr j1 Hj1) as Q4.
    assert (Hwi : forall i, within_stripes h mv n d i <-> mv <= i < i1 + n).
    { intros i. unfold within_stripes. split.
      - intros [s1 [s2 [S1 [S2 B]]]]. apply Hi in S1. apply Hi in S2.
        pose proof (Hir s1 S1). pose proof (Hir s2 S2). lia.
      - intros B. exists mv, i1. split; [|split; [now apply Hi|assumption]].
        apply Hi in Hi1. destruct Hi1 as [k [K1 [K2 K3]]]. exists 0. lia. }
    assert (Hwj : forall j, within_stripes w mh n d j <-> mh <= j < j1 + n).
    { intros j. unfold within_stripes. split.
      - intros [s1 [s2 [S1 [S2 B]]]]. apply Hj in S1. apply Hj in S2.
        pose proof (Hjr s1 S1). pose proof (Hjr s2 S2). lia.
      - intros B. exists mh, j1. split; [|split; [now apply Hj|assumption]].
        apply Hj in Hj1. destruct Hj1 as [k [K1 [K2 K3]]]. exists 0. lia. }
    destruct (@line_rows_ok R Rex (mkimg h w (fun _ _ => @n0 R Rex)) is js n mh j1 Ej0 Ej1 ltac:(lia)) as [m1 [Em1 [H1h [H1w H1]]]];
      cbn [ih iw]; [intros i Hii; apply (Hib i Hii)|lia|lia|].
    rewrite Em1. cbn [bind].
    destruct (@line_cols_ok R Rex m1 is js n mv i1 Ei0 Ei1 ltac:(lia)) as [m2 [Em2 [H2h [H2w H2]]]];
      rewrite ?H1h, ?H1w; cbn [ih iw]; [intros j Hjj; apply (Hjb j Hjj)|lia|lia|].
    rewrite Em2. cbn [bind]. eexists. split; [reflexivity|]. cbn [ih iw px].
    split; [reflexivity|split; [reflexivity|]]. intros i j _.
    rewrite <- Hcov_i, <- Hcov_j, Hwi, Hwj.
    destruct (H2 i j) as [[P C]|[P C]].
    + left. rewrite P. unnum. split; [ring|]. right. tauto.
    + rewrite P. destruct (H1 i j) as [[P' C']|[P' C']]; rewrite P'; cbn [px]; unnum.
      * left. split; [ring|]. left. tauto.
      * right. split; [ring|]. tauto.
Qed.

Lemma line_pattern_index_error h w d s m mv mh :
  margins m = Ok (mv, mh) -> 0 < d ->
  let n := clip_size s h w in
  ~ ((exists x, stripe h mv n d x) <-> (exists x, stripe w mh n d x)) ->
  @make_line_pattern R Rex h w d s m = Err IndexError.
Proof.
  intros Hm Hd. cbv zeta. set (n := clip_size s h w) in *. intros Hne.
  unfold make_line_pattern. fold (clip_size s h w). fold n. rewrite Hm. cbn [bind fst snd].
  unfold arange. destruct (Z.eqb_spec d 0) as [?|_]; [lia|]. destruct (Z.ltb_spec d 0) as [?|_]; [lia|].
  cbn [bind]. 
  assert (Hi : forall i, In i (zrange_step mv (h - mv - n) d) <-> stripe h mv n d i) by (intros; apply prog_iff; lia).
  assert (Hj : forall j, In j (zrange_step mh (w - mh - n) d) <-> stripe w mh n d j) by (intros; apply prog_iff; lia).
  destruct (zrange_step mv (h - mv - n) d) as [|i is].
  - destruct (zrange_step mh (w - mh - n) d) as [|j js].
    + exfalso. apply Hne. split; intros [x Hx]; [apply Hi in Hx|apply Hj in Hx]; destruct Hx.
    + cbn [line_rows bind line_cols]. now rewrite pyget_nil.
  - destruct (zrange_step mh (w - mh - n) d) as [|j js].
    + cbn [line_rows]. now rewrite pyget_nil.
    + exfalso. apply Hne. split; intros _; [exists j; apply Hj|exists i; apply Hi]; now left.
Qed.

Lemma clip_size_sym s h w : clip_size s w h = clip_size s h w.
Proof. unfold clip_size. now rewrite (Z.min_comm w h). Qed.

Lemma line_pattern_transpose h w d s mv mh out :
  0 <= mv -> 0 <= mh -> 0 < d -> 1 <= clip_size s h w ->
  @make_line_pattern R Rex h w d s (MSeq [mv; mh]) = Ok out ->
  exists out', @make_line_pattern R Rex w h d s (MSeq [mh; mv]) = Ok out' /\
    ih out' = iw out /\ iw out' = ih out /\
    forall i j, in_img out i j -> px out' j i = px out i j.
Proof.
  intros Hv Hh Hd Hn E.
  destruct (Classical_Prop.classic ((exists x, stripe h mv (clip_size s h w) d x) <-> (exists x, stripe w mh (clip_size s h w) d x))) as [C|NC].
  - destruct (line_pattern_ok h w d s (MSeq [mv; mh]) mv mh eq_refl Hv Hh Hd Hn C) as [o [Eo [Oh [Ow O]]]].
    assert (o = out) by congruence. subst o.
    pose proof (line_pattern_ok w h d s (MSeq [mh; mv]) mh mv eq_refl Hh Hv Hd) as T.
    rewrite (clip_size_sym s h w) in T. destruct (T Hn ltac:(tauto)) as [o' [Eo' [Oh' [Ow' O']]]].
    exists o'. split; [exact Eo'|]. split; [congruence|]. split; [congruence|].
    intros i j Hij.
    assert (Hji : in_img o' j i) by (destruct Hij; split; congruence || lia).
    specialize (O i j Hij). specialize (O' j i Hji). cbv zeta in O, O'.
    destruct O as [[P Q]|[P Q]], O' as [[P' Q']|[P' Q']]; try congruence; tauto.
  - pose proof (line_pattern_index_error h w d s (MSeq [mv; mh]) mv mh eq_refl Hd NC). congruence.
Qed.

(** Dark pixels keep the margins blank. *)
Lemma stripe_margin L mg n d i : 0 <= mg -> 0 < d ->
  on_stripe L mg n d i \/ within_stripes L mg n d i -> mg <= i < L - mg.
Proof.
  intros Hm Hd [[s [[k [K1 [-> K2]]] B]]|[s1 [s2 [[k1 [A1 [-> A2]]] [[k2 [B1 [-> B2]]] B]]]]]; nia.
Qed.

(** ** Chessboard *)
Definition cell_color (num1 : Z) (wf : bool) : R :=
  if num1 mod 2 =? 0 then (if wf then 1%R else 0%R) else (if wf then 0%R else 1%R).

Lemma chess_cols_dim {T} {N : Num T} js : forall (m : image T) i size k wf,
  ih (chess_cols m i size js k wf) = ih m /\ iw (chess_cols m i size js k wf) = iw m.
Proof.
  induction js as [|j js IH]; intros; cbn [chess_cols]; [auto|].
  destruct (IH (fill m i (i + size) j (j + size) (if k mod 2 =? 0 then if wf then n1 else n0 else if wf then n0 else n1)) i size (k + 1) wf) as [A B].
  rewrite fill_ih in A. rewrite fill_iw in B. auto.
Qed.

(** Cells A, A+size, ... (n of them) of one row of cells starting at column A. *)
Lemma chess_cols_ok A size i wf : 0 < size -> 0 <= i -> 0 <= A ->
  forall n (m : image R) k A', A <= A' -> i + size <= ih m -> A' + size * Z.of_nat n <= iw m ->
  forall a b,
    px (@chess_cols R Rex m i size (map (fun q => A' + size * Z.of_nat q) (seq 0 n)) k wf) a b =
    if (i <=? a) && (a <? i + size) && (A' <=? b) && (b <? A' + size * Z.of_nat n)
    then cell_color (k + (b - A') / size) wf else px m a b.
Proof.
  intros Hs Hi HA. induction n as [|n IH]; intros m k A' HA' Hih Hiw a b.
  - cbn [seq map chess_cols].
    replace ((i <=? a) && (a <? i + size) && (A' <=? b) && (b <? A' + size * Z.of_nat 0)) with false
      by (symmetry; lia). reflexivity.
  - cbn [seq map chess_cols]. rewrite <- seq_shift, map_map.
    rewrite (map_ext _ (fun q => (A' + size) + size * Z.of_nat q)) by (intros; lia).
    rewrite IH; rewrite ?fill_ih, ?fill_iw; try lia.
    rewrite fill_px by lia.
    set (v := if k mod 2 =? 0 then _ else _).
    assert (Hv : v = cell_color k wf).
    { unfold v, cell_color. unnum. reflexivity. }
    destruct ((i <=? a) && (a <? i + size)) eqn:Ea; cbn [andb]; [|reflexivity].
    destruct (Z.ltb_spec b A') as [Hb|Hb].
    + replace ((A' + size <=? b) && (b <? A' + size + size * Z.of_nat n)) with false by (symmetry; lia).
      replace ((A' + size * Z.of_nat 0 <=? b) && (b <? A' + size * Z.of_nat 0 + size)) with false by (symmetry; lia).
      replace ((A' <=? b) && (b <? A' + size * Z.of_nat (S n))) with false by (symmetry; lia). reflexivity.
    + destruct (Z.ltb_spec b (A' + size)) as [Hb2|Hb2].
      * replace ((A' + size <=? b) && (b <? A' + size + size * Z.of_nat n)) with false by (symmetry; lia).
        replace ((A' + size * Z.of_nat 0 <=? b) && (b <? A' + size * Z.of_nat 0 + size)) with true by (symmetry; lia).
        replace ((A' <=? b) && (b <? A' + size * Z.of_nat (S n))) with true by (symmetry; nia).
        rewrite Hv. f_equal. rewrite (Z.div_small (b - A') size) by lia. lia.
      * replace ((A' + size * Z.of_nat 0 <=? b) && (b <? A' + size * Z.of_nat 0 + size)) with false by (symmetry; lia).
        destruct (Z.ltb_spec b (A' + size * Z.of_nat (S n))) as [Hb3|Hb3].
        -- replace ((A' + size <=? b) && (b <? A' + size + size * Z.of_nat n)) with true by (symmetry; lia).
           replace ((A' <=? b) && true) with true by (symmetry; lia).
           f_equal. replace (b - A') with (b - (A' + size) + 1 * size) by ring.
           rewrite Z.div_add by lia. lia.
        -- replace ((A' + size <=? b) && (b <? A' + size + size * Z.of_nat n)) with false by (symmetry; lia).
           now rewrite andb_false_r.
Qed.

Lemma chess_rows_ok size B nj : 0 < size -> 0 <= B ->
  forall n (m : image R) k A, 0 <= A -> 0 <= k -> A + size * Z.of_nat n <= ih m -> B + size * Z.of_nat nj <= iw m ->
  forall a b,
    px (@chess_rows R Rex m size (map (fun q => A + size * Z.of_nat q) (seq 0 n))
          (map (fun q => B + size * Z.of_nat q) (seq 0 nj)) k) a b =
    if (A <=? a) && (a <? A + size * Z.of_nat n) && (B <=? b) && (b <? B + size * Z.of_nat nj)
    then cell_color ((b - B) / size) ((k + (a - A) / size) mod 2 =? 0) else px m a b.
Proof.
  intros Hs HB. induction n as [|n IH]; intros m k A HA Hk Hih Hiw a b.
  - cbn [seq map chess_rows].
    replace ((A <=? a) && (a <? A + size * Z.of_nat 0)) with false by (symmetry; lia). reflexivity.
  - cbn [seq map chess_rows]. rewrite <- (seq_shift n 0), map_map.
    rewrite (map_ext (fun x => A + size * Z.of_nat (S x)) (fun q => (A + size) + size * Z.of_nat q)) by (intros; lia).
    match goal with |- px (chess_rows ?m1 _ _ _ _) _ _ = _ =>
      assert (Hd : ih m1 = ih m /\ iw m1 = iw m) by apply chess_cols_dim end.
    rewrite IH; try lia.
    replace (A + size * Z.of_nat 0) with A by lia.
    rewrite (chess_cols_ok B) by lia.
    destruct ((B <=? b) && (b <? B + size * Z.of_nat nj)) eqn:Eb.
    + apply andb_prop in Eb. destruct Eb as [Eb1 Eb2]. rewrite Eb1, Eb2, !andb_true_r.
      destruct (Z.ltb_spec a A) as [Ha|Ha].
      * replace ((A + size <=? a) && (a <? A + size + size * Z.of_nat n)) with false by (symmetry; lia).
        replace ((A <=? a) && (a <? A + size)) with false by (symmetry; lia).
        replace ((A <=? a) && (a <? A + size * Z.of_nat (S n))) with false by (symmetry; lia). reflexivity.
      * destruct (Z.ltb_spec a (A + size)) as [Ha2|Ha2].
        -- replace ((A + size <=? a) && (a <? A + size + size * Z.of_nat n)) with false by (symmetry; lia).
           replace ((A <=? a) && true) with true by (symmetry; lia).
           replace ((A <=? a) && (a <? A + size * Z.of_nat (S n))) with true by (symmetry; nia).
           rewrite (Z.div_small (a - A) size) by lia. now rewrite Z.add_0_r, Z.add_0_l.
        -- rewrite (andb_false_r (A <=? a)).
           destruct (Z.ltb_spec a (A + size * Z.of_nat (S n))) as [Ha3|Ha3].
           ++ replace ((A + size <=? a) && (a <? A + size + size * Z.of_nat n)) with true by (symmetry; lia).
              replace ((A <=? a) && true) with true by (symmetry; lia).
              do 2 f_equal. replace (a - A) with (a - (A + size) + 1 * size) by ring.
              rewrite Z.div_add by lia. f_equal. lia.
           ++ replace ((A + size <=? a) && (a <? A + size + size * Z.of_nat n)) with false by (symmetry; lia).
              now rewrite (andb_false_r (A <=? a)).
    + replace ((A + size <=? a) && (a <? A + size + size * Z.of_nat n) && (B <=? b) && (b <? B + size * Z.of_nat nj)) with false
        by (symmetry; rewrite <- andb_assoc, Eb; apply andb_false_r).
      replace ((A <=? a) && (a <? A + size) && (B <=? b) && (b <? B + size * Z.of_nat nj)) with false
        by (symmetry; rewrite <- andb_assoc, Eb; apply andb_false_r).
      replace ((A <=? a) && (a <? A + size * Z.of_nat (S n)) && (B <=? b) && (b <? B + size * Z.of_nat nj)) with false
        by (symmetry; rewrite <- andb_assoc, Eb; apply andb_false_r).
      reflexivity.
Qed.

Lemma chess_rows_dim {T} {N : Num T} is : forall (m : image T) size js k,
  ih (chess_rows m size is js k) = ih m /\ iw (chess_rows m size is js k) = iw m.
Proof.
  induction is as [|i is IH]; intros; cbn [chess_rows]; [auto|].
  destruct (IH (chess_cols m i size js 0 (k mod 2 =? 0)) size js (k + 1)) as [A B].
  destruct (chess_cols_dim js m i size 0 (k mod 2 =? 0)) as [C D]. split; congruence.
Qed.

(** Cell number along one axis of length L, if the pixel lies in a cell: cells
    start at size + margin and every cell start is below L - margin - size. *)
Definition cell_of (L size mg i k : Z) : Prop :=
  0 <= k /\ size + mg + size * k <= i < size + mg + size * (k + 1) /\
  size + mg + size * k < L - mg - size.

Lemma cell_of_iff L size mg i k n : 0 < size ->
  n = Z.to_nat ((L - mg - size - (size + mg) + size - 1) / size) ->
  (cell_of L size mg i k <->
   size + mg <= i < size + mg + size * Z.of_nat n /\ k = (i - (size + mg)) / size).
Proof.
  intros Hs En. unfold cell_of.
  set (X := L - mg - size - (size + mg)) in *.
  pose proof (Z.div_mod (X + size - 1) size ltac:(lia)) as HX.
  pose proof (Z.mod_pos_bound (X + size - 1) size Hs) as HX2.
  set (q := (X + size - 1) / size) in *.
  split.
  - intros [Hk [Hi Hb]].
    assert (Hkq : k < q) by nia.
    split; [nia|]. apply Z.div_unique with (i - (size + mg) - size * k); lia.
  - intros [Hi ->].
    pose proof (Z.div_mod (i - (size + mg)) size ltac:(lia)) as HI.
    pose proof (Z.mod_pos_bound (i - (size + mg)) size Hs) as HI2.
    set (k := (i - (size + mg)) / size) in *.
    assert (0 <= k) by nia.
    assert (Hq : 0 < q) by nia.
    assert (k < q) by nia.
    split; [assumption|]. split; nia.
Qed.

Lemma cell_color_even a b : 0 <= a -> 0 <= b ->
  cell_color b (a mod 2 =? 0) = if Z.even (a + b) then 1%R else 0%R.
Proof.
  intros Ha Hb. unfold cell_color.
  rewrite Z.even_add. rewrite !Zeven_mod.
  pose proof (Z.mod_pos_bound a 2 ltac:(lia)). pose proof (Z.mod_pos_bound b 2 ltac:(lia)).
  unfold Zeq_bool.
  destruct (Z.eqb_spec (a mod 2) 0) as [E1|E1], (Z.eqb_spec (b mod 2) 0) as [E2|E2];
    rewrite ?E1, ?E2; try (replace (a mod 2) with 1 by lia); try (replace (b mod 2) with 1 by lia); reflexivity.
Qed.

Lemma chessboard_ok h w size mg g : 0 < size -> 0 <= mg ->
  exists out, @make_chessboard R Rex h w size mg g = Ok out /\ ih out = h /\ iw out = w /\
    forall i j, in_img out i j ->
      (forall a b, cell_of h size mg i a -> cell_of w size mg j b ->
         px out i j = if Z.even (a + b) then 1%R else 0%R) /\
      ((~ exists a b, cell_of h size mg i a /\ cell_of w size mg j b) -> px out i j = f32 g).
Proof.
  intros Hs Hm. unfold make_chessboard.
  destruct (Z.eqb_spec size 0) as [?|_]; [lia|]. destruct (Z.ltb_spec size 0) as [?|_]; [lia|].
  eexists. split; [reflexivity|].
  set (m := mkimg h w (fun _ _ => _)).
  destruct (@chess_rows_dim R Rex (zrange_step (size + mg) (h - mg - size) size) m size
    (zrange_step (size + mg) (w - mg - size) size) 0) as [Dh Dw].
  split; [exact Dh|split; [exact Dw|]].
  intros i j [Hi Hj]. rewrite Dh in Hi. rewrite Dw in Hj. cbn [ih iw m] in Hi, Hj.
  unfold zrange_step.
  set (ni := Z.to_nat ((h - mg - size - (size + mg) + size - 1) / size)).
  set (nj := Z.to_nat ((w - mg - size - (size + mg) + size - 1) / size)).
  pose proof (fun k => cell_of_iff h size mg i k ni Hs eq_refl) as Ci.
  pose proof (fun k => cell_of_iff w size mg j k nj Hs eq_refl) as Cj.
  assert (Bnd : forall L, 0 <= L -> size + mg + size * Z.of_nat (Z.to_nat ((L - mg - size - (size + mg) + size - 1) / size)) <= L
     \/ Z.to_nat ((L - mg - size - (size + mg) + size - 1) / size) = O).
  { intros L HL. set (X := L - mg - size - (size + mg) + size - 1).
    pose proof (Z.div_mod X size ltac:(lia)). pose proof (Z.mod_pos_bound X size Hs).
    destruct (Z.le_gt_cases (X / size) 0) as [Hq|Hq]; [right; lia|left].
    assert (size * (X / size) <= X) by lia. rewrite Z2Nat.id by lia. unfold X in *. lia. }
  destruct (Bnd h ltac:(lia)) as [Bi|Bi]; fold ni in Bi.
  2:{ rewrite Bi. cbn [seq map chess_rows]. cbn [px m]. split.
      - intros a b Ha _. apply Ci in Ha. rewrite Bi in Ha. lia.
      - reflexivity. }
  destruct (Bnd w ltac:(lia)) as [Bj|Bj]; fold nj in Bj.
  2:{ rewrite Bj. cbn [seq map].
      assert (Hno : forall is k (m0 : image R), @chess_rows R Rex m0 size is [] k = m0).
      { induction is as [|i' is IH]; intros; cbn [chess_rows chess_cols]; [reflexivity|apply IH]. }
      rewrite Hno. split.
      - intros a b _ Hb. apply Cj in Hb. rewrite Bj in Hb. lia.
      - reflexivity. }
  rewrite (chess_rows_ok size (size + mg) nj Hs) by (cbn [ih iw m]; lia).
  split.
  - intros a b Ha Hb.
    assert (0 <= a) by (destruct Ha; lia). assert (0 <= b) by (destruct Hb; lia).
    apply Ci in Ha. apply Cj in Hb. destruct Ha as [Ra Ea], Hb as [Rb Eb].
    replace ((size + mg <=? i) && (i <? size + mg + size * Z.of_nat ni) && (size + mg <=? j) &&
             (j <? size + mg + size * Z.of_nat nj)) with true by (symmetry; lia).
    rewrite <- Ea, <- Eb, Z.add_0_l. now apply cell_color_even.
  - intros Hno.
    destruct ((size + mg <=? i) && (i <? size + mg + size * Z.of_nat ni) && (size + mg <=? j) &&
             (j <? size + mg + size * Z.of_nat nj)) eqn:E; [|reflexivity].
    exfalso. apply Hno. exists ((i - (size + mg)) / size), ((j - (size + mg)) / size).
    split; [apply Ci|apply Cj]; (split; [lia|reflexivity]).
Qed.
