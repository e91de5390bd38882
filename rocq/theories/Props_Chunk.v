(** C119: how a volume is cut into chunks of slices does not matter. *)
From Coq Require Import Reals ZArith List Lra Lia Bool.
From Flocq Require Import Core.
From Verif Require Import Base Num Img Post Spec NumFacts PostLines PostImg PostImg2 ProcFacts RoundFacts Props_Post Props_Round Props_Mono.
Import ListNotations.
Local Open Scope R_scope.

(** The rows of the corrected volume are sampled in the order of their
    indices, in every column and with the arithmetic in use. *)
Definition rows_in_order (rnd : R -> R) (xc yc : R) (fact : list R) (h w : Z) : Prop :=
  forall k k' j, (0 <= k <= k')%Z -> (k' < h)%Z -> (0 <= j < w)%Z ->
    @map_y R (Rnum rnd) xc yc fact k j <= @map_y R (Rnum rnd) xc yc fact k' j.

(** *** A chunk of one slice *)
(** It is a row of the corrected projections, whatever the coefficients. *)
Theorem C119_one_slice : forall rnd v xc yc fact k, exact_or_double rnd ->
  (vh v <= 32767)%Z -> (0 < vw v <= 2 ^ 24 + 1)%Z -> (0 <= vd v)%Z -> (0 <= k < vh v)%Z ->
  exists out, @unwarp_chunk_slices_backward R (Rnum rnd) (@bilinear R Rex) v xc yc fact k k = Ok out /\
    vd out = vd v /\ vh out = 1%Z /\ vw out = vw v /\
    forall i j, (0 <= i < vd v)%Z -> (0 <= j < vw v)%Z ->
      vx out i 0 j = px (@unwarp_image_backward R (Rnum rnd) (@bilinear R Rex) (vplane v i) xc yc fact) k j.
Proof.
  intros rnd v xc yc fact k Hr Hh Hw Hd Hk.
  destruct (C09_chunk_rows rnd v xc yc fact k k Hr Hh Hw Hd ltac:(lia) ltac:(lia)) as [out [E [D1 [D2 [D3 P]]]]].
  - intros k' j H1 H2. replace k' with k by lia. lra.
  - exists out. split; [exact E|]. split; [exact D1|]. split; [lia|]. split; [exact D3|].
    intros i j Hi Hj. rewrite (P i 0%Z j Hi ltac:(lia) Hj). now replace (k + 0)%Z with k by lia.
Qed.
Print Assumptions C119_one_slice.

(** *** Any cut gives the same slices *)
Theorem C119_cut : forall rnd v xc yc fact a b s e, exact_or_double rnd ->
  (vh v <= 32767)%Z -> (0 < vw v <= 2 ^ 24 + 1)%Z -> (0 <= vd v)%Z ->
  rows_in_order rnd xc yc fact (vh v) (vw v) ->
  (0 <= a <= s)%Z -> (s <= e <= b)%Z -> (b < vh v)%Z ->
  exists whole part,
    @unwarp_chunk_slices_backward R (Rnum rnd) (@bilinear R Rex) v xc yc fact a b = Ok whole /\
    @unwarp_chunk_slices_backward R (Rnum rnd) (@bilinear R Rex) v xc yc fact s e = Ok part /\
    vd part = vd whole /\ vw part = vw whole /\ vh whole = (b - a + 1)%Z /\ vh part = (e - s + 1)%Z /\
    forall i k j, (0 <= i < vd part)%Z -> (0 <= k < vh part)%Z -> (0 <= j < vw part)%Z ->
      vx part i k j = vx whole i (s - a + k) j.
Proof.
  intros rnd v xc yc fact a b s e Hr Hh Hw Hd Ho Ha Hs Hb.
  destruct (C09_chunk_rows rnd v xc yc fact a b Hr Hh Hw Hd ltac:(lia) ltac:(lia)) as [w [E1 [D1 [D2 [D3 P]]]]].
  { intros k j H1 H2. split; apply Ho; lia. }
  destruct (C09_chunk_rows rnd v xc yc fact s e Hr Hh Hw Hd ltac:(lia) ltac:(lia)) as [p [F1 [G1 [G2 [G3 Q]]]]].
  { intros k j H1 H2. split; apply Ho; lia. }
  exists w, p. split; [exact E1|]. split; [exact F1|]. split; [congruence|]. split; [congruence|]. split; [exact D2|]. split; [exact G2|].
  intros i k j Hi Hk Hj. rewrite G1 in Hi. rewrite G2 in Hk. rewrite G3 in Hj. rewrite (Q i k j Hi ltac:(lia) Hj), (P i (s - a + k)%Z j Hi ltac:(lia) Hj).
  f_equal. lia.
Qed.
Print Assumptions C119_cut.

(** *** Cutting a volume from top to bottom *)
(** The first slices of the chunks, in increasing order, the first being 0:
    chunk [n] runs to the slice before the next one. *)
Fixpoint chunk_bounds (starts : list Z) (h : Z) : list (Z * Z) :=
  match starts with
  | [] => []
  | s :: rest => (s, match rest with [] => h - 1 | t :: _ => t - 1 end)%Z :: chunk_bounds rest h
  end.
Fixpoint starts_ok (prev : Z) (starts : list Z) (h : Z) : Prop :=
  match starts with [] => True | s :: rest => (prev < s < h)%Z /\ starts_ok s rest h end.

(** The slices of the chunks one after the other. *)
Definition stacked (outs : list (volume R)) (i j : Z) : list R :=
  flat_map (fun o => map (fun k => vx o i k j) (zrange 0 (vh o))) outs.

Lemma zrange_app a b c : (a <= b <= c)%Z -> zrange a b ++ zrange b c = zrange a c.
Proof.
  intros H. unfold zrange. replace (Z.to_nat (c - a)) with (Z.to_nat (b - a) + Z.to_nat (c - b))%nat by lia.
  rewrite seq_app, map_app. f_equal. cbn [Nat.add].
  replace (Z.to_nat (b - a)) with (Z.to_nat (b - a) + 0)%nat at 1 by lia.
  generalize 0%nat as m. induction (Z.to_nat (c - b)) as [|n IH]; intros m; [reflexivity|].
  cbn [seq map]. f_equal; [lia|]. replace (S (Z.to_nat (b - a) + m)) with (Z.to_nat (b - a) + S m)%nat by lia. apply IH.
Qed.
Lemma zrange_shift a b : (a <= b)%Z -> map (fun k => (a + k)%Z) (zrange 0 (b - a)) = zrange a b.
Proof.
  intros H. unfold zrange. rewrite map_map. replace (Z.to_nat (b - a - 0)) with (Z.to_nat (b - a)) by lia. apply map_ext. intros n. lia.
Qed.
Lemma chunks_stack rnd v xc yc fact : exact_or_double rnd ->
  (vh v <= 32767)%Z -> (0 < vw v <= 2 ^ 24 + 1)%Z -> (0 <= vd v)%Z -> rows_in_order rnd xc yc fact (vh v) (vw v) ->
  forall rest s, (0 <= s < vh v)%Z -> starts_ok s rest (vh v) -> exists outs,
    Forall2 (fun be o => @unwarp_chunk_slices_backward R (Rnum rnd) (@bilinear R Rex) v xc yc fact (fst be) (snd be) = Ok o /\ vd o = vd v /\ vw o = vw v)
      (chunk_bounds (s :: rest) (vh v)) outs /\
    forall i j, (0 <= i < vd v)%Z -> (0 <= j < vw v)%Z ->
      stacked outs i j = map (fun k => px (@unwarp_image_backward R (Rnum rnd) (@bilinear R Rex) (vplane v i) xc yc fact) k j) (zrange s (vh v)).
Proof.
  intros Hr Hh Hw Hd Ho. induction rest as [|t rest IH]; intros s Hs Hok.
  - destruct (C09_chunk_rows rnd v xc yc fact s (vh v - 1) Hr Hh Hw Hd ltac:(lia) ltac:(lia)) as [o [E [D1 [D2 [D3 P]]]]].
    { intros k j H1 H2. split; apply Ho; lia. }
    exists [o]. split; [constructor; [now repeat split|constructor]|]. intros i j Hi Hj.
    unfold stacked. cbn [flat_map]. rewrite app_nil_r, D2. replace (vh v - 1 - s + 1)%Z with (vh v - s)%Z by lia.
    rewrite <- (zrange_shift s (vh v)) by lia. rewrite map_map. apply map_ext_in. intros k Hk. apply in_zrange in Hk. apply P; lia.
  - cbn [starts_ok] in Hok. destruct Hok as [Ht Hok]. destruct (IH t ltac:(lia) Hok) as [outs [F S]].
    destruct (C09_chunk_rows rnd v xc yc fact s (t - 1) Hr Hh Hw Hd ltac:(lia) ltac:(lia)) as [o [E [D1 [D2 [D3 P]]]]].
    { intros k j H1 H2. split; apply Ho; lia. }
    exists (o :: outs). split; [cbn [chunk_bounds] in *; constructor; [now repeat split|exact F]|]. intros i j Hi Hj.
    rewrite <- (zrange_app s t (vh v)) by lia. rewrite map_app, <- S by assumption.
    unfold stacked. cbn [flat_map]. f_equal. rewrite D2. replace (t - 1 - s + 1)%Z with (t - s)%Z by lia.
    rewrite <- (zrange_shift s t) by lia. rewrite map_map. apply map_ext_in. intros k Hk. apply in_zrange in Hk. apply P; lia.
Qed.
(** Whatever the first slices of the chunks after the first, the chunks one
    after the other are the rows of the corrected projections. *)
Theorem C119_stacked : forall rnd v xc yc fact rest, exact_or_double rnd ->
  (0 < vh v <= 32767)%Z -> (0 < vw v <= 2 ^ 24 + 1)%Z -> (0 <= vd v)%Z -> rows_in_order rnd xc yc fact (vh v) (vw v) ->
  starts_ok 0 rest (vh v) -> exists outs,
    Forall2 (fun be o => @unwarp_chunk_slices_backward R (Rnum rnd) (@bilinear R Rex) v xc yc fact (fst be) (snd be) = Ok o /\ vd o = vd v /\ vw o = vw v)
      (chunk_bounds (0%Z :: rest) (vh v)) outs /\
    forall i j, (0 <= i < vd v)%Z -> (0 <= j < vw v)%Z ->
      stacked outs i j = map (fun k => px (@unwarp_image_backward R (Rnum rnd) (@bilinear R Rex) (vplane v i) xc yc fact) k j) (zrange 0 (vh v)).
Proof. intros. apply chunks_stack; try assumption; lia. Qed.
Print Assumptions C119_stacked.

(** *** When the rows are in order *)
(** In exact arithmetic: when the corrected radius increases (C111). *)
Theorem C119_order_exact : forall fact M xc yc h w, increasing_radius fact M ->
  (forall i j, (0 <= i < h)%Z -> (0 <= j < w)%Z -> dist (IZR i, IZR j) (yc, xc) <= M) ->
  rows_in_order (fun x => x) xc yc fact h w.
Proof.
  intros fact M xc yc h w Hm Hb k k' j H1 H2 H3. change (Rnum (fun x => x)) with Rex. rewrite !map_y_R.
  destruct (Z.eq_dec k k') as [->|N]; [lra|]. apply Rlt_le.
  destruct (C111_order fact M (yc, xc) (zpt k j) (zpt k' j) Hm (Hb k j ltac:(lia) H3) (Hb k' j ltac:(lia) H3)) as [O _].
  apply O; [reflexivity|]. unfold zpt, py. cbn [fst]. apply IZR_lt. lia.
Qed.
Print Assumptions C119_order_exact.
(** In double precision: when neighbouring rows of the model stay apart by
    more than the rounding of C107. *)
Theorem C119_order_double : forall rnd fact B xc yc h w, exact_or_double rnd -> (length fact <= 1000)%nat ->
  (forall i j, (0 <= i < h)%Z -> (0 <= j < w)%Z -> rounding_bound fact yc (dist (IZR i, IZR j) (yc, xc)) <= B) ->
  (forall i j, (0 <= i)%Z -> (i + 1 < h)%Z -> (0 <= j < w)%Z ->
     py (radial_map fact (yc, xc) (IZR i, IZR j)) + 2 * B <= py (radial_map fact (yc, xc) (IZR (i + 1), IZR j))) ->
  rows_in_order rnd xc yc fact h w.
Proof.
  intros rnd fact B xc yc h w Hr Hn Hb Hs.
  assert (N : forall k j, (0 <= k < h)%Z -> (0 <= j < w)%Z ->
    Rabs (@map_y R (Rnum rnd) xc yc fact k j - py (radial_map fact (yc, xc) (IZR k, IZR j))) <= B).
  { intros k j H1 H2. eapply Rle_trans; [|apply (Hb k j H1 H2)].
    unfold map_y. cbn [nadd nsub nmul nsqrt npow nofZ Rnum]. replace (rnd (IZR j - xc) ^ 2) with (rnd (IZR j - xc) * rnd (IZR j - xc)) by ring.
    replace (rnd (IZR k - yc) ^ 2) with (rnd (IZR k - yc) * rnd (IZR k - yc)) by ring.
    unfold radial_map, padd, pscale, psub, dist, py, pxc. cbn [fst snd].
    pose proof (coord_bound rnd fact yc (IZR k - yc) (IZR j - xc) Hr Hn) as C. unfold frad in C.
    rewrite (Rplus_comm (rnd (rnd (IZR j - xc) * rnd (IZR j - xc)))). exact C. }
  intros k k' j H1 H2 H3. replace k' with (k + Z.of_nat (Z.to_nat (k' - k)))%Z in * by lia. generalize dependent (Z.to_nat (k' - k)). clear k'.
  intros n H1. assert (K0 : (0 <= k)%Z) by lia. clear H1. induction n as [|n IH]; intros H2.
  - replace (k + Z.of_nat 0)%Z with k by lia. lra.
  - eapply Rle_trans; [apply IH; lia|]. replace (k + Z.of_nat (S n))%Z with (k + Z.of_nat n + 1)%Z in * by lia. set (m := (k + Z.of_nat n)%Z) in *.
    pose proof (N m j ltac:(lia) H3) as N1. pose proof (N (m + 1)%Z j ltac:(lia) H3) as N2. specialize (Hs m j ltac:(lia) ltac:(lia) H3).
    apply Rabs_le_inv in N1. apply Rabs_le_inv in N2. lra.
Qed.
Print Assumptions C119_order_double.

(** *** Projections are independent of each other *)
(** Projections [p] to [q - 1] of a volume. *)
Definition projections {T} (p q : Z) (v : volume T) : volume T :=
  mkvol (q - p) (vh v) (vw v) (fun i k j => vx v (p + i) k j).
(** For any number type and any interpolation: correcting some of the
    projections gives these projections of the corrected volume, and fails
    the same way. *)
Theorem C119_projections : forall T (N : Num T) interp (v : volume T) xc yc fact start stop p q,
  (0 <= p < q)%Z -> (q <= vd v)%Z ->
  match unwarp_chunk_slices_backward interp v xc yc fact start stop,
        unwarp_chunk_slices_backward interp (projections p q v) xc yc fact start stop with
  | Ok out, Ok part =>
      vd part = (q - p)%Z /\ vh part = vh out /\ vw part = vw out /\
      forall i k j, (0 <= i < q - p)%Z -> vx part i k j = vx out (p + i) k j
  | Err e, Err e' => e = e'
  | _, _ => False
  end.
Proof.
  intros T N interp v xc yc fact start stop p q Hp Hq. unfold unwarp_chunk_slices_backward, projections. cbn [vd vh vw].
  set (st := if (stop =? -1)%Z then vh v else stop).
  destruct (negb ((0 <=? start)%Z && (start <? vh v)%Z) || negb ((0 <=? st)%Z && (st <? vh v)%Z)); [reflexivity|].
  destruct (namin _) as [mn|e]; cbn [bind]; [|reflexivity]. destruct (namax _) as [mx|e]; cbn [bind]; [|reflexivity].
  replace (0 <? vd v)%Z with true by (symmetry; apply Z.ltb_lt; lia). replace (0 <? q - p)%Z with true by (symmetry; apply Z.ltb_lt; lia).
  unfold vplane. cbn [vh vw vx]. unfold row_slice at 1 3. cbn [ih iw].
  destruct (true && (0 <? Z.max 0 (st + 1 - start))%Z && _); [reflexivity|]. cbn [vd vh vw vx]. repeat split.
Qed.
Print Assumptions C119_projections.
Theorem C119_slice_projections : forall T (N : Num T) interp (v : volume T) xc yc fact index p q,
  (0 <= p < q)%Z -> (q <= vd v)%Z ->
  match unwarp_slice_backward interp v xc yc fact index,
        unwarp_slice_backward interp (projections p q v) xc yc fact index with
  | Ok out, Ok part => ih part = (q - p)%Z /\ iw part = iw out /\
      forall i j, (0 <= i < q - p)%Z -> px part i j = px out (p + i) j
  | Err e, Err e' => e = e'
  | _, _ => False
  end.
Proof.
  intros T N interp v xc yc fact index p q Hp Hq. unfold unwarp_slice_backward, projections. cbn [vd vh vw].
  destruct (namin _) as [mn|e]; cbn [bind]; [|reflexivity]. destruct (namax _) as [mx|e]; cbn [bind]; [|reflexivity].
  replace (0 <? vd v)%Z with true by (symmetry; apply Z.ltb_lt; lia). replace (0 <? q - p)%Z with true by (symmetry; apply Z.ltb_lt; lia).
  unfold vplane. cbn [vh vw vx]. unfold row_slice at 1 3. cbn [ih iw].
  destruct (true && _); [reflexivity|]. cbn [ih iw px]. repeat split.
Qed.
Print Assumptions C119_slice_projections.

(** Weak distortion on an ordinary detector: a_0 > 2 |a_1| M + 3 |a_2| M^2 +
    ... by 2^-24 is enough, in double precision as well. *)
Lemma rows_apart c a0 a M xc yc i j : increasing_radius (a0 - c :: a) M ->
  dist (IZR i, IZR j) (yc, xc) <= M -> dist (IZR (i + 1), IZR j) (yc, xc) <= M ->
  py (radial_map (a0 :: a) (yc, xc) (IZR i, IZR j)) + c <= py (radial_map (a0 :: a) (yc, xc) (IZR (i + 1), IZR j)).
Proof.
  intros Hm H1 H2. rewrite plus_IZR in *. unfold radial_map, padd, pscale, psub, dist, py, pxc in *. cbn [fst snd] in *.
  set (dy := IZR i - yc) in *. replace (IZR i + 1 - yc) with (dy + 1) in * by (unfold dy; ring). set (dx := IZR j - xc) in *.
  pose proof (coord_mono _ M Hm dy (dy + 1) dx ltac:(lra) H1 H2) as P. cbn [poly] in *. lra.
Qed.
Theorem C119_order_weak : forall rnd a0 a M xc yc h w, exact_or_double rnd -> (length (a0 :: a) <= 10)%nat ->
  Rabs yc <= 65536 -> 1 <= M <= 65536 -> poly (map Rabs (a0 :: a)) M <= 4 -> slope_bound 1 a M + two (-25) < a0 ->
  (forall i j, (0 <= i < h)%Z -> (0 <= j < w)%Z -> dist (IZR i, IZR j) (yc, xc) <= M) ->
  rows_in_order rnd xc yc (a0 :: a) h w.
Proof.
  intros rnd a0 a M xc yc h w Hr Hn Hyc HM Hp Hs Hb.
  apply (C119_order_double rnd (a0 :: a) (two (-26))); [exact Hr|lia| |].
  - intros i j Hi Hj. specialize (Hb i j Hi Hj). apply C107_small; [exact Hn|exact Hyc|lra|].
    eapply Rle_trans; [|exact Hp].
    assert (Mo : forall l r s, 0 <= r <= s -> 0 <= poly (map Rabs l) r <= poly (map Rabs l) s).
    { intros l r s Hrs. induction l as [|b l IH]; cbn [map poly]; [lra|]. pose proof (Rabs_pos b).
      assert (0 <= r * poly (map Rabs l) r) by (apply Rmult_le_pos; lra). assert (r * poly (map Rabs l) r <= s * poly (map Rabs l) s) by (apply Rmult_le_compat; lra). lra. }
    apply Mo. pose proof (Rmax_l 1 (dist (IZR i, IZR j) (yc, xc))). split; [lra|]. apply Rmax_lub; lra.
  - intros i j H1 H2 H3. replace (2 * two (-26)) with (two (-25)) by (unfold two; change (-25)%Z with (1 + -26)%Z; rewrite bpow_plus; reflexivity).
    apply (rows_apart _ _ _ M); [apply C111_weak; lra| |]; apply Hb; lia.
Qed.
Print Assumptions C119_order_weak.
(** Without the order the cut matters. *)
Theorem C119_cut_refuted : exists v xc yc fact whole part,
  @unwarp_chunk_slices_backward R Rex (@bilinear R Rex) v xc yc fact 0 4 = Ok whole /\
  @unwarp_chunk_slices_backward R Rex (@bilinear R Rex) v xc yc fact 1 1 = Ok part /\ vx part 0 0 0 <> vx whole 0 1 0.
Proof.
  destruct C09_monotone_needed as [w [E N]]. 
  destruct (C119_one_slice (fun x => x) nonmono_vol 0 2 [4; -2] 1) as [p [F [_ [_ [_ P]]]]]; [now left|cbn; lia|cbn; lia|cbn; lia|cbn; lia|].
  exists nonmono_vol, 0, 2, [4; -2], w, p. split; [exact E|]. split; [exact F|]. rewrite (P 0%Z 0%Z) by (cbn; lia). intros X. apply N. now rewrite <- X.
Qed.
Print Assumptions C119_cut_refuted.

(** Barrel distortion of 1 - r / 4000 on projections of 1000 x 1000 pixels, in
    double precision: three chunks. *)
Example C119_case : rows_in_order f64 500 500 [1; - (1 / 4000)] 1000 1000 /\ starts_ok 0 [400; 700]%Z 1000 /\
  chunk_bounds [0; 400; 700]%Z 1000 = [(0, 399); (400, 699); (700, 999)]%Z.
Proof.
  split; [|split; [cbn; lia|reflexivity]].
  apply (C119_order_weak f64 1 [- (1 / 4000)] 1500); [now right|cbn; lia|rewrite Rabs_pos_eq; lra|lra| | |].
  - cbn [map poly]. rewrite Rabs_Ropp, !Rabs_pos_eq by lra. lra.
  - cbn [slope_bound Nat.add pow]. rewrite Rabs_Ropp, Rabs_pos_eq by lra. cbn [INR].
    assert (two (-25) <= / 8) by (change (/ 8) with (bpow radix2 (-3)); apply bpow_le; lia). lra.
  - apply C111_case.
Qed.
