(** The pattern made by make_dot_pattern, measured by the preprocessing and
    calibrated (C100). *)
From Coq Require Import Reals ZArith List Lra Lia Permutation Sorted.
From Flocq Require Import Core.
From Verif Require Import Base Num Img Spec Post NumFacts Sorting PrepSpec PrepImg PrepPts PrepEx PrepImgFacts4 Util UtilFacts Props_Util
  Proc ProcSpec ProcFacts5 Props_Proc Props_Grid DotFacts.
Import ListNotations.
Local Open Scope R_scope.
Local Existing Instance Rex.

(** ** C100 *)
(** The image 1 - pattern. *)
Definition inverted (m : image R) : image R := mkimg (ih m) (iw m) (fun i j => 1 - px m i j).
(** [k] dots start at [a] in steps of [d], all before [b]. *)
Definition dots_along (a b d : Z) (k : nat) : Prop := forall i, (0 <= i)%Z -> ((i < Z.of_nat k)%Z <-> (a + d * i < b)%Z).
Definition grid_points (ys xs : list R) : list (R * R) := concat (map (fun y => map (fun x => (y, x)) xs) ys).

Lemma NoDup_prod {A B} (l : list A) (l' : list B) : NoDup l -> NoDup l' -> NoDup (list_prod l l').
Proof.
  intros H H'. induction H as [|a l Ha H IH]; cbn [list_prod]; [constructor|].
  assert (D : forall p, In p (map (fun y => (a, y)) l') -> ~ In p (list_prod l l')).
  { intros p Hp Hq. apply in_map_iff in Hp. destruct Hp as [y [<- _]]. apply in_prod_iff in Hq. tauto. }
  assert (N : NoDup (map (fun y => (a, y)) l')) by (apply FinFun.Injective_map_NoDup; [intros x y E; congruence|exact H']).
  revert D N. generalize (map (fun y => (a, y)) l') as L. induction L as [|p L IHL]; intros D N; [exact IH|]. cbn [app]. inversion_clear N. constructor.
  - intros K. apply in_app_or in K. destruct K as [K|K]; [contradiction|]. apply (D p); [now left|exact K].
  - apply IHL; [|assumption]. intros q Hq. apply D. now right.
Qed.
Definition zlevels (a d : Z) (k : nat) : list Z := map (fun i => (a + d * Z.of_nat i)%Z) (seq 0 k).
Lemma zlevels_nodup a d k : (0 < d)%Z -> NoDup (zlevels a d k).
Proof. intros Hd. apply FinFun.Injective_map_NoDup; [|apply seq_NoDup]. intros x y E. nia. Qed.
Lemma zlevels_in a b d k g : (0 < d)%Z -> dots_along a b d k -> (In g (zlevels a d k) <-> prog a b d g).
Proof.
  intros Hd H. unfold zlevels, prog. rewrite in_map_iff. split.
  - intros [i [<- Hi]]. apply in_seq in Hi. exists (Z.of_nat i). split; [lia|]. split; [reflexivity|]. apply H; lia.
  - intros [i [H0 [-> H1]]]. apply H in H1; [|exact H0]. exists (Z.to_nat i). split; [rewrite Z2Nat.id by lia; reflexivity|]. apply in_seq. lia.
Qed.
Lemma zlevels_real a d k t : map (fun z => IZR z + t) (zlevels a d k) = levels (IZR a + t) (IZR d) k.
Proof.
  unfold zlevels, levels. rewrite map_map. apply map_ext. intros i. rewrite plus_IZR, mult_IZR, <- INR_IZR_INZ. ring.
Qed.
Lemma prod_points ys xs t : map (fun g => (IZR (fst g) + t, IZR (snd g) + t)) (list_prod ys xs) =
  grid_points (map (fun z => IZR z + t) ys) (map (fun z => IZR z + t) xs).
Proof.
  unfold grid_points. induction ys as [|y ys IH]; [reflexivity|]. cbn [list_prod map concat]. rewrite map_app, IH. f_equal. rewrite !map_map. reflexivity.
Qed.
Lemma prog_gap a b d x y : (0 < d)%Z -> prog a b d x -> prog a b d y -> (x = y \/ d <= Z.abs (x - y))%Z.
Proof.
  intros Hd [i [_ [-> _]]] [j [_ [-> _]]]. destruct (Z.eq_dec i j) as [->|Ne]; [now left|right].
  replace (a + d * i - (a + d * j))%Z with (d * (i - j))%Z by ring. rewrite Z.abs_mul. nia.
Qed.

(** What the inverted pattern looks like to the labelling. *)
Lemma pattern_dots h w d s m mv mh out : margin_is m mv mh -> (0 <= mv)%Z -> (0 <= mh)%Z ->
  let n := Z.min (Z.max s 1) (Z.min h w / 8) in (1 <= n <= d)%Z -> make_dot_pattern h w d s m = Ok out ->
  let y0 := (mv + n / 2 + 1)%Z in let x0 := (mh + n / 2 + 1)%Z in
  let dot gy gx := prog y0 (h - y0) d gy /\ prog x0 (w - x0) d gx in
  (forall gy gx i j, dot gy gx -> in_window n i j gy gx -> in_img (inverted out) i j) /\
  (forall i j, in_img (inverted out) i j -> (px (inverted out) i j <> 0 <-> exists gy gx, dot gy gx /\ in_disk n i j gy gx)) /\
  binary_image (inverted out) /\ (in_img (inverted out) 0 0 -> px (inverted out) 0 0 = 0).
Proof.
  intros Hm Hv Hh n Hn E y0 x0 dot.
  destruct (C17_dot_pattern h w d s m mv mh Hm Hv Hh) as [o [Eo [Eh [Ew Hpx]]]]; [fold n; lia|].
  assert (o = out) by congruence. subst o. fold n in Hpx.
  assert (C : (0 <= n / 2 /\ n <= 2 * (n / 2) + 1)%Z) by (split; [apply Z.div_pos; lia|pose proof (Z.div_mod n 2); pose proof (Z.mod_pos_bound n 2); lia]).
  assert (B : forall i j, in_img out i j -> (px out i j = 0 /\ (exists gy gx, dot gy gx /\ in_disk n i j gy gx)) \/ (px out i j = 1 /\ ~ exists gy gx, dot gy gx /\ in_disk n i j gy gx)).
  { intros i j Hij. specialize (Hpx i j Hij). cbn zeta in Hpx. unfold dot.
    replace (h - mv - n / 2 - 1)%Z with (h - y0)%Z in Hpx by (unfold y0; lia). replace (w - mh - n / 2 - 1)%Z with (w - x0)%Z in Hpx by (unfold x0; lia).
    fold y0 x0 in Hpx. destruct Hpx as [[P [gy [gx [A1 [A2 A3]]]]]|[P Q]]; [left|right]; (split; [exact P|]).
    - exists gy, gx. auto.
    - intros [gy [gx [[A1 A2] A3]]]. apply Q. exists gy, gx. auto. }
  split; [|split; [|split]].
  - intros gy gx i j [[a [A1 [-> A2]]] [b [B1 [-> B2]]]] [W1 W2]. cbn zeta in *. unfold in_img, inverted. cbn [ih iw]. rewrite Eh, Ew. unfold y0, x0 in *. nia.
  - intros i j Hij. cbn [inverted px]. destruct (B i j Hij) as [[-> P]|[-> P]]; split; intros; try lra; auto.
  - intros i j Hij. cbn [inverted px]. destruct (B i j Hij) as [[-> _]|[-> _]]; lra.
  - intros I0. cbn [inverted px]. rewrite (C17_margin_blank h w d s m mv mh out Hm Hv Hh ltac:(fold n; lia) E 0 0 I0 ltac:(lia)). lra.
Qed.
Lemma first_dot a b d k : (0 < d)%Z -> dots_along a b d k -> (1 <= k)%nat -> prog a b d a.
Proof. intros Hd H Hk. assert (Y := proj1 (H 0%Z ltac:(lia)) ltac:(lia)). exists 0%Z. repeat split; lia. Qed.
Lemma prog_gap2 a b d a' b' n gy gx gy' gx' : (n < d)%Z -> (0 < d)%Z -> prog a b d gy /\ prog a' b' d gx -> prog a b d gy' /\ prog a' b' d gx' ->
  (gy = gy' \/ n < Z.abs (gy - gy'))%Z /\ (gx = gx' \/ n < Z.abs (gx - gx'))%Z.
Proof. intros Hn D1 [A1 A2] [B1 B2]. pose proof (prog_gap _ _ _ _ _ D1 A1 B1). pose proof (prog_gap _ _ _ _ _ D1 A2 B2). lia. Qed.
(** The centres, one per label. *)
Lemma pattern_points label binarize h w d s m mv mh out lab num ny nx : margin_is m mv mh -> (0 <= mv)%Z -> (0 <= mh)%Z ->
  let n := Z.min (Z.max s 1) (Z.min h w / 8) in (1 <= n <= d)%Z ->
  make_dot_pattern h w d s m = Ok out -> label (to_int16 (inverted out)) = (lab, num) -> labelling (inverted out) lab num ->
  let y0 := (mv + n / 2 + 1)%Z in let x0 := (mh + n / 2 + 1)%Z in
  dots_along y0 (h - y0) d ny -> dots_along x0 (w - x0) d nx -> (1 <= ny)%nat -> (1 <= nx)%nat ->
  get_points_dot_pattern label binarize (inverted out) false = Ok (map (centroid (inverted out) lab) (zrange 1 (num + 1))).
Proof.
  intros Hm Hv Hh n Hn E El HL y0 x0 Hy Hx Ny Nx. assert (Hn1 : (1 <= n)%Z) by lia. assert (Hd : (0 < d)%Z) by lia.
  destruct (pattern_dots h w d s m mv mh out Hm Hv Hh Hn E) as [Inside [Dark [Bin P0]]]. fold n y0 x0 in Inside, Dark.
  assert (D0 : prog y0 (h - y0) d y0 /\ prog x0 (w - x0) d x0) by (split; [now apply first_dot with ny|now apply first_dot with nx]).
  assert (IC : in_img (inverted out) y0 x0) by (apply (Inside y0 x0); [exact D0|now apply centre_in_disk]).
  apply get_points_ok; auto.
  - exists y0, x0. split; [exact IC|]. destruct (Bin y0 x0 IC) as [Z|Z]; [|exact Z]. exfalso.
    apply (proj2 (Dark y0 x0 IC)); [|exact Z]. exists y0, x0. split; [exact D0|now apply centre_in_disk].
  - exists 0%Z, 0%Z. assert (I0 : in_img (inverted out) 0 0) by (unfold in_img in *; lia). split; [exact I0|now apply P0].
Qed.

(** The centres found in the inverted pattern are the grid positions, all
    shifted by the same amount, which is 0 for an odd dot size; an even disk
    lacks one pixel on its upper edges. *)
Theorem C100_centres : forall label binarize h w d s m mv mh out lab num ny nx,
  margin_is m mv mh -> (0 <= mv)%Z -> (0 <= mh)%Z ->
  let n := Z.min (Z.max s 1) (Z.min h w / 8) in (1 <= n < d)%Z ->
  make_dot_pattern h w d s m = Ok out -> label (to_int16 (inverted out)) = (lab, num) -> labelling (inverted out) lab num ->
  let y0 := (mv + n / 2 + 1)%Z in let x0 := (mh + n / 2 + 1)%Z in
  dots_along y0 (h - y0) d ny -> dots_along x0 (w - x0) d nx -> (1 <= ny)%nat -> (1 <= nx)%nat ->
  exists pts t, get_points_dot_pattern label binarize (inverted out) false = Ok pts /\
    Permutation pts (grid_points (levels (IZR y0 + t) (IZR d) ny) (levels (IZR x0 + t) (IZR d) nx)) /\
    (Z.odd n = true -> t = 0) /\ (Z.odd n = false -> t = - IZR (n / 2) / disk_area n).
Proof.
  intros label binarize h w d s m mv mh out lab num ny nx Hm Hv Hh n Hn E El HL y0 x0 Hy Hx Ny Nx.
  assert (Hn1 : (1 <= n)%Z) by lia. assert (Hd : (0 < d)%Z) by lia.
  destruct (pattern_dots h w d s m mv mh out Hm Hv Hh ltac:(fold n; lia) E) as [Inside [Dark [Bin P0]]]. fold n y0 x0 in Inside, Dark.
  exists (map (centroid (inverted out) lab) (zrange 1 (num + 1))), (dot_shift n). split; [|split].
  - apply (pattern_points label binarize h w d s m mv mh out lab num ny nx); auto. fold n; lia.
  - rewrite (centres_perm (inverted out) n _ lab num Hn1 Inside Dark (fun gy gx gy' gx' => prog_gap2 y0 (h - y0) d x0 (w - x0) n gy gx gy' gx' (proj2 Hn) Hd) Bin HL
      (list_prod (zlevels y0 d ny) (zlevels x0 d nx))).
    + rewrite prod_points, !zlevels_real. reflexivity.
    + apply NoDup_prod; apply zlevels_nodup; lia.
    + intros gy gx. rewrite in_prod_iff, (zlevels_in y0 (h - y0) d ny), (zlevels_in x0 (w - x0) d nx) by (auto; lia). reflexivity.
  - unfold dot_shift. split; intros Ho.
    + rewrite disk_odd by exact Ho. lra.
    + rewrite disk_even by (exact Ho || lia). reflexivity.
Qed.
Print Assumptions C100_centres.

(** Grouping and calibrating those centres gives back the rows and columns of
    the pattern, the middle of the second cell as the centre of distortion and
    the identity as the model. *)
Theorem C100_calibration : forall argsort label binarize polyfit minimize lstsq h w d s m mv mh out lab num ny nx ratio miss accepted num_fact opt thr,
  argsort_spec argsort -> polyfit_oracle polyfit -> minimize_oracle minimize -> lstsq_oracle lstsq ->
  margin_is m mv mh -> (0 <= mv)%Z -> (0 <= mh)%Z ->
  let n := Z.min (Z.max s 1) (Z.min h w / 8) in (1 <= n < d)%Z ->
  make_dot_pattern h w d s m = Ok out -> label (to_int16 (inverted out)) = (lab, num) -> labelling (inverted out) lab num ->
  let y0 := (mv + n / 2 + 1)%Z in let x0 := (mh + n / 2 + 1)%Z in
  dots_along y0 (h - y0) d ny -> dots_along x0 (w - x0) d nx -> (4 <= ny)%nat -> (4 <= nx)%nat ->
  0 < ratio <= 1 -> (2 <= miss)%Z -> accepted < 1 -> (num_fact < Z.of_nat nx)%Z -> (num_fact <= 32767)%Z -> 0 <= thr ->
  exists pts t, let ys := levels (IZR y0 + t) (IZR d) ny in let xs := levels (IZR x0 + t) (IZR d) nx in
    let rows := map (fun y => map (fun x => (y, x)) xs) ys in let cols := map (fun x => map (fun y => (y, x)) ys) xs in
    let xc := IZR x0 + t + IZR d / 2 in let yc := IZR y0 + t + IZR d / 2 in let unit := 1 :: repeat 0 (Z.to_nat (Z.max 1 num_fact) - 1) in
    get_points_dot_pattern label binarize (inverted out) false = Ok pts /\
    group_dots_hor_lines argsort label (DPts pts) 0 (IZR d) ratio miss accepted = Ok rows /\
    group_dots_ver_lines argsort label (DPts pts) 0 (IZR d) ratio miss accepted = Ok cols /\
    @find_cod_coarse R Rexact polyfit rows cols = Ok (xc, yc) /\
    @calc_coef_backward R Rexact polyfit minimize lstsq rows cols xc yc num_fact opt thr = Ok unit /\
    @calc_coef_forward R Rexact polyfit minimize lstsq rows cols xc yc num_fact opt thr = Ok unit.
Proof.
  intros argsort label binarize polyfit minimize lstsq h w d s m mv mh out lab num ny nx ratio miss accepted num_fact opt thr
    Ha Hp Hmi Hl Hm Hv Hh n Hn E El HL y0 x0 Hy Hx Ny Nx Hr Hmiss Hacc Hnf Hnf2 Ht.
  destruct (C100_centres label binarize h w d s m mv mh out lab num ny nx Hm Hv Hh Hn E El HL Hy Hx ltac:(lia) ltac:(lia)) as [pts [t [G [P _]]]].
  fold n in P. fold y0 x0 in P. exists pts, t. intros ys xs rows cols xc yc unit.
  assert (D : 0 < IZR d) by (apply IZR_lt; lia). assert (M : 2 <= IZR miss) by (apply (IZR_le 2); lia).
  assert (B : ratio * IZR d <= IZR d < IZR miss * IZR d) by (split; nra).
  split; [exact G|].
  exact (C99_undistorted argsort label polyfit minimize lstsq pts (IZR y0 + t) (IZR d) ny (IZR x0 + t) (IZR d) nx (IZR d) ratio miss accepted num_fact opt thr
    Ha Hp Hmi Hl Ny Nx ltac:(nra) B B Hacc P Hnf Hnf2 Ht).
Qed.
Print Assumptions C100_calibration.

(** A dot size equal to the distance is accepted, although the dots then
    touch: they make one object, and one point is found. *)
Lemma steps_connected (m : image R) (p : Z * Z) (q : Z) (f : Z -> Z * Z) : (forall k, (0 <= k <= q)%Z -> in_img m (fst (f k)) (snd (f k)) /\ px m (fst (f k)) (snd (f k)) <> 0) ->
  (forall k, (0 <= k < q)%Z -> PrepSpec.adjacent (f k) (f (k + 1)%Z)) -> f 0%Z = p -> (0 <= q)%Z -> connected m p (f q).
Proof.
  intros S A <-. revert S A. intros S A Hq. revert S A. pattern q. apply natlike_ind; [| |exact Hq].
  - intros S _. apply conn_refl. apply (S 0%Z). lia.
  - intros k Hk IH S A. apply conn_step with (f k).
    + apply IH; intros; [apply S|apply A]; lia.
    + unfold Z.succ. apply A. lia.
    + apply (S (Z.succ k)). lia.
Qed.
Theorem C100_touching : forall label binarize h w d s m mv mh out lab num ny nx,
  margin_is m mv mh -> (0 <= mv)%Z -> (0 <= mh)%Z ->
  let n := Z.min (Z.max s 1) (Z.min h w / 8) in (1 <= n)%Z -> n = d ->
  make_dot_pattern h w d s m = Ok out -> label (to_int16 (inverted out)) = (lab, num) -> labelling (inverted out) lab num ->
  let y0 := (mv + n / 2 + 1)%Z in let x0 := (mh + n / 2 + 1)%Z in
  dots_along y0 (h - y0) d ny -> dots_along x0 (w - x0) d nx -> (1 <= ny)%nat -> (1 <= nx)%nat ->
  exists p, get_points_dot_pattern label binarize (inverted out) false = Ok [p].
Proof.
  intros label binarize h w d s m mv mh out lab num ny nx Hm Hv Hh n Hn Hd E El HL y0 x0 Hy Hx Ny Nx.
  destruct (pattern_dots h w d s m mv mh out Hm Hv Hh ltac:(fold n; lia) E) as [Inside [Dark [Bin P0]]]. fold n y0 x0 in Inside, Dark.
  assert (Hd0 : (0 < d)%Z) by lia.
  set (dot := fun gy gx => prog y0 (h - y0) d gy /\ prog x0 (w - x0) d gx).
  assert (C : (0 <= n / 2 /\ n <= 2 * (n / 2) + 1 /\ 2 * (n / 2) <= n)%Z) by (pose proof (Z.div_mod n 2); pose proof (Z.mod_pos_bound n 2); lia).
  assert (Set_ : forall gy gx i j, dot gy gx -> in_disk n i j gy gx -> in_img (inverted out) i j /\ px (inverted out) i j <> 0).
  { intros gy gx i j Hg Hk. assert (I : in_img (inverted out) i j) by (apply (Inside gy gx); [exact Hg|apply Hk]). split; [exact I|]. apply Dark; [exact I|]. now exists gy, gx. }
  assert (V : forall gy gx, dot gy gx -> dot (gy + d)%Z gx -> connected (inverted out) (gy, gx) ((gy + d)%Z, gx)).
  { intros gy gx A B. apply (steps_connected _ _ d (fun k => ((gy + k)%Z, gx))); [| |now rewrite Z.add_0_r|lia].
    - intros k Hk. cbn [fst snd]. destruct (Z_lt_le_dec k (n - n / 2)) as [L|L]; [apply (Set_ gy gx); [exact A|]|apply (Set_ (gy + d)%Z gx); [exact B|]];
        unfold in_disk, in_window; cbn zeta; nia.
    - intros k Hk. unfold PrepSpec.adjacent. cbn [fst snd]. lia. }
  assert (H : forall gy gx, dot gy gx -> dot gy (gx + d)%Z -> connected (inverted out) (gy, gx) (gy, (gx + d)%Z)).
  { intros gy gx A B. apply (steps_connected _ _ d (fun k => (gy, (gx + k)%Z))); [| |now rewrite Z.add_0_r|lia].
    - intros k Hk. cbn [fst snd]. destruct (Z_lt_le_dec k (n - n / 2)) as [L|L]; [apply (Set_ gy gx); [exact A|]|apply (Set_ gy (gx + d)%Z); [exact B|]];
        unfold in_disk, in_window; cbn zeta; nia.
    - intros k Hk. unfold PrepSpec.adjacent. cbn [fst snd]. lia. }
  assert (Back : forall a b k, prog a b d (a + d * Z.succ k)%Z -> (0 <= k)%Z -> prog a b d (a + d * k)%Z).
  { intros a b k [i [I0 [I1 I2]]] Hk. exists k. repeat split; nia. }
  assert (D0 : dot y0 x0) by (split; [now apply first_dot with ny|now apply first_dot with nx]).
  assert (CV : forall k, (0 <= k)%Z -> dot (y0 + d * k)%Z x0 -> connected (inverted out) (y0, x0) ((y0 + d * k)%Z, x0)).
  { intros k Hk. pattern k. apply natlike_ind; [| |exact Hk].
    - intros _. rewrite Z.mul_0_r, Z.add_0_r. apply conn_refl. apply (Set_ y0 x0); [exact D0|now apply centre_in_disk].
    - intros i Hi IH [A B]. assert (A' := Back _ _ _ A Hi). apply conn_trans with ((y0 + d * i)%Z, x0); [apply IH; now split|].
      replace (y0 + d * Z.succ i)%Z with (y0 + d * i + d)%Z in * by lia. apply V; now split. }
  assert (CH : forall gy k, (0 <= k)%Z -> dot gy (x0 + d * k)%Z -> connected (inverted out) (gy, x0) (gy, (x0 + d * k)%Z)).
  { intros gy k Hk. pattern k. apply natlike_ind; [| |exact Hk].
    - rewrite Z.mul_0_r, Z.add_0_r. intros G. apply conn_refl. apply (Set_ gy x0); [exact G|now apply centre_in_disk].
    - intros i Hi IH [A B]. assert (B' := Back _ _ _ B Hi). apply conn_trans with (gy, (x0 + d * i)%Z); [apply IH; now split|].
      replace (x0 + d * Z.succ i)%Z with (x0 + d * i + d)%Z in * by lia. apply H; now split. }
  assert (All : forall i j, in_img (inverted out) i j -> px (inverted out) i j <> 0 -> connected (inverted out) (y0, x0) (i, j)).
  { intros i j Hi Hp. apply Dark in Hp; [|exact Hi]. destruct Hp as [gy [gx [[A B] K]]].
    apply conn_trans with (gy, gx); [|apply (disk_connected (inverted out) n dot Hn Inside Dark); [split; assumption|exact K]].
    pose proof A as A'. pose proof B as B'. destruct A' as [k [K0 [-> _]]]. destruct B' as [l [L0 [-> _]]]. apply conn_trans with ((y0 + d * k)%Z, x0).
    - apply CV; [exact K0|]. split; [exact A|apply D0].
    - apply CH; [exact L0|]. now split. }
  assert (N1 : num = 1%Z).
  { destruct HL as [Lh [Lw [L0 [L1 [L2 L3]]]]].
    assert (S0 : set_pixel (inverted out) (y0, x0)) by (apply (Set_ y0 x0); [exact D0|now apply centre_in_disk]).
    assert (R0 := L1 (y0, x0) (proj1 S0)). assert (Z0 := proj2 (proj2 R0) (proj2 S0)). cbn [fst snd] in R0, Z0.
    assert (One : forall k, (1 <= k <= num)%Z -> k = px lab y0 x0).
    { intros k Hk. destruct (L2 k Hk) as [p [Ip Vp]]. assert (Pp : px (inverted out) (fst p) (snd p) <> 0) by (apply (L1 p Ip); lia).
      assert (Cp := All _ _ Ip Pp). rewrite <- surjective_pairing in Cp. apply (L3 (y0, x0) p S0 (conj Ip Pp)) in Cp. cbn [fst snd] in Cp. congruence. }
    assert (K1 := One 1%Z ltac:(lia)). assert (K2 := One num ltac:(lia)). congruence. }
  rewrite (pattern_points label binarize h w d s m mv mh out lab num ny nx Hm Hv Hh ltac:(fold n; lia) E El HL Hy Hx Ny Nx), N1. eexists. reflexivity.
Qed.
Print Assumptions C100_touching.

(** Dots of size 3 every 10 pixels of a 64 x 64 image with margin 5: 25 dots at
    7, 17, ..., 47. With size 8 every 8 pixels they make one object. *)
Lemma dots_along_c a b d k : (0 < d)%Z -> (0 < k)%nat -> (a + d * (Z.of_nat k - 1) < b)%Z -> (b <= a + d * Z.of_nat k)%Z -> dots_along a b d k.
Proof. intros Hd Hk H1 H2 i Hi. split; intros; nia. Qed.
Example C100_centres_case : forall binarize, exists out label pts, make_dot_pattern 64 64 10 3 (MScalar 5) = Ok out /\
  get_points_dot_pattern label binarize (inverted out) false = Ok pts /\ Permutation pts (grid_points (levels 7 10 5) (levels 7 10 5)).
Proof.
  intros binarize. destruct (C17_dot_pattern 64 64 10 3 (MScalar 5) 5 5) as [out [E _]]; [left; auto|lia|lia|cbn; lia|]. exists out.
  destruct (labelling_exists (inverted out)) as [lab [num HL]]. exists (fun _ => (lab, num)).
  destruct (C100_centres (fun _ => (lab, num)) binarize 64 64 10 3 (MScalar 5) 5 5 out lab num 5 5) as [pts [t [G [P [T _]]]]];
    try (now left; auto); try (lia || (cbn; lia) || exact E || exact HL || reflexivity); try (apply dots_along_c; cbn; lia).
  exists pts. split; [exact E|]. split; [exact G|]. rewrite T in P by reflexivity. cbn in P.
  change (5 + Z.min 3 8 / 2 + 1)%Z with 7%Z in P. now rewrite Rplus_0_r in P.
Qed.
Example C100_touching_case : forall binarize, exists out label p, make_dot_pattern 64 64 8 8 (MScalar 5) = Ok out /\
  dots_along 10 (64 - 10) 8 6 /\ get_points_dot_pattern label binarize (inverted out) false = Ok [p].
Proof.
  intros binarize. destruct (C17_dot_pattern 64 64 8 8 (MScalar 5) 5 5) as [out [E _]]; [left; auto|lia|lia|cbn; lia|]. exists out.
  destruct (labelling_exists (inverted out)) as [lab [num HL]]. exists (fun _ => (lab, num)).
  destruct (C100_touching (fun _ => (lab, num)) binarize 64 64 8 8 (MScalar 5) 5 5 out lab num 6 6) as [p G];
    try (now left; auto); try (lia || (cbn; lia) || exact E || exact HL || reflexivity); try (apply dots_along_c; cbn; lia).
  exists p. split; [exact E|]. split; [apply dots_along_c; lia|exact G].
Qed.
