(** Facts on undistorted perspective lines: optimised distance, grids that
    need no correction. *)
From Coq Require Import Reals ZArith List Lra Lia Permutation Sorted.
From Flocq Require Import Core.
From Verif Require Import Base Num NumFacts Spec Lsq PrepSpec Sorting Img PrepImg PrepPts PrepFacts PrepFacts2 Post PostPersp PostExtra
  Proc ProcPers ProcFacts ProcFacts2 ProcFacts3 ProcFacts4 ProcFacts5 PersFacts PersFacts2 PersFacts3 Props_Proc Props_Pers ProcSpec PersSpec.
Import ListNotations.
Local Open Scope R_scope.

Lemma quadratic_seq (u v : nat -> R) (L : list nat) : exists A B C, 0 <= A /\ (forall j, In j L -> u j ^ 2 <= A) /\
  forall x, Rsum (map (fun i => (u i * x + v i) ^ 2) L) = A * x ^ 2 + B * x + C.
Proof.
  induction L as [|j L [A [B [C [H0 [H1 H2]]]]]].
  - exists 0, 0, 0. split; [lra|]. split; [intros j []|]. intros x. cbn. ring.
  - exists (u j ^ 2 + A), (2 * u j * v j + B), (v j ^ 2 + C). pose proof (pow2_ge_0 (u j)). split; [lra|]. split.
    + intros i [<-|Hi]; [lra|]. specialize (H1 i Hi). lra.
    + intros x. cbn [map]. change (Rsum (?a :: ?l)) with (a + Rsum l). rewrite H2. ring.
Qed.
Lemma progression_quadratic l : (2 <= length l)%nat -> exists A B C, 0 < A /\ forall x, progression_error l x = A * x ^ 2 + B * x + C.
Proof.
  intros L. destruct (quadratic_seq (fun i => INR i - INR (Nat.div2 (length l))) (fun i => middle l - nth i l 0) (seq 0 (length l))) as [A [B [C [_ [H1 H2]]]]].
  exists A, B, C. split.
  - assert (E : exists j, (j < length l)%nat /\ j <> Nat.div2 (length l)).
    { exists 0%nat. split; [lia|]. destruct (length l) as [|[|n]]; cbn; lia. }
    destruct E as [j [Hj Nj]]. specialize (H1 j ltac:(apply in_seq; lia)). eapply Rlt_le_trans; [|exact H1].
    assert (INR j - INR (Nat.div2 (length l)) <> 0) by (intros G; apply Nj; apply INR_eq; lra).
    rewrite <- Rsqr_pow2. now apply Rsqr_pos_lt.
  - intros x. rewrite <- H2. unfold progression_error. f_equal. apply map_ext. intros i. f_equal. ring.
Qed.
Lemma quadratic_min A B C x y : 0 < A -> (forall z, A * x ^ 2 + B * x + C <= A * z ^ 2 + B * z + C) -> (forall z, A * y ^ 2 + B * y + C <= A * z ^ 2 + B * z + C) -> x = y.
Proof.
  intros HA Hx Hy. specialize (Hx y) as E1. specialize (Hy x) as E2. specialize (Hx ((x + y) / 2)).
  assert (Q : A * (x - y) ^ 2 <= 0) by nra. assert (P : (x - y) ^ 2 <= 0) by (pose proof (pow2_ge_0 (x - y)); nra).
  assert (Z : (x - y) ^ 2 = 0) by (pose proof (pow2_ge_0 (x - y)); lra). assert (x - y = 0); [|lra]. apply Rsqr_0_uniq. unfold Rsqr. lra.
Qed.
(** The optimised distance does not depend on the start value. *)
Lemma optimised_min minimize scale n l d : minimize_oracle minimize -> (2 <= length l)%nat -> line_step minimize scale true n l d ->
  forall x, progression_error l d <= progression_error l x.
Proof.
  intros MO L [d0 [_ [_ H]]] x. destruct (H eq_refl) as [f [Hf ->]]. destruct (progression_quadratic l L) as [A [B [C [HA Q]]]].
  rewrite <- !Hf. apply (MO f A B C); [exact HA|]. intros z. rewrite Hf. apply Q.
Qed.
Lemma optimised_unique minimize scale scale' n n' l d d' : minimize_oracle minimize -> (2 <= length l)%nat ->
  line_step minimize scale true n l d -> line_step minimize scale' true n' l d' -> d = d'.
Proof.
  intros MO L H H'. destruct (progression_quadratic l L) as [A [B [C [HA Q]]]].
  apply (quadratic_min A B C); [exact HA| |]; intros z; rewrite <- !Q; [exact (optimised_min _ _ _ _ _ MO L H z)|exact (optimised_min _ _ _ _ _ MO L H' z)].
Qed.
(** On equidistant intercepts the distance is exact. *)
Lemma step_equidistant minimize scale opt n l d a e : minimize_oracle minimize -> (2 <= length l)%nat -> (1 <= n)%nat -> equidistant a e l -> 0 < e ->
  (opt = false -> forall v, scale = ScVal v -> v = 1) -> line_step minimize scale opt n l d -> d = e.
Proof.
  intros MO L Hn E He Sc H.
  assert (Ed : forall d0, distance_for scale (gaps (around (Nat.div2 (length l)) n l)) d0 -> (forall v, scale = ScVal v -> v = 1) -> d0 = e).
  { intros d0 [Hg D] Sv.
    assert (G : forall x, In x (gaps (around (Nat.div2 (length l)) n l)) -> x = e).
    { intros x Hx. pose proof (gaps_equidistant _ _ _ (around_equidistant a e l _ n E (div2_lt (length l) ltac:(lia))) x Hx) as ->. apply Rabs_right. lra. }
    set (g := gaps (around (Nat.div2 (length l)) n l)) in *. clearbody g.
    destruct scale; cbn in D.
    - rewrite D. now apply average_const.
    - destruct D as [s [P [_ [k D]]]]. assert (NS : forall i, (i < length g)%nat -> nth i s 0 = e).
      { intros i Hi. apply G. apply (Permutation_in _ P). apply nth_In. now rewrite (Permutation_length P). }
      destruct D as [[Lk ->]|[Lk ->]]; rewrite !NS by lia; lra.
    - apply G, D.
    - apply G, D.
    - rewrite (Sv v eq_refl) in D. rewrite D, Rmult_1_l. now apply average_const. }
  destruct opt.
  - destruct (progression_quadratic l L) as [A [B [C [HA Q]]]]. apply (quadratic_min A B C); [exact HA| |]; intros z; rewrite <- !Q.
    + exact (optimised_min _ _ _ _ _ MO L H z).
    + assert (Z : progression_error l e = 0).
      { unfold progression_error. rewrite (Rsum_const _ 0); [ring|]. intros x Hx. apply in_map_iff in Hx. destruct Hx as [i [<- Hi]]. apply in_seq in Hi.
        unfold middle. rewrite !E by (try apply div2_lt; lia). ring. }
      rewrite Z. unfold progression_error. apply Rsum_nonneg. intros x Hx. apply in_map_iff in Hx. destruct Hx as [i [<- _]]. apply pow2_ge_0.
  - destruct H as [d0 [D [H _]]]. rewrite H by reflexivity. apply Ed; [exact D|apply Sc; reflexivity].
Qed.
Lemma grid_ext n m (g h g' h' : list (list pt)) : transposed n m g h -> transposed n m g' h' -> (forall i j, (i < n)%nat -> (j < m)%nat -> at_ g i j = at_ g' i j) -> g = g' /\ h = h'.
Proof.
  intros [L1 [L2 [L3 [L4 T]]]] [L1' [L2' [L3' [L4' T']]]] H. split.
  - apply (nth_ext _ _ [] []); [congruence|]. intros i Hi. rewrite L1 in Hi. apply (nth_ext _ _ (0, 0) (0, 0)).
    + rewrite L2, L2'; [reflexivity|apply nth_In; lia|apply nth_In; lia].
    + intros j Hj. rewrite L2 in Hj by (apply nth_In; lia). now apply H.
  - apply (nth_ext _ _ [] []); [congruence|]. intros j Hj. rewrite L3 in Hj. apply (nth_ext _ _ (0, 0) (0, 0)).
    + rewrite L4, L4'; [reflexivity|apply nth_In; lia|apply nth_In; lia].
    + intros i Hi. rewrite L4 in Hi by (apply nth_In; lia). rewrite <- T, <- T' by assumption. now apply H.
Qed.

Section Square.
  Local Instance NQ : Num R := Rexact.
  Variable polyfit : list R -> list R -> nat -> res (list R).
  Variable minimize : (R -> R) -> R -> R.
  Hypothesis PF : polyfit_oracle polyfit.
  Hypothesis MO : minimize_oracle minimize.
  Lemma parallel_lines_hor a bs lh : parallel_hor a bs lh -> Forall2 (line_hor (fun x => x) polyfit) lh (map (fun b => (a, b)) bs).
  Proof. intros F. induction F as [|b l bs lh [H D] F IH]; cbn [map]; [apply Forall2_nil|]. apply Forall2_cons; [|exact IH]. now apply (line_hor_exact (fun x => x) polyfit). Qed.
  Lemma parallel_lines_ver a cs lv : parallel_ver a cs lv -> Forall2 (line_ver (fun x => x) polyfit) lv (map (fun c => (- a, c)) cs).
  Proof. intros F. induction F as [|b l bs lh [H D] F IH]; cbn [map]; [apply Forall2_nil|]. apply Forall2_cons; [|exact IH]. now apply (line_ver_exact (fun x => x) polyfit). Qed.
  Lemma parallel_ne a bs cs lh lv : parallel_hor a bs lh -> parallel_ver a cs lv -> forall l, In l (lh ++ lv) -> l <> [].
  Proof.
    intros Fh Fv l Hl. apply in_app_or in Hl. destruct Hl as [Hl|Hl].
    - clear Fv; induction Fh as [|c line bs lh [_ D] F IH]; [destruct Hl|]. destruct Hl as [<-|Hl]; [|auto]. intros ->. apply distinct_values_ne in D. now apply D.
    - clear Fh; induction Fv as [|c line cs lv [_ D] F IH]; [destruct Hl|]. destruct Hl as [<-|Hl]; [|auto]. intros ->. apply distinct_values_ne in D. now apply D.
  Qed.
  Lemma equidistant_distinct a0 d l : equidistant a0 d l -> 0 < d -> (2 <= length l)%nat -> distinct_values 2 l.
  Proof.
    intros E D L. exists [nth 0 l 0; nth 1 l 0]. split; [|split; [|cbn; lia]].
    - constructor; [|constructor; [intros []|constructor]]. intros [Z|[]]. rewrite !E in Z by lia. cbn in Z. lra.
    - intros x [<-|[<-|[]]]; apply nth_In; lia.
  Qed.
  Lemma slope_parallel a bs cs b : distinct_values 2 bs -> distinct_values 2 cs ->
    common_slope polyfit (map (fun b => (a, b)) bs) (map (fun c => (- a, c)) cs) b -> b = a.
  Proof.
    intros D1 D2 [ah [bh [av [bv [E1 [E2 [_ S]]]]]]].
    assert (F1 : polyfit (map snd (map (fun b => (a, b)) bs)) (map fst (map (fun b => (a, b)) bs)) 1%nat = Ok [0; a]).
    { refine (fit1_ok polyfit _ _ (0, a) (ProcFacts.fit1_exact polyfit PF snd fst (map (fun b => (a, b)) bs) 0 a _ _)).
      - rewrite map_map. cbn. now rewrite map_id.
      - intros p Hp. apply in_map_iff in Hp. destruct Hp as [z [<- _]]. cbn. ring. }
    assert (F2 : polyfit (map snd (map (fun c => (- a, c)) cs)) (map (fun c => - fst c) (map (fun c => (- a, c)) cs)) 1%nat = Ok [0; a]).
    { refine (fit1_ok polyfit _ _ (0, a) (ProcFacts.fit1_exact polyfit PF snd (fun c : R * R => - fst c) (map (fun c => (- a, c)) cs) 0 a _ _)).
      - rewrite map_map. cbn. now rewrite map_id.
      - intros p Hp. apply in_map_iff in Hp. destruct Hp as [z [<- _]]. cbn. ring. }
    rewrite F1 in E1. rewrite F2 in E2. apply Ok_inj in E1. apply Ok_inj in E2. injection E1 as <- <-. injection E2 as <- <-.
    rewrite S; [field|]. rewrite Rminus_0_r, Rabs_R0. lra.
  Qed.
  Lemma square_kept a bs cs lh lv b0 d c0 f (eq opt : bool) scale : parallel_hor a bs lh -> parallel_ver a cs lv ->
    equidistant b0 d bs -> equidistant c0 f cs -> 0 < d -> 0 < f -> (eq = true -> d = f) -> (2 <= length lh)%nat -> (2 <= length lv)%nat ->
    (opt = false -> forall v, scale = ScVal v -> v = 1) ->
    exists gh gv, generate_undistorted_perspective_lines polyfit minimize lh lv eq scale opt = Ok (gh, gv) /\ regenerate_grid_points_linear polyfit lh lv = Ok (gh, gv) /\
    transposed (length lh) (length lv) gh gv /\
    forall i j, (i < length lh)%nat -> (j < length lv)%nat -> on_hor (a, b0 + INR i * d) (at_ gh i j) /\ on_ver (- a, c0 + INR j * f) (at_ gh i j).
  Proof.
    intros Fh Fv Q1 Q2 D F He Lh Lv Sc.
    pose proof (Forall2_length _ _ _ Fh) as L1. pose proof (Forall2_length _ _ _ Fv) as L2.
    destruct (C33_total polyfit minimize lh lv eq scale opt PF Lh Lv (parallel_ne a bs cs lh lv Fh Fv)) as [[gh gv] E]. exists gh, gv. split; [exact E|].
    destruct (C33_lattice polyfit minimize lh lv eq scale opt gh gv Lh Lv E) as [T _].
    destruct (C33_lines polyfit minimize lh lv eq scale opt gh gv Lh Lv E) as [a1 [ch [cv [sh [sv [dh [dv [Gh [Gv [CS [S1 [S2 [Dh [Dv G]]]]]]]]]]]]]].
    assert (Hch : ch = map (fun b => (a, b)) bs) by (refine (Forall2_fun (line_hor (fun x => x) polyfit) lh (fun a b b' => line_hor_fun polyfit (fun x => x) a b b') _ _ Gh _); now apply parallel_lines_hor).
    assert (Hcv : cv = map (fun b => (- a, b)) cs) by (refine (Forall2_fun (line_ver (fun x => x) polyfit) lv (fun a b b' => line_ver_fun polyfit (fun x => x) a b b') _ _ Gv _); now apply parallel_lines_ver).
    subst ch cv.
    assert (M1 : forall (z : R) l, map snd (map (fun b : R => (z, b)) l) = l) by (intros z l; rewrite map_map; cbn; apply map_id).
    rewrite !M1 in *. unfold pt in *.
    assert (a1 = a) as -> by (apply (slope_parallel a bs cs); [apply (equidistant_distinct b0 d); try assumption; lia|apply (equidistant_distinct c0 f); try assumption; lia|exact CS]).
    assert (sh = d) as -> by (apply (step_equidistant minimize scale opt _ bs sh b0 d MO ltac:(lia) (used_pos _ _) Q1 D Sc S1)).
    assert (sv = f) as -> by (apply (step_equidistant minimize scale opt _ cs sv c0 f MO ltac:(lia) (used_pos _ _) Q2 F Sc S2)).
    assert (Ed : dh = d /\ dv = f).
    { rewrite Dh, Dv. destruct eq; [|split; reflexivity]. rewrite <- (He eq_refl). unfold common_step. destruct scale; rewrite ?Rmax_left, ?Rmin_left by lra; split; lra. }
    destruct Ed as [-> ->].
    assert (G' : forall i j, (i < length lh)%nat -> (j < length lv)%nat -> on_hor (a, b0 + INR i * d) (at_ gh i j) /\ on_ver (- a, c0 + INR j * f) (at_ gh i j)).
    { intros i j Hi Hj. destruct (G i j Hi Hj) as [G1 G2]. unfold middle in *.
      rewrite Q1 in G1 by (apply div2_lt; lia). rewrite Q2 in G2 by (apply div2_lt; lia). rewrite L1 in G1. rewrite L2 in G2. split.
      - replace (b0 + INR i * d) with ((INR i - INR (Nat.div2 (length lh))) * d + (b0 + INR (Nat.div2 (length lh)) * d)) by ring. exact G1.
      - replace (c0 + INR j * f) with ((INR j - INR (Nat.div2 (length lv))) * f + (c0 + INR (Nat.div2 (length lv)) * f)) by ring. exact G2. }
    split; [|split; [exact T|exact G']].
    destruct (C32_straight polyfit lh lv (map (fun b => (a, b)) bs) (map (fun b => (- a, b)) cs) PF) as [gh' [gv' [E' [T' G2]]]].
    - clear -Fh. induction Fh as [|b l bs lh H F IH]; cbn [map]; [apply Forall2_nil|]. apply Forall2_cons; [exact H|exact IH].
    - clear -Fv. induction Fv as [|b l bs lh H F IH]; cbn [map]; [apply Forall2_nil|]. apply Forall2_cons; [exact H|exact IH].
    - intros c c' Hc Hc'. apply in_map_iff in Hc. destruct Hc as [z [<- _]]. apply in_map_iff in Hc'. destruct Hc' as [z' [<- _]]. cbn. pose proof (pow2_ge_0 a). nra.
    - destruct (grid_ext _ _ _ _ _ _ T T') as [-> ->]; [|exact E'].
      intros i j Hi Hj. destruct (G' i j Hi Hj) as [P1 P2]. destruct (G2 i j Hi Hj) as [P3 P4].
      rewrite (nth_indep _ (0, 0) (a, 0)) in P3 by (rewrite map_length; lia). rewrite (map_nth (fun b => (a, b))), Q1 in P3 by lia.
      rewrite (nth_indep _ (0, 0) (- a, 0)) in P4 by (rewrite map_length; lia). rewrite (map_nth (fun b => (- a, b))), Q2 in P4 by lia.
      refine (cross_unique (a, _) (- a, _) _ _ _ P1 P2 P3 P4). cbn. pose proof (pow2_ge_0 a). nra.
  Qed.
  (** The regenerated lines are such lines again. *)
  Lemma regenerated_parallel a bs cs b0 d c0 f gh gv : equidistant b0 d bs -> equidistant c0 f cs -> 0 < d -> 0 < f -> (2 <= length bs)%nat -> (2 <= length cs)%nat ->
    transposed (length bs) (length cs) gh gv ->
    (forall i j, (i < length bs)%nat -> (j < length cs)%nat -> on_hor (a, b0 + INR i * d) (at_ gh i j) /\ on_ver (- a, c0 + INR j * f) (at_ gh i j)) ->
    parallel_hor a bs gh /\ parallel_ver a cs gv.
  Proof.
    intros Q1 Q2 D F L1 L2 [T1 [T2 [T3 [T4 T5]]]] G.
    assert (P2 : 0 < 1 + a ^ 2) by (pose proof (pow2_ge_0 a); lra).
    assert (FN : forall (A B : Type) (P : A -> B -> Prop) l m x y, length l = length m -> (forall i, (i < length l)%nat -> P (nth i l x) (nth i m y)) -> Forall2 P l m).
    { clear. intros A B P. induction l as [|p l IH]; intros [|q m] x y L H; try discriminate L; [apply Forall2_nil|]. apply Forall2_cons; [exact (H 0%nat ltac:(cbn; lia))|].
      apply (IH m x y); [now injection L|]. intros i Hi. apply (H (S i)). cbn. lia. }
    split.
    - apply (FN _ _ _ bs gh 0 []); [congruence|]. intros i Hi.
      assert (Li : length (nth i gh []) = length cs) by (apply T2, nth_In; lia). rewrite (Q1 i Hi). split.
      + intros p Hp. apply (In_nth _ _ (0, 0)) in Hp. destruct Hp as [j [Hj <-]]. assert (Hj' : (j < length cs)%nat) by (rewrite <- Li; exact Hj). now apply (G i j).
      + exists [pxc (at_ gh i 0); pxc (at_ gh i 1)]. split; [|split; [|cbn; lia]].
        * constructor; [|constructor; [intros []|constructor]]. intros [Z|[]]. destruct (G i 0%nat Hi ltac:(lia)) as [A1 A2]. destruct (G i 1%nat Hi ltac:(lia)) as [A3 A4].
          unfold on_hor, on_ver in *. cbn [fst snd INR] in *. rewrite Z in A3. rewrite A3 in A4. rewrite A1 in A2. rewrite Z in A4. lra.
        * intros x [<-|[<-|[]]]; unfold at_; apply in_map, nth_In; rewrite ?Li, ?Lj; lia.
    - apply (FN _ _ _ cs gv 0 []); [congruence|]. intros j Hj.
      assert (Lj : length (nth j gv []) = length bs) by (apply T4, nth_In; lia). rewrite (Q2 j Hj). split.
      + intros p Hp. apply (In_nth _ _ (0, 0)) in Hp. destruct Hp as [i [Hi <-]]. assert (Hi' : (i < length bs)%nat) by (rewrite <- Lj; exact Hi). rewrite <- T5 by assumption. now apply (G i j).
      + exists [py (at_ gh 0 j); py (at_ gh 1 j)]. split; [|split; [|cbn; lia]].
        * constructor; [|constructor; [intros []|constructor]]. intros [Z|[]]. destruct (G 0%nat j ltac:(lia) Hj) as [A1 A2]. destruct (G 1%nat j ltac:(lia) Hj) as [A3 A4].
          unfold on_hor, on_ver in *. cbn [fst snd INR] in *. rewrite Z in A4. rewrite A2 in A1. rewrite A4 in A3. rewrite Z in A3. lra.
        * intros x [<-|[<-|[]]]; unfold at_; rewrite T5 by lia; apply in_map, nth_In; rewrite ?Li, ?Lj; lia.
  Qed.
End Square.
