(** The least-squares slope through the dots of a rectangular grid. *)
From Coq Require Import Reals ZArith List Lra Lia Permutation.
From Flocq Require Import Core.
From Verif Require Import Base Num Img Spec NumFacts Sorting Lsq PrepSpec PrepImg PrepEx PrepFacts2 PrepImgFacts PrepImgFacts2 PrepImgFacts3 PrepFacts4 PersFacts2
  Util UtilFacts Props_Grid DotFacts Props_Dots.
Import ListNotations.
Local Open Scope R_scope.

Lemma Rsum_prod (f g : R -> R) us vs :
  Rsum (map (fun p => f (fst p) * g (snd p)) (grid_points us vs)) = Rsum (map f us) * Rsum (map g vs).
Proof.
  unfold grid_points. induction us as [|u us IH]; cbn [map concat Rsum]; [ring|]. rewrite map_app, Rsum_app, IH, map_map. cbn [fst snd].
  assert (E : Rsum (map (fun v => f u * g v) vs) = f u * Rsum (map g vs)) by (clear IH; induction vs as [|v vs IHv]; cbn [map Rsum]; [ring|]; rewrite IHv; ring).
  rewrite E. ring.
Qed.
Lemma filter_grid (f : R -> bool) us vs : filter (fun p : R * R => f (fst p)) (grid_points us vs) = grid_points (filter f us) vs.
Proof.
  unfold grid_points. induction us as [|u us IH]; [reflexivity|]. cbn [map concat filter]. rewrite filter_app, IH. destruct (f u) eqn:E.
  - cbn [map concat]. f_equal. clear IH. induction vs as [|v vs IHv]; [reflexivity|]. cbn [map filter fst]. rewrite E. now f_equal.
  - assert (Z : filter (fun p : R * R => f (fst p)) (map (fun x => (u, x)) vs) = []) by (clear IH; induction vs as [|v vs IHv]; [reflexivity|]; cbn [map filter fst]; now rewrite E).
    now rewrite Z.
Qed.
Lemma in_grid u v us vs : In (u, v) (grid_points us vs) <-> In u us /\ In v vs.
Proof.
  unfold grid_points. rewrite in_concat. split.
  - intros [l [Hl Hi]]. apply in_map_iff in Hl. destruct Hl as [u' [<- Hu]]. apply in_map_iff in Hi. destruct Hi as [v' [[= <- <-] Hv]]. auto.
  - intros [Hu Hv]. exists (map (fun x => (u, x)) vs). split; [apply in_map_iff; eauto|apply in_map_iff; eauto].
Qed.
Definition avg (l : list R) : R := Rsum l / INR (length l).
Lemma Rsum_dev l : l <> [] -> Rsum (map (fun u => u - avg l) l) = 0.
Proof.
  intros Ne. assert (L : INR (length l) <> 0) by (destruct l; [congruence|]; rewrite S_INR || idtac; cbn [length]; apply not_0_INR; lia).
  assert (E : forall c (k : list R), Rsum (map (fun u => u - c) k) = Rsum k - INR (length k) * c).
  { intros c k. induction k as [|x k IH]; [cbn [map Rsum length INR]; ring|]. cbn [map Rsum length]. rewrite IH, S_INR. ring. }
  rewrite E. unfold avg. field. exact L.
Qed.
Lemma sqerr_line a b : forall l, sqerr (map (pow_row 1) (map snd l)) (map fst l) [a; b] = Rsum (map (fun p : R * R => (a * snd p + b - fst p) ^ 2) l).
Proof.
  intros l. unfold sqerr. induction l as [|p l IH]; [reflexivity|]. cbn [map combine Rsum]. rewrite IH. f_equal. cbn. ring.
Qed.
(** The flat line is the fit. *)
Lemma grid_fit us vs l : us <> [] -> Permutation l (grid_points us vs) -> polyfit_spec 1 (map snd l) (map fst l) [0; avg us].
Proof.
  intros Ne P. split; [reflexivity|]. intros [|a [|b [|? ?]]] Hl; try discriminate. rewrite !sqerr_line.
  rewrite !(Rsum_perm _ _ (Permutation_map _ P)). set (c := avg us).
  assert (Lin : forall L : list (R * R), Rsum (map (fun p => (a * snd p + b - fst p) ^ 2) L) =
    Rsum (map (fun p => (0 * snd p + c - fst p) ^ 2) L) + Rsum (map (fun p => (a * snd p + b - c) ^ 2) L) - 2 * Rsum (map (fun p => (fst p - c) * (a * snd p + b - c)) L)).
  { intros L. induction L as [|p L IH]; cbn [map Rsum]; [ring|]. rewrite IH. ring. }
  rewrite Lin. rewrite (Rsum_prod (fun u => u - c) (fun v => a * v + b - c)). unfold c at 4. rewrite Rsum_dev by exact Ne.
  assert (0 <= Rsum (map (fun p => (a * snd p + b - c) ^ 2) (grid_points us vs))).
  { apply Rsum_nonneg. intros x Hx. apply in_map_iff in Hx. destruct Hx as [p [<- _]]. apply pow2_ge_0. }
  lra.
Qed.

Section SlopeGrid.
  Variable argsort : list R -> list nat.
  Variable slope_fit : list R -> list R -> R.
  Hypothesis argsort_ok : argsort_spec argsort.
  Hypothesis fit_ok : forall xs ys, length xs = length ys -> xs <> [] -> exists i, polyfit_spec 1 xs ys [slope_fit xs ys; i].
  Lemma slope_grid err (l : list (R * R)) us vs de v1 v2 : Permutation l (grid_points us vs) -> us <> [] -> In v1 vs -> In v2 vs -> v1 <> v2 -> 0 < de ->
    @slope_from R Rex argsort slope_fit err l 0 de = Ok 0.
  Proof.
    intros P Ne V1 V2 Nv Hde. destruct us as [|u0 us0] eqn:Eu; [congruence|]. rewrite <- Eu in *.
    assert (Il : In (u0, v1) l) by (apply (Permutation_in _ (Permutation_sym P)); apply in_grid; split; [subst us; now left|exact V1]).
    unfold slope_from. destruct l as [|p0 l0] eqn:El; [destruct Il|]. rewrite <- El in *.
    set (dm := map _ l). assert (Ldm : length dm = length l) by (unfold dm; now rewrite map_length).
    destruct (argsort_ok dm) as [Pa _].
    assert (La : length (argsort dm) = length l) by (rewrite (Permutation_length Pa), seq_length; assumption).
    assert (Ll : (0 < length l)%nat) by (subst l; cbn; lia).
    assert (I0 : exists k, pyget (map Z.of_nat (argsort dm)) 0 = Ok (Z.of_nat k) /\ (k < length l)%nat).
    { destruct (argsort dm) as [|k a] eqn:E; [cbn in La; lia|]. exists k. split; [reflexivity|].
      assert (In k (seq 0 (length dm))) by (apply (Permutation_in _ Pa); now left). apply in_seq in H. lia. }
    destruct I0 as [k [-> Hk]]. cbn [bind]. rewrite (pyget_nat l k p0 Hk). cbn [bind].
    set (u := nth k l p0). assert (Hu : In u l) by (now apply nth_In).
    unfold Rex. cbn [nsqrt npow nadd nofZ nsub nmul nabs ndiv nltb Rnum]. change (@n1 R (Rnum (fun x => x))) with 1%R.
    set (f := fun y : R => Rlt_bool (Rabs (fst u - y)) de).
    assert (Ef : forall L : list (R * R), filter (fun c : R * R => Rlt_bool (Rabs (0 * snd c - fst c + (fst u - 0 * snd u)) / sqrt (0 ^ 2 + 1)) de) L = filter (fun p => f (fst p)) L).
    { intros L. apply filter_ext. intros c. unfold f. f_equal. replace (0 ^ 2 + 1) with 1 by ring. rewrite sqrt_1. unfold Rdiv. rewrite Rinv_1, Rmult_1_r. f_equal. ring. }
    rewrite Ef. set (sel := filter (fun p => f (fst p)) l).
    assert (Ps : Permutation sel (grid_points (filter f us) vs)) by (unfold sel; rewrite <- filter_grid; now apply Permutation_filter').
    assert (Fu : In (fst u) (filter f us)).
    { apply filter_In. split.
      - apply (Permutation_in _ P) in Hu. destruct u as [uy ux]. now apply in_grid in Hu.
      - unfold f. apply Rlt_bool_true_iff. rewrite Rminus_diag_eq, Rabs_R0 by reflexivity. exact Hde. }
    assert (S1 : In (fst u, v1) sel) by (apply (Permutation_in _ (Permutation_sym Ps)); apply in_grid; auto).
    assert (S2 : In (fst u, v2) sel) by (apply (Permutation_in _ (Permutation_sym Ps)); apply in_grid; auto).
    destruct (Z.ltb_spec 1 (Z.of_nat (length sel))) as [Hlt|Hge].
    - f_equal. destruct (fit_ok (map snd sel) (map fst sel)) as [i Hi]; [now rewrite !map_length|intros E; apply map_eq_nil in E; rewrite E in S1; destruct S1|].
      apply (line_fit_unique (map snd sel) (map fst sel) _ i 0 (avg (filter f us)) v1 v2); [now rewrite !map_length| | |exact Nv|exact Hi|].
      + apply (in_map snd) in S1. exact S1.
      + apply (in_map snd) in S2. exact S2.
      + apply (grid_fit _ vs); [|exact Ps]. intros E. rewrite E in Fu. destruct Fu.
    - exfalso. destruct sel as [|a [|b r]]; cbn in S1, S2, Hge; try lia. destruct S1 as [->|[]], S2 as [[= E]|[]]. congruence.
  Qed.
End SlopeGrid.
