(** C138: small measuring errors change the perspective model and the corrected
    positions only a little. *)
From Coq Require Import Reals ZArith List Lia Lra Permutation.
From Flocq Require Import Core.
From Verif Require Import Base Num NumFacts Spec Lsq PolyUniq LsqEx Img PrepImg PrepPts Post PostPersp PostExtra PostLines PostLines2 Proc ProcPers ProcSpec PersSpec ProcFacts ProcFacts2 ProcFacts3 ProcFacts4 ProcFacts5
  PersFacts PersFacts2 PersFacts3 CalibSpec CalibFacts Props_Proc Props_Pers Props_Steady Props_Steady2.
Import ListNotations.
Local Open Scope R_scope.

(** The points with every coordinate changed by at most d. *)
Definition shifted (d : R) (a b : list (R * R)) : Prop := Forall2 (fun p q => Rabs (py q - py p) <= d /\ Rabs (pxc q - pxc p) <= d) a b.
(** How badly the map with coefficients c sends p to q, in the linear form that
    calc_perspective_coefficients minimises; and the best maps for given pairs. *)
Definition misfit (c : list R) (p q : R * R) : R :=
  let m := proj_map c in
  (Spec.c1 m * pxc p + c2 m * py p + c3 m - pxc q * den m p) ^ 2 + (c4 m * pxc p + c5 m * py p + c6 m - py q * den m p) ^ 2.
Definition best_map (src tgt : list (R * R)) (c : list R) : Prop :=
  length c = 8%nat /\ forall c', length c' = 8%nat ->
    Rsum (map (fun pq => misfit c (fst pq) (snd pq)) (combine src tgt)) <= Rsum (map (fun pq => misfit c' (fst pq) (snd pq)) (combine src tgt)).
(** The pairs have only one best map. *)
Definition determined (src tgt : list (R * R)) : Prop := forall c c', best_map src tgt c -> best_map src tgt c' -> c = c'.

(** *** Linear systems without kernel are bounded below *)
Lemma dot_le r : forall v, Rabs (dot r v) <= norm1 r * norm1 v.
Proof.
  induction r as [|a r IH]; intros [|b v]; cbn [dot]; try (rewrite Rabs_R0; apply Rmult_le_pos; apply norm1_pos).
  specialize (IH v). unfold norm1 in *. cbn [map Rsum]. fold (norm1 r) (norm1 v) in *. eapply Rle_trans; [apply Rabs_triang|]. rewrite Rabs_mult.
  pose proof (norm1_pos r). pose proof (norm1_pos v). pose proof (Rabs_pos a). pose proof (Rabs_pos b). assert (0 <= Rabs a * norm1 v) by (now apply Rmult_le_pos). assert (0 <= norm1 r * Rabs b) by (now apply Rmult_le_pos). lra.
Qed.
Lemma sum_abs_pos {A} (f : A -> R) l : 0 <= Rsum (map (fun s => Rabs (f s)) l).
Proof. apply Rsum_nonneg. intros x Hx. apply in_map_iff in Hx. destruct Hx as [s [<- _]]. apply Rabs_pos. Qed.
Lemma sum_abs_in {A} (f : A -> R) l s : In s l -> Rabs (f s) <= Rsum (map (fun s => Rabs (f s)) l).
Proof.
  induction l as [|a l IH]; intros I; [destruct I|]. cbn [map Rsum]. pose proof (sum_abs_pos f l). destruct I as [->|I]; [lra|]. specialize (IH I). pose proof (Rabs_pos (f a)). lra.
Qed.
Lemma repeat_dot n : forall r, dot r (repeat 0 n) = 0.
Proof. induction n as [|n IH]; intros [|a r]; cbn [repeat dot]; try reflexivity. rewrite IH. ring. Qed.
Lemma bounded_below n : forall rows : list (list R), (forall r, In r rows -> length r = n) ->
  (forall v, length v = n -> (forall r, In r rows -> dot r v = 0) -> v = repeat 0 n) ->
  exists M, 0 <= M /\ forall v, length v = n -> norm1 v <= M * Rsum (map (fun r => Rabs (dot r v)) rows).
Proof.
  induction n as [|n IH]; intros rows L K.
  - exists 0. split; [lra|]. intros [|a v] Lv; [|discriminate Lv]. unfold norm1. cbn [map Rsum]. lra.
  - assert (P : exists a t0, In (a :: t0) rows /\ a <> 0).
    { destruct (Exists_dec (fun r => hd 0 r <> 0) rows) as [E|N].
      - intros r. destruct (Req_EM_T (hd 0 r) 0); [right; tauto|now left].
      - apply Exists_exists in E. destruct E as [[|a t0] [I H]]; [cbn in H; lra|]. now exists a, t0.
      - exfalso. assert (Z : 1 :: repeat 0 n = repeat 0 (S n)).
        { apply K; [cbn [length]; now rewrite repeat_length|]. intros r Hr. destruct r as [|b t]; [reflexivity|]. cbn [dot]. rewrite repeat_dot.
          destruct (Req_dec b 0) as [->|Nb]; [ring|]. exfalso. apply N. apply Exists_exists. exists (b :: t). now split. }
        cbn [repeat] in Z. injection Z as Z. lra. }
    destruct P as [a [t0 [I0 Na]]].
    assert (L0 : length t0 = n) by (specialize (L _ I0); cbn in L; lia).
    set (red := fun r => vlin 1 (tl r) (- (hd 0 r / a)) t0).
    assert (Rd : forall r x w, In r rows -> length w = n -> dot (red r) w = dot r (x :: w) - hd 0 r / a * dot (a :: t0) (x :: w)).
    { intros r x w Hr Lw. specialize (L r Hr). destruct r as [|b t]; [discriminate L|]. unfold red. cbn [tl hd dot].
      assert (D : forall u b' v w, length u = length v -> dot (vlin 1 u b' v) w = dot u w + b' * dot v w).
      { clear. induction u as [|x u IH]; intros b' [|y v] w E; try discriminate E; cbn [vlin dot]; [ring|]. destruct w as [|z w]; [ring|]. rewrite IH by (cbn in E; lia). ring. }
      rewrite D by (cbn in L; lia). field. exact Na. }
    destruct (IH (map red rows)) as [M [HM B]].
    + intros r Hr. apply in_map_iff in Hr. destruct Hr as [s [<- Hs]]. apply vlin_length; [|exact L0]. specialize (L s Hs). destruct s; cbn in *; lia.
    + intros w Lw Hw. set (x := - dot t0 w / a).
      assert (E0 : dot (a :: t0) (x :: w) = 0) by (cbn [dot]; unfold x; field; exact Na).
      assert (Z : x :: w = repeat 0 (S n)).
      { apply K; [cbn; lia|]. intros r Hr. specialize (Hw (red r) (in_map red _ _ Hr)). rewrite (Rd r x w Hr Lw), E0 in Hw. lra. }
      cbn [repeat] in Z. now injection Z.
    + set (Q := Rsum (map (fun r => Rabs (hd 0 r / a)) rows)). assert (HQ : 0 <= Q) by apply (sum_abs_pos (fun r => hd 0 r / a)).
      set (N := M * (1 + Q)). assert (HN : 0 <= N) by (unfold N; apply Rmult_le_pos; lra). assert (Ha : 0 < Rabs a) by (now apply Rabs_pos_lt).
      pose proof (norm1_pos t0) as H0. assert (H1 : 0 <= norm1 t0 * N) by (now apply Rmult_le_pos).
      exists (N + (1 + norm1 t0 * N) / Rabs a). split; [apply Rplus_le_le_0_compat; [exact HN|]; apply Rmult_le_pos; [lra|apply Rlt_le, Rinv_0_lt_compat, Ha]|].
      intros [|x w] Lv; [discriminate Lv|]. assert (Lw : length w = n) by (cbn in Lv; lia).
      set (S := Rsum (map (fun r => Rabs (dot r (x :: w))) rows)). assert (HS : 0 <= S) by apply (sum_abs_pos (fun r => dot r (x :: w))).
      assert (S0 : Rabs (dot (a :: t0) (x :: w)) <= S) by apply (sum_abs_in (fun r => dot r (x :: w)) rows _ I0).
      assert (W : norm1 w <= N * S).
      { eapply Rle_trans; [apply (B w Lw)|]. unfold N. rewrite Rmult_assoc. apply Rmult_le_compat_l; [exact HM|]. rewrite map_map.
        apply Rle_trans with (S + Q * Rabs (dot (a :: t0) (x :: w))); [|assert (Q * Rabs (dot (a :: t0) (x :: w)) <= Q * S) by (now apply Rmult_le_compat_l); lra].
        unfold S, Q. clear -Rd Lw. induction rows as [|r rows IH]; [cbn [map Rsum]; lra|]. cbn [map Rsum]. specialize (IH ltac:(intros; apply Rd; [now right|assumption])).
        rewrite (Rd r x w ltac:(now left) Lw). assert (T : Rabs (dot r (x :: w) - hd 0 r / a * dot (a :: t0) (x :: w)) <= Rabs (dot r (x :: w)) + Rabs (hd 0 r / a) * Rabs (dot (a :: t0) (x :: w))).
        { unfold Rminus. eapply Rle_trans; [apply Rabs_triang|]. rewrite Rabs_Ropp, Rabs_mult. lra. }
        lra. }
      assert (Ex : Rabs x <= (1 + norm1 t0 * N) / Rabs a * S).
      { replace x with ((dot (a :: t0) (x :: w) - dot t0 w) / a) by (cbn [dot]; field; exact Na). unfold Rdiv. rewrite Rabs_mult, Rabs_inv.
        replace ((1 + norm1 t0 * N) * / Rabs a * S) with ((S + norm1 t0 * (N * S)) * / Rabs a) by ring. apply Rmult_le_compat_r; [apply Rlt_le, Rinv_0_lt_compat, Ha|].
        unfold Rminus. eapply Rle_trans; [apply Rabs_triang|]. rewrite Rabs_Ropp. apply Rplus_le_compat; [exact S0|]. eapply Rle_trans; [apply dot_le|]. now apply Rmult_le_compat_l. }
      change (norm1 (x :: w)) with (Rabs x + norm1 w). fold S. lra.
Qed.

(** *** Least squares *)
Definition lsq_err (l : list (list R * R)) (c : list R) : R := Rsum (map (fun s => (dot (fst s) c - snd s) ^ 2) l).
Definition best_lsq (n : nat) (l : list (list R * R)) (c : list R) : Prop := length c = n /\ forall v, length v = n -> lsq_err l c <= lsq_err l v.
Lemma best_is_lsq n l c : is_lsq n (map fst l) (map snd l) c <-> best_lsq n l c.
Proof.
  assert (E : forall v, sqerr (map fst l) (map snd l) v = lsq_err l v).
  { intros v. unfold sqerr, lsq_err. f_equal. induction l as [|[r y] l IH]; [reflexivity|]. cbn [map combine fst snd]. now rewrite IH. }
  unfold is_lsq, best_lsq. split; intros [L H]; (split; [exact L|]); intros v Lv; specialize (H v Lv); rewrite !E in *; exact H.
Qed.
Lemma err_line l c D t : length c = length D -> lsq_err l (vlin 1 c t D) = lsq_err l c + Rsum (map (fun s => dot (fst s) D ^ 2) l) * t ^ 2 + 2 * Rsum (map (fun s => (dot (fst s) c - snd s) * dot (fst s) D) l) * t.
Proof.
  intros L. unfold lsq_err. induction l as [|s l IH]; cbn [map Rsum]; [ring|]. rewrite IH, dot_vlin by exact L. ring.
Qed.
Lemma lsq_normal n l c D : best_lsq n l c -> length D = n -> Rsum (map (fun s => (dot (fst s) c - snd s) * dot (fst s) D) l) = 0.
Proof.
  intros [L H] LD. apply (flat_zero (Rsum (map (fun s => dot (fst s) D ^ 2) l))). intros t. specialize (H (vlin 1 c t D) ltac:(now apply vlin_length)). rewrite err_line in H by congruence. lra.
Qed.
(** A unique solution: no kernel. *)
Lemma unique_kernel n l c : best_lsq n l c -> (forall c', best_lsq n l c' -> c' = c) ->
  forall v, length v = n -> (forall r, In r (map fst l) -> dot r v = 0) -> v = repeat 0 n.
Proof.
  intros B U v Lv Hv. assert (E : vlin 1 c 1 v = c).
  { apply U. destruct B as [L H]. split; [now apply vlin_length|]. intros w Lw. specialize (H w Lw). rewrite err_line by congruence.
    assert (Z : forall (g : list R * R -> R), Rsum (map (fun s => g s * dot (fst s) v) l) = 0).
    { intros g. clear -Hv. induction l as [|s l IH]; [reflexivity|]. cbn [map Rsum]. rewrite (Hv (fst s)) by (now left). rewrite IH by (intros; apply Hv; now right). ring. }
    rewrite (Z (fun s => dot (fst s) c - snd s)). replace (Rsum (map (fun s => dot (fst s) v ^ 2) l)) with 0; [lra|]. symmetry. erewrite map_ext; [apply (Z (fun s => dot (fst s) v))|]. intros s. cbn [pow]. ring. }
  destruct B as [L _]. clear -E L Lv. revert v n E L Lv. induction c as [|a c IH]; intros [|b v] n E L Lv; cbn [length] in *; subst n; try discriminate; [reflexivity|].
  cbn [vlin] in E. injection E as E1 E2. cbn [repeat]. f_equal; [lra|]. apply (IH v (length c)); auto.
Qed.

Section LsqNear.
  Context {X : Type}.
  Variable X0 : X.
  Variable ev : (X -> Prop) -> Prop.
  Hypothesis ev_true : ev (fun _ => True).
  Hypothesis ev_and : forall P Q, ev P -> ev Q -> ev (fun x => P x /\ Q x).
  Hypothesis ev_imp : forall P Q : X -> Prop, (forall x, P x -> Q x) -> ev P -> ev Q.
  Notation ct := (cts X0 ev).
  Definition atr (x : X) (rs : list (list (X -> R) * (X -> R))) : list (list R * R) := map (fun f => (at_ x (fst f), snd f x)) rs.
  Lemma ct_dot fs c : (forall h, In h fs -> ct h) -> ct (fun x => dot (at_ x fs) c).
  Proof.
    revert c. induction fs as [|f fs IH]; intros c H; [exact (cts_const X0 ev ev_true ev_imp 0)|]. destruct c as [|a c]; [exact (cts_const X0 ev ev_true ev_imp 0)|].
    unfold at_. cbn [map dot]. apply (cts_add X0 ev ev_and ev_imp (fun x => f x * a)); [|apply IH; intros; apply H; now right].
    apply (cts_ext X0 ev ev_imp (fun x => a * f x)); [intros; ring|]. apply (cts_scal X0 ev ev_imp), H. now left.
  Qed.
  Lemma dot_dev (w : X -> R) fs x : forall D, Rabs (w x * dot (at_ x fs) D - w X0 * dot (at_ X0 fs) D) <= Rsum (map (fun h => Rabs (w x * h x - w X0 * h X0)) fs) * norm1 D.
  Proof.
    induction fs as [|f fs IH]; intros D.
    - unfold at_. cbn [map dot Rsum]. rewrite !Rmult_0_r, Rminus_0_r, Rabs_R0. lra.
    - destruct D as [|a D]; [unfold norm1; cbn [map Rsum]; unfold at_; cbn [map dot]; rewrite !Rmult_0_r, Rminus_0_r, Rabs_R0; lra|].
      unfold at_ in *. cbn [map dot Rsum]. specialize (IH D). change (norm1 (a :: D)) with (Rabs a + norm1 D).
      replace (w x * (f x * a + dot (map (fun f => f x) fs) D) - w X0 * (f X0 * a + dot (map (fun f => f X0) fs) D)) with ((w x * f x - w X0 * f X0) * a + (w x * dot (map (fun f => f x) fs) D - w X0 * dot (map (fun f => f X0) fs) D)) by ring.
      eapply Rle_trans; [apply Rabs_triang|]. rewrite Rabs_mult. pose proof (Rabs_pos (w x * f x - w X0 * f X0)). pose proof (norm1_pos D). pose proof (Rabs_pos a).
      pose proof (sum_abs_pos (fun h => w x * h x - w X0 * h X0) fs). assert (0 <= Rabs (w x * f x - w X0 * f X0) * norm1 D) by (now apply Rmult_le_pos). assert (0 <= Rsum (map (fun h => Rabs (w x * h x - w X0 * h X0)) fs) * Rabs a) by (now apply Rmult_le_pos). lra.
  Qed.
  Definition dev (W : list (X -> R) * (X -> R) -> X -> R) (rs : list (list (X -> R) * (X -> R))) (x : X) : R :=
    Rsum (map (fun f => Rsum (map (fun h => Rabs (W f x * h x - W f X0 * h X0)) (fst f))) rs).
  Lemma dev_small W rs : (forall f, In f rs -> ct (W f) /\ forall h, In h (fst f) -> ct h) -> forall e, 0 < e -> ev (fun x => dev W rs x <= e).
  Proof.
    intros H e He. assert (C : ct (dev W rs)).
    { unfold dev. apply (cts_suml X0 ev ev_true ev_and ev_imp (fun f x => Rsum (map (fun h => Rabs (W f x * h x - W f X0 * h X0)) (fst f)))). intros f Hf. destruct (H f Hf) as [HW Hh].
      apply (cts_suml X0 ev ev_true ev_and ev_imp (fun h x => Rabs (W f x * h x - W f X0 * h X0))). intros h Ih. apply (cts_abs X0 ev ev_imp (fun x => W f x * h x - W f X0 * h X0)).
      apply (cts_sub X0 ev ev_and ev_imp (fun x => W f x * h x)); [apply (cts_mul X0 ev ev_and ev_imp); auto|apply (cts_const X0 ev ev_true ev_imp)]. }
    assert (Z : dev W rs X0 = 0).
    { unfold dev. clear. induction rs as [|f rs IH]; [reflexivity|]. cbn [map Rsum]. rewrite IH, Rplus_0_r. induction (fst f) as [|h fs IH']; [reflexivity|]. cbn [map Rsum]. rewrite IH', Rminus_diag_eq, Rabs_R0 by reflexivity. ring. }
    eapply ev_imp; [|exact (C e He)]. intros x Q. cbv beta in Q. rewrite Z, Rminus_0_r in Q. eapply Rle_trans; [apply Rle_abs|exact Q].
  Qed.
  Lemma dev_bound W rs x D : Rsum (map (fun f => Rabs (W f x * dot (at_ x (fst f)) D - W f X0 * dot (at_ X0 (fst f)) D)) rs) <= dev W rs x * norm1 D.
  Proof.
    unfold dev. induction rs as [|f rs IH]; [cbn [map Rsum]; lra|]. cbn [map Rsum]. pose proof (dot_dev (W f) (fst f) x D). lra.
  Qed.
  (** The solution depends continuously on the system. *)
  Lemma lsq_near n rs c0 : (forall f, In f rs -> length (fst f) = n /\ (forall h, In h (fst f) -> ct h) /\ ct (snd f)) ->
    best_lsq n (atr X0 rs) c0 -> (forall c, best_lsq n (atr X0 rs) c -> c = c0) ->
    forall e, 0 < e -> ev (fun x => forall c, best_lsq n (atr x rs) c -> Forall2 (fun a b => Rabs (b - a) <= e) c0 c).
  Proof.
    intros C B U e He.
    assert (Lr : forall r, In r (map fst (atr X0 rs)) -> length r = n).
    { intros r Hr. unfold atr in Hr. rewrite map_map in Hr. apply in_map_iff in Hr. destruct Hr as [f [<- Hf]]. cbn [fst]. unfold at_. rewrite map_length. now apply C. }
    destruct (bounded_below n (map fst (atr X0 rs)) Lr (unique_kernel n _ c0 B U)) as [M [HM BB]].
    set (m := INR (length rs)). pose proof (pos_INR (length rs)) as Hm. fold m in Hm.
    set (K := (2 * M * m) ^ 2 + 1). assert (HK : 1 <= K) by (unfold K; pose proof (pow2_ge_0 (2 * M * m)); lra).
    set (one := fun (_ : list (X -> R) * (X -> R)) (_ : X) => 1).
    set (wt := fun (f : list (X -> R) * (X -> R)) x => snd f x - dot (at_ x (fst f)) c0).
    assert (E1 : ev (fun x => dev one rs x <= / (2 * (M + 1)))).
    { apply dev_small; [|apply Rinv_0_lt_compat; lra]. intros f Hf. split; [apply (cts_const X0 ev ev_true ev_imp)|now apply C]. }
    assert (E2 : ev (fun x => dev wt rs x <= e / K)).
    { apply dev_small; [|apply Rdiv_lt_0_compat; lra]. intros f Hf. destruct (C f Hf) as (_ & C1 & C2). split; [|exact C1]. unfold wt. apply (cts_sub X0 ev ev_and ev_imp (snd f)); [exact C2|now apply ct_dot]. }
    eapply ev_imp; [|exact (ev_and _ _ E1 E2)]. intros x [D1 D2] c Bc. assert (Lc : length c = n) by apply Bc. assert (L0 : length c0 = n) by apply B.
    apply norm1_close; [congruence|]. set (D := vlin 1 c (-1) c0). assert (LD : length D = n) by (unfold D; now apply vlin_length).
    pose proof (norm1_pos D) as PD.
    set (Q := Rsum (map (fun f => dot (at_ x (fst f)) D ^ 2) rs)).
    assert (HQ : 0 <= Q) by (apply Rsum_nonneg; intros y Hy; apply in_map_iff in Hy; destruct Hy as [f [<- _]]; apply pow2_ge_0).
    set (S := Rsum (map (fun f => Rabs (dot (at_ x (fst f)) D)) rs)). assert (HS : 0 <= S) by apply (sum_abs_pos (fun f => dot (at_ x (fst f)) D)).
    (* from below *)
    assert (F1 : norm1 D <= 2 * M * S).
    { assert (T : Rsum (map (fun r => Rabs (dot r D)) (map fst (atr X0 rs))) <= S + dev one rs x * norm1 D).
      { pose proof (dev_bound one rs x D) as T. unfold atr. rewrite !map_map. cbn [fst]. unfold S. clear -T. apply Rle_trans with (Rsum (map (fun f => Rabs (dot (at_ x (fst f)) D)) rs) + Rsum (map (fun f => Rabs (one f x * dot (at_ x (fst f)) D - one f X0 * dot (at_ X0 (fst f)) D)) rs)); [|lra].
        clear T. unfold one. induction rs as [|f rs IH]; [cbn [map Rsum]; lra|]. cbn [map Rsum].
        assert (Rabs (dot (at_ X0 (fst f)) D) <= Rabs (dot (at_ x (fst f)) D) + Rabs (1 * dot (at_ x (fst f)) D - 1 * dot (at_ X0 (fst f)) D)).
        { replace (dot (at_ X0 (fst f)) D) with (dot (at_ x (fst f)) D + - (1 * dot (at_ x (fst f)) D - 1 * dot (at_ X0 (fst f)) D)) at 1 by ring. eapply Rle_trans; [apply Rabs_triang|]. rewrite Rabs_Ropp. lra. }
        lra. }
      specialize (BB D LD). assert (T2 : M * (dev one rs x * norm1 D) <= norm1 D / 2).
      { apply Rle_trans with ((M + 1) * (/ (2 * (M + 1)) * norm1 D)); [|apply Req_le; field; lra].
        apply Rle_trans with (M * (/ (2 * (M + 1)) * norm1 D)); [apply Rmult_le_compat_l; [exact HM|now apply Rmult_le_compat_r]|].
        apply Rmult_le_compat_r; [|lra]. apply Rmult_le_pos; [|exact PD]. apply Rlt_le, Rinv_0_lt_compat. lra. }
      assert (M * Rsum (map (fun r => Rabs (dot r D)) (map fst (atr X0 rs))) <= M * (S + dev one rs x * norm1 D)) by (now apply Rmult_le_compat_l). lra. }
    assert (F2 : S <= m * sqrt Q).
    { assert (Each : forall f, In f rs -> Rabs (dot (at_ x (fst f)) D) <= sqrt Q).
      { intros f Hf. rewrite <- sqrt_Rsqr_abs. apply sqrt_le_1_alt. unfold Q, Rsqr. clear -Hf. induction rs as [|a l IH]; [destruct Hf|]. cbn [map Rsum].
        assert (R0 : 0 <= Rsum (map (fun f => dot (at_ x (fst f)) D ^ 2) l)) by (apply Rsum_nonneg; intros y Hy; apply in_map_iff in Hy; destruct Hy as [q [<- _]]; apply pow2_ge_0).
        destruct Hf as [->|Hf]; [lra|]. specialize (IH Hf). pose proof (pow2_ge_0 (dot (at_ x (fst a)) D)). lra. }
      unfold S, m. revert Each. generalize (sqrt Q). intros z Each. clear -Each. induction rs as [|f rs IH]; [cbn; lra|]. cbn [map Rsum]. change (length (f :: rs)) with (Datatypes.S (length rs)). rewrite S_INR.
      specialize (IH ltac:(intros; apply Each; now right)). specialize (Each f ltac:(now left)). lra. }
    (* from above *)
    assert (F3 : Q <= norm1 D * (e / K)).
    { assert (Z0 : Rsum (map (fun f => wt f X0 * dot (at_ X0 (fst f)) D) rs) = 0).
      { pose proof (lsq_normal n _ c0 D B LD) as Z. unfold atr in Z. rewrite map_map in Z. cbn [fst snd] in Z. rewrite <- (Ropp_involutive (Rsum _)), <- (Ropp_0). f_equal. rewrite <- Z. unfold wt. clear. induction rs as [|f rs IH]; cbn [map Rsum]; [ring|]. rewrite <- IH. ring. }
      assert (Zx : Q = Rsum (map (fun f => wt f x * dot (at_ x (fst f)) D) rs)).
      { pose proof (lsq_normal n _ c D Bc LD) as Z. unfold atr in Z. rewrite map_map in Z. cbn [fst snd] in Z. unfold Q, wt.
        assert (G : forall l : list (list (X -> R) * (X -> R)), Rsum (map (fun f => dot (at_ x (fst f)) D ^ 2) l) = Rsum (map (fun f => (dot (at_ x (fst f)) c - snd f x) * dot (at_ x (fst f)) D) l) + Rsum (map (fun f => (snd f x - dot (at_ x (fst f)) c0) * dot (at_ x (fst f)) D) l)).
        { induction l as [|f l IH]; cbn [map Rsum]; [ring|]. rewrite IH. replace (dot (at_ x (fst f)) D ^ 2) with ((dot (at_ x (fst f)) c - dot (at_ x (fst f)) c0) * dot (at_ x (fst f)) D); [ring|]. unfold D. rewrite dot_vlin by congruence. ring. }
        rewrite G, Z. ring. }
      rewrite Zx. apply Rle_trans with (Rsum (map (fun f => Rabs (wt f x * dot (at_ x (fst f)) D - wt f X0 * dot (at_ X0 (fst f)) D)) rs)).
      - rewrite <- (Rminus_0_r (Rsum (map (fun f => wt f x * _) rs))), <- Z0. clear. induction rs as [|f rs IH]; cbn [map Rsum]; [lra|]. pose proof (Rle_abs (wt f x * dot (at_ x (fst f)) D - wt f X0 * dot (at_ X0 (fst f)) D)). lra.
      - eapply Rle_trans; [apply dev_bound|]. rewrite Rmult_comm. now apply Rmult_le_compat_l. }
    assert (F4 : norm1 D * norm1 D <= (2 * M * m) ^ 2 * (norm1 D * (e / K))).
    { assert (U1 : norm1 D <= 2 * M * (m * sqrt Q)) by (eapply Rle_trans; [exact F1|]; apply Rmult_le_compat_l; [lra|exact F2]).
      apply Rle_trans with ((2 * M * (m * sqrt Q)) * (2 * M * (m * sqrt Q))); [now apply Rmult_le_compat|].
      replace (2 * M * (m * sqrt Q) * (2 * M * (m * sqrt Q))) with ((2 * M * m) ^ 2 * (sqrt Q * sqrt Q)) by ring. rewrite sqrt_sqrt by exact HQ. apply Rmult_le_compat_l; [apply pow2_ge_0|exact F3]. }
    assert (He' : 0 < e / K) by (apply Rdiv_lt_0_compat; lra).
    destruct (Req_dec (norm1 D) 0) as [E|N]; [rewrite E; lra|].
    apply (Rmult_le_reg_l (norm1 D)); [lra|]. eapply Rle_trans; [exact F4|]. replace ((2 * M * m) ^ 2) with (K - 1) by (unfold K; ring).
    replace ((K - 1) * (norm1 D * (e / K))) with (norm1 D * e - norm1 D * (e / K)) by (field; lra). assert (0 <= norm1 D * (e / K)) by (apply Rmult_le_pos; lra). lra.
  Qed.
End LsqNear.

(** *** The perspective coefficients *)
Lemma best_map_lsq src tgt c : best_map src tgt c <-> best_lsq 8 (concat (map pair_rows (combine src tgt))) c.
Proof.
  assert (E : forall l v, length v = 8%nat -> lsq_err (concat (map pair_rows l)) v = Rsum (map (fun pq => misfit v (fst pq) (snd pq)) l)).
  { intros l v Lv. destruct v as [|m1 [|m2 [|m3 [|m4 [|m5 [|m6 [|m7 [|m8 [|]]]]]]]]]; try discriminate Lv. unfold lsq_err. induction l as [|[p q] l IH]; [reflexivity|].
    cbn [map concat pair_rows app fst snd Rsum]. rewrite IH. unfold misfit, den, proj_map, row_x, row_y. cbn [dot nth Spec.c1 c2 c3 c4 c5 c6 c7 c8 c9]. ring. }
  unfold best_map, best_lsq. split; intros [L H]; (split; [exact L|]); intros v Lv; specialize (H v Lv).
  - now rewrite !E.
  - now rewrite !E in H.
Qed.
Lemma coefficients_best lstsq src tgt : lstsq_oracle lstsq -> src <> [] -> length src = length tgt ->
  exists c, @calc_perspective_coefficients R Rexact lstsq src tgt true = Ok c /\ best_map src tgt c.
Proof.
  intros LS Hne L. unfold calc_perspective_coefficients. cbn zeta.
  assert (M : forall (b : res (list R)), match fliplr src, fliplr tgt with [], _ | _, [] => Err ValueError | _, _ => b end = b).
  { intros b. destruct src as [|p src]; [contradiction|]. destruct tgt as [|q tgt]; [discriminate|]. reflexivity. }
  rewrite M. clear M. unfold fliplr at 1 2. rewrite !map_length, <- L, Nat.ltb_irrefl.
  pose proof (pers_rows_R src tgt) as E. unfold pt, NF2 in *. rewrite E.
  set (rows := concat (map pair_rows (combine src tgt))) in *.
  destruct (LS 8%nat (map fst rows) (map snd rows)) as [c [Ec Q]].
  - unfold rows. destruct src as [|p src]; [contradiction|]. destruct tgt as [|q tgt]; [discriminate|]. discriminate.
  - now rewrite !map_length.
  - intros r Hr. apply in_map_iff in Hr. destruct Hr as [[r' y] [<- Hr]]. unfold rows in Hr. apply in_concat in Hr. destruct Hr as [s [Hs Hr]].
    apply in_map_iff in Hs. destruct Hs as [[p q] [<- _]]. destruct Hr as [<-|[<-|[]]]; reflexivity.
  - exists c. split; [exact Ec|]. apply best_map_lsq. now apply best_is_lsq.
Qed.

Section MapNear.
  Context {X : Type}.
  Variable X0 : X.
  Variable ev : (X -> Prop) -> Prop.
  Hypothesis ev_true : ev (fun _ => True).
  Hypothesis ev_and : forall P Q, ev P -> ev Q -> ev (fun x => P x /\ Q x).
  Hypothesis ev_imp : forall P Q : X -> Prop, (forall x, P x -> Q x) -> ev P -> ev Q.
  Notation ct := (cts X0 ev).
  Variables (S T : nat -> X -> R * R) (n : nat).
  Hypothesis CS : forall i, (i < n)%nat -> ct (fun x => py (S i x)) /\ ct (fun x => pxc (S i x)).
  Hypothesis CT : forall i, (i < n)%nat -> ct (fun x => py (T i x)) /\ ct (fun x => pxc (T i x)).
  Definition pts (F : nat -> X -> R * R) (x : X) : list (R * R) := map (fun i => F i x) (seq 0 n).
  Definition row_funs (i : nat) : list (list (X -> R) * (X -> R)) :=
    [([(fun x => pxc (S i x)); (fun x => py (S i x)); (fun _ => 1); (fun _ => 0); (fun _ => 0); (fun _ => 0); (fun x => - pxc (T i x) * pxc (S i x)); (fun x => - pxc (T i x) * py (S i x))], (fun x => pxc (T i x)));
     ([(fun _ => 0); (fun _ => 0); (fun _ => 0); (fun x => pxc (S i x)); (fun x => py (S i x)); (fun _ => 1); (fun x => - py (T i x) * pxc (S i x)); (fun x => - py (T i x) * py (S i x))], (fun x => py (T i x)))].
  Lemma row_funs_at x l : atr x (concat (map row_funs l)) = concat (map pair_rows (combine (map (fun i => S i x) l) (map (fun i => T i x) l))).
  Proof. unfold atr. induction l as [|i l IH]; [reflexivity|]. cbn [map concat combine]. rewrite map_app, IH. reflexivity. Qed.
  Lemma map_near c0 : determined (pts S X0) (pts T X0) -> best_map (pts S X0) (pts T X0) c0 ->
    forall e, 0 < e -> ev (fun x => forall c, best_map (pts S x) (pts T x) c -> Forall2 (fun a b => Rabs (b - a) <= e) c0 c).
  Proof.
    intros U B e He.
    assert (Q : forall x c, best_map (pts S x) (pts T x) c <-> best_lsq 8 (atr x (concat (map row_funs (seq 0 n)))) c) by (intros x c; rewrite row_funs_at; apply best_map_lsq).
    eapply ev_imp; [|apply (lsq_near X0 ev ev_true ev_and ev_imp 8 (concat (map row_funs (seq 0 n))) c0); [|now apply Q| |exact He]].
    - intros x H c Bc. apply H. now apply Q.
    - intros f Hf. apply in_concat in Hf. destruct Hf as [s [Hs Hf]]. apply in_map_iff in Hs. destruct Hs as [i [<- Hi]]. apply in_seq in Hi.
      destruct (CS i ltac:(lia)) as [S1 S2]. destruct (CT i ltac:(lia)) as [T1 T2].
      assert (Mx : forall F G, ct F -> ct G -> ct (fun x => - F x * G x)) by (intros F G HF HG; apply (cts_mul X0 ev ev_and ev_imp (fun x => - F x)); [apply (cts_ext X0 ev ev_imp (fun x => -1 * F x)); [intros; ring|now apply (cts_scal X0 ev ev_imp)]|exact HG]).
      destruct Hf as [<-|[<-|[]]]; cbn [fst snd]; (split; [reflexivity|]); (split; [|assumption]); intros h Hh;
        repeat (destruct Hh as [<-|Hh]; [first [assumption|apply (Mx (fun x => pxc (T i x)))|apply (Mx (fun x => py (T i x)))|apply (cts_const X0 ev ev_true ev_imp)]; assumption|]); destruct Hh.
    - intros c Bc. apply U; [now apply Q|exact B].
  Qed.
End MapNear.

(** Pairs of points, each moved a little. *)
Section Pairs.
  Variables (src tgt : list (R * R)).
  Notation X := (list (R * R) * list (R * R))%type.
  Definition evp (P : X -> Prop) : Prop := exists d, 0 < d /\ forall x : X, shifted d src (fst x) -> shifted d tgt (snd x) -> P x.
  Lemma shifted_le d d' a b : d <= d' -> shifted d a b -> shifted d' a b.
  Proof. intros L M. unfold shifted in *. induction M as [|p q a b H M IH]; constructor; [lra|exact IH]. Qed.
  Lemma evp_true : evp (fun _ => True).
  Proof. exists 1. split; [lra|trivial]. Qed.
  Lemma evp_and P Q : evp P -> evp Q -> evp (fun x => P x /\ Q x).
  Proof.
    intros [d [Hd H]] [d' [Hd' H']]. exists (Rmin d d'). split; [now apply Rmin_glb_lt|]. intros x A B.
    split; [apply H; eapply shifted_le; try eassumption; apply Rmin_l|apply H'; eapply shifted_le; try eassumption; apply Rmin_r].
  Qed.
  Lemma evp_imp (P Q : X -> Prop) : (forall x, P x -> Q x) -> evp P -> evp Q.
  Proof. intros I [d [Hd H]]. exists d. split; [exact Hd|]. intros x A B. apply I. now apply H. Qed.
  Lemma shifted_nth d a b i : 0 <= d -> shifted d a b -> Rabs (py (nth i b (0, 0)) - py (nth i a (0, 0))) <= d /\ Rabs (pxc (nth i b (0, 0)) - pxc (nth i a (0, 0))) <= d.
  Proof.
    intros Hd M. assert (Z : forall p : R * R, Rabs (py p - py p) <= d /\ Rabs (pxc p - pxc p) <= d) by (intros p; rewrite !Rminus_diag_eq by reflexivity; rewrite Rabs_R0; lra).
    revert i. induction M as [|p q a b H M IH]; intros i; [destruct i; apply Z|]. destruct i as [|i]; [exact H|apply IH].
  Qed.
  Lemma pts_nth n (l : list (R * R)) : length l = n -> map (fun i => nth i l (0, 0)) (seq 0 n) = l.
  Proof. intros <-. symmetry. rewrite <- (map_id l) at 1. apply (by_index (fun p => p) (0, 0) l). Qed.
End Pairs.

(** The coefficients depend continuously on the points. *)
Theorem C138_coefficients : forall lstsq src tgt (forward : bool), lstsq_oracle lstsq -> src <> [] -> length src = length tgt ->
  (if forward then determined src tgt else determined tgt src) ->
  exists c, @calc_perspective_coefficients R Rexact lstsq src tgt forward = Ok c /\
  forall e, 0 < e -> exists d, 0 < d /\ forall src' tgt', shifted d src src' -> shifted d tgt tgt' ->
    exists c', @calc_perspective_coefficients R Rexact lstsq src' tgt' forward = Ok c' /\ Forall2 (fun a b => Rabs (b - a) <= e) c c'.
Proof.
  assert (Fw : forall lstsq src tgt, lstsq_oracle lstsq -> src <> [] -> length src = length tgt -> determined src tgt ->
    exists c, @calc_perspective_coefficients R Rexact lstsq src tgt true = Ok c /\
    forall e, 0 < e -> exists d, 0 < d /\ forall src' tgt', shifted d src src' -> shifted d tgt tgt' ->
      exists c', @calc_perspective_coefficients R Rexact lstsq src' tgt' true = Ok c' /\ Forall2 (fun a b => Rabs (b - a) <= e) c c').
  { intros lstsq src tgt LS Hne L U. destruct (coefficients_best lstsq src tgt LS Hne L) as [c [E B]]. exists c. split; [exact E|]. intros e He.
    set (n := length src) in *. assert (Ls : length src = n) by reflexivity. assert (Lt : length tgt = n) by auto.
    destruct (map_near (src, tgt) (evp src tgt) (evp_true src tgt) (evp_and src tgt) (evp_imp src tgt) (fun i x => nth i (fst x) (0, 0)) (fun i x => nth i (snd x) (0, 0)) n) with (c0 := c) (e := e) as [d [Hd H]].
    - intros i _. split; intros e' He'; (exists e'; split; [exact He'|]); intros [a b] A _; now apply shifted_nth; [lra|].
    - intros i _. split; intros e' He'; (exists e'; split; [exact He'|]); intros [a b] _ A; now apply shifted_nth; [lra|].
    - unfold pts. cbn [fst snd]. now rewrite !pts_nth.
    - unfold pts. cbn [fst snd]. now rewrite !pts_nth.
    - exact He.
    - exists d. split; [exact Hd|]. intros src' tgt' A1 A2. pose proof (Forall2_length _ _ _ A1) as L1. pose proof (Forall2_length _ _ _ A2) as L2.
      destruct (coefficients_best lstsq src' tgt' LS) as [c' [E' B']]; [destruct src'; [destruct src; [now destruct Hne|discriminate L1]|discriminate]|exact (eq_trans (eq_sym L1) (eq_trans L L2))|].
      exists c'. split; [exact E'|]. specialize (H (src', tgt') A1 A2 c'). unfold pts in H. cbn [fst snd] in H. rewrite !pts_nth in H by (exact (eq_sym L1) || exact (eq_trans (eq_sym L2) Lt)). now apply H. }
  intros lstsq src tgt [|] LS Hne L U; [now apply Fw|].
  destruct (Fw lstsq tgt src LS) as [c [E H]]; [destruct tgt; [destruct src; [congruence|discriminate L]|discriminate]|auto|exact U|].
  exists c. split; [exact E|]. intros e He. destruct (H e He) as [d [Hd K]]. exists d. split; [exact Hd|]. intros src' tgt' A1 A2. apply (K tgt' src' A2 A1).
Qed.
Print Assumptions C138_coefficients.
(** Four pairs in general position that some map sends onto each other, among
    others, leave one best map. *)
Theorem C138_determined : forall src tgt c0 p1 p2 p3 p4 q1 q2 q3 q4, length src = length tgt ->
  (forall p q, In (p, q) (combine src tgt) -> sends c0 p q) ->
  In (p1, q1) (combine src tgt) -> In (p2, q2) (combine src tgt) -> In (p3, q3) (combine src tgt) -> In (p4, q4) (combine src tgt) ->
  general_position p1 p2 p3 p4 -> triangle q1 q2 q3 -> determined src tgt.
Proof.
  intros src tgt c0 p1 p2 p3 p4 q1 q2 q3 q4 L H I1 I2 I3 I4 G TQ.
  assert (Q : forall c, best_map src tgt c -> c = c0).
  { intros c B. assert (L8 : length c = 8%nat) by apply B. apply best_map_lsq, best_is_lsq in B.
    assert (S : forall p q, In (p, q) (combine src tgt) -> satisfies c p q).
    { apply satisfies_all. apply (lsq_exact 8 _ _ c c0); [now rewrite !map_length|exact B|exact (proj1 (H p1 q1 I1))|]. apply satisfies_all. intros p q I. now apply sends_satisfies, H. }
    apply (coefs_unique c c0 p1 p2 p3 p4 q1 q2 q3 q4); auto. }
  intros c c' B B'. rewrite (Q c B). symmetry. now apply Q.
Qed.
Print Assumptions C138_determined.

(** *** Corrected positions *)
Lemma quotient_near N N' D D' a u v B : 0 < a -> a <= Rabs D -> Rabs (N' - N) <= u -> Rabs (D' - D) <= v -> v <= a / 2 -> Rabs N <= B ->
  Rabs (N' / D' - N / D) <= 2 / a * u + 2 * B / (a * a) * v.
Proof.
  intros Ha HD Hu Hv Hl HB.
  assert (HD' : a / 2 <= Rabs D') by (replace D' with (D - (D - D')) by ring; eapply Rle_trans; [|apply Rabs_triang_inv]; rewrite Rabs_minus_sym in Hv; lra).
  assert (D0 : D <> 0) by (intros ->; rewrite Rabs_R0 in HD; lra). assert (D0' : D' <> 0) by (intros ->; rewrite Rabs_R0 in HD'; lra).
  assert (B0 : 0 <= B) by (eapply Rle_trans; [apply Rabs_pos|exact HB]).
  assert (I1 : Rabs (/ D') <= 2 / a) by (rewrite Rabs_inv; replace (2 / a) with (/ (a / 2)) by (field; lra); apply Rinv_le_contravar; lra).
  assert (I2 : Rabs (/ D) <= / a) by (rewrite Rabs_inv; now apply Rinv_le_contravar).
  replace (N' / D' - N / D) with (/ D' * (N' - N) + - (/ D' * (/ D * (N * (D' - D))))) by (field; tauto).
  eapply Rle_trans; [apply Rabs_triang|]. rewrite Rabs_Ropp, !Rabs_mult. apply Rplus_le_compat.
  - apply Rmult_le_compat; auto using Rabs_pos.
  - replace (2 * B / (a * a) * v) with (2 / a * (/ a * (B * v))) by (field; lra).
    repeat (apply Rmult_le_compat; [auto using Rabs_pos, Rmult_le_pos|auto using Rabs_pos, Rmult_le_pos| |]); auto; repeat apply Rmult_le_pos; auto using Rabs_pos.
Qed.
(** Over any field of view, away from the line sent to infinity. *)
Theorem C138_positions : forall c r a e, length c = 8%nat -> 0 <= r -> 0 < a -> 0 < e ->
  exists d, 0 < d /\ forall c', Forall2 (fun x y => Rabs (y - x) <= d) c c' ->
  forall lines, Forall (Forall (fun p => Rabs (py p) <= r /\ Rabs (pxc p) <= r /\ a <= Rabs (den (proj_map c) p))) lines ->
  exists out out', @correct_perspective_line R Rex lines c = Ok out /\ @correct_perspective_line R Rex lines c' = Ok out' /\ moved e out out'.
Proof.
  intros c r a e L Hr Ha He.
  set (B := norm1 c * (r + 1)). pose proof (norm1_pos c) as Nc. assert (HB : 0 <= B) by (unfold B; apply Rmult_le_pos; lra).
  set (G := 2 / a * (2 * r + 1) + 2 * B / (a * a) * (2 * r)).
  assert (HG : 0 < G).
  { unfold G. assert (0 < 2 / a * (2 * r + 1)) by (apply Rmult_lt_0_compat; [apply Rdiv_lt_0_compat|]; lra).
    assert (0 <= 2 * B / (a * a) * (2 * r)); [|lra]. apply Rmult_le_pos; [|lra]. apply Rmult_le_pos; [lra|]. apply Rlt_le, Rinv_0_lt_compat, Rmult_lt_0_compat; lra. }
  exists (Rmin (e / G) (a / (2 * (2 * r + 1)))). split; [apply Rmin_glb_lt; apply Rdiv_lt_0_compat; lra|].
  intros c' F lines H. set (d := Rmin _ _) in F.
  assert (D1 : d * G <= e) by (apply Rle_trans with (e / G * G); [apply Rmult_le_compat_r; [lra|apply Rmin_l]|apply Req_le; field; lra]).
  assert (D2 : d * (2 * r) <= a / 2).
  { apply Rle_trans with (d * (2 * r + 1)); [apply Rmult_le_compat_l; [|lra]; apply Rmin_glb; apply Rlt_le, Rdiv_lt_0_compat; lra|].
    apply Rle_trans with (a / (2 * (2 * r + 1)) * (2 * r + 1)); [apply Rmult_le_compat_r; [lra|apply Rmin_r]|apply Req_le; field; lra]. }
  assert (D0 : 0 <= d) by (apply Rmin_glb; apply Rlt_le, Rdiv_lt_0_compat; lra). clearbody d.
  assert (L' : length c' = 8%nat) by (rewrite <- (Forall2_length _ _ _ F); exact L).
  do 2 eexists. split; [apply perspective_line_coefs; split; [exact L|reflexivity]|]. split; [apply perspective_line_coefs; split; [exact L'|reflexivity]|].
  unfold moved. induction H as [|line lines Hl H IH]; constructor; [|exact IH]. clear IH H. induction Hl as [|p line [Py [Px Dn]] Hl IH]; constructor; [|exact IH]. clear IH Hl line.
  change (coef_mat c) with (proj_map c). change (coef_mat c') with (proj_map c').
  assert (Nth : forall k, Rabs (nth k c' 0 - nth k c 0) <= d).
  { intros k. clear -F D0. revert k. induction F as [|x y c c' H' F IH]; intros [|k]; cbn [nth]; try (rewrite Rminus_0_r, Rabs_R0; lra); [exact H'|apply IH]. }
  assert (Lin : forall k l m x y, Rabs x <= r -> Rabs y <= r -> Rabs ((nth k c' 0 * x + nth l c' 0 * y + nth m c' 0) - (nth k c 0 * x + nth l c 0 * y + nth m c 0)) <= d * (2 * r + 1)).
  { intros k l m x y Hx Hy. replace (_ - _) with ((nth k c' 0 - nth k c 0) * x + (nth l c' 0 - nth l c 0) * y + (nth m c' 0 - nth m c 0)) by ring.
    eapply Rle_trans; [apply Rabs_triang|]. replace (d * (2 * r + 1)) with (d * r + d * r + d) by ring. apply Rplus_le_compat; [|apply Nth]. eapply Rle_trans; [apply Rabs_triang|]. rewrite !Rabs_mult.
    apply Rplus_le_compat; apply Rmult_le_compat; auto using Rabs_pos. }
  assert (Den : Rabs (den (proj_map c') p - den (proj_map c) p) <= d * (2 * r)).
  { unfold den, proj_map. cbn [c7 c8 c9]. replace (_ - _) with ((nth 6 c' 0 - nth 6 c 0) * pxc p + (nth 7 c' 0 - nth 7 c 0) * py p) by ring.
    eapply Rle_trans; [apply Rabs_triang|]. rewrite !Rabs_mult. replace (d * (2 * r)) with (d * r + d * r) by ring. apply Rplus_le_compat; apply Rmult_le_compat; auto using Rabs_pos. }
  assert (Big : forall k l m x y, Rabs x <= r -> Rabs y <= r -> (k < l)%nat -> (l < m)%nat -> Rabs (nth k c 0 * x + nth l c 0 * y + nth m c 0) <= B).
  { intros k l m x y Hx Hy Kl Lm.
    assert (S3 : Rabs (nth k c 0) + Rabs (nth l c 0) + Rabs (nth m c 0) <= norm1 c).
    { clear -Kl Lm. assert (A1 : forall c k, Rabs (nth k c 0) <= norm1 c).
      { clear. induction c as [|a c IH]; intros k; [destruct k; cbn [nth]; rewrite Rabs_R0; unfold norm1; cbn [map Rsum]; lra|]. change (norm1 (a :: c)) with (Rabs a + norm1 c). destruct k as [|k]; cbn [nth]; [pose proof (norm1_pos c)|specialize (IH k); pose proof (Rabs_pos a)]; lra. }
      assert (A2 : forall c k l, (k < l)%nat -> Rabs (nth k c 0) + Rabs (nth l c 0) <= norm1 c).
      { clear -A1. induction c as [|a c IH]; intros k l Kl; [destruct k, l; cbn [nth]; rewrite Rabs_R0; unfold norm1; cbn [map Rsum]; lra|]. change (norm1 (a :: c)) with (Rabs a + norm1 c).
        destruct l as [|l]; [lia|]. destruct k as [|k]; cbn [nth]; [specialize (A1 c l); lra|]. specialize (IH k l ltac:(lia)). pose proof (Rabs_pos a). lra. }
      revert k l m Kl Lm. induction c as [|a c IH]; intros k l m Kl Lm; [destruct k, l, m; cbn [nth]; rewrite Rabs_R0; unfold norm1; cbn [map Rsum]; lra|]. change (norm1 (a :: c)) with (Rabs a + norm1 c).
      destruct m as [|m]; [lia|]. destruct l as [|l]; [lia|]. destruct k as [|k]; cbn [nth]; [specialize (A2 c l m ltac:(lia)); lra|]. specialize (IH k l m ltac:(lia) ltac:(lia)). pose proof (Rabs_pos a). lra. }
    eapply Rle_trans; [apply Rabs_triang|]. apply Rle_trans with (Rabs (nth k c 0) * r + Rabs (nth l c 0) * r + Rabs (nth m c 0)).
    - apply Rplus_le_compat_r. eapply Rle_trans; [apply Rabs_triang|]. rewrite !Rabs_mult. apply Rplus_le_compat; apply Rmult_le_compat_l; auto using Rabs_pos.
    - unfold B. pose proof (Rabs_pos (nth k c 0)). pose proof (Rabs_pos (nth l c 0)). pose proof (Rabs_pos (nth m c 0)). nra. }
  assert (Fin : forall k l m, (k < l)%nat -> (l < m)%nat -> Rabs ((nth k c' 0 * pxc p + nth l c' 0 * py p + nth m c' 0) / den (proj_map c') p - (nth k c 0 * pxc p + nth l c 0 * py p + nth m c 0) / den (proj_map c) p) <= e).
  { intros k l m Kl Lm. eapply Rle_trans; [apply (quotient_near _ _ _ _ a (d * (2 * r + 1)) (d * (2 * r)) B)|]; auto.
    apply Rle_trans with (d * G); [unfold G; apply Req_le; field; lra|exact D1]. }
  unfold proj at 1 2 3 4, py at 1 3, pxc at 1 3. cbn [fst snd]. split; [apply (Fin 3 4 5)%nat; lia|apply (Fin 0 1 2)%nat; lia].
Qed.
Print Assumptions C138_positions.
(** From the points to the corrected positions. *)
Theorem C138_corrected : forall lstsq src tgt (forward : bool) r a, lstsq_oracle lstsq -> src <> [] -> length src = length tgt ->
  (if forward then determined src tgt else determined tgt src) -> 0 <= r -> 0 < a ->
  exists c, @calc_perspective_coefficients R Rexact lstsq src tgt forward = Ok c /\
  forall e, 0 < e -> exists d, 0 < d /\ forall src' tgt', shifted d src src' -> shifted d tgt tgt' ->
    exists c', @calc_perspective_coefficients R Rexact lstsq src' tgt' forward = Ok c' /\
    forall lines, Forall (Forall (fun p => Rabs (py p) <= r /\ Rabs (pxc p) <= r /\ a <= Rabs (den (proj_map c) p))) lines ->
    exists out out', @correct_perspective_line R Rex lines c = Ok out /\ @correct_perspective_line R Rex lines c' = Ok out' /\ moved e out out'.
Proof.
  intros lstsq src tgt fw r a LS Hne L U Hr Ha. destruct (C138_coefficients lstsq src tgt fw LS Hne L U) as [c [E H]]. exists c. split; [exact E|].
  assert (L8 : length c = 8%nat).
  { destruct fw.
    - destruct (coefficients_best lstsq src tgt LS Hne L) as [c1 [E1 B]]. rewrite E in E1. injection E1 as <-. apply B.
    - destruct (coefficients_best lstsq tgt src LS) as [c1 [E1 B]]; [destruct tgt; [destruct src; [congruence|discriminate L]|discriminate]|auto|]. rewrite pers_backward in E. unfold NF2 in E. rewrite E in E1. injection E1 as <-. apply B. }
  intros e He. destruct (C138_positions c r a e L8 Hr Ha He) as [d1 [Hd1 P]]. destruct (H d1 Hd1) as [d [Hd K]]. exists d. split; [exact Hd|]. intros src' tgt' A1 A2.
  destruct (K src' tgt' A1 A2) as [c' [E' F]]. exists c'. split; [exact E'|]. apply (P c' F).
Qed.
Print Assumptions C138_corrected.
(** The unit square and its image of C35. *)
Example C138_ex : let src := [(0, 0); (0, 1); (1, 0); (1, 1)] in let tgt := [(0, 0); (1 / 2, 1); (1, 0); (1, 1)] in
  determined src tgt /\
  forall e, 0 < e -> exists d, 0 < d /\ forall src' tgt', shifted d src src' -> shifted d tgt tgt' ->
    exists c', @calc_perspective_coefficients R Rexact ls_R src' tgt' true = Ok c' /\ Forall2 (fun a b => Rabs (b - a) <= e) [2; 0; 0; 1; 1; 0; 1; 0] c'.
Proof.
  intros src tgt. assert (U : determined src tgt).
  { apply (C138_determined src tgt [2; 0; 0; 1; 1; 0; 1; 0] (0, 0) (0, 1) (1, 0) (1, 1) (0, 0) (1 / 2, 1) (1, 0) (1, 1)).
    - reflexivity.
    - intros p q Hp. cbn [src tgt combine In] in Hp. repeat destruct Hp as [Hp|Hp]; try contradiction; apply pair_equal_spec in Hp; destruct Hp as [<- <-];
        unfold sends, proj, den, proj_map, py, pxc; cbn; (split; [reflexivity|split; [lra|apply pair_equal_spec; split; field]]).
    - cbn; tauto.
    - cbn; tauto.
    - cbn; tauto.
    - cbn; tauto.
    - unfold general_position, triangle, area, py, pxc. cbn. repeat apply conj; lra.
    - unfold triangle, area, py, pxc. cbn. lra. }
  split; [exact U|]. destruct (C138_coefficients ls_R src tgt true ls_R_ok ltac:(discriminate) eq_refl U) as [c [E H]].
  pose proof (proj2 C35_ex) as E0. fold src tgt in E0. rewrite E0 in E. injection E as <-. exact H.
Qed.
