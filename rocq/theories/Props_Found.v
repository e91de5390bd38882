(** C118: the lines of a clean line pattern are found, all of them and nothing
    else. *)
From Coq Require Import Reals ZArith List Lra Lia Psatz Sorted Permutation.
From Flocq Require Import Core.
From Verif Require Import Base Num NumFacts Sorting Img Spec Lsq ProcSpec Post PrepImg PrepFacts2 PersFacts2 PrepImgFacts PrepImgFacts2 Props_Prep Proc ProcFacts ProcFacts2 ProcFacts5 LosaFacts4 Line LineFacts LineFacts2 LineFacts3 LineFacts4 LineFacts5 Props_Line Props_Line2 Props_Line3 Props_Line4 LineSpec ProfSpec.
Import ListNotations.
Local Open Scope R_scope.
Local Existing Instance Rex.

(** *** Specification *)
(** The cross-section of a line: symmetric, falling from its middle to half
    width h, nothing beyond. *)
Definition line_shape (h : R) (phi : R -> R) : Prop :=
  (forall d, phi (- d) = phi d) /\ (forall d, h <= d -> phi d = 0) /\ (forall d e, 0 <= d -> d < e -> e <= h -> phi e < phi d).
(** Lines with their middles at the positions cs on a background b. *)
Definition pattern (b : R) (phi : R -> R) (cs : list R) (y : R) : R := b + Rsum (map (fun c => phi (y - c)) cs).
(** In increasing order, at least g apart. *)
Definition apart (g : R) (cs : list R) : Prop := StronglySorted (fun c c' => c + g <= c') cs.

(** *** The pattern *)
Section Pattern.
  Variables (h : R) (phi : R -> R).
  Hypothesis S : line_shape h phi.
  Lemma phi_abs d : phi (Rabs d) = phi d.
  Proof. destruct S as [E _]. unfold Rabs. destruct (Rcase_abs d); [apply E|reflexivity]. Qed.
  Lemma phi_zero d : h <= Rabs d -> phi d = 0.
  Proof. intros H. rewrite <- phi_abs. apply S. exact H. Qed.
  Lemma phi_lt d e : Rabs d < Rabs e -> Rabs d < h -> phi e < phi d.
  Proof.
    intros H1 H2. rewrite <- (phi_abs d), <- (phi_abs e). destruct S as [_ [Z D]]. pose proof (Rabs_pos d).
    destruct (Rle_dec (Rabs e) h) as [L|L]; [apply D; assumption|].
    rewrite (Z (Rabs e)) by lra. rewrite <- (Z h) by lra. apply D; lra.
  Qed.
  Lemma phi_le d e : Rabs d <= Rabs e -> phi e <= phi d.
  Proof.
    intros H. destruct (Rle_dec h (Rabs d)) as [L|L]; [rewrite (phi_zero d), (phi_zero e) by lra; lra|].
    destruct H as [H|H]; [left; apply phi_lt; lra|]. rewrite <- (phi_abs d), <- (phi_abs e), H. lra.
  Qed.
  Lemma phi_pos d : Rabs d < h -> 0 < phi d.
  Proof. intros H. rewrite <- (phi_zero h); [apply phi_lt; [|exact H]|]; pose proof (Rabs_pos d); rewrite (Rabs_pos_eq h); lra. Qed.
  Lemma phi_nonneg d : 0 <= phi d.
  Proof. destruct (Rle_dec h (Rabs d)); [rewrite phi_zero by assumption; lra|left; apply phi_pos; lra]. Qed.

  Lemma pattern_ge b cs y : b <= pattern b phi cs y.
  Proof. unfold pattern. enough (0 <= Rsum (map (fun c => phi (y - c)) cs)) by lra. induction cs as [|c cs IH]; cbn; [lra|]. pose proof (phi_nonneg (y - c)). lra. Qed.
  Lemma pattern_far b cs y : (forall c, In c cs -> h <= Rabs (y - c)) -> pattern b phi cs y = b.
  Proof.
    intros H. unfold pattern. enough (Rsum (map (fun c => phi (y - c)) cs) = 0) by lra.
    induction cs as [|c cs IH]; cbn; [reflexivity|]. rewrite phi_zero by (apply H; now left). rewrite IH by (intros; apply H; now right). lra.
  Qed.
  Lemma apart_In g cs c c' : apart g cs -> In c cs -> In c' cs -> c = c' \/ g <= Rabs (c - c').
  Proof.
    intros A. induction cs as [|x cs IH]; intros I J; [destruct I|]. inversion_clear A as [|? ? A1 A2]. rewrite Forall_forall in A2. destruct I as [->|I], J as [->|J].
    - now left.
    - right. specialize (A2 _ J). rewrite Rabs_minus_sym. pose proof (Rle_abs (c' - c)). lra.
    - right. specialize (A2 _ I). pose proof (Rle_abs (c - c')). lra.
    - now apply IH.
  Qed.
  (** Within half a gap of a line only that line is seen. *)
  Lemma pattern_at g b cs c y : 0 < g -> apart g cs -> In c cs -> Rabs (y - c) <= g - h -> pattern b phi cs y = b + phi (y - c).
  Proof.
    intros G A I H. unfold pattern. f_equal. induction cs as [|x cs IH]; [destruct I|]. cbn [map Rsum fold_right]. inversion_clear A as [|? ? A1 A2]. rewrite Forall_forall in A2.
    change (fold_right Rplus 0 (map (fun c => phi (y - c)) cs)) with (Rsum (map (fun c => phi (y - c)) cs)).
    destruct I as [->|I].
    - assert (Z : Rsum (map (fun c => phi (y - c)) cs) = 0).
      { pose proof (pattern_far 0 cs y) as F. unfold pattern in F. rewrite Rplus_0_l in F. apply F. intros c' Hc'. specialize (A2 _ Hc').
        apply Rabs_le_inv in H. rewrite Rabs_minus_sym. pose proof (Rle_abs (c' - y)). lra. }
      rewrite Z. lra.
    - rewrite IH by assumption. specialize (A2 _ I). rewrite phi_zero; [lra|]. apply Rabs_le_inv in H. pose proof (Rle_abs (y - x)). lra.
  Qed.
  Lemma pattern_le g b cs y : 0 < g -> 2 * h <= g -> apart g cs -> pattern b phi cs y <= b + phi 0.
  Proof.
    intros G G2 A. destruct (Exists_dec (fun c => Rabs (y - c) < h) cs (fun c => Rlt_dec _ _)) as [E|E].
    - apply Exists_exists in E. destruct E as [c [I H]]. rewrite (pattern_at g b cs c y G A I) by lra.
      apply Rplus_le_compat_l, phi_le. rewrite Rabs_R0. apply Rabs_pos.
    - rewrite pattern_far; [pose proof (phi_nonneg 0); lra|]. intros c I. apply Rnot_lt_le. intros H. apply E, Exists_exists. eauto.
  Qed.
End Pattern.

(** *** The largest samples of a window *)
Lemma average_ge v l : l <> [] -> (forall x, In x l -> v <= x) -> v <= average l.
Proof.
  intros N H. unfold average. assert (0 < INR (length l)) by (apply lt_0_INR; destruct l; [contradiction|cbn; lia]).
  apply Rmult_le_reg_r with (INR (length l)); [assumption|]. unfold Rdiv. rewrite Rmult_assoc, Rinv_l by lra. rewrite Rmult_1_r. clear N H0.
  induction l as [|a l IH]; [cbn; lra|]. cbn [length]. rewrite S_INR. cbn [Rsum fold_right] in *. change (fold_right Rplus 0 l) with (Rsum l) in *.
  assert (v <= a) by (apply H; now left). assert (v * INR (length l) <= Rsum l) by (apply IH; intros; apply H; now right). lra.
Qed.
Lemma average_le v l : l <> [] -> (forall x, In x l -> x <= v) -> average l <= v.
Proof.
  intros N H. unfold average. assert (0 < INR (length l)) by (apply lt_0_INR; destruct l; [contradiction|cbn; lia]).
  apply Rmult_le_reg_r with (INR (length l)); [assumption|]. unfold Rdiv. rewrite Rmult_assoc, Rinv_l by lra. rewrite Rmult_1_r. clear N H0.
  induction l as [|a l IH]; [cbn; lra|]. cbn [length]. rewrite S_INR. cbn [Rsum fold_right] in *. change (fold_right Rplus 0 l) with (Rsum l) in *.
  assert (a <= v) by (apply H; now left). assert (Rsum l <= v * INR (length l)) by (apply IH; intros; apply H; now right). lra.
Qed.
(** With r entries of at least v, the r largest are all at least v. *)
Lemma top_ge v s r : StronglySorted Rle s -> (r <= length (filter (fun x => Rle_bool v x) s))%nat -> forall x, In x (skipn (length s - r) s) -> v <= x.
Proof.
  revert r. induction s as [|a s IH]; intros r Hs Hr x Hx; [rewrite skipn_nil in Hx; destruct Hx|].
  inversion_clear Hs as [|? ? Hs' Ha]. rewrite Forall_forall in Ha. cbn [filter] in Hr. destruct (Rle_bool_spec v a) as [L|L].
  - assert (I : In x (a :: s)) by (rewrite <- (firstn_skipn (length (a :: s) - r) (a :: s)); apply in_or_app; now right).
    destruct I as [<-|I]; [exact L|]. specialize (Ha _ I). lra.
  - assert (B : (length (filter (fun x => Rle_bool v x) s) <= length s)%nat) by (clear; induction s as [|b s IH]; cbn; [lia|]; destruct (Rle_bool v b); cbn; lia).
    cbn [length] in Hx. replace (S (length s) - r)%nat with (S (length s - r)) in Hx by lia. cbn [skipn] in Hx. apply (IH r); assumption.
Qed.
Lemma upper_level_ge w r v m : (1 <= r)%nat -> (r <= length (filter (fun x => Rle_bool v x) w))%nat -> upper_level w r m -> v <= m.
Proof.
  intros Hr Hc (s & P & Ss & ->). assert (L : length s = length w) by now apply Permutation_length.
  rewrite (Permutation_length (Permutation_filter' (fun x => Rle_bool v x) _ _ (Permutation_sym P))) in Hc.
  assert (B : (length (filter (fun x => Rle_bool v x) s) <= length s)%nat) by (clear; induction s as [|b s IH]; cbn; [lia|]; destruct (Rle_bool v b); cbn; lia).
  apply average_ge; [|rewrite <- L; now apply top_ge]. intros E. apply (f_equal (@length R)) in E. rewrite skipn_length in E. cbn in E. lia.
Qed.
Lemma upper_level_exists w r : exists m, upper_level w r m.
Proof. eexists. exists (nsort w). split; [apply nsort_perm|]. split; [apply nsort_sorted|reflexivity]. Qed.
Lemma upper_level_flat w r v m : (1 <= r <= length w)%nat -> (forall x, In x w -> x = v) -> upper_level w r m -> m = v.
Proof.
  intros Hr H (s & P & Ss & ->). assert (L : length s = length w) by now apply Permutation_length.
  assert (N : skipn (length w - r) s <> []). { intros E. apply (f_equal (@length R)) in E. rewrite skipn_length in E. cbn in E. lia. }
  assert (K : forall x, In x (skipn (length w - r) s) -> x = v).
  { intros x Hx. apply H. apply (Permutation_in _ P). rewrite <- (firstn_skipn (length w - r) s). apply in_or_app. now right. }
  apply Rle_antisym; [apply average_le|apply average_ge]; try exact N; intros x Hx; rewrite (K x Hx); lra.
Qed.
Lemma zrange_app a b c : (a <= b <= c)%Z -> zrange a c = zrange a b ++ zrange b c.
Proof.
  intros H. remember (Z.to_nat (b - a)) as n eqn:E. revert a H E. induction n as [|n IH]; intros a H E.
  - replace b with a by lia. rewrite (LineFacts3.zrange_nil a a) by lia. reflexivity.
  - rewrite (zrange_cons a c), (zrange_cons a b) by lia. cbn [app]. f_equal. apply IH; lia.
Qed.
Lemma filter_all {A} (f : A -> bool) l : (forall x, In x l -> f x = true) -> filter f l = l.
Proof. induction l as [|a l IH]; intros H; [reflexivity|]. cbn [filter]. rewrite H by now left. f_equal. apply IH. intros; apply H; now right. Qed.
(** The samples further than half the radius from the middle of a window. *)
Lemma window_outer l i r v : (1 <= r)%Z -> (r <= i)%Z -> (i + r < size l)%Z ->
  (forall j, (i - r <= j <= i + r)%Z -> (r / 2 + 1 <= Z.abs (j - i))%Z -> v <= sample l j) ->
  (Z.to_nat r <= length (filter (fun x => Rle_bool v x) (near_window l i r)))%nat.
Proof.
  intros Hr Hi Hn H. unfold near_window. replace (Z.max 0 (i - r)) with (i - r)%Z by lia. replace (Z.min (size l) (i + r + 1)) with (i + r + 1)%Z by lia.
  assert (Q : (0 <= r / 2 <= r)%Z) by (split; [apply Z.div_pos; lia|apply Z.div_le_upper_bound; lia]).
  rewrite (zrange_app (i - r) (i - r / 2) (i + r + 1)), (zrange_app (i - r / 2) (i + r / 2 + 1) (i + r + 1)) by lia.
  rewrite !map_app, !filter_app, !app_length.
  assert (K : forall a b, (i - r <= a)%Z -> (b <= i + r + 1)%Z -> (b <= i - r / 2 \/ i + r / 2 + 1 <= a)%Z -> length (filter (fun x => Rle_bool v x) (map (sample l) (zrange a b))) = Z.to_nat (b - a)).
  { intros a b Ha Hb Hc. rewrite filter_all; [rewrite map_length; apply zrange_length|]. intros x Hx. apply in_map_iff in Hx. destruct Hx as [j [<- Hj]].
    apply in_zrange in Hj. apply Rle_bool_true. apply H; lia. }
  rewrite (K (i - r) (i - r / 2))%Z, (K (i + r / 2 + 1) (i + r + 1))%Z by lia.
  assert (2 * (r / 2) <= r)%Z by (apply Z.mul_div_le; lia). lia.
Qed.

(** *** One profile *)
Section Profile.
  Variables (h b tau s : R) (phi : R -> R) (cs : list R) (l : list R) (r : Z).
  Hypothesis HS : line_shape h phi.
  Hypothesis Ht : 0 < tau.
  Hypothesis Hs : 0 <= s < 1.
  Hypothesis Hr : (1 <= r)%Z.
  Let g := Rmax (2 * h) (h + (IZR r + 1 / 2) * tau).
  Hypothesis HA : apart g cs.
  Hypothesis HL : forall k, (0 <= k <= size l - 2)%Z -> sample l k = pattern b phi cs (tau * IZR k).
  Hypothesis HE : b <= sample l (size l - 1) <= b + phi 0.
  Hypothesis HD : s * phi 0 + (1 - s) * phi ((IZR (r / 2) + 1 / 2) * tau) < phi (tau / 2).

  Lemma wide : tau / 2 < h.
  Proof.
    apply Rnot_le_lt. intros H. pose proof (phi_zero h phi HS (tau / 2)) as Z. rewrite Rabs_pos_eq in Z by lra. specialize (Z H).
    pose proof (phi_nonneg h phi HS 0) as P1. pose proof (phi_nonneg h phi HS ((IZR (r / 2) + 1 / 2) * tau)) as P2.
    assert (0 <= s * phi 0) by nra. assert (0 <= (1 - s) * phi ((IZR (r / 2) + 1 / 2) * tau)) by nra. lra.
  Qed.
  Lemma gap_pos : 0 < g. Proof. pose proof wide. unfold g. apply Rlt_le_trans with (2 * h); [lra|apply Rmax_l]. Qed.
  Lemma gap2 : 2 * h <= g. Proof. apply Rmax_l. Qed.
  Lemma gapr : h + (IZR r + 1 / 2) * tau <= g. Proof. apply Rmax_r. Qed.
  (** Near a line. *)
  Lemma near_line c j : In c cs -> (0 <= j <= size l - 2)%Z -> Rabs (tau * IZR j - c) <= g - h -> sample l j = b + phi (tau * IZR j - c).
  Proof. intros I J H. rewrite HL by assumption. apply (pattern_at h phi HS g); auto using gap_pos. Qed.
  Lemma all_le j : (0 <= j < size l)%Z -> b <= sample l j <= b + phi 0.
  Proof.
    intros J. destruct (Z.eq_dec j (size l - 1)) as [->|N]; [exact HE|]. rewrite HL by lia. split; [apply (pattern_ge h phi HS)|].
    apply (pattern_le h phi HS g); auto using gap_pos, gap2.
  Qed.
  Lemma nearest c i j : Rabs (tau * IZR i - c) <= tau / 2 -> i <> j -> Rabs (tau * IZR i - c) <= Rabs (tau * IZR j - c) /\ (IZR (Z.abs (j - i)) - 1 / 2) * tau <= Rabs (tau * IZR j - c) <= (IZR (Z.abs (j - i)) + 1 / 2) * tau.
  Proof.
    intros H N. apply Rabs_le_inv in H. rewrite abs_IZR, minus_IZR.
    assert (C : (j <= i - 1)%Z \/ (i + 1 <= j)%Z) by lia. destruct C as [C|C]; apply IZR_le in C; rewrite ?minus_IZR, ?plus_IZR in C.
    - assert (tau * IZR j <= tau * (IZR i - 1)) by nra. rewrite (Rabs_left1 (IZR j - IZR i)), (Rabs_left1 (tau * IZR j - c)) by lra. split; [|lra].
      apply Rabs_le. lra.
    - assert (tau * (IZR i + 1) <= tau * IZR j) by nra. rewrite (Rabs_pos_eq (IZR j - IZR i)), (Rabs_pos_eq (tau * IZR j - c)) by lra. split; [|lra].
      apply Rabs_le. lra.
  Qed.

  (** The profile upside down. *)
  Variable mx : R.
  Hypothesis Hm : In mx l /\ forall v, In v l -> v <= mx.
  Let l' := map (fun v => mx - v) l.
  Lemma sample_inv j : (0 <= j < size l)%Z -> sample l' j = mx - sample l j.
  Proof. intros J. unfold l', sample, size in *. rewrite (nth_indep _ 0 (mx - 0)) by (rewrite map_length; lia). apply (map_nth (fun v => mx - v)). Qed.
  Lemma size_inv : size l' = size l. Proof. unfold l', size. now rewrite map_length. Qed.
  Lemma mx_le : mx <= b + phi 0.
  Proof.
    destruct Hm as [I _]. apply (In_nth _ _ 0) in I. destruct I as [k [K <-]]. replace (nth k l 0) with (sample l (Z.of_nat k)) by (unfold sample; now rewrite Nat2Z.id).
    apply all_le. unfold size. lia.
  Qed.
  Lemma found_iff i : (r <= i <= size l - r - 2)%Z -> local_minimum l' r s i <-> exists c, In c cs /\ Rabs (tau * IZR i - c) <= tau / 2.
  Proof.
    intros Hi. pose proof wide as W. pose proof gap_pos as G0. pose proof gap2 as G2. pose proof gapr as G3.
    assert (R1 : 1 <= IZR r) by now apply IZR_le.
    split.
    - intros [M (m & U & D)].
      assert (M' : forall j, (i - r <= j <= i + r)%Z -> sample l j <= sample l i).
      { intros j J. specialize (M j J). rewrite !sample_inv in M by lia. lra. }
      assert (E : exists c, In c cs /\ Rabs (tau * IZR i - c) < h).
      { apply Decidable.not_not; [|intros E].
        - destruct (Exists_dec (fun c => Rabs (tau * IZR i - c) < h) cs (fun c => Rlt_dec _ _)) as [X|X]; [left; now apply Exists_exists|right; intros Y; apply X; now apply Exists_exists].
        - assert (B : sample l i = b).
          { rewrite HL by lia. apply (pattern_far h phi HS). intros c I. apply Rnot_lt_le. intros X. apply E. eauto. }
          assert (F : m = mx - b).
          { apply (upper_level_flat (near_window l' i r) (Z.to_nat r)).
            - rewrite <- (Nat2Z.id (length (near_window l' i r))). change (Z.of_nat (length (near_window l' i r))) with (size (near_window l' i r)). rewrite near_window_size; rewrite ?size_inv; lia.
            - intros x Hx. unfold near_window in Hx. apply in_map_iff in Hx. destruct Hx as [j [<- Hj]]. apply in_zrange in Hj. rewrite size_inv in Hj. rewrite sample_inv by lia.
              f_equal. f_equal. pose proof (all_le j ltac:(lia)). specialize (M' j ltac:(lia)). lra.
            - exact U. }
          rewrite sample_inv, B, F in D by lia. unfold relative_depth in D. destruct (Req_EM_T (mx - b) 0); [lra|].
          replace ((mx - b - (mx - b)) / (mx - b)) with 0 in D by (field; assumption). rewrite Rabs_R0 in D. lra. }
      destruct E as [c [I E]]. exists c. split; [exact I|]. apply Rnot_lt_le. intros X.
      assert (Si : sample l i = b + phi (tau * IZR i - c)) by (apply near_line; [exact I|lia|lra]).
      assert (Y : forall k, (k = i - 1 \/ k = i + 1)%Z -> Rabs (tau * IZR k - c) < Rabs (tau * IZR i - c) -> False).
      { intros k Hk Y. specialize (M' k ltac:(lia)). rewrite Si, (near_line c k I) in M' by (lia || lra).
        pose proof (phi_lt h phi HS (tau * IZR k - c) (tau * IZR i - c) Y ltac:(lra)). lra. }
      destruct (Rle_dec 0 (tau * IZR i - c)) as [P|P].
      + apply (Y (i - 1)%Z); [now left|]. rewrite (Rabs_pos_eq (tau * IZR i - c)) in * by assumption. rewrite minus_IZR. apply Rabs_lt. lra.
      + apply (Y (i + 1)%Z); [now right|]. rewrite (Rabs_left (tau * IZR i - c)) in * by lra. rewrite plus_IZR. apply Rabs_lt. lra.
    - intros [c [I E]].
      assert (Si : sample l i = b + phi (tau * IZR i - c)) by (apply near_line; [exact I|lia|lra]).
      assert (Win : forall j, (i - r <= j <= i + r)%Z -> sample l j = b + phi (tau * IZR j - c)).
      { intros j J. destruct (Z.eq_dec i j) as [<-|N]; [exact Si|]. apply near_line; [exact I|lia|].
        destruct (nearest c i j E N) as [_ [_ Q]]. assert (IZR (Z.abs (j - i)) <= IZR r) by (apply IZR_le; lia). nra. }
      split.
      + intros j J. rewrite !sample_inv, Si, (Win j J) by lia. destruct (Z.eq_dec i j) as [<-|N]; [lra|].
        pose proof (phi_le h phi HS (tau * IZR i - c) (tau * IZR j - c) ltac:(now apply nearest)). lra.
      + destruct (upper_level_exists (near_window l' i r) (Z.to_nat r)) as [m U]. exists m. split; [exact U|].
        set (rho := (IZR (r / 2) + 1 / 2) * tau) in *.
        assert (Q0 : (0 <= r / 2)%Z) by (apply Z.div_pos; lia). assert (Q1 : 0 <= IZR (r / 2)) by now apply IZR_le.
        assert (Lm : mx - b - phi rho <= m).
        { apply (upper_level_ge (near_window l' i r) (Z.to_nat r)); [lia| |exact U]. apply window_outer; rewrite ?size_inv; try lia.
          intros j J J2. rewrite sample_inv, (Win j J) by lia. enough (phi (tau * IZR j - c) <= phi rho) by lra. apply (phi_le h phi HS).
          assert (N : i <> j) by (intros <-; rewrite Z.sub_diag in J2; cbn in J2; lia).
          destruct (nearest c i j E N) as [_ [Q _]]. assert (IZR (r / 2) + 1 <= IZR (Z.abs (j - i))) by (rewrite <- plus_IZR; now apply IZR_le).
          unfold rho. rewrite (Rabs_pos_eq ((IZR (r / 2) + 1 / 2) * tau)) by nra. nra. }
        assert (Lp : phi (tau / 2) <= phi (tau * IZR i - c)) by (apply (phi_le h phi HS); rewrite (Rabs_pos_eq (tau / 2)); lra).
        pose proof mx_le as Mx.
        assert (Mi : b + phi (tau * IZR i - c) <= mx). { rewrite <- Si. apply Hm. unfold sample. apply nth_In. unfold size in Hi. lia. }
        pose proof (phi_nonneg h phi HS rho) as Pr. pose proof (phi_nonneg h phi HS 0) as P0.
        assert (Pr2 : phi rho <= phi 0) by (apply (phi_le h phi HS); rewrite Rabs_R0; apply Rabs_pos).
        assert (Pm : 0 < m) by nra. rewrite sample_inv, Si by lia. unfold relative_depth. destruct (Req_EM_T m 0); [lra|].
        set (v := mx - (b + phi (tau * IZR i - c))) in *.
        assert (V : v < (1 - s) * m) by (unfold v; nra).
        replace ((v - m) / m) with (- ((m - v) / m)) by (field; lra). rewrite Rabs_Ropp. rewrite Rabs_pos_eq.
        * apply Rmult_lt_reg_r with m; [assumption|]. unfold Rdiv. rewrite Rmult_assoc, Rinv_l by lra. lra.
        * apply Rmult_le_pos; [|left; now apply Rinv_0_lt_compat]. nra.
  Qed.
  (** Sub-pixel refinement. *)
  Lemma refined_near i c : (r <= i <= size l - r - 2)%Z -> In c cs -> Rabs (tau * IZR i - c) <= tau / 2 ->
    Rabs (refined l' i - IZR i) <= 1 / 2 /\ Rabs (tau * refined l' i - c) <= tau / 2.
  Proof.
    intros Hi I E. pose proof wide as W. pose proof gap_pos as G0. pose proof gap2 as G2. pose proof gapr as G3.
    assert (R1 : 1 <= IZR r) by now apply IZR_le.
    assert (Near : forall j, (i - 1 <= j <= i + 1)%Z -> sample l' j = mx - b - phi (tau * IZR j - c)).
    { intros j J. rewrite sample_inv by lia. enough (sample l j = b + phi (tau * IZR j - c)) by lra. destruct (Z.eq_dec i j) as [<-|N]; [apply near_line; [exact I|lia|lra]|]. apply near_line; [exact I|lia|].
      destruct (nearest c i j E N) as [_ [_ Q]]. assert (IZR (Z.abs (j - i)) <= 1) by (apply IZR_le; lia). nra. }
    unfold refined. rewrite !Near by lia. rewrite minus_IZR, plus_IZR. apply Rabs_le_inv in E. set (d := tau * IZR i - c) in *.
    replace (tau * (IZR i - 1) - c) with (d - tau) by (unfold d; ring). replace (tau * (IZR i + 1) - c) with (d + tau) by (unfold d; ring).
    set (p0 := phi d). set (pm := phi (d - tau)). set (pp := phi (d + tau)).
    assert (Hd : Rabs d < h) by (apply Rabs_lt; lra).
    assert (Am : Rabs (d - tau) = tau - d) by (rewrite Rabs_left1; lra). assert (Ap : Rabs (d + tau) = tau + d) by (rewrite Rabs_pos_eq; lra).
    assert (K : forall D N, 0 < D -> 0 <= N <= D -> 0 <= N / (2 * D) <= 1 / 2).
    { intros D N D0 [N0 N1]. split; [apply Rmult_le_pos; [exact N0|left; apply Rinv_0_lt_compat; lra]|]. apply Rmult_le_reg_r with (2 * D); [lra|]. unfold Rdiv. rewrite Rmult_assoc, Rinv_l by lra. lra. }
    assert (Dn : 0 < mx - b - pm - 2 * (mx - b - p0) + (mx - b - pp)).
    { destruct (Rle_dec 0 d) as [C|C].
      - assert (pp < p0) by (apply (phi_lt h phi HS); [rewrite Ap, (Rabs_pos_eq d) by lra; lra|exact Hd]).
        assert (pm <= p0) by (apply (phi_le h phi HS); rewrite Am, (Rabs_pos_eq d) by lra; lra). lra.
      - assert (pm < p0) by (apply (phi_lt h phi HS); [rewrite Am, (Rabs_left d) by lra; lra|exact Hd]).
        assert (pp <= p0) by (apply (phi_le h phi HS); rewrite Ap, (Rabs_left d) by lra; lra). lra. }
    destruct (Req_EM_T _ 0) as [Z|_]; [lra|]. set (D := mx - b - pm - 2 * (mx - b - p0) + (mx - b - pp)) in *.
    assert (Fin : forall q, (0 <= d /\ -(1/2) <= q <= 0) \/ (d <= 0 /\ 0 <= q <= 1/2) -> Rabs (IZR i + q - IZR i) <= 1 / 2 /\ Rabs (tau * (IZR i + q) - c) <= tau / 2).
    { intros q Q. replace (IZR i + q - IZR i) with q by ring. replace (tau * (IZR i + q) - c) with (d + tau * q) by (unfold d; ring). split; apply Rabs_le; destruct Q; nra. }
    apply Fin. replace (mx - b - pm - (mx - b - pp)) with (pp - pm) by ring. destruct (Rle_dec 0 d) as [C|C].
    - left. split; [exact C|]. assert (pp <= pm) by (apply (phi_le h phi HS); rewrite Am, Ap; lra).
      assert (pm <= p0) by (apply (phi_le h phi HS); rewrite Am, (Rabs_pos_eq d) by lra; lra).
      destruct (K D (pm - pp) Dn ltac:(unfold D; lra)) as [K1 K2]. replace ((pp - pm) / (2 * D)) with (- ((pm - pp) / (2 * D))) by (field; lra). lra.
    - right. split; [lra|]. assert (pm <= pp) by (apply (phi_le h phi HS); rewrite Am, Ap; lra).
      assert (pp <= p0) by (apply (phi_le h phi HS); rewrite Ap, (Rabs_left d) by lra; lra).
      apply K; [exact Dn|unfold D; lra].
  Qed.
End Profile.

(** The positions found on a profile: exactly the samples nearest to a line;
    after refinement still within half a sample of the line. *)
Theorem C118_profile : forall polyfit exp_ cf gf argsort g3 l requested s h b tau phi cs, polyfit_oracle polyfit -> (4 <= size l)%Z ->
  let r := search_radius (size l) requested in
  line_shape h phi -> 0 < tau -> 0 <= s < 1 -> apart (Rmax (2 * h) (h + (IZR r + 1 / 2) * tau)) cs ->
  (forall k, (0 <= k <= size l - 2)%Z -> sample l k = pattern b phi cs (tau * IZR k)) -> b <= sample l (size l - 1) <= b + phi 0 ->
  s * phi 0 + (1 - s) * phi ((IZR (r / 2) + 1 / 2) * tau) < phi (tau / 2) ->
  exists ps, get_local_extrema_points polyfit exp_ cf gf argsort g3 l true requested s false false false None = Ok (map IZR ps) /\ StronglySorted Z.lt ps /\
  (forall i, In i ps <-> (r <= i <= size l - r - 2)%Z /\ exists c, In c cs /\ Rabs (tau * IZR i - c) <= tau / 2) /\
  exists qs, get_local_extrema_points polyfit exp_ cf gf argsort g3 l true requested s false false true None = Ok qs /\
  Forall2 (fun i q => Rabs (q - IZR i) <= 1 / 2 /\ forall c, In c cs -> Rabs (tau * IZR i - c) <= tau / 2 -> Rabs (tau * q - c) <= tau / 2) ps qs.
Proof.
  intros polyfit exp_ cf gf argsort g3 l requested s h b tau phi cs PF Hn r HS Ht Hs HA HL HE HD.
  assert (Hr : (1 <= r)%Z). { unfold r, search_radius. assert (1 <= size l / 4)%Z by (apply Z.div_le_lower_bound; lia). lia. }
  assert (Ne : l <> []) by (intros ->; cbn in Hn; lia).
  destruct (namax l) as [mx|e] eqn:Em; [|destruct l; [contradiction|discriminate]].
  assert (Hm : In mx l /\ forall v, In v l -> v <= mx). { pose proof Em as Em'. unfold Rex in Em'. apply namax_spec in Em'. exact Em'. }
  set (l' := map (fun v => mx - v) l). assert (SI : size l' = size l) by (unfold l', size; now rewrite map_length).
  assert (Inv : forall sp, get_local_extrema_points polyfit exp_ cf gf argsort g3 l true requested s false false sp None = get_local_extrema_points polyfit exp_ cf gf argsort g3 l' false requested s false false sp None).
  { intros sp. unfold get_local_extrema_points, extrema_data. rewrite Em. reflexivity. }
  destruct (C60_subpixel polyfit exp_ cf gf argsort g3 l' requested s PF ltac:(lia)) as (ps & E1 & E2 & _).
  destruct (C60_reported polyfit exp_ cf gf argsort g3 l' requested s ltac:(lia)) as (ps' & E1' & So & Q). rewrite SI in Q. fold r in Q.
  assert (X : ps = ps').
  { rewrite E1 in E1'. apply Ok_inj in E1'. revert E1'. clear. revert ps'. induction ps as [|p ps IH]; intros [|q qs] E; try discriminate; [reflexivity|]. injection E as e1 e2. apply eq_IZR in e1. f_equal; auto. }
  subst ps'. exists ps. split; [now rewrite Inv|]. split; [exact So|].
  assert (F : forall i, In i ps <-> (r <= i <= size l - r - 2)%Z /\ exists c, In c cs /\ Rabs (tau * IZR i - c) <= tau / 2).
  { intros i. rewrite Q. split; intros [H1 H2]; (split; [exact H1|]); apply (found_iff h b tau s phi cs l r HS Ht Hs Hr HA HL HE HD mx Hm i H1); exact H2. }
  split; [exact F|]. exists (map (refined l') ps). split; [now rewrite Inv|].
  assert (G : forall qs, (forall i, In i qs -> In i ps) -> Forall2 (fun i q => Rabs (q - IZR i) <= 1 / 2 /\ forall c, In c cs -> Rabs (tau * IZR i - c) <= tau / 2 -> Rabs (tau * q - c) <= tau / 2) qs (map (refined l') qs)).
  { induction qs as [|i qs IH]; intros H; cbn [map]; constructor; [|apply IH; intros; apply H; now right].
    assert (I : In i ps) by (apply H; now left). apply F in I. destruct I as [I1 [c [I2 I3]]].
    split; [apply (refined_near h b tau s phi cs l r HS Ht Hs Hr HA HL HD mx i c I1 I2 I3)|].
    intros c' J2 J3. apply (refined_near h b tau s phi cs l r HS Ht Hs Hr HA HL HD mx i c' I1 J2 J3). }
  apply G. auto.
Qed.
Print Assumptions C118_profile.

(** Every line in the searched range gives a position; two positions belong to
    the same line only if it lies midway between them. *)
Theorem C118_each_line : forall n r tau g cs ps, (1 <= r)%Z -> 0 < tau -> tau < g -> apart g cs ->
  (forall i, In i ps <-> (r <= i <= n - r - 2)%Z /\ exists c, In c cs /\ Rabs (tau * IZR i - c) <= tau / 2) ->
  forall c, In c cs -> (IZR r * tau <= c <= IZR (n - r - 2) * tau -> exists i, In i ps /\ Rabs (tau * IZR i - c) <= tau / 2) /\
  forall i, Rabs (tau * IZR i - c) <= tau / 2 -> (forall c', In c' cs -> Rabs (tau * IZR i - c') <= tau / 2 -> c' = c) /\
    forall j, i <> j -> Rabs (tau * IZR j - c) <= tau / 2 -> c = tau * (IZR i + IZR j) / 2 /\ Z.abs (i - j) = 1%Z.
Proof.
  intros n r tau g cs ps Hr Ht Hg HA HF c I. split.
  - intros [C1 C2]. set (q := c / tau). assert (Q : c = q * tau) by (unfold q; field; lra). clearbody q. subst c.
    apply Rmult_le_reg_r in C1; [|assumption]. apply Rmult_le_reg_r in C2; [|assumption].
    pose proof (Znearest_half (fun x => negb (Z.even x)) q) as N. change (Znearest (fun x => negb (Z.even x)) q) with (ZnearestE q) in N. set (i := ZnearestE q) in *.
    assert (B : Rabs (tau * IZR i - q * tau) <= tau / 2). { replace (tau * IZR i - q * tau) with (- (tau * (q - IZR i))) by ring. rewrite Rabs_Ropp, Rabs_mult, (Rabs_pos_eq tau) by lra. nra. }
    exists i. split; [|exact B]. apply HF. split; [|exists (q * tau); auto].
    split; [unfold i; rewrite <- (Znearest_imp (fun x => negb (Z.even x)) (IZR r) r); [|rewrite Rminus_eq_0, Rabs_R0; lra]; apply (@Zrnd_le _ (valid_rnd_N _)); exact C1|].
    unfold i. rewrite <- (Znearest_imp (fun x => negb (Z.even x)) (IZR (n - r - 2)) (n - r - 2)); [apply (@Zrnd_le _ (valid_rnd_N _)); exact C2|rewrite Rminus_eq_0, Rabs_R0; lra].
  - intros i Hi. split.
    + intros c' I' Hi'. destruct (apart_In g cs c c' HA I I') as [E|E]; [now symmetry|]. exfalso.
      assert (Rabs (c - c') <= tau); [|lra]. apply Rabs_le_inv in Hi, Hi'. apply Rabs_le. lra.
    + intros j N Hj. apply Rabs_le_inv in Hi, Hj. assert (C : (i + 1 <= j)%Z \/ (j + 1 <= i)%Z) by lia.
      assert (K : forall i j, (i + 1 <= j)%Z -> - (tau / 2) <= tau * IZR i - c <= tau / 2 -> - (tau / 2) <= tau * IZR j - c <= tau / 2 -> c = tau * (IZR i + IZR j) / 2 /\ (j - i = 1)%Z).
      { clear - Ht. intros i j C Hi Hj. assert (D : (j - i < 2)%Z \/ (2 <= j - i)%Z) by lia. destruct D as [D|D].
        - assert (j = i + 1)%Z by lia. subst j. rewrite plus_IZR in *. split; [lra|lia].
        - exfalso. apply IZR_le in D. apply IZR_le in C. rewrite minus_IZR in D. rewrite plus_IZR in C. nra. }
      destruct C as [C|C].
      * destruct (K i j C Hi Hj) as [K1 K2]. split; [exact K1|lia].
      * destruct (K j i C Hj Hi) as [K1 K2]. split; [lra|lia].
Qed.
Print Assumptions C118_each_line.

(** *** Whole images *)
(** Along the profile of the given index the image shows the lines at the
    distances cs from the first point of the profile (the last sample, which is
    moved back to the image border, need only be as bright as some part of a
    line). *)
Definition shows spline (img : image R) (index deg : R) (horizontal : bool) (b : R) (phi : R -> R) (cs : list R) : Prop :=
  forall xs ys prof, tilted_profile spline img index deg horizontal = Ok (xs, ys, prof) ->
  let n := if horizontal then iw img else ih img in
  size prof = n /\ (forall k, (0 <= k <= n - 2)%Z -> sample prof k = pattern b phi cs (along n (radians deg) k)) /\ b <= sample prof (n - 1) <= b + phi 0.

Lemma positions_on_profile : forall polyfit exp_ cf gf argsort g3 (subpixel : bool) l requested s h b tau phi cs pos, polyfit_oracle polyfit -> (4 <= size l)%Z ->
  let r := search_radius (size l) requested in
  line_shape h phi -> 0 < tau -> 0 <= s < 1 -> apart (Rmax (2 * h) (h + (IZR r + 1 / 2) * tau)) cs ->
  (forall k, (0 <= k <= size l - 2)%Z -> sample l k = pattern b phi cs (tau * IZR k)) -> b <= sample l (size l - 1) <= b + phi 0 ->
  s * phi 0 + (1 - s) * phi ((IZR (r / 2) + 1 / 2) * tau) < phi (tau / 2) ->
  get_local_extrema_points polyfit exp_ cf gf argsort g3 l true requested s false false subpixel None = Ok pos ->
  (forall p, In p pos -> 0 <= p <= IZR (size l - 1) /\ exists c, In c cs /\ Rabs (tau * p - c) <= tau / 2) /\
  (forall c, In c cs -> IZR r * tau <= c <= IZR (size l - r - 2) * tau -> exists p, In p pos /\ 0 <= p <= IZR (size l - 1) /\ Rabs (tau * p - c) <= tau / 2).
Proof.
  intros pf ex cf gf as_ g3 sp l rq s h b tau phi cs pos PF Hn r HS Ht Hs HA HL HE HD E.
  assert (Hr : (1 <= r)%Z). { unfold r, search_radius. assert (1 <= size l / 4)%Z by (apply Z.div_le_lower_bound; lia). lia. }
  destruct (C118_profile pf ex cf gf as_ g3 l rq s h b tau phi cs PF Hn HS Ht Hs HA HL HE HD) as (ps & E1 & _ & F & qs & E2 & G).
  fold r in F. assert (R1 : 1 <= IZR r) by now apply IZR_le.
  assert (HG : tau < Rmax (2 * h) (h + (IZR r + 1 / 2) * tau)).
  { apply Rlt_le_trans with (2 * h); [|apply Rmax_l]. assert (W : tau / 2 < h) by (apply (wide h tau s phi r); assumption). lra. }
  pose proof (C118_each_line (size l) r tau _ cs ps Hr Ht HG HA F) as EL.
  assert (In_range : forall i q, In i ps -> Rabs (q - IZR i) <= 1 / 2 -> 0 <= q <= IZR (size l - 1)).
  { intros i q I D. apply F in I. destruct I as [I _]. apply Rabs_le_inv in D. assert (1 <= IZR i) by (apply IZR_le; lia). assert (IZR i <= IZR (size l - 1) - 1) by (rewrite <- minus_IZR; apply IZR_le; lia). lra. }
  assert (Z0 : forall i, Rabs (IZR i - IZR i) <= 1 / 2) by (intros; rewrite Rminus_eq_0, Rabs_R0; lra).
  destruct sp.
  - rewrite E in E2. apply Ok_inj in E2. subst qs. clear E. split.
    + intros p I. apply In_nth_error in I. destruct I as [k Hk].
      assert (X : exists i, In i ps /\ Rabs (p - IZR i) <= 1 / 2 /\ forall c, In c cs -> Rabs (tau * IZR i - c) <= tau / 2 -> Rabs (tau * p - c) <= tau / 2).
      { clear - G Hk. revert k Hk. induction G as [|i q ps qs [G1 G2] G IH]; intros k Hk; [destruct k; discriminate|]. destruct k as [|k]; cbn in Hk.
        - injection Hk as <-. exists i. split; [now left|]. auto.
        - destruct (IH k Hk) as (i' & I & J). exists i'. split; [now right|exact J]. }
      destruct X as (i & I & D & C). split; [now apply (In_range i)|]. apply F in I. destruct I as [_ [c [Ic Dc]]]. exists c. split; [exact Ic|auto].
    + intros c Ic Rc. destruct (EL c Ic) as [X _]. destruct (X Rc) as [i [I D]].
      assert (Y : exists p, In p pos /\ Rabs (p - IZR i) <= 1 / 2 /\ Rabs (tau * p - c) <= tau / 2).
      { clear - G I D Ic. induction G as [|j q ps qs [G1 G2] G IH]; [destruct I|]. destruct I as [->|I].
        - exists q. split; [now left|]. auto.
        - destruct (IH I) as (p & J & K). exists p. split; [now right|exact K]. }
      destruct Y as (p & Ip & D1 & D2). exists p. split; [exact Ip|]. split; [now apply (In_range i)|exact D2].
  - rewrite E in E1. apply Ok_inj in E1. subst pos. clear E. split.
    + intros p I. apply in_map_iff in I. destruct I as [i [<- I]]. split; [now apply (In_range i)|]. now apply F.
    + intros c Ic Rc. destruct (EL c Ic) as [X _]. destruct (X Rc) as [i [I D]]. exists (IZR i). split; [now apply in_map|]. split; [now apply (In_range i)|exact D].
Qed.

(** With the default options (normalised and smoothed image): every point
    reported lies on a profile, at most half a sampling step beyond a line and
    at most half a step and sqrt 2 before it; every line that crosses the
    searched part of a profile is reported so. *)
Theorem C118_horizontal_lines : forall polyfit exp_ cf gf argsort g3 gaussian3 spline fft mat img slope dist ratio offset bright radius s subpixel ps h b phi cs,
  polyfit_oracle polyfit -> same_shape gaussian3 -> (4 <= ih mat <= 32767)%Z -> (2 <= iw mat <= 32767)%Z -> 0 < ratio * dist ->
  let n := ih mat in let a := atan slope in let r := search_radius n radius in let tau := along n a 1 in
  cross_image gaussian3 fft mat true bright true = Ok img -> line_shape h phi -> 0 <= s < 1 ->
  s * phi 0 + (1 - s) * phi ((IZR (r / 2) + 1 / 2) * tau) < phi (tau / 2) ->
  (forall index, ver_index_ok n (iw mat) a index -> apart (Rmax (2 * h) (h + (IZR r + 1 / 2) * tau)) (cs index) /\ shows spline img index (degrees a) false b phi (cs index)) ->
  hor_lines polyfit exp_ cf gf argsort g3 gaussian3 spline fft mat slope dist ratio true offset bright radius s true subpixel false None = Ok ps ->
  exists first last, (forall i, ver_index_ok n (iw mat) a i <-> IZR first <= i <= IZR last) /\
  let off := clip_offset offset (Z.min n (iw mat) / 3) in
  let used index := exists k, (0 <= k)%Z /\ index = IZR (first + off) + IZR k * (ratio * dist) /\ index < IZR (last - off) in
  (forall y x, In (y, x) ps -> exists index c d, used index /\ In c (cs index) /\ y = d * cos a /\ x = index + slope * y /\ c - tau / 2 - sqrt 2 <= d <= c + tau / 2) /\
  (forall index c, used index -> In c (cs index) -> IZR r * tau <= c <= IZR (n - r - 2) * tau ->
     exists y x d, In (y, x) ps /\ y = d * cos a /\ x = index + slope * y /\ c - tau / 2 - sqrt 2 <= d <= c + tau / 2).
Proof.
  intros pf ex cf gf as_ g3 G3 spl fft mat img slope dist ratio offset br radius s sp ps h b phi cs PF GS Hh Hw Hst n a r tau EI HS Hs HD HC E.
  destruct (C91_horizontal_lines pf ex cf gf as_ g3 G3 spl fft mat slope dist ratio true offset br radius s true sp false None ps GS ltac:(lia) ltac:(lia) Hst E) as (img' & first & last & EI' & Rng & K).
  rewrite EI in EI'. apply Ok_inj in EI'. subst img'. cbn zeta in K. exists first, last. split; [exact Rng|].
  destruct (image_ok G3 fft mat true br true GS ltac:(lia) ltac:(lia)) as (img' & EI' & Ih & Iw). rewrite EI in EI'. apply Ok_inj in EI'. subst img'.
  destruct (deg_rad slope) as [D1 D2]. cbn zeta in D1, D2. rewrite rad2deg_degrees in D1, D2. fold a in D1, D2, K. fold n in K.
  assert (N1 : 0 < IZR (n - 1)) by (apply IZR_lt; unfold n; lia).
  assert (Ca : 0 < cos a) by (destruct (atan_bound slope); apply cos_gt_0; unfold a; lra).
  assert (Ht : 0 < tau).
  { unfold tau, along. rewrite Rmult_1_l. apply Rdiv_lt_0_compat; [|exact N1]. apply IZR_lt. apply Z.lt_le_trans with n; [unfold n; lia|].
    rewrite <- (Zfloor_IZR n) at 1. apply Zfloor_le. assert (cos a <= 1) by apply COS_bound. assert (0 < IZR n) by (apply IZR_lt; unfold n; lia).
    apply Rmult_le_reg_r with (cos a); [exact Ca|]. unfold Rdiv. rewrite Rmult_assoc, Rinv_l by lra. nra. }
  assert (Al : forall k, along n a k = tau * IZR k) by (intros k; unfold tau, along; rewrite Rmult_1_l; unfold Rdiv; ring).
  assert (Dist : forall index xs ys prof p c, tilted_profile spl img index (degrees a) false = Ok (xs, ys, prof) -> 0 <= p <= IZR (n - 1) -> Rabs (tau * p - c) <= tau / 2 ->
    c - tau / 2 - sqrt 2 <= p * pitch xs ys n <= c + tau / 2).
  { intros index xs ys prof p c Et [P0 P1] Pc. pose proof (C91_displacement spl img index (degrees a) false xs ys prof p ltac:(lia) ltac:(lia) D2 P0 Et) as X. cbn zeta iota in X.
    rewrite D1, Ih in X. fold n tau in X. rewrite (Rmult_comm p tau) in X. apply Rabs_le_inv in Pc.
    assert (sqrt 2 * p / IZR (n - 1) <= sqrt 2).
    { apply Rmult_le_reg_r with (IZR (n - 1)); [exact N1|]. unfold Rdiv. rewrite Rmult_assoc, Rinv_l by lra. rewrite Rmult_1_r. apply Rmult_le_compat_l; [apply sqrt_pos|exact P1]. }
    lra. }
  assert (On : forall index xs ys prof pos, ver_index_ok n (iw mat) a index -> tilted_profile spl img index (degrees a) false = Ok (xs, ys, prof) ->
    found pf ex cf gf as_ g3 prof true radius s true sp false None pos ->
    (forall p, In p pos -> 0 <= p <= IZR (n - 1) /\ exists c, In c (cs index) /\ Rabs (tau * p - c) <= tau / 2) /\
    (forall c, In c (cs index) -> IZR r * tau <= c <= IZR (n - r - 2) * tau -> exists p, In p pos /\ 0 <= p <= IZR (n - 1) /\ Rabs (tau * p - c) <= tau / 2)).
  { intros index xs ys prof pos Ok_ Et (prof' & -> & Eg). destruct (HC index Ok_) as [HA Sh]. destruct (Sh _ _ _ Et) as (Sz & Sp & Se). cbn iota in Sz, Sp, Se. rewrite Ih in Sz, Sp, Se. fold n in Sz, Sp, Se.
    pose proof (positions_on_profile pf ex cf gf as_ g3 sp prof radius s h b tau phi (cs index) pos PF) as P. cbn zeta in P. rewrite Sz in P. fold r in P. cbn [negb] in Eg.
    apply P; try assumption; [unfold n; lia|]. intros k Hk. rewrite Sp by assumption. now rewrite D1, Al. }
  cbn zeta. split.
  - intros y x I. apply K in I. destruct I as (k & index & xs & ys & prof & pos & p & K1 & K2 & K3 & Et & Ef & Ip & Ey & Ex).
    assert (Ok_ : ver_index_ok n (iw mat) a index).
    { rewrite <- D1. destruct (classic_dec_ver (ih img) (iw img) (radians (degrees a)) index) as [p'|p']; [now rewrite Ih, Iw in p'|]. rewrite ver_error in Et by (assumption || lia). discriminate. }
    destruct (On _ _ _ _ _ Ok_ Et Ef) as [O1 _]. destruct (O1 p Ip) as [P0 [c [Ic Pc]]].
    exists index, c, (p * pitch xs ys n). split; [exists k; auto|]. split; [exact Ic|]. split; [exact Ey|]. split; [exact Ex|]. apply (Dist index xs ys prof); assumption.
  - intros index c (k & K1 & K2 & K3) Ic Rc.
    assert (Ok_ : ver_index_ok n (iw mat) a index).
    { apply Rng. assert (O : (0 <= clip_offset offset (Z.min n (iw mat) / 3))%Z) by (unfold clip_offset; lia). apply IZR_le in O. rewrite plus_IZR in K2. rewrite minus_IZR in K3.
      assert (0 <= IZR k) by now apply IZR_le. assert (0 <= IZR k * (ratio * dist)) by nra. lra. }
    destruct (C61_accepted spl img index (degrees a) false ltac:(lia) ltac:(lia) D2) as [Acc _]. cbn iota in Acc. rewrite D1, Ih, Iw in Acc. fold n in Acc.
    destruct (Acc Ok_) as [[[xs ys] prof] Et].
    assert (Fo : exists pos, found pf ex cf gf as_ g3 prof true radius s true sp false None pos).
    { destruct (HC index Ok_) as [HA Sh]. destruct (Sh _ _ _ Et) as (Sz & Sp & Se). cbn iota in Sz, Sp, Se. rewrite Ih in Sz, Sp, Se. fold n in Sz, Sp, Se.
      pose proof (C118_profile pf ex cf gf as_ g3 prof radius s h b tau phi (cs index) PF) as P. cbn zeta in P. rewrite Sz in P. fold r in P.
      destruct P as (is_ & E1 & _ & _ & qs & E2 & _); try assumption; [unfold n; lia|intros j Hj; rewrite Sp by assumption; now rewrite D1, Al|].
      destruct sp; [exists qs|exists (map IZR is_)]; exists prof; (split; [reflexivity|assumption]). }
    destruct Fo as [pos Fo]. destruct (On _ _ _ _ _ Ok_ Et Fo) as [_ O2]. destruct (O2 c Ic Rc) as (p & Ip & P0 & Pc).
    exists (p * pitch xs ys n * cos a), (index + slope * (p * pitch xs ys n * cos a)), (p * pitch xs ys n).
    split; [apply K; exists k, index, xs, ys, prof, pos, p; repeat (split; [assumption|]); split; reflexivity|]. split; [reflexivity|]. split; [reflexivity|]. apply (Dist index xs ys prof); assumption.
Qed.
Print Assumptions C118_horizontal_lines.

Theorem C118_vertical_lines : forall polyfit exp_ cf gf argsort g3 gaussian3 spline fft mat img slope dist ratio offset bright radius s subpixel ps h b phi cs,
  polyfit_oracle polyfit -> same_shape gaussian3 -> (2 <= ih mat <= 32767)%Z -> (4 <= iw mat <= 32767)%Z -> 0 < ratio * dist ->
  let n := iw mat in let a := atan slope in let r := search_radius n radius in let tau := along n (- a) 1 in
  cross_image gaussian3 fft mat true bright true = Ok img -> line_shape h phi -> 0 <= s < 1 ->
  s * phi 0 + (1 - s) * phi ((IZR (r / 2) + 1 / 2) * tau) < phi (tau / 2) ->
  (forall index, hor_index_ok (ih mat) n (- a) index -> apart (Rmax (2 * h) (h + (IZR r + 1 / 2) * tau)) (cs index) /\ shows spline img index (- degrees a) true b phi (cs index)) ->
  ver_lines polyfit exp_ cf gf argsort g3 gaussian3 spline fft mat slope dist ratio true offset bright radius s true subpixel false None = Ok ps ->
  exists first last, (forall i, hor_index_ok (ih mat) n (- a) i <-> IZR first <= i <= IZR last) /\
  let off := clip_offset offset (Z.min (ih mat) n / 8) in
  let used index := exists k, (0 <= k)%Z /\ index = IZR (first + off) + IZR k * (ratio * dist) /\ index < IZR (last - off) in
  (forall y x, In (y, x) ps -> exists index c d, used index /\ In c (cs index) /\ x = d * cos a /\ y = index + slope * x /\ c - tau / 2 - sqrt 2 <= d <= c + tau / 2) /\
  (forall index c, used index -> In c (cs index) -> IZR r * tau <= c <= IZR (n - r - 2) * tau ->
     exists y x d, In (y, x) ps /\ x = d * cos a /\ y = index + slope * x /\ c - tau / 2 - sqrt 2 <= d <= c + tau / 2).
Proof.
  intros pf ex cf gf as_ g3 G3 spl fft mat img slope dist ratio offset br radius s sp ps h b phi cs PF GS Hh Hw Hst n a r tau EI HS Hs HD HC E.
  destruct (C91_vertical_lines pf ex cf gf as_ g3 G3 spl fft mat slope dist ratio true offset br radius s true sp false None ps GS ltac:(lia) ltac:(lia) Hst E) as (img' & first & last & EI' & Rng & K).
  rewrite EI in EI'. apply Ok_inj in EI'. subst img'. cbn zeta in K. exists first, last. split; [exact Rng|].
  destruct (image_ok G3 fft mat true br true GS ltac:(lia) ltac:(lia)) as (img' & EI' & Ih & Iw). rewrite EI in EI'. apply Ok_inj in EI'. subst img'.
  destruct (deg_rad slope) as [D1 D2]. cbn zeta in D1, D2. rewrite rad2deg_degrees in D1, D2. fold a in D1, D2, K. fold n in K.
  assert (D3 : radians (- degrees a) = - a) by (rewrite radians_opp, D1; reflexivity). assert (D4 : Rabs (- degrees a) < 90) by (rewrite Rabs_Ropp; exact D2).
  assert (N1 : 0 < IZR (n - 1)) by (apply IZR_lt; unfold n; lia).
  assert (Ca : 0 < cos a) by (destruct (atan_bound slope); apply cos_gt_0; unfold a; lra).
  assert (Ht : 0 < tau).
  { unfold tau, along. rewrite cos_neg, Rmult_1_l. apply Rdiv_lt_0_compat; [|exact N1]. apply IZR_lt. apply Z.lt_le_trans with n; [unfold n; lia|].
    rewrite <- (Zfloor_IZR n) at 1. apply Zfloor_le. assert (cos a <= 1) by apply COS_bound. assert (0 < IZR n) by (apply IZR_lt; unfold n; lia).
    apply Rmult_le_reg_r with (cos a); [exact Ca|]. unfold Rdiv. rewrite Rmult_assoc, Rinv_l by lra. nra. }
  assert (Al : forall k, along n (- a) k = tau * IZR k) by (intros k; unfold tau, along; rewrite Rmult_1_l; unfold Rdiv; ring).
  assert (Dist : forall index xs ys prof p c, tilted_profile spl img index (- degrees a) true = Ok (xs, ys, prof) -> 0 <= p <= IZR (n - 1) -> Rabs (tau * p - c) <= tau / 2 ->
    c - tau / 2 - sqrt 2 <= p * pitch xs ys n <= c + tau / 2).
  { intros index xs ys prof p c Et [P0 P1] Pc. pose proof (C91_displacement spl img index (- degrees a) true xs ys prof p ltac:(lia) ltac:(lia) D4 P0 Et) as X. cbn zeta iota in X.
    rewrite D3, Iw in X. fold n tau in X. rewrite (Rmult_comm p tau) in X. apply Rabs_le_inv in Pc.
    assert (sqrt 2 * p / IZR (n - 1) <= sqrt 2).
    { apply Rmult_le_reg_r with (IZR (n - 1)); [exact N1|]. unfold Rdiv. rewrite Rmult_assoc, Rinv_l by lra. rewrite Rmult_1_r. apply Rmult_le_compat_l; [apply sqrt_pos|exact P1]. }
    lra. }
  assert (On : forall index xs ys prof pos, hor_index_ok (ih mat) n (- a) index -> tilted_profile spl img index (- degrees a) true = Ok (xs, ys, prof) ->
    found pf ex cf gf as_ g3 prof true radius s true sp false None pos ->
    (forall p, In p pos -> 0 <= p <= IZR (n - 1) /\ exists c, In c (cs index) /\ Rabs (tau * p - c) <= tau / 2) /\
    (forall c, In c (cs index) -> IZR r * tau <= c <= IZR (n - r - 2) * tau -> exists p, In p pos /\ 0 <= p <= IZR (n - 1) /\ Rabs (tau * p - c) <= tau / 2)).
  { intros index xs ys prof pos Ok_ Et (prof' & -> & Eg). destruct (HC index Ok_) as [HA Sh]. destruct (Sh _ _ _ Et) as (Sz & Sp & Se). cbn iota in Sz, Sp, Se. rewrite Iw in Sz, Sp, Se. fold n in Sz, Sp, Se.
    pose proof (positions_on_profile pf ex cf gf as_ g3 sp prof radius s h b tau phi (cs index) pos PF) as P. cbn zeta in P. rewrite Sz in P. fold r in P. cbn [negb] in Eg.
    apply P; try assumption; [unfold n; lia|]. intros k Hk. rewrite Sp by assumption. now rewrite D3, Al. }
  cbn zeta. split.
  - intros y x I. apply K in I. destruct I as (k & index & xs & ys & prof & pos & p & K1 & K2 & K3 & Et & Ef & Ip & Ex & Ey).
    assert (Ok_ : hor_index_ok (ih mat) n (- a) index).
    { rewrite <- D3. destruct (classic_dec_hor (ih img) (iw img) (radians (- degrees a)) index) as [p'|p']; [now rewrite Ih, Iw in p'|]. rewrite hor_error in Et by (assumption || lia). discriminate. }
    destruct (On _ _ _ _ _ Ok_ Et Ef) as [O1 _]. destruct (O1 p Ip) as [P0 [c [Ic Pc]]].
    exists index, c, (p * pitch xs ys n). split; [exists k; auto|]. split; [exact Ic|]. split; [exact Ex|]. split; [exact Ey|]. apply (Dist index xs ys prof); assumption.
  - intros index c (k & K1 & K2 & K3) Ic Rc.
    assert (Ok_ : hor_index_ok (ih mat) n (- a) index).
    { apply Rng. assert (O : (0 <= clip_offset offset (Z.min (ih mat) n / 8))%Z) by (unfold clip_offset; lia). apply IZR_le in O. rewrite plus_IZR in K2. rewrite minus_IZR in K3.
      assert (0 <= IZR k) by now apply IZR_le. assert (0 <= IZR k * (ratio * dist)) by nra. lra. }
    destruct (C61_accepted spl img index (- degrees a) true ltac:(lia) ltac:(lia) D4) as [Acc _]. cbn iota in Acc. rewrite D3, Ih, Iw in Acc. fold n in Acc.
    destruct (Acc Ok_) as [[[xs ys] prof] Et].
    assert (Fo : exists pos, found pf ex cf gf as_ g3 prof true radius s true sp false None pos).
    { destruct (HC index Ok_) as [HA Sh]. destruct (Sh _ _ _ Et) as (Sz & Sp & Se). cbn iota in Sz, Sp, Se. rewrite Iw in Sz, Sp, Se. fold n in Sz, Sp, Se.
      pose proof (C118_profile pf ex cf gf as_ g3 prof radius s h b tau phi (cs index) PF) as P. cbn zeta in P. rewrite Sz in P. fold r in P.
      destruct P as (is_ & E1 & _ & _ & qs & E2 & _); try assumption; [unfold n; lia|intros j Hj; rewrite Sp by assumption; now rewrite D3, Al|].
      destruct sp; [exists qs|exists (map IZR is_)]; exists prof; (split; [reflexivity|assumption]). }
    destruct Fo as [pos Fo]. destruct (On _ _ _ _ _ Ok_ Et Fo) as [_ O2]. destruct (O2 c Ic Rc) as (p & Ip & P0 & Pc).
    exists (index + slope * (p * pitch xs ys n * cos a)), (p * pitch xs ys n * cos a), (p * pitch xs ys n).
    split; [apply K; exists k, index, xs, ys, prof, pos, p; repeat (split; [assumption|]); split; reflexivity|]. split; [reflexivity|]. split; [reflexivity|]. apply (Dist index xs ys prof); assumption.
Qed.
Print Assumptions C118_vertical_lines.

(** Two lines of triangular cross-section on 20 rows, read with interpolation
    between rows. *)
Definition tent (d : R) : R := Rmax 0 (2 - Rabs d).
Definition two_lines : image R := mkimg 20 4 (fun i _ => pattern 1 tent [6; 14] (IZR i)).
Definition between_rows (m : image R) (ps : list (R * R)) : list R :=
  map (fun p => let i := Zfloor (fst p) in let f := fst p - IZR i in (1 - f) * px m i (Zfloor (snd p)) + f * px m (i + 1) (Zfloor (snd p))) ps.
Lemma tent_shape : line_shape 2 tent.
Proof.
  unfold tent. split; [|split].
  - intros d. now rewrite Rabs_Ropp.
  - intros d H. rewrite Rabs_pos_eq by lra. apply Rmax_left. lra.
  - intros d e H1 H2 H3. rewrite !Rabs_pos_eq by lra. rewrite !Rmax_right by lra. lra.
Qed.
Lemma tent_linear (k c : Z) f : 0 <= f <= 1 -> (1 - f) * tent (IZR k - IZR c) + f * tent (IZR (k + 1) - IZR c) = tent (IZR k + f - IZR c).
Proof.
  intros Hf. unfold tent. rewrite plus_IZR.
  assert (C : (k <= c - 3 \/ k = c - 2 \/ k = c - 1 \/ k = c \/ k = c + 1 \/ c + 2 <= k)%Z) by lia.
  destruct C as [C|[C|[C|[C|[C|C]]]]].
  - apply IZR_le in C. rewrite minus_IZR in C. rewrite !Rabs_left1 by lra. rewrite !Rmax_left by lra. ring.
  - subst k. rewrite minus_IZR. rewrite !Rabs_left1 by lra. rewrite Rmax_left, !Rmax_right by lra. ring.
  - subst k. rewrite minus_IZR. rewrite !Rabs_left1 by lra. rewrite !Rmax_right by lra. ring.
  - subst k. rewrite !Rabs_pos_eq by lra. rewrite !Rmax_right by lra. ring.
  - subst k. rewrite plus_IZR. rewrite !Rabs_pos_eq by lra. rewrite (Rmax_right 0 (2 - (IZR c + 1 - IZR c))), (Rmax_left 0 (2 - (IZR c + 1 + 1 - IZR c))), !Rmax_right by lra. ring.
  - apply IZR_le in C. rewrite plus_IZR in C. rewrite !Rabs_pos_eq by lra. rewrite !Rmax_left by lra. ring.
Qed.
Lemma rows_linear k f : 0 <= f <= 1 -> (1 - f) * pattern 1 tent [6; 14] (IZR k) + f * pattern 1 tent [6; 14] (IZR (k + 1)) = pattern 1 tent [6; 14] (IZR k + f).
Proof.
  intros Hf. unfold pattern. cbn [map Rsum fold_right]. pose proof (tent_linear k 6 f Hf) as A. pose proof (tent_linear k 14 f Hf) as B. lra.
Qed.
Lemma two_lines_shown index : shows between_rows two_lines index (degrees (atan 0)) false 1 tent [6; 14].
Proof.
  intros xs ys prof E n. unfold n. clear n. cbn [ih iw two_lines]. rewrite atan_0 in *. assert (A : radians (degrees 0) = 0) by (unfold radians, degrees, Rdiv; ring).
  assert (Dg : degrees 0 = 0) by (unfold degrees, Rdiv; ring). rewrite Dg in E. assert (R0 : Rabs 0 < 90) by (rewrite Rabs_R0; lra).
  destruct (C61_vertical between_rows two_lines index 0 xs ys prof ltac:(cbn; lia) ltac:(cbn; lia) R0 E) as (Sx & Sy & _ & _ & _). cbn [ih iw two_lines] in Sx, Sy.
  destruct (C61_band_vertical between_rows two_lines index 0 xs ys prof ltac:(cbn; lia) ltac:(cbn; lia) R0 E) as (lo & hi & band & _ & _ & _ & _ & _ & Bp & ->).
  assert (Sz : size (between_rows band (combine ys (map (fun x => x - IZR lo) xs))) = 20%Z).
  { unfold between_rows, size in *. rewrite map_length, combine_length, map_length. lia. }
  assert (Val : forall k f, (0 <= k < 20)%Z -> sample ys k = IZR k + f -> 0 <= f < 1 -> sample (between_rows band (combine ys (map (fun x => x - IZR lo) xs))) k = pattern 1 tent [6; 14] (IZR k + f)).
  { intros k f Hk Ey Hf. unfold between_rows, sample, size in *.
    set (F := fun p : R * R => _). rewrite (nth_indep _ 0 (F (0, 0 - IZR lo))) by (rewrite map_length, combine_length, map_length; lia). rewrite map_nth.
    rewrite combine_nth by (rewrite map_length; lia). unfold F. cbn [fst snd]. rewrite Ey.
    assert (Fl : Zfloor (IZR k + f) = k) by (apply Zfloor_imp; rewrite plus_IZR; lra). rewrite Fl. replace (IZR k + f - IZR k) with f by ring.
    rewrite !Bp. cbn [px two_lines]. apply rows_linear. lra. }
  split; [exact Sz|]. split.
  - intros k Hk. destruct (C91_zero_slope between_rows two_lines index false xs ys _ k ltac:(cbn; lia) ltac:(cbn; lia) E ltac:(cbn; lia)) as [_ Ey]. cbn [ih two_lines] in Ey.
    assert (K0 : 0 <= IZR k <= 18) by (split; apply IZR_le; lia).
    rewrite (Val k (IZR k / IZR (20 - 1)) ltac:(lia) Ey ltac:(change (IZR (20 - 1)) with 19; lra)). f_equal. unfold along. rewrite A, cos_0. replace (IZR 20 / 1) with (IZR 20) by field. rewrite Zfloor_IZR. change (20 - 1)%Z with 19%Z. field.
  - destruct (C61_vertical between_rows two_lines index 0 xs ys _ ltac:(cbn; lia) ltac:(cbn; lia) R0 E) as (_ & _ & _ & _ & K). cbn zeta in K. cbn [ih iw two_lines] in K.
    destruct (K 19%Z ltac:(lia)) as (_ & _ & Ey & _). rewrite (along_last 20) in Ey by lia. assert (A' : radians 0 = 0) by (unfold radians, Rdiv; ring). rewrite A' in Ey. unfold ver_y in Ey. rewrite cos_0 in Ey.
    replace (IZR 20 / 1) with (IZR 20) in Ey by field. rewrite Zfloor_IZR, Rmin_right in Ey by (change (IZR (20 - 1)) with 19; lra).
    change (20 - 1)%Z with 19%Z in *. rewrite (Val 19%Z 0 ltac:(lia) ltac:(rewrite Ey; ring) ltac:(lra)). rewrite Rplus_0_r. unfold pattern. cbn [map Rsum fold_right]. unfold tent.
    rewrite Rminus_0_r || idtac. rewrite (Rabs_pos_eq (19 - 6)), (Rabs_pos_eq (19 - 14)), Rabs_R0 by lra. rewrite (Rmax_left 0 (2 - (19 - 6))), (Rmax_left 0 (2 - (19 - 14))), Rmax_right by lra. lra.
Qed.
Example C118_case : let tau := along 20 (atan 0) 1 in let r := search_radius 20 3 in
  line_shape 2 tent /\ apart (Rmax (2 * 2) (2 + (IZR r + 1 / 2) * tau)) [6; 14] /\
  1 / 10 * tent 0 + (1 - 1 / 10) * tent ((IZR (r / 2) + 1 / 2) * tau) < tent (tau / 2) /\
  (forall index, ver_index_ok 20 4 (atan 0) index -> shows between_rows two_lines index (degrees (atan 0)) false 1 tent [6; 14]) /\
  (forall c, In c [6; 14] -> IZR r * tau <= c <= IZR (20 - r - 2) * tau).
Proof.
  intros tau r. assert (Et : tau = 20 / 19). { unfold tau, along. rewrite atan_0, cos_0. replace (IZR 20 / 1) with (IZR 20) by field. rewrite Zfloor_IZR. change (20 - 1)%Z with 19%Z. field. }
  change r with 3%Z. rewrite Et. change (3 / 2)%Z with 1%Z. change (20 - 3 - 2)%Z with 15%Z.
  split; [exact tent_shape|]. split; [|split; [|split]].
  - rewrite Rmax_right by lra. constructor; [constructor; [constructor|constructor]|]. constructor; [lra|constructor].
  - unfold tent. rewrite Rabs_R0, !Rabs_pos_eq by lra. rewrite !Rmax_right by lra. lra.
  - intros index _. apply two_lines_shown.
  - intros c [<-|[<-|[]]]; lra.
Qed.
