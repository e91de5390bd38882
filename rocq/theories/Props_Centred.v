(** C134: a target centred on the optical axis gives the true centre of
    distortion, whatever the lens. *)
From Coq Require Import Reals ZArith List Lia Lra Permutation.
From Flocq Require Import Core.
From Verif Require Import Base Num NumFacts Spec Lsq PolyUniq LsqEx Proc ProcSpec ProcFacts ProcFacts2 ProcFacts3 ProcFacts4 ProcFacts5 PostLines PostLines2
  Props_Proc Props_Calib2 Props_DotOrder Props_Centres.
Import ListNotations.
Local Open Scope R_scope.

(** The half turn about (yc, xc). *)
Definition half (yc xc : R) (p : R * R) : R * R := (2 * yc - fst p, 2 * xc - snd p).
(** The half turn maps the lines to the same lines: the first to the last, the
    second to the last but one, ... (dots in any order). *)
Definition symmetric (yc xc : R) (lines : list (list (R * R))) : Prop := reordered (rev (map (map (half yc xc)) lines)) lines.
(** The first n parabolas bend to the same side. *)
Definition bent (n : nat) (cs : list (R * R * R)) : Prop := exists s, (s = 1 \/ s = -1) /\ forall k, (k < n)%nat -> 0 < s * curv cs k.
(** The first n parabolas pass the centre on the same side. *)
Definition aside (n : nat) (cs : list (R * R * R)) : Prop := exists s, (s = 1 \/ s = -1) /\ forall k, (k < n)%nat -> 0 < s * inter cs k.
(** A rotationally symmetric lens: a point at distance r from (yc, xc) moves
    along its ray by an arbitrary factor f r. *)
Definition lens (f : R -> R) (yc xc : R) (p : R * R) : R * R :=
  (yc + f (dist p (yc, xc)) * (fst p - yc), xc + f (dist p (yc, xc)) * (snd p - xc)).
(** n lines of m dots of a regular target centred on (yc, xc), with steps v
    from line to line and w from dot to dot. *)
Definition target (n m : nat) (yc xc : R) (v w : R * R) : list (list (R * R)) :=
  map (fun i => map (fun j => (yc + (INR i - (INR n - 1) / 2) * fst v + (INR j - (INR m - 1) / 2) * fst w,
                               xc + (INR i - (INR n - 1) / 2) * snd v + (INR j - (INR m - 1) / 2) * snd w)) (seq 0 m)) (seq 0 n).

(** *** Symmetric patterns *)
Lemma half_dist yc xc p : dist (half yc xc p) (yc, xc) = dist p (yc, xc).
Proof. unfold dist, half, py, pxc. cbn [fst snd]. f_equal. ring. Qed.
Lemma half_lens f yc xc p : lens f yc xc (half yc xc p) = half yc xc (lens f yc xc p).
Proof. unfold lens. rewrite half_dist. unfold half. cbn [fst snd]. apply f_equal2; ring. Qed.
Theorem C134_lens : forall f yc xc lines, symmetric yc xc lines -> symmetric yc xc (map (map (lens f yc xc)) lines).
Proof.
  intros f yc xc lines S. unfold symmetric in *.
  replace (rev (map (map (half yc xc)) (map (map (lens f yc xc)) lines))) with (map (map (lens f yc xc)) (rev (map (map (half yc xc)) lines))).
  - unfold reordered in *. induction S as [|a b l l' P S IH]; cbn [map]; constructor; [now apply Permutation_map|exact IH].
  - rewrite map_rev, !map_map. f_equal. apply map_ext. intros l. rewrite !map_map. apply map_ext. intros p. apply half_lens.
Qed.
Lemma seq_turn {A} (f : nat -> A) n : rev (map f (seq 0 n)) = map (fun i => f (n - 1 - i)%nat) (seq 0 n).
Proof.
  apply (nth_ext _ _ (f O) (f O)); [now rewrite rev_length, !map_length|]. intros k Hk. rewrite rev_length, map_length, seq_length in Hk.
  rewrite rev_nth by (rewrite map_length, seq_length; exact Hk). rewrite map_length, seq_length.
  rewrite (map_nth f), seq_nth by lia.
  rewrite (nth_indep (map (fun i => f (n - 1 - i)%nat) (seq 0 n)) (f O) (f (n - 1 - 0)%nat)) by (rewrite map_length, seq_length; lia).
  rewrite (map_nth (fun i => f (n - 1 - i)%nat)), seq_nth by lia. f_equal. lia.
Qed.
Lemma Forall2_maps {A B C} (P : B -> C -> Prop) (f : A -> B) (g : A -> C) l : (forall a, In a l -> P (f a) (g a)) -> Forall2 P (map f l) (map g l).
Proof. induction l as [|a l IH]; intros H; cbn [map]; constructor; [apply H; now left|apply IH; intros b Hb; apply H; now right]. Qed.
Theorem C134_target : forall n m yc xc v w, symmetric yc xc (target n m yc xc v w).
Proof.
  intros n m yc xc v w. unfold symmetric, target. rewrite map_map, seq_turn. unfold reordered.
  apply Forall2_maps. intros i Hi. apply in_seq in Hi. rewrite map_map. etransitivity; [apply Permutation_rev|]. rewrite seq_turn.
  match goal with |- Permutation ?a ?b => replace a with b; [reflexivity|] end. apply map_ext_in. intros j Hj. apply in_seq in Hj. unfold half. cbn [fst snd].
  rewrite !minus_INR by lia. change (INR 1) with 1. apply f_equal2; field.
Qed.

(** *** Parabolas of symmetric lines *)
Definition opp3 (c : R * R * R) : R * R * R := (- fst (fst c), snd (fst c), - snd c).
Definition para (fx fy : R * R -> R) (line : list (R * R)) (c : R * R * R) : Prop := polyfit_spec 2 (map fx line) (map fy line) [fst (fst c); snd (fst c); snd c].

Lemma Forall2_turn {A B} (P : A -> B -> Prop) l l' : Forall2 P l l' -> Forall2 P (rev l) (rev l').
Proof. induction 1 as [|a b l l' H F IH]; [constructor|]. cbn [rev]. apply Forall2_app; [exact IH|]. constructor; [exact H|constructor]. Qed.
Lemma para_half fx fy h line c : (forall p, fx (h p) = - fx p) -> (forall p, fy (h p) = - fy p) -> para fx fy line c -> para fx fy (map h line) (opp3 c).
Proof.
  intros Hx Hy [L M]. split; [reflexivity|]. intros v Lv. destruct (len3 v Lv) as [a [b [d ->]]]. unfold opp3. cbn [fst snd].
  assert (E : forall a b d, sqerr (map (pow_row 2) (map fx (map h line))) (map fy (map h line)) [a; b; d] = sqerr (map (pow_row 2) (map fx line)) (map fy line) [- a; b; - d]).
  { intros a' b' d'. rewrite !sqerr2, map_map. f_equal. apply map_ext. intros p. rewrite Hx, Hy. ring. }
  rewrite !E, !Ropp_involutive. now apply M.
Qed.
Lemma para_fun fx fy line c c' : distinct_values 3 (map fx line) -> para fx fy line c -> para fx fy line c' -> c = c'.
Proof.
  intros D P Q. pose proof (polyfit_same 2 _ _ _ _ P Q ltac:(now rewrite !map_length) D) as E. injection E as E1 E2 E3. destruct c as [[a b] d], c' as [[a' b'] d']. cbn [fst snd] in *. congruence.
Qed.
Lemma paras_half fx fy h lines cs : (forall p, fx (h p) = - fx p) -> (forall p, fy (h p) = - fy p) -> Forall (fun l => distinct_values 3 (map fx l)) lines ->
  reordered (rev (map (map h) lines)) lines -> Forall2 (para fx fy) lines cs -> rev (map opp3 cs) = cs.
Proof.
  intros Hx Hy D S F.
  assert (G : Forall2 (para fx fy) (rev (map (map h) lines)) (rev (map opp3 cs))).
  { apply Forall2_turn. clear D S. induction F as [|l c ls cs P F IH]; cbn [map]; constructor; [now apply para_half|exact IH]. }
  assert (G' : Forall2 (para fx fy) lines (rev (map opp3 cs))).
  { revert G S. clear. generalize (rev (map opp3 cs)) as cs'. generalize (rev (map (map h) lines)) as turned. intros turned cs' G S. unfold reordered in S. revert lines S. induction G as [|l c ls cs0 P G IH]; intros lines S; inversion S as [|? l' ? ls' Q S']; subst; constructor.
    - unfold para in *. now apply (polyfit_spec_perm 2 fx fy l l').
    - now apply IH. }
  clear - D F G'. revert D G'. generalize (rev (map opp3 cs)) as cs'. induction F as [|l c ls cs P F IH]; intros cs' D G; inversion G as [|? c' ? cs'' P' G'']; subst; [reflexivity|].
  inversion D; subst. f_equal; [eapply para_fun; eassumption|now apply IH].
Qed.

(** Number k from the end is number k turned by half. *)
Lemma turned_nth cs n k : rev (map opp3 cs) = cs -> length cs = (2 * n)%nat -> (k < 2 * n)%nat -> nth (2 * n - 1 - k) cs (0, 0, 0) = opp3 (nth k cs (0, 0, 0)).
Proof.
  intros E L Hk. rewrite <- E at 1. rewrite rev_nth by (rewrite map_length; lia). rewrite map_length, L.
  replace (2 * n - S (2 * n - 1 - k))%nat with k by lia. rewrite (nth_indep _ _ (opp3 (0, 0, 0))) by (rewrite map_length; lia). apply map_nth.
Qed.
Definition shf (X Y : R) (c : R * R * R) : R * R * R := (fst (fst c), snd (fst c) - 2 * fst (fst c) * X, snd c + fst (fst c) * X ^ 2 - snd (fst c) * X + Y).
Lemma para_shift (fx fy : R * R -> R) X Y line c : para (fun p => fx p - X) (fun p => fy p - Y) line c -> para (fun p => fx p - 0) (fun p => fy p - 0) line (shf X Y c).
Proof.
  intros [L M]. split; [reflexivity|]. intros v Lv. destruct (len3 v Lv) as [a [b [d ->]]]. unfold shf. cbn [fst snd].
  assert (E : forall a b d, sqerr (map (pow_row 2) (map (fun p => fx p - 0) line)) (map (fun p => fy p - 0) line) [a; b; d] =
    sqerr (map (pow_row 2) (map (fun p => fx p - X) line)) (map (fun p => fy p - Y) line) [a; b + 2 * a * X; d + a * X ^ 2 + b * X - Y]).
  { intros a' b' d'. rewrite !sqerr2. f_equal. apply map_ext. intros p. ring. }
  rewrite !E. eapply Rle_trans; [|apply M; reflexivity].
  match goal with |- sqerr _ _ [?x; ?y; ?z] <= sqerr _ _ [_; ?y'; ?z'] => replace y with y' by ring; replace z with z' by ring end. apply Rle_refl.
Qed.
Lemma sgn_side s x : s = 1 \/ s = -1 -> 0 < s * x -> sgn x = s.
Proof. intros [->| ->] H; unfold sgn; destruct (Rlt_dec 0 x); [reflexivity|lra|lra|]. destruct (Rlt_dec x 0); [reflexivity|lra]. Qed.
Lemma middle n cs cs0 i : (1 <= n)%nat -> length cs = (2 * n)%nat -> rev (map opp3 cs) = cs -> bent n cs -> length cs0 = (2 * n)%nat -> (forall k, curv cs0 k = curv cs k) -> main_change cs0 i -> i = (n - 1)%nat.
Proof.
  intros Hn L E [s [Hs B]] L0 C [Hi [M1 M2]].
  assert (S1 : forall k, (k < n)%nat -> sgn (curv cs0 k) = s) by (intros k Hk; rewrite C; apply sgn_side; [exact Hs|now apply B]).
  assert (S2 : forall k, (n <= k < 2 * n)%nat -> sgn (curv cs0 k) = - s).
  { intros k Hk. rewrite C. apply sgn_side; [lra|]. replace k with (2 * n - 1 - (2 * n - 1 - k))%nat by lia. unfold curv. rewrite turned_nth by (assumption || lia).
    unfold opp3. cbn [fst snd]. specialize (B (2 * n - 1 - k)%nat ltac:(lia)). unfold curv in B. lra. }
  assert (J : sign_jump cs0 (n - 1) = 2).
  { unfold sign_jump. replace (S (n - 1)) with n by lia. rewrite (S2 n), (S1 (n - 1)%nat) by lia. destruct Hs as [->| ->]; unfold Rabs; destruct (Rcase_abs _); lra. }
  assert (Z : forall k, (S k < 2 * n)%nat -> k <> (n - 1)%nat -> sign_jump cs0 k = 0).
  { intros k Hk N. unfold sign_jump. destruct (Nat.lt_ge_cases (S k) n).
    - rewrite !S1 by lia. rewrite Rminus_diag_eq; [apply Rabs_R0|reflexivity].
    - rewrite !S2 by lia. rewrite Rminus_diag_eq; [apply Rabs_R0|reflexivity]. }
  rewrite L0 in Hi. destruct (Nat.eq_dec i (n - 1)) as [->|N]; [reflexivity|]. specialize (M1 (n - 1)%nat ltac:(lia)). rewrite J, (Z i Hi N) in M1. lra.
Qed.

Section Centred.
  Local Instance NCe : Num R := Rexact.
  Variable polyfit : list R -> list R -> nat -> res (list R).
  Hypothesis PF : polyfit_oracle polyfit.

  Lemma fits_para (fx fy : R * R -> R) lines cs : Forall (fun l => distinct_values 3 (map fx l)) lines ->
    Forall2 (fun line c => exists u v w, c = (u, v, w) /\ polyfit (map fx line) (map fy line) 2%nat = Ok [u; v; w]) lines cs -> Forall2 (para fx fy) lines cs.
  Proof.
    intros D F. induction F as [|l c ls cs H F IH]; [constructor|]; inversion D as [|? ? Dl Dr]; subst; constructor; [|now apply IH].
    destruct H as [u [v [w [-> E]]]]. destruct (PF (map fx l) (map fy l) 2%nat) as [r [Er S]]; [now apply distinct_values_ne in Dl|now rewrite !map_length|].
    rewrite E in Er. injection Er as <-. exact S.
  Qed.
  Lemma shifted (fx fy : R * R -> R) X Y lines cs cs0 : Forall (fun l => distinct_values 3 (map fx l)) lines ->
    Forall2 (fun line c => exists u v w, c = (u, v, w) /\ polyfit (map (fun p => fx p - X) line) (map (fun p => fy p - Y) line) 2%nat = Ok [u; v; w]) lines cs ->
    Forall2 (fun line c => exists u v w, c = (u, v, w) /\ polyfit (map (fun p => fx p - 0) line) (map (fun p => fy p - 0) line) 2%nat = Ok [u; v; w]) lines cs0 ->
    cs0 = map (shf X Y) cs.
  Proof.
    intros D F F0.
    assert (DX : forall X, Forall (fun l => distinct_values 3 (map (fun p => fx p - X) l)) lines).
    { intros X'. eapply Forall_impl; [|exact D]. intros l Hl. now apply distinct_shift. }
    apply (fits_para (fun p => fx p - X) (fun p => fy p - Y) lines cs (DX X)) in F. apply (fits_para (fun p => fx p - 0) (fun p => fy p - 0) lines cs0 (DX 0)) in F0.
    specialize (DX 0). clear D. revert cs0 F0 DX. induction F as [|l c ls cs H F IH]; intros cs0 F0 D; inversion F0 as [|? c0 ? cs0' H0 F0']; subst; [reflexivity|].
    inversion D; subst. cbn [map]. f_equal; [|now apply IH]. eapply para_fun; [eassumption|exact H0|now apply para_shift].
  Qed.
  Lemma turned_fits (fx fy : R * R -> R) h X Y lines cs : (forall p, fx (h p) = 2 * X - fx p) -> (forall p, fy (h p) = 2 * Y - fy p) -> Forall (fun l => distinct_values 3 (map fx l)) lines ->
    reordered (rev (map (map h) lines)) lines ->
    Forall2 (fun line c => exists u v w, c = (u, v, w) /\ polyfit (map (fun p => fx p - X) line) (map (fun p => fy p - Y) line) 2%nat = Ok [u; v; w]) lines cs -> rev (map opp3 cs) = cs.
  Proof.
    intros Hx Hy D S F.
    assert (DX : Forall (fun l => distinct_values 3 (map (fun p => fx p - X) l)) lines).
    { eapply Forall_impl; [|exact D]. intros l Hl. now apply distinct_shift. }
    apply (paras_half (fun p => fx p - X) (fun p => fy p - Y) h lines cs); try assumption; [intros p; rewrite Hx; ring|intros p; rewrite Hy; ring|].
    now apply (fits_para (fun p => fx p - X) (fun p => fy p - Y) lines cs).
  Qed.

  Section Cross.
    Variables (yc xc : R) (n m : nat) (lh lv : list (list (R * R))) (ch cv : list (R * R * R)).
    Hypothesis Hn : (1 <= n)%nat.
    Hypothesis Hm : (1 <= m)%nat.
    Hypothesis Lh : length lh = (2 * n)%nat.
    Hypothesis Lv : length lv = (2 * m)%nat.
    Hypothesis Dh : spread_hor 3 lh.
    Hypothesis Dv : spread_ver 3 lv.
    Hypothesis Sh : symmetric yc xc lh.
    Hypothesis Sv : symmetric yc xc lv.
    Hypothesis Fh : fits_hor (fun x => x) polyfit xc yc lh ch.
    Hypothesis Fv : fits_ver (fun x => x) polyfit xc yc lv cv.
    Hypothesis Bh : bent n ch.
    Hypothesis Bv : bent m cv.

    Lemma hor_turned : rev (map opp3 ch) = ch.
    Proof. apply (turned_fits pxc py (half yc xc) xc yc lh ch); try assumption; intros p; reflexivity. Qed.
    Lemma ver_turned : rev (map opp3 cv) = cv.
    Proof. apply (turned_fits py pxc (half yc xc) yc xc lv cv); try assumption; intros p; reflexivity. Qed.
    Lemma crossing : slope ch (n - 1) * slope cv (m - 1) <> 1 -> find_cod_coarse polyfit lh lv = Ok (xc, yc).
    Proof.
      intros NP.
      assert (Nh : forall l, In l lh -> l <> []) by (intros l Hl ->; unfold spread_hor in Dh; rewrite Forall_forall in Dh; apply Dh in Hl; now apply distinct_values_ne in Hl).
      assert (Nv : forall l, In l lv -> l <> []) by (intros l Hl ->; unfold spread_ver in Dv; rewrite Forall_forall in Dv; apply Dv in Hl; now apply distinct_values_ne in Hl).
      destruct (para_hor_total (fun x => x) polyfit PF lh 0 0 Nh) as [c0 [sl0 E0]]. destruct (para_ver_total (fun x => x) polyfit PF lv 0 0 Nv) as [c1 [sl1 E1]].
      pose proof (para_hor_fits (fun x => x) polyfit lh 0 0 c0 sl0 E0) as F0. pose proof (para_ver_fits (fun x => x) polyfit lv 0 0 c1 sl1 E1) as F1.
      pose proof (Forall2_length _ _ _ F0) as L0. pose proof (Forall2_length _ _ _ F1) as L1. pose proof (Forall2_length _ _ _ Fh) as L2. pose proof (Forall2_length _ _ _ Fv) as L3. unfold pt in *.
      pose proof (shifted pxc py xc yc lh ch c0 Dh Fh F0) as Q0. pose proof (shifted py pxc yc xc lv cv c1 Dv Fv F1) as Q1.
      destruct (coarse_spec (fun x => x) polyfit lh lv c0 sl0 c1 sl1 E0 E1 ltac:(lia) ltac:(lia)) as [i [j [Mi [Mj R0]]]]. cbv zeta in R0.
      assert (N0 : forall k, (k < 2 * n)%nat -> nth k c0 (0, 0, 0) = shf xc yc (nth k ch (0, 0, 0))).
      { intros k Hk. rewrite Q0, (nth_indep _ _ (shf xc yc (0, 0, 0))) by (rewrite map_length; lia). apply map_nth. }
      assert (N1 : forall k, (k < 2 * m)%nat -> nth k c1 (0, 0, 0) = shf yc xc (nth k cv (0, 0, 0))).
      { intros k Hk. rewrite Q1, (nth_indep _ _ (shf yc xc (0, 0, 0))) by (rewrite map_length; lia). apply map_nth. }
      assert (C0 : forall k, curv c0 k = curv ch k).
      { intros k. unfold curv. destruct (Nat.lt_ge_cases k (2 * n)); [rewrite N0 by lia; reflexivity|]. rewrite !nth_overflow by lia. reflexivity. }
      assert (C1 : forall k, curv c1 k = curv cv k).
      { intros k. unfold curv. destruct (Nat.lt_ge_cases k (2 * m)); [rewrite N1 by lia; reflexivity|]. rewrite !nth_overflow by lia. reflexivity. }
      assert (Ei : i = (n - 1)%nat) by (apply (middle n ch c0 i); try assumption; try lia; apply hor_turned). 
      assert (Ej : j = (m - 1)%nat) by (apply (middle m cv c1 j); try assumption; try lia; apply ver_turned). subst i j.
      assert (T0 : nth n ch (0, 0, 0) = opp3 (nth (n - 1) ch (0, 0, 0))).
      { pose proof (turned_nth ch n (n - 1) hor_turned ltac:(lia) ltac:(lia)) as T. now replace (2 * n - 1 - (n - 1))%nat with n in T by lia. }
      assert (T1 : nth m cv (0, 0, 0) = opp3 (nth (m - 1) cv (0, 0, 0))).
      { pose proof (turned_nth cv m (m - 1) ver_turned ltac:(lia) ltac:(lia)) as T. now replace (2 * m - 1 - (m - 1))%nat with m in T by lia. }
      refine (eq_trans R0 _). clear R0. replace (S (n - 1)) with n by lia. replace (S (m - 1)) with m by lia.
      unfold slope, inter in *. rewrite !N0, !N1 by lia. rewrite T0, T1. destruct (nth (n - 1) ch (0, 0, 0)) as [[u v] w]. destruct (nth (m - 1) cv (0, 0, 0)) as [[u' v'] w'].
      unfold shf, opp3. cbn [fst snd] in *. f_equal.
      match goal with |- (_ / ?a, _) = _ => replace a with (1 - v * v') by field end. apply f_equal2; field; lra.
    Qed.
  End Cross.

  (** The straight line through points symmetric about the origin. *)
  Lemma through_centre n cs : (1 <= n)%nat -> length cs = (2 * n)%nat -> rev (map opp3 cs) = cs -> bent n cs -> aside n cs ->
    exists a, a <> 0 /\ fit1 polyfit (map cf2 cs) (map cf0 cs) = Ok (a, 0).
  Proof.
    intros Hn L T [s [Hs B]] [t [Ht A]].
    set (l := map (fun c : R * R * R => (cf2 c, cf0 c)) cs).
    assert (El : map fst l = map cf2 cs /\ map snd l = map cf0 cs) by (unfold l; rewrite !map_map; split; reflexivity). destruct El as [El1 El2].
    assert (Q : forall p, In p l -> 0 < (s * t) * (fst p * snd p)).
    { intros p Hp. unfold l in Hp. apply in_map_iff in Hp. destruct Hp as [c [<- Hc]]. cbn [fst snd]. apply (In_nth _ _ (0, 0, 0)) in Hc. destruct Hc as [k [Hk <-]]. rewrite L in Hk.
      destruct (Nat.lt_ge_cases k n) as [Lk|Gk].
      - specialize (B k Lk). specialize (A k Lk). unfold curv, inter in *. unfold cf0, cf2. replace (s * t * _) with ((s * fst (fst (nth k cs (0, 0, 0)))) * (t * snd (nth k cs (0, 0, 0)))) by ring. now apply Rmult_lt_0_compat.
      - specialize (B (2 * n - 1 - k)%nat ltac:(lia)). specialize (A (2 * n - 1 - k)%nat ltac:(lia)). unfold curv, inter in *. unfold cf0, cf2. rewrite turned_nth in A, B by (assumption || lia). unfold opp3 in A, B. cbn [fst snd] in A, B.
        replace (s * t * _) with ((s * - fst (fst (nth k cs (0, 0, 0)))) * (t * - snd (nth k cs (0, 0, 0)))) by ring. now apply Rmult_lt_0_compat. }
    assert (D : distinct_values 2 (map fst l)).
    { rewrite El1. pose proof (turned_nth cs n 0 T L ltac:(lia)) as T0. pose proof (A 0%nat ltac:(lia)) as A0. unfold inter in A0.
      exists [cf2 (nth 0 cs (0, 0, 0)); cf2 (nth (2 * n - 1 - 0) cs (0, 0, 0))]. rewrite T0. unfold opp3, cf2. cbn [fst snd]. repeat split.
      - constructor; [intros [E|[]]; nra|]. constructor; [easy|constructor].
      - intros x [<-|[<-|[]]]; [apply (in_map snd); apply nth_In; lia|].
        change (- snd (nth 0 cs (0, 0, 0))) with (snd (opp3 (nth 0 cs (0, 0, 0)))). rewrite <- T0. apply (in_map snd). apply nth_In. lia.
      - cbn. lia. }
    destruct (fit1_moved polyfit PF (-1) (-1) l l ltac:(lra) ltac:(lra)) as [a [b [E1 E2]]]; [|exact D|].
    { unfold l at 1. rewrite <- T, map_rev. etransitivity; [symmetry; apply Permutation_rev|]. unfold l. rewrite !map_map.
      match goal with |- Permutation ?a ?b => replace b with a; [reflexivity|] end. apply map_ext. intros c. unfold cf2, cf0, opp3. cbn [fst snd]. apply f_equal2; ring. }
    rewrite El1, El2 in *. rewrite E1 in E2. injection E2 as Ea Eb. assert (b = 0) by lra. subst b. exists a. split; [|exact E1].
    intros ->. unfold fit1 in E1. destruct (PF (map cf2 cs) (map cf0 cs) 1%nat) as [v [Ev [Lv Mv]]]; [destruct cs; [cbn in L; lia|discriminate]|now rewrite !map_length|].
    rewrite Ev in E1. cbn [bind] in E1. destruct v as [|v0 [|v1 [|]]]; try discriminate. injection E1 as -> ->.
    rewrite <- El1, <- El2 in Mv.
    assert (G : forall e, sqerr (map (pow_row 1) (map fst l)) (map snd l) [e; 0] = Rsum (map (fun p => fst p ^ 2) l) * e ^ 2 - 2 * e * Rsum (map (fun p => fst p * snd p) l) + Rsum (map (fun p => snd p ^ 2) l)).
    { clear. intros e. unfold sqerr. induction l as [|c l IH]; [cbn; ring|]. cbn [map combine Rsum]. rewrite IH. cbn [fst snd pow_row dot]. ring. }
    assert (W : 0 <= Rsum (map (fun p : R * R => fst p ^ 2) l)) by (apply Rsum_nonneg; intros x Hx; apply in_map_iff in Hx; destruct Hx as [p [<- _]]; apply pow2_ge_0).
    set (w := Rsum (map (fun p : R * R => fst p ^ 2) l)) in *. set (c := Rsum (map (fun p : R * R => fst p * snd p) l)) in *.
    assert (P : 0 < (s * t) * c).
    { subst c. assert (Nl : l <> []) by (unfold l; destruct cs; [cbn in L; lia|discriminate]). clear - Q Nl. destruct l as [|p l]; [easy|]. cbn [map Rsum]. rewrite Rmult_plus_distr_l.
      assert (0 < s * t * (fst p * snd p)) by (apply Q; now left). assert (0 <= s * t * Rsum (map (fun p => fst p * snd p) l)); [|lra].
      assert (Q' : forall p, In p l -> 0 < s * t * (fst p * snd p)) by (intros; apply Q; now right). clear - Q'. induction l as [|q l IH]; cbn [map Rsum]; [lra|].
      rewrite Rmult_plus_distr_l. assert (0 < s * t * (fst q * snd q)) by (apply Q'; now left). assert (0 <= s * t * Rsum (map (fun p => fst p * snd p) l)) by (apply IH; intros; apply Q'; now right). lra. }
    pose proof (Mv [c / (w + 1); 0] eq_refl) as M. rewrite !G in M.
    assert (X : c <> 0) by (intros X; rewrite X in P; lra). assert (0 < c ^ 2) by (destruct (Rdichotomy _ _ X); nra).
    assert (K : w * (c / (w + 1)) ^ 2 - 2 * (c / (w + 1)) * c = - (c ^ 2 * (w + 2)) / (w + 1) ^ 2) by (field; lra).
    assert (0 < c ^ 2 * (w + 2) / (w + 1) ^ 2) by (apply Rdiv_lt_0_compat; [apply Rmult_lt_0_compat; lra|apply pow_lt; lra]).
    replace (- (c ^ 2 * (w + 2)) / (w + 1) ^ 2) with (- (c ^ 2 * (w + 2) / (w + 1) ^ 2)) in K by (unfold Rdiv; ring). lra.
  Qed.
  Lemma step_kept n m yc xc lh lv ch cv : (1 <= n)%nat -> (1 <= m)%nat -> length lh = (2 * n)%nat -> length lv = (2 * m)%nat ->
    spread_hor 3 lh -> spread_ver 3 lv -> symmetric yc xc lh -> symmetric yc xc lv -> fits_hor (fun x => x) polyfit xc yc lh ch -> fits_ver (fun x => x) polyfit xc yc lv cv ->
    bent n ch -> bent m cv -> aside n ch -> aside m cv ->
    exists a1 a2, a1 <> 0 /\ a2 <> 0 /\ fit1 polyfit (map cf2 ch) (map cf0 ch) = Ok (a1, 0) /\ fit1 polyfit (map cf2 cv) (map cf0 cv) = Ok (a2, 0) /\ bailey_step polyfit lh lv (xc, yc) = Ok (xc, yc).
  Proof.
    intros Hn Hm Lh Lv Dh Dv Sh Sv Fh Fv Bh Bv Ah Av.
    assert (Th : rev (map opp3 ch) = ch) by (eapply hor_turned; eassumption). assert (Tv : rev (map opp3 cv) = cv) by (eapply ver_turned; eassumption).
    pose proof (Forall2_length _ _ _ Fh) as L2. pose proof (Forall2_length _ _ _ Fv) as L3. unfold pt in *.
    destruct (through_centre n ch Hn ltac:(lia) Th Bh Ah) as [a1 [N1 E1]]. destruct (through_centre m cv Hm ltac:(lia) Tv Bv Av) as [a2 [N2 E2]].
    exists a1, a2. repeat split; try assumption.
    assert (Nh : forall l, In l lh -> l <> []) by (intros l Hl ->; unfold spread_hor in Dh; rewrite Forall_forall in Dh; apply Dh in Hl; now apply distinct_values_ne in Hl).
    assert (Nv : forall l, In l lv -> l <> []) by (intros l Hl ->; unfold spread_ver in Dv; rewrite Forall_forall in Dv; apply Dv in Hl; now apply distinct_values_ne in Hl).
    destruct (para_hor_total (fun x => x) polyfit PF lh xc yc Nh) as [c0 [sl0 E0]]. destruct (para_ver_total (fun x => x) polyfit PF lv xc yc Nv) as [c1 [sl1 E1']].
    pose proof (para_hor_fits (fun x => x) polyfit lh xc yc c0 sl0 E0) as F0. pose proof (para_ver_fits (fun x => x) polyfit lv xc yc c1 sl1 E1') as F1.
    rewrite (fits_hor_fun _ _ _ _ _ _ _ F0 Fh) in E0. rewrite (fits_ver_fun _ _ _ _ _ _ _ F1 Fv) in E1'.
    assert (G0 : para_fit_hor polyfit lh xc yc = Ok (ch, sl0)) by exact E0. assert (G1 : para_fit_ver polyfit lv xc yc = Ok (cv, sl1)) by exact E1'.
    unfold bailey_step. rewrite G0, G1. cbn [bind fst snd]. rewrite E1, E2. cbn [bind fst snd]. f_equal. cbn [nsub ndiv NCe Rexact Rst]. apply f_equal2; field; assumption.
  Qed.
End Centred.

(** *** The theorems *)
Theorem C134_coarse : forall polyfit yc xc n m lh lv ch cv, polyfit_oracle polyfit ->
  (1 <= n)%nat -> (1 <= m)%nat -> length lh = (2 * n)%nat -> length lv = (2 * m)%nat -> spread_hor 3 lh -> spread_ver 3 lv ->
  symmetric yc xc lh -> symmetric yc xc lv ->
  fits_hor (fun x => x) polyfit xc yc lh ch -> fits_ver (fun x => x) polyfit xc yc lv cv -> bent n ch -> bent m cv -> slope ch (n - 1) * slope cv (m - 1) <> 1 ->
  @find_cod_coarse R Rexact polyfit lh lv = Ok (xc, yc).
Proof. intros. now apply (crossing polyfit H yc xc n m lh lv ch cv). Qed.
Theorem C134_bailey : forall polyfit yc xc n m lh lv ch cv iteration, polyfit_oracle polyfit ->
  (1 <= n)%nat -> (1 <= m)%nat -> length lh = (2 * n)%nat -> length lv = (2 * m)%nat -> spread_hor 3 lh -> spread_ver 3 lv ->
  symmetric yc xc lh -> symmetric yc xc lv ->
  fits_hor (fun x => x) polyfit xc yc lh ch -> fits_ver (fun x => x) polyfit xc yc lv cv -> bent n ch -> bent m cv -> slope ch (n - 1) * slope cv (m - 1) <> 1 ->
  aside n ch -> aside m cv ->
  @find_cod_bailey R Rexact polyfit lh lv iteration = Ok (xc, yc) /\
  (* no division by zero on the way: the straight lines fitted to the parabolas
     seen from the centre rise or fall *)
  exists a1 a2, a1 <> 0 /\ a2 <> 0 /\ polyfit (map snd ch) (map (fun c => fst (fst c)) ch) 1%nat = Ok [a1; 0] /\ polyfit (map snd cv) (map (fun c => fst (fst c)) cv) 1%nat = Ok [a2; 0].
Proof.
  intros polyfit yc xc n m lh lv ch cv iteration PF Hn Hm Lh Lv Dh Dv Sh Sv Fh Fv Bh Bv NP Ah Av.
  destruct (step_kept polyfit PF n m yc xc lh lv ch cv Hn Hm Lh Lv Dh Dv Sh Sv Fh Fv Bh Bv Ah Av) as [a1 [a2 [N1 [N2 [E1 [E2 E]]]]]]. split.
  - assert (G : @bailey_step R Rexact polyfit lh lv (xc, yc) = Ok (xc, yc)) by exact E. clear E. rename G into E.
    unfold find_cod_bailey. rewrite (C134_coarse polyfit yc xc n m lh lv ch cv) by assumption. cbn [bind]. rewrite E. cbn [bind].
    induction (Z.to_nat iteration) as [|k IH]; [reflexivity|]. cbn [bailey_loop]. rewrite E. cbn [bind]. exact IH.
  - exists a1, a2. repeat split; try assumption; [exact (ProcFacts2.fit1_ok polyfit _ _ _ E1)|exact (ProcFacts2.fit1_ok polyfit _ _ _ E2)].
Qed.
(** The photograph of a regular target, through any lens. *)
Theorem C134_photo : forall polyfit f yc xc v w n m ch cv iteration, polyfit_oracle polyfit -> (1 <= n)%nat -> (1 <= m)%nat ->
  let lh := map (map (lens f yc xc)) (target (2 * n) (2 * m) yc xc v w) in
  let lv := map (map (lens f yc xc)) (target (2 * m) (2 * n) yc xc w v) in
  spread_hor 3 lh -> spread_ver 3 lv -> fits_hor (fun x => x) polyfit xc yc lh ch -> fits_ver (fun x => x) polyfit xc yc lv cv ->
  bent n ch -> bent m cv -> slope ch (n - 1) * slope cv (m - 1) <> 1 ->
  @find_cod_coarse R Rexact polyfit lh lv = Ok (xc, yc) /\
  (aside n ch -> aside m cv -> @find_cod_bailey R Rexact polyfit lh lv iteration = Ok (xc, yc)).
Proof.
  intros polyfit f yc xc v w n m ch cv iteration PF Hn Hm lh lv Dh Dv Fh Fv Bh Bv NP.
  assert (Lh : length lh = (2 * n)%nat) by (unfold lh, target; rewrite !map_length; apply seq_length). assert (Lv : length lv = (2 * m)%nat) by (unfold lv, target; rewrite !map_length; apply seq_length).
  assert (Sh : symmetric yc xc lh) by (apply C134_lens, C134_target). assert (Sv : symmetric yc xc lv) by (apply C134_lens, C134_target). split.
  - now apply (C134_coarse polyfit yc xc n m lh lv ch cv).
  - intros Ah Av. now apply (C134_bailey polyfit yc xc n m lh lv ch cv iteration).
Qed.

(** *** A case: a lens that magnifies by 1 + r^2 / 100 *)
Definition pin (r : R) : R := 1 + r ^ 2 / 100.
Definition pin_at (yc xc : R) (p : R * R) : R * R :=
  (yc + (1 + ((fst p - yc) ^ 2 + (snd p - xc) ^ 2) / 100) * (fst p - yc), xc + (1 + ((fst p - yc) ^ 2 + (snd p - xc) ^ 2) / 100) * (snd p - xc)).
Lemma pin_lens yc xc lines : map (map (lens pin yc xc)) lines = map (map (pin_at yc xc)) lines.
Proof.
  apply map_ext. intros l. apply map_ext. intros p. unfold lens, pin, pin_at, dist, py, pxc. cbn [fst snd]. rewrite pow2_sqrt by (apply Rplus_le_le_0_compat; apply Rle_0_sqr). apply f_equal2; field.
Qed.
Ltac on_lines := unfold target, pin_at; cbn [seq map INR Nat.mul Nat.add fst snd];
  repeat (apply Forall2_cons || apply Forall2_nil); (split; [intros p Hp; repeat (destruct Hp as [<-|Hp]); try contradiction; unfold py, pxc; cbn [fst snd]; field|]).
Definition pin_hor : list (R * R * R) := [(-24 / 100 / (113216 / 10000), 0, - (33 / 10 - 24 / 100 / (113216 / 10000) * (121 / 100)));
  (- 8 / 100 / (98496 / 10000), 0, - (102 / 100 - 8 / 100 / (98496 / 10000) * (10404 / 10000)));
  (8 / 100 / (98496 / 10000), 0, (102 / 100 - 8 / 100 / (98496 / 10000) * (10404 / 10000)));
  (24 / 100 / (113216 / 10000), 0, (33 / 10 - 24 / 100 / (113216 / 10000) * (121 / 100)))].
Lemma pin_on_hor : Forall2 (on_para_hor 7 5) pin_hor (map (map (pin_at 5 7)) (target 4 4 5 7 (2, 0) (0, 2))).
Proof. unfold pin_hor. on_lines. all: unfold py, pxc; cbn [map fst snd]. all: distinct_lit. Qed.
Lemma pin_on_ver : Forall2 (on_para_ver 7 5) pin_hor (map (map (pin_at 5 7)) (target 4 4 5 7 (0, 2) (2, 0))).
Proof. unfold pin_hor. on_lines. all: unfold py, pxc; cbn [map fst snd]. all: distinct_lit. Qed.
Lemma ids (cs : list (R * R * R)) : map (stc (fun x => x)) cs = cs.
Proof. rewrite <- (map_id cs) at 2. apply map_ext. now intros [[? ?] ?]. Qed.
Lemma on_spread_hor xc yc cs lines : Forall2 (on_para_hor xc yc) cs lines -> spread_hor 3 lines.
Proof. induction 1 as [|c l cs ls [_ D] F IH]; constructor; assumption. Qed.
Lemma on_spread_ver xc yc cs lines : Forall2 (on_para_ver xc yc) cs lines -> spread_ver 3 lines.
Proof. induction 1 as [|c l cs ls [_ D] F IH]; constructor; assumption. Qed.
Lemma on_fits_hor polyfit xc yc cs lines : polyfit_oracle polyfit -> Forall2 (on_para_hor xc yc) cs lines -> fits_hor (fun x => x) polyfit xc yc lines cs.
Proof. intros PF F. pose proof (para_hor_exact (fun x => x) polyfit PF xc yc _ _ F) as E. rewrite ids in E. exact (para_hor_fits (fun x => x) polyfit _ _ _ _ _ E). Qed.
Lemma on_fits_ver polyfit xc yc cs lines : polyfit_oracle polyfit -> Forall2 (on_para_ver xc yc) cs lines -> fits_ver (fun x => x) polyfit xc yc lines cs.
Proof. intros PF F. pose proof (para_ver_exact (fun x => x) polyfit PF xc yc _ _ F) as E. rewrite ids in E. exact (para_ver_fits (fun x => x) polyfit _ _ _ _ _ E). Qed.
Lemma pin_bent : bent 2 pin_hor /\ aside 2 pin_hor.
Proof.
  split; (exists (-1); split; [now right|]); intros k Hk; unfold curv, inter, pin_hor; (destruct k as [|[|k]]; [| |lia]); cbn [nth fst snd]; lra.
Qed.
Example C134_photo_ex : forall iteration, let lh := map (map (lens pin 5 7)) (target 4 4 5 7 (2, 0) (0, 2)) in let lv := map (map (lens pin 5 7)) (target 4 4 5 7 (0, 2) (2, 0)) in
  @find_cod_coarse R Rexact pf_R lh lv = Ok (7, 5) /\ @find_cod_bailey R Rexact pf_R lh lv iteration = Ok (7, 5).
Proof.
  intros iteration lh lv.
  assert (Fh : Forall2 (on_para_hor 7 5) pin_hor lh) by (unfold lh; rewrite pin_lens; exact pin_on_hor). assert (Fv : Forall2 (on_para_ver 7 5) pin_hor lv) by (unfold lv; rewrite pin_lens; exact pin_on_ver).
  destruct pin_bent as [B A].
  destruct (C134_photo pf_R pin 5 7 (2, 0) (0, 2) 2 2 pin_hor pin_hor iteration pf_R_ok ltac:(lia) ltac:(lia)
    (on_spread_hor _ _ _ _ Fh) (on_spread_ver _ _ _ _ Fv) (on_fits_hor _ _ _ _ _ pf_R_ok Fh) (on_fits_ver _ _ _ _ _ pf_R_ok Fv) B B) as [C D].
  - unfold slope, pin_hor. cbn. lra.
  - split; [exact C|exact (D A A)].
Qed.
(** With an odd number of lines the middle one passes through the centre
    unbent: the curvature changes its sign twice by one, the first change is
    taken, and the result is half a line spacing off. *)
Definition odd_hor : list (R * R * R) := [(-16 / 100 / (103896 / 10000), 0, - (21 / 10 - 16 / 100 / (103896 / 10000) * (11025 / 10000))); (0, 0, 0);
  (16 / 100 / (103896 / 10000), 0, (21 / 10 - 16 / 100 / (103896 / 10000) * (11025 / 10000)))].
Definition odd_ver : list (R * R * R) := [(-12 / 100 / (51076 / 10000), 0, - (327 / 100)); (-4 / 100 / (441 / 100), 0, - (101 / 100)); (4 / 100 / (441 / 100), 0, 101 / 100); (12 / 100 / (51076 / 10000), 0, 327 / 100)].
Theorem C134_odd_refuted : forall polyfit, polyfit_oracle polyfit ->
  let lh := map (map (lens pin 0 0)) (target 3 4 0 0 (2, 0) (0, 2)) in let lv := map (map (lens pin 0 0)) (target 4 3 0 0 (0, 2) (2, 0)) in
  symmetric 0 0 lh /\ symmetric 0 0 lv /\ exists y, y < -1 /\ @find_cod_coarse R Rexact polyfit lh lv = Ok (0, y).
Proof.
  intros polyfit PF lh lv. split; [apply C134_lens, C134_target|]. split; [apply C134_lens, C134_target|].
  assert (Fh : Forall2 (on_para_hor 0 0) odd_hor lh) by (unfold lh; rewrite pin_lens; unfold odd_hor; on_lines; unfold py, pxc; cbn [map fst snd]; distinct_lit).
  assert (Fv : Forall2 (on_para_ver 0 0) odd_ver lv) by (unfold lv; rewrite pin_lens; unfold odd_ver; on_lines; unfold py, pxc; cbn [map fst snd]; distinct_lit).
  pose proof (para_hor_exact (fun x => x) polyfit PF 0 0 _ _ Fh) as Eh. pose proof (para_ver_exact (fun x => x) polyfit PF 0 0 _ _ Fv) as Ev. rewrite ids in Eh, Ev.
  destruct (coarse_spec (fun x => x) polyfit lh lv _ _ _ _ Eh Ev) as [i [j [[Hi [_ Mi]] [[Hj [Mj1 Mj]] E]]]]; [cbn; lia|cbn; lia|].
  assert (J0 : sgn (curv odd_hor 0) = -1 /\ sgn (curv odd_hor 1) = 0 /\ sgn (curv odd_hor 2) = 1).
  { unfold curv, odd_hor, sgn. cbn [nth fst snd]. repeat split; repeat destruct (Rlt_dec _ _); lra. }
  assert (J1 : sgn (curv odd_ver 0) = -1 /\ sgn (curv odd_ver 1) = -1 /\ sgn (curv odd_ver 2) = 1 /\ sgn (curv odd_ver 3) = 1).
  { unfold curv, odd_ver, sgn. cbn [nth fst snd]. repeat split; repeat destruct (Rlt_dec _ _); lra. }
  assert (i = O).
  { destruct i as [|[|i]]; [reflexivity| |cbn in Hi; lia]. specialize (Mi O ltac:(lia)). unfold sign_jump in Mi. destruct J0 as (A & B & C). rewrite A, B, C in Mi.
    replace (0 - -1) with 1 in Mi by ring. replace (1 - 0) with 1 in Mi by ring. lra. }
  assert (j = 1%nat).
  { specialize (Mj1 1%nat ltac:(cbn; lia)). unfold sign_jump in Mj1. destruct J1 as (A & B & C & D). rewrite B, C in Mj1. replace (1 - -1) with 2 in Mj1 by ring. rewrite Rabs_pos_eq in Mj1 by lra.
    destruct j as [|[|[|j]]]; [|reflexivity| |cbn in Hj; lia].
    - rewrite A, B in Mj1. replace (-1 - -1) with 0 in Mj1 by ring. rewrite Rabs_R0 in Mj1. lra.
    - rewrite C, D in Mj1. replace (1 - 1) with 0 in Mj1 by ring. rewrite Rabs_R0 in Mj1. lra. }
  subst i j. unfold slope, inter, odd_hor, odd_ver in E. cbn [nth fst snd] in E. cbv zeta in E. eexists. split; [|refine (eq_trans E _)].
  2: { f_equal. apply f_equal2; [field|reflexivity]. }
  cbv beta. lra.
Qed.
Print Assumptions C134_lens.
Print Assumptions C134_target.
Print Assumptions C134_coarse.
Print Assumptions C134_bailey.
Print Assumptions C134_photo.
Print Assumptions C134_odd_refuted.
