(** C138, second part: the source and target points depend continuously on the
    dots, and so do the perspective coefficients computed from them. *)
From Coq Require Import Reals ZArith List Lia Lra Permutation Sorted.
From Flocq Require Import Core.
From Verif Require Import Base Num NumFacts Spec Lsq PolyUniq LsqEx Img PrepImg PrepPts PrepSpec Post PostPersp PostExtra PostLines PostLines2 Proc ProcPers ProcSpec PersSpec ProcFacts ProcFacts2 ProcFacts3 ProcFacts4 ProcFacts5
  PersFacts PersFacts2 PersFacts3 PersFacts8 CalibSpec CalibFacts Props_Exposure Props_Proc Props_Pers Props_Tilt Props_Steady Props_Steady2 Props_PersSteady.
Import ListNotations.
Local Open Scope R_scope.

(** The lines are clear: each of them has two separate dots, the straight lines
    fitted to them meet and do so at separate points; the lines of the grid of
    these points do not all start at one height, and the trends of their slopes do
    not differ by exactly 1/10000, where the routine changes its formula. *)
Definition clear_grid (polyfit : list R -> list R -> nat -> res (list R)) (lh lv : list (list (R * R))) : Prop :=
  (2 <= length lh)%nat /\ (2 <= length lv)%nat /\
  (forall l, In l lh -> distinct_values 2 (map pxc l)) /\ (forall l, In l lv -> distinct_values 2 (map py l)) /\
  (forall ch cv, Forall2 (line_hor (fun x => x) polyfit) lh ch -> Forall2 (line_ver (fun x => x) polyfit) lv cv -> forall c d, In c ch -> In d cv -> fst c * fst d <> 1) /\
  exists gh gv, @regenerate_grid_points_linear R Rexact polyfit lh lv = Ok (gh, gv) /\
  (forall l, In l gh -> distinct_values 2 (map pxc l)) /\ (forall l, In l gv -> distinct_values 2 (map py l)) /\
  forall ch cv, Forall2 (line_hor (fun x => x) polyfit) gh ch -> Forall2 (line_ver (fun x => x) polyfit) gv cv ->
    distinct_values 2 (map snd ch) /\ distinct_values 2 (map snd cv) /\
    forall ah bh av bv, polyfit (map snd ch) (map fst ch) 1%nat = Ok [ah; bh] -> polyfit (map snd cv) (map (fun c => - fst c) cv) 1%nat = Ok [av; bv] -> Rabs (ah - av) <> 1 / 10000.

Lemma sorted_nth s : StronglySorted Rle s -> forall i j, (i <= j)%nat -> (j < length s)%nat -> nth i s 0 <= nth j s 0.
Proof.
  induction 1 as [|a s S IH F]; intros i j Hij Hj; [cbn in Hj; lia|]. destruct i as [|i]; destruct j as [|j]; cbn [nth]; try lra; try lia.
  - rewrite Forall_forall in F. apply F, nth_In. cbn in Hj. lia.
  - apply IH; cbn in Hj; lia.
Qed.
Lemma Forall2_in_l {A B} (P : A -> B -> Prop) l m a : Forall2 P l m -> In a l -> exists b, In b m /\ P a b.
Proof. induction 1 as [|x y l m H F IH]; [intros []|intros [<-|I]; [exists y|destruct (IH I) as [b [Hb Pb]]; exists b]; cbn; tauto]. Qed.
Lemma rsort_len l : length (rsort l) = length l.
Proof. apply Permutation_length, rsort_ok. Qed.

Section Track.
  Context {X : Type}.
  Variable X0 : X.
  Variable ev : (X -> Prop) -> Prop.
  Hypothesis ev_true : ev (fun _ => True).
  Hypothesis ev_and : forall P Q, ev P -> ev Q -> ev (fun x => P x /\ Q x).
  Hypothesis ev_imp : forall P Q : X -> Prop, (forall x, P x -> Q x) -> ev P -> ev Q.
  Hypothesis ev_base : forall P, ev P -> P X0.
  Notation ct := (cts X0 ev).
  Notation pf := ((X -> R) * (X -> R))%type.
  Notation add := (cts_add X0 ev ev_and ev_imp).
  Notation sub := (cts_sub X0 ev ev_and ev_imp).
  Notation mul := (cts_mul X0 ev ev_and ev_imp).
  Notation scal := (cts_scal X0 ev ev_imp).
  Notation const := (cts_const X0 ev ev_true ev_imp).
  Notation ext := (cts_ext X0 ev ev_imp).
  Notation suml := (cts_suml X0 ev ev_true ev_and ev_imp).
  Definition good (fs : list pf) : Prop := forall f, In f fs -> ct (fst f) /\ ct (snd f).
  Definition atl (x : X) (L : list (list pf)) : list (list (R * R)) := map (at2 x) L.
  Lemma opp F : ct F -> ct (fun x => - F x).
  Proof. intros H. apply (ext (fun x => -1 * F x)); [intros; ring|now apply scal]. Qed.
  Lemma at2_fst x fs : map fst (at2 x fs) = map (fun f : pf => fst f x) fs.
  Proof. unfold at2. now rewrite map_map. Qed.
  Lemma at2_snd x fs : map snd (at2 x fs) = map (fun f : pf => snd f x) fs.
  Proof. unfold at2. now rewrite map_map. Qed.

  (** *** Straight lines through points *)
  Variable polyfit : list R -> list R -> nat -> res (list R).
  Hypothesis PF : polyfit_oracle polyfit.
  Lemma fit_line fs : good fs -> distinct_values 2 (map fst (at2 X0 fs)) ->
    exists A B, ct A /\ ct B /\ ev (fun x => polyfit (map fst (at2 x fs)) (map snd (at2 x fs)) 1%nat = Ok [A x; B x]).
  Proof.
    intros G D.
    assert (Cm : forall k, ct (fun x => mo k (at2 x fs))).
    { intros k. apply (ext (fun x => Rsum (map (fun f => fst f x ^ k) fs))); [intros x; unfold mo, at2; now rewrite map_map|]. apply (suml (fun f x => fst f x ^ k)). intros f Hf. apply (cts_pow X0 ev ev_imp). now apply G. }
    assert (Ct : forall k, ct (fun x => tm k (at2 x fs))).
    { intros k. apply (ext (fun x => Rsum (map (fun f => fst f x ^ k * snd f x) fs))); [intros x; unfold tm, at2; now rewrite map_map|]. apply (suml (fun f x => fst f x ^ k * snd f x)). intros f Hf. apply (mul (fun x => fst f x ^ k)); [apply (cts_pow X0 ev ev_imp)|]; now apply G. }
    assert (CD : ct (fun x => D1 (at2 x fs))) by (unfold D1; apply (sub (fun x => mo 2 (at2 x fs) * mo 0 (at2 x fs))); [apply (mul (fun x => mo 2 (at2 x fs)))|apply (mul (fun x => mo 1 (at2 x fs)))]; apply Cm).
    assert (N0 : D1 (at2 X0 fs) <> 0) by (now apply D1_nonzero).
    exists (fun x => fst (line1 (at2 x fs))), (fun x => snd (line1 (at2 x fs))). unfold line1 at 1 2. cbn [fst snd].
    split; [|split].
    - apply (cts_div X0 ev ev_and ev_imp (fun x => tm 1 (at2 x fs) * mo 0 (at2 x fs) - tm 0 (at2 x fs) * mo 1 (at2 x fs)) (fun x => D1 (at2 x fs))); [|exact CD|exact N0].
      apply (sub (fun x => tm 1 (at2 x fs) * mo 0 (at2 x fs))); [apply (mul (fun x => tm 1 (at2 x fs)))|apply (mul (fun x => tm 0 (at2 x fs)))]; auto.
    - apply (cts_div X0 ev ev_and ev_imp (fun x => mo 2 (at2 x fs) * tm 0 (at2 x fs) - mo 1 (at2 x fs) * tm 1 (at2 x fs)) (fun x => D1 (at2 x fs))); [|exact CD|exact N0].
      apply (sub (fun x => mo 2 (at2 x fs) * tm 0 (at2 x fs))); [apply (mul (fun x => mo 2 (at2 x fs)))|apply (mul (fun x => mo 1 (at2 x fs)))]; auto.
    - eapply ev_imp; [|exact (cts_sgn X0 ev ev_imp _ CD N0)]. intros x [Nx _].
      destruct (PF (map fst (at2 x fs)) (map snd (at2 x fs)) 1%nat) as [v [E P]]; [|unfold at2; now rewrite !map_length|].
      + apply distinct_values_ne in D. destruct fs; [now contradiction D|discriminate].
      + rewrite E. f_equal. pose proof (proj1 P) as Lv. destruct v as [|a [|b [|]]]; try discriminate Lv. pose proof (solve1 _ _ _ P Nx) as Q. now rewrite <- Q.
  Qed.
  Definition swp (fs : list pf) : list pf := map (fun f => (snd f, fst f)) fs.
  Lemma swp_at x fs : map fst (at2 x (swp fs)) = map snd (at2 x fs) /\ map snd (at2 x (swp fs)) = map fst (at2 x fs).
  Proof. unfold swp, at2. rewrite !map_map. split; reflexivity. Qed.
  Lemma swp_good fs : good fs -> good (swp fs).
  Proof. intros G f Hf. unfold swp in Hf. apply in_map_iff in Hf. destruct Hf as [g [<- Hg]]. cbn [fst snd]. destruct (G g Hg). tauto. Qed.
  Lemma at2_ne (x : X) (fs : list pf) : fs <> [] -> at2 x fs <> [].
  Proof. destruct fs; [congruence|discriminate]. Qed.
  Lemma coefs_hor L : (forall fs, In fs L -> good fs /\ distinct_values 2 (map pxc (at2 X0 fs))) ->
    exists C, good C /\ length C = length L /\ ev (fun x => Forall2 (line_hor (fun x => x) polyfit) (atl x L) (at2 x C)).
  Proof.
    induction L as [|fs L IH]; intros H.
    - exists []. split; [intros ? []|]. split; [reflexivity|]. eapply ev_imp; [|exact ev_true]. intros x _. constructor.
    - destruct IH as [C (G & Lc & E)]; [intros; apply H; now right|]. destruct (H fs ltac:(now left)) as [Gf Df].
      destruct (fit_line (swp fs) (swp_good fs Gf)) as [A [B (CA & CB & EF)]]; [rewrite (proj1 (swp_at X0 fs)); exact Df|].
      exists ((A, B) :: C). split; [intros f [<-|Hf]; [split; assumption|now apply G]|]. split; [cbn [length]; now rewrite Lc|].
      eapply ev_imp; [|exact (ev_and _ _ EF E)]. intros x [E1 E2]. unfold atl, at2 at 2. cbn [map]. constructor; [|exact E2]. cbn [fst snd].
      split; [apply at2_ne; intros ->; now apply distinct_values_ne in Df|]. exists (A x), (B x). split; [|reflexivity]. destruct (swp_at x fs) as [S1 S2]. rewrite S1, S2 in E1. exact E1.
  Qed.
  Lemma coefs_ver L : (forall fs, In fs L -> good fs /\ distinct_values 2 (map py (at2 X0 fs))) ->
    exists C, good C /\ length C = length L /\ ev (fun x => Forall2 (line_ver (fun x => x) polyfit) (atl x L) (at2 x C)).
  Proof.
    induction L as [|fs L IH]; intros H.
    - exists []. split; [intros ? []|]. split; [reflexivity|]. eapply ev_imp; [|exact ev_true]. intros x _. constructor.
    - destruct IH as [C (G & Lc & E)]; [intros; apply H; now right|]. destruct (H fs ltac:(now left)) as [Gf Df].
      destruct (fit_line fs Gf Df) as [A [B (CA & CB & EF)]].
      exists ((A, B) :: C). split; [intros f [<-|Hf]; [split; assumption|now apply G]|]. split; [cbn [length]; now rewrite Lc|].
      eapply ev_imp; [|exact (ev_and _ _ EF E)]. intros x [E1 E2]. unfold atl, at2 at 2. cbn [map]. constructor; [|exact E2]. cbn [fst snd].
      split; [apply at2_ne; intros ->; now apply distinct_values_ne in Df|]. exists (A x), (B x). split; [exact E1|reflexivity].
  Qed.

  (** *** Crossings *)
  Definition cr (c d : pf) : pf :=
    ((fun x => (fst c x * snd d x + snd c x) / (1 - fst c x * fst d x)), (fun x => fst d x * ((fst c x * snd d x + snd c x) / (1 - fst c x * fst d x)) + snd d x)).
  Lemma cr_ct c d : ct (fst c) -> ct (snd c) -> ct (fst d) -> ct (snd d) -> fst c X0 * fst d X0 <> 1 -> ct (fst (cr c d)) /\ ct (snd (cr c d)).
  Proof.
    intros C1 C2 D1 D2 N. assert (Y : ct (fst (cr c d))).
    { cbn [cr fst]. apply (cts_div X0 ev ev_and ev_imp (fun x => fst c x * snd d x + snd c x) (fun x => 1 - fst c x * fst d x)); [apply (add (fun x => fst c x * snd d x)); [now apply mul|exact C2]|apply (sub (fun _ => 1)); [apply const|now apply mul]|lra]. }
    split; [exact Y|]. cbn [cr snd]. apply (add (fun x => fst d x * fst (cr c d) x)); [now apply mul|exact D2].
  Qed.
  Definition grid_of (C D : list pf) : list (list pf) := map (fun c => map (fun d => cr c d) D) C.
  Definition grid_tr (C D : list pf) : list (list pf) := map (fun d => map (fun c => cr c d) C) D.
  Lemma grid_at C D x : @regenerate_from_coef R Rexact (at2 x C) (at2 x D) = (atl x (grid_of C D), atl x (grid_tr C D)).
  Proof.
    unfold regenerate_from_coef, cross_grid, grid_of, grid_tr, atl, at2. rewrite !map_map. apply f_equal2; apply map_ext; intros c; rewrite !map_map; apply map_ext; intros d; reflexivity.
  Qed.
  Lemma regrid LH LV : (forall fs, In fs LH -> good fs /\ distinct_values 2 (map pxc (at2 X0 fs))) -> (forall fs, In fs LV -> good fs /\ distinct_values 2 (map py (at2 X0 fs))) ->
    (forall ch cv, Forall2 (line_hor (fun x => x) polyfit) (atl X0 LH) ch -> Forall2 (line_ver (fun x => x) polyfit) (atl X0 LV) cv -> forall c d, In c ch -> In d cv -> fst c * fst d <> 1) ->
    exists G G', length G = length LH /\ length G' = length LV /\ (forall fs, In fs G -> good fs) /\ (forall fs, In fs G' -> good fs) /\
      ev (fun x => @regenerate_grid_points_linear R Rexact polyfit (atl x LH) (atl x LV) = Ok (atl x G, atl x G')).
  Proof.
    intros Hh Hv N. destruct (coefs_hor LH Hh) as [C (GC & LC & EC)]. destruct (coefs_ver LV Hv) as [D (GD & LD & ED)].
    specialize (N _ _ (ev_base _ EC) (ev_base _ ED)).
    assert (Q : forall c d, In c C -> In d D -> ct (fst (cr c d)) /\ ct (snd (cr c d))).
    { intros c d Hc Hd. destruct (GC c Hc), (GD d Hd). apply cr_ct; auto. apply (N (fst c X0, snd c X0) (fst d X0, snd d X0)); [apply (in_map (fun f : pf => (fst f X0, snd f X0)) _ _ Hc)|apply (in_map (fun f : pf => (fst f X0, snd f X0)) _ _ Hd)]. }
    exists (grid_of C D), (grid_tr C D). split; [unfold grid_of; now rewrite map_length|]. split; [unfold grid_tr; now rewrite map_length|]. split; [|split].
    - intros fs Hf. apply in_map_iff in Hf. destruct Hf as [c [<- Hc]]. intros f Hf. apply in_map_iff in Hf. destruct Hf as [d [<- Hd]]. now apply Q.
    - intros fs Hf. apply in_map_iff in Hf. destruct Hf as [d [<- Hd]]. intros f Hf. apply in_map_iff in Hf. destruct Hf as [c [<- Hc]]. now apply Q.
    - eapply ev_imp; [|exact (ev_and _ _ EC ED)]. intros x [E1 E2]. unfold regenerate_grid_points_linear. pose proof (generate_linear_lines (fun x => x) polyfit _ _ _ _ E1 E2 : @generate_linear_coef R Rexact polyfit _ _ = _) as Q0. unfold pt in Q0. rewrite Q0. cbn [bind fst snd]. now rewrite grid_at.
  Qed.

  (** *** The common slope *)
  Lemma slope_near C D : good C -> good D -> distinct_values 2 (map snd (at2 X0 C)) -> distinct_values 2 (map snd (at2 X0 D)) ->
    (forall ah bh av bv, polyfit (map snd (at2 X0 C)) (map fst (at2 X0 C)) 1%nat = Ok [ah; bh] -> polyfit (map snd (at2 X0 D)) (map (fun c => - fst c) (at2 X0 D)) 1%nat = Ok [av; bv] -> Rabs (ah - av) <> 1 / 10000) ->
    exists A, ct A /\ ev (fun x => forall a, common_slope polyfit (at2 x C) (at2 x D) a -> a = A x).
  Proof.
    intros GC GD DC DD N.
    destruct (fit_line (swp C) (swp_good C GC)) as [ah [bh (C1 & C2 & E1)]]; [rewrite (proj1 (swp_at X0 C)); exact DC|].
    set (ng := map (fun f : pf => (snd f, fun x => - fst f x)) D).
    assert (Nat_ : forall x, map fst (at2 x ng) = map snd (at2 x D) /\ map snd (at2 x ng) = map (fun c => - fst c) (at2 x D)) by (intros x; unfold ng, at2; rewrite !map_map; split; reflexivity).
    destruct (fit_line ng) as [av [bv (C3 & C4 & E2)]].
    { intros f Hf. unfold ng in Hf. apply in_map_iff in Hf. destruct Hf as [g [<- Hg]]. cbn [fst snd]. destruct (GD g Hg). split; [assumption|now apply opp]. }
    { rewrite (proj1 (Nat_ X0)). exact DD. }
    assert (E1' : ev (fun x => polyfit (map snd (at2 x C)) (map fst (at2 x C)) 1%nat = Ok [ah x; bh x])) by (eapply ev_imp; [|exact E1]; intros x Q; cbv beta in Q; destruct (swp_at x C) as [S1 S2]; rewrite S1, S2 in Q; exact Q).
    assert (E2' : ev (fun x => polyfit (map snd (at2 x D)) (map (fun c => - fst c) (at2 x D)) 1%nat = Ok [av x; bv x])) by (eapply ev_imp; [|exact E2]; intros x Q; cbv beta in Q; destruct (Nat_ x) as [S1 S2]; rewrite S1, S2 in Q; exact Q).
    specialize (N _ _ _ _ (ev_base _ E1') (ev_base _ E2')).
    assert (Ca : ct (fun x => Rabs (ah x - av x))) by (apply (cts_abs X0 ev ev_imp (fun x => ah x - av x)); now apply sub).
    destruct (Rdichotomy _ _ N) as [Lt|Gt].
    - exists (fun x => (bh x + bv x) / 2). split; [apply (ext (fun x => / 2 * (bh x + bv x))); [intros; field|]; apply scal; now apply add|].
      assert (E3 : ev (fun x => - (1 / 10000) < - Rabs (ah x - av x))) by (apply (cts_near X0 ev ev_imp (fun x => - Rabs (ah x - av x))); [now apply opp|lra]).
      eapply ev_imp; [|exact (ev_and _ _ (ev_and _ _ E1' E2') E3)]. intros x [[Q1 Q2] Q3] a [ah' [bh' [av' [bv' (P1 & P2 & P3 & P4)]]]]. rewrite Q1 in P1. rewrite Q2 in P2. injection P1 as <- <-. injection P2 as <- <-. apply P4. lra.
    - exists (fun x => (ah x * bv x - av x * bh x) / (ah x - av x)). split.
      + apply (cts_div X0 ev ev_and ev_imp (fun x => ah x * bv x - av x * bh x) (fun x => ah x - av x)); [apply (sub (fun x => ah x * bv x)); now apply mul|now apply sub|]. intros Z. rewrite Z, Rabs_R0 in Gt. lra.
      + assert (E3 : ev (fun x => 1 / 10000 < Rabs (ah x - av x))) by (apply (cts_near X0 ev ev_imp (fun x => Rabs (ah x - av x))); [exact Ca|lra]).
        eapply ev_imp; [|exact (ev_and _ _ (ev_and _ _ E1' E2') E3)]. intros x [[Q1 Q2] Q3] a [ah' [bh' [av' [bv' (P1 & P2 & P3 & P4)]]]]. rewrite Q1 in P1. rewrite Q2 in P2. injection P1 as <- <-. injection P2 as <- <-.
        destruct (P3 ltac:(lra)) as [t [T1 T2]]. assert (Nz : ah x - av x <> 0) by (intros Z; rewrite Z, Rabs_R0 in Q3; lra).
        apply (Rmult_eq_reg_r (ah x - av x)); [|exact Nz]. unfold Rdiv. rewrite Rmult_assoc, Rinv_l, Rmult_1_r by exact Nz.
        replace (a * (ah x - av x)) with (ah x * a - av x * a) by ring. rewrite T2 at 1. rewrite T1. ring.
  Qed.

  (** *** Distances *)
  Lemma ranked_fun k l v v' : ranked k l v -> ranked k l v' -> v = v'.
  Proof.
    intros K K'. assert (Q : Rabs (v - v') <= 0); [|pose proof (Rabs_pos (v - v')); destruct (Req_dec (v - v') 0) as [Z|Z]; [lra|pose proof (Rabs_pos_lt _ Z); lra]].
    apply (ranked_lipschitz (fun x => x) (fun x => x) k l); [now rewrite map_id|now rewrite map_id|]. intros p _. rewrite Rminus_eq_0, Rabs_R0. lra.
  Qed.
  Lemma nth_ranked k s l : Permutation s l -> StronglySorted Rle s -> (k < length l)%nat -> ranked k l (nth k s 0).
  Proof. intros P S K. exists s. split; [exact P|]. split; [exact S|]. apply nth_error_nth'. now rewrite (Permutation_length P). Qed.
  Definition rk (k : nat) (hs : list (X -> R)) (x : X) : R := nth k (rsort (at_ x hs)) 0.
  Lemma rk_ranked k hs x : (k < length hs)%nat -> ranked k (at_ x hs) (rk k hs x).
  Proof. intros K. destruct (rsort_ok (at_ x hs)). apply nth_ranked; auto. unfold at_. now rewrite map_length. Qed.
  Lemma rk_ct k hs : (k < length hs)%nat -> (forall h, In h hs -> ct h) -> ct (rk k hs).
  Proof.
    intros K H e He. eapply ev_imp; [|exact (ev_list ev ev_true ev_and ev_imp (fun h x => Rabs (h x - h X0) <= e) hs (fun h Hh => H h Hh e He))].
    intros x Q. apply (ranked_lipschitz (fun h : X -> R => h x) (fun h => h X0) k hs); [now apply rk_ranked|now apply rk_ranked|exact Q].
  Qed.
  Lemma distance_near (scale : @scale_opt R) hs : (forall h, In h hs -> ct h) -> exists D, ct D /\ forall x d, distance_for scale (at_ x hs) d -> d = D x.
  Proof.
    intros H. destruct hs as [|h0 hs0]; [exists (fun _ => 0); split; [apply const|intros x d [N _]; now destruct N]|]. set (hs := h0 :: hs0) in *.
    assert (Ln : (0 < length hs)%nat) by (cbn; lia). clearbody hs. clear h0 hs0.
    assert (Lx : forall x, length (at_ x hs) = length hs) by (intros; unfold at_; now rewrite map_length).
    assert (Av : ct (fun x => average (at_ x hs))).
    { apply (ext (fun x => / INR (length hs) * Rsum (map (fun h => h x) hs))); [intros x; unfold average; rewrite Lx; unfold at_, Rdiv; ring|]. apply scal. apply (suml (fun h x => h x)). exact H. }
    destruct scale as [| | | |s].
    - exists (fun x => average (at_ x hs)). split; [exact Av|]. intros x d [_ E]. exact E.
    - exists (fun x => if Nat.even (length hs) then / 2 * (rk (Nat.div2 (length hs) - 1) hs x + rk (Nat.div2 (length hs)) hs x) else rk (Nat.div2 (length hs)) hs x). split.
      + destruct (Nat.even (length hs)) eqn:Ev; [apply scal; apply (add (rk _ hs)); apply rk_ct|apply rk_ct]; auto; pose proof (Nat.div2_decr (length hs) (length hs - 1) ltac:(lia)); try lia.
      + intros x d [_ [s (P & St & k & Hk)]]. rewrite Lx in Hk. destruct Hk as [[Ek ->]|[Ek ->]].
        * replace (Nat.even (length hs)) with false by (rewrite Ek, Nat.add_1_r; symmetry; rewrite Nat.even_succ, Nat.odd_mul; reflexivity).
          replace (Nat.div2 (length hs)) with k by (rewrite Ek, Nat.add_1_r; symmetry; apply Nat.div2_succ_double).
          apply (ranked_fun k (at_ x hs)); [apply nth_ranked; auto; rewrite Lx; lia|apply rk_ranked; lia].
        * assert (Ek' : (length hs = 2 * S k)%nat) by lia. assert (E1 : Nat.even (length hs) = true) by (rewrite Ek', Nat.even_mul; reflexivity). rewrite E1.
          assert (E2 : Nat.div2 (length hs) = S k) by (rewrite Ek'; apply Nat.div2_double). rewrite E2.
          replace (S k - 1)%nat with k by lia.
          rewrite (ranked_fun k (at_ x hs) (nth k s 0) (rk k hs x)), (ranked_fun (S k) (at_ x hs) (nth (S k) s 0) (rk (S k) hs x)); [field| | | |]; try (apply nth_ranked; auto; rewrite Lx; lia); apply rk_ranked; lia.
    - exists (rk 0 hs). split; [now apply rk_ct|]. intros x d [_ [I L]]. destruct (rsort_ok (at_ x hs)) as [P S]. unfold rk. apply Rle_antisym.
      + apply L. apply (Permutation_in _ P). apply nth_In. rewrite rsort_len, Lx. lia.
      + apply (Permutation_in _ (Permutation_sym P)) in I. destruct (In_nth _ _ 0 I) as [j [Hj <-]]. apply sorted_nth; [exact S|lia|exact Hj].
    - exists (rk (length hs - 1) hs). split; [apply rk_ct; auto; lia|]. intros x d [_ [I L]]. destruct (rsort_ok (at_ x hs)) as [P S]. unfold rk. apply Rle_antisym.
      + apply (Permutation_in _ (Permutation_sym P)) in I. destruct (In_nth _ _ 0 I) as [j [Hj <-]]. rewrite rsort_len, Lx in Hj. apply sorted_nth; [exact S|lia|rewrite rsort_len, Lx; lia].
      + apply L. apply (Permutation_in _ P). apply nth_In. rewrite rsort_len, Lx. lia.
    - exists (fun x => s * average (at_ x hs)). split; [now apply scal|]. intros x d [_ E]. exact E.
  Qed.
  Lemma square_sum {A} (u v : A -> R) l t : Rsum (map (fun i => (u i * t + v i) ^ 2) l) = Rsum (map (fun i => u i ^ 2) l) * t ^ 2 + Rsum (map (fun i => 2 * u i * v i) l) * t + Rsum (map (fun i => v i ^ 2) l).
  Proof. induction l as [|a l IH]; cbn [map]; [unfold Rsum; cbn; ring|]. change (Rsum (?a :: ?l)) with (a + Rsum l). rewrite IH. ring. Qed.
  Variable minimize : (R -> R) -> R -> R.
  Hypothesis MO : minimize_oracle minimize.
  Lemma at_nth k (x : X) (fs : list (X -> R)) : nth k (at_ x fs) 0 = nth k fs (fun _ => 0) x.
  Proof. unfold at_. change 0 with ((fun f : X -> R => f x) (fun _ => 0)) at 1. apply map_nth. Qed.
  Lemma nth_ct k fs : (forall f, In f fs -> ct f) -> ct (nth k fs (fun _ => 0)).
  Proof. intros H. destruct (nth_in_or_default k fs (fun _ => 0)) as [I| ->]; [now apply H|apply const]. Qed.
  Lemma optimised_near fs : (2 <= length fs)%nat -> (forall f, In f fs -> ct f) ->
    exists D, ct D /\ forall x d, (forall t, progression_error (at_ x fs) d <= progression_error (at_ x fs) t) -> d = D x.
  Proof.
    intros L H. set (p := Nat.div2 (length fs)). set (u := fun i => INR i - INR p). set (v := fun (i : nat) x => nth p fs (fun _ => 0) x - nth i fs (fun _ => 0) x).
    set (A := Rsum (map (fun i => u i ^ 2) (seq 0 (length fs)))).
    assert (HA : 0 < A).
    { unfold A. destruct (length fs) as [|m] eqn:E; [lia|]. cbn [seq map]. change (Rsum (?a :: ?l)) with (a + Rsum l).
      assert (0 <= Rsum (map (fun i => u i ^ 2) (seq 1 m))) by (apply Rsum_nonneg; intros y Hy; apply in_map_iff in Hy; destruct Hy as [i [<- _]]; apply pow2_ge_0).
      assert (0 < u 0%nat ^ 2); [|lra]. rewrite <- Rsqr_pow2. apply Rsqr_pos_lt. unfold u. rewrite Rminus_0_l. apply Ropp_neq_0_compat, not_0_INR. unfold p. destruct m as [|m]; [lia|]. cbn. lia. }
    set (B := fun x => Rsum (map (fun i => 2 * u i * v i x) (seq 0 (length fs)))).
    assert (CB : ct B).
    { apply (suml (fun i x => 2 * u i * v i x)). intros i _. apply scal. unfold v. apply (sub (nth p fs (fun _ => 0))); now apply nth_ct. }
    exists (fun x => - (/ (2 * A)) * B x). split; [now apply scal|]. intros x d Hd.
    assert (Q : forall t, progression_error (at_ x fs) t = A * t ^ 2 + B x * t + Rsum (map (fun i => v i x ^ 2) (seq 0 (length fs)))).
    { intros t. unfold A, B. rewrite <- (square_sum u (fun i => v i x)). unfold progression_error, middle. replace (length (at_ x fs)) with (length fs) by (unfold at_; now rewrite map_length). f_equal. apply map_ext. intros i. rewrite !at_nth. unfold u, v. fold p. ring. }
    specialize (Hd (- (/ (2 * A)) * B x)). rewrite !Q in Hd. set (w := - / (2 * A) * B x) in *. assert (W : B x = - 2 * A * w) by (unfold w; field; lra). rewrite W in Hd.
    assert (S : A * (d - w) ^ 2 <= 0) by nra. assert (Z : (d - w) ^ 2 = 0).
    { pose proof (pow2_ge_0 (d - w)). destruct (Rle_lt_or_eq_dec _ _ H0) as [Hl|He]; [|now symmetry]. pose proof (Rmult_lt_0_compat _ _ HA Hl). lra. }
    assert (d - w = 0); [|lra]. apply Rsqr_0_uniq. unfold Rsqr. lra.
  Qed.
  Lemma around_at k n x (fs : list (X -> R)) : around k n (at_ x fs) = at_ x (around k n fs).
  Proof. unfold around, at_. now rewrite firstn_map, skipn_map. Qed.
  Lemma step_near (scale : @scale_opt R) (opt : bool) n fs : (2 <= length fs)%nat -> (forall f, In f fs -> ct f) ->
    exists D, ct D /\ forall x d, line_step minimize scale opt n (at_ x fs) d -> d = D x.
  Proof.
    intros L H. destruct opt.
    - destruct (optimised_near fs L H) as [D [CD Q]]. exists D. split; [exact CD|]. intros x d S. apply Q. apply (optimised_min minimize scale n); auto. unfold at_. now rewrite map_length.
    - destruct (gaps_funs X0 ev ev_and ev_imp (around (Nat.div2 (length fs)) n fs)) as [hs [Hh Eh]].
      { intros h Hh. apply H. unfold around in Hh. rewrite <- (firstn_skipn (Nat.div2 (length fs) + n + 1) fs). apply in_app_iff. left. rewrite <- (firstn_skipn (Nat.div2 (length fs) - n)). apply in_app_iff. now right. }
      destruct (distance_near scale hs Hh) as [D [CD Q]]. exists D. split; [exact CD|]. intros x d [d0 (S1 & S2 & _)]. rewrite (S2 eq_refl). apply Q.
      replace (length (at_ x fs)) with (length fs) in S1 by (unfold at_; now rewrite map_length). rewrite around_at, Eh in S1. exact S1.
  Qed.
  Lemma common_near (scale : @scale_opt R) D E : ct D -> ct E -> ct (fun x => common_step scale (D x) (E x)).
  Proof.
    intros HD HE. assert (M : ct (fun x => / 2 * (D x + E x))) by (apply scal; now apply add).
    assert (G : ct (fun x => / 2 * Rabs (D x - E x))) by (apply scal, (cts_abs X0 ev ev_imp (fun x => D x - E x)); now apply sub).
    destruct scale; cbn [common_step].
    1, 2, 5: apply (ext (fun x => / 2 * (D x + E x))); [intros; field|exact M].
    - apply (ext (fun x => / 2 * (D x + E x) - / 2 * Rabs (D x - E x))); [|now apply (sub (fun x => / 2 * (D x + E x)))]. intros x. unfold Rmin. destruct (Rle_dec (D x) (E x)); [rewrite Rabs_left1 by lra|rewrite Rabs_right by lra]; field.
    - apply (ext (fun x => / 2 * (D x + E x) + / 2 * Rabs (D x - E x))); [|now apply (add (fun x => / 2 * (D x + E x)))]. intros x. unfold Rmax. destruct (Rle_dec (D x) (E x)); [rewrite Rabs_left1 by lra|rewrite Rabs_right by lra]; field.
  Qed.

  (** *** Targets *)
  Lemma cr_on c d x : fst c x * fst d x <> 1 -> on_hor (fst c x, snd c x) (fst (cr c d) x, snd (cr c d) x) /\ on_ver (fst d x, snd d x) (fst (cr c d) x, snd (cr c d) x).
  Proof. intros N. unfold on_hor, on_ver, py, pxc. cbn [cr fst snd]. split; [field; lra|reflexivity]. Qed.
  Lemma Forall2_fun {A B} (P : A -> B -> Prop) l m m' : (forall a b b', P a b -> P a b' -> b = b') -> Forall2 P l m -> Forall2 P l m' -> m = m'.
  Proof. intros U F. revert m'. induction F as [|a b l m H F IH]; intros m' F'; inversion F'; subst; [reflexivity|]. f_equal; [now apply (U a)|now apply IH]. Qed.
  Lemma targets_near G G' (equal : bool) (scale : @scale_opt R) (opt : bool) : (2 <= length G)%nat -> (2 <= length G')%nat -> (forall fs, In fs G -> good fs) -> (forall fs, In fs G' -> good fs) ->
    (forall l, In l (atl X0 G) -> distinct_values 2 (map pxc l)) -> (forall l, In l (atl X0 G') -> distinct_values 2 (map py l)) ->
    (forall ch cv, Forall2 (line_hor (fun x => x) polyfit) (atl X0 G) ch -> Forall2 (line_ver (fun x => x) polyfit) (atl X0 G') cv ->
      distinct_values 2 (map snd ch) /\ distinct_values 2 (map snd cv) /\
      forall ah bh av bv, polyfit (map snd ch) (map fst ch) 1%nat = Ok [ah; bh] -> polyfit (map snd cv) (map (fun c => - fst c) cv) 1%nat = Ok [av; bv] -> Rabs (ah - av) <> 1 / 10000) ->
    exists T, (forall fs, In fs T -> good fs) /\ ev (fun x => exists gv, @generate_undistorted_perspective_lines R Rexact polyfit minimize (atl x G) (atl x G') equal scale opt = Ok (atl x T, gv)).
  Proof.
    intros L1 L2 GG GG' DG DG' N.
    destruct (coefs_hor G) as [C (GC & LC & EC)]; [intros fs Hf; split; [now apply GG|apply DG; unfold atl; now apply in_map]|].
    destruct (coefs_ver G') as [D (GD & LD & ED)]; [intros fs Hf; split; [now apply GG'|apply DG'; unfold atl; now apply in_map]|].
    destruct (N _ _ (ev_base _ EC) (ev_base _ ED)) as (N1 & N2 & N3).
    destruct (slope_near C D GC GD N1 N2 N3) as [A [CA EA]].
    set (sC := map (@snd (X -> R) (X -> R)) C). set (sD := map (@snd (X -> R) (X -> R)) D).
    assert (SC : forall x, map snd (at2 x C) = at_ x sC) by (intros; unfold at2, at_, sC; rewrite !map_map; reflexivity).
    assert (SD : forall x, map snd (at2 x D) = at_ x sD) by (intros; unfold at2, at_, sD; rewrite !map_map; reflexivity).
    assert (HC : forall f, In f sC -> ct f) by (intros f Hf; apply in_map_iff in Hf; destruct Hf as [c [<- Hc]]; now apply GC).
    assert (HD : forall f, In f sD -> ct f) by (intros f Hf; apply in_map_iff in Hf; destruct Hf as [c [<- Hc]]; now apply GD).
    assert (LsC : length sC = length G) by (unfold sC; now rewrite map_length). assert (LsD : length sD = length G') by (unfold sD; now rewrite map_length).
    destruct (step_near scale opt (PersSpec.used (length G) (length G')) sC ltac:(lia) HC) as [SH [CSH QSH]].
    destruct (step_near scale opt (PersSpec.used (length G) (length G')) sD ltac:(lia) HD) as [SV [CSV QSV]].
    set (DH := fun x => if equal then common_step scale (SH x) (SV x) else SH x). set (DV := fun x => if equal then common_step scale (SH x) (SV x) else SV x).
    assert (CDH : ct DH) by (unfold DH; destruct equal; [now apply common_near|exact CSH]). assert (CDV : ct DV) by (unfold DV; destruct equal; [now apply common_near|exact CSV]).
    set (MH := nth (Nat.div2 (length G)) sC (fun _ => 0)). set (MV := nth (Nat.div2 (length G')) sD (fun _ => 0)).
    assert (CMH : ct MH) by now apply nth_ct. assert (CMV : ct MV) by now apply nth_ct.
    set (lnh := fun i : nat => (A, fun x => (INR i - INR (Nat.div2 (length G))) * DH x + MH x) : pf).
    set (lnv := fun j : nat => (fun x => - A x, fun x => (INR j - INR (Nat.div2 (length G'))) * DV x + MV x) : pf).
    assert (Np : forall x i j, fst (lnh i) x * fst (lnv j) x <> 1) by (intros x i j; cbn [lnh lnv fst]; pose proof (Rle_0_sqr (A x)) as Q; unfold Rsqr in Q; nra).
    exists (map (fun i => map (fun j => cr (lnh i) (lnv j)) (seq 0 (length G'))) (seq 0 (length G))). split.
    - intros fs Hf. apply in_map_iff in Hf. destruct Hf as [i [<- _]]. intros f Hf. apply in_map_iff in Hf. destruct Hf as [j [<- _]].
      apply cr_ct; [exact CA| | | |apply Np]; cbn [lnh lnv fst snd]; [|now apply opp|]; (apply add; [now apply scal|assumption]).
    - eapply ev_imp; [|exact (ev_and _ _ (ev_and _ _ EC ED) EA)]. intros x [[FC FD] QA].
      assert (La : length (atl x G) = length G) by (unfold atl; now rewrite map_length). assert (La' : length (atl x G') = length G') by (unfold atl; now rewrite map_length).
      destruct (C33_total polyfit minimize (atl x G) (atl x G') equal scale opt PF) as [[gh gv] E]; [lia|lia| |].
      { intros l Hl. apply in_app_iff in Hl. destruct Hl as [Hl|Hl]; [destruct (Forall2_in_l _ _ _ l FC Hl) as [c [_ [Q _]]]|destruct (Forall2_in_l _ _ _ l FD Hl) as [c [_ [Q _]]]]; exact Q. }
      exists gv. unfold NF2 in *. rewrite E. f_equal. f_equal.
      destruct (undistorted_lines_ok polyfit minimize (atl x G) (atl x G') equal scale opt gh gv ltac:(lia) ltac:(lia) E) as [(T1 & T2 & _) [a [ch [cv [sh [sv [dh [dv (F1 & F2 & S & S1 & S2 & E1 & E2 & P)]]]]]]]].
      rewrite La, La' in *.
      assert (ch = at2 x C) by (apply (Forall2_fun _ _ _ _ (fun l c c' => line_hor_fun polyfit (fun x => x) l c c') F1 FC)). subst ch.
      assert (cv = at2 x D) by (apply (Forall2_fun _ _ _ _ (fun l c c' => line_ver_fun polyfit (fun x => x) l c c') F2 FD)). subst cv.
      pose proof (QA a S). subst a. rewrite SC in S1, P. rewrite SD in S2, P. apply QSH in S1. apply QSV in S2. subst sh sv.
      assert (dh = DH x) by (rewrite E1; reflexivity). assert (dv = DV x) by (rewrite E2; reflexivity). clear E1 E2. subst dh dv.
      unfold middle in P. replace (length (at_ x sC)) with (length G) in P by (unfold at_; now rewrite map_length). replace (length (at_ x sD)) with (length G') in P by (unfold at_; now rewrite map_length). rewrite !at_nth in P. fold MH MV in P.
      apply (nth_ext _ _ [] []); [unfold atl; rewrite !map_length, seq_length; exact T1|]. intros i Hi. rewrite T1 in Hi.
      assert (Er : nth i (atl x (map (fun i => map (fun j => cr (lnh i) (lnv j)) (seq 0 (length G'))) (seq 0 (length G)))) [] = map (fun j => (fst (cr (lnh i) (lnv j)) x, snd (cr (lnh i) (lnv j)) x)) (seq 0 (length G'))).
      { unfold atl. rewrite map_map. rewrite (nth_indep _ _ (at2 x (map (fun j => cr (lnh 0%nat) (lnv j)) (seq 0 (length G'))))) by (now rewrite map_length, seq_length).
        rewrite (map_nth (fun i => at2 x (map (fun j => cr (lnh i) (lnv j)) (seq 0 (length G'))))), seq_nth by exact Hi. unfold at2. now rewrite map_map. }
      rewrite Er. assert (Lr : length (nth i gh []) = length G') by (apply T2, nth_In; unfold pt in *; lia).
      apply (nth_ext _ _ (0, 0) (0, 0)); [rewrite map_length, seq_length; exact Lr|]. intros j Hj. rewrite Lr in Hj.
      rewrite (nth_indep (map _ _) (0, 0) ((fun j => (fst (cr (lnh i) (lnv j)) x, snd (cr (lnh i) (lnv j)) x)) 0%nat)) by (now rewrite map_length, seq_length).
      rewrite (map_nth (fun j => (fst (cr (lnh i) (lnv j)) x, snd (cr (lnh i) (lnv j)) x))), seq_nth by exact Hj. cbn [Nat.add].
      destruct (P i j Hi Hj) as [P1 P2]. destruct (cr_on (lnh i) (lnv j) x (Np x i j)) as [O1 O2].
      exact (cross_unique (fst (lnh i) x, snd (lnh i) x) (fst (lnv j) x, snd (lnv j) x) _ _ (Np x i j) P1 P2 O1 O2).
  Qed.

  (** *** All together *)
  Lemma points_near LH LV (equal : bool) (scale : @scale_opt R) (opt : bool) : (forall fs, In fs LH -> good fs) -> (forall fs, In fs LV -> good fs) -> clear_grid polyfit (atl X0 LH) (atl X0 LV) ->
    exists src tgt, good src /\ good tgt /\
      ev (fun x => @generate_source_target_perspective_points R Rexact polyfit minimize (atl x LH) (atl x LV) equal scale opt = Ok (at2 x src, at2 x tgt)).
  Proof.
    intros GH GV (L1 & L2 & D1 & D2 & N & gh & gv & E & D3 & D4 & K). unfold atl in L1, L2. rewrite map_length in L1, L2.
    destruct (regrid LH LV) as [G [G' (LG & LG' & GG & GG' & EG)]].
    - intros fs Hf. split; [now apply GH|]. apply D1. unfold atl. now apply in_map.
    - intros fs Hf. split; [now apply GV|]. apply D2. unfold atl. now apply in_map.
    - exact N.
    - pose proof (ev_base _ EG) as E0. cbv beta in E0. rewrite E in E0. injection E0 as -> ->.
      destruct (targets_near G G' equal scale opt ltac:(lia) ltac:(lia) GG GG' D3 D4 K) as [T [GT ET]].
      exists (concat G), (concat T). split; [|split].
      + intros f Hf. apply in_concat in Hf. destruct Hf as [fs [H1 H2]]. now apply (GG fs).
      + intros f Hf. apply in_concat in Hf. destruct Hf as [fs [H1 H2]]. now apply (GT fs).
      + eapply ev_imp; [|exact (ev_and _ _ EG ET)]. intros x [Q1 [g Q2]]. unfold generate_source_target_perspective_points. rewrite Q1. cbn [bind fst snd]. rewrite Q2. cbn [bind fst snd]. unfold atl, at2. now rewrite !concat_map.
  Qed.
  Lemma good_shifted fs e : 0 < e -> good fs -> ev (fun x => shifted e (at2 X0 fs) (at2 x fs)).
  Proof.
    intros He G. induction fs as [|f fs IH]; [eapply ev_imp; [|exact ev_true]; intros x _; apply Forall2_nil|].
    destruct (G f ltac:(now left)) as [A B]. specialize (IH ltac:(intros g Hg; apply G; now right)).
    eapply ev_imp; [|exact (ev_and _ _ (ev_and _ _ (A e He) (B e He)) IH)]. intros x [[P Q] F]. unfold at2. cbn [map]. apply Forall2_cons; [|exact F]. unfold py, pxc. cbn [fst snd]. tauto.
  Qed.
End Track.

(** The dots as functions of the measurement. *)
Section Dots.
  Variables (lh lv : list (list (R * R))).
  Notation X := (list (list (R * R)) * list (list (R * R)))%type.
  Notation ev := (Props_Steady.ev lh lv).
  Definition dots (side : X -> list (list (R * R))) : list (list ((X -> R) * (X -> R))) :=
    map (fun k => map (fun i => ((fun x => py (nth i (nth k (side x) []) (0, 0))), (fun x => pxc (nth i (nth k (side x) []) (0, 0))))) (seq 0 (length (nth k (side (lh, lv)) [])))) (seq 0 (length (side (lh, lv)))).
  Lemma dots_good side : side = fst \/ side = snd -> forall fs, In fs (dots side) -> good (lh, lv) ev fs.
  Proof.
    intros Hs fs Hf. apply in_map_iff in Hf. destruct Hf as [k [<- _]]. intros f Hf. apply in_map_iff in Hf. destruct Hf as [i [<- _]]. cbn [fst snd]. split; apply (ct_coord lh lv); auto.
  Qed.
  Lemma dots_at side (x : X) : length (side x) = length (side (lh, lv)) -> (forall k, (k < length (side (lh, lv)))%nat -> length (nth k (side x) []) = length (nth k (side (lh, lv)) [])) -> atl x (dots side) = side x.
  Proof.
    intros L H. assert (I : forall A (d : A) l, l = map (fun i => nth i l d) (seq 0 (length l))) by (intros A d l; rewrite <- (map_id l) at 1; exact (by_index (fun a => a) d l)).
    transitivity (map (fun i => nth i (side x) []) (seq 0 (length (side x)))); [rewrite L|now rewrite <- I]. unfold atl, dots. rewrite map_map. apply map_ext_in. intros k Hk. apply in_seq in Hk. cbv beta.
    transitivity (map (fun i => nth i (nth k (side x) []) (0, 0)) (seq 0 (length (nth k (side x) [])))); [rewrite H by lia|now rewrite <- I]. unfold at2. rewrite map_map. apply map_ext. intros i. cbn [fst snd]. unfold py, pxc. now destruct (nth i (nth k (side x) []) (0, 0)).
  Qed.
  Lemma dots_ev side : side = fst \/ side = snd -> ev (fun x => atl x (dots side) = side x).
  Proof.
    intros Hs.
    assert (E1 : ev (fun x => length (side x) = length (side (lh, lv)))) by (eapply ev_imp; [|apply ev_count]; intros x [A B]; destruct Hs as [->| ->]; [exact A|exact B]).
    assert (E2 : ev (fun x => forall k, In k (seq 0 (length (side (lh, lv)))) -> length (nth k (side x) []) = length (nth k (side (lh, lv)) []))).
    { apply (ev_list ev (ev_true lh lv) (ev_and lh lv) (ev_imp lh lv) (fun k x => length (nth k (side x) []) = length (nth k (side (lh, lv)) []))). intros k _. now apply (ev_len lh lv). }
    eapply ev_imp; [|exact (ev_and _ _ _ _ E1 E2)]. intros x [A B]. apply dots_at; [exact A|]. intros k Hk. apply B, in_seq. lia.
  Qed.
End Dots.

(** The source and target points depend continuously on the dots. *)
Theorem C138_targets : forall polyfit minimize lh lv equal scale opt, polyfit_oracle polyfit -> minimize_oracle minimize -> clear_grid polyfit lh lv ->
  exists src tgt, @generate_source_target_perspective_points R Rexact polyfit minimize lh lv equal scale opt = Ok (src, tgt) /\
  forall e, 0 < e -> exists d, 0 < d /\ forall lh' lv', moved d lh lh' -> moved d lv lv' ->
    exists src' tgt', @generate_source_target_perspective_points R Rexact polyfit minimize lh' lv' equal scale opt = Ok (src', tgt') /\ shifted e src src' /\ shifted e tgt tgt'.
Proof.
  intros polyfit minimize lh lv equal scale opt PF MO K.
  pose proof (dots_ev lh lv fst (or_introl eq_refl)) as E1. pose proof (dots_ev lh lv snd (or_intror eq_refl)) as E2.
  pose proof (ev_base lh lv _ E1) as B1. pose proof (ev_base lh lv _ E2) as B2. cbv beta in B1, B2.
  destruct (points_near (lh, lv) (ev lh lv) (ev_true lh lv) (ev_and lh lv) (ev_imp lh lv) (ev_base lh lv) polyfit PF minimize MO (dots lh lv fst) (dots lh lv snd) equal scale opt) as [src [tgt (G1 & G2 & E)]].
  - apply dots_good. now left.
  - apply dots_good. now right.
  - rewrite B1, B2. exact K.
  - exists (at2 (lh, lv) src), (at2 (lh, lv) tgt). split; [pose proof (ev_base lh lv _ E) as Q; cbv beta in Q; rewrite B1, B2 in Q; exact Q|].
    intros e He.
    pose proof (good_shifted (lh, lv) (ev lh lv) (ev_true lh lv) (ev_and lh lv) (ev_imp lh lv) src e He G1) as S1.
    pose proof (good_shifted (lh, lv) (ev lh lv) (ev_true lh lv) (ev_and lh lv) (ev_imp lh lv) tgt e He G2) as S2.
    destruct (ev_and lh lv _ _ (ev_and lh lv _ _ (ev_and lh lv _ _ E1 E2) E) (ev_and lh lv _ _ S1 S2)) as [d [Hd H]].
    exists d. split; [exact Hd|]. intros lh' lv' A1 A2. destruct (H (lh', lv') A1 A2) as [[[Q1 Q2] Q3] [Q4 Q5]]. rewrite Q1, Q2 in Q3. cbn [fst snd] in Q3.
    exists (at2 (lh', lv') src), (at2 (lh', lv') tgt). tauto.
Qed.
Print Assumptions C138_targets.
Lemma point_counts polyfit minimize lh lv equal scale opt src tgt : (2 <= length lh)%nat -> (2 <= length lv)%nat ->
  @generate_source_target_perspective_points R Rexact polyfit minimize lh lv equal scale opt = Ok (src, tgt) -> src <> [] /\ length src = length tgt.
Proof.
  intros L1 L2. unfold generate_source_target_perspective_points, regenerate_grid_points_linear.
  destruct (@generate_linear_coef R Rexact polyfit lh lv) as [[ch cv]|] eqn:E; [|discriminate]. apply (generate_linear_ok (fun x => x)) in E. destruct E as [Fh Fv]. cbn [bind fst snd].
  pose proof (Forall2_length _ _ _ Fh) as Lh. pose proof (Forall2_length _ _ _ Fv) as Lv.
  set (g := @regenerate_from_coef R Rexact ch cv).
  assert (G1 : length (fst g) = length lh) by (unfold g, regenerate_from_coef, cross_grid; cbn [fst snd]; rewrite map_length; symmetry; exact Lh).
  assert (G2 : length (snd g) = length lv) by (unfold g, regenerate_from_coef, cross_grid; cbn [fst snd]; rewrite map_length; symmetry; exact Lv).
  assert (G3 : forall r, In r (fst g) -> length r = length lv) by (intros r Hr; unfold g, regenerate_from_coef, cross_grid in Hr; cbn [fst snd] in Hr; apply in_map_iff in Hr; destruct Hr as [c [<- _]]; rewrite map_length; symmetry; exact Lv).
  clearbody g. destruct g as [gh gv]. cbn [fst snd] in *.
  destruct (@generate_undistorted_perspective_lines R Rexact polyfit minimize gh gv equal scale opt) as [[th tv]|] eqn:E; [|discriminate]. cbn [bind fst snd]. intros Q. injection Q as <- <-.
  destruct (undistorted_lines_ok polyfit minimize gh gv equal scale opt th tv) as [(T1 & T2 & _) _]; [unfold pt in *; lia|unfold pt in *; lia|exact E|].
  pose proof (length_concat_eq _ gh G3) as C1. pose proof (length_concat_eq _ th T2) as C2. unfold pt in *. rewrite C1, C2, T1, G1, G2. split; [|reflexivity].
  intros Z. apply (f_equal (@length _)) in Z. rewrite C1, G1 in Z. cbn [length] in Z. apply Nat.mul_eq_0 in Z. lia.
Qed.
(** From the dots to the coefficients and to the positions they correct. *)
Theorem C138_from_dots : forall polyfit minimize lstsq lh lv equal scale opt (forward : bool) src tgt r a, polyfit_oracle polyfit -> minimize_oracle minimize -> lstsq_oracle lstsq ->
  clear_grid polyfit lh lv -> @generate_source_target_perspective_points R Rexact polyfit minimize lh lv equal scale opt = Ok (src, tgt) ->
  (if forward then determined src tgt else determined tgt src) -> 0 <= r -> 0 < a ->
  exists c, @calc_perspective_coefficients R Rexact lstsq src tgt forward = Ok c /\
  forall e, 0 < e -> exists d, 0 < d /\ forall lh' lv', moved d lh lh' -> moved d lv lv' ->
    exists src' tgt' c', @generate_source_target_perspective_points R Rexact polyfit minimize lh' lv' equal scale opt = Ok (src', tgt') /\
    @calc_perspective_coefficients R Rexact lstsq src' tgt' forward = Ok c' /\ Forall2 (fun x y => Rabs (y - x) <= e) c c' /\
    forall lines, Forall (Forall (fun p => Rabs (py p) <= r /\ Rabs (pxc p) <= r /\ a <= Rabs (den (proj_map c) p))) lines ->
    exists out out', @correct_perspective_line R Rex lines c = Ok out /\ @correct_perspective_line R Rex lines c' = Ok out' /\ moved e out out'.
Proof.
  intros polyfit minimize lstsq lh lv equal scale opt fw src tgt r a PF MO LS K E U Hr Ha.
  destruct (point_counts polyfit minimize lh lv equal scale opt src tgt (proj1 K) (proj1 (proj2 K)) E) as [Hne L].
  destruct (C138_coefficients lstsq src tgt fw LS Hne L U) as [c [Ec Hc]]. exists c. split; [exact Ec|]. intros e He.
  destruct (C138_corrected lstsq src tgt fw r a LS Hne L U Hr Ha) as [c1 [Ec1 Hc1]]. rewrite Ec in Ec1. injection Ec1 as <-.
  destruct (Hc e He) as [d1 [Hd1 H1]]. destruct (Hc1 e He) as [d2 [Hd2 H2]].
  destruct (C138_targets polyfit minimize lh lv equal scale opt PF MO K) as [s [t [E' Ht]]]. rewrite E in E'. injection E' as <- <-.
  destruct (Ht (Rmin d1 d2) ltac:(now apply Rmin_glb_lt)) as [d [Hd H]]. exists d. split; [exact Hd|]. intros lh' lv' A1 A2. destruct (H lh' lv' A1 A2) as [src' [tgt' (Q & S1 & S2)]].
  assert (Sl : forall e e' x y, e <= e' -> shifted e x y -> shifted e' x y) by (intros e0 e1 x y Le F; eapply Forall2_imp_r; [|exact F]; cbv beta; intros p q [P1 P2]; split; lra).
  destruct (H1 src' tgt') as [c' [Ec' F]]; [eapply Sl; [apply Rmin_l|exact S1]|eapply Sl; [apply Rmin_l|exact S2]|].
  destruct (H2 src' tgt') as [c'' [Ec'' G]]; [eapply Sl; [apply Rmin_r|exact S1]|eapply Sl; [apply Rmin_r|exact S2]|]. rewrite Ec' in Ec''. injection Ec'' as <-.
  exists src', tgt', c'. tauto.
Qed.
Print Assumptions C138_from_dots.
(** The tilted grid of C113: its dots are clear and leave one best map. *)
Example C138_dots_ex : let lh := [[(0, 2); (0, 0); (0, 1)]; [(1, 3 / 2); (1, 0)]] in let lv := [[(0, 0); (1, 0)]; [(1, 3 / 2); (0, 2)]] in
  let src := [(0, 0); (0, 2); (1, 0); (1, 3 / 2)] in let tgt := [(0, 0); (0, 2); (1, 0); (1, 2)] in
  clear_grid pf_R lh lv /\ @generate_source_target_perspective_points R Rexact pf_R min_R lh lv false ScMean false = Ok (src, tgt) /\ determined src tgt.
Proof.
  intros lh lv src tgt. destruct C113_case as (_ & _ & _ & E & _). fold lh lv src tgt in E. split; [|split; [exact E|]].
  2: { apply (C138_determined src tgt [1; 0; 0; 0; 3 / 4; 0; 0; - (1 / 4)] (0, 0) (0, 2) (1, 0) (1, 3 / 2) (0, 0) (0, 2) (1, 0) (1, 2)).
    - reflexivity.
    - intros p q Hp. cbn [src tgt combine In] in Hp. repeat destruct Hp as [Hp|Hp]; try contradiction; apply pair_equal_spec in Hp; destruct Hp as [<- <-];
        unfold sends, proj, den, proj_map, py, pxc; cbn; (split; [reflexivity|split; [lra|apply pair_equal_spec; split; field]]).
    - cbn; tauto.
    - cbn; tauto.
    - cbn; tauto.
    - cbn; tauto.
    - unfold general_position, triangle, area, py, pxc. cbn. repeat apply conj; lra.
    - unfold triangle, area, py, pxc. cbn. lra. }
  assert (D2 : forall x y : R, x <> y -> forall l, In x l -> In y l -> distinct_values 2 l).
  { intros x y Hxy l Hx Hy. exists [x; y]. split; [apply NoDup_cons; [cbn [In]; intuition|apply NoDup_cons; [cbn [In]; intuition|apply NoDup_nil]]|]. split; [cbn; intuition (subst; assumption)|cbn; lia]. }
  set (gh := [[(0, 0); (0, 2)]; [(1, 0); (1, 3 / 2)]]). set (gv := [[(0, 0); (1, 0)]; [(0, 2); (1, 3 / 2)]]).
  assert (H1 : Forall2 (line_hor (fun x => x) pf_R) lh [(0, 0); (0, 1)]).
  { unfold lh; apply Forall2_cons; [|apply Forall2_cons; [|apply Forall2_nil]]; (apply (line_hor_exact (fun x => x)); [exact pf_R_ok| |]);
      try (intros p Hp; cbn [In] in Hp; repeat destruct Hp as [<-|Hp]; try contradiction; unfold on_hor, py, pxc; cbn; lra).
    - apply (D2 0 1); [lra|cbn; tauto|cbn; tauto].
    - apply (D2 0 (3 / 2)); [lra|cbn; tauto|cbn; tauto]. }
  assert (H2 : Forall2 (line_ver (fun x => x) pf_R) lv [(0, 0); (- (1 / 2), 2)]).
  { unfold lv; apply Forall2_cons; [|apply Forall2_cons; [|apply Forall2_nil]]; (apply (line_ver_exact (fun x => x)); [exact pf_R_ok|apply (D2 0 1); [lra|cbn; tauto|cbn; tauto]|]);
      intros p Hp; cbn [In] in Hp; repeat destruct Hp as [<-|Hp]; try contradiction; unfold on_ver, py, pxc; cbn; lra. }
  assert (H3 : Forall2 (line_hor (fun x => x) pf_R) gh [(0, 0); (0, 1)]).
  { unfold gh; apply Forall2_cons; [|apply Forall2_cons; [|apply Forall2_nil]]; (apply (line_hor_exact (fun x => x)); [exact pf_R_ok| |]);
      try (intros p Hp; cbn [In] in Hp; repeat destruct Hp as [<-|Hp]; try contradiction; unfold on_hor, py, pxc; cbn; lra).
    - apply (D2 0 2); [lra|cbn; tauto|cbn; tauto].
    - apply (D2 0 (3 / 2)); [lra|cbn; tauto|cbn; tauto]. }
  assert (H4 : Forall2 (line_ver (fun x => x) pf_R) gv [(0, 0); (- (1 / 2), 2)]).
  { unfold gv; apply Forall2_cons; [|apply Forall2_cons; [|apply Forall2_nil]]; (apply (line_ver_exact (fun x => x)); [exact pf_R_ok|apply (D2 0 1); [lra|cbn; tauto|cbn; tauto]|]);
      intros p Hp; cbn [In] in Hp; repeat destruct Hp as [<-|Hp]; try contradiction; unfold on_ver, py, pxc; cbn; lra. }
  assert (G : @generate_linear_coef R Rexact pf_R lh lv = Ok ([(0, 0); (0, 1)], [(0, 0); (- (1 / 2), 2)])) by exact (generate_linear_lines (fun x => x) pf_R lh lv _ _ H1 H2).
  assert (K : @regenerate_from_coef R Rexact [(0, 0); (0, 1)] [(0, 0); (- (1 / 2), 2)] = (gh, gv)).
  { unfold regenerate_from_coef, cross_grid, cross_yx, find_cross_point_between_lines, gh, gv. cbn.
    repeat (match goal with |- (_, _) = (_, _) => apply pair_equal_spec; split | |- _ :: _ = _ :: _ => apply f_equal2 end); try reflexivity; try field; try lra. }
  assert (Uh : forall l c, Forall2 (line_hor (fun x => x) pf_R) l c -> forall c', Forall2 (line_hor (fun x => x) pf_R) l c' -> c' = c) by (intros l c F c' F'; exact (Forall2_fun _ _ _ _ (fun l c c' => line_hor_fun pf_R (fun x => x) l c c') F' F)).
  assert (Uv : forall l c, Forall2 (line_ver (fun x => x) pf_R) l c -> forall c', Forall2 (line_ver (fun x => x) pf_R) l c' -> c' = c) by (intros l c F c' F'; exact (Forall2_fun _ _ _ _ (fun l c c' => line_ver_fun pf_R (fun x => x) l c c') F' F)).
  split; [cbn; lia|]. split; [cbn; lia|]. split; [|split; [|split; [|exists gh, gv; split; [|split; [|split]]]]].
  - intros l [<-|[<-|[]]]; [apply (D2 0 1)|apply (D2 0 (3 / 2))]; cbn; try lra; tauto.
  - intros l [<-|[<-|[]]]; apply (D2 0 1); cbn; try lra; tauto.
  - intros ch cv F F' c d Hc Hd. rewrite (Uh _ _ H1 _ F) in Hc. rewrite (Uv _ _ H2 _ F') in Hd. destruct Hc as [<-|[<-|[]]], Hd as [<-|[<-|[]]]; cbn [fst]; lra.
  - unfold regenerate_grid_points_linear. rewrite G. cbn [bind fst snd]. now rewrite K.
  - intros l [<-|[<-|[]]]; [apply (D2 0 2)|apply (D2 0 (3 / 2))]; cbn; try lra; tauto.
  - intros l [<-|[<-|[]]]; apply (D2 0 1); cbn; try lra; tauto.
  - intros ch cv F F'. rewrite (Uh _ _ H3 _ F), (Uv _ _ H4 _ F'). cbn [map fst snd]. split; [apply (D2 0 1); cbn; try lra; tauto|]. split; [apply (D2 0 2); cbn; try lra; tauto|].
    intros ah bh av bv E1 E2.
    pose proof (@ProcFacts.fit1_exact pf_R pf_R_ok (R * R) snd fst [(0, 0); (0, 1)] 0 0) as F1.
    pose proof (@ProcFacts.fit1_exact pf_R pf_R_ok (R * R) fst snd [(0, - 0); (2, - - (1 / 2))] (1 / 4) 0) as F2.
    cbn [map fst snd] in F1, F2.
    specialize (F1 ltac:(apply (D2 0 1); [lra|cbn; intuition|cbn; intuition]) ltac:(intros p Hp; cbn [In] in Hp; repeat destruct Hp as [<-|Hp]; try contradiction; cbn; lra)).
    specialize (F2 ltac:(apply (D2 0 2); [lra|cbn; intuition|cbn; intuition]) ltac:(intros p Hp; cbn [In] in Hp; repeat destruct Hp as [<-|Hp]; try contradiction; cbn; lra)).
    apply ProcFacts2.fit1_ok in F1. apply ProcFacts2.fit1_ok in F2. cbn [fst snd] in F1, F2. rewrite F1 in E1. rewrite F2 in E2. injection E1 as <- <-. injection E2 as <- <-.
    rewrite Rabs_left by lra. lra.
Qed.

(** At a difference of exactly 1/10000 the targets do jump. *)
Definition tilt_hor (t : R) : list (list (R * R)) := [[(0, 0); (0, 1)]; [(1, - (1)); (1, - t)]].
Definition tilt_ver (t : R) : list (list (R * R)) := [[(0, 0); (1, - (1))]; [(0, 1); (1, - t)]].
Lemma two_values x y l : x <> y -> In x l -> In y l -> distinct_values 2 l.
Proof. intros N Hx Hy. exists [x; y]. split; [apply NoDup_cons; [cbn [In]; intuition|apply NoDup_cons; [cbn [In]; intuition|apply NoDup_nil]]|]. split; [cbn; intuition (subst; assumption)|cbn; lia]. Qed.
Lemma tilt_lines polyfit t : polyfit_oracle polyfit -> 0 < t < 1 ->
  Forall2 (line_hor (fun x => x) polyfit) (tilt_hor t) [(0, 0); (0, 1)] /\ Forall2 (line_ver (fun x => x) polyfit) (tilt_ver t) [(- (1), 0); (- (1 + t), 1)] /\
  @regenerate_grid_points_linear R Rexact polyfit (tilt_hor t) (tilt_ver t) = Ok (tilt_hor t, tilt_ver t) /\
  polyfit [0; 1] [0; 0] 1%nat = Ok [0; 0] /\ polyfit [0; 1] [- - (1); - - (1 + t)] 1%nat = Ok [t; 1].
Proof.
  intros PF Ht.
  assert (H1 : Forall2 (line_hor (fun x => x) polyfit) (tilt_hor t) [(0, 0); (0, 1)]).
  { unfold tilt_hor; apply Forall2_cons; [|apply Forall2_cons; [|apply Forall2_nil]]; (apply (line_hor_exact (fun x => x)); [exact PF| |]);
      try (intros p Hp; cbn [In] in Hp; repeat destruct Hp as [<-|Hp]; try contradiction; unfold on_hor, py, pxc; cbn; lra).
    - apply (two_values 0 1); [lra|cbn; tauto|cbn; tauto].
    - apply (two_values (- (1)) (- t)); [lra|cbn; tauto|cbn; tauto]. }
  assert (H2 : Forall2 (line_ver (fun x => x) polyfit) (tilt_ver t) [(- (1), 0); (- (1 + t), 1)]).
  { unfold tilt_ver; apply Forall2_cons; [|apply Forall2_cons; [|apply Forall2_nil]]; (apply (line_ver_exact (fun x => x)); [exact PF|apply (two_values 0 1); [lra|cbn; tauto|cbn; tauto]|]);
      intros p Hp; cbn [In] in Hp; repeat destruct Hp as [<-|Hp]; try contradiction; unfold on_ver, py, pxc; cbn; lra. }
  split; [exact H1|]. split; [exact H2|]. split.
  - assert (G : @generate_linear_coef R Rexact polyfit (tilt_hor t) (tilt_ver t) = Ok ([(0, 0); (0, 1)], [(- (1), 0); (- (1 + t), 1)])) by exact (generate_linear_lines (fun x => x) polyfit _ _ _ _ H1 H2).
    unfold regenerate_grid_points_linear. rewrite G. cbn [bind fst snd]. f_equal.
    unfold regenerate_from_coef, cross_grid, cross_yx, find_cross_point_between_lines, tilt_hor, tilt_ver. cbn.
    repeat (match goal with |- (_, _) = (_, _) => apply pair_equal_spec; split | |- _ :: _ = _ :: _ => apply f_equal2 end); try reflexivity; try field; try lra.
  - pose proof (@ProcFacts.fit1_exact polyfit PF (R * R) fst snd [(0, 0); (1, 0)] 0 0) as F1.
    pose proof (@ProcFacts.fit1_exact polyfit PF (R * R) fst snd [(0, - - (1)); (1, - - (1 + t))] t 1) as F2.
    cbn [map fst snd] in F1, F2.
    specialize (F1 ltac:(apply (two_values 0 1); [lra|cbn; intuition|cbn; intuition]) ltac:(intros p Hp; cbn [In] in Hp; repeat destruct Hp as [<-|Hp]; try contradiction; cbn; lra)).
    specialize (F2 ltac:(apply (two_values 0 1); [lra|cbn; intuition|cbn; intuition]) ltac:(intros p Hp; cbn [In] in Hp; repeat destruct Hp as [<-|Hp]; try contradiction; cbn; lra)).
    apply ProcFacts2.fit1_ok in F1. apply ProcFacts2.fit1_ok in F2. cbn [fst snd] in F1, F2. split; [exact F1|exact F2].
Qed.
Lemma tilt_targets polyfit minimize t : polyfit_oracle polyfit -> 0 < t < 1 ->
  exists tgt, @generate_source_target_perspective_points R Rexact polyfit minimize (tilt_hor t) (tilt_ver t) false ScMean false = Ok (concat (tilt_hor t), tgt) /\ length tgt = 4%nat /\
  (1 / 10000 <= t -> nth 1 tgt (0, 0) = (0, 1)) /\ (t < 1 / 10000 -> nth 1 tgt (0, 0) = (2 / 5, 4 / 5)).
Proof.
  intros PF Ht. destruct (tilt_lines polyfit t PF Ht) as (H1 & H2 & G & F1 & F2).
  destruct (C33_total polyfit minimize (tilt_hor t) (tilt_ver t) false ScMean false PF) as [[uh uv] U]; [cbn; lia|cbn; lia| |].
  { intros l Hl. cbn in Hl. intuition (subst; discriminate). }
  destruct (undistorted_lines_ok polyfit minimize (tilt_hor t) (tilt_ver t) false ScMean false uh uv ltac:(cbn; lia) ltac:(cbn; lia) U) as [(L1 & L2 & _) [a [ch [cv [sh [sv [dh [dv (E1 & E2 & S & S1 & S2 & D1 & D2 & P)]]]]]]]].
  assert (ch = [(0, 0); (0, 1)]) by (apply (Forall2_fun _ _ _ _ (fun l c c' => line_hor_fun polyfit (fun x => x) l c c') E1 H1)). subst ch.
  assert (cv = [(- (1), 0); (- (1 + t), 1)]) by (apply (Forall2_fun _ _ _ _ (fun l c c' => line_ver_fun polyfit (fun x => x) l c c') E2 H2)). subst cv.
  exists (concat uh). split; [unfold generate_source_target_perspective_points; rewrite G; cbn [bind fst snd]; unfold pt in *; rewrite U; reflexivity|].
  split; [pose proof (length_concat_eq _ uh L2) as C; unfold pt in *; rewrite C, L1; reflexivity|].
  assert (N1 : nth 1 (concat uh) (0, 0) = PersSpec.at_ uh 0 1).
  { unfold PersSpec.at_. destruct uh as [|r0 uh]; [discriminate L1|]. assert (A0 := L2 r0 ltac:(now left)). destruct r0 as [|a0 [|a1 r0]]; try discriminate A0. reflexivity. }
  rewrite N1. destruct (P 0%nat 1%nat ltac:(cbn; lia) ltac:(cbn; lia)) as [P1 P2]. destruct (PersSpec.at_ uh 0 1) as [y x].
  destruct S1 as [d1 [[_ M1] [S1 _]]]. destruct S2 as [d2 [[_ M2] [S2 _]]].
  assert (Av : average (gaps (around (Nat.div2 2) (PersSpec.used 2 2) [0; 1])) = 1) by (unfold average, PersSpec.used, around, gaps; cbn; rewrite Rabs_right by lra; field).
  cbn [map snd length] in M1, M2. change (length (tilt_hor t)) with 2%nat in *. change (length (tilt_ver t)) with 2%nat in *. rewrite Av in M1, M2. specialize (S1 eq_refl). specialize (S2 eq_refl). subst d1 d2. subst sh sv dh dv.
  unfold middle, on_hor, on_ver, py, pxc in P1, P2. cbn [map fst snd length Nat.div2 nth INR] in P1, P2.
  destruct S as [ah [bh [av [bv (Q1 & Q2 & A1 & A2)]]]]. cbn [map fst snd] in Q1, Q2. rewrite F1 in Q1. rewrite F2 in Q2. injection Q1 as <- <-. injection Q2 as <- <-.
  assert (Ab : Rabs (0 - t) = t) by (rewrite Rabs_left; lra). rewrite Ab in A1, A2.
  split; intros T.
  - destruct (A1 T) as [z [Z _]]. assert (a = 0) by lra. subst a. apply pair_equal_spec. split; lra.
  - pose proof (A2 T) as Z. assert (a = 1 / 2) by lra. subst a. apply pair_equal_spec. split; lra.
Qed.
Theorem C138_threshold : forall polyfit minimize, polyfit_oracle polyfit ->
  let lh := tilt_hor (1 / 10000) in let lv := tilt_ver (1 / 10000) in
  exists src tgt, @generate_source_target_perspective_points R Rexact polyfit minimize lh lv false ScMean false = Ok (src, tgt) /\
  forall d, 0 < d -> exists lh' lv' src' tgt', moved d lh lh' /\ moved d lv lv' /\
    @generate_source_target_perspective_points R Rexact polyfit minimize lh' lv' false ScMean false = Ok (src', tgt') /\ ~ shifted (1 / 3) tgt tgt'.
Proof.
  intros polyfit minimize PF lh lv. destruct (tilt_targets polyfit minimize (1 / 10000) PF ltac:(lra)) as [tgt (E & L & N & _)]. exists (concat lh), tgt. split; [exact E|]. intros d Hd.
  set (t := 1 / 10000 - Rmin d (1 / 20000)).
  assert (Ht : 0 < t < 1 / 10000 /\ 1 / 10000 - t <= d).
  { unfold t. pose proof (Rmin_l d (1 / 20000)). pose proof (Rmin_r d (1 / 20000)). assert (0 < Rmin d (1 / 20000)) by (apply Rmin_glb_lt; lra). lra. }
  clearbody t. destruct Ht as [Ht Hd'].
  destruct (tilt_targets polyfit minimize t PF ltac:(lra)) as [tgt' (E' & L' & _ & N')]. exists (tilt_hor t), (tilt_ver t), (concat (tilt_hor t)), tgt'.
  assert (Q : forall p, Rabs (p - p) <= d) by (intros p; rewrite Rminus_eq_0, Rabs_R0; lra).
  assert (Q' : Rabs (- t - - (1 / 10000)) <= d) by (rewrite Rabs_right; lra).
  split; [|split; [|split; [exact E'|]]].
  - unfold moved, lh, tilt_hor. repeat (apply Forall2_cons || apply Forall2_nil); unfold py, pxc; cbn [fst snd]; split; auto.
  - unfold moved, lv, tilt_ver. repeat (apply Forall2_cons || apply Forall2_nil); unfold py, pxc; cbn [fst snd]; split; auto.
  - intros F. specialize (N ltac:(lra)). specialize (N' ltac:(lra)).
    destruct tgt as [|p0 [|p1 tgt]]; try discriminate L. destruct tgt' as [|q0 [|q1 tgt']]; try discriminate L'. cbn [nth] in N, N'. subst p1 q1.
    inversion F as [|? ? ? ? _ F1]; subst. inversion F1 as [|? ? ? ? [C _] _]; subst. unfold py in C. cbn [fst snd] in C. rewrite Rabs_right in C; lra.
Qed.
Print Assumptions C138_threshold.
(** All the other conditions hold there. *)
Example C138_threshold_ex : let lh := tilt_hor (1 / 10000) in let lv := tilt_ver (1 / 10000) in
  Forall2 (line_hor (fun x => x) pf_R) lh [(0, 0); (0, 1)] /\ Forall2 (line_ver (fun x => x) pf_R) lv [(- (1), 0); (- (1 + 1 / 10000), 1)] /\
  @regenerate_grid_points_linear R Rexact pf_R lh lv = Ok (lh, lv) /\
  (forall l, In l lh -> distinct_values 2 (map pxc l)) /\ (forall l, In l lv -> distinct_values 2 (map py l)).
Proof.
  intros lh lv. destruct (tilt_lines pf_R (1 / 10000) pf_R_ok ltac:(lra)) as (H1 & H2 & G & _). split; [exact H1|]. split; [exact H2|]. split; [exact G|]. split.
  - intros l [<-|[<-|[]]]; [apply (two_values 0 1)|apply (two_values (- (1)) (- (1 / 10000)))]; cbn; try lra; tauto.
  - intros l [<-|[<-|[]]]; apply (two_values 0 1); cbn; try lra; tauto.
Qed.

(** The regenerated grid depends continuously on the dots. *)
Lemma good_moved {X} (X0 : X) (ev : (X -> Prop) -> Prop) (ev_true : ev (fun _ => True)) (ev_and : forall P Q, ev P -> ev Q -> ev (fun x => P x /\ Q x)) (ev_imp : forall P Q : X -> Prop, (forall x, P x -> Q x) -> ev P -> ev Q) (G : list (list ((X -> R) * (X -> R)))) e :
  0 < e -> (forall fs, In fs G -> good X0 ev fs) -> ev (fun x => moved e (atl X0 G) (atl x G)).
Proof.
  intros He H. induction G as [|fs G IH]; [eapply ev_imp; [|exact ev_true]; intros x _; apply Forall2_nil|].
  specialize (IH ltac:(intros g Hg; apply H; now right)). pose proof (good_shifted X0 ev ev_true ev_and ev_imp fs e He (H fs ltac:(now left))) as S.
  eapply ev_imp; [|exact (ev_and _ _ S IH)]. intros x [A B]. unfold atl, moved. cbn [map]. apply Forall2_cons; [exact A|exact B].
Qed.
Theorem C138_grid : forall polyfit (lh lv : list (list (R * R))), polyfit_oracle polyfit ->
  (forall l, In l lh -> distinct_values 2 (map pxc l)) -> (forall l, In l lv -> distinct_values 2 (map py l)) ->
  (forall ch cv, Forall2 (line_hor (fun x => x) polyfit) lh ch -> Forall2 (line_ver (fun x => x) polyfit) lv cv -> forall c d, In c ch -> In d cv -> fst c * fst d <> 1) ->
  exists gh gv, @regenerate_grid_points_linear R Rexact polyfit lh lv = Ok (gh, gv) /\
  forall e, 0 < e -> exists d, 0 < d /\ forall lh' lv', moved d lh lh' -> moved d lv lv' ->
    exists gh' gv', @regenerate_grid_points_linear R Rexact polyfit lh' lv' = Ok (gh', gv') /\ moved e gh gh' /\ moved e gv gv'.
Proof.
  intros polyfit lh lv PF D1 D2 N.
  pose proof (dots_ev lh lv fst (or_introl eq_refl)) as E1. pose proof (dots_ev lh lv snd (or_intror eq_refl)) as E2.
  pose proof (ev_base lh lv _ E1) as B1. pose proof (ev_base lh lv _ E2) as B2. cbv beta in B1, B2. cbn [fst snd] in B1, B2.
  destruct (regrid (lh, lv) (ev lh lv) (ev_true lh lv) (ev_and lh lv) (ev_imp lh lv) (ev_base lh lv) polyfit PF (dots lh lv fst) (dots lh lv snd)) as [G [G' (_ & _ & GG & GG' & E)]].
  - intros fs Hf. split; [apply (dots_good lh lv fst); [now left|exact Hf]|]. apply D1. pose proof (in_map (at2 (lh, lv)) _ _ Hf) as I. fold (atl (lh, lv) (dots lh lv fst)) in I. rewrite B1 in I. exact I.
  - intros fs Hf. split; [apply (dots_good lh lv snd); [now right|exact Hf]|]. apply D2. pose proof (in_map (at2 (lh, lv)) _ _ Hf) as I. fold (atl (lh, lv) (dots lh lv snd)) in I. rewrite B2 in I. exact I.
  - rewrite B1, B2. exact N.
  - exists (atl (lh, lv) G), (atl (lh, lv) G'). split; [pose proof (ev_base lh lv _ E) as Q; cbv beta in Q; rewrite B1, B2 in Q; exact Q|]. intros e He.
    pose proof (good_moved (lh, lv) (ev lh lv) (ev_true lh lv) (ev_and lh lv) (ev_imp lh lv) G e He GG) as S1.
    pose proof (good_moved (lh, lv) (ev lh lv) (ev_true lh lv) (ev_and lh lv) (ev_imp lh lv) G' e He GG') as S2.
    destruct (ev_and lh lv _ _ (ev_and lh lv _ _ (ev_and lh lv _ _ E1 E2) E) (ev_and lh lv _ _ S1 S2)) as [d [Hd H]].
    exists d. split; [exact Hd|]. intros lh' lv' A1 A2. destruct (H (lh', lv') A1 A2) as [[[Q1 Q2] Q3] [Q4 Q5]]. rewrite Q1, Q2 in Q3. cbn [fst snd] in Q3.
    exists (atl (lh', lv') G), (atl (lh', lv') G'). tauto.
Qed.
Print Assumptions C138_grid.
(** The hypotheses hold of the tilted grid of C113. *)
Example C138_grid_ex : exists lh lv : list (list (R * R)), (forall l, In l lh -> distinct_values 2 (map pxc l)) /\ (forall l, In l lv -> distinct_values 2 (map py l)) /\ length lh = 2%nat /\ length lv = 2%nat /\
  forall ch cv, Forall2 (line_hor (fun x => x) pf_R) lh ch -> Forall2 (line_ver (fun x => x) pf_R) lv cv -> forall c d, In c ch -> In d cv -> fst c * fst d <> 1.
Proof. destruct C138_dots_ex as [(_ & _ & A & B & C & _) _]. eexists. eexists. split; [exact A|]. split; [exact B|]. split; [reflexivity|]. split; [reflexivity|]. exact C. Qed.
