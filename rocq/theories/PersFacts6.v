(** correct_perspective_effect on ideal grids. *)
From Coq Require Import Reals ZArith List Lra Lia Permutation Sorted.
From Flocq Require Import Core.
From Verif Require Import Base Num NumFacts Spec Lsq ProcSpec PrepSpec Sorting Img PrepImg PrepPts PrepFacts PrepFacts2 PrepImgFacts Post PostPersp PostExtra
  Proc ProcPers ProcFacts ProcFacts2 PersFacts PersFacts2 PersFacts3 PersFacts4 PersFacts5 Props_Proc Props_Pers PersSpec.
Import ListNotations.
Local Open Scope R_scope.

Section Effect.
  Local Instance NW : Num R := Rexact.
  Variable polyfit : list R -> list R -> nat -> res (list R).
  Variable argsort : list R -> list nat.
  Variable lstsq : list (list R) -> list R -> res (list R).
  Hypothesis PF : polyfit_oracle polyfit.
  Hypothesis LS : lstsq_oracle lstsq.
  Hypothesis AS : argsort_spec argsort.
  Lemma nsum_sign (P : R -> Prop) l : (forall a b, P a -> P b -> P (a + b)) -> l <> [] -> (forall a, In a l -> P a) -> P (nsum l).
  Proof.
    intros HP Hne H. unfold nsum. destruct l as [|a l]; [contradiction|].
    assert (G : forall l x, P x -> (forall a, In a l -> P a) -> P (fold_left nadd l x)).
    { clear -HP. induction l as [|b l IH]; intros x Hx Hl; [exact Hx|]. cbn [fold_left]. apply IH; [apply HP; [exact Hx|apply Hl; now left]|]. intros c Hc. apply Hl. now right. }
    cbn [fold_left]. apply G; [|intros b Hb; apply H; now right]. cbn. rewrite Rplus_0_l. apply H. now left.
  Qed.
  (** A representative of lines (a, 0, c) with c on one side of 0. *)
  Lemma representative_side (sel : list (R * R * R)) method s : s = 1 \/ s = -1 -> sel <> [] -> (forall c, In c sel -> cf1 c = 0 /\ 0 < s * cf2 c) ->
    exists r, get_representative_linear_coefs argsort sel method = Ok (0, r) /\ 0 < s * r.
  Proof.
    intros Hs Hne H.
    assert (M1 : map cf1 sel = repeat 0 (length sel)).
    { clear -H. induction sel as [|c sel IH]; [reflexivity|]. cbn. f_equal; [apply H; now left|]. apply IH. intros; apply H; now right. }
    assert (PM : forall a, In a (map cf2 sel) -> 0 < s * a) by (intros a Ha; apply in_map_iff in Ha; destruct Ha as [c [<- Hc]]; now apply H).
    assert (L0 : (0 < length sel)%nat) by (destruct sel; [contradiction|cbn; lia]).
    assert (Ext : forall l, (forall c, In c l -> In c sel) -> l <> [] -> exists c d, pyget l 0 = Ok c /\ pyget l (-1) = Ok d /\ In c sel /\ In d sel).
    { intros l Hl Hn. assert (L : (0 < length l)%nat) by (destruct l; [contradiction|cbn; lia]).
      exists (nth 0 l (0, 0, 0)), (nth (length l - 1) l (0, 0, 0)).
      split; [apply (pyget_nth l 0 (0, 0, 0)); assumption|]. split; [|split; apply Hl, nth_In; lia].
      unfold pyget. cbn [Z.ltb Z.compare]. cbn zeta. replace (-1 + Z.of_nat (length l))%Z with (Z.of_nat (length l - 1)) by lia.
      replace ((Z.of_nat (length l - 1) <? 0) || (Z.of_nat (length l) <=? Z.of_nat (length l - 1)))%Z%bool with false.
      - rewrite Nat2Z.id. rewrite (nth_error_nth' l (0, 0, 0)) by lia. reflexivity.
      - symmetry. apply Bool.orb_false_iff. split; [apply Z.ltb_ge|apply Z.leb_gt]; lia. }
    assert (GP : let g := gather sel (argsort (map cf0 sel)) in (forall c, In c g -> In c sel) /\ g <> []).
    { cbn zeta. destruct (gather_argsort argsort cf0 sel AS) as [P _]. split; [intros c; apply gather_In|]. intros E. rewrite E in P. apply Permutation_nil in P. contradiction. }
    destruct method; cbn [get_representative_linear_coefs].
    - (* mean *) rewrite M1. exists (mean (map cf2 sel)). split.
      + f_equal. f_equal. unfold mean. assert (Z : nsum (repeat 0 (length sel)) = 0).
        { apply (nsum_sign (fun x => x = 0)); [intros; lra|destruct sel; [contradiction|discriminate]|]. intros a Ha. now apply repeat_spec in Ha. }
        rewrite Z. cbn. unfold Rdiv. ring.
      + unfold mean. rewrite map_length. cbn [ndiv nofZ NW Rexact Rst]. rewrite <- INR_IZR_INZ.
        assert (0 < s * nsum (map cf2 sel)) by (apply (nsum_sign (fun x => 0 < s * x)); [intros; lra|destruct sel; [contradiction|discriminate]|exact PM]).
        replace (s * (nsum (map cf2 sel) / INR (length sel))) with (s * nsum (map cf2 sel) * / INR (length sel)) by (unfold Rdiv; ring).
        apply Rmult_lt_0_compat; [assumption|]. apply Rinv_0_lt_compat. now apply lt_0_INR.
    - (* median *)
      assert (MD : forall l : list R, l <> [] -> forall P : R -> Prop, (forall a b, P a -> P b -> P ((a + b) / 2)) -> (forall a, In a l -> P a) -> P (median l)).
      { intros l Hl P HP HI. destruct (median_spec l) as [t [Pt [_ [i Hi]]]]; [assumption|].
        assert (HI' : forall i, (i < length l)%nat -> P (nth i t 0)).
        { intros n Hn. apply HI. apply (Permutation_in _ Pt). apply nth_In. rewrite (Permutation_length Pt). exact Hn. }
        destruct Hi as [[Li E]|[Li E]]; (replace (median l) with (@median R Rex l) by reflexivity); rewrite E; [apply HI'; lia|apply HP; apply HI'; lia]. }
      exists (median (map cf2 sel)). split.
      + f_equal. f_equal. apply (MD (map cf1 sel)); [destruct sel; [contradiction|discriminate]|intros; lra|]. rewrite M1. intros a Ha. now apply repeat_spec in Ha.
      + apply (MD (map cf2 sel)); [destruct sel; [contradiction|discriminate]|intros; lra|exact PM].
    - (* max *) cbn zeta. destruct GP as [GI GN]. cbn zeta in GI, GN. destruct (Ext _ GI GN) as [c [d [E1 [E2 [Ic Id]]]]]. rewrite E1. cbn [bind].
      destruct (nltb n0 (cf0 c)); [rewrite E2|]; cbn [bind]; eexists; (split; [apply f_equal; apply pair_equal_spec; split; [now apply H|reflexivity]|]); now apply H.
    - (* min *) cbn zeta. destruct GP as [GI GN]. cbn zeta in GI, GN. destruct (Ext _ GI GN) as [c [d [E1 [E2 [Ic Id]]]]]. rewrite E1. cbn [bind].
      destruct (nltb n0 (cf0 c)); [|rewrite E2]; cbn [bind]; eexists; (split; [apply f_equal; apply pair_equal_spec; split; [now apply H|reflexivity]|]); now apply H.
  Qed.
End Effect.
Section EffectIdeal.
  Local Instance NW2 : Num R := Rexact.
  Variable polyfit : list R -> list R -> nat -> res (list R).
  Variable argsort : list R -> list nat.
  Variable lstsq : list (list R) -> list R -> res (list R).
  Hypothesis PF : polyfit_oracle polyfit.
  Hypothesis LS : lstsq_oracle lstsq.
  Hypothesis AS : argsort_spec argsort.
  Definition at0 (k w c : R) : R * R * R := (k * (c - w), 0, c - w).
  Lemma ideal_at0 k u w cs : map (ideal_coef k u w u w) cs = map (at0 k w) cs.
  Proof. apply map_ext. intros c. unfold ideal_coef, at0. f_equal; [f_equal|]; ring. Qed.
  (** Representatives of the two groups of lines. *)
  Lemma representatives k w cs method : k <> 0 -> (0 < before w cs)%nat -> (0 < after w cs)%nat ->
    exists s r1 r2, (s = 1 \/ s = -1) /\ 0 < s * k /\
    representative argsort (fun c => nltb n0 (cf0 c)) (map (at0 k w) cs) method = Ok (0, r1) /\
    representative argsort (fun c => nltb (cf0 c) n0) (map (at0 k w) cs) method = Ok (0, r2) /\ 0 < s * r1 /\ 0 < - s * r2.
  Proof.
    intros K B A.
    assert (S : exists s, (s = 1 \/ s = -1) /\ 0 < s * k) by (destruct (Rlt_or_le 0 k); [exists 1|exists (-1)]; (split; [tauto|lra])).
    destruct S as [s [Hs Sk]]. exists s.
    assert (IB : exists c, In c cs /\ c < w).
    { unfold before in B. destruct (filter _ cs) as [|c l] eqn:E; [cbn in B; lia|]. assert (H : In c (c :: l)) by now left. rewrite <- E in H. apply filter_In in H.
      exists c. destruct (Rlt_dec c w); [tauto|destruct H; discriminate]. }
    assert (IA : exists c, In c cs /\ w < c).
    { unfold after in A. destruct (filter _ cs) as [|c l] eqn:E; [cbn in A; lia|]. assert (H : In c (c :: l)) by now left. rewrite <- E in H. apply filter_In in H.
      exists c. destruct (Rlt_dec w c); [tauto|destruct H; discriminate]. }
    destruct IB as [b [Ib Hb]], IA as [a [Ia Ha]].
    destruct (representative_side argsort AS (filter (fun c => nltb n0 (cf0 c)) (map (at0 k w) cs)) method s Hs) as [r1 [E1 P1]].
    { intros E. assert (X : In (at0 k w (if Rlt_dec 0 k then a else b)) (filter (fun c : R * R * R => nltb n0 (cf0 c)) (map (at0 k w) cs))).
      { apply filter_In. split; [apply in_map; now destruct (Rlt_dec 0 k)|]. apply Rlt_bool_true. cbn. destruct (Rlt_dec 0 k); nra. }
      rewrite E in X. destruct X. }
    { intros c Hc. apply filter_In in Hc. destruct Hc as [Hc Hp]. apply in_map_iff in Hc. destruct Hc as [c0 [<- _]]. split; [reflexivity|]. cbn in Hp |- *.
      revert Hp. destruct (Rlt_bool_spec 0 (k * (c0 - w))); [intros _|discriminate]. assert (0 < (s * k) * (k * (c0 - w))) by (apply Rmult_lt_0_compat; assumption). nra. }
    destruct (representative_side argsort AS (filter (fun c => nltb (cf0 c) n0) (map (at0 k w) cs)) method (- s)) as [r2 [E2 P2]].
    { destruct Hs as [->| ->]; [right|left]; ring. }
    { intros E. assert (X : In (at0 k w (if Rlt_dec 0 k then b else a)) (filter (fun c : R * R * R => nltb (cf0 c) n0) (map (at0 k w) cs))).
      { apply filter_In. split; [apply in_map; now destruct (Rlt_dec 0 k)|]. apply Rlt_bool_true. cbn. destruct (Rlt_dec 0 k); nra. }
      rewrite E in X. destruct X. }
    { intros c Hc. apply filter_In in Hc. destruct Hc as [Hc Hp]. apply in_map_iff in Hc. destruct Hc as [c0 [<- _]]. split; [reflexivity|]. cbn in Hp |- *.
      revert Hp. destruct (Rlt_bool_spec (k * (c0 - w)) 0); [intros _|discriminate]. assert (0 < (s * k) * (k * - (c0 - w))) by (apply Rmult_lt_0_compat; nra). nra. }
    exists r1, r2. repeat apply conj; assumption.
  Qed.
  (** A rectangle parallel to the axes. *)
  Lemma axis_rectangle pts scale y1 y2 x1 x2 : y1 < y2 -> x1 < x2 -> Permutation pts [(y1, x1); (y1, x2); (y2, x1); (y2, x2)] -> (forall v, scale = ScVal v -> v = 1) ->
    bind (generate_4_source_target_perspective_points argsort cos atan pts false false scale) (fun st => calc_perspective_coefficients lstsq (fst st) (snd st) true)
    = Ok [1; 0; 0; 0; 1; 0; 0; 0].
  Proof.
    intros Hy Hx P Sc.
    assert (C : corners (y1, x1) (y1, x2) (y2, x1) (y2, x2)) by (unfold corners, py, pxc; cbn; repeat apply conj; lra).
    assert (Rc : rectangle (y1, x1) (y1, x2) (y2, x1) (y2, x2)).
    { unfold rectangle, psub, pdot, py, pxc. cbn. split; [f_equal; ring|ring]. }
    pose proof (C34_rectangle_kept argsort pts false scale _ _ _ _ AS P C Rc Sc ltac:(discriminate)) as E.
    unfold NW2. rewrite E. cbn [bind fst snd].
    set (src := [(y1, x1); (y1, x2); (y2, x1); (y2, x2)] : list pt).
    apply (C35_unique lstsq src src _ (y1, x1) (y1, x2) (y2, x1) (y2, x2) (y1, x1) (y1, x2) (y2, x1) (y2, x2) LS eq_refl); try (cbn; tauto).
    - intros p q Hp. assert (p = q) as <-.
      { cbn in Hp. repeat (destruct Hp as [Hp|Hp]; [apply pair_equal_spec in Hp; destruct Hp as [<- <-]; reflexivity|]). contradiction. }
      destruct p as [y x]. unfold sends. split; [reflexivity|]. unfold proj, den, proj_map, py, pxc. cbn. split; [lra|]. apply pair_equal_spec; split; field.
    - unfold general_position, triangle, area, py, pxc. cbn. assert (D : (x2 - x1) * (y2 - y1) <> 0) by nra. repeat apply conj; intros Z; apply D; lra.
    - unfold triangle, area, py, pxc. cbn. assert (D : (x2 - x1) * (y2 - y1) <> 0) by nra. intros Z; apply D; lra.
  Qed.
  Lemma identity_line lines : correct_perspective_line lines [1; 0; 0; 0; 1; 0; 0; 0] = Ok lines.
  Proof.
    apply perspective_line_coefs. split; [reflexivity|]. rewrite <- (map_id lines) at 1. apply map_ext. intros l. rewrite <- (map_id l) at 1. apply map_ext.
    intros [y x]. unfold proj, den, coef_mat, py, pxc. cbn. apply pair_equal_spec; split; field.
  Qed.
  Lemma effect_ideal k xc yc cs ds lh lv method scale : k <> 0 -> Forall2 (ideal_hor k xc yc) cs lh -> Forall2 (ideal_ver k xc yc) ds lv ->
    (0 < before yc cs)%nat -> (0 < after yc cs)%nat -> (0 < before xc ds)%nat -> (0 < after xc ds)%nat -> (forall v, scale = ScVal v -> v = 1) ->
    correct_perspective_effect polyfit argsort cos atan lstsq lh lv xc yc method scale = Ok (lh, lv).
  Proof.
    intros K Fh Fv B1 A1 B2 A2 Sc. unfold correct_perspective_effect.
    pose proof (ideal_fit_hor polyfit PF k xc yc xc yc cs lh Fh) as Gh. pose proof (ideal_fit_ver polyfit PF k xc yc xc yc ds lv Fv) as Gv.
    rewrite ideal_at0 in Gh, Gv. unfold pt, NEx in *. unfold NW2. rewrite Gh. cbn [bind]. rewrite Gv. cbn [bind].
    assert (L : forall w l, (0 < before w l)%nat -> (0 < after w l)%nat -> (length (map (at0 k w) l) <? 2)%nat = false).
    { intros w l B A. rewrite map_length. apply Nat.ltb_ge. unfold before, after in *.
      destruct l as [|a [|b l]]; cbn [length filter] in *; [lia| |lia]. exfalso. destruct (Rlt_dec a w), (Rlt_dec w a); cbn in *; try lia; lra. }
    rewrite (L _ _ B1 A1), (L _ _ B2 A2).
    destruct (representatives k yc cs method K B1 A1) as [s [r1 [r2 [Hs [Sk [E1 [E2 [P1 P2]]]]]]]].
    destruct (representatives k xc ds method K B2 A2) as [s' [t1 [t2 [Hs' [Sk' [E3 [E4 [P3 P4]]]]]]]].
    unfold NW2 in *. rewrite E1. cbn [bind]. rewrite E2. cbn [bind]. rewrite E3. cbn [bind]. rewrite E4. cbn [bind].
    assert (X : forall r t, cross_yx (0, r) (0, t) = (r, t)).
    { intros r t. unfold cross_yx, find_cross_point_between_lines. cbn. apply pair_equal_spec; split; field. }
    unfold NW2 in X. rewrite !X.
    assert (Q : bind (generate_4_source_target_perspective_points argsort cos atan [(r1, t1); (r1, t2); (r2, t1); (r2, t2)] false false scale) (fun st => calc_perspective_coefficients lstsq (fst st) (snd st) true)
      = Ok [1; 0; 0; 0; 1; 0; 0; 0]).
    { destruct Hs as [->| ->].
      - assert (s' = 1) as -> by (destruct Hs' as [h|h]; [exact h|subst; lra]).
        apply (axis_rectangle _ _ r2 r1 t2 t1); [lra|lra| |assumption].
        change [(r1, t1); (r1, t2); (r2, t1); (r2, t2)] with (rev [(r2, t2); (r2, t1); (r1, t2); (r1, t1)]). symmetry. apply Permutation_rev.
      - assert (s' = -1) as -> by (destruct Hs' as [h|h]; [subst; lra|exact h]).
        apply (axis_rectangle _ _ r1 r2 t1 t2); [lra|lra|apply Permutation_refl|assumption]. }
    unfold NW2 in Q. destruct (generate_4_source_target_perspective_points _ _ _ _ _ _ _) as [st|e]; [|discriminate Q]. cbn [bind] in Q |- *. rewrite Q. cbn [bind].
    pose proof (identity_line (map (map (shiftp xc yc)) lh)) as I1. pose proof (identity_line (map (map (shiftp xc yc)) lv)) as I2. unfold NW2 in *.
    rewrite I1. cbn [bind]. rewrite I2. cbn [bind]. f_equal.
    pose proof (C25_restores (fun x => x) polyfit lh xc yc _ _ (or_introl Gh)) as R1. pose proof (C25_restores (fun x => x) polyfit lv xc yc _ _ (or_intror Gv)) as R2.
    apply pair_equal_spec. split; [exact R1|exact R2].
  Qed.
End EffectIdeal.

Section IterIdeal.
  Local Instance NW3 : Num R := Rexact.
  Variable polyfit : list R -> list R -> nat -> res (list R).
  Variable argsort : list R -> list nat.
  Variable lstsq : list (list R) -> list R -> res (list R).
  Variable roots : list R -> option (list R).
  Hypothesis PF : polyfit_oracle polyfit.
  Hypothesis LS : lstsq_oracle lstsq.
  Hypothesis AS : argsort_spec argsort.
  Hypothesis RO : roots_oracle roots.
  Lemma second_pincushion k xc yc cs ds lh lv : Forall2 (ideal_hor k xc yc) cs lh -> Forall2 (ideal_ver k xc yc) ds lv -> 0 < k -> NoDup cs -> cs <> [] ->
    find_center_2nd_way polyfit roots lh lv = find_cod_bailey polyfit lh lv 2.
  Proof.
    intros Fh Fv K ND Hne. unfold find_center_2nd_way.
    pose proof (least_none roots RO k xc yc cs K ND Hne) as Eh.
    pose proof (ideal_fit_hor polyfit PF k xc yc 0 0 cs lh Fh) as Gh. pose proof (ideal_fit_ver polyfit PF k xc yc 0 0 ds lv Fv) as Gv.
    unfold pt, NW3, NEx, NV2 in *. cbn [n0 nofZ Rexact Rst]. rewrite Gh. cbn [bind]. rewrite Gv. cbn [bind fst snd].
    change (map (ideal_coef k xc yc 0 0) cs) with (map (ic k xc yc) cs).
    rewrite Eh. cbn [bind length]. change (2 <? Z.of_nat 0)%Z with false. cbn iota.
    pose proof (shift0 lh) as S1. pose proof (shift0 lv) as S2. unfold NV3 in *. now rewrite S1, S2.
  Qed.
  Lemma ideal_shift_hor k xc yc cs lh : Forall2 (ideal_hor k xc yc) cs lh -> Forall2 (ideal_hor k 0 0) (map (fun c => c - yc) cs) (map (map (shiftp xc yc)) lh).
  Proof.
    intros F. induction F as [|c line cs lh [H [d [N [I L]]]] F IH]; [apply Forall2_nil|]. cbn [map]. apply Forall2_cons; [|exact IH]. split.
    - intros p Hp. apply in_map_iff in Hp. destruct Hp as [q [<- Hq]]. pose proof (H q Hq) as E. unfold py, pxc in *. destruct q as [y x]. cbn in *. rewrite E. ring.
    - exists (map (fun x => x - xc) d). split; [|split; [|rewrite map_length; exact L]].
      + apply FinFun.Injective_map_NoDup; [|exact N]. intros a b. lra.
      + intros x Hx. apply in_map_iff in Hx. destruct Hx as [a [<- Ha]]. apply I in Ha. apply in_map_iff in Ha. destruct Ha as [p [<- Hp]].
        rewrite map_map. apply in_map_iff. exists p. split; [destruct p; reflexivity|exact Hp].
  Qed.
  Lemma ideal_shift_ver k xc yc cs lh : Forall2 (ideal_ver k xc yc) cs lh -> Forall2 (ideal_ver k 0 0) (map (fun c => c - xc) cs) (map (map (shiftp xc yc)) lh).
  Proof.
    intros F. induction F as [|c line cs lh [H [d [N [I L]]]] F IH]; [apply Forall2_nil|]. cbn [map]. apply Forall2_cons; [|exact IH]. split.
    - intros p Hp. apply in_map_iff in Hp. destruct Hp as [q [<- Hq]]. pose proof (H q Hq) as E. unfold py, pxc in *. destruct q as [y x]. cbn in *. rewrite E. ring.
    - exists (map (fun x => x - yc) d). split; [|split; [|rewrite map_length; exact L]].
      + apply FinFun.Injective_map_NoDup; [|exact N]. intros a b. lra.
      + intros x Hx. apply in_map_iff in Hx. destruct Hx as [a [<- Ha]]. apply I in Ha. apply in_map_iff in Ha. destruct Ha as [p [<- Hp]].
        rewrite map_map. apply in_map_iff. exists p. split; [destruct p; reflexivity|exact Hp].
  Qed.
  Lemma NoDup_shift w l : NoDup l -> NoDup (map (fun c => c - w) l).
  Proof. intros. apply FinFun.Injective_map_NoDup; [|assumption]. intros a b. lra. Qed.
  (** Two lines on different sides: two different positions. *)
  Lemma sides_distinct w cs : (0 < before w cs)%nat -> (0 < after w cs)%nat -> distinct_values 2 cs.
  Proof.
    intros B A. unfold before, after in *.
    destruct (filter _ cs) as [|b l] eqn:E in B; [cbn in B; lia|]. assert (H : In b (b :: l)) by now left. rewrite <- E in H. apply filter_In in H. destruct H as [Ib Hb].
    destruct (filter _ cs) as [|a l'] eqn:E' in A; [cbn in A; lia|]. assert (H : In a (a :: l')) by now left. rewrite <- E' in H. apply filter_In in H. destruct H as [Ia Ha].
    destruct (Rlt_dec b w) as [h|]; [|discriminate]. destruct (Rlt_dec w a) as [h'|]; [|discriminate].
    exists [b; a]. split; [|split; [|cbn; lia]].
    - constructor; [intros [->|[]]; lra|]. constructor; [intros []|constructor].
    - intros x [<-|[<-|[]]]; assumption.
  Qed.
  Lemma distinct_shift n w l : distinct_values n l -> distinct_values n (map (fun c => c - w) l).
  Proof.
    intros [d [N [I L]]]. exists (map (fun c => c - w) d). split; [now apply NoDup_shift|]. split; [|now rewrite map_length].
    intros x Hx. apply in_map_iff in Hx. destruct Hx as [a [<- Ha]]. apply (in_map (fun c => c - w)). now apply I.
  Qed.
  Lemma loop_ideal k xc yc cs ds lh lv method n : k <> 0 -> Forall2 (ideal_hor k xc yc) cs lh -> Forall2 (ideal_ver k xc yc) ds lv ->
    NoDup cs -> NoDup ds -> (3 <= length cs)%nat -> (3 <= length ds)%nat ->
    (0 < before yc cs)%nat -> (0 < after yc cs)%nat -> (0 < before xc ds)%nat -> (0 < after xc ds)%nat ->
    vanishing_loop polyfit argsort cos atan lstsq roots lh lv method n (xc, yc) = Ok (xc, yc).
  Proof.
    intros K Fh Fv N1 N2 L1 L2 B1 A1 B2 A2. induction n as [|n IH]; [reflexivity|]. cbn [vanishing_loop].
    pose proof (effect_ideal polyfit argsort lstsq PF LS AS k xc yc cs ds lh lv method ScMean K Fh Fv B1 A1 B2 A2 ltac:(discriminate)) as EI.
    unfold pt, NW2, NW3 in *. rewrite EI. cbn [bind fst snd].
    pose proof (ideal_fit_hor polyfit PF k xc yc xc yc cs lh Fh) as Gh. pose proof (ideal_fit_ver polyfit PF k xc yc xc yc ds lv Fv) as Gv.
    unfold pt, NW3, NEx in *. rewrite Gh. cbn [bind]. rewrite Gv. cbn [bind fst snd].
    pose proof (ideal_shift_hor k xc yc cs lh Fh) as Sh. pose proof (ideal_shift_ver k xc yc ds lv Fv) as Sv.
    assert (E : find_center_2nd_way polyfit roots (map (map (shiftp xc yc)) lh) (map (map (shiftp xc yc)) lv) = Ok (0, 0)).
    { destruct (Rlt_or_le k 0) as [Kn|Kp].
      - apply (second_barrel polyfit roots PF RO k 0 0 _ _ _ _ Sh Sv Kn); try (now apply NoDup_shift); now rewrite map_length.
      - etransitivity; [apply (second_pincushion k 0 0 _ _ _ _ Sh Sv); [lra|now apply NoDup_shift|destruct cs; [cbn in L1; lia|discriminate]]|].
        apply (C27_positive polyfit k 0 0 _ _ _ _ 2 PF ltac:(lra) Sh Sv).
        + apply distinct_shift. now apply (sides_distinct yc).
        + apply distinct_shift. now apply (sides_distinct xc).
        + intros c c' d d' _ _ H. replace (k ^ 2 * 0 * 0 * (c + c' - 2 * 0) * (d + d' - 2 * 0)) with 0 in H by ring. lra. }
    unfold NW3 in E. rewrite E. cbn [bind fst snd].
    replace (@nadd R Rexact xc 0, @nadd R Rexact yc 0) with (xc, yc) by (cbn; f_equal; ring). exact IH.
  Qed.
End IterIdeal.
