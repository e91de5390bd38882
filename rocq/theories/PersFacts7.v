(** Facts on regenerate_grid_points_parabola. *)
From Coq Require Import Reals ZArith List Lra Lia Permutation Sorted.
From Flocq Require Import Core.
From Verif Require Import Base Num NumFacts Spec Lsq PrepSpec Sorting Img PrepImg PrepPts PrepFacts PrepFacts2 Post PostPersp PostExtra
  Proc ProcPers ProcFacts ProcFacts2 ProcFacts3 ProcFacts4 ProcFacts5 PersFacts PersFacts2 PersFacts3 PersFacts4 PersFacts5 PersFacts6 Props_Proc Props_Pers ProcSpec PersSpec.
Import ListNotations.
Local Open Scope R_scope.

Section Any.
  Context {T : Type} {N : Num T}.
  Variable polyfit : list T -> list T -> nat -> res (list T).
  Lemma nonpers_length lh lv ch cv c : generate_non_perspective_parabola_coef polyfit lh lv = Ok (ch, cv, c) -> length ch = length lh /\ length cv = length lv.
  Proof.
    unfold generate_non_perspective_parabola_coef.
    destruct (find_cod_bailey polyfit lh lv 2) as [[x y]|] eqn:E0; [|discriminate]. cbn [bind].
    destruct (para_fit_hor polyfit lh x y) as [[h sh]|] eqn:Eh; [|discriminate]. destruct (para_fit_ver polyfit lv x y) as [[v sv]|] eqn:Ev; [|discriminate]. cbn [bind fst].
    apply para_hor_lines in Eh. apply para_ver_lines in Ev. destruct Eh as [_ Lh], Ev as [_ Lv].
    destruct (fit1 polyfit (map cf2 h) (map cf1 h)) as [[ah bh]|]; [|discriminate]. cbn [bind]. destruct (fit1 polyfit (map cf2 v) _) as [[av bv]|]; [|discriminate]. cbn [bind].
    cbn zeta. match goal with |- bind ?m _ = _ -> _ => destruct m; [|discriminate] end. cbn [bind]. match goal with |- bind ?m _ = _ -> _ => destruct m; [|discriminate] end. cbn [bind].
    match goal with |- Ok (if ?b then _ else _) = _ -> _ => destruct b end; intros H; injection H as <- <- _; rewrite !map_length; split; assumption.
  Qed.
  Lemma regen_shape fsolve lh lv pers fc g h : regenerate_grid_points_parabola polyfit fsolve lh lv pers fc = Ok (g, h) -> transposed (length lh) (length lv) g h.
  Proof.
    unfold regenerate_grid_points_parabola.
    match goal with |- bind ?m _ = _ -> _ => destruct m as [[[ch cv] [x y]]|] eqn:E; [|discriminate] end. cbn [bind]. intros H.
    assert (L : length ch = length lh /\ length cv = length lv).
    { destruct pers; [now apply nonpers_length in E|].
      match type of E with bind ?m _ = _ => destruct m as [cen|] eqn:E0; [|discriminate E] end. cbn [bind] in E.
      destruct (para_fit_hor polyfit lh (fst cen) (snd cen)) as [[a sh]|] eqn:Eh; [|discriminate]. destruct (para_fit_ver polyfit lv (fst cen) (snd cen)) as [[v sv]|] eqn:Ev; [|discriminate].
      cbn [bind fst] in E. injection E as <- <- _. apply para_hor_lines in Eh. apply para_ver_lines in Ev. split; [apply Eh|apply Ev]. }
    destruct L as [<- <-]. pose proof (cross_grid_transposed (fun ch0 cv0 => let (x0, y0) := find_cross_point_between_parabolas fsolve ch0 cv0 in (nadd y0 y, nadd x0 x)) ch cv) as G.
    match type of H with Ok ?t = _ => assert (H' : t = (g, h)) by congruence end. rewrite H' in G. exact G.
  Qed.
End Any.

Section Points.
  Variable st : R -> R.
  Local Instance NP7 : Num R := Rst st.
  Variable polyfit : list R -> list R -> nat -> res (list R).
  (** The point is near both parabolas about (x0, y0). *)
  Definition near_both (e x0 y0 : R) (c d : R * R * R) (p : pt) : Prop :=
    Rabs (parabola c (pxc p - x0) - (py p - y0)) <= e /\ Rabs (parabola d (py p - y0) - (pxc p - x0)) <= e.
  Lemma cross_near e fsolve c d x0 y0 : solved_within e fsolve c d -> near_both e x0 y0 c d
    (let (x, y) := find_cross_point_between_parabolas fsolve c d in (nadd y y0, nadd x x0)).
  Proof.
    intros S. unfold find_cross_point_between_parabolas. match goal with |- context [fsolve ?f ?s] => destruct (S f s ltac:(reflexivity)) as [H1 H2]; destruct (fsolve f s) as [x y] end.
    unfold near_both, parabola, py, pxc. cbn [fst snd] in *. cbn [nadd NP7 Rst].
    replace (x + x0 - x0) with x by ring. replace (y + y0 - y0) with y by ring. split; [exact H1|exact H2].
  Qed.
  Lemma cross_grid_near fsolve ch cv x0 y0 g h i j :
    cross_grid (fun c d => let (x, y) := find_cross_point_between_parabolas fsolve c d in (nadd y y0, nadd x x0)) ch cv = (g, h) ->
    (i < length ch)%nat -> (j < length cv)%nat ->
    exists p, at_ g i j = (st (py p), st (pxc p)) /\ forall e, solved_within e fsolve (nth i ch (0, 0, 0)) (nth j cv (0, 0, 0)) -> near_both e x0 y0 (nth i ch (0, 0, 0)) (nth j cv (0, 0, 0)) p.
  Proof.
    intros H Hi Hj. eexists. split; [|intros e S; apply (cross_near e fsolve _ _ x0 y0 S)].
    pose proof (cross_grid_fst (fun c d => let (x, y) := find_cross_point_between_parabolas fsolve c d in (nadd y y0, nadd x x0)) ch cv i j (0, 0) (0, 0, 0) (0, 0, 0) Hi Hj) as G.
    rewrite H in G. exact G.
  Qed.
End Points.

Section NonPers.
  Local Instance NP8 : Num R := Rexact.
  Variable polyfit : list R -> list R -> nat -> res (list R).
  Lemma main_change_curv (cs cs' : list (R * R * R)) i : map cf0 cs = map cf0 cs' -> main_change cs i -> main_change cs' i.
  Proof.
    intros E [L [M1 M2]]. assert (LL : length cs = length cs') by (rewrite <- (map_length cf0 cs), E; apply map_length).
    assert (C : forall j, curv cs j = curv cs' j).
    { intros j. unfold curv. change (fst (fst (nth j cs (0, 0, 0)))) with (cf0 (nth j cs (0, 0, 0))). change (fst (fst (nth j cs' (0, 0, 0)))) with (cf0 (nth j cs' (0, 0, 0))).
      rewrite <- !(map_nth cf0), E. reflexivity. }
    assert (J : forall j, sign_jump cs j = sign_jump cs' j) by (intros j; unfold sign_jump; now rewrite !C).
    unfold main_change. rewrite <- LL, <- J. split; [exact L|]. split; intros j Hj; rewrite <- J; [now apply M1|now apply M2].
  Qed.
  Lemma mean_distance_avg nh nv cs i : (2 <= nh)%nat -> (2 <= nv)%nat -> (i < length cs)%nat ->
    mean_distance (Z.of_nat nh) (Z.of_nat nv) cs (Z.of_nat i) =
    average (gaps (around i (Nat.min 3 (Nat.min (Nat.div2 nh - 1) (Nat.div2 nv - 1))) (map snd cs))).
  Proof.
    intros H1 H2 Hi. unfold mean_distance. change 3%Z with (Z.of_nat 3).
    rewrite near_window_nat by assumption. cbn zeta. set (n := Nat.min 3 _).
    replace (Z.of_nat (length cs)) with (Z.of_nat (length (map cf2 cs))) by (now rewrite map_length).
    rewrite lslice_around by (rewrite map_length; lia).
    etransitivity; [apply (mean_average (fun x => x))|]. f_equal. apply (gaps_ndiff (fun x => x)).
  Qed.
  Lemma nonpers_spec lh lv ch' cv' x0 y0 : generate_non_perspective_parabola_coef polyfit lh lv = Ok (ch', cv', (x0, y0)) ->
    find_cod_bailey polyfit lh lv 2 = Ok (x0, y0) /\
    exists ch cv b dh dv, parabolas_hor polyfit x0 y0 lh ch /\ parabolas_ver polyfit x0 y0 lv cv /\ regular_slope polyfit ch cv b /\
    (let n := Nat.min 3 (Nat.min (Nat.div2 (length lh) - 1) (Nat.div2 (length lv) - 1)) in central_distance n ch dh /\ central_distance n cv dv) /\
    (0 < dh -> 0 < dv -> ch' = map (regular b (Rmax dh dv / dh)) ch /\ cv' = map (regular (- b) (Rmax dh dv / dv)) cv).
  Proof.
    unfold generate_non_perspective_parabola_coef.
    destruct (find_cod_bailey polyfit lh lv 2) as [[x y]|] eqn:E0; [|discriminate]. cbn [bind].
    destruct (para_fit_hor polyfit lh x y) as [[h sh]|] eqn:Eh; [|discriminate]. destruct (para_fit_ver polyfit lv x y) as [[v sv]|] eqn:Ev; [|discriminate]. cbn [bind fst].
    pose proof (fit_parabolas_hor polyfit lh x y _ _ Eh) as Fh. pose proof (fit_parabolas_ver polyfit lv x y _ _ Ev) as Fv.
    apply para_hor_lines in Eh. apply para_ver_lines in Ev. destruct Eh as [_ Lh], Ev as [_ Lv].
    destruct (fit1 polyfit (map cf2 h) (map cf1 h)) as [[ah bh]|] eqn:E1; [|discriminate]. cbn [bind]. destruct (fit1 polyfit (map cf2 v) _) as [[av bv]|] eqn:E2; [|discriminate]. cbn [bind].
    cbn zeta. set (b0 := if nleb (nofQ 1 1000) (nabs (nsub ah av)) then _ else _). 
    set (h1 := map _ h). set (v1 := map _ v).
    destruct (sign_change h1) as [ph|] eqn:Sh; [|discriminate]. cbn [bind]. destruct (sign_change v1) as [pv|] eqn:Sv; [|discriminate]. cbn [bind].
    destruct (sign_change_spec (fun x => x) _ _ Sh) as [i [-> Mi]]. destruct (sign_change_spec (fun x => x) _ _ Sv) as [j [-> Mj]].
    assert (C0h : map cf0 h1 = map cf0 h) by (unfold h1; rewrite map_map; reflexivity). assert (C0v : map cf0 v1 = map cf0 v) by (unfold v1; rewrite map_map; reflexivity).
    assert (C2h : map snd h1 = map snd h) by (unfold h1; rewrite map_map; reflexivity). assert (C2v : map snd v1 = map snd v) by (unfold v1; rewrite map_map; reflexivity).
    pose proof (proj1 Mi) as Li. pose proof (proj1 Mj) as Lj. 
    assert (L1 : length h1 = length lh) by (unfold h1; rewrite map_length; exact Lh). assert (L2 : length v1 = length lv) by (unfold v1; rewrite map_length; exact Lv).
    replace (Z.of_nat i + 1)%Z with (Z.of_nat (S i)) by lia. replace (Z.of_nat j + 1)%Z with (Z.of_nat (S j)) by lia.
    rewrite !mean_distance_avg by lia. rewrite C2h, C2v. 
    set (n := Nat.min 3 _). set (dh := average (gaps (around (S i) n (map snd h)))). set (dv := average (gaps (around (S j) n (map snd v)))).
    intros H. apply Ok_inj in H. 
    assert (HC : (x, y) = (x0, y0)) by (destruct (nltb dv dh); apply pair_equal_spec in H; apply H). apply pair_equal_spec in HC. destruct HC as [-> ->].
    split; [reflexivity|]. exists h, v, b0, dh, dv. split; [exact Fh|]. split; [exact Fv|]. split; [|split].
    - exists ah, bh, av, bv. split; [|split].
      + apply (fit1_ok polyfit) in E1. exact E1.
      + apply (fit1_ok polyfit) in E2. exact E2.
      + unfold b0. cbn [nleb nofQ nabs nsub nmul ndiv nadd NP8 Rexact Rst]. change (IZR 1 / IZR 1000) with (1 / 1000). split; intros Hc.
        * rewrite Rle_bool_true by exact Hc. assert (ah - av <> 0) by (intros Z; rewrite Z, Rabs_R0 in Hc; lra).
          exists ((bv - bh) / (ah - av)). split; field; assumption.
        * rewrite Rle_bool_false by exact Hc. cbn. field.
    - split; [exists i|exists j]; (split; [|reflexivity]); [apply (main_change_curv h1)|apply (main_change_curv v1)]; assumption.
    - intros Dh Dv.
      assert (S1 : forall (l : list (R * R * R)) b (d : R), d = 1 -> map (fun c : R * R * R => (cf0 c, nf32 (nmul b n1), cf2 c)) l = map (regular b d) l).
      { intros l b d ->. apply map_ext. intros [[a1 a2] a3]. unfold regular, cf0, cf2. cbn. f_equal; [f_equal|]; ring. }
      assert (S2 : forall (l : list (R * R * R)) b (p q : R), map (fun c : R * R * R => (nf32 (ndiv (nmul (cf0 c) p) q), cf1 c, nf32 (ndiv (nmul (cf2 c) p) q))) (map (fun c : R * R * R => (cf0 c, nf32 (nmul b n1), cf2 c)) l) = map (regular b (p / q)) l).
      { intros l b p q. rewrite map_map. apply map_ext. intros [[a1 a2] a3]. unfold regular, cf0, cf1, cf2. cbn. f_equal; [f_equal|]; unfold Rdiv; ring. }
      cbn [nltb NP8 Rexact Rst] in H. destruct (Rlt_bool_spec dv dh) as [hd|hd]; apply pair_equal_spec in H; destruct H as [H _]; apply pair_equal_spec in H; destruct H as [<- <-].
      + rewrite Rmax_left by lra. split; [apply S1; field; lra|apply S2].
      + rewrite Rmax_right by lra. split; [apply S2|apply S1; field; lra].
  Qed.
End NonPers.

Section NonPersTotal.
  Local Instance NP9 : Num R := Rexact.
  Variable polyfit : list R -> list R -> nat -> res (list R).
  Hypothesis PF : polyfit_oracle polyfit.
  Lemma nonpers_total lh lv : (2 <= length lh)%nat -> (2 <= length lv)%nat -> (forall l, In l (lh ++ lv) -> l <> []) ->
    exists r, generate_non_perspective_parabola_coef polyfit lh lv = Ok r.
  Proof.
    intros Lh Lv Hne.
    assert (Hh : forall l, In l lh -> l <> []) by (intros; apply Hne; apply in_or_app; now left).
    assert (Hv : forall l, In l lv -> l <> []) by (intros; apply Hne; apply in_or_app; now right).
    unfold generate_non_perspective_parabola_coef. destruct (bailey_total polyfit PF lh lv 2 Lh Lv Hne) as [[x y] Eb]. unfold NV, NP9 in *. rewrite Eb. cbn [bind].
    destruct (para_hor_total (fun x => x) polyfit PF lh x y Hh) as [ch [sh Eh]]. destruct (para_ver_total (fun x => x) polyfit PF lv x y Hv) as [cv [sv Ev]].
    assert (G1 : @para_fit_hor R Rexact polyfit lh x y = Ok (ch, sh)) by exact Eh. assert (G2 : @para_fit_ver R Rexact polyfit lv x y = Ok (cv, sv)) by exact Ev.
    rewrite G1. cbn [bind]. rewrite G2. cbn [bind fst].
    apply (@para_hor_lines R Rexact) in G1. apply (@para_ver_lines R Rexact) in G2. destruct G1 as [_ L1], G2 as [_ L2].
    destruct (fit1_total polyfit PF (map cf2 ch) (map cf1 ch)) as [[a b] E1]; [destruct ch; [cbn in L1; lia|discriminate]|now rewrite !map_length|].
    destruct (fit1_total polyfit PF (map cf2 cv) (map (fun c => nopp (cf1 c)) cv)) as [[c d] E2]; [destruct cv; [cbn in L2; lia|discriminate]|now rewrite !map_length|].
    rewrite E1. cbn [bind]. unfold NP9 in *. rewrite E2. cbn [bind]. cbn zeta.
    match goal with |- context [bind (sign_change ?l) _] => destruct (sign_change_ok (fun x => x) l) as [p Ep]; [rewrite map_length; lia|] end.
    match type of Ep with ?t = _ => match goal with |- context [bind ?m _] => change m with t end end. rewrite Ep. cbn [bind].
    match goal with |- context [bind (sign_change ?l) _] => destruct (sign_change_ok (fun x => x) l) as [q Eq]; [rewrite map_length; lia|] end.
    match type of Eq with ?t = _ => match goal with |- context [bind ?m _] => change m with t end end. rewrite Eq. cbn [bind].
    eauto.
  Qed.
  Lemma distance_equidistant n (cs : list (R * R * R)) a e d : (1 <= n)%nat -> equidistant a e (map snd cs) -> central_distance n cs d -> d = Rabs e.
  Proof.
    intros Hn H [i [[L _] ->]]. apply average_const; [|].
    - assert (2 <= length (around (S i) n (map snd cs)))%nat by (rewrite around_length, map_length; lia).
      intros Z. assert (Q : length (gaps (around (S i) n (map snd cs))) = 0%nat) by (now rewrite Z). rewrite gaps_length in Q. lia.
    - apply (gaps_equidistant _ _ _ (around_equidistant a e _ (S i) n H ltac:(rewrite map_length; lia))).
  Qed.
  (** Ideal grids with the same line distance in both directions. *)
  Lemma nonpers_ideal k xc yc cs ds lh lv a a' e : Forall2 (ideal_hor k xc yc) cs lh -> Forall2 (ideal_ver k xc yc) ds lv ->
    equidistant a e cs -> equidistant a' e ds -> e <> 0 -> (4 <= length cs)%nat -> (4 <= length ds)%nat -> find_cod_bailey polyfit lh lv 2 = Ok (xc, yc) ->
    generate_non_perspective_parabola_coef polyfit lh lv = Ok (map (at0 k yc) cs, map (at0 k xc) ds, (xc, yc)).
  Proof.
    intros Fh Fv Q1 Q2 He L1 L2 Eb.
    pose proof (Forall2_length _ _ _ Fh) as Lh. pose proof (Forall2_length _ _ _ Fv) as Lv. unfold pt in *.
    assert (NE : forall l, In l (lh ++ lv) -> l <> []).
    { assert (DN : forall n (f : R * R -> R) l, distinct_values (S n) (map f l) -> l <> []).
      { intros n f l [d [_ [I L]]] ->. destruct d as [|x d]; [cbn in L; lia|]. destruct (I x (or_introl eq_refl)). }
      intros l Hl. apply in_app_or in Hl. destruct Hl as [Hl|Hl].
      - clear -Fh Hl DN. induction Fh as [|c line cs lh [_ D] F IH]; [destruct Hl|]. destruct Hl as [<-|Hl]; [exact (DN _ _ _ D)|auto].
      - clear -Fv Hl DN. induction Fv as [|c line cs lh [_ D] F IH]; [destruct Hl|]. destruct Hl as [<-|Hl]; [exact (DN _ _ _ D)|auto]. }
    destruct (nonpers_total lh lv) as [[[ch' cv'] [x0 y0]] E]; [rewrite <- Lh; lia|rewrite <- Lv; lia|exact NE|]. rewrite E.
    destruct (nonpers_spec polyfit lh lv ch' cv' x0 y0 E) as [Eb' [ch [cv [b [dh [dv [Ph [Pv [RS [[D1 D2] RG]]]]]]]]]].
    assert (Ec : (x0, y0) = (xc, yc)) by (unfold NP8, NP9 in *; rewrite Eb in Eb'; apply Ok_inj in Eb'; symmetry; exact Eb'). apply pair_equal_spec in Ec. destruct Ec as [-> ->].
    pose proof (ideal_fit_hor polyfit PF k xc yc xc yc cs lh Fh) as Gh. pose proof (ideal_fit_ver polyfit PF k xc yc xc yc ds lv Fv) as Gv.
    rewrite ideal_at0 in Gh, Gv. unfold pt, NEx, NP9 in *.
    pose proof (parabolas_hor_fit polyfit lh xc yc ch Ph) as Gh'. pose proof (parabolas_ver_fit polyfit lv xc yc cv Pv) as Gv'. unfold NP8 in *.
    rewrite Gh in Gh'. rewrite Gv in Gv'. apply Ok_inj in Gh'. apply pair_equal_spec in Gh'. destruct Gh' as [<- _]. apply Ok_inj in Gv'. apply pair_equal_spec in Gv'. destruct Gv' as [<- _].
    assert (EQ : forall w l a0, equidistant a0 e l -> equidistant (a0 - w) e (map snd (map (at0 k w) l))).
    { intros w l a0 H i Hi. rewrite map_map, map_length in *. change (fun x => snd (at0 k w x)) with (fun c => c - w). rewrite (nth_indep _ 0 (0 - w)) by (now rewrite map_length).
      rewrite (map_nth (fun c => c - w)), H by assumption. ring. }
    assert (N1 : (1 <= Nat.min 3 (Nat.min (Nat.div2 (length lh) - 1) (Nat.div2 (length lv) - 1)))%nat).
    { assert (G : forall n, (4 <= n)%nat -> (2 <= Nat.div2 n)%nat) by (intros [|[|[|[|n]]]]; cbn; lia). pose proof (G _ L1). pose proof (G _ L2). rewrite <- Lh, <- Lv. lia. }
    rewrite (distance_equidistant _ _ _ _ _ N1 (EQ yc cs a Q1) D1) in RG. rewrite (distance_equidistant _ _ _ _ _ N1 (EQ xc ds a' Q2) D2) in RG.
    pose proof (Rabs_pos_lt e He) as He'. destruct (RG He' He') as [-> ->]. rewrite Rmax_left by lra.
    assert (DV : forall w l a0, equidistant a0 e l -> (4 <= length l)%nat -> distinct_values 2 (map snd (map (at0 k w) l))).
    { intros w l a0 H L. pose proof (EQ w l a0 H) as H'. exists [nth 0 (map snd (map (at0 k w) l)) 0; nth 1 (map snd (map (at0 k w) l)) 0]. split; [|split; [|cbn; lia]].
      - constructor; [|constructor; [intros []|constructor]]. intros [Z|[]]. rewrite !H' in Z by (rewrite !map_length; lia). cbn in Z. lra.
      - intros x [<-|[<-|[]]]; apply nth_In; rewrite !map_length; lia. }
    destruct RS as [ah [bh [av [bv [E1 [E2 [S1 S2]]]]]]].
    assert (F1 : polyfit (map snd (map (at0 k yc) cs)) (map (fun c : R * R * R => snd (fst c)) (map (at0 k yc) cs)) 1%nat = Ok [0; 0]).
    { pose proof (ProcFacts.fit1_exact polyfit PF snd (fun c : R * R * R => snd (fst c)) (map (at0 k yc) cs) 0 0 (DV yc cs a Q1 L1)) as G.
      refine (fit1_ok polyfit _ _ (0, 0) (G _)). intros p Hp. apply in_map_iff in Hp. destruct Hp as [c [<- _]]. cbn. ring. }
    assert (F2 : polyfit (map snd (map (at0 k xc) ds)) (map (fun c : R * R * R => - snd (fst c)) (map (at0 k xc) ds)) 1%nat = Ok [0; 0]).
    { pose proof (ProcFacts.fit1_exact polyfit PF snd (fun c : R * R * R => - snd (fst c)) (map (at0 k xc) ds) 0 0 (DV xc ds a' Q2 L2)) as G.
      refine (fit1_ok polyfit _ _ (0, 0) (G _)). intros p Hp. apply in_map_iff in Hp. destruct Hp as [c [<- _]]. cbn. ring. }
    rewrite F1 in E1. rewrite F2 in E2. apply Ok_inj in E1. apply Ok_inj in E2. injection E1 as <- <-. injection E2 as <- <-.
    assert (b = 0) as -> by (rewrite S2; [field|rewrite Rminus_0_r, Rabs_R0; lra]).
    f_equal. f_equal. f_equal; rewrite map_map; apply map_ext; intros c; unfold regular, at0; cbn; (f_equal; [f_equal|]); field; lra.
  Qed.
End NonPersTotal.
