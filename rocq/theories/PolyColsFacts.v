(** Polynomial-fit grouping of columns that follow polynomials: the vertical
    counterpart of PolyRowsFacts.v. *)
From Coq Require Import Reals ZArith List Lra Lia Permutation Sorted.
From Flocq Require Import Core.
From Verif Require Import Base Num Img Post Spec NumFacts Lsq Sorting PrepSpec PrepImg PrepPts PrepFacts PrepFacts2 PrepFacts3
  PrepFacts4 PrepFacts5 PolyUniq Proc ProcSpec ProcFacts PrepImgFacts PolySpec Props_Grid PolyRowsFacts.
From Verif Require MetaFacts.
Import ListNotations.
Local Open Scope R_scope.
Local Existing Instance Rex.

(** No gap in a chained list is longer than the reach. *)
Section VGap.
  Variable D : R.
  Let near (p q : R * R) := fst p < fst q <= fst p + D.
  Lemma chain_sorted_v l : chain near l -> StronglySorted (fun p q => fst p < fst q) l.
  Proof.
    induction l as [|a l IH]; intros C; constructor.
    - apply IH. destruct l; [exact I|apply C].
    - destruct l as [|b l]; [constructor|]. destruct C as [N C]. specialize (IH C). inversion_clear IH. unfold near in N.
      constructor; [tauto|]. rewrite Forall_forall in *. intros q Hq. specialize (H0 q Hq). lra.
  Qed.
  (** A dot beyond x on the right, if there is one at or before x. *)
  Lemma gap_right_v l x : 0 <= D -> chain near l -> (exists p, In p l /\ fst p <= x) -> (exists p, In p l /\ x < fst p) ->
    exists p, In p l /\ x < fst p <= x + D.
  Proof.
    intros HD. induction l as [|a l IH]; intros C [p [Ip Hp]] [q [Iq Hq]]; [destruct Ip|].
    assert (S := chain_sorted_v _ C). inversion_clear S. rewrite Forall_forall in H0.
    destruct l as [|b l].
    - destruct Ip as [<-|[]], Iq as [<-|[]]. lra.
    - destruct C as [N C]. unfold near in N. destruct (Rle_dec (fst b) x) as [L|L].
      + destruct IH as [r [Ir Hr]]; [exact C|exists b; split; [now left|exact L]| |exists r; split; [now right|exact Hr]].
        exists q. split; [|exact Hq]. destruct Iq as [<-|Iq]; [lra|exact Iq].
      + exists b. split; [right; now left|]. destruct Ip as [<-|Ip]; [lra|]. 
        destruct Ip as [<-|Ip]; [lra|]. assert (fst b < fst p); [|lra].
        inversion_clear H. rewrite Forall_forall in H2. now apply H2.
  Qed.
  Lemma gap_left_v l x : 0 <= D -> chain near l -> (exists p, In p l /\ x <= fst p) -> (exists p, In p l /\ fst p < x) ->
    exists p, In p l /\ x - D <= fst p < x.
  Proof.
    intros HD. induction l as [|a l IH]; intros C [p [Ip Hp]] [q [Iq Hq]]; [destruct Ip|].
    assert (S := chain_sorted_v _ C). inversion_clear S. rewrite Forall_forall in H0.
    destruct l as [|b l].
    - destruct Ip as [<-|[]], Iq as [<-|[]]. lra.
    - destruct C as [N C]. unfold near in N. destruct (Rlt_dec (fst b) x) as [L|L].
      + destruct IH as [r [Ir Hr]]; [exact C| |exists b; split; [now left|exact L]|exists r; split; [now right|exact Hr]].
        exists p. split; [|exact Hp]. destruct Ip as [<-|Ip]; [lra|exact Ip].
      + exists a. split; [now left|]. destruct Iq as [<-|Iq]; [lra|]. destruct Iq as [<-|Iq]; [lra|].
        inversion_clear H. rewrite Forall_forall in H2. specialize (H2 q Iq). lra.
  Qed.
End VGap.

Section VRow.
  Variable polyfit : list R -> list R -> nat -> res (list R).
  Hypothesis PF : polyfit_oracle polyfit.
  Variables (sp rho : list (R * R)) (w : list R) (order : nat) (D tol ov : R).
  Hypothesis Lw : length w = S order.
  Hypothesis HI : incl rho sp.
  Hypothesis HC : chain (fun p q => fst p < fst q <= fst p + D) rho.
  Hypothesis HO : forall p, In p rho -> snd p = poly w (fst p).
  Hypothesis HX : forall p, In p sp -> ~ In p rho -> tol < Rabs (snd p - poly w (fst p)).
  Hypothesis Ht : 0 <= tol.
  Hypothesis HD : 0 <= D.
  Hypothesis Hov : 0 <= ov.
  Lemma row_fit_v s : incl s rho -> distinct_values (S order) (map fst s) -> polyfit (map fst s) (map snd s) order = Ok (rev w).
  Proof.
    intros Hs Dv. apply (polyfit_exact polyfit PF order fst snd s (rev w)); [now rewrite rev_length|exact Dv|].
    intros p Hp. rewrite evh_poly, rev_involutive. apply HO, Hs, Hp.
  Qed.
  Lemma row_near_v s l : incl s rho -> incl l sp -> distinct_values (S order) (map fst s) ->
    exists t, @get_nearby_ver_points R Rex polyfit s l tol order = Ok t /\ forall p, In p t <-> In p l /\ In p rho.
  Proof.
    intros Hs Hl Dv. unfold get_nearby_ver_points. rewrite (row_fit_v s Hs Dv). cbn [bind]. eexists. split; [reflexivity|].
    intros p. rewrite filter_In, poly1d_rev, rev_involutive. unfold Rex. cbn [nleb nabs nsub Rnum]. rewrite Rle_bool_true_iff.
    split; intros [A B]; split; try exact A.
    - destruct (in_dec dot_dec p rho) as [E|E]; [exact E|].
      exfalso. specialize (HX p (Hl p A) E). lra.
    - rewrite (HO p B). unfold Rminus. rewrite Rplus_opp_r, Rabs_R0. exact Ht.
  Qed.
  Lemma row_loop_v : forall fuel xr xl s, incl s rho -> NoDup s -> distinct_values (S order) (map fst s) ->
    (forall p, In p rho -> xl <= fst p <= xr -> In p s) -> (exists p, In p rho /\ xl <= fst p <= xr) ->
    @nearby_ver_loop R Rex polyfit fuel sp D ov tol order xr (xr + D) xl (xl - D) s = Err External \/
    exists s', @nearby_ver_loop R Rex polyfit fuel sp D ov tol order xr (xr + D) xl (xl - D) s = Ok s' /\ NoDup s' /\
      forall p, In p s' <-> In p rho.
  Proof.
    induction fuel as [|fuel IH]; intros xr xl s Hs Nd Dv Hin [p0 [I0 H0]]; [left; reflexivity|].
    cbn [nearby_ver_loop]. cbv zeta.
    set (near := filter _ sp).
    assert (Hn : forall p, In p near <-> In p sp /\ (xr - ov < fst p <= xr + D + ov \/ xl - D - ov <= fst p < xl + ov)).
    { intros p. unfold near. rewrite filter_In. unfold Rex. cbn [nleb nltb nadd nsub Rnum].
      rewrite orb_true_iff, !andb_true_iff, !Rle_bool_true_iff, !Rlt_bool_true_iff. tauto. }
    assert (Stop : (forall p, In p near -> In p rho -> False) -> forall p, In p s <-> In p rho).
    { intros No p. split; [apply Hs|]. intros Hp.
      destruct (Rlt_dec xr (fst p)) as [L|L].
      { exfalso. destruct (gap_right_v D rho xr HD HC) as [q [Iq Hq]]; [exists p0; split; [exact I0|lra]|exists p; split; [exact Hp|lra]|].
        apply (No q); [|exact Iq]. apply Hn. split; [now apply HI|]. left. lra. }
      destruct (Rlt_dec (fst p) xl) as [L'|L'].
      { exfalso. destruct (gap_left_v D rho xl HD HC) as [q [Iq Hq]]; [exists p0; split; [exact I0|lra]|exists p; split; [exact Hp|lra]|].
        apply (No q); [|exact Iq]. apply Hn. split; [now apply HI|]. right. lra. }
      apply Hin; [exact Hp|lra]. }
    destruct near as [|n0' near'] eqn:En.
    - right. exists s. split; [reflexivity|]. split; [exact Nd|]. apply Stop. intros p [].
    - rewrite <- En in *. clear n0' near' En.
      destruct (row_near_v s near Hs) as [t [Et Ht']]; [intros p Hp; now apply Hn|exact Dv|].
      rewrite Et. cbn [bind]. destruct t as [|q t'] eqn:Eq.
      + right. exists s. split; [reflexivity|]. split; [exact Nd|]. apply Stop. intros p A B. now apply (Ht' p).
      + rewrite <- Eq in *. clear Eq Et q t'. 
        change (@nadd R Rex (xr + D) D) with (xr + D + D). change (@nsub R Rex (xl - D) D) with (xl - D - D).
        apply IH.
        * intros p Hp. apply unique_in in Hp. apply in_app_iff in Hp. destruct Hp as [Hp|Hp]; [now apply Hs|now apply Ht'].
        * apply unique_nodup.
        * apply (distinct_incl _ (map fst s)); [|exact Dv]. intros x Hx. apply in_map_iff in Hx. destruct Hx as [p [<- Hp]].
          apply in_map. apply unique_in. apply in_app_iff. now left.
        * intros p Hp Hx. apply unique_in. apply in_app_iff.
          destruct (Rle_dec xl (fst p)) as [L1|L1]; [destruct (Rle_dec (fst p) xr) as [L2|L2]|].
          -- left. apply Hin; [exact Hp|lra].
          -- right. apply Ht'. split; [apply Hn; split; [now apply HI|left; lra]|exact Hp].
          -- right. apply Ht'. split; [apply Hn; split; [now apply HI|right; lra]|exact Hp].
        * exists p0. split; [exact I0|lra].
  Qed.
End VRow.


Section VRows.
  Variables (argsort : list R -> list nat) (polyfit : list R -> list R -> nat -> res (list R)).
  Hypothesis HA : argsort_spec argsort.
  Hypothesis PF : polyfit_oracle polyfit.
  Variables (sp : list (R * R)) (a mid D tol ov : R) (order : nat).
  Hypothesis Ht : 0 <= tol.
  Hypothesis HD : 0 <= D.
  Definition row_group_v (r g : list (R * R)) : Prop :=
    exists w, length w = S order /\ incl (map (rot1 a) r) sp /\
      chain (fun p q => fst p < fst q <= fst p + D) (map (rot1 a) r) /\
      (forall p, In p (map (rot1 a) r) -> snd p = poly w (fst p)) /\
      (forall p, In p sp -> ~ In p (map (rot1 a) r) -> tol < Rabs (snd p - poly w (fst p))) /\
      (2 < length g)%nat /\ (S order <= length g)%nat /\ selects (fun p => Rabs (fst p - mid) <= D) (map (rot1 a) r) g /\
      StronglySorted (fun p q => fst p < fst q) r.
  Lemma row_iter_v fuel r g f la : row_group_v r g -> pyget g 0 = Ok f -> pyget g (-1) = Ok la ->
    @get_nearby_ver_points_iter R Rex polyfit fuel g sp (fst f) (fst la) D tol ov order = Err External \/
    exists s, @get_nearby_ver_points_iter R Rex polyfit fuel g sp (fst f) (fst la) D tol ov order = Ok s /\
      Permutation s (map (rot1 a) r).
  Proof.
    intros [w [Lw [HI [HC [HO [HX [L2 [Lo [Hs S]]]]]]]]] E0 E1.
    assert (Sr := chain_sorted_v D _ HC). assert (Sg := selects_sorted _ _ _ _ Hs Sr).
    assert (In0 := pyget_first _ _ E0). destruct In0 as [l0 In0]. assert (In1 := pyget_last _ _ E1). destruct In1 as [l1 In1].
    assert (If : In f g) by (rewrite In0; now left).
    assert (Il : In la g) by (rewrite In1; apply in_app_iff; right; now left).
    assert (Hif : forall p, In p g <-> In p (map (rot1 a) r) /\ Rabs (fst p - mid) <= D) by (apply selects_in; exact Hs).
    assert (Fl : fst f <= fst la).
    { destruct (sorted_ends (map fst g) (fst f) (fst la)) as [_ [_ B]].
      - apply (StronglySorted_map fst Rle). clear -Sg. induction Sg as [|x l _ IH F]; constructor; [exact IH|].
        eapply Forall_impl; [|exact F]. intros b H. cbn beta in *. lra.
      - rewrite In0. reflexivity.
      - rewrite In1, map_app. apply MetaFacts.pyget_last.
      - apply (B (fst la)). now apply in_map. }
    unfold get_nearby_ver_points_iter. cbv zeta.
    assert (Ov : 0 <= @nmul R Rex D (@nclip R Rex ov n0 n1)).
    { change (0 <= D * @nclip R Rex ov n0 n1). apply Rmult_le_pos; [exact HD|]. unfold Rex. rewrite nclip_R by (cbn; lra).
      unfold clamp. apply Rmax_l. }
    destruct (row_loop_v polyfit PF sp (map (rot1 a) r) w order D tol (@nmul R Rex D (@nclip R Rex ov n0 n1)) Lw HI HC HO HX Ht HD Ov
      fuel (fst la) (fst f) g) as [E|[s [E [Nd Hin]]]].
    - intros p Hp. now apply Hif.
    - apply (strict_nodup fst). exact Sg.
    - exists (map fst g). split; [|split; [tauto|now rewrite map_length]].
      clear -Sg. induction Sg as [|x l Sg IH F]; cbn [map]; constructor; [|exact IH].
      intros Hx. apply in_map_iff in Hx. destruct Hx as [y [Ey Hy]]. rewrite Forall_forall in F. specialize (F y Hy). lra.
    - intros p Hp Hx. apply Hif. split; [exact Hp|]. apply Hif in If. apply Hif in Il.
      destruct If as [_ If], Il as [_ Il]. apply Rabs_le_inv in If, Il. apply Rabs_le. lra.
    - exists f. split; [now apply Hif|]. lra.
    - left. exact E.
    - right. exists s. split; [exact E|]. apply NoDup_Permutation; [exact Nd|now apply (strict_nodup fst)|exact Hin].
  Qed.
  Lemma rows_loop_v fuel : forall rows groups sel acc, Forall2 row_group_v rows groups ->
    @polyfit_ver_loop R Rex argsort cos sin polyfit PI fuel sp a D tol ov order groups sel acc = Err External \/
    @polyfit_ver_loop R Rex argsort cos sin polyfit PI fuel sp a D tol ov order groups sel acc = Ok (acc ++ rows).
  Proof.
    intros rows groups sel acc F. revert sel acc. induction F as [|r g rows groups H F IH]; intros sel acc.
    - right. cbn. now rewrite app_nil_r.
    - cbn [polyfit_ver_loop].
      assert (L2 : (2 < length g)%nat) by (destruct H as [w H]; tauto).
      replace (2 <? Z.of_nat (length g))%Z with true by (symmetry; apply Z.ltb_lt; lia).
      destruct (pyget_ends g) as [f [la [E0 [E1 _]]]]; [intros ->; cbn in L2; lia|]. rewrite E0, E1. cbn [bind].
      destruct (row_iter_v fuel r g f la H E0 E1) as [E|[s [E P]]]; rewrite E; cbn [bind]; [now left|].
      assert (L2' : (2 < length s)%nat).
      { rewrite (Permutation_length P). destruct H as [w [_ [_ [_ [_ [_ [_ [_ [Hs S]]]]]]]]].
        eapply Nat.lt_le_trans; [exact L2|]. clear -Hs. induction Hs; cbn [length]; lia. }
      replace (2 <? Z.of_nat (length s))%Z with true by (symmetry; apply Z.ltb_lt; lia). cbv zeta.
      rewrite rotate_rad. change (@nopp R Rex a) with (- a).
      destruct (gather_argsort argsort fst (map (rot1 (- a)) s) HA) as [P' S'].
      assert (EL : gather (map (rot1 (- a)) s) (argsort (map fst (map (rot1 (- a)) s))) = r).
      { apply (sorted_perm_eq fst); [|exact S'|destruct H as [w H]; tauto].
        rewrite P'. rewrite P, map_map. erewrite map_ext; [rewrite map_id; apply Permutation_refl|]. apply rot1_inv. }
      rewrite EL. destruct (IH r (acc ++ [r])) as [E'|E']; [now left|right]. rewrite E'. now rewrite <- app_assoc.
  Qed.
End VRows.

