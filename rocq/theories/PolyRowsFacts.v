(** Polynomial-fit grouping of rows that follow polynomials: proofs. *)
From Coq Require Import Reals ZArith List Lra Lia Permutation Sorted.
From Flocq Require Import Core.
From Verif Require Import Base Num Img Post Spec NumFacts Lsq Sorting PrepSpec PrepImg PrepPts PrepFacts PrepFacts2 PrepFacts3
  PrepFacts4 PrepFacts5 PolyUniq Proc ProcSpec ProcFacts PrepImgFacts PolySpec Props_Grid.
From Verif Require MetaFacts.
Import ListNotations.
Local Open Scope R_scope.
Local Existing Instance Rex.

Lemma dot_dec (p q : R * R) : {p = q} + {p <> q}.
Proof.
  destruct p as [a b], q as [c d]. destruct (Req_EM_T a c) as [->|N]; [|right; congruence].
  destruct (Req_EM_T b d) as [->|N]; [now left|right; congruence].
Qed.
Lemma evh_poly v x : evh v x = poly (rev v) x.
Proof. induction v as [|a v IH]; cbn [evh rev]; [reflexivity|]. rewrite IH, poly_app, rev_length. ring. Qed.
Lemma distinct_incl n l l' : incl l l' -> distinct_values n l -> distinct_values n l'.
Proof. intros H [d [A [B C]]]. exists d. split; [exact A|]. split; [intros x Hx; apply H, B, Hx|exact C]. Qed.
Lemma filter_none {A} (f : A -> bool) l p : filter f l = [] -> In p l -> f p = false.
Proof. intros H I. destruct (f p) eqn:E; [|reflexivity]. assert (K : In p (filter f l)) by now apply filter_In. rewrite H in K. destruct K. Qed.

(** No gap in a chained list is longer than the reach. *)
Section Gap.
  Variable D : R.
  Let near (p q : R * R) := snd p < snd q <= snd p + D.
  Lemma chain_sorted l : chain near l -> StronglySorted (fun p q => snd p < snd q) l.
  Proof.
    induction l as [|a l IH]; intros C; constructor.
    - apply IH. destruct l; [exact I|apply C].
    - destruct l as [|b l]; [constructor|]. destruct C as [N C]. specialize (IH C). inversion_clear IH. unfold near in N.
      constructor; [tauto|]. rewrite Forall_forall in *. intros q Hq. specialize (H0 q Hq). lra.
  Qed.
  (** A dot beyond x on the right, if there is one at or before x. *)
  Lemma gap_right l x : 0 <= D -> chain near l -> (exists p, In p l /\ snd p <= x) -> (exists p, In p l /\ x < snd p) ->
    exists p, In p l /\ x < snd p <= x + D.
  Proof.
    intros HD. induction l as [|a l IH]; intros C [p [Ip Hp]] [q [Iq Hq]]; [destruct Ip|].
    assert (S := chain_sorted _ C). inversion_clear S. rewrite Forall_forall in H0.
    destruct l as [|b l].
    - destruct Ip as [<-|[]], Iq as [<-|[]]. lra.
    - destruct C as [N C]. unfold near in N. destruct (Rle_dec (snd b) x) as [L|L].
      + destruct IH as [r [Ir Hr]]; [exact C|exists b; split; [now left|exact L]| |exists r; split; [now right|exact Hr]].
        exists q. split; [|exact Hq]. destruct Iq as [<-|Iq]; [lra|exact Iq].
      + exists b. split; [right; now left|]. destruct Ip as [<-|Ip]; [lra|]. 
        destruct Ip as [<-|Ip]; [lra|]. assert (snd b < snd p); [|lra].
        inversion_clear H. rewrite Forall_forall in H2. now apply H2.
  Qed.
  Lemma gap_left l x : 0 <= D -> chain near l -> (exists p, In p l /\ x <= snd p) -> (exists p, In p l /\ snd p < x) ->
    exists p, In p l /\ x - D <= snd p < x.
  Proof.
    intros HD. induction l as [|a l IH]; intros C [p [Ip Hp]] [q [Iq Hq]]; [destruct Ip|].
    assert (S := chain_sorted _ C). inversion_clear S. rewrite Forall_forall in H0.
    destruct l as [|b l].
    - destruct Ip as [<-|[]], Iq as [<-|[]]. lra.
    - destruct C as [N C]. unfold near in N. destruct (Rlt_dec (snd b) x) as [L|L].
      + destruct IH as [r [Ir Hr]]; [exact C| |exists b; split; [now left|exact L]|exists r; split; [now right|exact Hr]].
        exists p. split; [|exact Hp]. destruct Ip as [<-|Ip]; [lra|exact Ip].
      + exists a. split; [now left|]. destruct Iq as [<-|Iq]; [lra|]. destruct Iq as [<-|Iq]; [lra|].
        inversion_clear H. rewrite Forall_forall in H2. specialize (H2 q Iq). lra.
  Qed.
End Gap.

Section Row.
  Variable polyfit : list R -> list R -> nat -> res (list R).
  Hypothesis PF : polyfit_oracle polyfit.
  Variables (sp rho : list (R * R)) (w : list R) (order : nat) (D tol ov : R).
  Hypothesis Lw : length w = S order.
  Hypothesis HI : incl rho sp.
  Hypothesis HC : chain (fun p q => snd p < snd q <= snd p + D) rho.
  Hypothesis HO : forall p, In p rho -> fst p = poly w (snd p).
  Hypothesis HX : forall p, In p sp -> ~ In p rho -> tol < Rabs (fst p - poly w (snd p)).
  Hypothesis Ht : 0 <= tol.
  Hypothesis HD : 0 <= D.
  Hypothesis Hov : 0 <= ov.
  Lemma row_fit s : incl s rho -> distinct_values (S order) (map snd s) -> polyfit (map snd s) (map fst s) order = Ok (rev w).
  Proof.
    intros Hs Dv. apply (polyfit_exact polyfit PF order snd fst s (rev w)); [now rewrite rev_length|exact Dv|].
    intros p Hp. rewrite evh_poly, rev_involutive. apply HO, Hs, Hp.
  Qed.
  Lemma row_near s l : incl s rho -> incl l sp -> distinct_values (S order) (map snd s) ->
    exists t, @get_nearby_hor_points R Rex polyfit s l tol order = Ok t /\ forall p, In p t <-> In p l /\ In p rho.
  Proof.
    intros Hs Hl Dv. unfold get_nearby_hor_points. rewrite (row_fit s Hs Dv). cbn [bind]. eexists. split; [reflexivity|].
    intros p. rewrite filter_In, poly1d_rev, rev_involutive. unfold Rex. cbn [nleb nabs nsub Rnum]. rewrite Rle_bool_true_iff.
    split; intros [A B]; split; try exact A.
    - destruct (in_dec dot_dec p rho) as [E|E]; [exact E|].
      exfalso. specialize (HX p (Hl p A) E). lra.
    - rewrite (HO p B). unfold Rminus. rewrite Rplus_opp_r, Rabs_R0. exact Ht.
  Qed.
  Lemma row_loop : forall fuel xr xl s, incl s rho -> NoDup s -> distinct_values (S order) (map snd s) ->
    (forall p, In p rho -> xl <= snd p <= xr -> In p s) -> (exists p, In p rho /\ xl <= snd p <= xr) ->
    @nearby_hor_loop R Rex polyfit fuel sp D ov tol order xr (xr + D) xl (xl - D) s = Err External \/
    exists s', @nearby_hor_loop R Rex polyfit fuel sp D ov tol order xr (xr + D) xl (xl - D) s = Ok s' /\ NoDup s' /\
      forall p, In p s' <-> In p rho.
  Proof.
    induction fuel as [|fuel IH]; intros xr xl s Hs Nd Dv Hin [p0 [I0 H0]]; [left; reflexivity|].
    cbn [nearby_hor_loop]. cbv zeta.
    set (near := filter _ sp).
    assert (Hn : forall p, In p near <-> In p sp /\ (xr - ov < snd p <= xr + D + ov \/ xl - D - ov <= snd p < xl + ov)).
    { intros p. unfold near. rewrite filter_In. unfold Rex. cbn [nleb nltb nadd nsub Rnum].
      rewrite orb_true_iff, !andb_true_iff, !Rle_bool_true_iff, !Rlt_bool_true_iff. tauto. }
    assert (Stop : (forall p, In p near -> In p rho -> False) -> forall p, In p s <-> In p rho).
    { intros No p. split; [apply Hs|]. intros Hp.
      destruct (Rlt_dec xr (snd p)) as [L|L].
      { exfalso. destruct (gap_right D rho xr HD HC) as [q [Iq Hq]]; [exists p0; split; [exact I0|lra]|exists p; split; [exact Hp|lra]|].
        apply (No q); [|exact Iq]. apply Hn. split; [now apply HI|]. left. lra. }
      destruct (Rlt_dec (snd p) xl) as [L'|L'].
      { exfalso. destruct (gap_left D rho xl HD HC) as [q [Iq Hq]]; [exists p0; split; [exact I0|lra]|exists p; split; [exact Hp|lra]|].
        apply (No q); [|exact Iq]. apply Hn. split; [now apply HI|]. right. lra. }
      apply Hin; [exact Hp|lra]. }
    destruct near as [|n0' near'] eqn:En.
    - right. exists s. split; [reflexivity|]. split; [exact Nd|]. apply Stop. intros p [].
    - rewrite <- En in *. clear n0' near' En.
      destruct (row_near s near Hs) as [t [Et Ht']]; [intros p Hp; now apply Hn|exact Dv|].
      rewrite Et. cbn [bind]. destruct t as [|q t'] eqn:Eq.
      + right. exists s. split; [reflexivity|]. split; [exact Nd|]. apply Stop. intros p A B. now apply (Ht' p).
      + rewrite <- Eq in *. clear Eq Et q t'. 
        change (@nadd R Rex (xr + D) D) with (xr + D + D). change (@nsub R Rex (xl - D) D) with (xl - D - D).
        apply IH.
        * intros p Hp. apply unique_in in Hp. apply in_app_iff in Hp. destruct Hp as [Hp|Hp]; [now apply Hs|now apply Ht'].
        * apply unique_nodup.
        * apply (distinct_incl _ (map snd s)); [|exact Dv]. intros x Hx. apply in_map_iff in Hx. destruct Hx as [p [<- Hp]].
          apply in_map. apply unique_in. apply in_app_iff. now left.
        * intros p Hp Hx. apply unique_in. apply in_app_iff.
          destruct (Rle_dec xl (snd p)) as [L1|L1]; [destruct (Rle_dec (snd p) xr) as [L2|L2]|].
          -- left. apply Hin; [exact Hp|lra].
          -- right. apply Ht'. split; [apply Hn; split; [now apply HI|left; lra]|exact Hp].
          -- right. apply Ht'. split; [apply Hn; split; [now apply HI|right; lra]|exact Hp].
        * exists p0. split; [exact I0|lra].
  Qed.
End Row.

Lemma selects_in {A} (P : A -> Prop) l s : selects P l s -> forall p, In p s <-> In p l /\ P p.
Proof.
  induction 1 as [|a l s Ha H IH|a l s Ha H IH]; intros p; cbn [In]; [tauto| |]; rewrite IH.
  - intuition (subst; auto).
  - intuition (subst; tauto).
Qed.
Lemma selects_sorted {A} (P : A -> Prop) (r : A -> A -> Prop) l s : selects P l s -> StronglySorted r l -> StronglySorted r s.
Proof.
  induction 1 as [|a l s Ha H IH|a l s Ha H IH]; intros S; [constructor| |]; inversion_clear S; auto.
  constructor; [auto|]. rewrite Forall_forall in *. intros x Hx. apply H1. now apply (selects_in _ _ _ H).
Qed.
Lemma strict_nodup {A} (key : A -> R) l : StronglySorted (fun p q => key p < key q) l -> NoDup l.
Proof.
  induction 1 as [|a l S IH F]; constructor; [|exact IH]. intros H. rewrite Forall_forall in F. specialize (F a H). lra.
Qed.
Lemma pyget_ends {A} (l : list A) : l <> [] -> exists f la, pyget l 0 = Ok f /\ pyget l (-1) = Ok la /\ In f l /\ In la l.
Proof.
  intros Hne. destruct l as [|f l]; [congruence|]. exists f.
  destruct (exists_last (l := f :: l)) as [l' [la E]]; [discriminate|]. exists la. split; [reflexivity|].
  split; [rewrite E; apply MetaFacts.pyget_last|]. split; [now left|]. rewrite E. apply in_app_iff. right. now left.
Qed.
Section Rows.
  Variables (argsort : list R -> list nat) (polyfit : list R -> list R -> nat -> res (list R)).
  Hypothesis HA : argsort_spec argsort.
  Hypothesis PF : polyfit_oracle polyfit.
  Variables (sp : list (R * R)) (a mid D tol ov : R) (order : nat).
  Hypothesis Ht : 0 <= tol.
  Hypothesis HD : 0 <= D.
  Definition row_group (r g : list (R * R)) : Prop :=
    exists w, length w = S order /\ incl (map (rot1 a) r) sp /\
      chain (fun p q => snd p < snd q <= snd p + D) (map (rot1 a) r) /\
      (forall p, In p (map (rot1 a) r) -> fst p = poly w (snd p)) /\
      (forall p, In p sp -> ~ In p (map (rot1 a) r) -> tol < Rabs (fst p - poly w (snd p))) /\
      (2 < length g)%nat /\ (S order <= length g)%nat /\ selects (fun p => Rabs (snd p - mid) <= D) (map (rot1 a) r) g /\
      StronglySorted (fun p q => snd p < snd q) r.
  Lemma row_iter fuel r g f la : row_group r g -> pyget g 0 = Ok f -> pyget g (-1) = Ok la ->
    @get_nearby_hor_points_iter R Rex polyfit fuel g sp (snd f) (snd la) D tol ov order = Err External \/
    exists s, @get_nearby_hor_points_iter R Rex polyfit fuel g sp (snd f) (snd la) D tol ov order = Ok s /\
      Permutation s (map (rot1 a) r).
  Proof.
    intros [w [Lw [HI [HC [HO [HX [L2 [Lo [Hs S]]]]]]]]] E0 E1.
    assert (Sr := chain_sorted D _ HC). assert (Sg := selects_sorted _ _ _ _ Hs Sr).
    assert (In0 := pyget_first _ _ E0). destruct In0 as [l0 In0]. assert (In1 := pyget_last _ _ E1). destruct In1 as [l1 In1].
    assert (If : In f g) by (rewrite In0; now left).
    assert (Il : In la g) by (rewrite In1; apply in_app_iff; right; now left).
    assert (Hif : forall p, In p g <-> In p (map (rot1 a) r) /\ Rabs (snd p - mid) <= D) by (apply selects_in; exact Hs).
    assert (Fl : snd f <= snd la).
    { destruct (sorted_ends (map snd g) (snd f) (snd la)) as [_ [_ B]].
      - apply (StronglySorted_map snd Rle). clear -Sg. induction Sg as [|x l _ IH F]; constructor; [exact IH|].
        eapply Forall_impl; [|exact F]. intros b H. cbn beta in *. lra.
      - rewrite In0. reflexivity.
      - rewrite In1, map_app. apply MetaFacts.pyget_last.
      - apply (B (snd la)). now apply in_map. }
    unfold get_nearby_hor_points_iter. cbv zeta.
    assert (Ov : 0 <= @nmul R Rex D (@nclip R Rex ov n0 n1)).
    { change (0 <= D * @nclip R Rex ov n0 n1). apply Rmult_le_pos; [exact HD|]. unfold Rex. rewrite nclip_R by (cbn; lra).
      unfold clamp. apply Rmax_l. }
    destruct (row_loop polyfit PF sp (map (rot1 a) r) w order D tol (@nmul R Rex D (@nclip R Rex ov n0 n1)) Lw HI HC HO HX Ht HD Ov
      fuel (snd la) (snd f) g) as [E|[s [E [Nd Hin]]]].
    - intros p Hp. now apply Hif.
    - apply (strict_nodup snd). exact Sg.
    - exists (map snd g). split; [|split; [tauto|now rewrite map_length]].
      clear -Sg. induction Sg as [|x l Sg IH F]; cbn [map]; constructor; [|exact IH].
      intros Hx. apply in_map_iff in Hx. destruct Hx as [y [Ey Hy]]. rewrite Forall_forall in F. specialize (F y Hy). lra.
    - intros p Hp Hx. apply Hif. split; [exact Hp|]. apply Hif in If. apply Hif in Il.
      destruct If as [_ If], Il as [_ Il]. apply Rabs_le_inv in If, Il. apply Rabs_le. lra.
    - exists f. split; [now apply Hif|]. lra.
    - left. exact E.
    - right. exists s. split; [exact E|]. apply NoDup_Permutation; [exact Nd|now apply (strict_nodup snd)|exact Hin].
  Qed.
  Lemma rows_loop fuel : forall rows groups sel acc, Forall2 row_group rows groups ->
    @polyfit_hor_loop R Rex argsort cos sin polyfit PI fuel sp a D tol ov order groups sel acc = Err External \/
    @polyfit_hor_loop R Rex argsort cos sin polyfit PI fuel sp a D tol ov order groups sel acc = Ok (acc ++ rows).
  Proof.
    intros rows groups sel acc F. revert sel acc. induction F as [|r g rows groups H F IH]; intros sel acc.
    - right. cbn. now rewrite app_nil_r.
    - cbn [polyfit_hor_loop].
      assert (L2 : (2 < length g)%nat) by (destruct H as [w H]; tauto).
      replace (2 <? Z.of_nat (length g))%Z with true by (symmetry; apply Z.ltb_lt; lia).
      destruct (pyget_ends g) as [f [la [E0 [E1 _]]]]; [intros ->; cbn in L2; lia|]. rewrite E0, E1. cbn [bind].
      destruct (row_iter fuel r g f la H E0 E1) as [E|[s [E P]]]; rewrite E; cbn [bind]; [now left|].
      assert (L2' : (2 < length s)%nat).
      { rewrite (Permutation_length P). destruct H as [w [_ [_ [_ [_ [_ [_ [_ [Hs S]]]]]]]]].
        eapply Nat.lt_le_trans; [exact L2|]. clear -Hs. induction Hs; cbn [length]; lia. }
      replace (2 <? Z.of_nat (length s))%Z with true by (symmetry; apply Z.ltb_lt; lia). cbv zeta.
      rewrite rotate_rad. change (@nopp R Rex a) with (- a).
      destruct (gather_argsort argsort snd (map (rot1 (- a)) s) HA) as [P' S'].
      assert (EL : gather (map (rot1 (- a)) s) (argsort (map snd (map (rot1 (- a)) s))) = r).
      { apply (sorted_perm_eq snd); [|exact S'|destruct H as [w H]; tauto].
        rewrite P'. rewrite P, map_map. erewrite map_ext; [rewrite map_id; apply Permutation_refl|]. apply rot1_inv. }
      rewrite EL. destruct (IH r (acc ++ [r])) as [E'|E']; [now left|right]. rewrite E'. now rewrite <- app_assoc.
  Qed.
End Rows.

(** *** Removal of repeated lines *)
Lemma is_median_unique l m m' : is_median l m -> is_median l m' -> m = m'.
Proof.
  intros [s [P [S [k H]]]] [s' [P' [S' [k' H']]]].
  assert (s = s') by (apply sorted_unique; [exact S|exact S'|]; rewrite P, P'; apply Permutation_refl). subst s'.
  destruct H as [[L ->]|[L ->]], H' as [[L' ->]|[L' ->]]; try lia.
  - replace k' with k by lia. reflexivity.
  - replace k' with k by lia. reflexivity.
Qed.
Lemma apart_iff key d (r r' : list pt) : r <> [] -> r' <> [] ->
  (lines_apart key d r r' <-> d < Rabs (@median R Rex (map key r') - @median R Rex (map key r))).
Proof.
  intros N N'. assert (M : is_median (map key r) (@median R Rex (map key r))) by (apply median_spec; destruct r; [congruence|discriminate]).
  assert (M' : is_median (map key r') (@median R Rex (map key r'))) by (apply median_spec; destruct r'; [congruence|discriminate]).
  split.
  - intros [m [m' [H [H' L]]]]. now rewrite (is_median_unique _ _ _ M H), (is_median_unique _ _ _ M' H').
  - intros L. eexists; eexists; eauto.
Qed.
Section Repeats.
  Context {A : Type}.
  Variables (d : R) (key : A -> R) (apart : A -> A -> Prop).
  Fixpoint keepj (p : A) (l : list A) : list A :=
    match l with
    | [] => []
    | r :: l' => if @nltb R Rex d (@nabs R Rex (@nsub R Rex (key r) (key p))) then r :: keepj r l' else keepj r l'
    end.
  Lemma jumps_ge vals : forall i j, In j (@jumps R Rex i d vals) -> (i <= j)%nat.
  Proof.
    induction vals as [|a vals IH]; intros i j H; [destruct H|]. destruct vals as [|b vals]; [destruct H|].
    cbn [jumps] in H. destruct (nltb d _); [destruct H as [<-|H]; [lia|]|]; apply IH in H; lia.
  Qed.
  Lemma jumps_cons i a b r : @jumps R Rex i d (a :: b :: r) =
    if @nltb R Rex d (@nabs R Rex (@nsub R Rex b a)) then i :: @jumps R Rex (S i) d (b :: r) else @jumps R Rex (S i) d (b :: r).
  Proof. reflexivity. Qed.
  Lemma pick_jumps : forall l p i K, 
    (forall j, (S i <= j)%nat -> existsb (Nat.eqb j) K = existsb (Nat.eqb j) (map S (@jumps R Rex i d (map key (p :: l))))) ->
    map snd (filter (fun il => existsb (Nat.eqb (fst il)) K) (combine (seq (S i) (length l)) l)) = keepj p l.
  Proof.
    induction l as [|r l IH]; intros p i K H; [reflexivity|].
    cbn [length seq combine filter fst keepj]. 
    assert (No : existsb (Nat.eqb (S i)) (map S (@jumps R Rex (S i) d (map key (r :: l)))) = false).
    { apply not_true_iff_false. intros E. apply existsb_exists in E. destruct E as [j [Ij Ej]]. apply Nat.eqb_eq in Ej. subst j.
      apply in_map_iff in Ij. destruct Ij as [j [Ej Ij]]. apply jumps_ge in Ij. lia. }
    rewrite (H (S i)) by lia. cbn [map]. rewrite jumps_cons.
    cbn [map] in H. rewrite jumps_cons in H. cbn [map] in No.
    destruct (nltb d _) eqn:E.
    - cbn [map existsb]. rewrite Nat.eqb_refl. cbn [orb map snd]. f_equal. apply IH. intros j Hj. rewrite H by lia.
      cbn [map existsb]. replace (j =? S i)%nat with false by (symmetry; apply Nat.eqb_neq; lia). reflexivity.
    - cbn [map] in *. rewrite No. apply IH. intros j Hj. apply H. lia.
  Qed.
  Lemma jumps_nil : forall l p i, @jumps R Rex i d (map key (p :: l)) = [] <-> keepj p l = [].
  Proof.
    induction l as [|r l IH]; intros p i; [cbn; tauto|]. cbn [map keepj]. rewrite jumps_cons. destruct (nltb d _).
    - split; discriminate.
    - apply (IH r (S i)).
  Qed.
  Variable lines : list A.
  Hypothesis HP : forall p r, In p lines -> In r lines -> (apart p r <-> d < Rabs (key r - key p)).
  Lemma keepj_spec : forall l p, incl (p :: l) lines -> after_jump apart p l (keepj p l).
  Proof.
    induction l as [|r l IH]; intros p I; cbn [keepj]; [constructor|].
    assert (I1 : incl (r :: l) lines) by (intros x Hx; apply I; now right).
    assert (E : apart p r <-> d < Rabs (key r - key p)) by (apply HP; apply I; [now left|right; now left]).
    unfold Rex at 1 2 3. cbn [nltb nabs nsub Rnum]. destruct (Rlt_bool d (Rabs (key r - key p))) eqn:B.
    - apply Rlt_bool_true_iff in B. constructor; [tauto|now apply IH].
    - apply jump_no; [|now apply IH]. intros C. apply E in C. apply Rlt_bool_true_iff in C. congruence.
  Qed.
  Lemma keepj_chain : forall l p, incl (p :: l) lines -> keepj p l = [] -> chain (fun a b => ~ apart a b) (p :: l).
  Proof.
    intros l p I E. pose proof (keepj_spec l p I) as J. rewrite E in J. clear E I. remember [] as z eqn:Ez.
    induction J as [p|p r l k H J IH|p r l k H J IH]; [exact Logic.I|discriminate|]. split; [exact H|now apply IH].
  Qed.
  Lemma repeats : lines <> [] ->
    without_repeats apart lines
      (match @jumps R Rex 0 d (map key lines) with
        | [] => lines
        | ids => let ids := 0%nat :: map S ids in
               map snd (filter (fun il => existsb (Nat.eqb (fst il)) ids) (combine (seq 0 (length lines)) lines))
        end).
  Proof.
    intros Hne. assert (X : exists p l, lines = p :: l) by (destruct lines; [congruence|eauto]). destruct X as [p [l El]].
    assert (I : incl (p :: l) lines) by (rewrite El; apply incl_refl).
    destruct (@jumps R Rex 0 d (map key lines)) as [|j ids] eqn:Ej.
    - apply all_kept. rewrite El. apply keepj_chain; [exact I|]. apply (jumps_nil l p 0). now rewrite <- El.
    - assert (K : keepj p l <> []) by (intros E; apply (jumps_nil l p 0) in E; rewrite El in Ej; congruence).
      cbv zeta. rewrite El. set (K0 := 0%nat :: map S (j :: ids)). cbn [length seq combine filter fst].
      replace (existsb (Nat.eqb 0) K0) with true by reflexivity. cbn [map snd].
      rewrite (pick_jumps l p 0 K0).
      + apply some_kept; [now apply keepj_spec|exact K].
      + intros i Hi. rewrite El in Ej. rewrite Ej. unfold K0. cbn [existsb].
        replace (i =? 0)%nat with false by (symmetry; apply Nat.eqb_neq; lia). reflexivity.
  Qed.
End Repeats.
(** The step that drops short and repeated lines, when no line is short. *)
Lemma distinct_rows (key : pt -> R) (ld ar : R) (rows : list (list pt)) : rows <> [] -> (forall r, In r rows -> r <> []) ->
  (forall r r', In r rows -> In r' rows -> ar * INR (length r) < INR (length r')) -> 0 <= ar ->
  (forall r, In r rows -> (Z.of_nat (length r) <= 32767)%Z) ->
  exists kept, @distinct_lines R Rex ld ar (fun l => @median R Rex (map key l)) rows = Ok kept /\
    without_repeats (lines_apart key (ld / 10)) rows kept.
Proof.
  intros Hne Hn Hl Ha Hc. unfold pt in *. unfold distinct_lines.
  destruct (max_len rows) as [m|e] eqn:Em; [|destruct rows; [congruence|discriminate]].
  destruct (max_len_spec _ _ Em) as [[lg [Il Lg]] Mx]. cbn [bind]. cbv zeta.
  set (len := wrap16 _).
  assert (EL : filter (fun l : list (R * R) => (len <? Z.of_nat (length l))%Z) rows = rows).
  { assert (K : forall r, In r rows -> (len <? Z.of_nat (length r))%Z = true).
    { intros r Hr. apply Z.ltb_lt. unfold len, Rex. cbn [ntrunc nmul nofZ Rnum]. rewrite <- Lg, <- INR_IZR_INZ.
      specialize (Hl lg r Il Hr). pose proof (pos_INR (length lg)) as P0. pose proof (Rmult_le_pos _ _ Ha P0) as P1.
      pose proof (Hc r Hr) as C. unfold pt in *.
      rewrite Ztrunc_floor by exact P1. pose proof (Zfloor_lb (ar * INR (length lg))) as F1.
      assert (F2 : (0 <= Zfloor (ar * INR (length lg)))%Z) by (apply Zfloor_lub; exact P1).
      assert (F3 : (Zfloor (ar * INR (length lg)) < Z.of_nat (length r))%Z).
      { apply lt_IZR. rewrite <- INR_IZR_INZ. lra. }
      rewrite wrap16_id; lia. }
    clear -K. induction rows as [|r rows IH]; [reflexivity|]. cbn [filter]. rewrite (K r (or_introl eq_refl)). f_equal.
    apply IH. intros r' Hr. apply K. now right. }
  rewrite EL. eexists. split; [reflexivity|].
  assert (Q : @nmul R Rex (nofQ 1 10) ld = ld / 10) by (unfold Rex; cbn [nmul nofQ Rnum]; field).
  rewrite Q. assert (J := repeats (ld / 10) (fun l => @median R Rex (map key l)) (lines_apart key (ld / 10)) rows).
  destruct (@jumps R Rex 0 (ld / 10) _); (apply J; [|exact Hne]; intros p r Hp Hr; apply apart_iff; now apply Hn).
Qed.
