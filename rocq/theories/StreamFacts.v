(** Which sets of datasets open_hdf_stream can create. *)
From Coq Require Import Ascii String Lia.
From Verif Require Import Base Text Fs FsFacts Hdf HdfFacts Num Losa LosaFacts LosaFacts2 LosaFacts3 LosaSpec LosaFacts4.
Local Open Scope nat_scope.

(** One key path is the other one or leads to it. *)
Definition below (a b : list text) : Prop := exists c, b = a ++ c.
(** The paths can be those of datasets of one file. *)
Definition separate (ks : list (list text)) : Prop := Forall (fun k => k <> []) ks /\ ForallOrdPairs (fun a b => ~ below a b /\ ~ below b a) ks.

Section Tree.
  Context {T : Type}.
  Notation hitems := (hitems T). Notation hobj := (hobj T).
  Fixpoint hard (g : hitems) : Prop :=
    match g with HNil => True | HHard _ o r => hard_obj o /\ hard r | _ => False end
  with hard_obj (o : hobj) : Prop := match o with HData _ => True | HGroup g => hard g end.

  Lemma chain_get_app cs r (o : hobj) : hget (chain cs o) (cs ++ r) = hget o r.
  Proof. induction cs as [|c cs IH]; [reflexivity|]. cbn [chain app hget hfind]. now rewrite teqb_refl. Qed.
  Lemma chain_get_part (o : hobj) p : forall c r, exists h, hget (chain (p ++ c :: r) o) p = Some (HGroup h).
  Proof. induction p as [|x p IH]; intros c r; cbn [app chain hget hfind]; [eauto|]. rewrite teqb_refl. apply IH. Qed.
  Lemma chain_get_other (o : hobj) cs : forall p, ~ below p cs -> ~ below cs p -> hget (chain cs o) p = None.
  Proof.
    induction cs as [|c cs IH]; intros p H1 H2; [exfalso; apply H2; now exists p|]. destruct p as [|x p]; [exfalso; apply H1; now exists (c :: cs)|].
    cbn [chain hget hfind]. destruct (teqb x c) eqn:E; [|reflexivity]. apply teqb_eq in E. subst x. apply IH.
    - intros [r ->]. apply H1. now exists r.
    - intros [r ->]. apply H2. now exists r.
  Qed.
  Lemma chain_hard cs (o : hobj) : hard_obj o -> hard_obj (chain cs o).
  Proof. induction cs as [|c cs IH]; [auto|]. intros H. cbn. auto. Qed.

  Definition made (g : hitems) : Prop := forall cs o g', hcreate cs o g = Ok g' ->
    cs <> [] /\ (forall r, hget (HGroup g') (cs ++ r) = hget o r) /\
    (forall p c r, cs = p ++ c :: r -> exists h, hget (HGroup g') p = Some (HGroup h)) /\
    (forall p, ~ below p cs -> ~ below cs p -> hget (HGroup g') p = hget (HGroup g) p) /\
    (hard g -> hget (HGroup g) cs = None) /\ (forall p r d, cs = p ++ r -> hget (HGroup g) p <> Some (HData d)) /\ (hard g -> hard_obj o -> hard g').
  Lemma below_cons c a b : below (c :: a) (c :: b) <-> below a b.
  Proof. split; intros [r E]; [injection E as E|subst b]; now exists r. Qed.
  Lemma hcreate_made : (forall o : hobj, match o with HGroup g => made g | HData _ => True end) /\ (forall g : hitems, made g).
  Proof.
    apply tree_ind; auto.
    - intros [|c cs] o g' H; cbn [hcreate] in H; [discriminate|]. injection H as <-. split; [discriminate|]. split; [|split; [|split; [|split; [|split]]]].
      + intros r. cbn [app hget hfind]. rewrite teqb_refl. apply chain_get_app.
      + intros [|x p] c' r E; cbn [app] in E; [eexists; reflexivity|]. injection E as <- ->. cbn [hget hfind]. rewrite teqb_refl. apply chain_get_part.
      + intros [|x p] H1 H2; [exfalso; apply H1; now exists (c :: cs)|]. cbn [hget hfind]. destruct (teqb x c) eqn:E; [|reflexivity].
        apply teqb_eq in E. subst x. rewrite below_cons in H1, H2. now apply chain_get_other.
      + reflexivity.
      + intros [|x p] r d _; discriminate.
      + intros _ Ho. cbn. split; [now apply chain_hard|exact I].
    - intros n q r0 IHo IHr [|c cs] o g' H; cbn [hcreate] in H; [discriminate|]. destruct (teqb c n) eqn:E.
      + apply teqb_eq in E. subst. destruct cs as [|c2 cs]; [discriminate|]. destruct q as [d|g2]; [discriminate|].
        destruct (hcreate (c2 :: cs) o g2) as [g3|] eqn:Eh; [|discriminate]. cbn [bind] in H. injection H as <-.
        destruct (IHo _ _ _ Eh) as [_ [A [B [C [D [F G]]]]]]. split; [discriminate|]. split; [|split; [|split; [|split; [|split]]]].
        * intros r. rewrite <- app_comm_cons. cbn [hget hfind]. rewrite teqb_refl. apply A.
        * intros [|x p] c' r E; cbn [app] in E; [eexists; reflexivity|]. injection E as <- E. cbn [hget hfind]. rewrite teqb_refl. now apply (B p c' r).
        * intros [|x p] H1 H2; [exfalso; apply H1; eexists; reflexivity|]. cbn [hget hfind]. destruct (teqb x n) eqn:E; [|reflexivity]. apply teqb_eq in E. subst x. rewrite below_cons in H1, H2. now apply C.
        * intros [H1 _]. change (hget (HGroup (HHard n (HGroup g2) r0)) (n :: c2 :: cs)) with (match (if teqb n n then Some (HGroup g2) else hfind r0 n) with Some o' => hget o' (c2 :: cs) | None => None end).
          rewrite teqb_refl. now apply D.
        * intros [|x p] r d E; [discriminate|]. injection E as <- E. cbn [hget hfind]. rewrite teqb_refl. now apply (F p r).
        * intros [H1 H2] Ho. cbn in H1 |- *. split; [now apply G|exact H2].
      + destruct (hcreate (c :: cs) o r0) as [r'|] eqn:Eh; [|discriminate]. cbn [bind] in H. injection H as <-.
        destruct (IHr _ _ _ Eh) as [_ [A [B [C [D [F G]]]]]]. split; [discriminate|]. split; [|split; [|split; [|split; [|split]]]].
        * intros r. specialize (A r). rewrite <- app_comm_cons in A |- *. cbn [hget hfind] in A |- *. rewrite E. exact A.
        * intros [|x p] c' r E'; [eexists; reflexivity|]. pose proof (B (x :: p) c' r E') as B'. cbn [app] in E'. injection E' as <- E'. cbn [hget hfind] in B' |- *. rewrite E. exact B'.
        * intros [|x p] H1 H2; [exfalso; apply H1; eexists; reflexivity|]. specialize (C (x :: p) H1 H2). cbn [hget hfind] in C |- *. destruct (teqb x n); [reflexivity|exact C].
        * intros [H1 H2]. specialize (D H2). cbn [hget hfind] in D |- *. rewrite E. exact D.
        * intros [|x p] r d E'; [discriminate|]. pose proof (F (x :: p) r d E') as F'. cbn [app] in E'. injection E' as <- E'. cbn [hget hfind] in F' |- *. rewrite E. exact F'.
        * intros [H1 H2] Ho. cbn. split; [exact H1|now apply G].
    - intros n q r0 _ IHr [|c cs] o g' H; cbn [hcreate] in H; [discriminate|]. destruct (teqb c n) eqn:E; [discriminate|].
      destruct (hcreate (c :: cs) o r0) as [r'|] eqn:Eh; [|discriminate]. cbn [bind] in H. injection H as <-.
      destruct (IHr _ _ _ Eh) as [_ [A [B [C [D [F G]]]]]]. split; [discriminate|]. split; [|split; [|split; [|split; [|split]]]].
      + intros r. specialize (A r). rewrite <- app_comm_cons in A |- *. cbn [hget hfind] in A |- *. rewrite E. exact A.
      + intros [|x p] c' r E'; [eexists; reflexivity|]. pose proof (B (x :: p) c' r E') as B'. cbn [app] in E'. injection E' as <- E'. cbn [hget hfind] in B' |- *. rewrite E. exact B'.
      + intros [|x p] H1 H2; [exfalso; apply H1; eexists; reflexivity|]. specialize (C (x :: p) H1 H2). cbn [hget hfind] in C |- *. destruct (teqb x n); [reflexivity|exact C].
      + intros [].
      + intros [|x p] r d E'; [discriminate|]. pose proof (F (x :: p) r d E') as F'. cbn [app] in E'. injection E' as <- E'. cbn [hget hfind] in F' |- *. rewrite E. exact F'.
      + intros [].
    - intros n r0 IHr [|c cs] o g' H; cbn [hcreate] in H; [discriminate|]. destruct (teqb c n) eqn:E; [discriminate|].
      destruct (hcreate (c :: cs) o r0) as [r'|] eqn:Eh; [|discriminate]. cbn [bind] in H. injection H as <-.
      destruct (IHr _ _ _ Eh) as [_ [A [B [C [D [F G]]]]]]. split; [discriminate|]. split; [|split; [|split; [|split; [|split]]]].
      + intros r. specialize (A r). rewrite <- app_comm_cons in A |- *. cbn [hget hfind] in A |- *. rewrite E. exact A.
      + intros [|x p] c' r E'; [eexists; reflexivity|]. pose proof (B (x :: p) c' r E') as B'. cbn [app] in E'. injection E' as <- E'. cbn [hget hfind] in B' |- *. rewrite E. exact B'.
      + intros [|x p] H1 H2; [exfalso; apply H1; eexists; reflexivity|]. specialize (C (x :: p) H1 H2). cbn [hget hfind] in C |- *. destruct (teqb x n); [reflexivity|exact C].
      + intros [].
      + intros [|x p] r d E'; [discriminate|]. pose proof (F (x :: p) r d E') as F'. cbn [app] in E'. injection E' as <- E'. cbn [hget hfind] in F' |- *. rewrite E. exact F'.
      + intros [].
  Qed.
  Definition creatable (g : hitems) : Prop := forall cs o, hard g -> cs <> [] -> hget (HGroup g) cs = None ->
    (forall p r d, cs = p ++ r -> hget (HGroup g) p <> Some (HData d)) -> exists g', hcreate cs o g = Ok g'.
  Lemma hcreate_able : (forall o : hobj, match o with HGroup g => creatable g | HData _ => True end) /\ (forall g : hitems, creatable g).
  Proof.
    apply tree_ind; auto.
    - intros [|c cs] o _ Hn _ _; [congruence|]. cbn. eauto.
    - intros n q r0 IHo IHr [|c cs] o [H1 H2] Hn H3 H4; [congruence|]. cbn [hcreate]. destruct (teqb c n) eqn:E.
      + apply teqb_eq in E. subst c. destruct cs as [|c2 cs]; [exfalso; cbn [hget hfind] in H3; rewrite teqb_refl in H3; discriminate|].
        destruct q as [d|g2].
        * exfalso. apply (H4 [n] (c2 :: cs) d); [reflexivity|]. cbn [hget hfind]. now rewrite teqb_refl.
        * assert (S : forall p, hget (HGroup (HHard n (HGroup g2) r0)) (n :: p) = hget (HGroup g2) p).
          { intros p. cbn [hget hfind]. now rewrite teqb_refl. }
          destruct (IHo (c2 :: cs) o) as [g' Eg]; [exact H1|discriminate|now rewrite <- S| |rewrite Eg; cbn [bind]; eauto].
          intros p r d Ep. rewrite <- S. apply (H4 (n :: p) r d). now rewrite Ep.
      + assert (S : forall x p, teqb x n = false -> hget (HGroup (HHard n q r0)) (x :: p) = hget (HGroup r0) (x :: p)).
        { intros x p Hx. cbn [hget hfind]. now rewrite Hx. }
        destruct (IHr (c :: cs) o) as [g' Eg]; [exact H2|discriminate|now rewrite <- (S c cs E)| |rewrite Eg; cbn [bind]; eauto].
        intros [|x p] r d Ep; [discriminate|]. pose proof (H4 (x :: p) r d Ep) as H5. injection Ep as <- Ep. now rewrite <- (S c p E).
    - intros n q r _ _ cs o [].
    - intros n r _ cs o [].
  Qed.
  Lemma hcreate_error : (forall o : hobj, match o with HGroup g => forall cs o' e, hcreate cs o' g = Err e -> e = ValueError | HData _ => True end) /\
    (forall (g : hitems) cs o e, hcreate cs o g = Err e -> e = ValueError).
  Proof.
    apply tree_ind; auto.
    - intros [|c cs] o e H; cbn in H; congruence.
    - intros n q r IHo IHr [|c cs] o e H; cbn [hcreate] in H; [congruence|]. destruct (teqb c n).
      + destruct cs as [|c2 cs]; [congruence|]. destruct q as [d|g2]; [congruence|]. destruct (hcreate (c2 :: cs) o g2) eqn:E; [discriminate|]. cbn [bind] in H. apply (IHo (c2 :: cs) o). congruence.
      + destruct (hcreate (c :: cs) o r) eqn:E; [discriminate|]. cbn [bind] in H. apply (IHr (c :: cs) o). congruence.
    - intros n q r _ IHr [|c cs] o e H; cbn [hcreate] in H; [congruence|]. destruct (teqb c n); [congruence|].
      destruct (hcreate (c :: cs) o r) eqn:E; [discriminate|]. cbn [bind] in H. apply (IHr (c :: cs) o). congruence.
    - intros n r IHr [|c cs] o e H; cbn [hcreate] in H; [congruence|]. destruct (teqb c n); [congruence|].
      destruct (hcreate (c :: cs) o r) eqn:E; [discriminate|]. cbn [bind] in H. apply (IHr (c :: cs) o). congruence.
  Qed.

  (** The datasets of a tree are those of the list, and every group leads to
      one of them. *)
  Definition holds (g : hitems) (l : list (list text * dset T)) : Prop := hard g /\
    (forall p d, hget (HGroup g) p = Some (HData d) <-> In (p, d) l) /\
    (forall p h, p <> [] -> hget (HGroup g) p = Some (HGroup h) -> exists c q d, In (p ++ c :: q, d) l).
  Lemma holds_nil : holds HNil [].
  Proof. split; [exact I|]. split; [intros [|x p] d; cbn; split; [discriminate|intros []|discriminate|intros []]|]. intros [|x p] h H E; [congruence|discriminate]. Qed.
  Lemma hget_app p : forall (o : hobj) r, hget o (p ++ r) = match hget o p with Some o' => hget o' r | None => None end.
  Proof.
    induction p as [|c p IH]; intros o r; [reflexivity|]. cbn [app hget]. destruct o as [d|g]; [reflexivity|]. destruct (hfind g c); [apply IH|reflexivity].
  Qed.
  Lemma below_dec a b : below a b \/ ~ below a b.
  Proof.
    revert b. induction a as [|x a IH]; intros b; [left; now exists b|]. destruct b as [|y b]; [right; intros [c H]; discriminate|].
    destruct (teqb x y) eqn:E.
    - apply teqb_eq in E. subst y. rewrite below_cons. apply IH.
    - right. intros [c H]. injection H as -> _. rewrite teqb_refl in E. discriminate.
  Qed.
  Lemma holds_create g l cs d : holds g l ->
    (exists g', hcreate cs (HData d) g = Ok g' /\ holds g' (l ++ [(cs, d)])) /\ cs <> [] /\ (forall k e, In (k, e) l -> ~ below k cs /\ ~ below cs k) \/
    hcreate cs (HData d) g = Err ValueError /\ ~ (cs <> [] /\ (forall k e, In (k, e) l -> ~ below k cs /\ ~ below cs k)).
  Proof.
    intros [Hh [Hd Hg]].
    destruct (hcreate cs (HData d) g) as [g'|e] eqn:E.
    - left. destruct (proj2 hcreate_made g cs (HData d) g' E) as [N [A [B [C [D [F G]]]]]]. specialize (D Hh).
      assert (S : forall k e, In (k, e) l -> ~ below k cs /\ ~ below cs k).
      { intros k e Hk. apply Hd in Hk. split; intros [r Hr].
        - exact (F k r e Hr Hk).
        - subst k. rewrite hget_app, D in Hk. discriminate. }
      split; [|split; [exact N|exact S]]. exists g'. split; [reflexivity|]. split; [now apply G|]. split.
      + intros p e. rewrite in_app_iff. cbn [In]. destruct (below_dec cs p) as [[r ->]|N1].
        * rewrite A. destruct r as [|c r].
          -- rewrite app_nil_r. cbn [hget]. split; [intros H; injection H as ->; auto|]. intros [H|[H|[]]]; [exfalso; apply (S _ _ H); exists []; now rewrite app_nil_r|congruence].
          -- cbn [hget]. split; [discriminate|]. intros [H|[H|[]]]; [exfalso; apply (S _ _ H); now exists (c :: r)|]. injection H as H _.
             apply (f_equal (@List.length text)) in H. rewrite app_length in H. cbn in H. lia.
        * destruct (below_dec p cs) as [[r Er]|N2].
          -- destruct r as [|c r]; [exfalso; apply N1; exists []; rewrite app_nil_r in *; auto|]. destruct (B p c r Er) as [h Eh]. rewrite Eh. split; [discriminate|].
             intros [H|[H|[]]]; [exfalso; apply (proj1 (S _ _ H)); now exists (c :: r)|]. injection H as H _. exfalso. apply N1. exists []. rewrite app_nil_r. congruence.
          -- rewrite (C p N2 N1), Hd. split; [auto|]. intros [H|[H|[]]]; [exact H|]. injection H as H _. exfalso. apply N1. exists []. rewrite app_nil_r. congruence.
      + intros p h Np. destruct (below_dec cs p) as [[r ->]|N1].
        * rewrite A. destruct r as [|c r]; cbn [hget]; discriminate.
        * destruct (below_dec p cs) as [[r Er]|N2].
          -- destruct r as [|c r]; [exfalso; apply N1; exists []; rewrite app_nil_r in *; auto|]. intros _. exists c, r, d. apply in_or_app. right. left. now rewrite Er.
          -- rewrite (C p N2 N1). intros H. destruct (Hg p h Np H) as [c [q [e He]]]. exists c, q, e. apply in_or_app. now left.
    - right. split; [f_equal; now apply (proj2 hcreate_error g cs (HData d))|]. intros [N S].
      destruct (proj2 hcreate_able g cs (HData d) Hh N) as [g' Eg]; [| |congruence].
      + destruct (hget (HGroup g) cs) as [[e'|h]|] eqn:Eh; [exfalso|exfalso|reflexivity].
        * apply Hd in Eh. apply (S _ _ Eh). exists []. now rewrite app_nil_r.
        * destruct (Hg cs h N Eh) as [c [q [e' He]]]. apply (S _ _ He). now exists (c :: q).
      + intros p r e' Ep He. apply Hd in He. apply (proj1 (S _ _ He)). now exists r.
  Qed.
End Tree.

Section Stream.
  Context {T : Type} {N : Num T}.
  Definition entry (o : text * dset T) : list text * dset T := (comps (fst o), snd o).
  Lemma separate_app a (k : list text) b : separate (a ++ k :: b) -> k <> [] /\ forall x, In x a -> ~ below x k /\ ~ below k x.
  Proof.
    intros [F O]. apply Forall_app in F. destruct F as [_ F]. inversion_clear F as [|? ? Fk _]. split; [exact Fk|].
    induction a as [|y a IH]; [intros x []|]. cbn [app] in O. inversion_clear O as [|? ? Oy O']. intros x [<-|Hx]; [|now apply IH].
    rewrite Forall_forall in Oy. apply Oy. apply in_or_app. right. now left.
  Qed.
  Lemma separate_snoc a (k : list text) : separate (a ++ [k]) <-> separate a /\ k <> [] /\ forall x, In x a -> ~ below x k /\ ~ below k x.
  Proof.
    split.
    - intros H. split; [|now apply separate_app in H]. destruct H as [F O]. split; [now apply Forall_app in F|]. clear F.
      induction a as [|y a IH]; [constructor|]. cbn [app] in O. inversion_clear O as [|? ? Oy O']. constructor; [now apply Forall_app in Oy|auto].
    - intros [[F O] [Hk H]]. split; [apply Forall_app; split; [exact F|now constructor]|]. clear F. induction a as [|y a IH]; [repeat constructor|].
      cbn [app]. inversion_clear O as [|? ? Oy O']. constructor; [apply Forall_app; split; [exact Oy|constructor; [apply H; now left|constructor]]|]. apply IH; [exact O'|]. intros x Hx. apply H. now right.
  Qed.
  (** Adding all the options. *)
  Lemma add_all_holds opts : forall g l, holds g l -> separate (map fst l) ->
    (exists g', add_all opts g = Ok g' /\ holds g' (l ++ map entry opts)) /\ separate (map fst (l ++ map entry opts)) \/
    add_all opts g = Err ValueError /\ ~ separate (map fst (l ++ map entry opts)).
  Proof.
    induction opts as [|[k d] opts IH]; intros g l H S.
    - left. cbn [map add_all]. rewrite app_nil_r. eauto.
    - cbn [add_all map]. change (entry (k, d)) with (comps k, d).
      assert (K : forall x, In x (map fst l) -> exists e, In (x, e) l) by (intros x Hx; apply in_map_iff in Hx; destruct Hx as [[y e] [<- He]]; eauto).
      assert (K' : forall x e, In (x, e) l -> In x (map fst l)) by (intros x e He; apply in_map_iff; now exists (x, e)).
      assert (X : l ++ (comps k, d) :: map entry opts = (l ++ [(comps k, d)]) ++ map entry opts) by (now rewrite <- app_assoc).
      destruct (holds_create g l (comps k) d H) as [[[g' [E H']] [Nk Sk]]|[E Nk]]; rewrite E; cbn [bind].
      + rewrite X. apply IH; [exact H'|]. rewrite map_app. cbn [map fst]. apply separate_snoc. split; [exact S|]. split; [exact Nk|]. intros x Hx. destruct (K x Hx) as [e He]. now apply (Sk x e).
      + right. split; [reflexivity|]. intros Q. rewrite map_app in Q. cbn [map fst] in Q. apply separate_app in Q. destruct Q as [Q1 Q2].
        apply Nk. split; [exact Q1|]. intros x e He. apply Q2. now apply (K' x e).
  Qed.
  Lemma stream_options_value key q opts : forall (root : hitems T) f f' e, stream_options key q root opts f = (f', Err e) -> e = ValueError.
  Proof.
    induction opts as [|[k d] opts IH]; intros root f f' e; cbn [stream_options]; [discriminate|].
    destruct (contains key k); [unfold throw; intros H; congruence|]. unfold ibind, lift, update_file.
    destruct (hcreate (comps k) (HData d) root) as [r'|e'] eqn:E; [apply IH|]. intros H. injection H as _ <-. now apply (proj2 hcreate_error root (comps k) (HData d)).
  Qed.
  Lemma w_stream_result key dt shape opts q f : look f q <> Some Dir -> look f (parent q) = Some Dir -> q <> [] ->
    let good := (forall k d, In (k, d) opts -> contains key k = false) /\ separate (map (fun o => comps (fst o)) opts ++ [comps key]) in
    (exists f' root, w_stream key dt shape opts q f = (f', Ok q) /\ good /\ look f' q = Some (File (CHdf root)) /\
       holds root (map entry opts ++ [(comps key, zeros dt shape)])) \/
    (exists f', w_stream key dt shape opts q f = (f', Err ValueError) /\ ~ good).
  Proof.
    intros H1 H2 H3 good. set (f0 := (q, File (CHdf HNil)) :: f).
    assert (W : w_stream key dt shape opts q f = match stream_options key q HNil opts f0 with
      | (f1, Ok root) => match hcreate (comps key) (HData (zeros dt shape)) root with Ok r => ((q, File (CHdf r)) :: f1, Ok q) | Err e => (f1, Err e) end
      | (f1, Err e) => (f1, Err e) end).
    { unfold w_stream, ibind at 1, as_value_error. rewrite write_ok by assumption. unfold ibind at 1. fold f0.
      destruct (stream_options key q HNil opts f0) as [f1 [root|e]]; [|reflexivity]. unfold ibind, lift. destruct (hcreate _ _ _); reflexivity. }
    rewrite W. clear W. assert (L0 : look f0 q = Some (File (CHdf HNil))) by (now apply look_cons_same).
    assert (M : map (fun o : text * dset T => comps (fst o)) opts = map fst (map entry opts)) by (rewrite map_map; reflexivity).
    destruct (stream_options key q HNil opts f0) as [f1 [root|e]] eqn:Es.
    - destruct (stream_options_add _ _ _ _ _ _ _ Es) as [A C].
      destruct (add_all_holds opts HNil [] holds_nil) as [[[g' [E H]] S]|[E _]]; [split; constructor| |congruence].
      assert (g' = root) by congruence. subst g'. cbn [app] in H, S.
      destruct (holds_create root (map entry opts) (comps key) (zeros dt shape) H) as [[[g' [Eg H']] [Nk Sk]]|[Eg Nk]]; rewrite Eg.
      + left. do 2 eexists. split; [reflexivity|]. split; [|split; [now apply look_cons_same|exact H']]. split; [exact C|]. rewrite M.
        apply separate_snoc. split; [exact S|]. split; [exact Nk|]. intros x Hx. apply in_map_iff in Hx. destruct Hx as [[y e] [<- He]]. now apply (Sk y e).
      + right. eexists. split; [reflexivity|]. intros [_ G]. rewrite M in G. apply separate_snoc in G. destruct G as [_ [G1 G2]]. apply Nk. split; [exact G1|].
        intros k e He. apply G2. apply in_map_iff. now exists (k, e).
    - right. rewrite (stream_options_value _ _ _ _ _ _ _ Es). eexists. split; [reflexivity|]. intros [G1 G2]. rewrite M in G2. apply separate_snoc in G2. destruct G2 as [G2 _].
      destruct (add_all_holds opts HNil [] holds_nil) as [[[g' [E _]] _]|[_ E]]; [split; constructor| |contradiction].
      destruct (stream_options_ok key q opts HNil f0 H3 L0 G1 g' E) as [f2 [E2 _]]. congruence.
  Qed.
End Stream.
