(** Facts about HDF trees, listings, automatic keys and slicing. *)
From Coq Require Import Ascii String ZifyBool.
From Verif Require Import Base Text Fs FsFacts Json Hdf.
Local Open Scope nat_scope.

(** *** Key texts *)
Definition good_key (c : text) : Prop := c <> [] /\ c <> lit "." /\ Forall (fun x => x <> "/"%char) c.

Lemma split_slash_app a b : forall cur, split_slash cur (a ++ "/"%char :: b) = split_slash cur a ++ split_slash [] b.
Proof.
  induction a as [|c a IH]; intros cur; cbn [app split_slash].
  - change (aeqb "/" "/") with true. reflexivity.
  - destruct (aeqb c "/"); [cbn [app]; now rewrite IH|apply IH].
Qed.
Lemma comps_app a b : comps (a ++ "/"%char :: b) = comps a ++ comps b.
Proof. unfold comps. now rewrite split_slash_app, filter_app. Qed.
Lemma comps_slash b : comps ("/"%char :: b) = comps b.
Proof. exact (comps_app [] b). Qed.
Lemma split_slash_noslash c : Forall (fun x => x <> "/"%char) c -> forall cur, split_slash cur c = [cur ++ c].
Proof.
  induction 1 as [|x c Hx _ IH]; intros cur; cbn [split_slash]; [now rewrite app_nil_r|].
  unfold aeqb. destruct (Ascii.eqb_spec x "/"%char); [congruence|]. rewrite IH. now rewrite <- app_assoc.
Qed.
Lemma keep_good c : good_key c -> negb (teqb c [] || teqb c (lit ".")) = true.
Proof.
  intros [A [B _]]. destruct (teqb c []) eqn:E1; [apply teqb_eq in E1; congruence|].
  destruct (teqb c (lit ".")) eqn:E2; [apply teqb_eq in E2; congruence|]. reflexivity.
Qed.
Lemma comps_one c : good_key c -> comps c = [c].
Proof.
  intros H. unfold comps. rewrite split_slash_noslash by apply H. cbn [app filter].
  now rewrite keep_good.
Qed.
Lemma comps_keytext p : Forall good_key p -> comps (keytext p) = p.
Proof.
  unfold keytext. induction 1 as [|c p Hc Hp IH]; [reflexivity|].
  destruct p as [|d p]; [now apply comps_one|].
  change (join [slash] (c :: d :: p)) with (c ++ "/"%char :: join [slash] (d :: p)).
  rewrite comps_app, comps_one by assumption. now rewrite IH.
Qed.
Lemma comps_good k : Forall good_key (comps k).
Proof.
  unfold comps. apply Forall_forall. intros c Hc. apply filter_In in Hc. destruct Hc as [Hi Hn].
  apply negb_true_iff, orb_false_iff in Hn. destruct Hn as [H1 H2]. repeat split.
  - intros ->. discriminate.
  - intros ->. discriminate.
  - eapply split_slash_chars; [exact Hi|constructor].
Qed.
Lemma keytext_snoc p n : p <> [] -> keytext (p ++ [n]) = keytext p ++ "/"%char :: n.
Proof.
  unfold keytext. intros Hp. induction p as [|c p IH]; [congruence|].
  destruct p as [|d p]; [reflexivity|].
  change ((c :: d :: p) ++ [n]) with (c :: (d :: p) ++ [n]).
  change (join [slash] (c :: (d :: p) ++ [n])) with (c ++ "/"%char :: join [slash] ((d :: p) ++ [n])).
  rewrite IH by discriminate. change (join [slash] (c :: d :: p)) with (c ++ "/"%char :: join [slash] (d :: p)).
  now rewrite <- app_assoc.
Qed.

Scheme hobj_mut := Induction for Hdf.hobj Sort Prop
with hitems_mut := Induction for Hdf.hitems Sort Prop.

Section H.
  Context {T : Type}.
  Notation hobj := (hobj T). Notation hitems := (hitems T). Notation dset := (dset T).

  Lemma tree_ind (P : hobj -> Prop) (Q : hitems -> Prop) :
    (forall d, P (HData d)) -> (forall g, Q g -> P (HGroup g)) -> Q HNil ->
    (forall n o r, P o -> Q r -> Q (HHard n o r)) -> (forall n o r, P o -> Q r -> Q (HSoft n o r)) ->
    (forall n r, Q r -> Q (HBroken n r)) -> (forall o, P o) /\ (forall g, Q g).
  Proof.
    intros H1 H2 H3 H4 H5 H6. split.
    - apply (@hobj_mut T P Q); auto.
    - apply (@hitems_mut T P Q); auto.
  Qed.

  (** *** Links *)
  Inductive link := LHard (o : hobj) | LSoft (o : hobj) | LBroken.
  Fixpoint links (g : hitems) : list (text * link) :=
    match g with
    | HNil => []
    | HHard n o r => (n, LHard o) :: links r
    | HSoft n o r => (n, LSoft o) :: links r
    | HBroken n r => (n, LBroken) :: links r
    end.
  Lemma links_names g : map fst (links g) = hnames g.
  Proof. induction g; cbn [links hnames map fst]; congruence. Qed.

  (** Names are proper and distinct in every group reached by hard links. *)
  Fixpoint wf_obj (o : hobj) : Prop := match o with HData _ => True | HGroup g => wf_items g end
  with wf_items (g : hitems) : Prop :=
    match g with
    | HNil => True
    | HHard n o r => good_key n /\ ~ In n (hnames r) /\ wf_obj o /\ wf_items r
    | HSoft n o r => good_key n /\ ~ In n (hnames r) /\ wf_items r
    | HBroken n r => good_key n /\ ~ In n (hnames r) /\ wf_items r
    end.

  (** [p] leads from group [g] to [o] by hard links. *)
  Inductive reach : hitems -> list text -> hobj -> Prop :=
  | reach_here g n o : In (n, LHard o) (links g) -> reach g [n] o
  | reach_in g n g' p o : In (n, LHard (HGroup g')) (links g) -> reach g' p o -> reach g (n :: p) o.

  Lemma reach_ne g p o : reach g p o -> p <> [].
  Proof. intros []; discriminate. Qed.

  Lemma visit_sound : (forall (o : hobj) pre q x, In (q, x) (hvisit pre o) ->
      exists g p, o = HGroup g /\ q = pre ++ p /\ reach g p x) /\
    (forall (g : hitems) pre q x, In (q, x) (hvisit_items pre g) -> exists p, q = pre ++ p /\ reach g p x).
  Proof.
    apply tree_ind.
    - intros d pre q x [].
    - intros g IH pre q x H. destruct (IH _ _ _ H) as [p [-> Hp]]. eauto.
    - intros pre q x [].
    - intros n o r IHo IHr pre q x. cbn [hvisit_items]. intros [H|H].
      + injection H as <- <-. exists [n]. split; [reflexivity|]. constructor. now left.
      + apply in_app_iff in H. destruct H as [H|H].
        * destruct (IHo _ _ _ H) as [g [p [-> [-> Hp]]]]. exists (n :: p). split; [now rewrite <- app_assoc|].
          econstructor; [now left|exact Hp].
        * destruct (IHr _ _ _ H) as [p [-> Hp]]. exists p. split; [reflexivity|].
          inversion Hp; subst; [constructor; now right|econstructor; [right; eassumption|assumption]].
    - intros n o r _ IHr pre q x H. destruct (IHr _ _ _ H) as [p [-> Hp]]. exists p. split; [reflexivity|].
      inversion Hp; subst; [constructor; now right|econstructor; [right; eassumption|assumption]].
    - intros n r IHr pre q x H. destruct (IHr _ _ _ H) as [p [-> Hp]]. exists p. split; [reflexivity|].
      inversion Hp; subst; [constructor; now right|econstructor; [right; eassumption|assumption]].
  Qed.
  Lemma visit_hard g : forall n o pre, In (n, LHard o) (links g) ->
    exists l1 l2, hvisit_items pre g = l1 ++ (pre ++ [n], o) :: hvisit (pre ++ [n]) o ++ l2.
  Proof.
    induction g as [|m p r IH|m p r IH|m r IH]; intros n o pre; cbn [links hvisit_items]; [easy|..].
    - intros [H|H].
      + injection H as -> ->. exists [], (hvisit_items pre r). reflexivity.
      + destruct (IH n o pre H) as [l1 [l2 ->]]. exists ((pre ++ [m], p) :: hvisit (pre ++ [m]) p ++ l1), l2.
        cbn [app]. now rewrite <- app_assoc.
    - intros [H|H]; [discriminate|]. now apply IH.
    - intros [H|H]; [discriminate|]. now apply IH.
  Qed.
  Lemma visit_complete g p o : reach g p o -> forall pre, In (pre ++ p, o) (hvisit_items pre g).
  Proof.
    induction 1 as [g n o H|g n g' p o H Hr IH]; intros pre.
    - destruct (visit_hard g n o pre H) as [l1 [l2 ->]]. apply in_app_iff. right. now left.
    - destruct (visit_hard g n (HGroup g') pre H) as [l1 [l2 ->]]. apply in_app_iff. right. right.
      apply in_app_iff. left. cbn [hvisit].
      replace (pre ++ n :: p) with ((pre ++ [n]) ++ p) by now rewrite <- app_assoc. apply IH.
  Qed.
  Lemma visit_iff root q x : In (q, x) (hvisit_items [] root) <-> reach root q x.
  Proof.
    split.
    - intros H. destruct (proj2 visit_sound root [] q x H) as [p [-> Hp]]. exact Hp.
    - intros H. exact (visit_complete _ _ _ H []).
  Qed.

  (** *** Looking up *)
  Lemma wf_names g : wf_items g -> NoDup (hnames g) /\ Forall good_key (hnames g).
  Proof.
    induction g as [|m p r IH|m p r IH|m r IH]; cbn [wf_items hnames]; intros H.
    - split; constructor.
    - destruct H as [A [B [_ D]]]. destruct (IH D). split; constructor; assumption.
    - destruct H as [A [B D]]. destruct (IH D). split; constructor; assumption.
    - destruct H as [A [B D]]. destruct (IH D). split; constructor; assumption.
  Qed.
  Definition target_of (l : link) : option hobj :=
    match l with LHard o => Some o | LSoft o => Some o | LBroken => None end.
  Lemma hfind_link g n l : NoDup (hnames g) -> In (n, l) (links g) -> hfind g n = target_of l.
  Proof.
    intros Hn. rewrite <- links_names in Hn.
    assert (X : forall m r (P : Prop), ~ In m (map fst (links r)) -> In (n, l) (links r) -> teqb n m = true -> P).
    { intros m r P H1 H2 H3. apply teqb_eq in H3. subst. exfalso. apply H1. apply (in_map fst) in H2. exact H2. }
    induction g as [|m p r IH|m p r IH|m r IH]; cbn [links hfind map fst] in *; [easy|..];
      inversion_clear Hn; (intros [E|E]; [injection E as -> <-; now rewrite teqb_refl|]);
      (destruct (teqb n m) eqn:En; [exact (X m r _ H E En)|auto]).
  Qed.
  Lemma wf_link g n o : wf_items g -> In (n, LHard o) (links g) -> wf_obj o.
  Proof.
    induction g as [|m p r IH|m p r IH|m r IH]; cbn [links wf_items]; [easy|..]; intros H [E|E]; try easy.
    - injection E as -> ->. apply H.
    - apply IH; [apply H|exact E].
    - apply IH; [apply H|exact E].
    - apply IH; [apply H|exact E].
  Qed.
  Lemma reach_get g p o : reach g p o -> wf_items g -> hget (HGroup g) p = Some o /\ Forall good_key p /\ wf_obj o.
  Proof.
    induction 1 as [g n o H|g n g' p o H Hr IH]; intros W; destruct (wf_names g W) as [ND GK];
      rewrite Forall_forall in GK; pose proof (in_map fst _ _ H) as Hi; cbn [fst] in Hi; rewrite links_names in Hi.
    - cbn [hget]. rewrite (hfind_link g n _ ND H). cbn [target_of]. repeat split; auto. now apply (wf_link g n).
    - cbn [hget]. rewrite (hfind_link g n _ ND H). cbn [target_of].
      destruct (IH (wf_link g n _ W H)) as [A [B D]]. repeat split; auto.
  Qed.
  Lemma hget_app (o : hobj) p q : hget o (p ++ q) = match hget o p with Some o' => hget o' q | None => None end.
  Proof.
    revert o. induction p as [|c p IH]; intros o; cbn [app hget]; [reflexivity|].
    destruct o as [d|g]; [reflexivity|]. destruct (hfind g c); [apply IH|reflexivity].
  Qed.
  Lemma lookup_reach root p o : wf_items root -> reach root p o ->
    lookup root (keytext p) = Some o /\ lookup root (slash :: keytext p) = Some o.
  Proof.
    intros W H. destruct (reach_get _ _ _ H W) as [A [B _]]. unfold lookup, slash.
    rewrite comps_slash. rewrite comps_keytext by assumption. auto.
  Qed.
  Lemma lookup_child root p g n l : wf_items root -> reach root p (HGroup g) -> In (n, l) (links g) ->
    lookup root (keytext p ++ slash :: n) = target_of l.
  Proof.
    intros W H Hl. destruct (reach_get _ _ _ H W) as [A [B D]]. unfold lookup, slash.
    rewrite comps_app. rewrite comps_keytext by assumption.
    destruct (wf_names g D) as [ND GK]. rewrite comps_one.
    - rewrite hget_app, A. cbn [hget]. rewrite (hfind_link g n l ND Hl). destruct (target_of l); reflexivity.
    - rewrite Forall_forall in GK. apply GK. rewrite <- links_names. now apply (in_map fst) in Hl.
  Qed.

  (** *** Listing *)
  Definition listed root := fst (fst (get_hdf_information (T := T) root)).
  Lemma listed_iff root k : wf_items root ->
    (In k (listed root) <-> exists p o, reach root p o /\
       match o with
       | HData _ => k = slash :: keytext p
       | HGroup g => match hnames g with
                     | [] => k = keytext p
                     | names => exists n, In n names /\ k = keytext p ++ slash :: n
                     end
       end).
  Proof.
    intros W. unfold listed, get_hdf_information. cbn [fst]. rewrite in_flat_map. split.
    - intros [key [Hk Hi]]. apply in_map_iff in Hk. destruct Hk as [[p o] [<- Hv]]. cbn [fst] in Hi.
      apply visit_iff in Hv. exists p, o. split; [exact Hv|]. unfold info_keys in Hi.
      destruct (lookup_reach _ _ _ W Hv) as [E _]. rewrite E in Hi. destruct o as [d|g].
      + destruct Hi as [<-|[]]. reflexivity.
      + destruct (hnames g) as [|m ms]; [destruct Hi as [<-|[]]; reflexivity|].
        apply in_map_iff in Hi. destruct Hi as [n [<- Hn]]. eauto.
    - intros [p [o [Hr Hm]]]. exists (keytext p). split.
      + apply in_map_iff. exists (p, o). split; [reflexivity|]. now apply visit_iff.
      + unfold info_keys. destruct (lookup_reach _ _ _ W Hr) as [E _]. rewrite E. destruct o as [d|g].
        * left. now rewrite Hm.
        * destruct (hnames g) as [|m ms]; [left; now rewrite Hm|].
          destruct Hm as [n [Hn ->]]. apply in_map_iff. eauto.
  Qed.
  Definition entry_of (o : option hobj) : option (list Z) * option text :=
    match o with Some (HData d) => (Some (nshape (darr d)), Some (dtype d)) | _ => (None, None) end.
  Lemma information_entries (root : hitems) :
    get_hdf_information root =
    (listed root, map (fun k => fst (entry_of (lookup root k))) (listed root),
                  map (fun k => snd (entry_of (lookup root k))) (listed root)).
  Proof.
    unfold listed, get_hdf_information. cbn [fst]. repeat apply f_equal2; try reflexivity; apply map_ext; intros k;
    unfold info_entry, entry_of; destruct (lookup root k) as [[]|]; reflexivity.
  Qed.

  Lemma find_loop_acc (root : hitems) pat l : forall ks ss ts,
    find_loop root pat l (ks, ss, ts) =
    (ks ++ filter (contains pat) l,
     ss ++ map (fun k => fst (entry_of (lookup root k))) (filter (contains pat) l),
     ts ++ map (fun k => snd (entry_of (lookup root k))) (filter (contains pat) l)).
  Proof.
    induction l as [|k l IH]; intros ks ss ts; cbn [find_loop filter map].
    - now rewrite !app_nil_r.
    - destruct (contains pat k); [|apply IH].
      cbn [map]. destruct (lookup root k) as [[d|g]|]; cbn [entry_of fst snd]; rewrite IH; now rewrite <- !app_assoc.
  Qed.
  Lemma find_key_filter root pat : wf_items root ->
    find_hdf_key root pat =
    (filter (contains pat) (listed root),
     map (fun k => fst (entry_of (lookup root k))) (filter (contains pat) (listed root)),
     map (fun k => snd (entry_of (lookup root k))) (filter (contains pat) (listed root))).
  Proof.
    intros W. unfold find_hdf_key. rewrite find_loop_acc. cbn [app].
    assert (E : flat_map (find_keys root) (map (fun v => keytext (fst v)) (hvisit_items [] root)) = listed root).
    { unfold listed, get_hdf_information. cbn [fst]. rewrite !flat_map_concat_map. f_equal. apply map_ext_in.
      intros k Hk. apply in_map_iff in Hk. destruct Hk as [[p o] [<- Hv]]. apply visit_iff in Hv. cbn [fst].
      unfold find_keys, info_keys. destruct (lookup_reach _ _ _ W Hv) as [-> _]. reflexivity. }
    now rewrite E.
  Qed.

  (** *** Automatic key *)
  Definition has_data (g : hitems) : Prop := exists l d, In (lit "data", l) (links g) /\ target_of l = Some (HData d).
  Lemma get_key_items_iff name g : 
    (exists k, get_key_items name g = Some k) <-> has_data g.
  Proof.
    unfold has_data. induction g as [|m p r IH|m p r IH|m r IH]; cbn [get_key_items links].
    - split; [intros [k H]; discriminate|intros [l [d [[] _]]]].
    - destruct p as [d|g'].
      + destruct (teqb m (lit "data")) eqn:E.
        * apply teqb_eq in E. subst. split; [|eauto]. intros _. exists (LHard (HData d)), d. split; [now left|reflexivity].
        * rewrite IH. split; intros [l [d' [H1 H2]]]; exists l, d'; (split; [|exact H2]); [now right|].
          destruct H1 as [H1|H1]; [|exact H1]. injection H1 as -> _. rewrite teqb_refl in E. discriminate.
      + rewrite IH. split; intros [l [d' [H1 H2]]]; exists l, d'; (split; [|exact H2]); [now right|].
        destruct H1 as [H1|H1]; [|exact H1]. injection H1 as _ <-. discriminate.
    - destruct p as [d|g'].
      + destruct (teqb m (lit "data")) eqn:E.
        * apply teqb_eq in E. subst. split; [|eauto]. intros _. exists (LSoft (HData d)), d. split; [now left|reflexivity].
        * rewrite IH. split; intros [l [d' [H1 H2]]]; exists l, d'; (split; [|exact H2]); [now right|].
          destruct H1 as [H1|H1]; [|exact H1]. injection H1 as -> _. rewrite teqb_refl in E. discriminate.
      + rewrite IH. split; intros [l [d' [H1 H2]]]; exists l, d'; (split; [|exact H2]); [now right|].
        destruct H1 as [H1|H1]; [|exact H1]. injection H1 as _ <-. discriminate.
    - rewrite IH. split; intros [l [d' [H1 H2]]]; exists l, d'; (split; [|exact H2]); [now right|].
      destruct H1 as [H1|H1]; [|exact H1]. injection H1 as _ <-. discriminate.
  Qed.
  Lemma get_key_items_val name (g : hitems) k : get_key_items name g = Some k -> k = slash :: name ++ slash :: lit "data".
  Proof.
    induction g as [|m p r IH|m p r IH|m r IH]; cbn [get_key_items]; [discriminate|..]; auto;
    (destruct p as [d|g']; [|auto]; destruct (teqb m (lit "data")) eqn:E; [|auto];
     apply teqb_eq in E; subst; intros H; now injection H as <-).
  Qed.
  Lemma first_some_split {A B} (h : A -> option B) l b : first_some h l = Some b <->
    exists l1 a l2, l = l1 ++ a :: l2 /\ h a = Some b /\ Forall (fun x => h x = None) l1.
  Proof.
    induction l as [|x l IH]; cbn [first_some].
    - split; [discriminate|]. intros [[|z l0] [a [l2 [H _]]]]; discriminate.
    - destruct (h x) as [b'|] eqn:E.
      + split.
        * intros H. injection H as ->. exists [], x, l. auto.
        * intros [[|y l1] [a [l2 [H [H1 H2]]]]]; injection H as Hx Hl; subst; [congruence|].
          inversion_clear H2. congruence.
      + rewrite IH. split.
        * intros [l1 [a [l2 [-> [H1 H2]]]]]. exists (x :: l1), a, l2. repeat split; auto.
        * intros [[|y l1] [a [l2 [H [H1 H2]]]]]; injection H as Hx Hl; subst; [congruence|].
          inversion_clear H2. exists l1, a, l2. auto.
  Qed.
  Lemma first_some_none {A B} (h : A -> option B) l : first_some h l = None <-> Forall (fun x => h x = None) l.
  Proof.
    induction l as [|x l IH]; cbn [first_some]; [split; [constructor|reflexivity]|].
    destruct (h x) eqn:E.
    - split; [discriminate|]. intros H. inversion_clear H. congruence.
    - rewrite IH. split; [intros H; now constructor|]. intros H. now inversion H.
  Qed.
  Definition group_with_data (o : hobj) : Prop := match o with HGroup g => has_data g | HData _ => False end.
  Lemma get_key_none (v : list text * hobj) : get_key v = None <-> ~ group_with_data (snd v).
  Proof.
    unfold get_key, group_with_data. destruct (snd v) as [d|g]; [tauto|].
    rewrite <- (get_key_items_iff (keytext (fst v))). destruct (get_key_items _ g) as [k|].
    - split; [discriminate|]. intros H. exfalso. apply H. eauto.
    - split; [|reflexivity]. intros _ [k H]. discriminate.
  Qed.
  Lemma auto_key_some (root : hitems) k : auto_key root = Some k <->
    exists l1 p g l2, hvisit_items [] root = l1 ++ (p, HGroup g) :: l2 /\ has_data g /\
      Forall (fun v => ~ group_with_data (snd v)) l1 /\ k = slash :: keytext p ++ slash :: lit "data".
  Proof.
    unfold auto_key. rewrite first_some_split. split.
    - intros [l1 [[p o] [l2 [E [H1 H2]]]]]. unfold get_key in H1. cbn [fst snd] in H1. destruct o as [d|g]; [discriminate|].
      exists l1, p, g, l2. repeat split; auto.
      + apply (get_key_items_iff (keytext p)). eauto.
      + eapply Forall_impl; [|exact H2]. intros v. apply get_key_none.
      + now apply get_key_items_val in H1.
    - intros [l1 [p [g [l2 [E [H1 [H2 ->]]]]]]]. exists l1, (p, HGroup g), l2. repeat split; auto.
      + unfold get_key. cbn [fst snd]. apply (get_key_items_iff (keytext p)) in H1. destruct H1 as [k H].
        rewrite H. now rewrite (get_key_items_val _ _ _ H).
      + eapply Forall_impl; [|exact H2]. intros v. apply get_key_none.
  Qed.
  Lemma auto_key_none (root : hitems) : auto_key root = None <->
    forall p g, reach root p (HGroup g) -> ~ has_data g.
  Proof.
    unfold auto_key. rewrite first_some_none, Forall_forall. split.
    - intros H p g Hr. apply visit_iff in Hr. specialize (H _ Hr). apply get_key_none in H. exact H.
    - intros H [p o] Hv. apply get_key_none. cbn [snd]. destruct o as [d|g]; [auto|].
      apply (H p g). now apply visit_iff.
  Qed.
  Lemma auto_key_lookup root p g l d : wf_items root -> reach root p (HGroup g) ->
    In (lit "data", l) (links g) -> target_of l = Some (HData d) ->
    lookup root (slash :: keytext p ++ slash :: lit "data") = Some (HData d).
  Proof.
    intros W Hr Hl Ht. pose proof (lookup_child root p g _ l W Hr Hl) as E. rewrite Ht in E.
    unfold lookup in *. unfold slash at 1. rewrite comps_slash. exact E.
  Qed.

  (** *** Creating *)
  Lemma chain_get cs (o : hobj) : hget (chain cs o) cs = Some o.
  Proof. induction cs as [|c cs IH]; [reflexivity|]. cbn [chain hget hfind]. now rewrite teqb_refl. Qed.

  Definition created (g : hitems) : Prop := forall cs o g', hcreate cs o g = Ok g' ->
    hget (HGroup g') cs = Some o /\
    (forall p d, hget (HGroup g) p = Some (HData d) -> hget (HGroup g') p = Some (HData d)).
  Lemma hcreate_spec : (forall o : hobj, match o with HGroup g => created g | HData _ => True end) /\ (forall g : hitems, created g).
  Proof.
    apply tree_ind; auto.
    - intros [|c cs] o g' H; cbn [hcreate] in H; [discriminate|]. injection H as <-. split.
      + cbn [hget hfind]. rewrite teqb_refl. apply chain_get.
      + intros [|x p] d; cbn; discriminate.
    - intros n q r IHo IHr [|c cs] o g' H; cbn [hcreate] in H; [discriminate|].
      destruct (teqb c n) eqn:E.
      + apply teqb_eq in E. subst. destruct cs as [|c2 cs]; [discriminate|]. destruct q as [d|g2]; [discriminate|].
        destruct (hcreate (c2 :: cs) o g2) as [g3|] eqn:Eh; [|discriminate]. cbn [bind] in H. injection H as <-.
        destruct (IHo _ _ _ Eh) as [A B]. split.
        * cbn [hget hfind]. rewrite teqb_refl. exact A.
        * intros [|x p] d; [discriminate|]. cbn [hget hfind]. destruct (teqb x n); [apply B|auto].
      + destruct (hcreate (c :: cs) o r) as [r'|] eqn:Eh; [|discriminate]. cbn [bind] in H. injection H as <-.
        destruct (IHr _ _ _ Eh) as [A B]. split.
        * cbn [hget hfind]. rewrite E. exact A.
        * intros [|x p] d; [discriminate|]. cbn [hget hfind]. destruct (teqb x n); [auto|].
          apply (B (x :: p)).
    - intros n q r _ IHr [|c cs] o g' H; cbn [hcreate] in H; [discriminate|].
      destruct (teqb c n) eqn:E; [discriminate|].
      destruct (hcreate (c :: cs) o r) as [r'|] eqn:Eh; [|discriminate]. cbn [bind] in H. injection H as <-.
      destruct (IHr _ _ _ Eh) as [A B]. split.
      + cbn [hget hfind]. rewrite E. exact A.
      + intros [|x p] d; [discriminate|]. cbn [hget hfind]. destruct (teqb x n); [auto|]. apply (B (x :: p)).
    - intros n r IHr [|c cs] o g' H; cbn [hcreate] in H; [discriminate|].
      destruct (teqb c n) eqn:E; [discriminate|].
      destruct (hcreate (c :: cs) o r) as [r'|] eqn:Eh; [|discriminate]. cbn [bind] in H. injection H as <-.
      destruct (IHr _ _ _ Eh) as [A B]. split.
      + cbn [hget hfind]. rewrite E. exact A.
      + intros [|x p] d; [discriminate|]. cbn [hget hfind]. destruct (teqb x n); [auto|]. apply (B (x :: p)).
  Qed.

  (** The tree written by save_hdf_file. *)
  Lemma chain_reach c cs (o : hobj) : reach (HHard c (chain cs o) HNil) (c :: cs) o.
  Proof.
    revert c. induction cs as [|d cs IH]; intros c.
    - constructor. now left.
    - econstructor; [left; reflexivity|]. apply IH.
  Qed.
  Lemma chain_wf cs (o : hobj) : Forall good_key cs -> wf_obj o -> wf_obj (chain cs o).
  Proof.
    intros H Ho. induction H as [|c cs Hc _ IH]; [exact Ho|]. cbn [chain wf_obj wf_items]. repeat split; auto; apply Hc.
  Qed.
  Lemma chain_inv cs : forall c (o : hobj) p x, reach (HHard c (chain cs o) HNil) p x ->
    (exists q r, cs = q ++ r /\ r <> [] /\ p = c :: q /\ x = chain r o) \/
    (p = c :: cs /\ x = o) \/ (exists g q, o = HGroup g /\ p = c :: cs ++ q /\ reach g q x).
  Proof.
    induction cs as [|d cs IH]; intros c o p x H; inversion H as [g n o' Hl|g n g' p' o' Hl Hr]; subst.
    - destruct Hl as [E|[]]. injection E as <- <-. right. left. auto.
    - destruct Hl as [E|[]]. injection E as <- E. cbn [chain] in E. right. right. exists g', p'. auto.
    - destruct Hl as [E|[]]. injection E as <- <-. left. exists [], (d :: cs). repeat split. discriminate.
    - destruct Hl as [E|[]]. injection E as <- <-.
      destruct (IH _ _ _ _ Hr) as [[q [r [-> [Hr' [-> ->]]]]]|[[-> ->]|[g [q [-> [-> Hq]]]]]].
      + left. exists (d :: q), r. auto.
      + right. left. auto.
      + right. right. exists g, q. auto.
  Qed.
End H.
