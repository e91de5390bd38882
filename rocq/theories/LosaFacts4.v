(** Path texts, file search, channel averages, slicing and HDF round trips. *)
From Coq Require Import Ascii String ZifyBool FinFun Sorted Permutation.
From Verif Require Import Base Text Fs FsFacts Json JsonFacts Hdf HdfFacts Num Losa LosaFacts LosaFacts2 LosaFacts3.
Local Open Scope nat_scope.

(** *** Path correction *)
Definition ctrl_of (c : ascii) : option ascii :=
  match find (fun ce => aeqb (fst ce) c) escape_sequences with Some ce => Some (snd ce) | None => None end.
Definition correct_char (c : ascii) : text :=
  if aeqb c backslash then lit "/" else match ctrl_of c with Some l => "/"%char :: [l] | None => [c] end.

Lemma flat_map_flat_map {A B C} (f : B -> list C) (h : A -> list B) l :
  flat_map f (flat_map h l) = flat_map (fun a => flat_map f (h a)) l.
Proof. induction l as [|a l IH]; [reflexivity|]. cbn [flat_map]. now rewrite flat_map_app, IH. Qed.
Lemma flat_map_single {A} (l : list A) : flat_map (fun a => [a]) l = l.
Proof. induction l as [|a l IH]; [reflexivity|]. cbn. now rewrite IH. Qed.
Lemma replace_absent c r s : contains [c] s = false -> replace_char c r s = s.
Proof.
  unfold replace_char. induction s as [|x s IH]; [reflexivity|]. cbn [contains flat_map].
  intros H. apply orb_false_iff in H. destruct H as [H1 H2]. cbn [prefixb] in H1. rewrite andb_true_r in H1.
  unfold aeqb in *. rewrite Ascii.eqb_sym, H1. cbn [app]. f_equal. now apply IH.
Qed.
Lemma fold_replace l : forall s,
  fold_left (fun s ce => if contains [fst ce] s then replace_char (fst ce) [backslash; snd ce] s else s) l s =
  flat_map (fun x => fold_left (fun s ce => replace_char (fst ce) [backslash; snd ce] s) l [x]) s.
Proof.
  assert (R : forall (l1 : list (ascii * ascii)) s, fold_left (fun s ce => replace_char (fst ce) [backslash; snd ce] s) l1 s =
            flat_map (fun x => fold_left (fun s ce => replace_char (fst ce) [backslash; snd ce] s) l1 [x]) s).
  { intros l1. induction l1 as [|ce l0 IH]; intros s; cbn [fold_left]; [symmetry; apply flat_map_single|].
    rewrite IH. unfold replace_char at 2. rewrite flat_map_flat_map. apply flat_map_ext. intros x.
    rewrite (IH (replace_char (fst ce) [backslash; snd ce] [x])).
    change (replace_char (fst ce) [backslash; snd ce] [x]) with ((if aeqb x (fst ce) then [backslash; snd ce] else [x]) ++ []).
    now rewrite app_nil_r. }
  intros s. rewrite <- R. revert s. induction l as [|ce l0 IH]; intros s; cbn [fold_left]; [reflexivity|].
  destruct (contains [fst ce] s) eqn:E; [apply IH|]. rewrite (replace_absent _ _ _ E). apply IH.
Qed.
Lemma correct_text_chars s : correct_text s = flat_map correct_char s.
Proof.
  unfold correct_text. rewrite fold_replace. unfold replace_char at 1. rewrite flat_map_flat_map.
  apply flat_map_ext. intros c. destruct c as [[] [] [] [] [] [] [] []]; reflexivity.
Qed.
Lemma correct_char_clean c x : In x (correct_char c) -> x <> backslash /\ ctrl_of x = None.
Proof.
  destruct c as [[] [] [] [] [] [] [] []]; vm_compute; intros H;
  repeat (destruct H as [H|H]; [subst x; split; [discriminate|reflexivity]|]); destruct H.
Qed.
Lemma correct_text_clean s x : In x (correct_text s) -> x <> backslash /\ ctrl_of x = None.
Proof.
  rewrite correct_text_chars, in_flat_map. intros [c [_ H]]. now apply correct_char_clean in H.
Qed.
Lemma correct_clean s : (forall x, In x s -> x <> backslash /\ ctrl_of x = None) -> correct_text s = s.
Proof.
  rewrite correct_text_chars. induction s as [|c s IH]; intros H; [reflexivity|]. cbn [flat_map].
  destruct (H c (or_introl eq_refl)) as [A B]. unfold correct_char. unfold aeqb.
  destruct (Ascii.eqb_spec c backslash); [congruence|]. rewrite B. cbn [app]. f_equal.
  apply IH. intros x Hx. apply H. now right.
Qed.

(** Python's reading of a string literal whose only escapes are single letters. *)
Definition letter_ctrl (l : ascii) : option ascii :=
  match l with
  | "a" => Some (ascii_of_nat 7) | "b" => Some (ascii_of_nat 8) | "f" => Some (ascii_of_nat 12)
  | "n" => Some (ascii_of_nat 10) | "r" => Some (ascii_of_nat 13) | "t" => Some (ascii_of_nat 9)
  | "v" => Some (ascii_of_nat 11) | "0" => Some (ascii_of_nat 0) | _ => None
  end%char.
Fixpoint unescape (s : text) : text :=
  match s with
  | [] => []
  | c :: r =>
      if aeqb c backslash
      then match r with
           | l :: r' => match letter_ctrl l with Some k => k :: unescape r' | None => c :: unescape r end
           | [] => [c]
           end
      else c :: unescape r
  end.
Lemma unescape_correct n : forall s, List.length s <= n -> correct_text (unescape s) = correct_text s.
Proof.
  induction n as [|n IH]; intros s Hs; [destruct s; [reflexivity|cbn in Hs; lia]|].
  destruct s as [|c r]; [reflexivity|]. cbn [unescape List.length] in *.
  rewrite !correct_text_chars in *.
  assert (K : flat_map correct_char (c :: unescape r) = flat_map correct_char (c :: r)).
  { cbn [flat_map]. f_equal. rewrite <- !correct_text_chars. apply IH. lia. }
  destruct (aeqb c backslash) eqn:E; [|exact K].
  destruct r as [|l r']; [reflexivity|].
  destruct (letter_ctrl l) as [k|] eqn:El; [|exact K].
  cbn [flat_map List.length] in *.
  assert (X : correct_char k = correct_char c ++ correct_char l).
  { apply Ascii.eqb_eq in E. subst c.
    destruct l as [[] [] [] [] [] [] [] []]; vm_compute in El; try discriminate; injection El as <-; reflexivity. }
  rewrite X, <- app_assoc. do 2 f_equal. rewrite <- !correct_text_chars. apply IH. lia.
Qed.

(** *** Search *)
Lemma tleb_total a b : tleb a b = true \/ tleb b a = true.
Proof.
  revert b. induction a as [|x a IH]; intros [|y b]; cbn [tleb]; auto.
  destruct (code x <? code y) eqn:E1; [auto|]. destruct (code y <? code x) eqn:E2; [auto|].
  destruct (IH b); auto.
Qed.
Lemma tleb_trans a b c : tleb a b = true -> tleb b c = true -> tleb a c = true.
Proof.
  revert b c. induction a as [|x a IH]; intros [|y b] [|z c]; cbn [tleb]; auto; try discriminate.
  destruct (code x <? code y) eqn:E1, (code y <? code z) eqn:E2; intros H1 H2.
  - replace (code x <? code z) with true by lia. reflexivity.
  - destruct (code z <? code y) eqn:E3; [discriminate|]. replace (code x <? code z) with true by lia. reflexivity.
  - destruct (code y <? code x) eqn:E3; [discriminate|]. replace (code x <? code z) with true by lia. reflexivity.
  - destruct (code y <? code x) eqn:E3; [discriminate|]. destruct (code z <? code y) eqn:E4; [discriminate|].
    replace (code x <? code z) with false by lia. replace (code z <? code x) with false by lia. eauto.
Qed.
Lemma tleb_antisym a b : tleb a b = true -> tleb b a = true -> a = b.
Proof.
  revert b. induction a as [|x a IH]; intros [|y b]; cbn [tleb]; auto; try discriminate.
  destruct (code x <? code y) eqn:E1, (code y <? code x) eqn:E2; try discriminate; intros H1 H2; try lia.
  assert (x = y).
  { unfold code in *. rewrite <- (ascii_nat_embedding x), <- (ascii_nat_embedding y). f_equal. lia. }
  subst. f_equal. auto.
Qed.
Lemma tinsert_perm x l : Permutation (x :: l) (tinsert x l).
Proof.
  induction l as [|y l IH]; cbn [tinsert]; [reflexivity|]. destruct (tleb x y); [reflexivity|].
  rewrite perm_swap. now apply perm_skip.
Qed.
Lemma tsort_perm l : Permutation l (tsort l).
Proof.
  induction l as [|x l IH]; [reflexivity|]. cbn [tsort fold_right]. rewrite <- tinsert_perm. now apply perm_skip.
Qed.
Definition tle a b : Prop := tleb a b = true.
Lemma tinsert_sorted x l : StronglySorted tle l -> StronglySorted tle (tinsert x l).
Proof.
  induction 1 as [|y l Hs IH Hf]; cbn [tinsert].
  - constructor; constructor.
  - destruct (tleb x y) eqn:E.
    + constructor; [constructor; assumption|]. constructor; [exact E|].
      eapply Forall_impl; [|exact Hf]. intros z Hz. eapply tleb_trans; eassumption.
    + constructor; [exact IH|]. apply Forall_forall. intros z Hz.
      apply (Permutation_in z (Permutation_sym (tinsert_perm x l))) in Hz. destruct Hz as [<-|Hz].
      * destruct (tleb_total x y); [congruence|assumption].
      * rewrite Forall_forall in Hf. auto.
Qed.
Lemma tsort_sorted l : StronglySorted tle (tsort l).
Proof. induction l as [|x l IH]; [constructor|]. cbn [tsort fold_right]. now apply tinsert_sorted. Qed.

Lemma dedup_in l p : In p (dedup l) <-> In p l.
Proof.
  induction l as [|q l IH]; [reflexivity|]. cbn [dedup]. destruct (existsb (path_eqb q) l) eqn:E.
  - rewrite IH. split; [now right|]. intros [<-|H]; [|exact H].
    apply existsb_exists in E. destruct E as [r [Hr Er]]. apply path_eqb_eq in Er. now subst.
  - cbn [In]. now rewrite IH.
Qed.
Lemma dedup_nodup l : NoDup (dedup l).
Proof.
  induction l as [|q l IH]; [constructor|]. cbn [dedup]. destruct (existsb (path_eqb q) l) eqn:E; [exact IH|].
  constructor; [|exact IH]. rewrite dedup_in. intros H.
  assert (X : existsb (path_eqb q) l = true) by (apply existsb_exists; exists q; split; [exact H|now apply path_eqb_eq]).
  congruence.
Qed.
Lemma posix_inj p q : Forall good_comp p -> Forall good_comp q -> posix p = posix q -> p = q.
Proof.
  intros Hp Hq E. rewrite <- (resolve_posix [] p Hp), E. now apply resolve_posix.
Qed.

Section S.
  Context {T : Type} {N : Num T}.
  Variables (win : bool) (cwd : path).
  Notation FS := (@FS T).
  Notation M := (io FS).
  Implicit Types f : FS.

  Lemma in_fs_look f p : p <> [] -> (In p (map fst f) <-> look f p <> None).
  Proof.
    intros Hp. split.
    - intros H. unfold look. destruct p as [|c p]; [congruence|]. induction f as [|[q n] f IH]; [easy|].
      cbn [assoc]. destruct (path_eqb_spec (c :: p) q); [discriminate|]. apply IH. cbn [map fst In] in H. destruct H as [H|H]; [congruence|exact H].
    - intros H. destruct (look f p) as [n|] eqn:E; [|congruence]. now apply (look_in f p n).
  Qed.
  Lemma entries_in f d p : In p (entries f d) <-> p <> [] /\ parent p = d /\ look f p <> None.
  Proof.
    unfold entries. rewrite filter_In, dedup_in. destruct p as [|c p].
    - split; [intros [_ H]; discriminate|intros [H _]; congruence].
    - rewrite in_fs_look by discriminate. rewrite path_eqb_eq. split; [intros [A B]|intros [A [B C]]]; repeat split; auto; discriminate.
  Qed.
  Lemma entries_nodup f d : NoDup (entries f d).
  Proof. apply NoDup_filter, dedup_nodup. Qed.

  Lemma find_file_ok fnmatch s f f' r :
    find_file cwd fnmatch s f = (f', r) ->
    let p := get_path true cwd s in
    f' = f /\
    (p = [] -> r = Err ValueError) /\
    (Forall (Forall good_comp) (map fst f) -> pname p <> [] ->
     let matching q := q <> [] /\ parent q = parent p /\ look f q <> None /\ fnmatch (pname p) (pname q) = true in
     (r = Err FileNotFoundError /\ (forall q, ~ matching q)) \/
     (exists l, r = Ok l /\ l <> [] /\ StronglySorted tle l /\ NoDup l /\
        forall t, In t l <-> exists q, matching q /\ t = posix q)).
  Proof.
    unfold find_file, get_path. set (p := resolve cwd (correct_text s)). intros H. cbv zeta.
    destruct (pname p) as [|c pat] eqn:Ep.
    - injection H as <- <-. split; [reflexivity|]. split; [reflexivity|]. congruence.
    - unfold ibind, get in H. set (P := filter (fun q => fnmatch (c :: pat) (pname q)) (entries f (parent p))) in H.
      assert (Hm : forall q, In q P <-> q <> [] /\ parent q = parent p /\ look f q <> None /\ fnmatch (c :: pat) (pname q) = true).
      { intros q. unfold P. rewrite filter_In, entries_in. tauto. }
      assert (Hf : f' = f /\ ((P = [] /\ r = Err FileNotFoundError) \/ (P <> [] /\ r = Ok (tsort (map posix P))))).
      { destruct P; injection H as <- <-; split; auto. right. split; [discriminate|reflexivity]. }
      clear H. destruct Hf as [-> Hr]. split; [reflexivity|]. split; [intros E; rewrite E in Ep; discriminate|].
      intros Hg _. destruct Hr as [[E ->]|[E ->]].
      + left. split; [reflexivity|]. intros q Hq. apply Hm in Hq. rewrite E in Hq. destruct Hq.
      + right. exists (tsort (map posix P)). split; [reflexivity|]. split; [|split; [apply tsort_sorted|split]].
        * intros X. pose proof (tsort_perm (map posix P)) as Y. rewrite X in Y. apply Permutation_sym, Permutation_nil in Y.
          destruct P; [congruence|discriminate].
        * apply (Permutation_NoDup (tsort_perm _)). assert (ND : NoDup P) by apply NoDup_filter, entries_nodup.
          assert (G : Forall (Forall good_comp) P).
          { apply Forall_forall. intros q Hq. apply Hm in Hq. destruct Hq as [A [_ [B _]]].
            rewrite Forall_forall in Hg. apply Hg. now apply in_fs_look. }
          clear -ND G. induction ND as [|q P Hq _ IH]; cbn [map]; [constructor|]. inversion_clear G.
          constructor; [|auto]. intros Hi. apply in_map_iff in Hi. destruct Hi as [q' [E Hq']].
          apply posix_inj in E; [subst; auto| |assumption]. rewrite Forall_forall in H0. auto.
        * intros t. split.
          -- intros Ht. apply (Permutation_in t (Permutation_sym (tsort_perm _))) in Ht. apply in_map_iff in Ht.
             destruct Ht as [q [<- Hq]]. exists q. split; [now apply Hm|reflexivity].
          -- intros [q [Hq ->]]. apply (Permutation_in _ (tsort_perm _)). apply in_map. now apply Hm.
  Qed.

  (** *** Averaging *)
  Lemma argmin_from_spec l : forall i best m pre, List.length pre = i -> (best < i) -> nth_error pre best = Some m ->
    (forall j x, nth_error pre j = Some x -> (m <= x)%Z /\ (j < best -> (m < x)%Z)) ->
    exists b, argmin_from i best m l = b /\ exists y, nth_error (pre ++ l) b = Some y /\
      forall j x, nth_error (pre ++ l) j = Some x -> (y <= x)%Z /\ (j < b -> (y < x)%Z).
  Proof.
    induction l as [|x l IH]; intros i best m pre Hl Hb Hn Hm; cbn [argmin_from].
    - rewrite app_nil_r. exists best. split; [reflexivity|]. eauto.
    - replace (pre ++ x :: l) with ((pre ++ [x]) ++ l) by now rewrite <- app_assoc.
      assert (L : forall j y, nth_error (pre ++ [x]) j = Some y ->
                 (j < i /\ nth_error pre j = Some y) \/ (j = i /\ y = x)).
      { intros j y Hj. destruct (Nat.lt_ge_cases j i) as [Hlt|Hge].
        - left. split; [exact Hlt|]. now rewrite nth_error_app1 in Hj by lia.
        - right. rewrite nth_error_app2 in Hj by lia. destruct (j - List.length pre) as [|d] eqn:Ed.
          + cbn in Hj. injection Hj as <-. split; [lia|reflexivity].
          + destruct d; discriminate. }
      destruct (x <? m)%Z eqn:E.
      + apply IH.
        * rewrite app_length. cbn. lia.
        * lia.
        * rewrite nth_error_app2 by lia. rewrite Hl, Nat.sub_diag. reflexivity.
        * intros j y Hj. destruct (L j y Hj) as [[Hlt Hy]|[-> ->]].
          -- destruct (Hm j y Hy). lia.
          -- split; [lia|]. intros; lia.
      + apply IH.
        * rewrite app_length. cbn. lia.
        * lia.
        * rewrite nth_error_app1 by lia. exact Hn.
        * intros j y Hj. destruct (L j y Hj) as [[Hlt Hy]|[-> ->]]; [auto|]. split; lia.
  Qed.
  (** First axis of minimal length. *)
  Lemma argmin_spec l : l <> [] -> exists y, nth_error l (argmin l) = Some y /\
    forall j x, nth_error l j = Some x -> (y <= x)%Z /\ (j < argmin l -> (y < x)%Z).
  Proof.
    destruct l as [|x l]; [congruence|]. intros _. unfold argmin.
    destruct (argmin_from_spec l 1 0 x [x]) as [b [<- [y [H1 H2]]]]; auto.
    - intros [|[|j]] z Hz; cbn in Hz; try discriminate. injection Hz as <-. split; [lia|]. intros; lia.
    - exists y. auto.
  Qed.
  Lemma argmin_unique l k y : nth_error l k = Some y ->
    (forall j x, nth_error l j = Some x -> (y <= x)%Z /\ (j < k -> (y < x)%Z)) -> argmin l = k.
  Proof.
    intros Hk Hm. destruct (argmin_spec l) as [z [Hz Hz2]]; [destruct l; [destruct k; discriminate|discriminate]|].
    destruct (Nat.lt_trichotomy (argmin l) k) as [C|[C|C]]; [|exact C|].
    - destruct (Hm _ _ Hz) as [A B]. destruct (Hz2 _ _ Hk) as [A' _]. lia.
    - destruct (Hz2 _ _ Hk) as [A B]. destruct (Hm _ _ Hz) as [A' _]. lia.
  Qed.

  (** *** Slicing *)
  Lemma increasing_iff l : increasing l = true <-> StronglySorted Z.lt l.
  Proof.
    induction l as [|a l IH].
    - split; [constructor|reflexivity].
    - destruct l as [|b l].
      + split; [repeat constructor|reflexivity].
      + change (increasing (a :: b :: l)) with ((a <? b)%Z && increasing (b :: l)). rewrite andb_true_iff, IH. split.
        * intros [H1 H2]. constructor; [exact H2|]. inversion_clear H2. constructor; [lia|].
          eapply Forall_impl; [|exact H0]. intros; lia.
        * intros H. inversion_clear H. split; [|assumption]. inversion_clear H1. lia.
  Qed.
  Lemma sorted_unique l1 : forall l2, StronglySorted Z.lt l1 -> StronglySorted Z.lt l2 ->
    (forall i, In i l1 <-> In i l2) -> l1 = l2.
  Proof.
    induction l1 as [|a l1 IH]; intros [|b l2] H1 H2 H.
    - reflexivity.
    - exfalso. apply (H b). now left.
    - exfalso. apply (H a). now left.
    - inversion_clear H1 as [|? ? S1 F1]. inversion_clear H2 as [|? ? S2 F2]. rewrite Forall_forall in F1, F2.
      assert (a = b).
      { destruct (proj1 (H a) (or_introl eq_refl)) as [|Ha]; [congruence|].
        destruct (proj2 (H b) (or_introl eq_refl)) as [|Hb]; [congruence|].
        specialize (F1 _ Hb). specialize (F2 _ Ha). lia. }
      subst. f_equal. apply IH; auto. intros i. split; intros Hi.
      + destruct (proj1 (H i) (or_intror Hi)) as [<-|]; [|assumption]. specialize (F1 _ Hi). lia.
      + destruct (proj2 (H i) (or_intror Hi)) as [<-|]; [|assumption]. specialize (F2 _ Hi). lia.
  Qed.
  Lemma map_sorted (h : nat -> Z) l : (forall a b, a < b -> (h a < h b)%Z) -> StronglySorted Nat.lt l -> StronglySorted Z.lt (map h l).
  Proof.
    intros Hh. induction 1 as [|a l _ IH F]; cbn [map]; constructor; [exact IH|].
    apply Forall_forall. intros x Hx. apply in_map_iff in Hx. destruct Hx as [y [<- Hy]].
    rewrite Forall_forall in F. apply Hh, F, Hy.
  Qed.
  Lemma seq_sorted n : forall k, StronglySorted Nat.lt (seq k n).
  Proof.
    induction n as [|n IH]; intros k; cbn [seq]; constructor; [apply IH|].
    apply Forall_forall. intros x Hx. apply in_seq in Hx. unfold Nat.lt. lia.
  Qed.
  Lemma zrange_sorted a b : StronglySorted Z.lt (zrange a b).
  Proof.
    unfold zrange. apply map_sorted; [intros; lia|apply seq_sorted].
  Qed.

  (** The indices an index argument stands for. *)
  Definition chosen (l li : list Z) : Prop :=
    match l with
    | [start; stop; step] =>
        ((0 < step)%Z /\ StronglySorted Z.lt li /\ forall i, In i li <-> exists k, (0 <= k /\ i = start + step * k /\ i < stop)%Z) \/
        ((step < 0)%Z /\ StronglySorted Z.gt li /\ forall i, In i li <-> exists k, (0 <= k /\ i = start + step * k /\ stop < i)%Z)
    | [start; stop] => StronglySorted Z.lt li /\ forall i, In i li <-> (start <= i < stop)%Z
    | _ => li = l
    end.
  Lemma sorted_gt_neg l : StronglySorted Z.gt l -> StronglySorted Z.lt (map Z.opp l).
  Proof.
    induction 1 as [|a l _ IH F]; cbn [map]; constructor; [exact IH|].
    apply Forall_forall. intros x Hx. apply in_map_iff in Hx. destruct Hx as [y [<- Hy]]. rewrite Forall_forall in F. specialize (F y Hy). lia.
  Qed.
  Lemma sorted_gt_unique l l' : StronglySorted Z.gt l -> StronglySorted Z.gt l' -> (forall i, In i l <-> In i l') -> l = l'.
  Proof.
    intros S S' H. assert (E : map Z.opp l = map Z.opp l').
    { apply sorted_unique; [now apply sorted_gt_neg|now apply sorted_gt_neg|]. intros i. rewrite !in_map_iff. split; intros [x [<- Hx]]; exists x; split; auto; now apply H. }
    apply (f_equal (map Z.opp)) in E. rewrite !map_map in E. rewrite (map_ext _ (fun x => x)), map_id in E by (intros; lia).
    rewrite (map_ext _ (fun x => x)), map_id in E by (intros; lia). exact E.
  Qed.
  Lemma chosen_list l li : chosen l li -> list_index l = Ok li.
  Proof.
    unfold chosen, list_index. destruct l as [|a [|b [|s [|]]]]; try (intros ->; reflexivity).
    - intros [S H]. f_equal. apply sorted_unique; [apply zrange_sorted|exact S|]. intros i. rewrite in_zrange, H. reflexivity.
    - intros [[Hs [S H]]|[Hs [S H]]]; unfold pyrange; replace (s =? 0)%Z with false by lia.
      + replace (0 <? s)%Z with true by lia.
        f_equal. apply sorted_unique; [|exact S|].
        * unfold zrange_step. apply map_sorted; [intros; nia|apply seq_sorted].
        * intros i. rewrite in_zrange_step, H by assumption. reflexivity.
      + replace (0 <? s)%Z with false by lia. f_equal. apply sorted_gt_unique; [|exact S|].
        * assert (Q := zrange_sorted 0 ((a - b - s - 1) / - s)). induction Q as [|x q _ IH F]; cbn [map]; constructor; [exact IH|].
          apply Forall_forall. intros y Hy. apply in_map_iff in Hy. destruct Hy as [z [<- Hz]]. rewrite Forall_forall in F. specialize (F z Hz). nia.
        * intros i. rewrite H, in_map_iff. split.
          -- intros [k [<- Hk]]. apply in_zrange in Hk. exists k. repeat split; try lia.
             assert ((- s) * ((a - b - s - 1) / - s) <= a - b - s - 1)%Z by (apply Z.mul_div_le; lia). nia.
          -- intros [k [K0 [-> K1]]]. exists k. split; [reflexivity|]. apply in_zrange. split; [lia|].
             assert (k + 1 <= (a - b - s - 1) / - s)%Z; [|lia]. apply Z.div_le_lower_bound; nia.
  Qed.

  (** What the user asks for: index i along an axis of a 3D array. *)
  Definition at3 (a : ndarr T) (axis : nat) (i r c : Z) : T :=
    match axis with O => nval a [i; r; c] | S O => nval a [r; i; c] | _ => nval a [r; c; i] end.
  Definition plane_shape (axis : nat) (d0 d1 d2 : Z) : list Z :=
    match axis with O => [d1; d2] | S O => [d0; d2] | _ => [d0; d1] end.
  Definition extent (axis : nat) (d0 d1 d2 : Z) : Z := match axis with O => d0 | S O => d1 | _ => d2 end.
  Definition clip_axis (axis : Z) : nat := Z.to_nat (Z.min (Z.max axis 0) 2).
  Lemma clip_cases axis : ((axis <= 0)%Z /\ clip_axis axis = 0) \/ (axis = 1%Z /\ clip_axis axis = 1) \/
    ((2 <= axis)%Z /\ clip_axis axis = 2).
  Proof. unfold clip_axis. lia. Qed.

  Lemma slice_int (f32 : T -> T) (a : ndarr T) d0 d1 d2 i j axis :
    nshape a = [d0; d1; d2] -> (0 < d0)%Z -> (0 < d1)%Z -> (0 < d2)%Z ->
    let k := clip_axis axis in
    (i = j \/ i + extent k d0 d1 d2 = j)%Z -> ((i < 0)%Z <-> (i <> j)%Z) -> (0 <= j < extent k d0 d1 d2)%Z ->
    let e := match k with O => d1 | S O => d2 | _ => d1 end in
    (e <> 1%Z -> exists m, slice_dataset f32 a (IInt i) axis = Ok m /\ nshape m = plane_shape k d0 d1 d2 /\
        forall r c, nval m [r; c] = f32 (at3 a k j r c)) /\
    (e = 1%Z -> k = 0 -> exists m, slice_dataset f32 a (IInt i) axis = Ok m /\ nshape m = [d2] /\
        forall c, nval m [c] = f32 (nval a [j; 0%Z; c])) /\
    (e = 1%Z -> k <> 0 -> slice_dataset f32 a (IInt i) axis = Err IndexError).
  Proof.
    intros Hs H0 H1 H2 k Hj Hn Hr. cbv zeta.
    unfold slice_dataset. rewrite Hs. cbn [List.length]. fold (clip_axis axis). fold k.
    unfold take_int. rewrite Hs.
    assert (Ed : dim [d0; d1; d2] k = extent k d0 d1 d2).
    { destruct (clip_cases axis) as [[_ E]|[[_ E]|[_ E]]]; unfold k; rewrite E; reflexivity. }
    rewrite Ed.
    assert (Ej : (if (i <? 0)%Z then i + extent k d0 d1 d2 else i)%Z = j) by (destruct (i <? 0)%Z eqn:E; lia).
    rewrite Ej. replace ((j <? 0) || (extent k d0 d1 d2 <=? j))%Z with false by lia. cbn [bind].
    unfold squeeze, shape_at.
    destruct (clip_cases axis) as [[_ E]|[[_ E]|[_ E]]]; unfold k; rewrite E;
      cbv [Nat.min del_nth ndmap nshape nval nth_error bind plane_shape at3 ins_nth].
    - split; [|split; [|congruence]].
      + intros He. replace (d1 =? 1)%Z with false by lia. 
        replace (d1 =? 0)%Z with false by lia. eexists. split; [reflexivity|]. split; reflexivity.
      + intros -> _. change (1 =? 1)%Z with true. cbv [swap_first ndmap nshape nval tl nth_error bind]. replace (d2 =? 0)%Z with false by lia.
        eexists. split; [reflexivity|]. split; reflexivity.
    - split; [|split; [congruence|]].
      + intros He. replace (d2 =? 1)%Z with false by lia. 
        replace (d2 =? 0)%Z with false by lia. eexists. split; [reflexivity|]. split; reflexivity.
      + intros -> _. reflexivity.
    - split; [|split; [congruence|]].
      + intros He. replace (d1 =? 1)%Z with false by lia. 
        replace (d1 =? 0)%Z with false by lia. eexists. split; [reflexivity|]. split; reflexivity.
      + intros -> _. reflexivity.
  Qed.
  Lemma slice_int_out (f32 : T -> T) (a : ndarr T) d0 d1 d2 i axis : nshape a = [d0; d1; d2] ->
    (i < - extent (clip_axis axis) d0 d1 d2 \/ extent (clip_axis axis) d0 d1 d2 <= i)%Z ->
    (0 <= extent (clip_axis axis) d0 d1 d2)%Z ->
    slice_dataset f32 a (IInt i) axis = Err IndexError.
  Proof.
    intros Hs Hi He. unfold slice_dataset. rewrite Hs. cbn [List.length]. fold (clip_axis axis).
    unfold take_int. rewrite Hs.
    assert (Ed : dim [d0; d1; d2] (clip_axis axis) = extent (clip_axis axis) d0 d1 d2).
    { destruct (clip_cases axis) as [[_ E]|[[_ E]|[_ E]]]; rewrite E; reflexivity. }
    rewrite Ed. destruct (i <? 0)%Z eqn:E.
    - replace ((i + extent (clip_axis axis) d0 d1 d2 <? 0) || (extent (clip_axis axis) d0 d1 d2 <=? i + extent (clip_axis axis) d0 d1 d2))%Z
        with true by lia. reflexivity.
    - replace ((i <? 0) || (extent (clip_axis axis) d0 d1 d2 <=? i))%Z with true by lia. reflexivity.
  Qed.

  Lemma slice_seq_rejected (f32 : T -> T) (a : ndarr T) d0 d1 d2 l li axis :
    nshape a = [d0; d1; d2] -> let k := clip_axis axis in chosen l li ->
    ~ (StronglySorted Z.lt li /\ forall i, In i li -> 0 <= i < extent k d0 d1 d2)%Z ->
    slice_dataset f32 a (ISeq l) axis = Err External.
  Proof.
    intros Hs k Hc Hno. pose proof (chosen_list _ _ Hc) as HL.
    unfold slice_dataset. rewrite Hs. cbn [List.length]. fold (clip_axis axis). fold k.
    rewrite HL. cbn [bind]. unfold take_list. rewrite Hs.
    assert (Ed : dim [d0; d1; d2] k = extent k d0 d1 d2).
    { destruct (clip_cases axis) as [[_ E]|[[_ E]|[_ E]]]; unfold k; rewrite E; reflexivity. }
    rewrite Ed. destruct (increasing li) eqn:EI; [|reflexivity]. apply increasing_iff in EI.
    destruct (forallb _ li) eqn:EF; [|reflexivity]. exfalso. apply Hno. split; [exact EI|].
    intros i Hi. rewrite forallb_forall in EF. specialize (EF i Hi). lia.
  Qed.
  Lemma slice_seq_zero (f32 : T -> T) (a : ndarr T) d0 d1 d2 start stop axis :
    nshape a = [d0; d1; d2] -> slice_dataset f32 a (ISeq [start; stop; 0%Z]) axis = Err ValueError.
  Proof. intros Hs. unfold slice_dataset. rewrite Hs. reflexivity. Qed.
  Lemma slice_seq (f32 : T -> T) (a : ndarr T) d0 d1 d2 l li axis :
    nshape a = [d0; d1; d2] -> (0 < d0)%Z -> (0 < d1)%Z -> (0 < d2)%Z ->
    let k := clip_axis axis in
    chosen l li -> StronglySorted Z.lt li -> (forall i, In i li -> 0 <= i < extent k d0 d1 d2)%Z ->
    (li = [] -> slice_dataset f32 a (ISeq l) axis = Err ValueError) /\
    (forall i, li = [i] -> k <= 1 -> exists m, slice_dataset f32 a (ISeq l) axis = Ok m /\
        nshape m = plane_shape k d0 d1 d2 /\ forall r c, nval m [r; c] = f32 (at3 a k i r c)) /\
    (forall i, li = [i] -> k = 2 -> slice_dataset f32 a (ISeq l) axis = Err IndexError) /\
    (2 <= List.length li -> exists m, slice_dataset f32 a (ISeq l) axis = Ok m /\
        nshape m = set_nth k (Z.of_nat (List.length li)) [d0; d1; d2] /\
        forall n i, nth_error li n = Some i -> forall r c,
          at3 m k (Z.of_nat n) r c = f32 (at3 a k i r c)).
  Proof.
    intros Hs H0 H1 H2 k Hc Hsort Hr. pose proof (chosen_list _ _ Hc) as HL.
    unfold slice_dataset. rewrite Hs. cbn [List.length]. fold (clip_axis axis). fold k.
    rewrite HL. cbn [bind]. unfold take_list. rewrite Hs, (proj2 (increasing_iff li) Hsort).
    assert (Ed : dim [d0; d1; d2] k = extent k d0 d1 d2).
    { destruct (clip_cases axis) as [[_ E]|[[_ E]|[_ E]]]; unfold k; rewrite E; reflexivity. }
    assert (Ef : forallb (fun i => ((0 <=? i) && (i <? dim [d0; d1; d2] k))%Z) li = true).
    { apply forallb_forall. intros i Hi. rewrite Ed. specialize (Hr i Hi). lia. }
    rewrite Ef. cbn [andb bind]. unfold squeeze, shape_at.
    destruct (clip_cases axis) as [[_ E]|[[_ E]|[_ E]]]; unfold k; rewrite E;
      cbv [set_nth ndmap nshape nval nth_error bind plane_shape at3].
    - repeat split.
      + intros ->. reflexivity.
      + intros i -> _. change (Z.of_nat (List.length [i]) =? 1)%Z with true. cbv [swap_first ndmap nshape nval tl hd set_nth nth_error bind].
        replace (d1 =? 0)%Z with false by lia. eexists. repeat split.
      + discriminate.
      + intros Hl. replace (Z.of_nat (List.length li) =? 1)%Z with false by lia. 
        replace (Z.of_nat (List.length li) =? 0)%Z with false by lia. eexists. split; [reflexivity|]. split; [reflexivity|].
        intros n i Hn r c. cbn [nval nth set_nth]. rewrite Nat2Z.id. now rewrite (nth_error_nth li n 0%Z Hn).
    - repeat split.
      + intros ->. reflexivity.
      + intros i -> _. change (Z.of_nat (List.length [i]) =? 1)%Z with true. cbv [swap_first ndmap nshape nval tl hd set_nth nth_error bind].
        replace (d2 =? 0)%Z with false by lia. eexists. repeat split.
      + discriminate.
      + intros Hl. replace (Z.of_nat (List.length li) =? 1)%Z with false by lia. 
        replace (Z.of_nat (List.length li) =? 0)%Z with false by lia. eexists. split; [reflexivity|]. split; [reflexivity|].
        intros n i Hn r c. cbn [nval nth set_nth]. rewrite Nat2Z.id. now rewrite (nth_error_nth li n 0%Z Hn).
    - repeat split.
      + intros ->. reflexivity.
      + intros; lia.
      + intros i -> _. reflexivity.
      + intros Hl. replace (Z.of_nat (List.length li) =? 1)%Z with false by lia. 
        replace (Z.of_nat (List.length li) =? 0)%Z with false by lia. eexists. split; [reflexivity|]. split; [reflexivity|].
        intros n i Hn r c. cbn [nval nth set_nth]. rewrite Nat2Z.id. now rewrite (nth_error_nth li n 0%Z Hn).
  Qed.

  (** *** Loading from a file *)
  Lemma load_at s key index axis f root : look f (get_path win cwd s) = Some (File (CHdf root)) ->
    load_hdf_file win cwd s key index axis f = (f, load_open nf32 root key index axis).
  Proof.
    intros H. unfold load_hdf_file, ibind at 1, as_value_error, checked_path, open_hdf.
    unfold ibind, get. assert (E : exists_ f (get_path win cwd s) = true) by (apply exists_look; congruence).
    rewrite E. unfold ret. rewrite H. reflexivity.
  Qed.

  Lemma saved_hdf s idata key ow f f' q : save_hdf_file win cwd s idata key ow f = (f', Ok q) ->
    exists c cs, comps key = c :: cs /\
      look f' q = Some (File (CHdf (HHard c (chain cs (HGroup (HHard (lit "data") (HData idata) HNil))) HNil))).
  Proof.
    rewrite save_hdf_saver. destruct (target win cwd hdf_exts (lit ".hdf") s) as [p|e]; [|discriminate].
    intros H. destruct (saver_last _ _ _ _ _ _ H) as [[g [q' [Hw _]]]|[e [He _]]]; [|discriminate].
    destruct (w_hdf_done _ _ _ _ _ _ Hw) as [[e [He _]]|[[e [He _]]|[root [_ [Hq [Hl [Hc _]]]]]]]; [discriminate..|].
    injection Hq as <-. destruct (comps key) as [|c cs]; [discriminate|]. cbn [hcreate] in Hc. injection Hc as <-. eauto.
  Qed.

  Lemma data_root_key c cs d : Forall good_key (c :: cs) ->
    let root := HHard c (chain cs (HGroup (HHard (lit "data") (HData d) HNil))) HNil in
    auto_key (T := T) root = Some (slash :: keytext (c :: cs) ++ slash :: lit "data").
  Proof.
    intros Hg root. set (o := HGroup (HHard (lit "data") (HData d) HNil)).
    assert (R : reach root (c :: cs) o) by apply chain_reach.
    destruct (auto_key root) as [k|] eqn:E.
    - apply auto_key_some in E. destruct E as [l1 [p [g [l2 [E [Hd [_ ->]]]]]]].
      assert (Hr : reach root p (HGroup g)).
      { apply visit_iff. rewrite E. apply in_app_iff. right. now left. }
      destruct (chain_inv _ _ _ _ _ Hr) as [[q [r [-> [Hr0 [-> Hx]]]]]|[[-> _]|[g2 [q [Hg2 [-> Hq]]]]]].
      + exfalso. destruct r as [|n r]; [congruence|]. cbn [chain] in Hx. injection Hx as ->.
        destruct Hd as [l [d' [[Hl|[]] Ht]]]. injection Hl as -> <-. cbn [target_of] in Ht.
        destruct r; discriminate.
      + reflexivity.
      + exfalso. injection Hg2 as <-. inversion Hq as [g' n o' Hl|g' n g'' p' o' Hl Hr']; subst; destruct Hl as [Hl|[]]; discriminate.
    - exfalso. rewrite auto_key_none in E. apply (E _ _ R). exists (LHard (HData d)), d. split; [now left|reflexivity].
  Qed.

  Lemma hdf_round_trip s s' idata key ow f f' q key' axis :
    save_hdf_file win cwd s idata key ow f = (f', Ok q) -> get_path win cwd s' = q ->
    (key' = None \/ exists k, key' = Some k /\ comps k = comps key ++ [lit "data"]) ->
    load_hdf_file win cwd s' key' INone axis f' =
      (f', match nshape (darr idata) with
           | [_; _] => Ok (darr idata)
           | [_; _; _] => Ok (ndmap nf32 (darr idata))
           | _ => Err ValueError
           end).
  Proof.
    intros Hs Hp Hk. destruct (saved_hdf _ _ _ _ _ _ _ Hs) as [c [cs [Ec Hl]]]. rewrite <- Hp in Hl.
    rewrite (load_at _ _ _ _ _ _ Hl). f_equal. unfold load_open.
    assert (Hg : Forall good_key (c :: cs)) by (rewrite <- Ec; apply comps_good).
    set (root := HHard c _ HNil).
    assert (W : wf_items root).
    { inversion_clear Hg as [|? ? Hg1 Hg2]. unfold root. cbn [wf_items hnames]. split; [exact Hg1|]. split; [auto|]. split; [|exact I].
      apply chain_wf; [exact Hg2|]. cbn [wf_obj wf_items hnames]. repeat split; auto; try discriminate.
      repeat constructor; discriminate. }
    assert (X : exists k, match key' with Some k => Ok k | None => match auto_key root with Some k => Ok k | None => Err ValueError end end = Ok k
                 /\ lookup root k = Some (HData idata)).
    { destruct Hk as [->|[k [-> Hk]]].
      - unfold root at 1. rewrite (data_root_key c cs idata Hg). eexists. split; [reflexivity|].
        eapply auto_key_lookup; [exact W|apply chain_reach|now left|reflexivity].
      - exists k. split; [reflexivity|]. unfold lookup. rewrite Hk, Ec, hget_app.
        destruct (reach_get _ _ _ (chain_reach c cs (HGroup (HHard (lit "data") (HData idata) HNil))) W) as [G _].
        fold root in G. rewrite G. reflexivity. }
    destruct X as [k [-> Hx]]. cbn [bind]. rewrite Hx. unfold slice_dataset.
    destruct (nshape (darr idata)) as [|? [|? [|? [|? ?]]]]; reflexivity.
  Qed.

  (** *** Streams *)
  Lemma stream_options_add key q opts : forall root f f' root',
    stream_options key q root opts f = (f', Ok root') ->
    add_all opts root = Ok root' /\ forall k d, In (k, d) opts -> contains key k = false.
  Proof.
    induction opts as [|[k d] opts IH]; intros root f f' root'; cbn [stream_options add_all].
    - intros H. injection H as _ <-. split; [reflexivity|]. intros k d [].
    - destruct (contains key k) eqn:Ec; [discriminate|]. unfold ibind, lift, update_file.
      destruct (hcreate (comps k) (HData d) root) as [r|e]; [|discriminate]. cbn beta iota. intros H.
      destruct (IH _ _ _ _ H) as [A B]. cbn [bind]. split; [exact A|]. intros k' d' [E|Hi]; [|eauto].
      injection E as -> ->. exact Ec.
  Qed.
  Lemma add_all_keeps opts : forall root root', add_all (T := T) opts root = Ok root' ->
    (forall p d, hget (HGroup root) p = Some (HData d) -> hget (HGroup root') p = Some (HData d)) /\
    (forall k d, In (k, d) opts -> lookup root' k = Some (HData d)).
  Proof.
    induction opts as [|[k d] opts IH]; intros root root'; cbn [add_all].
    - intros H. injection H as ->. split; [auto|]. intros k d [].
    - destruct (hcreate (comps k) (HData d) root) as [r|e] eqn:E; [|discriminate]. cbn [bind]. intros H.
      destruct (IH _ _ H) as [A B]. destruct (proj2 hcreate_spec _ _ _ _ E) as [C D]. split.
      + intros p d' Hp. apply A, D, Hp.
      + intros k' d' [X|Hi]; [|auto]. injection X as -> ->. unfold lookup. apply A, C.
  Qed.
  Lemma stream_done s shape key dt ow options f f' q :
    open_hdf_stream win cwd s shape key dt ow options f = (f', Ok q) ->
    exists root, look f' q = Some (File (CHdf root)) /\
      lookup root key = Some (HData (zeros dt shape)) /\
      forall grp k d, In grp options -> In (k, d) (snd grp) -> lookup root k = Some (HData d) /\ contains key k = false.
  Proof.
    rewrite stream_saver. destruct (target win cwd hdf_exts (lit ".hdf") s) as [p|e]; [|discriminate].
    intros H. destruct (saver_last _ _ _ _ _ _ H) as [[g [q' [Hw _]]]|[e [He _]]]; [|discriminate].
    clear H. unfold w_stream, ibind at 1 in Hw.
    destruct (as_value_error (write_file q' (CHdf HNil)) g) as [f1 r1] eqn:E1.
    destruct (opened _ _ _ _ E1) as [[-> _]|[-> [-> [Hq0 _]]]]; [discriminate|].
    unfold ibind at 1 in Hw. destruct (stream_options key q' HNil _ _) as [f2 r2] eqn:E2.
    destruct r2 as [root|e]; [|discriminate]. unfold ibind, lift, update_file in Hw.
    destruct (hcreate (comps key) (HData (zeros dt shape)) root) as [root'|e] eqn:E3; [|discriminate].
    unfold ret in Hw. injection Hw as <- <-. exists root'. split; [now apply look_cons_same|].
    destruct (proj2 hcreate_spec _ _ _ _ E3) as [C D]. destruct (stream_options_add _ _ _ _ _ _ _ E2) as [A B].
    destruct (add_all_keeps _ _ _ A) as [_ K]. split; [exact C|]. intros grp k d Hg Hk.
    assert (Hi : In (k, d) (flat_map snd options)) by (apply in_flat_map; eauto).
    split; [|now apply (B k d)]. unfold lookup. apply D, K, Hi.
  Qed.
  (** A bad option key: ValueError, and the target file holds only the options
      before it. *)
  Lemma stream_bad s shape key dt options f p opts1 k d opts2 root :
    target win cwd hdf_exts (lit ".hdf") s = Ok p ->
    (forall x b, parent p = x ++ b -> is_file f x = false) -> look f p <> Some Dir ->
    flat_map snd options = opts1 ++ (k, d) :: opts2 -> contains key k = true ->
    (forall k d, In (k, d) opts1 -> contains key k = false) -> add_all opts1 HNil = Ok root ->
    exists f', open_hdf_stream win cwd s shape key dt true options f = (f', Err ValueError) /\
      look f' p = Some (File (CHdf root)).
  Proof.
    intros Ht Hd Hp Ho Hk H1 Ha. rewrite stream_saver, Ht.
    assert (Hs : suffix p <> []).
    { unfold target in Ht. apply default_ext_suffix in Ht; [tauto|apply is_ext_hdf|].
      intros x [<-|[<-|[<-|[<-|[]]]]]; discriminate. }
    destruct (saver_reaches p true (w_stream key dt shape (flat_map snd options)) f Hs Hd)
      as [g [q [-> [_ [Hpar [_ [Hq [_ [Hl Hne]]]]]]]]].
    rewrite (Hq eq_refl) in *. clear Hq. unfold w_stream, ibind at 1, as_value_error.
    rewrite write_ok; [|rewrite Hl; exact Hp|exact Hpar|exact Hne]. unfold ibind at 1. rewrite Ho.
    destruct (stream_options_stop key p opts1 k d opts2 HNil ((p, File (CHdf HNil)) :: g)) with (root' := root) as [f' [E L]]; auto.
    - now apply look_cons_same.
    - rewrite E. eauto.
  Qed.
End S.
