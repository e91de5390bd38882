(** json.load reads back what json.dump wrote. *)
From Coq Require Import Ascii String Decimal DecimalString DecimalZ DecimalPos DecimalNat DecimalFacts.
From Verif Require Import Base Text Json.

Section Ind.
  Context {T : Type}.
  Variable P : jval T -> Prop.
  Hypothesis HInt : forall z, P (JInt z).
  Hypothesis HFloat : forall x, P (JFloat x).
  Hypothesis HNull : P JNull.
  Hypothesis HBool : forall b, P (JBool b).
  Hypothesis HList : forall l, Forall P l -> P (JList l).
  Hypothesis HObj : forall l, Forall (fun kv => P (snd kv)) l -> P (JObj l).
  Fixpoint jval_ind' (v : jval T) : P v :=
    match v with
    | JInt z => HInt z | JFloat x => HFloat x | JNull => HNull | JBool b => HBool b
    | JList l => HList l ((fix go l := match l return Forall P l with
                           | [] => Forall_nil _ | x :: l' => Forall_cons x (jval_ind' x) (go l') end) l)
    | JObj l => HObj l ((fix go l := match l return Forall (fun kv => P (snd kv)) l with
                           | [] => Forall_nil _ | x :: l' => Forall_cons x (jval_ind' (snd x)) (go l') end) l)
    end.
End Ind.
Section PInd.
  Context {T : Type}.
  Variable P : pyval T -> Prop.
  Hypothesis H1 : forall z, P (PInt z).
  Hypothesis H2 : forall x, P (PFloat x).
  Hypothesis H3 : forall z, P (PNpInt z).
  Hypothesis H4 : forall x, P (PNpFloat x).
  Hypothesis H5 : P PNone.
  Hypothesis H6 : forall b, P (PBool b).
  Hypothesis H7 : forall l, Forall P l -> P (PList l).
  Hypothesis H8 : forall l, Forall P l -> P (PTuple l).
  Hypothesis H9 : forall v, P (PArr v).
  Hypothesis H10 : P POther.
  Fixpoint pyval_ind' (v : pyval T) : P v :=
    let fix go l := match l return Forall P l with
                    | [] => Forall_nil _ | x :: l' => Forall_cons x (pyval_ind' x) (go l') end in
    match v with
    | PInt z => H1 z | PFloat x => H2 x | PNpInt z => H3 z | PNpFloat x => H4 x
    | PNone => H5 | PBool b => H6 b | PList l => H7 l (go l) | PTuple l => H8 l (go l)
    | PArr w => H9 w | POther => H10
    end.
End PInd.

Definition okrest (r : text) : Prop := match r with [] => True | c :: _ => delim c = true end.

Lemma jws_delim c : jws c = true -> delim c = true.
Proof. unfold delim. intros ->. reflexivity. Qed.
Lemma skip_ws w s : Forall (fun c => jws c = true) w -> skip (w ++ s) = skip s.
Proof. induction 1 as [|c w H _ IH]; cbn [app skip]; [reflexivity|]. now rewrite H. Qed.
Lemma skip_stop c s : jws c = false -> skip (c :: s) = c :: s.
Proof. intros H. cbn [skip]. now rewrite H. Qed.
Lemma nl_ws lvl : Forall (fun c => jws c = true) (nl lvl).
Proof.
  unfold nl. constructor; [reflexivity|]. apply Forall_forall. intros c Hc.
  apply repeat_spec in Hc. now subst.
Qed.
Lemma token_ok a r : Forall (fun c => delim c = false) a -> okrest r -> token (a ++ r) = (a, r).
Proof.
  intros Ha Hr. induction Ha as [|c a H _ IH]; cbn [app].
  - destruct r as [|c r]; [reflexivity|]. cbn [token]. cbn in Hr. now rewrite Hr.
  - cbn [token]. now rewrite H, IH.
Qed.
Lemma pkey_ok k r : Forall (fun c => c <> """"%char) k -> pkey (k ++ """"%char :: r) = Some (k, r).
Proof.
  induction 1 as [|c k H _ IH]; cbn [app pkey]; [reflexivity|].
  unfold aeqb. destruct (Ascii.eqb_spec c """"%char) as [E|E]; [congruence|]. now rewrite IH.
Qed.

(** Integers. *)
Lemma to_uint_pos_nonnil p : Pos.to_uint p <> Nil.
Proof. apply DecimalPos.Unsigned.to_uint_nonnil. Qed.
Lemma zdec_parse z : zparse (zdec z) = Some z.
Proof.
  unfold zparse, zdec, lit. rewrite string_of_list_ascii_of_string.
  rewrite NilZero.isi.
  - now rewrite DecimalZ.of_to.
  - destruct z; cbn; try discriminate. intros H. injection H. apply to_uint_pos_nonnil.
  - destruct z; cbn; try discriminate. intros H. injection H. apply to_uint_pos_nonnil.
Qed.
Lemma digit_not_delim c : is_digit c = true -> delim c = false.
Proof.
  intros H. destruct c as [[] [] [] [] [] [] [] []]; vm_compute in H |- *; congruence.
Qed.
Lemma uint_nilzero d : Forall (fun c => is_digit c = true) (lit (NilZero.string_of_uint d)) /\
  lit (NilZero.string_of_uint d) <> [].
Proof.
  destruct d; (split; [|cbn; congruence]);
  try (cbn [NilZero.string_of_uint]; apply (uint_digits (_ _))).
  cbn. repeat constructor.
Qed.
Lemma zdec_chars z : Forall (fun c => delim c = false) (zdec z) /\ zdec z <> [].
Proof.
  unfold zdec. destruct (Z.to_int z) as [d|d]; cbn [NilZero.string_of_int].
  - destruct (uint_nilzero d) as [A B]. split; [|exact B].
    eapply Forall_impl; [|exact A]. exact digit_not_delim.
  - destruct (uint_nilzero d) as [A _]. cbn. split; [|discriminate]. constructor; [reflexivity|].
    eapply Forall_impl; [|exact A]. exact digit_not_delim.
Qed.

Section Facts.
  Context {T : Type}.
  Variables (repr : T -> text) (parse_float : text -> option T).
  Notation print := (print repr). Notation scalar := (scalar parse_float).
  Notation pval := (pval parse_float). Notation pelems := (pelems parse_float).
  Notation pmembers := (pmembers parse_float).
  Hypothesis repr_ok : float_repr_ok repr parse_float.

  Lemma scalar_zdec z : scalar (zdec z) = Some (JInt z).
  Proof.
    unfold Json.scalar.
    assert (H : forall s, zparse (lit s) = None -> teqb (zdec z) (lit s) = false).
    { intros s Hs. destruct (teqb (zdec z) (lit s)) eqn:E; [|reflexivity].
      apply teqb_eq in E. rewrite <- E, zdec_parse in Hs. discriminate. }
    rewrite !H by reflexivity. now rewrite zdec_parse.
  Qed.

  Lemma pval_scalar n w a r v : Forall (fun c => jws c = true) w ->
    Forall (fun c => delim c = false) a -> a <> [] -> okrest r -> scalar a = Some v ->
    pval (S n) (w ++ a ++ r) = Some (v, r).
  Proof.
    intros Hw Ha Hne Hr Hs. destruct a as [|c a]; [congruence|].
    assert (Hc : delim c = false) by now inversion Ha.
    assert (Hj : jws c = false).
    { destruct (jws c) eqn:E; [|reflexivity]. apply jws_delim in E. congruence. }
    cbn [Json.pval]. rewrite skip_ws by assumption. cbn [app]. rewrite skip_stop by assumption.
    assert (H1 : aeqb c "[" = false).
    { unfold aeqb. destruct (Ascii.eqb_spec c "["%char); [subst; discriminate|reflexivity]. }
    assert (H2 : aeqb c "{" = false).
    { unfold aeqb. destruct (Ascii.eqb_spec c "{"%char); [subst; discriminate|reflexivity]. }
    rewrite H1, H2. change (c :: a ++ r) with ((c :: a) ++ r). rewrite (token_ok (c :: a) r Ha Hr). now rewrite Hs.
  Qed.

  (** What the induction provides for a value. *)
  Definition good (v : jval T) : Prop := forall n lvl w r,
    Forall (fun c => jws c = true) w -> okrest r -> (List.length (print lvl v) <= n)%nat ->
    pval n (w ++ print lvl v ++ r) = Some (v, r).

  Lemma print_head v lvl : exists c s, print lvl v = c :: s /\ jws c = false /\ c <> "]"%char /\ c <> "}"%char.
  Proof.
    assert (S : forall a : text, Forall (fun c => delim c = false) a -> a <> [] ->
      exists c s, a = c :: s /\ jws c = false /\ c <> "]"%char /\ c <> "}"%char).
    { intros [|c a] Ha Hne; [congruence|]. inversion_clear Ha. exists c, a. split; [reflexivity|].
      split; [|split].
      - destruct (jws c) eqn:E; [apply jws_delim in E; congruence|reflexivity].
      - intros ->. discriminate.
      - intros ->. discriminate. }
    destruct v as [z|x| |[]|[|x l]|[|x l]]; cbn [Json.print].
    - apply S; apply zdec_chars.
    - destruct (repr_ok x) as [A [B _]]. now apply S.
    - eexists _, _. split; [reflexivity|]. repeat split; discriminate.
    - eexists _, _. split; [reflexivity|]. repeat split; discriminate.
    - eexists _, _. split; [reflexivity|]. repeat split; discriminate.
    - eexists _, _. split; [reflexivity|]. repeat split; discriminate.
    - eexists _, _. split; [reflexivity|]. repeat split; discriminate.
    - eexists _, _. split; [reflexivity|]. repeat split; discriminate.
    - eexists _, _. split; [reflexivity|]. repeat split; discriminate.
  Qed.

  Lemma nl_okrest lvl s : okrest (nl lvl ++ s).
  Proof. reflexivity. Qed.

  Lemma elems_good lvl r : forall l, l <> [] -> Forall good l ->
    forall n, (S (List.length (join (","%char :: nl (S lvl)) (map (print (S lvl)) l))) <= n)%nat ->
    pelems n (nl (S lvl) ++ join (","%char :: nl (S lvl)) (map (print (S lvl)) l) ++ nl lvl ++ "]"%char :: r) = Some (l, r).
  Proof.
    induction l as [|x l IH]; intros Hne Hg n Hn; [congruence|].
    inversion_clear Hg. destruct n as [|n]; [lia|]. cbn [Json.pelems].
    destruct l as [|y l].
    - cbn [map join] in *. rewrite H by (auto using nl_ws, nl_okrest; lia).
      rewrite skip_ws by apply nl_ws. rewrite skip_stop by reflexivity. reflexivity.
    - change (join (","%char :: nl (S lvl)) (map (print (S lvl)) (x :: y :: l)))
        with (print (S lvl) x ++ (","%char :: nl (S lvl)) ++ join (","%char :: nl (S lvl)) (map (print (S lvl)) (y :: l))) in *.
      set (J := join _ (map (print (S lvl)) (y :: l))) in *.
      rewrite !app_length in Hn. cbn [List.length] in Hn.
      rewrite <- !app_assoc. rewrite H; [|apply nl_ws|reflexivity|lia].
      cbn [app]. rewrite skip_stop by reflexivity.
      change (aeqb "," "]") with false. change (aeqb "," ",") with true. cbv iota.
      unfold J. rewrite IH; [reflexivity|discriminate|assumption|fold J; lia].
  Qed.

  Lemma members_good lvl r : forall l, l <> [] -> Forall (fun kv => good (snd kv)) l ->
    Forall (fun kv => Forall (fun c => c <> """"%char) (fst kv)) l ->
    let pr := fun kv : text * jval T => quote (fst kv) ++ lit ": " ++ print (S lvl) (snd kv) in
    forall n, (S (List.length (join (","%char :: nl (S lvl)) (map pr l))) <= n)%nat ->
    pmembers n (nl (S lvl) ++ join (","%char :: nl (S lvl)) (map pr l) ++ nl lvl ++ "}"%char :: r) = Some (l, r).
  Proof.
    intros l Hne Hg Hk pr. revert Hne Hg Hk.
    induction l as [|x l IH]; intros Hne Hg Hk n Hn; [congruence|].
    inversion_clear Hg. inversion_clear Hk. destruct n as [|n]; [lia|]. cbn [Json.pmembers].
    rewrite skip_ws by apply nl_ws.
    assert (E : exists tl, join (","%char :: nl (S lvl)) (map pr (x :: l)) = pr x ++ tl /\
              (tl = [] /\ l = [] \/ l <> [] /\ tl = (","%char :: nl (S lvl)) ++ join (","%char :: nl (S lvl)) (map pr l))).
    { destruct l as [|y l]; [exists []; cbn [map join]; rewrite app_nil_r; auto|].
      eexists. split; [reflexivity|]. right. split; [discriminate|reflexivity]. }
    destruct E as [tl [E Htl]]. rewrite E in *. unfold pr in Hn |- *. fold pr.
    unfold quote in Hn |- *. rewrite !app_length in Hn. cbn [List.length] in Hn.
    rewrite <- !app_assoc. cbn [app]. rewrite skip_stop by reflexivity.
    change (negb (aeqb """" """")) with false. cbv iota.
    rewrite <- !app_assoc. cbn [app]. rewrite pkey_ok by assumption.
    change (lit ": ") with [":"%char; " "%char]. cbn [app].
    rewrite skip_stop by reflexivity. change (negb (aeqb ":" ":")) with false. cbv iota.
    change (" "%char :: print (S lvl) (snd x) ++ tl ++ nl lvl ++ "}"%char :: r)
      with ([" "%char] ++ print (S lvl) (snd x) ++ tl ++ nl lvl ++ "}"%char :: r).
    rewrite (H n (S lvl) [" "%char]); [|constructor; [reflexivity|apply Forall_nil]| |unfold text in *; lia].
    2:{ destruct Htl as [[-> _]|[_ ->]]; reflexivity. }
    destruct Htl as [[-> ->]|[Hl ->]].
    - cbn [app]. rewrite skip_ws by apply nl_ws. rewrite skip_stop by reflexivity.
      change (aeqb "}" "}") with true. cbv iota. now destruct x.
    - cbn [app]. rewrite skip_stop by reflexivity.
      change (aeqb "," "}") with false. change (aeqb "," ",") with true. cbv iota.
      rewrite <- !app_assoc. rewrite IH; [now destruct x|assumption..|].
      rewrite !app_length in Hn. cbn [List.length] in Hn. unfold text in *; lia.
  Qed.

  Lemma keys_list l : keys_ok (JList l) -> Forall (keys_ok (T := T)) l.
  Proof. induction l as [|x l IH]; cbn; [constructor|]. intros [A B]. constructor; auto. Qed.
  Lemma keys_obj l : keys_ok (JObj l) ->
    Forall (fun kv => Forall (fun c => c <> """"%char) (fst kv)) l /\ Forall (fun kv => keys_ok (T := T) (snd kv)) l.
  Proof.
    induction l as [|x l IH]; cbn; [split; constructor|]. intros [A [B C]].
    destruct (IH C). split; constructor; auto.
  Qed.

  Lemma all_good v : keys_ok v -> good v.
  Proof.
    induction v as [z|x| |b|l IH|l IH] using jval_ind'; intros Hk n lvl w r Hw Hr Hn.
    - destruct (zdec_chars z) as [A B].
      destruct n; [cbn [Json.print] in Hn; destruct (zdec z); [congruence|cbn in Hn; lia]|].
      apply pval_scalar; auto. apply scalar_zdec.
    - destruct (repr_ok x) as [A [B C]].
      destruct n; [cbn [Json.print] in Hn; destruct (repr x); [congruence|cbn in Hn; lia]|].
      now apply pval_scalar.
    - destruct n; [cbn in Hn; lia|]. apply pval_scalar; auto; [repeat constructor|discriminate].
    - destruct n; [destruct b; cbn in Hn; lia|].
      apply pval_scalar; auto; destruct b; try (repeat constructor); discriminate.
    - apply keys_list in Hk.
      assert (Hg : Forall good l).
      { rewrite Forall_forall in *. auto. }
      destruct n as [|n]; [destruct (print_head (JList l) lvl) as [c [s [E _]]]; rewrite E in Hn; cbn in Hn; lia|].
      destruct l as [|x l].
      + cbn [Json.print]. cbn [Json.pval]. rewrite skip_ws by assumption. reflexivity.
      + cbn [Json.print] in *. cbn [Json.pval]. rewrite skip_ws by assumption. cbn [app].
        rewrite skip_stop by reflexivity. change (aeqb "[" "[") with true. cbv iota.
        cbn [List.length] in Hn. rewrite !app_length in Hn. cbn [List.length] in Hn.
        rewrite <- !app_assoc. cbn [app].
        rewrite elems_good; [|discriminate|assumption|].
        2:{ unfold nl in Hn at 1. cbn [List.length] in Hn. lia. }
        rewrite skip_ws by apply nl_ws.
        assert (E : exists c s, join (","%char :: nl (S lvl)) (map (print (S lvl)) (x :: l)) = c :: s /\ jws c = false /\ c <> "]"%char).
        { destruct (print_head x (S lvl)) as [c [s [E [A [B _]]]]].
          destruct l as [|y l]; cbn [map join]; rewrite E; eexists _, _; (split; [reflexivity|auto]). }
        destruct E as [c [s [-> [E1 E2]]]]. cbn [app]. rewrite skip_stop by assumption.
        unfold aeqb. destruct (Ascii.eqb_spec c "]"%char); [congruence|reflexivity].
    - apply keys_obj in Hk. destruct Hk as [Hk1 Hk2].
      assert (Hg : Forall (fun kv => good (snd kv)) l).
      { rewrite Forall_forall in *. auto. }
      destruct n as [|n]; [destruct (print_head (JObj l) lvl) as [c [s [E _]]]; rewrite E in Hn; cbn in Hn; lia|].
      destruct l as [|x l].
      + cbn [Json.print]. cbn [Json.pval]. rewrite skip_ws by assumption. reflexivity.
      + cbn [Json.print] in *. cbn [Json.pval]. rewrite skip_ws by assumption. cbn [app].
        rewrite skip_stop by reflexivity. change (aeqb "{" "[") with false. change (aeqb "{" "{") with true. cbv iota.
        cbn [List.length] in Hn. rewrite !app_length in Hn. cbn [List.length] in Hn.
        rewrite <- !app_assoc. cbn [app].
        rewrite members_good; [|discriminate|assumption|assumption|].
        2:{ unfold nl in Hn at 1. cbn [List.length] in Hn. lia. }
        rewrite skip_ws by apply nl_ws.
        assert (E : exists s, join (","%char :: nl (S lvl)) (map (fun kv => quote (fst kv) ++ lit ": " ++ print (S lvl) (snd kv)) (x :: l)) = """"%char :: s).
        { destruct l as [|y l]; cbn [map join]; unfold quote; cbn [app]; eexists; reflexivity. }
        destruct E as [s ->]. cbn [app]. rewrite skip_stop by reflexivity. reflexivity.
  Qed.

  Lemma loads_print v : keys_ok v -> loads parse_float (print 0 v) = Some v.
  Proof.
    intros Hk. unfold loads.
    pose proof (all_good v Hk (S (List.length (print 0 v))) 0%nat [] [] (Forall_nil _) I ltac:(lia)) as H.
    cbn [app] in H. rewrite app_nil_r in H. now rewrite H.
  Qed.

  (** Encoding Python values. *)
  Fixpoint plain_all (l : list (pyval T)) : option (list (jval T)) :=
    match l with
    | [] => Some []
    | x :: l' => match plain x, plain_all l' with Some y, Some ys => Some (y :: ys) | _, _ => None end
    end.
  Lemma plain_PList l : plain (PList l) = match plain_all l with Some ys => Some (JList ys) | None => None end.
  Proof.
    cbn [plain].
    match goal with |- match ?f l with _ => _ end = _ => set (F := f) end.
    assert (E : F l = plain_all l).
    { induction l as [|x l IH]; [reflexivity|]. cbn [plain_all].
      change (F (x :: l)) with (match plain x, F l with Some y, Some ys => Some (y :: ys) | _, _ => None end).
      now rewrite IH. }
    now rewrite E.
  Qed.
  Lemma plain_PTuple l : plain (PTuple l) = match plain_all l with Some ys => Some (JList ys) | None => None end.
  Proof. rewrite <- plain_PList. reflexivity. Qed.

  Notation enc := (enc repr).

  Lemma ojoin_ok sep : forall l ts, Forall2 (fun o t => o = (t, None)) l ts ->
    ojoin sep l = (join sep ts, None).
  Proof.
    induction l as [|o l IH]; intros ts H; inversion H as [|o' t l' ts' Ho Hl]; subst; [reflexivity|].
    destruct l as [|o2 l].
    - inversion Hl. subst. reflexivity.
    - inversion Hl as [|? t2 ? ts2]. subst.
      change (ojoin sep ((t, None) :: (t2, None) :: l))
        with (oseq (t, None) (oseq (okt sep) (ojoin sep ((t2, None) :: l)))).
      rewrite (IH (t2 :: ts2)) by assumption. reflexivity.
  Qed.
  Lemma ojoin_err sep : forall l, (exists o e, In o l /\ snd o = Some e) -> exists t e, ojoin sep l = (t, Some e).
  Proof.
    induction l as [|o l IH]; intros [o' [e [Hin He]]]; [destruct Hin|].
    destruct l as [|o2 l].
    - destruct Hin as [->|[]]. cbn. destruct o' as [t x]. cbn in He. subst. eauto.
    - change (ojoin sep (o :: o2 :: l)) with (oseq o (oseq (okt sep) (ojoin sep (o2 :: l)))).
      destruct o as [t [x|]]; [cbn; eauto|].
      destruct Hin as [<-|Hin]; [discriminate|].
      destruct (IH (ex_intro _ o' (ex_intro _ e (conj Hin He)))) as [t' [e' ->]]. cbn. eauto.
  Qed.

  Lemma enc_seq lvl l (f : list (pyval T) -> pyval T) :
    (f l = PList l \/ f l = PTuple l) ->
    enc lvl (f l) = match l with
      | [] => okt (lit "[]")
      | _ => oseq (okt ("["%char :: nl (S lvl)))
               (oseq (ojoin (","%char :: nl (S lvl)) (map (enc (S lvl)) l)) (okt (nl lvl ++ ["]"%char])))
      end.
  Proof. intros [->| ->]; reflexivity. Qed.

  Lemma enc_list_ok lvl l ys :
    Forall2 (fun v y => forall lvl, enc lvl v = (print lvl y, None)) l ys ->
    match l with
      | [] => okt (lit "[]")
      | _ => oseq (okt ("["%char :: nl (S lvl)))
               (oseq (ojoin (","%char :: nl (S lvl)) (map (enc (S lvl)) l)) (okt (nl lvl ++ ["]"%char])))
      end = (print lvl (JList ys), None).
  Proof.
    intros H. destruct H as [|x y l ys Hx Hl]; [reflexivity|].
    rewrite (ojoin_ok _ _ (map (print (S lvl)) (y :: ys))).
    - cbn [oseq okt fst snd Json.print]. now rewrite !app_assoc.
    - cbn [map]. constructor; [apply Hx|]. induction Hl; cbn [map]; constructor; auto.
  Qed.

  Lemma plain_all_F2 l ys : plain_all l = Some ys -> Forall2 (fun v y => plain v = Some y) l ys.
  Proof.
    revert ys. induction l as [|x l IH]; intros ys; cbn [plain_all].
    - intros H. injection H as <-. constructor.
    - destruct (plain x) as [y|] eqn:E; [|discriminate].
      destruct (plain_all l) as [zs|]; [|discriminate]. intros H. injection H as <-. constructor; auto.
  Qed.
  Lemma plain_all_none l : plain_all l = None -> exists x, In x l /\ plain x = None.
  Proof.
    induction l as [|x l IH]; cbn [plain_all]; [discriminate|].
    destruct (plain x) as [y|] eqn:E; [|intros _; exists x; split; [now left|assumption]].
    destruct (plain_all l) as [zs|]; [discriminate|]. intros _.
    destruct (IH eq_refl) as [z [Hz E']]. exists z. split; [now right|assumption].
  Qed.

  Lemma enc_seq_correct l :
    Forall (fun v => forall j, plain v = Some j -> forall lvl, enc lvl v = (print lvl j, None)) l ->
    Forall (fun v => plain v = None -> forall lvl, exists t e, enc lvl v = (t, Some e)) l ->
    forall lvl,
    match plain_all l with
    | Some ys => match l with
      | [] => okt (lit "[]")
      | _ => oseq (okt ("["%char :: nl (S lvl)))
               (oseq (ojoin (","%char :: nl (S lvl)) (map (enc (S lvl)) l)) (okt (nl lvl ++ ["]"%char])))
      end = (print lvl (JList ys), None)
    | None => exists t e, match l with
      | [] => okt (lit "[]")
      | _ => oseq (okt ("["%char :: nl (S lvl)))
               (oseq (ojoin (","%char :: nl (S lvl)) (map (enc (S lvl)) l)) (okt (nl lvl ++ ["]"%char])))
      end = (t, Some e)
    end.
  Proof.
    intros H1 H2 lvl. destruct (plain_all l) as [ys|] eqn:E.
    - apply enc_list_ok. apply plain_all_F2 in E. clear H2.
      induction E as [|v y l ys Hv Hl IH]; [constructor|].
      inversion_clear H1. constructor; auto.
    - destruct (plain_all_none l E) as [x [Hx Ex]].
      rewrite Forall_forall in H2. destruct (H2 x Hx Ex (S lvl)) as [t [e Et]].
      destruct (ojoin_err (","%char :: nl (S lvl)) (map (enc (S lvl)) l)) as [t' [e' Et']].
      { exists (t, Some e), e. split; [|reflexivity]. rewrite <- Et. now apply in_map. }
      destruct l as [|y l]; [destruct Hx|]. rewrite Et'. cbn. eauto.
  Qed.

  Lemma enc_correct v :
    (forall j, plain v = Some j -> forall lvl, enc lvl v = (print lvl j, None)) /\
    (plain v = None -> forall lvl, exists t e, enc lvl v = (t, Some e)).
  Proof.
    induction v as [z|x|z|x| |b|l IH|l IH|w| ] using pyval_ind';
      try (split; [intros j H; cbn in H; injection H as <-; reflexivity|discriminate]).
    - split; [|discriminate]. intros j H. injection H as <-. now destruct b.
    - assert (A : Forall (fun v => forall j, plain v = Some j -> forall lvl, enc lvl v = (print lvl j, None)) l)
        by (eapply Forall_impl; [|exact IH]; intros a [Q _]; exact Q).
      assert (B : Forall (fun v => plain v = None -> forall lvl, exists t e, enc lvl v = (t, Some e)) l)
        by (eapply Forall_impl; [|exact IH]; intros a [_ Q]; exact Q).
      pose proof (enc_seq_correct l A B) as H. rewrite plain_PList.
      destruct (plain_all l) as [ys|]; (split; [intros j Hj|intros Hj]); try discriminate.
      + injection Hj as <-. intros lvl. rewrite (enc_seq lvl l PList) by auto. apply H.
      + intros lvl. rewrite (enc_seq lvl l PList) by auto. apply H.
    - assert (A : Forall (fun v => forall j, plain v = Some j -> forall lvl, enc lvl v = (print lvl j, None)) l)
        by (eapply Forall_impl; [|exact IH]; intros a [Q _]; exact Q).
      assert (B : Forall (fun v => plain v = None -> forall lvl, exists t e, enc lvl v = (t, Some e)) l)
        by (eapply Forall_impl; [|exact IH]; intros a [_ Q]; exact Q).
      pose proof (enc_seq_correct l A B) as H. rewrite plain_PTuple.
      destruct (plain_all l) as [ys|]; (split; [intros j Hj|intros Hj]); try discriminate.
      + injection Hj as <-. intros lvl. rewrite (enc_seq lvl l PTuple) by auto. apply H.
      + intros lvl. rewrite (enc_seq lvl l PTuple) by auto. apply H.
    - split; [discriminate|]. intros _ lvl. cbn. eauto.
  Qed.
End Facts.
