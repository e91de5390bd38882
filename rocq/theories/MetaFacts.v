(** Lemmas about lines and words of text files (C65, C101). *)
From Coq Require Import Ascii String ZifyBool Lia.
From Verif Require Import Base Text Fs Losa LosaSpec.
Local Open Scope nat_scope.

Lemma blank_iff c : blank c <-> is_ws c = true.
Proof. unfold blank, is_ws, code. cbn [In]. lia. Qed.
Lemma break_iff c : line_break c <-> is_nl c = true.
Proof. unfold line_break, is_nl, code. cbn [In]. lia. Qed.
Lemma no_ws_iff s : no_ws s <-> Forall (fun c => ~ blank c) s.
Proof.
  unfold no_ws. split; apply Forall_impl; intros c H.
  - rewrite blank_iff. congruence.
  - rewrite blank_iff in H. now destruct (is_ws c).
Qed.
Lemma no_break_iff s : Forall (fun c => ~ line_break c) s <-> Forall (fun c => is_nl c = false) s.
Proof.
  split; apply Forall_impl; intros c H.
  - rewrite break_iff in H. now destruct (is_nl c).
  - rewrite break_iff. congruence.
Qed.

(** *** Lines *)
Lemma univ_newlines_app l s : Forall (fun c => is_nl c = false) l -> univ_newlines (l ++ s) = l ++ univ_newlines s.
Proof.
  induction 1 as [|c l Hc _ IH]; [reflexivity|]. cbn [app univ_newlines]. rewrite IH.
  unfold aeqb. destruct (Ascii.eqb_spec c CR) as [->|_]; [discriminate Hc|reflexivity].
Qed.
Lemma splitlines_one l : l <> [] -> Forall (fun c => is_nl c = false) l -> splitlines l = [l].
Proof.
  intros Ne H. unfold splitlines. assert (G : forall cur, cur ++ l <> [] -> splitlines_from cur l = [cur ++ l]); [|now apply (G [])].
  clear Ne. induction H as [|c l Hc _ IH]; intros cur Ne; cbn [splitlines_from].
  - rewrite app_nil_r in *. now destruct cur.
  - rewrite Hc, IH; rewrite <- app_assoc; [reflexivity|exact Ne].
Qed.
Lemma splitlines_break l c s : Forall (fun c => is_nl c = false) l -> is_nl c = true -> splitlines (l ++ c :: s) = l :: splitlines s.
Proof.
  intros H Hc. unfold splitlines. assert (G : forall cur, splitlines_from cur (l ++ c :: s) = (cur ++ l) :: splitlines_from [] s); [|apply (G [])].
  induction H as [|d l Hd _ IH]; intros cur; cbn [app splitlines_from].
  - rewrite Hc, app_nil_r. reflexivity.
  - rewrite Hd, IH, <- app_assoc. reflexivity.
Qed.
Lemma text_lines_start t ls d t' : text_lines t ls -> t = d :: t' -> is_nl d = false.
Proof.
  intros H E. inversion H as [A|l Ne L A|l e u us Ne L Le Hu A]; subst; [discriminate| |].
  - apply no_break_iff in L. now inversion L.
  - apply no_break_iff in L. destruct l as [|x l]; [congruence|]. cbn [app] in A. injection A as -> _. now inversion L.
Qed.
Lemma text_lines_split t ls : text_lines t ls -> splitlines (univ_newlines t) = ls.
Proof.
  induction 1 as [|l Ne L|l e t ls Ne L Le Ht IH]; [reflexivity| |].
  - apply no_break_iff in L. rewrite <- (app_nil_r l) at 1. rewrite univ_newlines_app by exact L. cbn [univ_newlines]. rewrite app_nil_r. now apply splitlines_one.
  - apply no_break_iff in L. rewrite univ_newlines_app by exact L.
    assert (E : exists c, is_nl c = true /\ univ_newlines (e ++ t) = c :: univ_newlines t).
    { destruct Le as [->|[c [-> Hc]]].
      - exists LF. split; reflexivity.
      - apply break_iff in Hc. cbn [app univ_newlines]. unfold aeqb. destruct (Ascii.eqb_spec c CR) as [->|_]; [|now exists c].
        exists LF. split; [reflexivity|]. destruct t as [|d t']; [reflexivity|].
        destruct (Ascii.eqb_spec d LF) as [->|_]; [|reflexivity]. assert (K := text_lines_start _ _ _ _ Ht eq_refl). discriminate K. }
    destruct E as [c [Hc ->]]. rewrite splitlines_break by assumption. now rewrite IH.
Qed.

(** *** Words *)
Lemma split_from_blank a c s cur : is_ws c = true -> split_from cur (a ++ c :: s) = split_from cur (a ++ [c]) ++ split_from [] s.
Proof.
  intros Hc. revert cur. induction a as [|x a IH]; intros cur; cbn [app split_from].
  - rewrite Hc. now destruct cur.
  - destruct (is_ws x); [destruct cur; rewrite IH; reflexivity|apply IH].
Qed.
Lemma split_from_word w b cur : Forall (fun c => is_ws c = false) w -> Forall (fun c => is_ws c = true) b -> cur ++ w <> [] -> split_from cur (w ++ b) = [cur ++ w].
Proof.
  intros Hw Hb. revert cur. induction Hw as [|x w Hx _ IH]; intros cur Ne; cbn [app split_from].
  - rewrite app_nil_r in *. destruct Hb as [|c b Hc Hb]; cbn [split_from]; [now destruct cur|]. rewrite Hc.
    assert (Z : split_from [] b = []) by (clear - Hb; induction Hb as [|c b Hc _ IH]; cbn [split_from]; [reflexivity|now rewrite Hc]).
    rewrite Z. now destruct cur.
  - rewrite Hx, IH, <- app_assoc by (rewrite <- app_assoc; exact Ne). reflexivity.
Qed.
Lemma pyget_last {A} (l : list A) w : pyget (l ++ [w]) (-1) = Ok w.
Proof.
  unfold pyget. rewrite app_length. cbn [List.length].
  replace (-1 <? 0)%Z with true by reflexivity.
  replace ((-1 + Z.of_nat (List.length l + 1) <? 0) || (Z.of_nat (List.length l + 1) <=? -1 + Z.of_nat (List.length l + 1)))%Z
    with false by (symmetry; lia).
  replace (Z.to_nat (-1 + Z.of_nat (List.length l + 1))) with (List.length l) by lia.
  rewrite nth_error_app2 by lia. now rewrite Nat.sub_diag.
Qed.
Lemma last_word_get l w : last_word l w -> pyget (split_ws l) (-1) = Ok w.
Proof.
  intros [a [b [-> [Ne [Hw [Hb Ha]]]]]]. apply no_ws_iff in Hw. assert (Hb' : Forall (fun c => is_ws c = true) b) by (eapply Forall_impl; [|exact Hb]; intros c; apply blank_iff).
  unfold split_ws. destruct Ha as [->|[a' [c [-> Hc]]]].
  - cbn [app]. rewrite (split_from_word w b []) by assumption. apply (pyget_last []).
  - apply blank_iff in Hc. rewrite <- app_assoc. cbn [app]. rewrite split_from_blank by exact Hc. rewrite (split_from_word w b []) by assumption. apply pyget_last.
Qed.
Lemma blank_line_words b : Forall blank b -> split_ws b = [].
Proof. unfold split_ws. induction 1 as [|c b Hc _ IH]; cbn [split_from]; [reflexivity|]. apply blank_iff in Hc. now rewrite Hc. Qed.

Section Parse.
  Context {T : Type} (float_ : text -> res T).
  Definition line_value l := w <- pyget (split_ws l) (-1) ;; float_ w.
  Lemma mapM_values ls vs rest : Forall2 (fun l v => exists w, last_word l w /\ float_ w = Ok v) ls vs ->
    mapM line_value (ls ++ rest) = (r <- mapM line_value rest ;; Ok (vs ++ r)).
  Proof.
    induction 1 as [|l v ls vs [w [Hw Hv]] _ IH]; cbn [app mapM].
    - destruct (mapM line_value rest); reflexivity.
    - unfold line_value at 1. rewrite (last_word_get _ _ Hw). cbn [bind]. rewrite Hv. cbn [bind]. rewrite IH. destruct (mapM line_value rest); reflexivity.
  Qed.
  Lemma parse_lines t : parse_meta float_ t = (d <- mapM line_value (splitlines t) ;; x <- pyget d 0 ;; y <- pyget d 1 ;; Ok (x, y, skipn 2 d)).
  Proof. reflexivity. Qed.
  Lemma parse_values t ls x y facts : text_lines t ls -> Forall2 (fun l v => exists w, last_word l w /\ float_ w = Ok v) ls (x :: y :: facts) ->
    parse_meta float_ (univ_newlines t) = Ok (x, y, facts).
  Proof.
    intros H F. rewrite parse_lines, (text_lines_split _ _ H), <- (app_nil_r ls), (mapM_values _ _ [] F). cbn [mapM bind]. rewrite app_nil_r.
    unfold pyget. cbn [List.length].
    replace (0 <? 0)%Z with false by reflexivity. replace (1 <? 0)%Z with false by reflexivity.
    set (n := Z.of_nat (S (S (List.length facts)))).
    replace ((0 <? 0) || (n <=? 0))%Z with false by (symmetry; lia).
    replace ((1 <? 0) || (n <=? 1))%Z with false by (symmetry; lia).
    reflexivity.
  Qed.
  Lemma parse_short t ls vs : text_lines t ls -> Forall2 (fun l v => exists w, last_word l w /\ float_ w = Ok v) ls vs -> List.length ls < 2 ->
    parse_meta float_ (univ_newlines t) = Err IndexError.
  Proof.
    intros H F L. rewrite parse_lines, (text_lines_split _ _ H), <- (app_nil_r ls), (mapM_values _ _ [] F). cbn [mapM bind]. rewrite app_nil_r.
    assert (E : List.length ls = List.length vs) by (clear - F; induction F; cbn [List.length]; congruence). destruct vs as [|v [|v' vs]]; cbn [List.length] in E; [reflexivity|reflexivity|lia].
  Qed.
  (** The first [ls] lines are good, then comes the line l. *)
  Lemma parse_from ls vs l t : Forall2 (fun l v => exists w, last_word l w /\ float_ w = Ok v) ls vs -> Forall (Forall (fun c => ~ line_break c)) (l :: ls) ->
    parse_meta float_ (univ_newlines (concat (map (fun l => l ++ [LF]) ls) ++ l ++ LF :: t)) =
    (d <- (v <- line_value l ;; r <- mapM line_value (splitlines (univ_newlines t)) ;; Ok (vs ++ v :: r)) ;; x <- pyget d 0 ;; y <- pyget d 1 ;; Ok (x, y, skipn 2 d)).
  Proof.
    intros F N. inversion_clear N as [|? ? Nl N']. rewrite parse_lines.
    assert (E : splitlines (univ_newlines (concat (map (fun l => l ++ [LF]) ls) ++ l ++ LF :: t)) = ls ++ l :: splitlines (univ_newlines t)).
    { clear F. induction N' as [|k ls Nk _ IH]; cbn [map concat app].
      - apply no_break_iff in Nl. rewrite univ_newlines_app by exact Nl. cbn [univ_newlines]. change (aeqb LF CR) with false. cbv iota. now rewrite splitlines_break.
      - apply no_break_iff in Nk. rewrite <- !app_assoc. rewrite univ_newlines_app by exact Nk. cbn [app univ_newlines]. change (aeqb LF CR) with false. cbv iota.
        rewrite splitlines_break by (exact Nk || reflexivity). now rewrite IH. }
    rewrite E, (mapM_values _ _ _ F). cbn [mapM]. destruct (line_value l) as [v|e]; cbn [bind]; [|reflexivity]. now destruct (mapM line_value (splitlines (univ_newlines t))).
  Qed.
End Parse.
