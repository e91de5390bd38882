(** Facts on correct_perspective_effect in any arithmetic. *)
From Coq Require Import ZArith List Lia Permutation.
From Verif Require Import Base Num NumFacts Img Post PrepImg PrepPts PrepFacts PrepFacts2 Proc ProcPers ProcFacts PersSpec.
Import ListNotations.

Lemma filter_none {A} (f : A -> bool) l : (forall a, In a l -> f a = false) -> filter f l = [].
Proof. induction l as [|a l IH]; intros H; [reflexivity|]. cbn. rewrite (H a (or_introl eq_refl)). apply IH. intros; apply H; now right. Qed.
Lemma gather_nil {A} idx : gather (@nil A) idx = [].
Proof. unfold gather. induction idx as [|[|k] idx IH]; [reflexivity| |]; exact IH. Qed.
Lemma perm_two {A} (l : list A) : length l = 2%nat -> exists a b, l = [a; b].
Proof. destruct l as [|a [|b [|]]]; try discriminate. eauto. Qed.

Section Effect.
  Context {T : Type} {N : Num T}.
  Variable polyfit : list T -> list T -> nat -> res (list T).
  Variables (argsort : list T -> list nat) (cos_ arctan_ : T -> T).
  Variable lstsq : list (list T) -> list T -> res (list T).
  Lemma parabolas_hor_fit lines x y cs : parabolas_hor polyfit x y lines cs ->
    para_fit_hor polyfit lines x y = Ok (cs, map (map (fun p => (nsub (fst p) y, nsub (snd p) x))) lines).
  Proof.
    intros F. unfold para_fit_hor.
    assert (E : mapM (fun line : list (T * T) => match line with [] => Err IndexError | _ =>
      bind (fit2 polyfit (map (fun p : T * T => nsub (snd p) x) line) (map (fun p : T * T => nsub (fst p) y) line))
        (fun c => Ok (c, map (fun p : T * T => (nsub (fst p) y, nsub (snd p) x)) line)) end) lines =
      Ok (combine cs (map (map (fun p => (nsub (fst p) y, nsub (snd p) x))) lines))).
    { apply mapM_ok. induction F as [|line c lines cs [Hne [u [v [w [-> E]]]]] F IH]; cbn [map combine]; constructor; [|exact IH].
      destruct line as [|p line]; [contradiction|]. unfold fit2. rewrite E. reflexivity. }
    rewrite E. cbn [bind]. pose proof (Forall2_length _ _ _ F) as L. clear E F.
    assert (G : forall (a : list (T * T * T)) (b : list (list (T * T))), length a = length b -> map fst (combine a b) = a /\ map snd (combine a b) = b).
    { induction a as [|i a IH]; intros [|j b] Lab; try discriminate Lab; [split; reflexivity|]. cbn. destruct (IH b) as [-> ->]; [now injection Lab|]. split; reflexivity. }
    destruct (G cs (map (map (fun p => (nsub (fst p) y, nsub (snd p) x))) lines)) as [-> ->]; [now rewrite map_length|]. reflexivity.
  Qed.
  Lemma parabolas_ver_fit lines x y cs : parabolas_ver polyfit x y lines cs ->
    para_fit_ver polyfit lines x y = Ok (cs, map (map (fun p => (nsub (fst p) y, nsub (snd p) x))) lines).
  Proof.
    intros F. unfold para_fit_ver.
    assert (E : mapM (fun line : list (T * T) => match line with [] => Err IndexError | _ =>
      bind (fit2 polyfit (map (fun p : T * T => nsub (fst p) y) line) (map (fun p : T * T => nsub (snd p) x) line))
        (fun c => Ok (c, map (fun p : T * T => (nsub (fst p) y, nsub (snd p) x)) line)) end) lines =
      Ok (combine cs (map (map (fun p => (nsub (fst p) y, nsub (snd p) x))) lines))).
    { apply mapM_ok. induction F as [|line c lines cs [Hne [u [v [w [-> E]]]]] F IH]; cbn [map combine]; constructor; [|exact IH].
      destruct line as [|p line]; [contradiction|]. unfold fit2. rewrite E. reflexivity. }
    rewrite E. cbn [bind]. pose proof (Forall2_length _ _ _ F) as L. clear E F.
    assert (G : forall (a : list (T * T * T)) (b : list (list (T * T))), length a = length b -> map fst (combine a b) = a /\ map snd (combine a b) = b).
    { induction a as [|i a IH]; intros [|j b] Lab; try discriminate Lab; [split; reflexivity|]. cbn. destruct (IH b) as [-> ->]; [now injection Lab|]. split; reflexivity. }
    destruct (G cs (map (map (fun p => (nsub (fst p) y, nsub (snd p) x))) lines)) as [-> ->]; [now rewrite map_length|]. reflexivity.
  Qed.
  Lemma fit_parabolas_hor lines x y cs sl : para_fit_hor polyfit lines x y = Ok (cs, sl) -> parabolas_hor polyfit x y lines cs.
  Proof.
    unfold para_fit_hor. match goal with |- bind ?m _ = _ -> _ => destruct m as [r|] eqn:E; [|discriminate] end. cbn [bind]. intros H. injection H as <- _.
    apply mapM_ok in E. unfold parabolas_hor. induction E as [|line b lines r H F IH]; [constructor|]. cbn [map]. constructor; [|exact IH].
    destruct line as [|p line]; [discriminate H|]. split; [discriminate|]. unfold fit2 in H.
    match type of H with bind (bind ?m _) _ = _ => destruct m as [[|u [|v [|w [|]]]]|] eqn:E'; try discriminate H end. cbn [bind] in H. injection H as <-.
    exists u, v, w. split; reflexivity.
  Qed.
  Lemma fit_parabolas_ver lines x y cs sl : para_fit_ver polyfit lines x y = Ok (cs, sl) -> parabolas_ver polyfit x y lines cs.
  Proof.
    unfold para_fit_ver. match goal with |- bind ?m _ = _ -> _ => destruct m as [r|] eqn:E; [|discriminate] end. cbn [bind]. intros H. injection H as <- _.
    apply mapM_ok in E. unfold parabolas_ver. induction E as [|line b lines r H F IH]; [constructor|]. cbn [map]. constructor; [|exact IH].
    destruct line as [|p line]; [discriminate H|]. split; [discriminate|]. unfold fit2 in H.
    match type of H with bind (bind ?m _) _ = _ => destruct m as [[|u [|v [|w [|]]]]|] eqn:E'; try discriminate H end. cbn [bind] in H. injection H as <-.
    exists u, v, w. split; reflexivity.
  Qed.
  Lemma perspective_line_shape lines c out : correct_perspective_line lines c = Ok out -> map (@length _) out = map (@length _) lines.
  Proof.
    unfold correct_perspective_line. destruct (unpack8 c); [|discriminate]. cbn [bind]. intros H. injection H as <-. rewrite map_map. apply map_ext. intros; apply map_length.
  Qed.
  Lemma effect_shape lh lv xc yc method scale gh gv :
    correct_perspective_effect polyfit argsort cos_ arctan_ lstsq lh lv xc yc method scale = Ok (gh, gv) ->
    (2 <= length lh)%nat /\ (2 <= length lv)%nat /\ map (@length _) gh = map (@length _) lh /\ map (@length _) gv = map (@length _) lv.
  Proof.
    unfold correct_perspective_effect. cbn zeta.
    destruct (para_fit_hor polyfit lh xc yc) as [[ch sh]|] eqn:Eh; [|discriminate]. destruct (para_fit_ver polyfit lv xc yc) as [[cv sv]|] eqn:Ev; [|discriminate]. cbn [bind].
    pose proof (fit_parabolas_hor _ _ _ _ _ Eh) as Fh. pose proof (fit_parabolas_ver _ _ _ _ _ Ev) as Fv.
    pose proof (parabolas_hor_fit _ _ _ _ Fh) as Eh'. pose proof (parabolas_ver_fit _ _ _ _ Fv) as Ev'.
    rewrite Eh in Eh'. rewrite Ev in Ev'. injection Eh' as ->. injection Ev' as ->.
    pose proof (Forall2_length _ _ _ Fh) as Lh. pose proof (Forall2_length _ _ _ Fv) as Lv. clear Eh Ev.
    destruct (length ch <? 2)%nat eqn:C1; [discriminate|]. destruct (length cv <? 2)%nat eqn:C2; [discriminate|]. apply Nat.ltb_ge in C1. apply Nat.ltb_ge in C2.
    repeat match goal with |- bind ?m _ = _ -> _ => let E := fresh in destruct m eqn:E; [|discriminate]; cbn [bind] end.
    intros H'. injection H' as <- <-. split; [lia|]. split; [lia|].
    repeat match goal with H : correct_perspective_line _ _ = Ok _ |- _ => apply perspective_line_shape in H; rewrite map_map in H end.
    unfold update_center. rewrite !map_map.
    split; [etransitivity; [apply map_ext; intros; apply map_length|]; etransitivity; [eassumption|]; apply map_ext; intros; apply map_length|].
    etransitivity; [apply map_ext; intros; apply map_length|]; etransitivity; [eassumption|]; apply map_ext; intros; apply map_length.
  Qed.
  Lemma effect_few lh lv xc yc method scale ch cv : parabolas_hor polyfit xc yc lh ch -> parabolas_ver polyfit xc yc lv cv ->
    (length lh < 2)%nat \/ (length lv < 2)%nat ->
    correct_perspective_effect polyfit argsort cos_ arctan_ lstsq lh lv xc yc method scale = Err ValueError.
  Proof.
    intros Fh Fv H. unfold correct_perspective_effect. rewrite (parabolas_hor_fit _ _ _ _ Fh). cbn [bind]. rewrite (parabolas_ver_fit _ _ _ _ Fv). cbn [bind].
    rewrite <- (Forall2_length _ _ _ Fh), <- (Forall2_length _ _ _ Fv).
    destruct (length lh <? 2)%nat eqn:C1; [reflexivity|]. destruct (length lv <? 2)%nat eqn:C2; [reflexivity|]. apply Nat.ltb_ge in C1. apply Nat.ltb_ge in C2. lia.
  Qed.
  Lemma representative_sel cond cs method : representative argsort cond cs method = get_representative_linear_coefs argsort (filter cond cs) method.
  Proof. reflexivity. Qed.
  Lemma pyget_err {A} (l : list A) i e : pyget l i = Err e -> e = IndexError.
  Proof. unfold pyget. cbn zeta. destruct (_ || _)%bool; [congruence|]. destruct (nth_error _ _); congruence. Qed.
  Lemma extremal_error sel method e : method = RMax \/ method = RMin -> get_representative_linear_coefs argsort sel method = Err e -> e = IndexError.
  Proof.
    intros [-> | ->]; unfold get_representative_linear_coefs; cbn zeta; (destruct (pyget _ 0) as [f|] eqn:E; cbn [bind]; [|intros H; injection H as <-; exact (pyget_err _ _ _ E)]);
      destruct (nltb n0 (cf0 f)); try (match goal with |- bind ?m _ = _ -> _ => destruct m as [g|] eqn:E1; cbn [bind]; [discriminate|intros H; injection H as <-; exact (pyget_err _ _ _ E1)] end);
      discriminate.
  Qed.
  Lemma extremal_missing method : method = RMax \/ method = RMin -> get_representative_linear_coefs argsort [] method = Err IndexError.
  Proof. intros [-> | ->]; unfold get_representative_linear_coefs; cbn zeta; rewrite gather_nil; reflexivity. Qed.
  Lemma effect_missing lh lv xc yc method scale ch cv : parabolas_hor polyfit xc yc lh ch -> parabolas_ver polyfit xc yc lv cv ->
    (2 <= length lh)%nat -> (2 <= length lv)%nat -> one_sided ch \/ one_sided cv -> method = RMax \/ method = RMin ->
    correct_perspective_effect polyfit argsort cos_ arctan_ lstsq lh lv xc yc method scale = Err IndexError.
  Proof.
    intros Fh Fv Lh Lv H M. unfold correct_perspective_effect. rewrite (parabolas_hor_fit _ _ _ _ Fh). cbn [bind]. rewrite (parabolas_ver_fit _ _ _ _ Fv). cbn [bind].
    rewrite <- (Forall2_length _ _ _ Fh), <- (Forall2_length _ _ _ Fv).
    replace (length lh <? 2)%nat with false by (symmetry; now apply Nat.ltb_ge). replace (length lv <? 2)%nat with false by (symmetry; now apply Nat.ltb_ge).
    rewrite !representative_sel. unfold cf0.
    assert (Q : filter (fun c : T * T * T => nltb n0 (fst (fst c))) ch = [] \/ filter (fun c : T * T * T => nltb (fst (fst c)) n0) ch = [] \/
      filter (fun c : T * T * T => nltb n0 (fst (fst c))) cv = [] \/ filter (fun c : T * T * T => nltb (fst (fst c)) n0) cv = []).
    { destruct H as [[H|H]|[H|H]]; apply filter_none in H; tauto. }
    clear H. assert (X : forall s e, get_representative_linear_coefs argsort s method = Err e -> Err e = @Err (T * T) IndexError).
    { intros s e He. f_equal. now apply (extremal_error s method e M). }
    destruct (get_representative_linear_coefs argsort (filter (fun c : T * T * T => nltb n0 (fst (fst c))) ch) method) as [r1|e1] eqn:E1; cbn [bind];
      [|apply X in E1; injection E1 as ->; reflexivity].
    destruct (get_representative_linear_coefs argsort (filter (fun c : T * T * T => nltb (fst (fst c)) n0) ch) method) as [r2|e2] eqn:E2; cbn [bind];
      [|apply X in E2; injection E2 as ->; reflexivity].
    destruct (get_representative_linear_coefs argsort (filter (fun c : T * T * T => nltb n0 (fst (fst c))) cv) method) as [r3|e3] eqn:E3; cbn [bind];
      [|apply X in E3; injection E3 as ->; reflexivity].
    destruct (get_representative_linear_coefs argsort (filter (fun c : T * T * T => nltb (fst (fst c)) n0) cv) method) as [r4|e4] eqn:E4; cbn [bind];
      [|apply X in E4; injection E4 as ->; reflexivity].
    pose proof (extremal_missing method M) as Z. destruct Q as [Q|[Q|[Q|Q]]]; rewrite Q in *; congruence.
  Qed.
  (** Any four points and any permuting sort: the sources are the inputs in
      some order. *)
  Hypothesis AP : forall l, Permutation (argsort l) (seq 0 (length l)).
  Lemma sort_by_perm key l : Permutation (sort_by argsort key l) l.
  Proof. unfold sort_by. apply gather_perm. pose proof (AP (map key l)) as H. now rewrite map_length in H. Qed.
  Lemma four_any pts eq scale : length pts = 4%nat -> exists q1 q2 q3 q4 p1 p2 p3 p4,
    generate_4_source_target_perspective_points argsort cos_ arctan_ pts false eq scale = Ok ([q1; q2; q3; q4], [p1; p2; p3; p4]) /\
    Permutation (map (fun p => (nf32 (fst p), nf32 (snd p))) pts) [q1; q2; q3; q4].
  Proof.
    intros L. unfold generate_4_source_target_perspective_points. cbn zeta. set (pt32 := map (fun p : T * T => (nf32 (fst p), nf32 (snd p))) pts).
    assert (L4 : length pt32 = 4%nat) by (unfold pt32; now rewrite map_length). rewrite L4. cbn [Nat.eqb negb].
    pose proof (sort_by_perm fst pt32) as P. set (s := sort_by argsort fst pt32) in *. clearbody s.
    pose proof (Permutation_length P) as Ls. rewrite L4 in Ls. destruct s as [|a [|b [|c [|d [|]]]]]; try discriminate Ls.
    change (lslice [a; b; c; d] 0 2) with [a; b]. change (lslice [a; b; c; d] (-2) 4) with [c; d].
    pose proof (sort_by_perm snd [a; b]) as P1. pose proof (sort_by_perm snd [c; d]) as P2.
    destruct (perm_two _ (Permutation_length P1)) as [q1 [q2 E1]]. destruct (perm_two _ (Permutation_length P2)) as [q3 [q4 E2]].
    rewrite E1, E2 in *. destruct q1 as [y1 x1], q2 as [y2 x2], q3 as [y3 x3], q4 as [y4 x4].
    destruct (side_lengths scale eq (y1, x1) (y2, x2) (y3, x3) (y4, x4)) as [dh dv].
    do 8 eexists. split; [reflexivity|]. rewrite <- P. change [a; b; c; d] with ([a; b] ++ [c; d]). rewrite <- P1, <- P2. reflexivity.
  Qed.
End Effect.
