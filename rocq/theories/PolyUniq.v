(** A polynomial with n coefficients that vanishes at n distinct points is
    zero; least-squares fits of exact polynomial data return the polynomial. *)
From Coq Require Import Reals ZArith List Lra Lia.
From Verif Require Import Base Num Spec Lsq ProcSpec.
Import ListNotations.
Local Open Scope R_scope.

(** Value of a polynomial given by coefficients, highest power first. *)
Fixpoint evh (v : list R) (x : R) : R :=
  match v with [] => 0 | a :: v' => a * x ^ length v' + evh v' x end.

Fixpoint synth (r acc : R) (v : list R) : list R :=
  match v with [] => [] | a :: v' => (acc * r + a) :: synth r (acc * r + a) v' end.
Lemma synth_length r v : forall acc, length (synth r acc v) = length v.
Proof. induction v as [|a v IH]; intros acc; cbn; [reflexivity|]. now rewrite IH. Qed.
Lemma removelast_length {A} (l : list A) a : length (removelast (a :: l)) = length l.
Proof. revert a; induction l as [|b l IH]; intros a; [reflexivity|]. change (S (length (removelast (b :: l))) = length (b :: l)). rewrite IH. reflexivity. Qed.
Lemma synth_eval r x v : forall acc,
  evh (acc :: v) x = (x - r) * evh (removelast (acc :: synth r acc v)) x + last (acc :: synth r acc v) 0.
Proof.
  induction v as [|a v IH]; intros acc; [cbn; ring|].
  set (b := acc * r + a).
  assert (E : synth r acc (a :: v) = b :: synth r b v) by reflexivity. rewrite E.
  assert (RL : removelast (acc :: b :: synth r b v) = acc :: removelast (b :: synth r b v)) by reflexivity.
  assert (LL : last (acc :: b :: synth r b v) 0 = last (b :: synth r b v) 0) by reflexivity.
  rewrite RL, LL. cbn [evh]. rewrite removelast_length, synth_length.
  specialize (IH b). cbn [evh] in IH. cbn [length].
  replace (acc * x ^ S (length v) + (a * x ^ length v + evh v x))
    with ((x - r) * (acc * x ^ length v) + (b * x ^ length v + evh v x)) by (unfold b; cbn [pow]; ring).
  rewrite IH. ring.
Qed.
Lemma synth_zero r v : forall acc, acc = 0 -> Forall (fun x => x = 0) (synth r acc v) -> Forall (fun x => x = 0) v.
Proof.
  induction v as [|a v IH]; intros acc H F; [constructor|]. inversion F as [|? ? H1 H2]; subst.
  assert (a = 0) by (rewrite Rmult_0_l in H1; lra). constructor; [assumption|].
  now apply (IH (0 * r + a)).
Qed.
Lemma evh_roots n : forall v ds, length v = n -> NoDup ds -> (n <= length ds)%nat ->
  (forall x, In x ds -> evh v x = 0) -> Forall (fun x => x = 0) v.
Proof.
  induction n as [|n IH]; intros v ds Hv Hd Hn H.
  - destruct v; [constructor|discriminate].
  - destruct ds as [|r ds]; [cbn in Hn; lia|]. destruct v as [|a v]; [discriminate|].
    inversion Hd as [|? ? Nr Nd]; subst.
    assert (L : last (a :: synth r a v) 0 = 0).
    { pose proof (synth_eval r r v a) as E. rewrite (H r) in E by now left. lra. }
    assert (F : Forall (fun x => x = 0) (removelast (a :: synth r a v))).
    { apply (IH _ ds).
      - rewrite removelast_length, synth_length. cbn in Hv. lia.
      - assumption.
      - cbn in Hn. lia.
      - intros x Hx. pose proof (synth_eval r x v a) as E. rewrite (H x), L in E by now right.
        assert (Z : (x - r) * evh (removelast (a :: synth r a v)) x = 0) by lra.
        apply Rmult_integral in Z. destruct Z as [Z|Z]; [|assumption]. exfalso. apply Nr.
        replace r with x by lra. assumption. }
    apply (synth_zero r _ 0 eq_refl).
    assert (E : synth r 0 (a :: v) = a :: synth r a v) by (cbn; rewrite Rmult_0_l, Rplus_0_l; reflexivity).
    rewrite E. rewrite (app_removelast_last (l := a :: synth r a v) 0) by discriminate.
    apply Forall_app. split; [assumption|]. constructor; [assumption|constructor].
Qed.

Lemma dot_pow_row deg : forall v x, length v = S deg -> dot (pow_row deg x) v = evh v x.
Proof.
  induction deg as [|k IH]; intros [|a v] x Hv; try discriminate.
  - destruct v; [|discriminate]. cbn. ring.
  - cbn [pow_row dot evh]. rewrite IH by (cbn in Hv; lia). cbn in Hv.
    replace (length v) with (S k) by lia. ring.
Qed.
Lemma vlin_zero u v : length u = length v -> Forall (fun x => x = 0) (vlin 1 u (-1) v) -> u = v.
Proof.
  revert v; induction u as [|a u IH]; intros [|b v] L F; try discriminate; [reflexivity|].
  cbn [vlin] in F. inversion F; subst. f_equal; [lra|]. apply IH; [cbn in L; lia|assumption].
Qed.

(** The fit of exact polynomial data with enough distinct abscissae. *)
Lemma polyfit_unique deg xs ys v w : polyfit_spec deg xs ys v -> length w = S deg -> length xs = length ys ->
  distinct_values (S deg) xs -> Forall2 (fun x y => y = evh w x) xs ys -> v = w.
Proof.
  intros P Hw Hl [d [Nd [Id Ld]]] F.
  assert (Hl' : length (map (pow_row deg) xs) = length ys) by now rewrite map_length.
  assert (E : Forall2 (fun r y => dot r v = y) (map (pow_row deg) xs) ys).
  { apply (lsq_exact (S deg) _ _ _ w); try assumption.
    clear -F Hw. induction F; cbn [map]; constructor; [|assumption]. now rewrite dot_pow_row. }
  destruct P as [Lv _].
  assert (Q : Forall (fun x => x = 0) (vlin 1 v (-1) w)).
  { apply (evh_roots (S deg) _ d); try assumption.
    - now apply vlin_length.
    - intros x Hx. rewrite <- (dot_pow_row deg) by now apply vlin_length.
      rewrite dot_vlin, !dot_pow_row by congruence.
      apply Id in Hx. clear -Hx E F Lv. revert Hx. revert E.
      induction F as [|x0 y0 xs ys H0 F IH]; intros E Hx; [destruct Hx|].
      cbn [map] in E. inversion E as [|? ? ? ? Q1 Q2]. destruct Hx as [<-|Hx]; [|now apply IH].
      rewrite dot_pow_row in Q1 by assumption. rewrite Q1, H0. ring. }
  apply vlin_zero; [congruence|assumption].
Qed.

(** Low-first power rows (np.power(r, np.arange(n))). *)
Lemma dot_powers_gen v r : forall k, dot (map (pow r) (seq k (length v))) v = r ^ k * poly v r.
Proof.
  induction v as [|a v IH]; intros k; cbn [length seq map dot poly]; [ring|].
  rewrite IH. cbn [pow]. ring.
Qed.
Lemma dot_powers v r : dot (map (pow r) (seq 0 (length v))) v = poly v r.
Proof. rewrite dot_powers_gen. cbn. ring. Qed.
Lemma evh_app u : forall v x, evh (u ++ v) x = x ^ length v * evh u x + evh v x.
Proof.
  induction u as [|a u IH]; intros v x; cbn [app evh]; [ring|].
  rewrite IH, app_length, pow_add. ring.
Qed.
Lemma evh_rev v x : evh (rev v) x = poly v x.
Proof.
  induction v as [|a v IH]; cbn [rev poly]; [reflexivity|].
  rewrite evh_app, IH. cbn. ring.
Qed.
Lemma poly_vlin a u b v x : length u = length v -> poly (vlin a u b v) x = a * poly u x + b * poly v x.
Proof.
  revert v; induction u as [|c u IH]; intros [|d v] L; try discriminate; cbn [vlin poly]; [ring|].
  rewrite IH by (cbn in L; lia). ring.
Qed.
Lemma poly_roots v ds : NoDup ds -> (length v <= length ds)%nat -> (forall x, In x ds -> poly v x = 0) ->
  Forall (fun x => x = 0) v.
Proof.
  intros Nd L H. assert (F : Forall (fun x => x = 0) (rev v)).
  { apply (evh_roots (length v) _ ds); try assumption; [apply rev_length|].
    intros x Hx. rewrite evh_rev. now apply H. }
  rewrite Forall_forall in *. intros x Hx. apply F. now apply in_rev in Hx.
Qed.
Lemma poly_unique u v xs : length u = length v -> distinct_values (length u) xs ->
  (forall x, In x xs -> poly u x = poly v x) -> u = v.
Proof.
  intros L [d [Nd [Id Ld]]] H. apply vlin_zero; [assumption|].
  apply (poly_roots _ d); try assumption.
  - now rewrite (vlin_length _ _ _ _ (length u)).
  - intros x Hx. rewrite poly_vlin, (H x) by auto. ring.
Qed.
