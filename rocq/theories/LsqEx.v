(** Least squares problems always have a solution: used to show that the
    hypotheses made about np.polyfit / lstsq can be met. *)
From Coq Require Import Reals List Lra Lia.
From Verif Require Import Base Spec Lsq.
Import ListNotations.
Local Open Scope R_scope.

Section Ip.
  Context {A : Type} (data : list A).
  Definition ip (f g : A -> R) : R := Rsum (map (fun a => f a * g a) data).
  (** Combination of columns. *)
  Fixpoint comb (v : list R) (cs : list (A -> R)) (a : A) : R :=
    match v, cs with x :: v', c :: cs' => x * c a + comb v' cs' a | _, _ => 0 end.

  Lemma ip_lin f g h s t : ip (fun a => s * f a + t * g a) h = s * ip f h + t * ip g h.
  Proof. unfold ip. induction data as [|a d IH]; cbn [map Rsum]; [ring|]. rewrite IH. ring. Qed.
  Lemma ip_ext f g h : (forall a, f a = g a) -> ip f h = ip g h.
  Proof.
    intros E. unfold ip. f_equal. apply map_ext. intros a. now rewrite E.
  Qed.
  Lemma ip_sym f g : ip f g = ip g f.
  Proof. unfold ip. f_equal. apply map_ext. intros a. ring. Qed.
  Lemma ip_pos f : 0 <= ip f f.
  Proof.
    unfold ip. apply Rsum_nonneg. intros x Hx. apply in_map_iff in Hx. destruct Hx as [a [<- _]].
    pose proof (Rle_0_sqr (f a)). unfold Rsqr in H. exact H.
  Qed.
  Lemma ip_zero f g : ip f f = 0 -> ip f g = 0.
  Proof.
    intros H. assert (Hz : forall a, In a data -> f a = 0).
    { intros a Ha. assert (f a * f a = 0).
      { unfold ip in H. apply Rsum_nonneg_zero with (l := map (fun a => f a * f a) data).
        - intros x Hx. apply in_map_iff in Hx. destruct Hx as [b [<- _]].
          pose proof (Rle_0_sqr (f b)). unfold Rsqr in H0. exact H0.
        - lra.
        - apply in_map_iff. exists a. auto. }
      apply Rmult_integral in H0. tauto. }
    unfold ip. clear H. induction data as [|a d IH]; cbn [map Rsum]; [ring|].
    rewrite (Hz a (or_introl eq_refl)), IH by (intros b Hb; apply Hz; now right). ring.
  Qed.
  Lemma ip_comb v cs r : Forall (fun c => ip r c = 0) cs -> ip r (comb v cs) = 0.
  Proof.
    intros H. revert v. induction H as [|c cs Hc _ IH]; intros v.
    - destruct v; unfold ip; induction data; cbn [map Rsum comb] in *; lra.
    - destruct v as [|x v].
      + unfold ip; clear; induction data; cbn [map Rsum comb] in *; lra.
      + rewrite ip_sym. rewrite (ip_ext _ (fun a => x * c a + 1 * comb v cs a) r)
          by (intros a; cbn [comb]; ring).
        rewrite ip_lin, (ip_sym c), (ip_sym (comb v cs)), Hc, IH. ring.
  Qed.

  Lemma comb_lin cs : forall u v s t, length u = length cs -> length v = length cs ->
    forall a, comb (vlin s u t v) cs a = s * comb u cs a + t * comb v cs a.
  Proof.
    induction cs as [|c cs IH]; intros [|x u] [|z v] s t Hu Hv a; try discriminate; cbn [vlin comb].
    - ring.
    - rewrite IH by (cbn in *; lia). ring.
  Qed.

  Lemma project cs : forall y, {v | length v = length cs /\
    Forall (fun c => ip (fun a => y a - comb v cs a) c = 0) cs}.
  Proof.
    induction cs as [|c cs IH]; intros y.
    - exists []. split; [reflexivity|constructor].
    - destruct (IH c) as [al [La Ha]]. destruct (IH y) as [be [Lb Hb]].
      set (c' := fun a => c a - comb al cs a) in *. set (r := fun a => y a - comb be cs a) in *.
      destruct (Req_EM_T (ip c' c') 0) as [Z|NZ].
      + exists (0 :: be). split; [cbn; lia|].
        assert (E : forall a, y a - comb (0 :: be) (c :: cs) a = r a)
          by (intros a; unfold r; cbn [comb]; ring).
        constructor.
        * rewrite (ip_ext _ _ c E), ip_sym.
          rewrite (ip_ext c (fun a => 1 * c' a + 1 * comb al cs a) r) by (intros a; unfold c'; ring).
          rewrite ip_lin, ip_zero by assumption.
          rewrite ip_sym, ip_comb by assumption. ring.
        * eapply Forall_impl; [|exact Hb]. intros d Hd. cbn beta in *.
          now rewrite (ip_ext _ _ d E).
      + set (t := ip r c' / ip c' c').
        exists (t :: vlin 1 be (- t) al). split; [cbn; now rewrite (vlin_length _ _ _ _ (length cs))|].
        assert (E : forall a, y a - comb (t :: vlin 1 be (- t) al) (c :: cs) a
                     = 1 * r a + (- t) * c' a).
        { intros a. cbn [comb]. rewrite comb_lin by assumption. unfold r, c'. ring. }
        assert (Hcs : Forall (fun d => ip (fun a => y a - comb (t :: vlin 1 be (- t) al) (c :: cs) a) d = 0) cs).
        { rewrite Forall_forall in *. intros d Hd. rewrite (ip_ext _ _ d E), ip_lin.
          rewrite (Ha d Hd), (Hb d Hd). ring. }
        constructor; [|exact Hcs].
        rewrite (ip_sym _ c). 
        rewrite (ip_ext c (fun a => 1 * c' a + 1 * comb al cs a)) by (intros a; unfold c'; ring).
        rewrite ip_lin, (ip_sym (comb al cs)), ip_comb by exact Hcs.
        rewrite (ip_sym c'), (ip_ext _ _ c' E), ip_lin. unfold t. field. exact NZ.
  Qed.
End Ip.

Definition col (k : nat) (ry : list R * R) : R := nth k (fst ry) 0.
Lemma dot_skip x v k : forall l, x * nth k l 0 + dot (skipn (S k) l) v = dot (skipn k l) (x :: v).
Proof.
  induction k as [|k IH]; intros [|b l].
  - cbn [nth skipn dot]. ring.
  - change (x * b + dot l v = b * x + dot l v). ring.
  - cbn [nth skipn dot]. ring.
  - apply (IH l).
Qed.
Lemma dot_comb k : forall v ry,
  comb v (map col (seq k (length v))) ry = dot (skipn k (fst ry)) v.
Proof.
  intros v. revert k. induction v as [|x v IH]; intros k ry; cbn [length seq map comb].
  - destruct (skipn k (fst ry)); reflexivity.
  - rewrite IH. unfold col. apply dot_skip.
Qed.

Lemma lsq_exists n rows ys : {v | is_lsq n rows ys v}.
Proof.
  destruct (project (combine rows ys) (map col (seq 0 n)) (fun ry => snd ry)) as [v [Lv Hv]].
  rewrite map_length, seq_length in Lv.
  exists v. split; [exact Lv|]. intros v' Lv'.
  assert (E : forall u, length u = n -> forall ry, comb u (map col (seq 0 n)) ry = dot (fst ry) u).
  { intros u Lu ry. rewrite <- Lu. now rewrite dot_comb. }
  set (data := combine rows ys) in *.
  set (r := fun ry : list R * R => snd ry - dot (fst ry) v).
  assert (Hr : forall u, length u = n -> ip data r (fun ry => dot (fst ry) u) = 0).
  { intros u Lu. rewrite ip_sym. rewrite (ip_ext _ _ (comb u (map col (seq 0 n)))) by (intros; now rewrite E).
    rewrite ip_sym. apply ip_comb. eapply Forall_impl; [|exact Hv]. intros c Hc. cbn beta in *.
    rewrite <- Hc. apply ip_ext. intros ry. unfold r. now rewrite E. }
  set (d := fun ry : list R * R => dot (fst ry) v - dot (fst ry) v').
  assert (Hd : ip data r d = 0).
  { rewrite ip_sym. rewrite (ip_ext _ d (fun ry => 1 * dot (fst ry) v + (-1) * dot (fst ry) v')) by (intros; unfold d; ring).
    rewrite ip_lin, !(ip_sym _ _ r), !Hr by assumption. ring. }
  assert (Hs : forall u, sqerr rows ys u = ip data (fun ry => snd ry - dot (fst ry) u) (fun ry => snd ry - dot (fst ry) u)).
  { intros u. unfold sqerr, ip, data. f_equal. apply map_ext. intros. ring. }
  rewrite !Hs.
  assert (H2 : ip data (fun ry => snd ry - dot (fst ry) v') (fun ry => snd ry - dot (fst ry) v')
     = ip data r r + 2 * ip data r d + ip data d d).
  { unfold ip. clear. induction data as [|a l IH]; cbn [map Rsum]; [ring|]. rewrite IH. unfold r, d. ring. }
  rewrite H2, Hd. pose proof (ip_pos data d). fold r. lra.
Qed.

(** A least squares solver and polynomial fit. *)
Definition lsq_solve (n : nat) (rows : list (list R)) (ys : list R) : list R :=
  proj1_sig (lsq_exists n rows ys).
Lemma lsq_solve_ok n rows ys : is_lsq n rows ys (lsq_solve n rows ys).
Proof. apply (proj2_sig (lsq_exists n rows ys)). Qed.
Definition polyfit_R (deg : nat) (xs ys : list R) : list R :=
  lsq_solve (S deg) (map (pow_row deg) xs) ys.
Lemma polyfit_R_ok deg xs ys : polyfit_spec deg xs ys (polyfit_R deg xs ys).
Proof. apply lsq_solve_ok. Qed.
