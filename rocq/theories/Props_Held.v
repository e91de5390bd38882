(** C125: A photograph of a dot target calibrates the same however it was held. *)
From Coq Require Import Reals ZArith List Lra Lia Bool Permutation Sorting.Sorted.
From Flocq Require Import Core.
From Verif Require Import Base Num Img Post Spec Lsq LsqEx NumFacts Sorting PrepSpec DotSpec PrepImg PrepPts PrepFacts PrepFacts2 PrepImgFacts PrepEx Proc ProcSpec ProcFacts ProcFacts2 ProcFacts3 ProcFacts4 CalibSpec CalibSpec2 CalibFacts
  Props_Grid Props_PrepPts Props_Calib Props_Calib2 Props_Calib3 Props_DotOrder MirrorFacts Props_Mirror SymFacts Props_Symm.
Import ListNotations.
Local Open Scope R_scope.

(** *** Specification *)
(** Dots in clear rows of the given slope: the rows are listed from top to
    bottom and their dots from left to right, consecutive dots of a row pass
    the test of the grouping, no two dots of different rows do, and no row is
    too short. *)
Definition clear_rows (slope reach tol accepted : R) (pts : list pt) (rows : list (list pt)) : Prop :=
  rows <> [] /\ Permutation pts (concat rows) /\
  Forall (fun r => (2 <= length r)%nat /\ StronglySorted (fun p q => pxc p < pxc q) r /\ chain (same_line slope reach tol) r) rows /\
  ForallOrdPairs (fun r r' => forall p q, In p r -> In q r' -> ~ same_line slope reach tol p q) rows /\
  (forall r r', In r rows -> In r' rows -> accepted * INR (length r) < INR (length r')) /\
  StronglySorted (fun r r' => Rmean (map py r) < Rmean (map py r')) rows.
(** The same for columns: rows after exchanging the coordinates. *)
Definition exchange (p : pt) : pt := (snd p, fst p).
Definition clear_columns (slope reach tol accepted : R) (pts : list pt) (cols : list (list pt)) : Prop :=
  clear_rows slope reach tol accepted (map exchange pts) (map (map exchange) cols).
(** Slopes change their sign with each mirroring. *)
Fixpoint slope_sign (ms : list motion) : R :=
  match ms with
  | [] => 1
  | UpsideDown :: ms | LeftRight :: ms => - slope_sign ms
  | _ :: ms => slope_sign ms
  end.
(** Rows and columns are exchanged. *)
Fixpoint exchanged (ms : list motion) : bool :=
  match ms with
  | [] => false
  | Transposed :: ms => negb (exchanged ms)
  | _ :: ms => exchanged ms
  end.
(** The same lines, listed in any order and with their dots in any order. *)
Definition same_lines (a b : list (list pt)) : Prop := exists c, Permutation b c /\ Forall2 (@Permutation pt) a c.

(** *** Clear rows stay clear *)
(** Signs and offsets. *)
Definition sign_move (s t e f : R) (p : pt) : pt := (e + s * fst p, f + t * snd p).
Definition down (s : R) : bool := if Rlt_dec s 0 then true else false.
Lemma down_1 : down 1 = false.
Proof. unfold down. destruct (Rlt_dec 1 0); [lra|reflexivity]. Qed.
Lemma down_m1 : down (-1) = true.
Proof. unfold down. destruct (Rlt_dec (-1) 0); [reflexivity|lra]. Qed.
Definition lay (s t e f : R) (rows : list (list pt)) : list (list pt) :=
  backwards (down s) (map (fun r => backwards (down t) (map (sign_move s t e f) r)) rows).
Lemma same_line_move s t e f a reach tol p q : is_sign s -> is_sign t ->
  same_line (s * t * a) reach tol (sign_move s t e f p) (sign_move s t e f q) <-> same_line a reach tol p q.
Proof.
  intros Hs Ht. unfold same_line, line_dist, sign_move, pxc, py. cbn [fst snd].
  replace (f + t * snd q - (f + t * snd p)) with (t * (snd q - snd p)) by ring. rewrite is_sign_abs by exact Ht.
  replace (s * t * a * (f + t * snd q) - (e + s * fst q) + (e + s * fst p - s * t * a * (f + t * snd p))) with
    (s * ((t * t) * (a * snd q - a * snd p) - fst q + fst p)) by ring. rewrite (is_sign_sq t Ht).
  replace (s * (1 * (a * snd q - a * snd p) - fst q + fst p)) with (s * (a * snd q - fst q + (fst p - a * snd p))) by ring.
  rewrite is_sign_abs by exact Hs. replace (s * t * a * (s * t * a) + 1) with ((s * s) * (t * t) * (a * a) + 1) by ring.
  rewrite (is_sign_sq s Hs), (is_sign_sq t Ht). replace (1 * 1 * (a * a) + 1) with (a * a + 1) by ring. reflexivity.
Qed.
Lemma chain_app_last {A} (r : A -> A -> Prop) l a b : chain r (l ++ [a]) -> r a b -> chain r ((l ++ [a]) ++ [b]).
Proof. induction l as [|x l IH]; [cbn; auto|]. destruct l; cbn [app] in *; intros [H1 H2] H3; split; auto. Qed.
Lemma chain_rev {A} (r : A -> A -> Prop) l : (forall a b, r a b -> r b a) -> chain r l -> chain r (rev l).
Proof.
  intros Hs. induction l as [|a [|b l] IH]; [auto|auto|]. intros [H1 H2]. cbn [rev] in *. apply chain_app_last; [now apply IH|]. now apply Hs.
Qed.
Lemma chain_map {A B} (r : A -> A -> Prop) (r' : B -> B -> Prop) g l : (forall a b, r a b -> r' (g a) (g b)) -> chain r l -> chain r' (map g l).
Proof. intros H. induction l as [|a [|b l] IH]; [auto|auto|]. intros [H1 H2]. split; [now apply H|now apply IH]. Qed.
Lemma sorted_snoc {A} (r : A -> A -> Prop) l a : StronglySorted r l -> Forall (fun x => r x a) l -> StronglySorted r (l ++ [a]).
Proof.
  intros H. induction H as [|x l H IH F]; intros G; cbn [app]; [repeat constructor|]. inversion_clear G. constructor; [now apply IH|].
  apply Forall_app. split; [exact F|repeat constructor; assumption].
Qed.
Lemma sorted_rev {A} (r r' : A -> A -> Prop) l : (forall a b, r a b -> r' b a) -> StronglySorted r l -> StronglySorted r' (rev l).
Proof.
  intros H S0. induction S0 as [|a l S0 IH F]; cbn [rev]; [constructor|]. apply sorted_snoc; [exact IH|]. apply Forall_rev.
  eapply Forall_impl; [|exact F]. intros b. apply H.
Qed.
Lemma sorted_map {A B} (r : A -> A -> Prop) (r' : B -> B -> Prop) g l : (forall a b, r a b -> r' (g a) (g b)) -> StronglySorted r l -> StronglySorted r' (map g l).
Proof. intros H S0. induction S0 as [|a l S0 IH F]; cbn [map]; constructor; [exact IH|]. apply Forall_map. eapply Forall_impl; [|exact F]. intros b. apply H. Qed.
Lemma pairs_sorted {A} (r : A -> A -> Prop) l : ForallOrdPairs r l <-> StronglySorted r l.
Proof. split; intros H; induction H; constructor; auto. Qed.
Lemma backwards_perm {A} b (l : list A) : Permutation l (backwards b l).
Proof. destruct b; [apply Permutation_rev|reflexivity]. Qed.
Lemma sorted_sign {A} (r : R) (v : A -> R) (w : A -> R) l : is_sign r -> (forall a b, v a < v b -> r * w a < r * w b) ->
  StronglySorted (fun a b => v a < v b) l -> StronglySorted (fun a b => w a < w b) (backwards (down r) l).
Proof.
  intros [->| ->] H S0; [rewrite down_1|rewrite down_m1]; cbn [backwards].
  - rewrite <- map_id. eapply sorted_map; [|exact S0]. intros a b Q. apply H in Q. lra.
  - eapply sorted_rev; [|exact S0]. intros a b Q. apply H in Q. lra.
Qed.
Lemma Rmean_perm l l' : Permutation l l' -> Rmean l = Rmean l'.
Proof. intros H. unfold Rmean. now rewrite (PrepFacts4.Rsum_perm _ _ H), (Permutation_length H). Qed.
Lemma Rmean_affine {A} (v : A -> R) e s l : l <> [] -> Rmean (map (fun p => e + s * v p) l) = e + s * Rmean (map v l).
Proof.
  intros H. unfold Rmean. rewrite !map_length. assert (N0 : INR (length l) <> 0). { destruct l; [congruence|]. apply not_0_INR. discriminate. }
  assert (Q : Rsum (map (fun p => e + s * v p) l) = INR (length l) * e + s * Rsum (map v l)).
  { clear. induction l as [|a l IH]; [cbn; lra|]. cbn [map length]. rewrite S_INR. change (Rsum (?x :: ?y)) with (x + Rsum y). rewrite IH. change (Rsum (v a :: map v l)) with (v a + Rsum (map v l)). ring. }
  rewrite Q. now field.
Qed.
Lemma sign_move_x s t e f r : map pxc (map (sign_move s t e f) r) = map (fun p => f + t * pxc p) r.
Proof. rewrite map_map. reflexivity. Qed.
Lemma sign_move_y s t e f r : map py (map (sign_move s t e f) r) = map (fun p => e + s * py p) r.
Proof. rewrite map_map. reflexivity. Qed.
Lemma lay_perm s t e f rows : Permutation (concat (map (map (sign_move s t e f)) rows)) (concat (lay s t e f rows)).
Proof.
  unfold lay. rewrite <- backwards_perm. induction rows as [|r rows IH]; [reflexivity|]. cbn [map concat]. apply Permutation_app; [apply backwards_perm|exact IH].
Qed.
Lemma in_lay s t e f rows r' : In r' (lay s t e f rows) -> exists r, In r rows /\ r' = backwards (down t) (map (sign_move s t e f) r).
Proof.
  intros H. unfold lay in H. apply (Permutation_in _ (Permutation_sym (backwards_perm _ _))) in H. apply in_map_iff in H. destruct H as [r [<- H]]. now exists r.
Qed.
Lemma in_backwards {A} b (l : list A) a : In a (backwards b l) <-> In a l.
Proof. split; apply Permutation_in; [symmetry|]; apply backwards_perm. Qed.
Lemma backwards_map {A B} b (g : A -> B) l : backwards b (map g l) = map g (backwards b l).
Proof. destruct b; [symmetry; apply map_rev|reflexivity]. Qed.
Lemma rows_move s t e f a reach tol accepted pts rows : is_sign s -> is_sign t ->
  clear_rows a reach tol accepted pts rows ->
  clear_rows (s * t * a) reach tol accepted (map (sign_move s t e f) pts) (lay s t e f rows).
Proof.
  intros Hs Ht [Ne [Pp [Fr [Fp [Fl Fm]]]]]. repeat apply conj.
  - intros Q. apply Ne. unfold lay in Q. destruct rows as [|r rows]; [reflexivity|]. exfalso. apply (f_equal (@length _)) in Q. rewrite backwards_length, map_length in Q. discriminate.
  - rewrite <- lay_perm, <- concat_map. now apply Permutation_map.
  - apply Forall_forall. intros r' Hr. apply in_lay in Hr. destruct Hr as [r [Hr ->]]. rewrite Forall_forall in Fr. destruct (Fr r Hr) as [L [S0 C]].
    split; [now rewrite backwards_length, map_length|]. split.
    + rewrite backwards_map. apply (sorted_map (fun p q => f + t * pxc p < f + t * pxc q)); [intros p q H; exact H|].
      apply (sorted_sign t pxc (fun p => f + t * pxc p)); [exact Ht| |exact S0]. intros p q H. destruct Ht as [->| ->]; lra.
    + assert (C' : chain (same_line (s * t * a) reach tol) (map (sign_move s t e f) r)) by (apply (chain_map (same_line a reach tol)); [intros p q; now apply same_line_move|exact C]).
      destruct (down t); cbn [backwards]; [|exact C']. apply chain_rev; [apply same_line_sym|exact C'].
  - apply pairs_sorted. apply pairs_sorted in Fp. unfold lay.
    assert (Q : StronglySorted (fun r r' => forall p q, In p r -> In q r' -> ~ same_line (s * t * a) reach tol p q) (map (fun r => backwards (down t) (map (sign_move s t e f) r)) rows)).
    { eapply sorted_map; [|exact Fp]. intros r r' H p q Hp Hq. apply (proj1 (in_backwards _ _ _)) in Hp. apply (proj1 (in_backwards _ _ _)) in Hq.
      apply in_map_iff in Hp, Hq. destruct Hp as [p0 [<- Hp]]. destruct Hq as [q0 [<- Hq]]. rewrite same_line_move by assumption. now apply H. }
    destruct (down s); cbn [backwards]; [|exact Q]. eapply sorted_rev; [|exact Q]. intros r r' H p q Hp Hq X. apply (H q p Hq Hp). now apply same_line_sym.
  - intros r r' Hr Hr'. apply in_lay in Hr, Hr'. destruct Hr as [r0 [Hr ->]]. destruct Hr' as [r1 [Hr' ->]]. rewrite !backwards_length, !map_length. now apply Fl.
  - unfold lay. rewrite backwards_map. apply (sorted_map (fun r r' => r <> [] /\ r' <> [] /\ e + s * Rmean (map py r) < e + s * Rmean (map py r'))).
    { intros r r' [N1 [N2 H]].
      assert (M : forall l, l <> [] -> Rmean (map py (backwards (down t) (map (sign_move s t e f) l))) = e + s * Rmean (map py l)).
      { intros l Hl. rewrite (Rmean_perm _ (map py (map (sign_move s t e f) l))) by (apply Permutation_map; symmetry; apply backwards_perm).
        rewrite sign_move_y. now apply Rmean_affine. }
      now rewrite !M by assumption. }
    assert (Q : StronglySorted (fun r r' => e + s * Rmean (map py r) < e + s * Rmean (map py r')) (backwards (down s) rows)).
    { apply (sorted_sign s (fun r => Rmean (map py r)) (fun r => e + s * Rmean (map py r))); [exact Hs| |exact Fm]. intros r r' H. destruct Hs as [->| ->]; lra. }
    assert (NE : forall r, In r (backwards (down s) rows) -> r <> []).
    { intros r Hr ->. apply (proj1 (in_backwards _ _ _)) in Hr. rewrite Forall_forall in Fr. destruct (Fr _ Hr) as [L _]. cbn in L. lia. }
    clear -Q NE. induction Q as [|r l Q IH F]; constructor.
    + apply IH. intros r' Hr'. apply NE. now right.
    + apply Forall_forall. intros r' Hr'. split; [apply NE; now left|]. split; [apply NE; now right|]. rewrite Forall_forall in F. now apply F.
Qed.
(** *** The grouping *)
Lemma group_clear argsort label pts rows slope dot_dist ratio miss accepted : argsort_spec argsort ->
  clear_rows slope (IZR miss * dot_dist) (ratio * dot_dist) accepted pts rows ->
  @group_dots_hor_lines R Rex argsort label (DPts pts) slope dot_dist ratio miss accepted = Ok rows.
Proof.
  intros HA [Ne [Pp [Fr [Fp [Fl Fm]]]]]. destruct (C99_rows argsort label pts rows slope dot_dist ratio miss accepted HA Ne Pp Fr Fp Fl) as [lines [E [_ U]]].
  now rewrite <- (U Fm).
Qed.
Lemma exchange_exchange l : map exchange (map exchange l) = l.
Proof. rewrite map_map. rewrite <- (map_id l) at 2. apply map_ext. now intros []. Qed.
Lemma group_clear_ver argsort label pts cols slope dot_dist ratio miss accepted : argsort_spec argsort ->
  clear_columns slope (IZR miss * dot_dist) (ratio * dot_dist) accepted pts cols ->
  @group_dots_ver_lines R Rex argsort label (DPts pts) slope dot_dist ratio miss accepted = Ok cols.
Proof.
  intros HA H. refine (eq_trans (C46_grouping R Rex argsort label pts slope dot_dist ratio miss accepted) _). cbv zeta.
  refine (eq_trans (f_equal _ (group_clear argsort label (map exchange pts) _ slope dot_dist ratio miss accepted HA H)) _). cbn [res_map]. f_equal.
  rewrite map_map. rewrite <- (map_id cols) at 2. apply map_ext. apply exchange_exchange.
Qed.
Lemma clear_perm slope reach tol accepted pts pts' rows : Permutation pts' pts -> clear_rows slope reach tol accepted pts rows -> clear_rows slope reach tol accepted pts' rows.
Proof. intros P [Ne [Pp H]]. split; [exact Ne|]. split; [now rewrite P|exact H]. Qed.

(** *** The calibration *)
Section Follow.
  Variable st : R -> R.
  Hypothesis ODD : odd_rounding st.
  Variable polyfit : list R -> list R -> nat -> res (list R).
  Hypothesis PF : polyfit_oracle polyfit.
  Variable minimize : (R -> R) -> R -> R.
  Variable lstsq : list (list R) -> list R -> res (list R).
  Hypothesis LS : lstsq_oracle lstsq.
  Variables (opt : bool) (thr : R).
  Definition cal (lh lv : list (list pt)) (xc yc : R) (w : bool) (uh uv : list R) (ch cv : list (R * R * R)) : Prop :=
    (2 <= length lh)%nat /\ (2 <= length lv)%nat /\ spread_hor 3 lh /\ spread_ver 3 lv /\
    @calc_undistor_intercept R (Rst st) polyfit minimize lh lv xc yc opt thr = Ok (w, (uh, uv)) /\
    fits_hor st polyfit xc yc lh ch /\ fits_ver st polyfit xc yc lv cv /\ one_nearest ch /\ one_nearest cv.
  Definition smp (lh lv : list (list pt)) (xc yc : R) (uh uv : list R) (ch cv : list (R * R * R)) : list (R * R) :=
    line_samples (hor_sample xc yc) ch uh lh ++ line_samples (ver_sample xc yc) cv uv lv.
  Definition radii (lh lv : list (list pt)) (xc yc : R) : list R := map (fun p => dist p (yc, xc)) (concat lh ++ concat lv).
  Definition follows (lh lv : list (list pt)) (xc yc : R) (lh' lv' : list (list pt)) (xc' yc' : R) : Prop :=
    forall w uh uv ch cv, cal lh lv xc yc w uh uv ch cv -> exists uh' uv' ch' cv', cal lh' lv' xc' yc' w uh' uv' ch' cv' /\
      Permutation (smp lh lv xc yc uh uv ch cv) (smp lh' lv' xc' yc' uh' uv' ch' cv') /\ Permutation (radii lh lv xc yc) (radii lh' lv' xc' yc').
  Lemma follows_trans lh lv xc yc lh' lv' xc' yc' lh2 lv2 xc2 yc2 : follows lh lv xc yc lh' lv' xc' yc' -> follows lh' lv' xc' yc' lh2 lv2 xc2 yc2 -> follows lh lv xc yc lh2 lv2 xc2 yc2.
  Proof.
    intros A B w uh uv ch cv H. destruct (A w uh uv ch cv H) as [uh' [uv' [ch' [cv' [H' [P1 P2]]]]]]. destruct (B w _ _ _ _ H') as [uh2 [uv2 [ch2 [cv2 [H2 [Q1 Q2]]]]]].
    exists uh2, uv2, ch2, cv2. split; [exact H2|]. split; [exact (perm_trans P1 Q1)|exact (perm_trans P2 Q2)].
  Qed.
  Lemma spread_reorder n (f : pt -> R) a b : reordered a b -> Forall (fun l => distinct_values n (map f l)) a -> Forall (fun l => distinct_values n (map f l)) b.
  Proof. intros H. induction H as [|x y a b P H IH]; intros F; inversion_clear F; constructor; [|now apply IH]. eapply distinct_perm; [|eassumption]. now apply Permutation_map. Qed.
  Lemma le_len (a b : list (list pt)) : (2 <= length b)%nat -> length a = length b -> (2 <= length a)%nat.
  Proof. lia. Qed.
  Lemma follows_reorder (lh lv lh' lv' : list (list pt)) xc yc : reordered lh lh' -> reordered lv lv' -> follows lh lv xc yc lh' lv' xc yc.
  Proof.
    intros Rh Rv w uh uv ch cv [Lh [Lv [Sh [Sv [EU [Fh [Fv [Nh Nv]]]]]]]]. exists uh, uv, ch, cv.
    pose proof (eq_trans (eq_sym (undistor_order st polyfit PF lh lh' lv lv' Rh Rv Sh Sv minimize xc yc opt thr)) EU) as EU'.
    destruct (hor_order st polyfit PF lh lh' xc yc Rh Sh) as [ch0 [sh [sh' [Eh [Eh' _]]]]]. destruct (ver_order st polyfit PF lv lv' xc yc Rv Sv) as [cv0 [sv [sv' [Ev [Ev' _]]]]].
    pose proof (fits_hor_fun st polyfit _ _ _ _ _ Fh (para_hor_fits _ _ _ _ _ _ _ Eh)) as <-.
    pose proof (fits_ver_fun st polyfit _ _ _ _ _ Fv (para_ver_fits _ _ _ _ _ _ _ Ev)) as <-.
    assert (LLh : length lh' = length lh) by (symmetry; exact (Forall2_length _ _ _ Rh)). assert (LLv : length lv' = length lv) by (symmetry; exact (Forall2_length _ _ _ Rv)).
    split; [|split].
    - split; [now rewrite LLh|]. split; [now rewrite LLv|]. split; [exact (spread_reorder 3 pxc _ _ Rh Sh)|]. split; [exact (spread_reorder 3 py _ _ Rv Sv)|].
      split; [exact EU'|]. split; [exact (para_hor_fits _ _ _ _ _ _ _ Eh')|]. split; [exact (para_ver_fits _ _ _ _ _ _ _ Ev')|]. now split.
    - apply Permutation_app; now apply samples_perm.
    - apply Permutation_map, Permutation_app; now apply Props_DotOrder.concat_perm.
  Qed.
  Lemma follows_shift lh lv xc yc dx dy : follows lh lv xc yc (shift_lines dx dy lh) (shift_lines dx dy lv) (xc + dx) (yc + dy).
  Proof.
    intros w uh uv ch cv [Lh [Lv [Sh [Sv [EU [Fh [Fv [Nh Nv]]]]]]]]. exists uh, uv, ch, cv.
    pose proof (eq_trans (shift_undistor st polyfit minimize dx dy lh lv xc yc opt thr) EU) as EU'.
    assert (SM : forall (f : pt -> R) n l d, (forall p, f (fst p + dy, snd p + dx) = f p + d) -> Forall (fun l => distinct_values n (map f l)) l -> Forall (fun l => distinct_values n (map f l)) (shift_lines dx dy l)).
    { intros f n l d Hf F. apply Forall_map. eapply Forall_impl; [|exact F]. intros a D. rewrite map_map. cbn beta.
      replace (map (fun x => f (fst x + dy, snd x + dx)) a) with (map (fun p => f p - - d) a) by (apply map_ext; intros p; rewrite Hf; ring). now apply (distinct_shift n f (- d)). }
    assert (DI : forall p, dist (fst p + dy, snd p + dx) (yc + dy, xc + dx) = dist p (yc, xc)) by (intros p; unfold dist, py, pxc; cbn [fst snd]; f_equal; ring).
    assert (LSA : forall g g' cs us l, (forall c u p, g' c u (fst p + dy, snd p + dx) = g c u p) -> line_samples g cs us l = line_samples g' cs us (shift_lines dx dy l)).
    { intros g g' cs us l Hg. unfold line_samples, shift_lines. revert us l. induction cs as [|c cs IH]; intros [|u us] [|a l]; cbn [map combine concat]; try reflexivity.
      rewrite (IH us l). f_equal. cbn [fst snd]. rewrite map_map. apply map_ext. intros p. symmetry. apply Hg. }
    split; [|split].
    - split; [apply (le_len _ lh); [exact Lh|apply map_length]|]. split; [apply (le_len _ lv); [exact Lv|apply map_length]|].
      split; [apply (SM pxc 3%nat lh dx); [reflexivity|exact Sh]|]. split; [apply (SM py 3%nat lv dy); [reflexivity|exact Sv]|]. split; [exact EU'|].
      split; [|split; [|now split]].
      + unfold fits_hor, shift_lines. clear -Fh. induction Fh as [|l c lh ch H Fh IH]; cbn [map]; constructor; [|exact IH]. destruct H as [u [v [x [E H]]]]. exists u, v, x. split; [exact E|]. rewrite <- H.
        rewrite !map_map. f_equal; apply map_ext; intros p; unfold pxc, py; cbn [fst snd]; ring.
      + unfold fits_ver, shift_lines. clear -Fv. induction Fv as [|l c lv cv H Fv IH]; cbn [map]; constructor; [|exact IH]. destruct H as [u [v [x [E H]]]]. exists u, v, x. split; [exact E|]. rewrite <- H.
        rewrite !map_map. f_equal; apply map_ext; intros p; unfold pxc, py; cbn [fst snd]; ring.
    - unfold smp. rewrite (LSA (hor_sample xc yc) (hor_sample (xc + dx) (yc + dy)) ch uh lh), (LSA (ver_sample xc yc) (ver_sample (xc + dx) (yc + dy)) cv uv lv); [reflexivity| |].
      + intros c u p. unfold ver_sample. rewrite DI. unfold py. cbn [fst]. do 4 f_equal. ring.
      + intros c u p. unfold hor_sample. rewrite DI. unfold pxc. cbn [snd]. do 4 f_equal. ring.
    - unfold radii, shift_lines. rewrite <- !concat_map, <- map_app, map_map. apply Permutation_refl'. symmetry. apply map_ext. exact DI.
  Qed.
  Lemma follows_swap lh lv xc yc : follows lh lv xc yc (swap_lines lv) (swap_lines lh) yc xc.
  Proof.
    intros w uh uv ch cv [Lh [Lv [Sh [Sv [EU [Fh [Fv [Nh Nv]]]]]]]]. exists uv, uh, cv, ch.
    pose proof (swap_undistor st polyfit minimize lh lv xc yc opt thr w uh uv EU) as EU'.
    split; [|split].
    - split; [apply (le_len _ lv); [exact Lv|apply map_length]|]. split; [apply (le_len _ lh); [exact Lh|apply map_length]|].
      split; [|split; [|split; [exact EU'|split; [|split; [|now split]]]]].
      + unfold spread_hor, swap_lines. apply Forall_map. eapply Forall_impl; [|exact Sv]. intros a H. rewrite map_map. exact H.
      + unfold spread_ver, swap_lines. apply Forall_map. eapply Forall_impl; [|exact Sh]. intros a H. rewrite map_map. exact H.
      + unfold fits_hor, swap_lines. clear -Fv. induction Fv as [|l c lv cv H Fv IH]; cbn [map]; constructor; [|exact IH]. destruct H as [u [v [x [E H]]]]. exists u, v, x. split; [exact E|]. rewrite <- H.
        rewrite !map_map. reflexivity.
      + unfold fits_ver, swap_lines. clear -Fh. induction Fh as [|l c lh ch H Fh IH]; cbn [map]; constructor; [|exact IH]. destruct H as [u [v [x [E H]]]]. exists u, v, x. split; [exact E|]. rewrite <- H.
        rewrite !map_map. reflexivity.
    - unfold smp. rewrite (swap_samples (hor_sample yc xc) (ver_sample xc yc) cv), (swap_samples (ver_sample yc xc) (hor_sample xc yc) ch).
      + apply Permutation_app_comm.
      + intros c u p. unfold ver_sample, hor_sample. now rewrite swap_dist.
      + intros c u p. unfold ver_sample, hor_sample. now rewrite swap_dist.
    - unfold radii, swap_lines. rewrite <- !concat_map, <- map_app, map_map.
      refine (perm_trans (Permutation_map _ (Permutation_app_comm _ _)) (Permutation_refl' _)). apply map_ext. intros p. symmetry. apply swap_dist.
  Qed.
  Lemma one_nearest_rev cs : one_nearest cs -> one_nearest (rev cs).
  Proof.
    intros [k [Hk H]]. exists (length cs - 1 - k)%nat. rewrite rev_length. split; [lia|]. intros j Hj Nj. rewrite !rev_nth by lia.
    replace (length cs - S (length cs - 1 - k))%nat with k by lia. apply H; lia.
  Qed.
  Lemma follows_mirror lh lv xc yc sy sx rh rv : is_sign sy -> is_sign sx ->
    follows lh lv xc yc (backwards rh (mirror_lines sy sx lh)) (backwards rv (mirror_lines sy sx lv)) (sx * xc) (sy * yc).
  Proof.
    intros Hy Hx w uh uv ch cv [Lh [Lv [Sh [Sv [EU [Fh [Fv [Nh Nv]]]]]]]].
    destruct (C123_mirrored st polyfit minimize lstsq sy sx rh rv lh lv xc yc 1 opt thr w uh uv ch cv ODD PF LS ltac:(lia) Hy Hx Lh Lv Sh Sv EU Fh Fv (fun _ => Nh) (fun _ => Nv)) as [EU' _].
    exists (backwards rh (map (Rmult sy) uh)), (backwards rv (map (Rmult sx) uv)), (backwards rh (map (flip sy sx) ch)), (backwards rv (map (flip sx sy) cv)).
    destruct (call_parts st polyfit minimize lh lv xc yc opt thr) as [w' [uh' [uv' [ch' [cv' [sh [sv [E' [Eh Ev]]]]]]]]].
    { intros e X. pose proof (eq_trans (eq_sym EU) X). discriminate. }
    pose proof (fits_hor_fun st polyfit _ _ _ _ _ Fh (para_hor_fits _ _ _ _ _ _ _ Eh)) as <-.
    pose proof (fits_ver_fun st polyfit _ _ _ _ _ Fv (para_ver_fits _ _ _ _ _ _ _ Ev)) as <-. clear E' w' uh' uv'.
    pose proof (eq_trans (flip_hor st ODD polyfit PF lh sy sx xc yc Hy Hx Sh) (f_equal _ Eh)) as Eh'. cbn [res_map fst snd] in Eh'. apply (back_hor st polyfit rh) in Eh'.
    pose proof (eq_trans (flip_ver st ODD polyfit PF lv sy sx xc yc Hy Hx Sv) (f_equal _ Ev)) as Ev'. cbn [res_map fst snd] in Ev'. apply (back_ver st polyfit rv) in Ev'.
    assert (Lch : length ch = length lh) by (symmetry; exact (Forall2_length _ _ _ Fh)). assert (Lcv : length cv = length lv) by (symmetry; exact (Forall2_length _ _ _ Fv)).
    assert (LU : length uh = length ch /\ length uv = length cv).
    { destruct (undistor_intercept_ok st polyfit minimize lh lv xc yc opt thr w uh uv Lh Lv EU) as [c1 [c2 [F1 [F2 [_ [[p1 [d1 [_ [L1 _]]]] [p2 [d2 [_ [L2 _]]]]]]]]]].
      rewrite (fits_hor_fun st polyfit _ _ _ _ _ Fh F1), (fits_ver_fun st polyfit _ _ _ _ _ Fv F2). auto. }
    assert (SM : forall (f : pt -> R) b l s, is_sign s -> (forall p, f (mirror_dot sy sx p) = s * f p) -> Forall (fun l => distinct_values 3 (map f l)) l -> Forall (fun l => distinct_values 3 (map f l)) (backwards b (mirror_lines sy sx l))).
    { intros f b l s Hs Hf F.
      assert (Q : Forall (fun l => distinct_values 3 (map f l)) (mirror_lines sy sx l)).
      { apply Forall_map. eapply Forall_impl; [|exact F]. intros a [d [Nd [Id Ld]]]. exists (map (Rmult s) d). split; [|split].
        - clear -Nd Hs. induction Nd as [|x d Nx Nd IH]; cbn [map]; constructor; [|exact IH]. intros Q. apply in_map_iff in Q. destruct Q as [y [Ey Hy]]. apply Nx. replace x with y; [exact Hy|]. destruct Hs as [->| ->]; lra.
        - intros x Hx'. apply in_map_iff in Hx'. destruct Hx' as [y [<- Hy']]. rewrite map_map. apply Id in Hy'. apply in_map_iff in Hy'. destruct Hy' as [p [<- Hp]]. rewrite <- Hf. now apply (in_map (fun x => f (mirror_dot sy sx x))).
        - now rewrite map_length. }
      destruct b; cbn [backwards]; [now apply Forall_rev|exact Q]. }
    split; [|split].
    - split; [apply (le_len _ lh); [exact Lh|]; refine (eq_trans (backwards_length _ _) (mirror_length _ _ _))|]. split; [apply (le_len _ lv); [exact Lv|]; refine (eq_trans (backwards_length _ _) (mirror_length _ _ _))|]. split; [apply (SM pxc rh lh sx Hx); [reflexivity|exact Sh]|]. split; [apply (SM py rv lv sy Hy); [reflexivity|exact Sv]|].
      split; [exact EU'|]. split; [exact (para_hor_fits _ _ _ _ _ _ _ Eh')|]. split; [exact (para_ver_fits _ _ _ _ _ _ _ Ev')|].
      split; [destruct rh|destruct rv]; cbn [backwards]; try apply one_nearest_rev; now apply flip_nearest.
    - unfold smp. apply Permutation_app.
      + rewrite <- (mirror_samples (hor_sample (sx * xc) (sy * yc)) (hor_sample xc yc) (flip sy sx) sy sy sx ch uh lh) by (intros; now apply mirror_hor_sample).
        apply backwards_samples; rewrite ?map_length, ?mirror_length; unfold pt in *; lia.
      + rewrite <- (mirror_samples (ver_sample (sx * xc) (sy * yc)) (ver_sample xc yc) (flip sx sy) sx sy sx cv uv lv) by (intros; now apply mirror_ver_sample).
        apply backwards_samples; rewrite ?map_length, ?mirror_length; unfold pt in *; lia.
    - unfold radii.
      replace (map (fun p => dist p (yc, xc)) (concat lh ++ concat lv)) with
        (map (fun p => dist p (sy * yc, sx * xc)) (concat (mirror_lines sy sx lh) ++ concat (mirror_lines sy sx lv))).
      2: { unfold mirror_lines. rewrite <- !concat_map, <- map_app, map_map. apply map_ext. intros p. now rewrite mirror_dist by assumption. }
      apply Permutation_map, Permutation_app; apply PrepFacts.concat_perm; [destruct rh|destruct rv]; cbn [backwards]; try reflexivity; apply Permutation_rev.
  Qed.
  (** Calibrations from the same measurements give the same coefficients. *)
  Lemma follows_results lh lv xc yc lh' lv' xc' yc' w uh uv ch cv num_fact : follows lh lv xc yc lh' lv' xc' yc' -> cal lh lv xc yc w uh uv ch cv -> (num_fact <= 32767)%Z ->
    let n := Z.to_nat (Z.max 1 num_fact) in
    let samples := line_samples (hor_sample xc yc) ch uh lh ++ line_samples (ver_sample xc yc) cv uv lv in
    (exists uh' uv', @calc_undistor_intercept R (Rst st) polyfit minimize lh' lv' xc' yc' opt thr = Ok (w, (uh', uv'))) /\
    (distinct_values n (map fst (usable samples)) -> exists F,
      @calc_coef_forward R (Rst st) polyfit minimize lstsq lh lv xc yc num_fact opt thr = Ok F /\
      @calc_coef_forward R (Rst st) polyfit minimize lstsq lh' lv' xc' yc' num_fact opt thr = Ok F) /\
    (distinct_values n (map fst (map inverse_sample samples)) -> exists B,
      @calc_coef_backward R (Rst st) polyfit minimize lstsq lh lv xc yc num_fact opt thr = Ok B /\
      @calc_coef_backward R (Rst st) polyfit minimize lstsq lh' lv' xc' yc' num_fact opt thr = Ok B) /\
    (forall F B, distinct_values n (map fst (usable samples)) ->
      @calc_coef_backward_from_forward R (Rst st) polyfit minimize lstsq lh lv xc yc num_fact opt thr = Ok (F, B) ->
      distinct_values n (map (fun p => dist p (yc, xc) * poly F (dist p (yc, xc))) (filter (fun p => negb (Req_bool (poly F (dist p (yc, xc))) 0)) (concat lh ++ concat lv))) ->
      @calc_coef_backward_from_forward R (Rst st) polyfit minimize lstsq lh' lv' xc' yc' num_fact opt thr = Ok (F, B)).
  Proof.
    intros FO CA NF n samples. destruct (FO w uh uv ch cv CA) as [uh' [uv' [ch' [cv' [CB [PS PR]]]]]].
    destruct CA as [Lh [Lv [Sh [Sv [EU [Fh [Fv _]]]]]]]. destruct CB as [Lh' [Lv' [Sh' [Sv' [EU' [Fh' [Fv' _]]]]]]].
    split; [now exists uh', uv'|].
    assert (PARTS : forall lh lv xc yc w uh uv ch cv, @calc_undistor_intercept R (Rst st) polyfit minimize lh lv xc yc opt thr = Ok (w, (uh, uv)) ->
      fits_hor st polyfit xc yc lh ch -> fits_ver st polyfit xc yc lv cv -> exists sh sv, @para_fit_hor R (Rst st) polyfit lh xc yc = Ok (ch, sh) /\ @para_fit_ver R (Rst st) polyfit lv xc yc = Ok (cv, sv)).
    { clear. intros lh lv xc yc w uh uv ch cv EU Fh Fv. destruct (call_parts st polyfit minimize lh lv xc yc opt thr) as [w' [uh' [uv' [ch' [cv' [sh [sv [E' [Eh Ev]]]]]]]]].
      { intros e X. pose proof (eq_trans (eq_sym EU) X). discriminate. }
      pose proof (fits_hor_fun st polyfit _ _ _ _ _ Fh (para_hor_fits _ _ _ _ _ _ _ Eh)) as <-.
      pose proof (fits_ver_fun st polyfit _ _ _ _ _ Fv (para_ver_fits _ _ _ _ _ _ _ Ev)) as <-. now exists sh, sv. }
    destruct (PARTS _ _ _ _ _ _ _ _ _ EU Fh Fv) as [sh [sv [Eh Ev]]]. destruct (PARTS _ _ _ _ _ _ _ _ _ EU' Fh' Fv') as [sh' [sv' [Eh' Ev']]]. clear PARTS.
    assert (SF : distinct_values n (map fst (usable samples)) -> exists F,
      @calc_coef_forward R (Rst st) polyfit minimize lstsq lh lv xc yc num_fact opt thr = Ok F /\
      @calc_coef_forward R (Rst st) polyfit minimize lstsq lh' lv' xc' yc' num_fact opt thr = Ok F).
    { intros D. destruct (solve_total st lstsq LS n (usable samples) (distinct_nonempty num_fact _ D)) as [F EF]. exists F. split.
      - exact (eq_trans (forward_call st polyfit minimize lstsq lh lv xc yc num_fact opt thr NF w uh uv ch cv sh sv EU Eh Ev) EF).
      - refine (eq_trans (forward_call st polyfit minimize lstsq _ _ _ _ num_fact opt thr NF w _ _ _ _ sh' sv' EU' Eh' Ev') _).
        exact (perm_solve st lstsq LS n _ _ F (usable_perm _ _ PS) EF D). }
    split; [exact SF|]. split.
    { intros D. destruct (solve_total st lstsq LS n (map inverse_sample samples) (distinct_nonempty num_fact _ D)) as [F EF]. exists F. split.
      - exact (eq_trans (backward_call st polyfit minimize lstsq lh lv xc yc num_fact opt thr NF w uh uv ch cv sh sv EU Eh Ev) EF).
      - refine (eq_trans (backward_call st polyfit minimize lstsq _ _ _ _ num_fact opt thr NF w _ _ _ _ sh' sv' EU' Eh' Ev') _).
        exact (perm_solve st lstsq LS n _ _ F (Permutation_map inverse_sample PS) EF D). }
    intros F B D1 H D2. destruct (SF D1) as [F' [EF EG]].
    pose proof (C97_backward_from_forward st polyfit minimize lstsq lh lv xc yc num_fact opt thr F B LS NF H) as [EF' _].
    pose proof (Ok_inj _ _ (eq_trans (eq_sym EF) EF')) as ->.
    assert (LF : length F = n).
    { destruct (C97_forward_least_squares st polyfit minimize lstsq lh lv xc yc num_fact opt thr w uh uv F LS NF EU EF) as [? [? [_ [_ [L _]]]]]. exact L. }
    pose proof (both_call st polyfit minimize lstsq lh lv xc yc num_fact opt thr F ch cv sh sv NF EF LF Eh Ev) as C1.
    pose proof (both_call st polyfit minimize lstsq lh' lv' xc' yc' num_fact opt thr F _ _ sh' sv' NF EG LF Eh' Ev') as C2.
    pose proof (eq_trans (eq_sym C1) H) as C3. clear C1.
    match type of C3 with bind ?x _ = _ => destruct x as [B'|] eqn:EB; [|discriminate C3] end.
    cbn [bind] in C3. apply Ok_inj in C3. apply pair_equal_spec in C3. destruct C3 as [_ ->].
    assert (D3 : distinct_values n (map fst (inverse_samples xc yc F (concat lh ++ concat lv)))) by (rewrite inverse_radii; exact D2).
    refine (eq_trans C2 _).
    assert (IP : Permutation (inverse_samples xc yc F (concat lh ++ concat lv)) (inverse_samples xc' yc' F (concat lh' ++ concat lv'))).
    { unfold inverse_samples. apply Permutation_map, usable_perm.
      assert (Q : forall lh lv xc yc, map (fun p => (dist p (yc, xc), poly F (dist p (yc, xc)))) (concat lh ++ concat lv) = map (fun d => (d, poly F d)) (radii lh lv xc yc)) by (intros; unfold radii; now rewrite map_map).
      rewrite !Q. now apply Permutation_map. }
    refine (eq_trans (f_equal (fun r => bind r _) (perm_solve st lstsq LS n _ _ B IP EB D3)) _). reflexivity.
  Qed.
End Follow.

(** *** Both together *)
Lemma affs_signs ms : forall h w, let '(sw, s, t, e, f) := affs ms h w in exchanged ms = sw /\ slope_sign ms = IZR s * IZR t.
Proof.
  induction ms as [|a ms IH]; intros h w; cbn [affs]; [split; [reflexivity|cbn -[IZR]; ring]|].
  specialize (IH (fst (size_after a h w)) (snd (size_after a h w))). destruct (affs ms _ _) as [[[[sw s] t] e] f]. destruct IH as [A B].
  destruct a; cbn [aff after exchanged slope_sign]; rewrite A, B; destruct sw; cbn -[IZR Z.mul Z.add]; rewrite ?mult_IZR; (split; [reflexivity|ring]).
Qed.
Lemma unit_sign s : unit s -> is_sign (IZR s).
Proof. intros [->| ->]; [now left|now right]. Qed.
Lemma same_lay s t e f rows g : (forall p, g p = sign_move s t e f p) -> same_lines (lay s t e f rows) (map (map g) rows).
Proof.
  intros H. unfold lay. exists (backwards (down s) (map (map g) rows)). split; [apply backwards_perm|].
  rewrite !backwards_map. induction (backwards (down s) rows) as [|r l IH]; cbn [map]; constructor; [|exact IH].
  rewrite (map_ext g (sign_move s t e f) H). symmetry. apply backwards_perm.
Qed.
Lemma same_lines_exchange a b : same_lines a b -> same_lines (map (map exchange) a) (map (map exchange) b).
Proof.
  intros [c [P F]]. exists (map (map exchange) c). split; [now apply Permutation_map|]. clear P. induction F; cbn [map]; constructor; [now apply Permutation_map|assumption].
Qed.
Lemma lay_reordered s t e f rows : reordered (shift_lines f e (backwards (down s) (mirror_lines s t rows))) (lay s t e f rows).
Proof.
  unfold lay, shift_lines, mirror_lines, reordered, pt in *. rewrite !backwards_map. induction (backwards (down s) rows) as [|r l IH]; cbn [map]; constructor; [|exact IH].
  rewrite <- backwards_perm, map_map. apply Permutation_refl'. apply map_ext. intros p. unfold mirror_dot, sign_move. cbn [fst snd]. apply f_equal2; ring.
Qed.
Lemma lay_reordered_ver s t e f cols :
  reordered (shift_lines f e (backwards (down t) (mirror_lines s t cols))) (map (map exchange) (lay t s f e (map (map exchange) cols))).
Proof.
  unfold lay, shift_lines, mirror_lines, reordered, pt in *. rewrite !backwards_map. induction (backwards (down t) cols) as [|r l IH]; cbn [map]; constructor; [|exact IH].
  rewrite <- backwards_perm, !map_map. apply Permutation_refl'. apply map_ext. intros p. unfold mirror_dot, sign_move, exchange. cbn [fst snd]. apply f_equal2; ring.
Qed.
(** The rows and the columns in the moved photograph. *)
Definition moved_rows (c : bool * Z * Z * Z * Z) (rows cols : list (list pt)) : list (list pt) :=
  let '(sw, s, t, e, f) := c in lay (IZR s) (IZR t) (IZR e) (IZR f) (if sw then map (map exchange) cols else rows).
Definition moved_cols (c : bool * Z * Z * Z * Z) (rows cols : list (list pt)) : list (list pt) :=
  let '(sw, s, t, e, f) := c in map (map exchange) (lay (IZR t) (IZR s) (IZR f) (IZR e) (if sw then rows else map (map exchange) cols)).
Lemma moved_clear c sh sv reach tol accepted pts rows cols : units c ->
  clear_rows sh reach tol accepted pts rows -> clear_columns sv reach tol accepted pts cols ->
  let '(sw, s, t, e, f) := c in
  clear_rows (IZR s * IZR t * (if sw then sv else sh)) reach tol accepted (map (Gm c) pts) (moved_rows c rows cols) /\
  clear_columns (IZR s * IZR t * (if sw then sh else sv)) reach tol accepted (map (Gm c) pts) (moved_cols c rows cols).
Proof.
  destruct c as [[[[sw s] t] e] f]. intros [Us Ut] Cr Cc. apply unit_sign in Us, Ut. unfold clear_columns in *. cbn [moved_rows moved_cols Gm].
  assert (EE : forall L : list (list pt), map (map exchange) (map (map exchange) L) = L) by (intros L; rewrite map_map; rewrite <- (map_id L) at 2; apply map_ext; apply exchange_exchange).
  rewrite EE. rewrite (Rmult_comm (IZR s)).
  assert (G1 : map (Gmap sw s t e f) pts = map (sign_move (IZR s) (IZR t) (IZR e) (IZR f)) (if sw then map exchange pts else pts)).
  { destruct sw; [rewrite map_map|]; apply map_ext; intros p; reflexivity. }
  assert (G2 : map exchange (map (Gmap sw s t e f) pts) = map (sign_move (IZR t) (IZR s) (IZR f) (IZR e)) (if sw then pts else map exchange pts)).
  { destruct sw; rewrite ?map_map; apply map_ext; intros p; reflexivity. }
  rewrite G2, G1. split.
  - rewrite (Rmult_comm (IZR t)). destruct sw; now apply rows_move.
  - destruct sw; now apply rows_move.
Qed.
Lemma moved_same c rows cols : let '(sw, s, t, e, f) := c in
  same_lines (moved_rows c rows cols) (map (map (Gm c)) (if sw then cols else rows)) /\
  same_lines (moved_cols c rows cols) (map (map (Gm c)) (if sw then rows else cols)).
Proof.
  destruct c as [[[[sw s] t] e] f]. cbn [moved_rows moved_cols Gm].
  assert (EX : forall (g : pt -> pt) (L : list (list pt)), map (map g) (map (map exchange) L) = map (map (fun p => g (exchange p))) L) by (intros g L; rewrite map_map; apply map_ext; intros l; apply map_map).
  assert (XE : forall (g : pt -> pt) (L : list (list pt)), map (map exchange) (map (map g) L) = map (map (fun p => exchange (g p))) L) by (intros g L; rewrite map_map; apply map_ext; intros l; apply map_map).
  destruct sw; split.
  - pose proof (same_lay (IZR s) (IZR t) (IZR e) (IZR f) (map (map exchange) cols) _ (fun p => eq_refl)) as H. rewrite EX in H. exact H.
  - pose proof (same_lines_exchange _ _ (same_lay (IZR t) (IZR s) (IZR f) (IZR e) rows _ (fun p => eq_refl))) as H. rewrite XE in H. exact H.
  - exact (same_lay (IZR s) (IZR t) (IZR e) (IZR f) rows _ (fun p => eq_refl)).
  - pose proof (same_lines_exchange _ _ (same_lay (IZR t) (IZR s) (IZR f) (IZR e) (map (map exchange) cols) _ (fun p => eq_refl))) as H. rewrite EX, XE in H. exact H.
Qed.
Lemma moved_follows st polyfit minimize lstsq opt thr c rows cols xc yc : odd_rounding st -> polyfit_oracle polyfit -> lstsq_oracle lstsq -> units c ->
  let centre := Gm c (yc, xc) in
  follows st polyfit minimize opt thr rows cols xc yc (moved_rows c rows cols) (moved_cols c rows cols) (snd centre) (fst centre).
Proof.
  intros ODD PF LS U. destruct c as [[[[sw s] t] e] f]. destruct U as [Us Ut]. apply unit_sign in Us, Ut. cbn [moved_rows moved_cols Gm].
  assert (ST : forall rows cols xc yc, follows st polyfit minimize opt thr rows cols xc yc (lay (IZR s) (IZR t) (IZR e) (IZR f) rows)
    (map (map exchange) (lay (IZR t) (IZR s) (IZR f) (IZR e) (map (map exchange) cols))) (IZR f + IZR t * xc) (IZR e + IZR s * yc)).
  { clear rows cols xc yc. intros rows cols xc yc.
    eapply follows_trans; [exact (follows_mirror st ODD polyfit PF minimize lstsq LS opt thr rows cols xc yc (IZR s) (IZR t) (down (IZR s)) (down (IZR t)) Us Ut)|].
    eapply follows_trans; [exact (follows_shift st polyfit minimize opt thr _ _ _ _ (IZR f) (IZR e))|].
    rewrite (Rplus_comm (IZR f)), (Rplus_comm (IZR e)). apply (follows_reorder st polyfit PF); [apply lay_reordered|apply lay_reordered_ver]. }
  destruct sw; cbn [Gmap fst snd].
  - eapply follows_trans; [exact (follows_swap st polyfit minimize opt thr rows cols xc yc)|]. pose proof (ST (swap_lines cols) (swap_lines rows) yc xc) as H.
    assert (Q : map (map exchange) (swap_lines rows) = rows) by exact (swap_swap rows). rewrite Q in H. exact H.
  - exact (ST rows cols xc yc).
Qed.

(** *** C125 *)
Local Existing Instance Rex.
(** The dots of a photograph lie in clear rows and columns.  Hold the
    photograph differently: mirrored, turned, transposed, with a frame, in any
    sequence.  Its dots are grouped into the same rows and columns, now where
    the motion takes them, if the slopes are given with the sign which the
    mirrorings leave; and calibrating with the centre moved likewise gives the
    same warning and the same coefficients wherever the dots determine them. *)
Theorem C125_held : forall argsort label binarize st polyfit minimize lstsq ms m lab n lab' n' pts slope_hor slope_ver dot_dist ratio miss accepted rows cols
    xc yc num_fact opt thr w uh uv ch cv,
  argsort_spec argsort -> odd_rounding st -> polyfit_oracle polyfit -> lstsq_oracle lstsq -> (num_fact <= 32767)%Z ->
  (* the two photographs *)
  Forall frame_ok ms -> binary_image m -> (exists i j, in_img m i j /\ px m i j = 1) -> (exists i j, in_img m i j /\ px m i j = 0) ->
  let m' := moves 0 ms m in let place := moves_dot ms (ih m) (iw m) in
  label (to_int16 m) = (lab, n) -> labelling m lab n -> label (to_int16 m') = (lab', n') -> labelling m' lab' n' ->
  (* the dots of the first lie in clear rows and columns *)
  @get_points_dot_pattern R Rex label binarize m false = Ok pts ->
  clear_rows slope_hor (IZR miss * dot_dist) (ratio * dot_dist) accepted pts rows ->
  clear_columns slope_ver (IZR miss * dot_dist) (ratio * dot_dist) accepted pts cols ->
  (* they can be calibrated *)
  (2 <= length rows)%nat -> (2 <= length cols)%nat -> spread_hor 3 rows -> spread_ver 3 cols ->
  @calc_undistor_intercept R (Rst st) polyfit minimize rows cols xc yc opt thr = Ok (w, (uh, uv)) ->
  fits_hor st polyfit xc yc rows ch -> fits_ver st polyfit xc yc cols cv -> one_nearest ch -> one_nearest cv ->
  let nf := Z.to_nat (Z.max 1 num_fact) in
  let samples := line_samples (hor_sample xc yc) ch uh rows ++ line_samples (ver_sample xc yc) cv uv cols in
  let sign := slope_sign ms in let x := exchanged ms in let centre' := place (yc, xc) in
  exists pts' rows' cols',
    @group_dots_hor_lines R Rex argsort label (DPts pts) slope_hor dot_dist ratio miss accepted = Ok rows /\
    @group_dots_ver_lines R Rex argsort label (DPts pts) slope_ver dot_dist ratio miss accepted = Ok cols /\
    @get_points_dot_pattern R Rex label binarize m' false = Ok pts' /\
    @group_dots_hor_lines R Rex argsort label (DPts pts') (sign * if x then slope_ver else slope_hor) dot_dist ratio miss accepted = Ok rows' /\
    @group_dots_ver_lines R Rex argsort label (DPts pts') (sign * if x then slope_hor else slope_ver) dot_dist ratio miss accepted = Ok cols' /\
    same_lines rows' (map (map place) (if x then cols else rows)) /\ same_lines cols' (map (map place) (if x then rows else cols)) /\
    (exists uh' uv', @calc_undistor_intercept R (Rst st) polyfit minimize rows' cols' (snd centre') (fst centre') opt thr = Ok (w, (uh', uv'))) /\
    (distinct_values nf (map fst (usable samples)) -> exists F,
      @calc_coef_forward R (Rst st) polyfit minimize lstsq rows cols xc yc num_fact opt thr = Ok F /\
      @calc_coef_forward R (Rst st) polyfit minimize lstsq rows' cols' (snd centre') (fst centre') num_fact opt thr = Ok F) /\
    (distinct_values nf (map fst (map inverse_sample samples)) -> exists B,
      @calc_coef_backward R (Rst st) polyfit minimize lstsq rows cols xc yc num_fact opt thr = Ok B /\
      @calc_coef_backward R (Rst st) polyfit minimize lstsq rows' cols' (snd centre') (fst centre') num_fact opt thr = Ok B) /\
    (forall F B, distinct_values nf (map fst (usable samples)) ->
      @calc_coef_backward_from_forward R (Rst st) polyfit minimize lstsq rows cols xc yc num_fact opt thr = Ok (F, B) ->
      distinct_values nf (map (fun p => dist p (yc, xc) * poly F (dist p (yc, xc))) (filter (fun p => negb (Req_bool (poly F (dist p (yc, xc))) 0)) (concat rows ++ concat cols))) ->
      @calc_coef_backward_from_forward R (Rst st) polyfit minimize lstsq rows' cols' (snd centre') (fst centre') num_fact opt thr = Ok (F, B)).
Proof.
  intros argsort label binarize st polyfit minimize lstsq ms m lab n lab' n' pts slope_hor slope_ver dot_dist ratio miss accepted rows cols
    xc yc num_fact opt thr w uh uv ch cv HA ODD PF LS NF Hms Hb H1 H0 m' place El HL El' HL' Ep Cr Cc Lr Lc Sr Sc EU Fh Fv Nh Nv nf samples sign x centre'.
  destruct (C124_points label binarize ms m lab n lab' n' Hms Hb H1 H0 El HL El' HL') as [p0 [pts' [E0 [E' P']]]].
  pose proof (Ok_inj _ _ (eq_trans (eq_sym E0) Ep)) as ->.
  set (c := affs ms (ih m) (iw m)). pose proof (affs_units ms (ih m) (iw m)) as U. pose proof (affs_signs ms (ih m) (iw m)) as SG. fold c in U, SG.
  assert (PL : forall l, map place l = map (Gm c) l) by (intros l; apply map_ext; intros p; symmetry; apply affs_dot).
  assert (PLL : forall l, map (map place) l = map (map (Gm c)) l) by (intros l; apply map_ext; exact PL).
  assert (CE : centre' = Gm c (yc, xc)) by (symmetry; apply affs_dot).
  exists pts', (moved_rows c rows cols), (moved_cols c rows cols).
  pose proof (moved_clear c slope_hor slope_ver _ _ accepted pts rows cols U Cr Cc) as MC.
  pose proof (moved_same c rows cols) as MS.
  pose proof (moved_follows st polyfit minimize lstsq opt thr c rows cols xc yc ODD PF LS U) as MF. cbv zeta in MF. rewrite <- CE in MF.
  split; [now apply group_clear|]. split; [now apply group_clear_ver|]. split; [exact E'|].
  assert (P2 : Permutation pts' (map (Gm c) pts)) by (rewrite <- PL; exact P').
  unfold x, sign. destruct c as [[[[sw s] t] e] f]. destruct SG as [-> ->]. destruct MC as [MR MC]. destruct MS as [M1 M2].
  split; [apply group_clear; [exact HA|]; exact (clear_perm _ _ _ _ _ _ _ P2 MR)|].
  split; [apply group_clear_ver; [exact HA|]; exact (clear_perm _ _ _ _ _ _ _ (Permutation_map exchange P2) MC)|].
  rewrite !PLL. split; [exact M1|]. split; [exact M2|].
  apply (follows_results st polyfit minimize lstsq LS opt thr rows cols xc yc _ _ _ _ w uh uv ch cv num_fact MF); [|exact NF].
  repeat (split; [assumption|]). assumption.
Qed.
Print Assumptions C125_held.

(** *** Cases *)
From Verif Require Import ProcFacts5 Util UtilFacts Props_Util DotFacts Props_Dots.
Lemma grid_clear pts a e n b f m reach tol accepted :
  let rows := map (fun y => map (fun x => (y, x)) (levels b f m)) (levels a e n) in
  (1 <= n)%nat -> (2 <= m)%nat -> 0 < e -> 0 < f -> 0 < tol <= e -> f < reach -> accepted < 1 -> Permutation pts (concat rows) ->
  clear_rows 0 reach tol accepted pts rows.
Proof.
  intros rows Hn Hm He Hf Ht Hr Ha Hp.
  assert (LL : forall r, In r rows -> length r = m).
  { intros r Hi. apply in_map_iff in Hi. destruct Hi as [y [<- _]]. now rewrite map_length, levels_length. }
  split; [unfold rows, levels; destruct n; [lia|discriminate]|]. split; [exact Hp|]. split; [|split; [|split]].
  - rewrite Forall_forall. intros r Hi. split; [pose proof (LL r Hi); unfold pt in *; lia|]. apply in_map_iff in Hi. destruct Hi as [y [<- _]]. split.
    + pose proof (levels_sorted b f m Hf) as S. clear -S Hf. induction S as [|x l S IH F]; cbn [map]; constructor; [exact IH|].
      rewrite Forall_map. eapply Forall_impl; [|exact F]. intros z Hz. unfold pxc. cbn [snd] in *. cbn beta in Hz. lra.
    + assert (C : chain (fun x z => z = x + f) (levels b f m)) by (apply levels_chain; auto).
      clear rows LL Hp. revert C. induction (levels b f m) as [|x [|z l] IH]; intros C; [exact I|exact I|]. destruct C as [C1 C2]. split; [|exact (IH C2)].
      apply same_line_0. unfold pxc, py. cbn [fst snd]. rewrite C1. replace (x + f - x) with f by ring. rewrite Rabs_pos_eq by lra.
      split; [lra|]. replace (y - y) with 0 by ring. rewrite Rabs_R0. lra.
  - pose proof (levels_sorted a e n He) as S. unfold rows. clear -S Ht He. induction S as [|x l S IH F]; cbn [map]; constructor; [|exact IH].
    rewrite Forall_map. eapply Forall_impl; [|exact F]. intros z Hz p q Hp Hq K. apply same_line_0 in K. cbn beta in Hz.
    apply in_map_iff in Hp, Hq. destruct Hp as [p' [<- _]]. destruct Hq as [q' [<- _]]. unfold py in K. cbn [fst] in K.
    destruct K as [_ K]. apply Rabs_def2 in K. lra.
  - intros r r' Hr1 Hr2. pose proof (LL _ Hr1) as L1; pose proof (LL _ Hr2) as L2; unfold pt in *; rewrite L1, L2. assert (0 < INR m) by (apply lt_0_INR; lia). nra.
  - pose proof (levels_sorted a e n He) as S. unfold rows.
    assert (NE : levels b f m <> []) by (unfold levels; destruct m; [lia|discriminate]).
    clear -S He NE. induction S as [|x l S IH F]; cbn [map]; constructor; [exact IH|].
    rewrite Forall_map. eapply Forall_impl; [|exact F]. intros z Hz. cbn beta in Hz. rewrite !map_map. unfold py. cbn [fst]. rewrite !Rmean_const by exact NE. lra.
Qed.
(** The dots of the 64 x 64 pattern at 7, 17, 27, 37, 47. *)
Definition tg : list R := [7; 17; 27; 37; 47].
Lemma tg_levels : levels 7 10 5 = tg.
Proof. unfold levels, tg. cbn [seq map]. repeat (apply f_equal2; [cbn; ring|]). reflexivity. Qed.
Definition tg_rows : list (list (R * R)) := map (fun y => map (fun x => (y, x)) tg) tg.
Definition tg_cols : list (list (R * R)) := map (fun x => map (fun y => (y, x)) tg) tg.
Definition tg_off (c : R) : list (R * R) := map (fun y => (0, y - c)) tg.
Lemma tg_distinct : distinct_values 3 tg.
Proof. rewrite <- tg_levels. apply levels_distinct; [lra|lia]. Qed.
Lemma tg_bent : Forall2 (bent_hor 27 29) (tg_off 29) tg_rows /\ Forall2 (bent_ver 27 29) (tg_off 27) tg_cols.
Proof.
  split; unfold tg_off, tg_rows, tg_cols; generalize tg at 1 3 as l || generalize tg at 1 3; intros l; (induction l as [|y l IH]; cbn [map]; constructor; [|exact IH]);
    (split; [intros p Hp; apply in_map_iff in Hp; destruct Hp as [q [<- _]]; unfold py, pxc; cbn [fst snd]; ring|
     rewrite map_map; unfold py, pxc; cbn [fst snd]; rewrite map_id; exact tg_distinct]).
Qed.
Lemma tg_step c : equidistant (7 - c) 10 (map snd (tg_off c)).
Proof. intros [|[|[|[|[|i]]]]] H; cbn in H; try lia; cbn; ring. Qed.
Lemma tg_positions opt : @calc_undistor_intercept R Rexact pf_R min_R tg_rows tg_cols 27 29 opt (1/10) = Ok (false, (map snd (tg_off 29), map snd (tg_off 27))).
Proof.
  destruct tg_bent as [Bh Bv].
  apply (bent_positions pf_R min_R _ _ _ _ 27 29 opt (1/10) (7 - 29) 10 (7 - 27) 10 pf_R_ok min_R_ok Bh Bv); try apply tg_step; cbn; try lia; lra.
Qed.
Lemma tg_fits : fits_hor (fun x => x) pf_R 27 29 tg_rows (map triple (tg_off 29)) /\ fits_ver (fun x => x) pf_R 27 29 tg_cols (map triple (tg_off 27)).
Proof.
  destruct tg_bent as [Bh Bv]. split.
  - pose proof (para_hor_exact (fun x => x) pf_R pf_R_ok 27 29 _ _ (bent_on_hor 27 29 _ _ Bh)) as E. apply para_hor_fits in E. rewrite (stored (fun x => x)) in E; auto.
  - pose proof (para_ver_exact (fun x => x) pf_R pf_R_ok 27 29 _ _ (bent_on_ver 27 29 _ _ Bv)) as E. apply para_ver_fits in E. rewrite (stored (fun x => x)) in E; auto.
Qed.
Lemma tg_spread : spread_hor 3 tg_rows /\ spread_ver 3 tg_cols.
Proof.
  destruct tg_bent as [Bh Bv]. split; unfold spread_hor, spread_ver; apply Forall_forall; intros line Hl; apply (In_nth _ _ []) in Hl; destruct Hl as [i [Hi <-]].
  - exact (proj2 (F2_nth _ _ _ i (0, 0) [] Bh Hi)).
  - exact (proj2 (F2_nth _ _ _ i (0, 0) [] Bv Hi)).
Qed.
Lemma tg_nearest c : 27 <= c <= 29 -> one_nearest (map triple (tg_off c)).
Proof.
  intros Hc. exists 2%nat. split; [cbn; lia|]. intros j Hj Ne. cbn in Hj. unfold triple, tg_off, tg. cbn [map fst snd nth].
  destruct j as [|[|[|[|[|j]]]]]; try lia; cbn [nth snd]; unfold Rabs; repeat destruct Rcase_abs; lra.
Qed.
Lemma tg_enough : distinct_values 2 (map fst (usable (line_samples (hor_sample 27 29) (map triple (tg_off 29)) (map snd (tg_off 29)) tg_rows ++
  line_samples (ver_sample 27 29) (map triple (tg_off 27)) (map snd (tg_off 27)) tg_cols))).
Proof.
  exists [8; 18]. split; [repeat constructor; cbn [In]; intuition lra|]. split; [|cbn; lia].
  assert (Dd : forall y d, 0 <= d -> y = 29 + d -> dist (y, 27) (29, 27) = d).
  { intros y d Hd ->. unfold dist, py, pxc. cbn [fst snd]. match goal with |- sqrt ?e = _ => replace e with (d * d) by ring end. now apply sqrt_square. }
  assert (Q : In (8, 1) (line_samples (hor_sample 27 29) (map triple (tg_off 29)) (map snd (tg_off 29)) tg_rows) /\ In (18, 1) (line_samples (hor_sample 27 29) (map triple (tg_off 29)) (map snd (tg_off 29)) tg_rows)).
  { unfold line_samples, tg_rows, tg_off, tg, triple, hor_sample, pxc. cbn [map combine concat app fst snd]. split.
    - do 17 right. left. f_equal; [apply Dd; lra|field].
    - do 22 right. left. f_equal; [apply Dd; lra|field]. }
  destruct Q as [Q1 Q2]. intros x [<-|[<-|[]]].
  - apply (in_map fst _ (8, 1)). apply usable_in. split; [apply in_or_app; now left|]. cbn. lra.
  - apply (in_map fst _ (18, 1)). apply usable_in. split; [apply in_or_app; now left|]. cbn. lra.
Qed.
(** The generated dot target photographed upside down, transposed and with a
    wider black border: the dots are found, grouped and calibrated as before,
    with the centre (27, 29) now at (37, 30). *)
Example C125_target : forall binarize, exists out label pts rows cols pts' rows' cols' F,
  make_dot_pattern 64 64 10 3 (MScalar 5) = Ok out /\
  (let m := inverted out in let m' := moves 0 [UpsideDown; Transposed; Framed 3 1 3 2] m in
  @get_points_dot_pattern R Rex label binarize m false = Ok pts /\
  @group_dots_hor_lines R Rex argsort_ins label (DPts pts) 0 10 (3/10) 2 (13/20) = Ok rows /\
  @group_dots_ver_lines R Rex argsort_ins label (DPts pts) 0 10 (3/10) 2 (13/20) = Ok cols /\
  @calc_coef_forward R Rexact pf_R min_R ls_R rows cols 27 29 2 false (1/10) = Ok F /\
  @get_points_dot_pattern R Rex label binarize m' false = Ok pts' /\
  @group_dots_hor_lines R Rex argsort_ins label (DPts pts') 0 10 (3/10) 2 (13/20) = Ok rows' /\
  @group_dots_ver_lines R Rex argsort_ins label (DPts pts') 0 10 (3/10) 2 (13/20) = Ok cols' /\
  @calc_coef_forward R Rexact pf_R min_R ls_R rows' cols' 37 30 2 false (1/10) = Ok F /\ length F = 2%nat).
Proof.
  intros binarize. destruct (C17_dot_pattern 64 64 10 3 (MScalar 5) 5 5) as [out [E SH]]; [left; auto|lia|lia|cbn; lia|]. exists out.
  assert (SZ : ih (inverted out) = 64%Z /\ iw (inverted out) = 64%Z).
  { cbn. clear -SH. tauto. }
  destruct SZ as [S1 S2].
  set (ms := [UpsideDown; Transposed; Framed 3 1 3 2]).
  destruct (labelling_exists (inverted out)) as [lab [num HL]]. destruct (labelling_exists (moves 0 ms (inverted out))) as [lab' [num' HL']].
  set (label := fun im : image R => if (ih im =? 64)%Z then (lab, num) else (lab', num')).
  assert (L1 : label (to_int16 (inverted out)) = (lab, num)) by (unfold label; change (ih (to_int16 (inverted out))) with (ih (inverted out)); now rewrite S1).
  assert (L2 : label (to_int16 (moves 0 ms (inverted out))) = (lab', num')).
  { unfold label. change (ih (to_int16 (moves 0 ms (inverted out)))) with (iw (inverted out) + 3 + 1)%Z || change (ih (to_int16 (moves 0 ms (inverted out)))) with (3 + iw (inverted out) + 1)%Z. now rewrite S2. }
  destruct (C100_centres label binarize 64 64 10 3 (MScalar 5) 5 5 out lab num 5 5) as [pts [t [G [P [T _]]]]];
    try (now left; auto); try (lia || (cbn; lia) || exact E || exact HL || exact L1 || reflexivity); try (apply dots_along_c; cbn; lia).
  rewrite T in P by reflexivity. cbv zeta in P. change (5 + Z.min (Z.max 3 1) (Z.min 64 64 / 8) / 2 + 1)%Z with 7%Z in P. rewrite Rplus_0_r in P. unfold grid_points in P.
  destruct (pattern_dots 64 64 10 3 (MScalar 5) 5 5 out ltac:(now left) ltac:(lia) ltac:(lia) ltac:(cbn; lia) E) as [_ [PD [Hb P0]]].
  assert (I0 : in_img (inverted out) 0 0) by (unfold in_img; lia). specialize (P0 I0).
  assert (I1 : in_img (inverted out) 7 7) by (unfold in_img; lia).
  assert (P1 : px (inverted out) 7 7 = 1).
  { assert (N : px (inverted out) 7 7 <> 0).
    { apply (PD 7%Z 7%Z I1). exists 7%Z, 7%Z. split; [split; exists 0%Z; cbn; lia|]. unfold in_disk, in_window. change (Z.min (Z.max 3 1) (Z.min 64 64 / 8))%Z with 3%Z. change (3 / 2)%Z with 1%Z. lia. }
    destruct (Hb 7%Z 7%Z I1) as [Z|Z]; [contradiction|exact Z]. }
  assert (Cr : clear_rows 0 (IZR 2 * 10) (3 / 10 * 10) (13/20) pts tg_rows).
  { unfold tg_rows. rewrite <- tg_levels. apply grid_clear; try lia; try lra. exact P. }
  assert (Cc : clear_columns 0 (IZR 2 * 10) (3 / 10 * 10) (13/20) pts tg_cols).
  { unfold clear_columns, tg_cols. rewrite <- tg_levels. rewrite map_map.
    assert (Q : map (fun x => map exchange (map (fun y => (y, x)) (levels 7 10 5))) (levels 7 10 5) = map (fun y => map (fun x => (y, x)) (levels 7 10 5)) (levels 7 10 5)).
    { apply map_ext. intros x. rewrite map_map. reflexivity. }
    rewrite Q. apply grid_clear; try lia; try lra. rewrite <- Q. rewrite <- (map_map (fun x => map (fun y => (y, x)) (levels 7 10 5)) (map exchange)), <- concat_map.
    apply Permutation_map. rewrite P. apply (grid_perm (fun y x => (y, x))). }
  destruct tg_fits as [Fh Fv]. destruct tg_spread as [Sh Sv].
  destruct (C125_held (@argsort_ins R Rex) label binarize (fun x => x) pf_R min_R ls_R ms (inverted out) lab num lab' num' pts 0 0 10 (3/10) 2 (13/20) tg_rows tg_cols
    27 29 2 false (1/10) false _ _ _ _ (argsort_ins_ok (fun x => x)) ltac:(now intros x) pf_R_ok ls_R_ok ltac:(lia) ltac:(repeat constructor; cbn; lia) Hb
    (ex_intro _ 7%Z (ex_intro _ 7%Z (conj I1 P1))) (ex_intro _ 0%Z (ex_intro _ 0%Z (conj I0 P0))) L1 HL L2 HL' G Cr Cc ltac:(cbn; lia) ltac:(cbn; lia) Sh Sv
    (tg_positions false) Fh Fv (tg_nearest 29 ltac:(lra)) (tg_nearest 27 ltac:(lra)))
    as [pts' [rows' [cols' [G1 [G2 [G3 [G4 [G5 [_ [_ [_ [FW _]]]]]]]]]]]].
  destruct (FW tg_enough) as [F [E1 E2]].
  exists label, pts, tg_rows, tg_cols, pts', rows', cols', F. split; [exact E|]. cbv zeta. fold ms.
  assert (Z0 : slope_sign ms * (if exchanged ms then 0 else 0) = 0) by (destruct (exchanged ms); ring).
  change (slope_sign ms * (if exchanged ms then 0 else 0)) with (slope_sign ms * (if exchanged ms then 0 else 0)) in G4.
  rewrite Z0 in G4, G5.
  assert (CE : moves_dot ms (ih (inverted out)) (iw (inverted out)) (29, 27) = (30, 37)).
  { rewrite S1, S2. unfold ms. cbn -[IZR]. apply f_equal2; lra. }
  rewrite CE in E2. cbn [fst snd] in E2.
  do 8 (split; [assumption|]).
  destruct (C97_forward_least_squares (fun x => x) pf_R min_R ls_R tg_rows tg_cols 27 29 2 false (1/10) _ _ _ F ls_R_ok ltac:(lia) (tg_positions false) E1) as [? [? [_ [_ [L _]]]]]. exact L.
Qed.
