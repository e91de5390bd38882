(** Properties of grouping applied to whole grids (C99). *)
From Coq Require Import Floats.
From Coq Require Import Reals ZArith List Lra Lia Permutation Sorted.
From Flocq Require Import Core.
From Verif Require Import Base Num Img Post Spec Lsq LsqEx NumFacts Sorting PrepSpec PrepImg PrepPts PrepFacts PrepFacts2
  PrepFacts3 PrepFacts4 PrepEx2 Props_PrepPts GridFacts PolyUniq Proc ProcSpec ProcFacts ProcFacts5  Props_Proc.
Import ListNotations.
Local Open Scope R_scope.
Local Existing Instance Rex.

(** ** C99 rows are recovered *)
Lemma sorted_perm_eq {A} (key : A -> R) : forall l l', Permutation l l' -> StronglySorted (fun a b => key a <= key b) l ->
  StronglySorted (fun a b => key a < key b) l' -> l = l'.
Proof.
  induction l as [|a l IH]; intros l' P S S'.
  - now apply Permutation_nil in P.
  - destruct l' as [|b l']; [apply Permutation_sym, Permutation_nil in P; discriminate|].
    inversion_clear S. inversion_clear S'. rewrite Forall_forall in *.
    assert (E : a = b).
    { assert (Ia : In a (b :: l')) by (apply (Permutation_in _ P); now left).
      assert (Ib : In b (a :: l)) by (apply (Permutation_in _ (Permutation_sym P)); now left).
      destruct Ia as [->|Ia]; [reflexivity|]. destruct Ib as [->|Ib]; [reflexivity|].
      specialize (H0 _ Ib). specialize (H2 _ Ia). lra. }
    subst b. f_equal. apply IH; auto. now apply Permutation_cons_inv in P.
Qed.
Lemma selects_all {A} (P : A -> Prop) l s : selects P l s -> (forall a, In a l -> P a) -> s = l.
Proof.
  induction 1 as [|a l s Ha H IH|a l s Ha H IH]; intros K; [reflexivity| |].
  - f_equal. apply IH. intros b Hb. apply K. now right.
  - exfalso. apply Ha, K. now left.
Qed.
Lemma longest_exists {A} (rows : list (list A)) : rows <> [] ->
  exists r, In r rows /\ forall r', In r' rows -> (length r' <= length r)%nat.
Proof.
  induction rows as [|r rows IH]; [congruence|]. intros _. destruct rows as [|r1 rows].
  - exists r. split; [now left|]. intros r' [<-|[]]. lia.
  - destruct IH as [m [Hm Hx]]; [discriminate|]. destruct (le_lt_dec (length r) (length m)) as [L|L].
    + exists m. split; [now right|]. intros r' [<-|H]; [exact L|now apply Hx].
    + exists r. split; [now left|]. intros r' [<-|H]; [lia|]. specialize (Hx _ H). lia.
Qed.

(** The dots of a list of rows, mixed in any order, are grouped into exactly
    these rows, if neighbours in a row pass the test, dots of different rows
    do not, and no row is too short compared with another. *)
Theorem C99_rows : forall argsort label pts rows slope dot_dist ratio miss accepted, argsort_spec argsort ->
  let near := same_line slope (IZR miss * dot_dist) (ratio * dot_dist) in
  rows <> [] -> Permutation pts (concat rows) ->
  Forall (fun r => (2 <= length r)%nat /\ StronglySorted (fun p q => pxc p < pxc q) r /\ chain near r) rows ->
  ForallOrdPairs (fun r r' => forall p q, In p r -> In q r' -> ~ near p q) rows ->
  (forall r r', In r rows -> In r' rows -> accepted * INR (length r) < INR (length r')) ->
  exists lines, group_dots_hor_lines argsort label (DPts pts) slope dot_dist ratio miss accepted = Ok lines /\
    Permutation lines rows /\
    (StronglySorted (fun r r' => Rmean (map py r) < Rmean (map py r')) rows -> lines = rows).
Proof.
  intros argsort label pts rows s dd r m ar HA near Hne Hp Hg Hn Hl.
  assert (P0 : pts <> []).
  { intros ->. apply Permutation_nil in Hp. destruct rows as [|r0 rows]; [congruence|]. inversion_clear Hg.
    destruct H as [L _]. destruct r0; [cbn in L; lia|discriminate]. }
  destruct (C45_groups argsort label pts s dd r m ar HA P0) as [sp [groups [rest [Ps [Ss [Pa [_ [_ [_ K]]]]]]]]].
  assert (G : Permutation groups rows /\ rest = []).
  { apply (passes_rows (fun p q => pxc p < pxc q) near (fun a b H1 H2 => Rlt_irrefl _ (Rlt_trans _ _ _ H1 H2)) sp groups rest Pa rows).
    - clear -Ss. induction Ss as [|a l _ IH F]; constructor; [exact IH|]. eapply Forall_impl; [|exact F]. intros b H. cbn beta in *. lra.
    - now rewrite Ps.
    - eapply Forall_impl; [|exact Hg]. intros l H. exact H.
    - clear -Hn. induction Hn as [|l L F H IH]; constructor; [|exact IH]. eapply Forall_impl; [|exact F].
      intros l' N p q Hp Hq. split; [now apply N|]. intros T. apply (N p q Hp Hq). now apply same_line_sym. }
  destruct G as [G _]. destruct (longest_exists rows Hne) as [lg [Il Ml]].
  destruct (K lg) as [lines [kept [E [Pk Sk]]]].
  - now apply (Permutation_in _ (Permutation_sym G)).
  - rewrite Forall_forall in Hg. apply Hg. exact Il.
  - intros g Hgr. apply Ml. now apply (Permutation_in _ G).
  - assert (EK : kept = groups).
    { apply (selects_all _ _ _ Sk). intros g Hgr. apply (Permutation_in _ G) in Hgr. rewrite Forall_forall in Hg.
      split; [apply Hg; exact Hgr|]. specialize (Hl lg g Il Hgr). pose proof (pos_INR (length lg)).
      pose proof (proj1 (Hg g Hgr)) as L2. destruct (Rle_dec 0 (ar * INR (length lg))) as [N|N].
      - rewrite Ztrunc_floor by exact N. apply lt_IZR. rewrite <- INR_IZR_INZ. pose proof (Zfloor_lb (ar * INR (length lg))). lra.
      - rewrite Ztrunc_ceil by lra. assert (Zceil (ar * INR (length lg)) <= 0)%Z by (apply Zceil_glb; lra). unfold pt in *. lia. }
    exists lines. split; [exact E|]. assert (PL : Permutation lines rows) by (rewrite Pk, EK; exact G). split; [exact PL|].
    intros S. apply (sorted_perm_eq (fun l => Rmean (map py l))); [exact PL| |exact S].
    apply (C44_exact argsort label pts s dd r m ar lines HA E).
Qed.
Print Assumptions C99_rows.
(** In terms of positions: every row lies within [e] of a straight line of the
    given slope, the lines are at least [gap] apart, neighbours in a row are
    closer than num_dot_miss distances. Then ratio * dot_dist between the two
    scales recovers the rows. *)
Theorem C99_noisy_grid : forall argsort label pts cs rows slope dot_dist ratio miss accepted e gap, argsort_spec argsort ->
  let tol := ratio * dot_dist * sqrt (slope * slope + 1) in
  2 * e < tol -> tol + 2 * e <= gap -> StronglySorted (fun c c' => c + gap <= c') cs ->
  Forall2 (fun c r => (2 <= length r)%nat /\ chain (fun p q => pxc p < pxc q < pxc p + IZR miss * dot_dist) r /\
    forall p, In p r -> Rabs (py p - (slope * pxc p + c)) <= e) cs rows ->
  rows <> [] -> Permutation pts (concat rows) ->
  (forall r r', In r rows -> In r' rows -> accepted * INR (length r) < INR (length r')) ->
  exists lines, group_dots_hor_lines argsort label (DPts pts) slope dot_dist ratio miss accepted = Ok lines /\ Permutation lines rows.
Proof.
  intros argsort label pts cs rows s dd r m ar e gap HA tol H1 H2 Hc HF Hne Hp Hl.
  assert (Q : 0 < sqrt (s * s + 1)) by (apply sqrt_lt_R0; nra).
  assert (LD : forall p q, line_dist s (py p - s * pxc p) (pxc q) (py q) < r * dd <-> Rabs ((py p - s * pxc p) - (py q - s * pxc q)) < tol).
  { intros p q. unfold line_dist, tol. replace (s * pxc q - py q + (py p - s * pxc p)) with ((py p - s * pxc p) - (py q - s * pxc q)) by ring.
    set (z := Rabs _). split; intros K.
    - apply (Rmult_lt_compat_r _ _ _ Q) in K. unfold Rdiv in K. rewrite Rmult_assoc, Rinv_l, Rmult_1_r in K by lra. lra.
    - apply (Rmult_lt_reg_r _ _ _ Q). unfold Rdiv. rewrite Rmult_assoc, Rinv_l, Rmult_1_r by lra. lra. }
  destruct (C99_rows argsort label pts rows s dd r m ar HA Hne Hp) as [lines [E [P _]]]; [| |exact Hl|exists lines; auto].
  - clear -HF H1 LD. induction HF as [|c row cs rows [L [C B]] HF IH]; constructor; [|exact IH].
    split; [exact L|]. split.
    + clear -C. induction row as [|a row IH]; constructor.
      * apply IH. destruct row; [exact I|apply C].
      * clear IH. revert a C. induction row as [|b row IH]; intros a C; constructor.
        -- apply C.
        -- destruct C as [[C1 _] C]. specialize (IH b C). eapply Forall_impl; [|exact IH]. cbn beta. intros x Hx. lra.
    + clear L IH. revert C B. induction row as [|a row IH]; intros C B; [exact I|]. destruct row as [|b row]; [exact I|].
      destruct C as [[C1 C2] C]. split; [|apply IH; [exact C|intros; apply B; now right]]. split.
      * rewrite Rabs_pos_eq by lra. lra.
      * apply LD. pose proof (B a (or_introl eq_refl)) as Ba. pose proof (B b (or_intror (or_introl eq_refl))) as Bb.
        apply Rabs_def1; [|]; apply Rabs_le_inv in Ba, Bb; lra.
  - clear -HF Hc H2 LD. induction HF as [|c row cs rows [L [C B]] HF IH]; [constructor|]. inversion_clear Hc.
    constructor; [|now apply IH]. clear IH H. revert rows HF. induction cs as [|c' cs IH]; intros rows HF; inversion HF as [|? ? ? ? D E]; subst; constructor.
    + inversion_clear H0. intros p q Hp Hq [_ K]. apply LD in K. destruct D as [_ [_ B']].
      specialize (B _ Hp). specialize (B' _ Hq). apply Rabs_le_inv in B, B'. apply Rabs_def2 in K. lra.
    + inversion_clear H0. now apply IH.
Qed.
Print Assumptions C99_noisy_grid.

(** Columns: the same with the roles of x and y exchanged. *)
Theorem C99_columns : forall argsort label pts cols slope dot_dist ratio miss accepted, argsort_spec argsort ->
  let near p q := same_line slope (IZR miss * dot_dist) (ratio * dot_dist) (pxc p, py p) (pxc q, py q) in
  cols <> [] -> Permutation pts (concat cols) ->
  Forall (fun r => (2 <= length r)%nat /\ StronglySorted (fun p q => py p < py q) r /\ chain near r) cols ->
  ForallOrdPairs (fun r r' => forall p q, In p r -> In q r' -> ~ near p q) cols ->
  (forall r r', In r cols -> In r' cols -> accepted * INR (length r) < INR (length r')) ->
  exists lines, group_dots_ver_lines argsort label (DPts pts) slope dot_dist ratio miss accepted = Ok lines /\
    Permutation lines cols /\
    (StronglySorted (fun r r' => Rmean (map pxc r) < Rmean (map pxc r')) cols -> lines = cols).
Proof.
  intros argsort label pts cols s dd r m ar HA near Hne Hp Hg Hn Hl.
  set (ex := map (fun p : R * R => (snd p, fst p))).
  assert (EX : forall l, ex (ex l) = l). { intros l. unfold ex. rewrite map_map. rewrite <- (map_id l) at 2. apply map_ext. now intros [a b]. }
  assert (EL : forall L, map ex (map ex L) = L). { intros L. rewrite map_map. rewrite <- (map_id L) at 2. apply map_ext. exact EX. }
  destruct (C99_rows argsort label (ex pts) (map ex cols) s dd r m ar HA) as [lines [E [P U]]].
  - destruct cols; [congruence|discriminate].
  - unfold ex at 1. rewrite Hp. unfold ex. rewrite <- concat_map. reflexivity.
  - rewrite Forall_map. eapply Forall_impl; [|exact Hg]. intros l [L [S C]]. unfold ex. split; [now rewrite map_length|]. split.
    + clear -S. induction S as [|a l _ IH F]; cbn [map]; constructor; [exact IH|]. rewrite Forall_map. exact F.
    + clear -C. revert C. induction l as [|a [|b l] IH]; intros C; [exact I|exact I|]. destruct C as [C1 C2]. split; [exact C1|now apply IH].
  - clear -Hn. induction Hn as [|l L F H IH]; cbn [map]; constructor; [|exact IH]. rewrite Forall_map. eapply Forall_impl; [|exact F].
    intros l' N p q Hp Hq. apply in_map_iff in Hp, Hq. destruct Hp as [p' [<- Hp]]. destruct Hq as [q' [<- Hq]]. exact (N p' q' Hp Hq).
  - intros a b Ha Hb. apply in_map_iff in Ha, Hb. destruct Ha as [a' [<- Ha]]. destruct Hb as [b' [<- Hb]]. unfold ex. rewrite !map_length. now apply Hl.
  - exists (map ex lines). rewrite (C46_grouping R Rex argsort label pts s dd r m ar). cbv zeta. fold ex. rewrite E. split; [reflexivity|].
    split; [rewrite P, EL; reflexivity|]. intros S. rewrite U, EL; [reflexivity|].
    clear -S. induction S as [|a l _ IH F]; cbn [map]; constructor; [exact IH|]. rewrite Forall_map. eapply Forall_impl; [|exact F].
    intros b H. unfold ex. rewrite !map_map. exact H.
Qed.
Print Assumptions C99_columns.

(** *** A whole undistorted grid *)
Definition levels (a e : R) (n : nat) : list R := map (fun i => a + INR i * e) (seq 0 n).
Lemma perm_concat_cons {A B} (g : A -> B) (h : A -> list B) l : Permutation (concat (map (fun x => g x :: h x) l)) (map g l ++ concat (map h l)).
Proof.
  induction l as [|x l IH]; [reflexivity|]. cbn [map concat app]. constructor. rewrite IH.
  rewrite !app_assoc. apply Permutation_app_tail. apply Permutation_app_comm.
Qed.
Lemma grid_perm {A B C} (g : A -> B -> C) ys xs :
  Permutation (concat (map (fun y => map (fun x => g y x) xs) ys)) (concat (map (fun x => map (fun y => g y x) ys) xs)).
Proof.
  induction ys as [|y ys IH]; cbn [map concat].
  - induction xs; [reflexivity|exact IHxs].
  - rewrite IH. symmetry. apply (perm_concat_cons (fun x => g y x) (fun x => map (fun y => g y x) ys)).
Qed.
Lemma levels_sorted a e n : 0 < e -> StronglySorted (fun x y => x + e <= y) (levels a e n).
Proof.
  intros He. unfold levels. generalize 0%nat as k. induction n as [|n IH]; intros k; cbn [seq map]; constructor; [apply IH|].
  rewrite Forall_forall. intros x Hx. apply in_map_iff in Hx. destruct Hx as [i [<- Hi]]. apply in_seq in Hi.
  assert (INR (S k) <= INR i) by (apply le_INR; lia). rewrite S_INR in H. nra.
Qed.
Lemma levels_chain a e n (P : R -> R -> Prop) : (forall x, P x (x + e)) -> chain P (levels a e n).
Proof.
  intros H. unfold levels. generalize 0%nat as k. induction n as [|n IH]; intros k; [exact I|]. cbn [seq map].
  destruct n as [|n]; [exact I|]. specialize (IH (S k)). cbn [seq map] in *. split; [|exact IH].
  rewrite S_INR. replace (a + (INR k + 1) * e) with (a + INR k * e + e) by ring. apply H.
Qed.
Lemma levels_length a e n : length (levels a e n) = n.
Proof. unfold levels. now rewrite map_length, seq_length. Qed.
Lemma levels_nth a e n i : (i < n)%nat -> nth i (levels a e n) 0 = a + INR i * e.
Proof.
  intros H. unfold levels. rewrite (nth_indep _ 0 (a + INR 0 * e)) by (rewrite map_length, seq_length; lia).
  rewrite (map_nth (fun i => a + INR i * e)), seq_nth by lia. reflexivity.
Qed.
Lemma sorted_step_nodup e l : 0 < e -> StronglySorted (fun x y => x + e <= y) l -> NoDup l.
Proof.
  intros He. induction 1 as [|a l S IH F]; constructor; [|exact IH]. intros Hi. rewrite Forall_forall in F. specialize (F _ Hi). lra.
Qed.
Lemma levels_distinct a e n k : 0 < e -> (k <= n)%nat -> distinct_values k (levels a e n).
Proof.
  intros He Hk. exists (levels a e n). split; [apply (sorted_step_nodup e); [exact He|now apply levels_sorted]|]. split; [auto|]. now rewrite levels_length.
Qed.
Lemma Rsum_const y l : Rsum (map (fun _ : R => y) l) = INR (length l) * y.
Proof. induction l as [|x l IH]; [cbn; ring|]. cbn [map length]. rewrite S_INR. cbn [Rsum fold_right map] in *. rewrite IH || (unfold Rsum in *; cbn [fold_right]; rewrite IH). ring. Qed.
Lemma Rmean_const y l : l <> [] -> Rmean (map (fun _ : R => y) l) = y.
Proof.
  intros H. unfold Rmean. rewrite Rsum_const, map_length. field. apply not_0_INR. destruct l; [congruence|discriminate].
Qed.
Lemma same_line_0 reach tol p q : same_line 0 reach tol p q <-> Rabs (pxc q - pxc p) < reach /\ Rabs (py p - py q) < tol.
Proof.
  unfold same_line, line_dist. replace (0 * pxc q - py q + (py p - 0 * pxc p)) with (py p - py q) by ring.
  replace (0 * 0 + 1) with 1 by ring. rewrite sqrt_1. unfold Rdiv. rewrite Rinv_1, Rmult_1_r. reflexivity.
Qed.
Lemma grid_rows_found argsort label pts a e n b f m dot_dist ratio miss accepted : argsort_spec argsort ->
  let rows := map (fun y => map (fun x => (y, x)) (levels b f m)) (levels a e n) in
  (1 <= n)%nat -> (2 <= m)%nat -> 0 < e -> 0 < f -> 0 < ratio * dot_dist <= e -> f < IZR miss * dot_dist -> accepted < 1 -> Permutation pts (concat rows) ->
  group_dots_hor_lines argsort label (DPts pts) 0 dot_dist ratio miss accepted = Ok rows.
Proof.
  intros HA rows Hn Hm He Hf Ht Hr Ha Hp.
  assert (LL : forall r, In r rows -> length r = m).
  { intros r Hi. apply in_map_iff in Hi. destruct Hi as [y [<- _]]. now rewrite map_length, levels_length. }
  destruct (C99_rows argsort label pts rows 0 dot_dist ratio miss accepted HA) as [lines [E [P U]]].
  - unfold rows, levels. destruct n; [lia|discriminate].
  - exact Hp.
  - rewrite Forall_forall. intros r Hi. split; [pose proof (LL r Hi); unfold pt in *; lia|]. apply in_map_iff in Hi. destruct Hi as [y [<- _]]. split.
    + pose proof (levels_sorted b f m Hf) as S. clear -S Hf. induction S as [|x l S IH F]; cbn [map]; constructor; [exact IH|].
      rewrite Forall_map. eapply Forall_impl; [|exact F]. intros z Hz. unfold pxc. cbn [snd] in *. cbn beta in Hz. lra.
    + assert (C : chain (fun x z => z = x + f) (levels b f m)) by (apply levels_chain; auto).
      clear rows LL Hp. revert C. induction (levels b f m) as [|x [|z l] IH]; intros C; [exact I|exact I|]. destruct C as [C1 C2]. split; [|exact (IH C2)].
      apply same_line_0. unfold pxc, py. cbn [fst snd]. rewrite C1. replace (x + f - x) with f by ring. rewrite Rabs_pos_eq by lra.
      split; [lra|]. replace (y - y) with 0 by ring. rewrite Rabs_R0. lra.
  - pose proof (levels_sorted a e n He) as S. unfold rows. clear -S Ht He. induction S as [|x l S IH F]; cbn [map]; constructor; [|exact IH].
    rewrite Forall_map. eapply Forall_impl; [|exact F]. intros z Hz p q Hp Hq K. apply same_line_0 in K. cbn beta in Hz.
    apply in_map_iff in Hp, Hq. destruct Hp as [p' [<- _]]. destruct Hq as [q' [<- _]]. unfold py in K. cbn [fst] in K.
    destruct K as [_ K]. apply Rabs_def2 in K. lra.
  - intros r r' Hr1 Hr2. pose proof (LL _ Hr1) as L1; pose proof (LL _ Hr2) as L2; unfold pt in *; rewrite L1, L2. assert (0 < INR m) by (apply lt_0_INR; lia). nra.
  - rewrite E. f_equal. apply U. pose proof (levels_sorted a e n He) as S. unfold rows.
    assert (NE : levels b f m <> []) by (unfold levels; destruct m; [lia|discriminate]).
    clear -S He NE. induction S as [|x l S IH F]; cbn [map]; constructor; [exact IH|].
    rewrite Forall_map. eapply Forall_impl; [|exact F]. intros z Hz. cbn beta in Hz. rewrite !map_map. unfold py. cbn [fst]. rewrite !Rmean_const by exact NE. lra.
Qed.
Lemma grid_cols_found argsort label pts a e n b f m dot_dist ratio miss accepted : argsort_spec argsort ->
  let cols := map (fun x => map (fun y => (y, x)) (levels a e n)) (levels b f m) in
  (2 <= n)%nat -> (1 <= m)%nat -> 0 < e -> 0 < f -> 0 < ratio * dot_dist <= f -> e < IZR miss * dot_dist -> accepted < 1 -> Permutation pts (concat cols) ->
  group_dots_ver_lines argsort label (DPts pts) 0 dot_dist ratio miss accepted = Ok cols.
Proof.
  intros HA cols Hn Hm He Hf Ht Hr Ha Hp. rewrite (C46_grouping R Rex). cbv zeta.
  rewrite (grid_rows_found argsort label _ b f m a e n dot_dist ratio miss accepted HA); auto.
  - cbn [res_map]. f_equal. rewrite map_map. unfold cols. apply map_ext. intros x. rewrite map_map. reflexivity.
  - rewrite Hp. unfold cols. rewrite concat_map, map_map. apply Permutation_refl'. f_equal. apply map_ext. intros x. rewrite map_map. reflexivity.
Qed.
Lemma fitted_row y xs c : distinct_values 3 xs -> fitted_hor (fun x => x) (map (fun x => (y, x)) xs) c -> c = (0, 0, y).
Proof.
  intros D [u [v [w [P ->]]]].
  assert (E : [u; v; w] = [0; 0; y]).
  { apply (polyfit_unique 2 _ _ _ _ P); [reflexivity|now rewrite !map_length| |].
    - rewrite map_map. unfold pxc. cbn [snd]. now rewrite map_id.
    - clear. induction xs as [|x xs IH]; cbn [map]; constructor; [|exact IH]. unfold py, evh. cbn. ring. }
  now injection E as -> -> ->.
Qed.
Lemma fitted_col x ys c : distinct_values 3 ys -> fitted_ver (fun x => x) (map (fun y => (y, x)) ys) c -> c = (0, 0, x).
Proof.
  intros D [u [v [w [P ->]]]].
  assert (E : [u; v; w] = [0; 0; x]).
  { apply (polyfit_unique 2 _ _ _ _ P); [reflexivity|now rewrite !map_length| |].
    - rewrite map_map. unfold py. cbn [fst]. now rewrite map_id.
    - clear. induction ys as [|y ys IH]; cbn [map]; constructor; [|exact IH]. unfold pxc, evh. cbn. ring. }
  now injection E as -> -> ->.
Qed.
Lemma flat_change cs i : main_change (map (fun y => (0, 0, y)) cs) i -> i = 0%nat.
Proof.
  intros [L [_ H]]. destruct i as [|i]; [reflexivity|]. exfalso. specialize (H 0%nat ltac:(lia)).
  assert (Z : forall k, curv (map (fun y : R => (0, 0, y)) cs) k = 0).
  { intros k. unfold curv. change (0, 0, 0) with ((fun y : R => (0, 0, y)) 0). now rewrite map_nth. }
  unfold sign_jump in H. rewrite !Z in H. lra.
Qed.
Lemma flat_slope cs k : slope (map (fun y => (0, 0, y)) cs) k = 0.
Proof.
  unfold slope. change (0, 0, 0) with ((fun y : R => (0, 0, y)) 0). now rewrite map_nth.
Qed.
Lemma flat_inter cs k : (k < length cs)%nat -> inter (map (fun y => (0, 0, y)) cs) k = nth k cs 0.
Proof. intros H. unfold inter. change (0, 0, 0) with ((fun y : R => (0, 0, y)) 0). now rewrite map_nth. Qed.
Lemma coarse_flat polyfit a e n b f m : polyfit_oracle polyfit -> (3 <= n)%nat -> (3 <= m)%nat -> 0 < e -> 0 < f ->
  @find_cod_coarse R Rexact polyfit (straight_grid_hor (levels a e n) (levels b f m)) (straight_grid_ver (levels b f m) (levels a e n))
  = Ok (b + f / 2, a + e / 2).
Proof.
  intros PF Hn Hm He Hf.
  destruct (C26_crossing (fun x => x) polyfit (straight_grid_hor (levels a e n) (levels b f m)) (straight_grid_ver (levels b f m) (levels a e n)) PF)
    as [ch [cv [i [j [Fh [Fv [Mi [Mj [X [Y [E K]]]]]]]]]]].
  - unfold straight_grid_hor. rewrite map_length, levels_length. lia.
  - unfold straight_grid_ver. rewrite map_length, levels_length. lia.
  - intros l Hl. apply in_app_or in Hl. destruct Hl as [Hl|Hl]; apply in_map_iff in Hl; destruct Hl as [y [<- _]];
      intros Q; apply (f_equal (@length _)) in Q; rewrite map_length, levels_length in Q; cbn in Q; lia.
  - assert (Ch : ch = map (fun y => (0, 0, y)) (levels a e n)).
    { unfold straight_grid_hor in Fh. clear -Fh Hm Hf. revert ch Fh. induction (levels a e n) as [|y ys IH]; intros ch F; inversion F; subst; [reflexivity|].
      cbn [map]. f_equal; [|now apply IH]. eapply fitted_row; [|eassumption]. now apply levels_distinct. }
    assert (Cv : cv = map (fun y => (0, 0, y)) (levels b f m)).
    { unfold straight_grid_ver in Fv. clear -Fv Hn He. revert cv Fv. induction (levels b f m) as [|y ys IH]; intros ch F; inversion F; subst; [reflexivity|].
      cbn [map]. f_equal; [|now apply IH]. eapply fitted_col; [|eassumption]. now apply levels_distinct. }
    subst ch cv. apply flat_change in Mi, Mj. subst i j. rewrite !flat_slope, !flat_inter in K by (rewrite levels_length; lia).
    rewrite !levels_nth in K by lia. cbn [INR] in K. destruct K as [K1 K2]; [lra|].
    refine (eq_trans E _). f_equal. rewrite K1, K2. f_equal; lra.
Qed.
(** The dots of an undistorted rectangular grid, in any order: grouped into
    exactly its rows and columns; the coarse centre is half-way between the
    first two lines in each direction; the calibration gives the coefficients
    1, 0, ..., 0. *)
Theorem C99_undistorted : forall argsort label polyfit minimize lstsq pts a e n b f m dot_dist ratio miss accepted num_fact opt thr,
  argsort_spec argsort -> polyfit_oracle polyfit -> minimize_oracle minimize -> lstsq_oracle lstsq ->
  let rows := map (fun y => map (fun x => (y, x)) (levels b f m)) (levels a e n) in
  let cols := map (fun x => map (fun y => (y, x)) (levels a e n)) (levels b f m) in
  (4 <= n)%nat -> (4 <= m)%nat -> 0 < ratio * dot_dist -> ratio * dot_dist <= e < IZR miss * dot_dist ->
  ratio * dot_dist <= f < IZR miss * dot_dist -> accepted < 1 -> Permutation pts (concat rows) ->
  (num_fact < Z.of_nat m)%Z -> (num_fact <= 32767)%Z -> 0 <= thr ->
  group_dots_hor_lines argsort label (DPts pts) 0 dot_dist ratio miss accepted = Ok rows /\
  group_dots_ver_lines argsort label (DPts pts) 0 dot_dist ratio miss accepted = Ok cols /\
  let xc := b + f / 2 in let yc := a + e / 2 in
  @find_cod_coarse R Rexact polyfit rows cols = Ok (xc, yc) /\
  @calc_coef_backward R Rexact polyfit minimize lstsq rows cols xc yc num_fact opt thr = Ok (unit_coef (Z.to_nat (Z.max 1 num_fact))) /\
  @calc_coef_forward R Rexact polyfit minimize lstsq rows cols xc yc num_fact opt thr = Ok (unit_coef (Z.to_nat (Z.max 1 num_fact))).
Proof.
  intros argsort label polyfit minimize lstsq pts a e n b f m dd r miss acc nf opt thr HA PF MO LS rows cols Hn Hm Ht He Hf Hac Hp Hnf Hnf2 Hthr.
  split; [apply grid_rows_found; auto; lra || lia|].
  split; [apply grid_cols_found; auto; try lra; try lia; rewrite Hp; apply (grid_perm (fun y x => (y, x)))|].
  intros xc yc. split; [apply coarse_flat; auto; lra || lia|].
  assert (NZ : forall a e n c, 0 < e -> In c (levels a e n) -> c <> a + e / 2).
  { intros a0 e0 n0' c He0 Hi Q. apply in_map_iff in Hi. destruct Hi as [i [<- _]].
    assert (I2 : INR i = 1 / 2) by (apply (Rmult_eq_reg_r e0); lra). destruct i as [|i]; [cbn in I2; lra|]. rewrite S_INR in I2. pose proof (pos_INR i). lra. }
  assert (EQ : forall a e n, equidistant a e (levels a e n)) by (intros a0 e0 n0' i Hi; rewrite levels_length in Hi; now apply levels_nth).
  destruct (C30_identity (fun x => x) polyfit minimize lstsq (levels a e n) (levels b f m) rows cols xc yc a e b f nf opt thr PF MO LS) as [B [F _]].
  - apply straight_grid_hor_ok. apply levels_distinct; [lra|lia].
  - apply straight_grid_ver_ok. apply levels_distinct; [lra|lia].
  - apply EQ.
  - apply EQ.
  - lra.
  - lra.
  - now rewrite levels_length.
  - now rewrite levels_length.
  - intros c Hc. apply (NZ a e n); [lra|exact Hc].
  - intros c Hc. apply (NZ b f m); [lra|exact Hc].
  - reflexivity.
  - reflexivity.
  - reflexivity.
  - exact Hnf2.
  - set (d := map (fun j => dist (a, b + INR (S j) * f) (yc, xc)) (seq 0 (m - 1))). exists d. split; [|split].
    + unfold d. 
      assert (M : forall i j, (i < j)%nat -> dist (a, b + INR (S i) * f) (yc, xc) < dist (a, b + INR (S j) * f) (yc, xc)).
      { intros i j Hij. unfold dist, py, pxc, xc, yc. cbn [fst snd]. rewrite !S_INR. pose proof (pos_INR i). assert (INR i < INR j) by now apply lt_INR.
        apply sqrt_lt_1_alt. split; [nra|].
        assert ((b + (INR i + 1) * f - (b + f / 2)) * (b + (INR i + 1) * f - (b + f / 2)) < (b + (INR j + 1) * f - (b + f / 2)) * (b + (INR j + 1) * f - (b + f / 2))); [|nra].
        replace (b + (INR i + 1) * f - (b + f / 2)) with ((INR i + / 2) * f) by field. replace (b + (INR j + 1) * f - (b + f / 2)) with ((INR j + / 2) * f) by field.
        assert (0 < (INR i + / 2) * f) by nra. assert ((INR i + / 2) * f < (INR j + / 2) * f) by nra. nra. }
      generalize (m - 1)%nat as k. generalize 0%nat as s. intros s k. revert s. induction k as [|k IH]; intros s; cbn [seq map]; constructor; [|apply IH].
      intros Hi. apply in_map_iff in Hi. destruct Hi as [j [Q Hj]]. apply in_seq in Hj. specialize (M s j ltac:(lia)). lra.
    + intros x Hx. apply in_map_iff in Hx. destruct Hx as [j [<- Hj]]. apply in_seq in Hj.
      apply (in_map (fun p => dist p (yc, xc)) _ (a, b + INR (S j) * f)). apply in_or_app. left. apply in_concat.
      exists (map (fun x => (a + INR 0 * e, x)) (levels b f m)). split.
      * apply (in_map (fun y => map (fun x => (y, x)) (levels b f m))). apply (in_map (fun i => a + INR i * e)). apply in_seq. lia.
      * replace (a, b + INR (S j) * f) with (a + INR 0 * e, b + INR (S j) * f) by (cbn [INR]; f_equal; ring).
        apply (in_map (fun x => (a + INR 0 * e, x))). apply (in_map (fun i => b + INR i * f)). apply in_seq. lia.
    + unfold d. rewrite map_length, seq_length. lia.
  - exact Hthr.
  - split; [exact B|exact F].
Qed.
Print Assumptions C99_undistorted.
(** Four rows and five columns, dots listed backwards. *)
Example C99_undistorted_case : let rows := map (fun y => map (fun x => (y, x)) (levels 3 10 5)) (levels 7 12 4) in
  group_dots_hor_lines (@argsort_ins R Rex) (fun _ => (mkimg 0 0 (fun _ _ => 0%Z), 0%Z)) (DPts (rev (concat rows))) 0 10 (3 / 10) 6 (65 / 100) = Ok rows /\
  @calc_coef_backward R Rexact pf_R min_R ls_R rows (map (fun x => map (fun y => (y, x)) (levels 7 12 4)) (levels 3 10 5)) 8 13 3 true (1 / 10) = Ok [1; 0; 0].
Proof.
  intros rows.
  destruct (C99_undistorted (@argsort_ins R Rex) (fun _ => (mkimg 0 0 (fun _ _ => 0%Z), 0%Z)) pf_R min_R ls_R (rev (concat rows)) 7 12 4 3 10 5
    10 (3 / 10) 6 (65 / 100) 3 true (1 / 10) (argsort_ins_ok (fun x => x)) pf_R_ok min_R_ok ls_R_ok) as [A [_ [_ [B _]]]]; try lia; try lra.
  - symmetry. apply Permutation_rev.
  - split; [exact A|]. replace 8 with (3 + 10 / 2) by lra. replace 13 with (7 + 12 / 2) by lra. exact B.
Qed.
(** Two tilted rows with deviations, one dot missing in the second; the dots
    are mixed. *)
Example C99_noisy_case : exists lines,
  group_dots_hor_lines (@argsort_ins R Rex) (fun _ => (mkimg 0 0 (fun _ _ => 0%Z), 0%Z))
    (DPts [(13, 29); (2, 21); (0, 0); (1 / 2, 10); (19 / 2, 0); (11, 10); (4, 30)]) (1 / 10) 10 (3 / 10) 2 (6 / 10) = Ok lines /\
  Permutation lines [[(0, 0); (1 / 2, 10); (2, 21); (4, 30)]; [(19 / 2, 0); (11, 10); (13, 29)]].
Proof.
  assert (S : 1 <= sqrt (1 / 10 * (1 / 10) + 1) <= 2).
  { split; [rewrite <- sqrt_1 at 1; apply sqrt_le_1_alt; lra|]. apply Rle_trans with (sqrt (2 * 2)); [apply sqrt_le_1_alt; lra|]. rewrite sqrt_square; lra. }
  apply (C99_noisy_grid (@argsort_ins R Rex) _ _ [0; 10] _ (1 / 10) 10 (3 / 10) 2 (6 / 10) 1 10 (argsort_ins_ok (fun x => x))).
  - lra.
  - lra.
  - repeat constructor; lra.
  - assert (AB : forall x, -1 <= x <= 1 -> Rabs x <= 1) by (intros; apply Rabs_le; lra).
    constructor; [|constructor; [|constructor]]; (split; [cbn [length]; lia|split; [unfold pxc; cbn [chain fst snd]; repeat split; lra|]]).
    + intros p [<-|[<-|[<-|[<-|[]]]]]; unfold py, pxc; cbn [fst snd]; apply AB; lra.
    + intros p [<-|[<-|[<-|[]]]]; unfold py, pxc; cbn [fst snd]; apply AB; lra.
  - discriminate.
  - cbn [concat app]. 
    change [(0, 0); (1 / 2, 10); (2, 21); (4, 30); (19 / 2, 0); (11, 10); (13, 29)] with
      ([(0, 0); (1 / 2, 10); (2, 21); (4, 30); (19 / 2, 0); (11, 10)] ++ (13, 29) :: []).
    apply Permutation_cons_app. cbn [app].
    change [(0, 0); (1 / 2, 10); (2, 21); (4, 30); (19 / 2, 0); (11, 10)] with
      ([(0, 0); (1 / 2, 10)] ++ (2, 21) :: [(4, 30); (19 / 2, 0); (11, 10)]).
    apply Permutation_cons_app. cbn [app]. do 2 constructor.
    change [(4, 30); (19 / 2, 0); (11, 10)] with ([] ++ (4, 30) :: [(19 / 2, 0); (11, 10)]).
    symmetry. apply (Permutation_cons_append [(19 / 2, 0); (11, 10)] (4, 30)).
  - intros r r' [<-|[<-|[]]] [<-|[<-|[]]]; cbn [length INR]; lra.
Qed.
