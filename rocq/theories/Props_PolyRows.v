(** Properties of grouping by polynomial fits applied to whole rows (C104). *)
From Coq Require Import Reals ZArith List Lra Lia Permutation Sorted.
From Flocq Require Import Core.
From Verif Require Import Base Num Img Post Spec Lsq LsqEx NumFacts Sorting PrepSpec PrepImg PrepPts PrepFacts PrepFacts2
  PrepFacts3 PrepFacts4 PrepFacts5 PolyUniq Proc ProcSpec ProcFacts ProcFacts5 PrepImgFacts PolySpec PolyRowsFacts PolyColsFacts Props_Grid.
Import ListNotations.
Local Open Scope R_scope.
Local Existing Instance Rex.

Lemma selects_filter {A} (P : A -> Prop) (f : A -> bool) l s : (forall a, f a = true <-> P a) -> selects P l s -> s = filter f l.
Proof.
  intros E. induction 1 as [|a l s Ha H IH|a l s Ha H IH]; cbn [filter]; [reflexivity| |].
  - apply E in Ha. now rewrite Ha, IH.
  - destruct (f a) eqn:F; [apply E in F; contradiction|exact IH].
Qed.
Lemma filter_permute {A} (f : A -> bool) l l' : Permutation l l' -> Permutation (filter f l) (filter f l').
Proof.
  induction 1 as [|x l l' P IH|x y l|l1 l2 l3 P1 IH1 P2 IH2]; cbn [filter].
  - constructor.
  - destruct (f x); [now constructor|exact IH].
  - destruct (f x), (f y); try apply Permutation_refl. constructor.
  - now rewrite IH1.
Qed.
Lemma rot1_in a (p : pt) l : In (rot1 a p) (map (rot1 a) l) <-> In p l.
Proof.
  split; [|apply in_map]. intros H. apply in_map_iff in H. destruct H as [q [E H]].
  apply (f_equal (rot1 (- a))) in E. rewrite !rot1_inv in E. now subst q.
Qed.
Lemma central_filter (ld : R) (m : Z) (x0 x1 : R) (sp : list (R * R)) : 0 <= ld -> (0 <= m)%Z -> x0 <= x1 ->
  (forall p, In p sp -> x0 <= snd p <= x1) ->
  selects (fun p => Rabs (snd p - (x0 + x1) / 2) <= (IZR m + 1 / 2) * ld) sp
    (filter (fun p => ((nclip (nsub (nmul (nadd x0 x1) (nofQ 1 2)) (nadd (nmul (nofZ m) ld) (nmul (nofQ 1 2) ld))) x0 x1 <=?! snd p) &&
       (snd p <=?! nclip (nadd (nmul (nadd x0 x1) (nofQ 1 2)) (nadd (nmul (nofZ m) ld) (nmul (nofQ 1 2) ld))) x0 x1))%num) sp).
Proof.
  intros Hld Hm H01 B. set (reach := (IZR m + 1 / 2) * ld).
  assert (Hreach : 0 <= reach).
  { unfold reach. assert (0 <= IZR m) by (apply IZR_le; lia). apply Rmult_le_pos; lra. }
  assert (K : forall p, In p sp ->
      ((nclip (nsub (nmul (nadd x0 x1) (nofQ 1 2)) (nadd (nmul (nofZ m) ld) (nmul (nofQ 1 2) ld))) x0 x1 <=?! snd p) &&
       (snd p <=?! nclip (nadd (nmul (nadd x0 x1) (nofQ 1 2)) (nadd (nmul (nofZ m) ld) (nmul (nofQ 1 2) ld))) x0 x1))%num = true
      <-> Rabs (snd p - (x0 + x1) / 2) <= reach).
  { intros p Hp. specialize (B p Hp). unfold Rex. rewrite !nclip_R by lra.
    cbn [nadd nmul nsub nofQ nofZ nleb Rnum]. rewrite andb_true_iff, !Rle_bool_true_iff.
    replace (IZR m * ld + 1 / 2 * ld) with reach by (unfold reach; field).
    replace ((x0 + x1) * (1 / 2)) with ((x0 + x1) / 2) by field. set (mid := (x0 + x1) / 2).
    assert (Hmid : x0 <= mid <= x1) by (unfold mid; lra). unfold clamp. split.
    - intros [A1 A2]. pose proof (Rmax_r x0 (Rmin (mid - reach) x1)) as M1. pose proof (Rmin_l (mid + reach) x1) as M2.
      rewrite (Rmin_left (mid - reach) x1) in * by lra.
      pose proof (Rmax_r x0 (mid - reach)). assert (snd p <= mid + reach).
      { eapply Rle_trans; [apply A2|]. apply Rmax_lub; lra. }
      apply Rabs_le. lra.
    - intros A. apply Rabs_le_inv in A. split; [apply Rmax_lub; [lra|]; eapply Rle_trans; [apply Rmin_l|lra]|].
      eapply Rle_trans; [|apply Rmax_r]. apply Rmin_glb; lra. }
  clear - K. induction sp as [|p l IH]; cbn [filter]; [constructor|].
  match goal with |- context [if ?b then _ else _] => destruct b eqn:Eb end.
  - constructor; [apply K; [now left|assumption]|]. apply IH. intros; apply K; now right.
  - constructor; [|apply IH; intros; apply K; now right]. intros Hn. apply K in Hn; [|now left]. congruence.
Qed.

(** ** C104 curved rows are recovered *)
(** Seen in the frame turned by -atan(slope): every row lies on the graph of a
    polynomial of the given order; its neighbours along x are at most [reach]
    apart; all other dots are farther than ratio * line_dist from the graph.
    The dots within [reach] of the middle make up, for every row, a group of
    more than two (and more than [order]) dots that the straight-line
    grouping separates. Then the function finds exactly these rows, except
    that it drops a row whose median is within line_dist / 10 of that of the
    row before. *)
Theorem C104_rows : forall argsort label polyfit pts rows centres curves slope ld ratio miss accepted overlap order lo hi,
  argsort_spec argsort -> polyfit_oracle polyfit -> (forall xs ys j, polyfit xs ys j <> Err External) ->
  0 <= ld -> 0 <= ratio -> 0 <= accepted ->
  let turn := rot1 (- atan slope) in
  let m := Z.min (Z.max miss 1) (Z.of_nat (length pts)) in
  let reach := (IZR m + 1 / 2) * ld in
  let near := same_line 0 (IZR m * ld) (ratio * ld) in
  rows <> [] -> Permutation pts (concat rows) ->
  (exists p, In p pts /\ pxc (turn p) = lo) -> (exists p, In p pts /\ pxc (turn p) = hi) ->
  (forall p, In p pts -> lo <= pxc (turn p) <= hi) ->
  Forall2 (fun r w => length w = S order /\
    (forall p, In p r -> py (turn p) = poly w (pxc (turn p))) /\
    (forall p, In p pts -> ~ In p r -> ratio * ld < Rabs (py (turn p) - poly w (pxc (turn p)))) /\
    chain (fun p q => pxc (turn p) < pxc (turn q) <= pxc (turn p) + reach) r /\
    StronglySorted (fun p q => pxc p < pxc q) r /\ (Z.of_nat (length r) <= 32767)%Z) rows curves ->
  Forall2 (fun r c => selects (fun p => Rabs (pxc p - (lo + hi) / 2) <= reach) (map turn r) c) rows centres ->
  Forall (fun c => (2 < length c)%nat /\ (order < length c)%nat /\ chain near c) centres ->
  ForallOrdPairs (fun c c' => forall p q, In p c -> In q c' -> ~ near p q) centres ->
  StronglySorted (fun c c' => Rmean (map py c) < Rmean (map py c')) centres ->
  (forall c c', In c centres -> In c' centres -> accepted * INR (length c) < INR (length c')) ->
  (forall r r', In r rows -> In r' rows -> accepted * INR (length r) < INR (length r')) ->
  exists kept lines n, without_repeats (lines_apart py (ld / 10)) rows kept /\
    Permutation lines kept /\ StronglySorted (fun l l' => Rmean (map py l) <= Rmean (map py l')) lines /\
    forall steps, (n <= steps)%nat ->
      group_dots_hor_lines_based_polyfit argsort label cos sin atan polyfit PI steps pts slope ld ratio miss accepted overlap order = Ok lines.
Proof.
  intros argsort label polyfit pts rows cs ws slope ld ratio miss ar ov order lo hi HA PF HE Hld Hrt Har turn m reach near
    Hne Hp Hlo Hhi Hb HW HC Hg Hpair Hmean Hlc Hlr.
  set (a := - atan slope) in *.
  assert (Hrow : forall r, In r rows -> r <> []).
  { intros r Hr. assert (K : exists c, In c cs /\ selects (fun p => Rabs (pxc p - (lo + hi) / 2) <= reach) (map turn r) c).
    { clear -HC Hr. induction HC as [|r0 c0 rows cs H HC IH]; [destruct Hr|]. destruct Hr as [<-|Hr]; [exists c0; split; [now left|exact H]|].
      destruct (IH Hr) as [c [I S]]. exists c. split; [now right|exact S]. }
    destruct K as [c [I S]]. rewrite Forall_forall in Hg. destruct (Hg c I) as [L _]. intros ->. inversion S; subst. cbn in L. lia. }
  assert (Hbig : exists kept, @distinct_lines R Rex ld ar (fun l => @median R Rex (map py l)) rows = Ok kept /\
    without_repeats (lines_apart py (ld / 10)) rows kept).
  { apply distinct_rows; auto. clear -HW. induction HW as [|r w rows ws H HW IH]; intros r' Hr; [destruct Hr|].
    destruct Hr as [<-|Hr]; [tauto|now apply IH]. }
  destruct Hbig as [kept [Ek Wk]].
  destruct (hor_polyfit_terminates argsort label polyfit HE pts slope ld ratio miss ar ov order) as [n [Ne Hn]].
  exists kept, (@sorted R Rex _ (fun l => @mean R Rex (map py l)) kept), n.
  split; [exact Wk|]. split; [apply sorted_perm|]. split.
  { assert (M : forall l, @mean R Rex l = Rmean l).
    { intros l. unfold mean, Rmean. rewrite nsum_Rex. unfold Rex. cbn [ndiv nofZ Rnum]. now rewrite INR_IZR_INZ. }
    pose proof (sorted_sorted (fun x => x) (fun l : list pt => @mean R Rex (map py l)) kept) as S.
    change (Rnum (fun x => x)) with Rex in S. clear -S M. induction S as [|x l S IH F]; constructor; [exact IH|].
    eapply Forall_impl; [|exact F]. intros b H. cbn beta in H. now rewrite !M in H. }
  assert (Goal0 : group_dots_hor_lines_based_polyfit argsort label cos sin atan polyfit PI n pts slope ld ratio miss ar ov order =
    Ok (@sorted R Rex _ (fun l => @mean R Rex (map py l)) kept)).
  2: { intros steps Hs. rewrite (Hn steps Hs). exact Goal0. }
  clear Hn. revert Ne. unfold group_dots_hor_lines_based_polyfit.
  destruct (Z.eqb_spec (Z.of_nat (length pts)) 0) as [E|E].
  { exfalso. destruct Hlo as [p [I _]]. destruct pts; [destruct I|cbn in E; lia]. }
  cbv zeta. rewrite rotate_rad. change (@nopp R Rex (atan slope)) with a.
  set (rp := map (rot1 a) pts). set (sp := gather rp (argsort (map snd rp))).
  destruct (gather_argsort argsort snd rp HA) as [P S]. fold sp in P, S.
  assert (Hsp : sp <> []).
  { intros E'. rewrite E' in P. apply Permutation_nil in P. unfold rp in P. destruct pts; [cbn in E; lia|discriminate]. }
  destruct (pyget_ends (map snd sp)) as [x0 [x1 [E0 [E1 _]]]]; [destruct sp; [congruence|discriminate]|].
  destruct (sorted_ends (map snd sp) x0 x1 (StronglySorted_map snd Rle sp S) E0 E1) as [I0 [I1 B]].
  rewrite E0, E1. cbn [bind].
  assert (Isp : forall x, In x (map snd sp) <-> exists p, In p pts /\ pxc (turn p) = x).
  { intros x. rewrite in_map_iff. split.
    - intros [q [<- Hq]]. apply (Permutation_in _ P) in Hq. unfold rp in Hq. apply in_map_iff in Hq. destruct Hq as [p [<- Hq]]. exists p. split; [exact Hq|reflexivity].
    - intros [p [I <-]]. exists (turn p). split; [reflexivity|]. apply (Permutation_in _ (Permutation_sym P)). unfold rp. apply in_map. exact I. }
  assert (X0 : x0 = lo).
  { apply Rle_antisym; [apply B; now apply Isp|]. apply Isp in I0. destruct I0 as [p [I <-]]. now apply Hb. }
  assert (X1 : x1 = hi).
  { apply Rle_antisym; [|apply B; now apply Isp]. apply Isp in I1. destruct I1 as [p [I <-]]. now apply Hb. }
  subst x0 x1. fold m.
  assert (Hm : (1 <= m)%Z) by (unfold m; lia).
  set (sel := filter _ sp).
  assert (C : selects (fun p => Rabs (snd p - (lo + hi) / 2) <= reach) sp sel).
  { apply central_filter; [exact Hld|lia|apply (B hi I1)|intros p Hp'; apply B; now apply in_map]. }
  clearbody sel.
  pose (f := fun p : R * R => if Rle_dec (Rabs (snd p - (lo + hi) / 2)) reach then true else false).
  assert (Hf : forall p, f p = true <-> Rabs (snd p - (lo + hi) / 2) <= reach).
  { intros p. unfold f. destruct (Rle_dec _ _); split; auto; discriminate. }
  assert (Psel : Permutation sel (concat cs)).
  { rewrite (selects_filter _ f _ _ Hf C), (filter_permute f _ _ P). unfold rp. rewrite (filter_permute f _ _ (Permutation_map (rot1 a) Hp)).
    rewrite concat_map, <- concat_filter_map, map_map.
    replace cs with (map (fun r => filter f (map (rot1 a) r)) rows); [apply Permutation_refl|].
    clear -HC Hf. induction HC as [|r c rows cs H HC IH]; [reflexivity|]. cbn [map]. rewrite IH. f_equal.
    symmetry. apply (selects_filter _ f _ _ Hf H). }
  assert (Ncs : cs <> []) by (intros ->; inversion HC; subst; congruence).
  assert (Nsel : sel <> []).
  { intros ->. apply Permutation_nil in Psel. destruct cs as [|c cs']; [congruence|]. inversion_clear Hg.
    destruct c; [cbn in H; lia|discriminate]. }
  destruct (C99_rows argsort label sel cs 0 ld ratio m ar HA Ncs Psel) as [gs [Eg [_ Es]]].
  - clear -HC HW Hg. revert ws HW. induction HC as [|r c rows cs H HC IH]; intros ws HW; constructor.
    + inversion_clear Hg. inversion HW as [|? w ? ws' Q HW' E1 E2]; subst. split; [lia|]. split; [|tauto].
      eapply selects_sorted; [exact H|]. destruct Q as [_ [_ [_ [Q _]]]]. apply (chain_sorted reach).
      clear -Q. induction r as [|x r IH]; [exact I|]. destruct r as [|y r]; [exact I|]. destruct Q as [Q1 Q2]. split; [exact Q1|now apply IH].
    + inversion_clear Hg. inversion HW as [|? w ? ws' Q HW' E1 E2]; subst. now apply (IH H1 ws').
  - exact Hpair.
  - exact Hlc.
  - specialize (Es Hmean). subst gs.
    destruct sel as [|q0 sel'] eqn:Es'; [congruence|]. rewrite <- Es' in *. clear Es' q0 sel'.
    change (@n0 R Rex) with 0. rewrite Eg. cbn [bind].
    replace (@nadd R Rex (nmul (nofZ m) ld) (nmul (nofQ 1 2) ld)) with reach
      by (unfold Rex, reach; cbn [nadd nmul nofZ nofQ Rnum]; field).
    change (@nmul R Rex ratio ld) with (ratio * ld).
    assert (Rg : Forall2 (row_group sp a ((lo + hi) / 2) reach (ratio * ld) order) rows cs).
    { assert (Hin : forall r, In r rows -> incl (map (rot1 a) r) sp).
      { intros r Hr q Hq. apply in_map_iff in Hq. destruct Hq as [p [<- Hq]]. apply (Permutation_in _ (Permutation_sym P)).
        apply in_map. apply (Permutation_in _ (Permutation_sym Hp)). apply in_concat. exists r. auto. }
      clear -HC HW Hg Hin P. revert ws HW. induction HC as [|r c rows cs H HC IH]; intros ws HW; constructor.
      - inversion_clear Hg. inversion HW as [|? w ? ws' Q HW' E1 E2]; subst. destruct Q as [Lw [Q1 [Q2 [Q3 [Q4 _]]]]].
        exists w. split; [exact Lw|]. split; [apply Hin; now left|]. split.
        { clear -Q3. induction r as [|x r IH]; [exact I|]. destruct r as [|y r]; [exact I|]. destruct Q3 as [A1 A2]. split; [exact A1|now apply IH]. }
        split.
        { intros p Hp. apply in_map_iff in Hp. destruct Hp as [q [<- Hq]]. exact (Q1 q Hq). }
        split.
        { intros p Hp Hn. apply (Permutation_in _ P) in Hp. apply in_map_iff in Hp. destruct Hp as [q [<- Hq]].
          apply (Q2 q Hq). intros K. apply Hn. now apply rot1_in. }
        destruct H0 as [L2 [L3 _]]. split; [exact L2|]. split; [exact L3|]. split; [exact H|exact Q4].
      - inversion_clear Hg. inversion HW as [|? w ? ws' Q HW' E1 E2]; subst. apply (IH H1) with (ws := ws'); [|exact HW'].
        intros r' Hr. apply Hin. now right. }
    assert (Hreach : 0 <= reach).
    { unfold reach. assert (0 <= IZR m) by (apply IZR_le; lia). apply Rmult_le_pos; lra. }
    assert (Htol : 0 <= ratio * ld) by now apply Rmult_le_pos.
    destruct (rows_loop argsort polyfit HA PF sp a ((lo + hi) / 2) reach (ratio * ld) ov order Htol Hreach n rows cs sel [] Rg) as [El|El];
      rewrite El; cbn [bind app]; [intros Ne; exfalso; apply Ne; reflexivity|]. intros _.
    change (@distinct_lines R Rex ld ar (fun l => @median R Rex (map py l)) rows) with
      (@distinct_lines R Rex ld ar (fun l : list (R * R) => @median R Rex (map fst l)) rows) in Ek.
    rewrite Ek. reflexivity.
Qed.
Print Assumptions C104_rows.

Lemma central_filter_v (ld : R) (m : Z) (x0 x1 : R) (sp : list (R * R)) : 0 <= ld -> (0 <= m)%Z -> x0 <= x1 ->
  (forall p, In p sp -> x0 <= fst p <= x1) ->
  selects (fun p => Rabs (fst p - (x0 + x1) / 2) <= (IZR m + 1 / 2) * ld) sp
    (filter (fun p => ((nclip (nsub (nmul (nadd x0 x1) (nofQ 1 2)) (nadd (nmul (nofZ m) ld) (nmul (nofQ 1 2) ld))) x0 x1 <=?! fst p) &&
       (fst p <=?! nclip (nadd (nmul (nadd x0 x1) (nofQ 1 2)) (nadd (nmul (nofZ m) ld) (nmul (nofQ 1 2) ld))) x0 x1))%num) sp).
Proof.
  intros Hld Hm H01 B. set (reach := (IZR m + 1 / 2) * ld).
  assert (Hreach : 0 <= reach).
  { unfold reach. assert (0 <= IZR m) by (apply IZR_le; lia). apply Rmult_le_pos; lra. }
  assert (K : forall p, In p sp ->
      ((nclip (nsub (nmul (nadd x0 x1) (nofQ 1 2)) (nadd (nmul (nofZ m) ld) (nmul (nofQ 1 2) ld))) x0 x1 <=?! fst p) &&
       (fst p <=?! nclip (nadd (nmul (nadd x0 x1) (nofQ 1 2)) (nadd (nmul (nofZ m) ld) (nmul (nofQ 1 2) ld))) x0 x1))%num = true
      <-> Rabs (fst p - (x0 + x1) / 2) <= reach).
  { intros p Hp. specialize (B p Hp). unfold Rex. rewrite !nclip_R by lra.
    cbn [nadd nmul nsub nofQ nofZ nleb Rnum]. rewrite andb_true_iff, !Rle_bool_true_iff.
    replace (IZR m * ld + 1 / 2 * ld) with reach by (unfold reach; field).
    replace ((x0 + x1) * (1 / 2)) with ((x0 + x1) / 2) by field. set (mid := (x0 + x1) / 2).
    assert (Hmid : x0 <= mid <= x1) by (unfold mid; lra). unfold clamp. split.
    - intros [A1 A2]. pose proof (Rmax_r x0 (Rmin (mid - reach) x1)) as M1. pose proof (Rmin_l (mid + reach) x1) as M2.
      rewrite (Rmin_left (mid - reach) x1) in * by lra.
      pose proof (Rmax_r x0 (mid - reach)). assert (fst p <= mid + reach).
      { eapply Rle_trans; [apply A2|]. apply Rmax_lub; lra. }
      apply Rabs_le. lra.
    - intros A. apply Rabs_le_inv in A. split; [apply Rmax_lub; [lra|]; eapply Rle_trans; [apply Rmin_l|lra]|].
      eapply Rle_trans; [|apply Rmax_r]. apply Rmin_glb; lra. }
  clear - K. induction sp as [|p l IH]; cbn [filter]; [constructor|].
  match goal with |- context [if ?b then _ else _] => destruct b eqn:Eb end.
  - constructor; [apply K; [now left|assumption]|]. apply IH. intros; apply K; now right.
  - constructor; [|apply IH; intros; apply K; now right]. intros Hn. apply K in Hn; [|now left]. congruence.
Qed.
(** Columns: the same with the roles of x and y exchanged; the frame is turned
    by atan(slope). *)
Theorem C104_columns : forall argsort label polyfit pts cols centres curves slope ld ratio miss accepted overlap order lo hi,
  argsort_spec argsort -> polyfit_oracle polyfit -> (forall xs ys j, polyfit xs ys j <> Err External) ->
  0 <= ld -> 0 <= ratio -> 0 <= accepted ->
  let turn := rot1 (atan slope) in
  let m := Z.min (Z.max miss 1) (Z.of_nat (length pts)) in
  let reach := (IZR m + 1 / 2) * ld in
  let near p q := same_line 0 (IZR m * ld) (ratio * ld) (pxc p, py p) (pxc q, py q) in
  cols <> [] -> Permutation pts (concat cols) ->
  (exists p, In p pts /\ py (turn p) = lo) -> (exists p, In p pts /\ py (turn p) = hi) ->
  (forall p, In p pts -> lo <= py (turn p) <= hi) ->
  Forall2 (fun r w => length w = S order /\
    (forall p, In p r -> pxc (turn p) = poly w (py (turn p))) /\
    (forall p, In p pts -> ~ In p r -> ratio * ld < Rabs (pxc (turn p) - poly w (py (turn p)))) /\
    chain (fun p q => py (turn p) < py (turn q) <= py (turn p) + reach) r /\
    StronglySorted (fun p q => py p < py q) r /\ (Z.of_nat (length r) <= 32767)%Z) cols curves ->
  Forall2 (fun r c => selects (fun p => Rabs (py p - (lo + hi) / 2) <= reach) (map turn r) c) cols centres ->
  Forall (fun c => (2 < length c)%nat /\ (order < length c)%nat /\ chain near c) centres ->
  ForallOrdPairs (fun c c' => forall p q, In p c -> In q c' -> ~ near p q) centres ->
  StronglySorted (fun c c' => Rmean (map pxc c) < Rmean (map pxc c')) centres ->
  (forall c c', In c centres -> In c' centres -> accepted * INR (length c) < INR (length c')) ->
  (forall r r', In r cols -> In r' cols -> accepted * INR (length r) < INR (length r')) ->
  exists kept lines n, without_repeats (lines_apart pxc (ld / 10)) cols kept /\
    Permutation lines kept /\ StronglySorted (fun l l' => Rmean (map pxc l) <= Rmean (map pxc l')) lines /\
    forall steps, (n <= steps)%nat ->
      group_dots_ver_lines_based_polyfit argsort label cos sin atan polyfit PI steps pts slope ld ratio miss accepted overlap order = Ok lines.
Proof.
  intros argsort label polyfit pts cols cs ws slope ld ratio miss ar ov order lo hi HA PF HE Hld Hrt Har turn m reach near
    Hne Hp Hlo Hhi Hb HW HC Hg Hpair Hmean Hlc Hlr.
  set (a := atan slope) in *.
  assert (Hrow : forall r, In r cols -> r <> []).
  { intros r Hr. assert (K : exists c, In c cs /\ selects (fun p => Rabs (py p - (lo + hi) / 2) <= reach) (map turn r) c).
    { clear -HC Hr. induction HC as [|r0 c0 cols cs H HC IH]; [destruct Hr|]. destruct Hr as [<-|Hr]; [exists c0; split; [now left|exact H]|].
      destruct (IH Hr) as [c [I S]]. exists c. split; [now right|exact S]. }
    destruct K as [c [I S]]. rewrite Forall_forall in Hg. destruct (Hg c I) as [L _]. intros ->. inversion S; subst. cbn in L. lia. }
  assert (Hbig : exists kept, @distinct_lines R Rex ld ar (fun l => @median R Rex (map pxc l)) cols = Ok kept /\
    without_repeats (lines_apart pxc (ld / 10)) cols kept).
  { apply distinct_rows; auto. clear -HW. induction HW as [|r w cols ws H HW IH]; intros r' Hr; [destruct Hr|].
    destruct Hr as [<-|Hr]; [tauto|now apply IH]. }
  destruct Hbig as [kept [Ek Wk]].
  destruct (ver_polyfit_terminates argsort label polyfit HE pts slope ld ratio miss ar ov order) as [n [Ne Hn]].
  exists kept, (@sorted R Rex _ (fun l => @mean R Rex (map pxc l)) kept), n.
  split; [exact Wk|]. split; [apply sorted_perm|]. split.
  { assert (M : forall l, @mean R Rex l = Rmean l).
    { intros l. unfold mean, Rmean. rewrite nsum_Rex. unfold Rex. cbn [ndiv nofZ Rnum]. now rewrite INR_IZR_INZ. }
    pose proof (sorted_sorted (fun x => x) (fun l : list pt => @mean R Rex (map pxc l)) kept) as S.
    change (Rnum (fun x => x)) with Rex in S. clear -S M. induction S as [|x l S IH F]; constructor; [exact IH|].
    eapply Forall_impl; [|exact F]. intros b H. cbn beta in H. now rewrite !M in H. }
  assert (Goal0 : group_dots_ver_lines_based_polyfit argsort label cos sin atan polyfit PI n pts slope ld ratio miss ar ov order =
    Ok (@sorted R Rex _ (fun l => @mean R Rex (map pxc l)) kept)).
  2: { intros steps Hs. rewrite (Hn steps Hs). exact Goal0. }
  clear Hn. revert Ne. unfold group_dots_ver_lines_based_polyfit.
  destruct (Z.eqb_spec (Z.of_nat (length pts)) 0) as [E|E].
  { exfalso. destruct Hlo as [p [I _]]. destruct pts; [destruct I|cbn in E; lia]. }
  cbv zeta. rewrite rotate_rad. change (atan slope) with a.
  set (rp := map (rot1 a) pts). set (sp := gather rp (argsort (map fst rp))).
  destruct (gather_argsort argsort fst rp HA) as [P S]. fold sp in P, S.
  assert (Hsp : sp <> []).
  { intros E'. rewrite E' in P. apply Permutation_nil in P. unfold rp in P. destruct pts; [cbn in E; lia|discriminate]. }
  destruct (pyget_ends (map fst sp)) as [x0 [x1 [E0 [E1 _]]]]; [destruct sp; [congruence|discriminate]|].
  destruct (sorted_ends (map fst sp) x0 x1 (StronglySorted_map fst Rle sp S) E0 E1) as [I0 [I1 B]].
  rewrite E0, E1. cbn [bind].
  assert (Isp : forall x, In x (map fst sp) <-> exists p, In p pts /\ py (turn p) = x).
  { intros x. rewrite in_map_iff. split.
    - intros [q [<- Hq]]. apply (Permutation_in _ P) in Hq. unfold rp in Hq. apply in_map_iff in Hq. destruct Hq as [p [<- Hq]]. exists p. split; [exact Hq|reflexivity].
    - intros [p [I <-]]. exists (turn p). split; [reflexivity|]. apply (Permutation_in _ (Permutation_sym P)). unfold rp. apply in_map. exact I. }
  assert (X0 : x0 = lo).
  { apply Rle_antisym; [apply B; now apply Isp|]. apply Isp in I0. destruct I0 as [p [I <-]]. now apply Hb. }
  assert (X1 : x1 = hi).
  { apply Rle_antisym; [|apply B; now apply Isp]. apply Isp in I1. destruct I1 as [p [I <-]]. now apply Hb. }
  subst x0 x1. fold m.
  assert (Hm : (1 <= m)%Z) by (unfold m; lia).
  set (sel := filter _ sp).
  assert (C : selects (fun p => Rabs (fst p - (lo + hi) / 2) <= reach) sp sel).
  { apply central_filter_v; [exact Hld|lia|apply (B hi I1)|intros p Hp'; apply B; now apply in_map]. }
  clearbody sel.
  pose (f := fun p : R * R => if Rle_dec (Rabs (fst p - (lo + hi) / 2)) reach then true else false).
  assert (Hf : forall p, f p = true <-> Rabs (fst p - (lo + hi) / 2) <= reach).
  { intros p. unfold f. destruct (Rle_dec _ _); split; auto; discriminate. }
  assert (Psel : Permutation sel (concat cs)).
  { rewrite (selects_filter _ f _ _ Hf C), (filter_permute f _ _ P). unfold rp. rewrite (filter_permute f _ _ (Permutation_map (rot1 a) Hp)).
    rewrite concat_map, <- concat_filter_map, map_map.
    replace cs with (map (fun r => filter f (map (rot1 a) r)) cols); [apply Permutation_refl|].
    clear -HC Hf. induction HC as [|r c cols cs H HC IH]; [reflexivity|]. cbn [map]. rewrite IH. f_equal.
    symmetry. apply (selects_filter _ f _ _ Hf H). }
  assert (Ncs : cs <> []) by (intros ->; inversion HC; subst; congruence).
  assert (Nsel : sel <> []).
  { intros ->. apply Permutation_nil in Psel. destruct cs as [|c cs']; [congruence|]. inversion_clear Hg.
    destruct c; [cbn in H; lia|discriminate]. }
  destruct (C99_columns argsort label sel cs 0 ld ratio m ar HA Ncs Psel) as [gs [Eg [_ Es]]].
  - clear -HC HW Hg. revert ws HW. induction HC as [|r c cols cs H HC IH]; intros ws HW; constructor.
    + inversion_clear Hg. inversion HW as [|? w ? ws' Q HW' E1 E2]; subst. split; [lia|]. split; [|tauto].
      eapply selects_sorted; [exact H|]. destruct Q as [_ [_ [_ [Q _]]]]. apply (chain_sorted_v reach).
      clear -Q. induction r as [|x r IH]; [exact I|]. destruct r as [|y r]; [exact I|]. destruct Q as [Q1 Q2]. split; [exact Q1|now apply IH].
    + inversion_clear Hg. inversion HW as [|? w ? ws' Q HW' E1 E2]; subst. now apply (IH H1 ws').
  - exact Hpair.
  - exact Hlc.
  - specialize (Es Hmean). subst gs.
    destruct sel as [|q0 sel'] eqn:Es'; [congruence|]. rewrite <- Es' in *. clear Es' q0 sel'.
    change (@n0 R Rex) with 0. rewrite Eg. cbn [bind].
    replace (@nadd R Rex (nmul (nofZ m) ld) (nmul (nofQ 1 2) ld)) with reach
      by (unfold Rex, reach; cbn [nadd nmul nofZ nofQ Rnum]; field).
    change (@nmul R Rex ratio ld) with (ratio * ld).
    assert (Rg : Forall2 (row_group_v sp a ((lo + hi) / 2) reach (ratio * ld) order) cols cs).
    { assert (Hin : forall r, In r cols -> incl (map (rot1 a) r) sp).
      { intros r Hr q Hq. apply in_map_iff in Hq. destruct Hq as [p [<- Hq]]. apply (Permutation_in _ (Permutation_sym P)).
        apply in_map. apply (Permutation_in _ (Permutation_sym Hp)). apply in_concat. exists r. auto. }
      clear -HC HW Hg Hin P. revert ws HW. induction HC as [|r c cols cs H HC IH]; intros ws HW; constructor.
      - inversion_clear Hg. inversion HW as [|? w ? ws' Q HW' E1 E2]; subst. destruct Q as [Lw [Q1 [Q2 [Q3 [Q4 _]]]]].
        exists w. split; [exact Lw|]. split; [apply Hin; now left|]. split.
        { clear -Q3. induction r as [|x r IH]; [exact I|]. destruct r as [|y r]; [exact I|]. destruct Q3 as [A1 A2]. split; [exact A1|now apply IH]. }
        split.
        { intros p Hp. apply in_map_iff in Hp. destruct Hp as [q [<- Hq]]. exact (Q1 q Hq). }
        split.
        { intros p Hp Hn. apply (Permutation_in _ P) in Hp. apply in_map_iff in Hp. destruct Hp as [q [<- Hq]].
          apply (Q2 q Hq). intros K. apply Hn. now apply rot1_in. }
        destruct H0 as [L2 [L3 _]]. split; [exact L2|]. split; [exact L3|]. split; [exact H|exact Q4].
      - inversion_clear Hg. inversion HW as [|? w ? ws' Q HW' E1 E2]; subst. apply (IH H1) with (ws := ws'); [|exact HW'].
        intros r' Hr. apply Hin. now right. }
    assert (Hreach : 0 <= reach).
    { unfold reach. assert (0 <= IZR m) by (apply IZR_le; lia). apply Rmult_le_pos; lra. }
    assert (Htol : 0 <= ratio * ld) by now apply Rmult_le_pos.
    destruct (rows_loop_v argsort polyfit HA PF sp a ((lo + hi) / 2) reach (ratio * ld) ov order Htol Hreach n cols cs sel [] Rg) as [El|El];
      rewrite El; cbn [bind app]; [intros Ne; exfalso; apply Ne; reflexivity|]. intros _.
    change (@distinct_lines R Rex ld ar (fun l => @median R Rex (map pxc l)) cols) with
      (@distinct_lines R Rex ld ar (fun l : list (R * R) => @median R Rex (map snd l)) cols) in Ek.
    rewrite Ek. reflexivity.
Qed.
Print Assumptions C104_columns.
(** With every median apart from the one before, all rows are kept. *)
Theorem C104_apart : forall (apart : list pt -> list pt -> Prop) rows kept,
  without_repeats apart rows kept -> chain apart rows -> kept = rows.
Proof.
  intros apart rows kept W C. destruct W as [l _|a l k J _]; [reflexivity|]. f_equal.
  induction J as [p|p r l k H J IH|p r l k H J IH]; [reflexivity| |].
  - f_equal. apply IH. apply C.
  - destruct C as [C _]. contradiction.
Qed.
Print Assumptions C104_apart.

(** Three parabolic rows of five dots, 9/10 apart in x; the second is 19/200
    above the first, the third 10 above. The first and the third are returned:
    medians less than a tenth of line_dist apart count as one line. *)
Definition bent (h : R) : list pt :=
  [(162/1000 + h, 0); (81/2000 + h, 9/10); (h, 18/10); (81/2000 + h, 27/10); (162/1000 + h, 36/10)].
Ltac absr := unfold Rabs; destruct (Rcase_abs _); lra.
Lemma turn_0 : rot1 (- atan 0) = fun p => p.
Proof.
  apply FunctionalExtensionality.functional_extensionality. intros [y x]. unfold rot1. rewrite atan_0, Ropp_0, sin_0, cos_0. cbn [fst snd]. f_equal; ring.
Qed.
Lemma bent_median h : is_median (map py (bent h)) (81/2000 + h).
Proof.
  exists [h; 81/2000 + h; 81/2000 + h; 162/1000 + h; 162/1000 + h]. split.
  - unfold bent, py. cbn [map fst]. set (a := 162/1000 + h). set (b := 81/2000 + h).
    apply Permutation_trans with (h :: a :: b :: b :: a :: nil).
    + apply perm_skip. apply Permutation_trans with (b :: a :: b :: a :: nil).
      * apply perm_skip. apply perm_swap.
      * apply perm_swap.
    + apply (Permutation_middle [a; b] [b; a] h).
  - split; [repeat constructor; lra|]. exists 2%nat. left. split; reflexivity.
Qed.
Lemma bent_apart h h' : lines_apart py (1 / 10) (bent h) (bent h') <-> 1 / 10 < Rabs (h' - h).
Proof.
  split.
  - intros [m [m' [M [M' L]]]]. rewrite (is_median_unique _ _ _ M (bent_median h)), (is_median_unique _ _ _ M' (bent_median h')) in L.
    replace (81 / 2000 + h' - (81 / 2000 + h)) with (h' - h) in L by ring. exact L.
  - intros L. exists (81/2000 + h), (81/2000 + h'). split; [apply bent_median|]. split; [apply bent_median|].
    replace (81 / 2000 + h' - (81 / 2000 + h)) with (h' - h) by ring. exact L.
Qed.
Example C104_ex : exists n, forall steps, (n <= steps)%nat ->
  group_dots_hor_lines_based_polyfit argsort_ins (fun _ => (mkimg 0 0 (fun _ _ => 0%Z), 0%Z)) cos sin atan pf_R PI steps
    (bent 10 ++ bent (19/200) ++ bent 0) 0 1 (1/20) 1 (1/2) 0 2 = Ok [bent 0; bent 10].
Proof.
  set (c := fun h : R => [(81/2000 + h, 9/10); (h, 18/10); (81/2000 + h, 27/10)] : list pt).
  set (w := fun h : R => [162/1000 + h; - (18/100); 1/20]).
  destruct (C104_rows argsort_ins (fun _ => (mkimg 0 0 (fun _ _ => 0%Z), 0%Z)) pf_R (bent 10 ++ bent (19/200) ++ bent 0)
    [bent 0; bent (19/200); bent 10] [c 0; c (19/200); c 10] [w 0; w (19/200); w 10] 0 1 (1/20) 1 (1/2) 0 2 0 (36/10))
    as [kept [lines [n [W [P [S H]]]]]].
  - exact (argsort_ins_ok (fun x => x)).
  - exact pf_R_ok.
  - intros xs ys j. discriminate.
  - lra.
  - lra.
  - lra.
  - discriminate.
  - cbn [concat]. rewrite app_nil_r. rewrite Permutation_app_comm. rewrite <- app_assoc. rewrite (Permutation_app_comm (bent (19/200))).
    rewrite <- app_assoc. apply Permutation_app_head. apply Permutation_app_comm.
  - rewrite turn_0. exists (162/1000 + 10, 0). split; [now left|reflexivity].
  - rewrite turn_0. exists (162/1000 + 10, 36/10). split; [right; right; right; right; now left|reflexivity].
  - rewrite turn_0. intros p Hp. cbn in Hp. repeat (destruct Hp as [<-|Hp]; [cbn; lra|]). destruct Hp.
  - rewrite turn_0. change (Z.min _ _) with 1%Z.
    assert (K1 : forall h (p : pt), In p (bent h) -> py p = poly (w h) (pxc p)).
    { intros h p Hp. unfold bent, w in *. cbn [In] in Hp. repeat (destruct Hp as [<-|Hp]; [unfold py, pxc; cbn [fst snd poly]; field|]). destruct Hp. }
    assert (K2 : forall h h' p, In p (bent h') -> 19/200 <= Rabs (h' - h) -> 1/20 * 1 < Rabs (py p - poly (w h) (pxc p))).
    { intros h h' p Hp D. rewrite (K1 h' p Hp). replace (poly (w h') (pxc p) - poly (w h) (pxc p)) with (h' - h) by (unfold w; cbn [poly]; ring). lra. }
    assert (K3 : forall h, chain (fun p q : pt => pxc p < pxc q <= pxc p + (1 + 1 / 2) * 1) (bent h)).
    { intros h. unfold bent, chain, pxc. cbn [snd]. repeat split; lra. }
    assert (K4 : forall h, StronglySorted (fun p q : pt => pxc p < pxc q) (bent h)).
    { intros h. unfold bent, pxc. repeat constructor; cbn [snd]; lra. }
    assert (K5 : forall h, (Z.of_nat (length (bent h)) <= 32767)%Z) by (intros h; cbn; lia).
    assert (K6 : forall h p, In p (bent 10 ++ bent (19/200) ++ bent 0) -> ~ In p (bent h) ->
      (h = 0 \/ h = 19/200 \/ h = 10) -> 1/20 * 1 < Rabs (py p - poly (w h) (pxc p))).
    { intros h p Hp Hn Hh. apply in_app_iff in Hp. rewrite in_app_iff in Hp.
      destruct Hh as [->|[->| ->]], Hp as [Hp|[Hp|Hp]]; try contradiction; (eapply K2; [exact Hp|absr]). }
    constructor; [|constructor; [|constructor; [|constructor]]].
    + split; [reflexivity|]. split; [apply K1|]. split; [intros p A B; apply K6; auto|]. split; [apply K3|]. split; [apply K4|apply K5].
    + split; [reflexivity|]. split; [apply K1|]. split; [intros p A B; apply K6; auto|]. split; [apply K3|]. split; [apply K4|apply K5].
    + split; [reflexivity|]. split; [apply K1|]. split; [intros p A B; apply K6; auto|]. split; [apply K3|]. split; [apply K4|apply K5].
  - rewrite turn_0. change (Z.min _ _) with 1%Z.
    assert (K : forall h, selects (fun p : pt => Rabs (pxc p - (0 + 36 / 10) / 2) <= (1 + 1 / 2) * 1) (map (fun p : pt => p) (bent h)) (c h)).
    { intros h. unfold bent, c. cbn [map]. apply sel_no; [unfold pxc; cbn [snd]; absr|]. do 3 (apply sel_yes; [unfold pxc; cbn [snd]; absr|]).
      apply sel_no; [unfold pxc; cbn [snd]; absr|]. constructor. }
    constructor; [apply K|constructor; [apply K|constructor; [apply K|constructor]]].
  - change (Z.min _ _) with 1%Z. 
    assert (K : forall h, (2 < length (c h))%nat /\ (2 < length (c h))%nat /\ chain (same_line 0 (1 * 1) (1 / 20 * 1)) (c h)).
    { intros h. split; [cbn; lia|]. split; [cbn; lia|]. unfold c, chain, same_line, line_dist, pxc, py. cbn [fst snd].
      replace (sqrt (0 * 0 + 1)) with 1 by (rewrite Rmult_0_l, Rplus_0_l; symmetry; apply sqrt_1). unfold Rdiv at 3 6 9. 
      rewrite ?Rinv_1, ?Rmult_1_r. repeat split; absr. }
    constructor; [apply K|constructor; [apply K|constructor; [apply K|constructor]]].
  - change (Z.min _ _) with 1%Z.
    assert (K : forall h h', (19/200 <= h' - h) -> forall p q, In p (c h) -> In q (c h') -> ~ same_line 0 (1 * 1) (1 / 20 * 1) p q).
    { intros h h' D p q Hp Hq [H1 H2]. revert H1 H2. unfold line_dist. 
      replace (sqrt (0 * 0 + 1)) with 1 by (rewrite Rmult_0_l, Rplus_0_l; symmetry; apply sqrt_1). unfold Rdiv at 1. rewrite Rinv_1, !Rmult_1_r.
      intros H1 H2. apply Rabs_def2 in H1, H2. unfold c in Hp, Hq. cbn [In] in Hp, Hq.
      destruct Hp as [<-|[<-|[<-|[]]]], Hq as [<-|[<-|[<-|[]]]]; unfold pxc, py in *; cbn [fst snd] in *; lra. }
    constructor; [constructor; [apply K; lra|constructor; [apply K; lra|constructor]]|].
    constructor; [constructor; [apply K; lra|constructor]|]. constructor; constructor.
  - assert (K : forall h, Rmean (map py (c h)) = h + 27/1000) by (intros h; unfold Rmean, c, py; cbn; field).
    repeat constructor; rewrite !K; lra.
  - intros r r' Hr Hr'. cbn [In] in Hr, Hr'. destruct Hr as [<-|[<-|[<-|[]]]], Hr' as [<-|[<-|[<-|[]]]]; cbn; lra.
  - intros r r' Hr Hr'. cbn [In] in Hr, Hr'. destruct Hr as [<-|[<-|[<-|[]]]], Hr' as [<-|[<-|[<-|[]]]]; cbn; lra.
  - exists n. intros steps Hs. rewrite (H steps Hs). f_equal.
    assert (EK : kept = [bent 0; bent 10]).
    { assert (A1 : ~ lines_apart py (1 / 10) (bent 0) (bent (19/200))) by (rewrite bent_apart; absr).
      assert (A2 : lines_apart py (1 / 10) (bent (19/200)) (bent 10)) by (rewrite bent_apart; absr).
      inversion W as [l C E1 E2|a l k J Nk E1 E2]; [exfalso; subst; cbn in C; tauto|]. subst.
      inversion J as [|? ? ? ? B1 J1|? ? ? ? B1 J1]; subst; [contradiction|].
      inversion J1 as [|? ? ? ? B2 J2|? ? ? ? B2 J2]; subst; [|contradiction]. inversion J2; subst. reflexivity. }
    subst kept. apply (sorted_perm_eq (fun l => Rmean (map py l))); [exact P|exact S|].
    assert (K : forall h, Rmean (map py (bent h)) = h + 81/1000) by (intros h; unfold Rmean, bent, py; cbn; field).
    repeat constructor; rewrite !K; lra.
Qed.
(** The same for columns. *)
Definition vbent (h : R) : list pt :=
  [(0, 162/1000 + h); (9/10, 81/2000 + h); (18/10, h); (27/10, 81/2000 + h); (36/10, 162/1000 + h)].
Lemma vturn_0 : rot1 (atan 0) = fun p => p.
Proof.
  apply FunctionalExtensionality.functional_extensionality. intros [y x]. unfold rot1. rewrite atan_0, sin_0, cos_0. cbn [snd fst]. f_equal; ring.
Qed.
Lemma vbent_median h : is_median (map pxc (vbent h)) (81/2000 + h).
Proof.
  exists [h; 81/2000 + h; 81/2000 + h; 162/1000 + h; 162/1000 + h]. split.
  - unfold vbent, pxc. cbn [map snd]. set (a := 162/1000 + h). set (b := 81/2000 + h).
    apply Permutation_trans with (h :: a :: b :: b :: a :: nil).
    + apply perm_skip. apply Permutation_trans with (b :: a :: b :: a :: nil).
      * apply perm_skip. apply perm_swap.
      * apply perm_swap.
    + apply (Permutation_middle [a; b] [b; a] h).
  - split; [repeat constructor; lra|]. exists 2%nat. left. split; reflexivity.
Qed.
Lemma vbent_apart h h' : lines_apart pxc (1 / 10) (vbent h) (vbent h') <-> 1 / 10 < Rabs (h' - h).
Proof.
  split.
  - intros [m [m' [M [M' L]]]]. rewrite (is_median_unique _ _ _ M (vbent_median h)), (is_median_unique _ _ _ M' (vbent_median h')) in L.
    replace (81 / 2000 + h' - (81 / 2000 + h)) with (h' - h) in L by ring. exact L.
  - intros L. exists (81/2000 + h), (81/2000 + h'). split; [apply vbent_median|]. split; [apply vbent_median|].
    replace (81 / 2000 + h' - (81 / 2000 + h)) with (h' - h) by ring. exact L.
Qed.
Example C104_columns_ex : exists n, forall steps, (n <= steps)%nat ->
  group_dots_ver_lines_based_polyfit argsort_ins (fun _ => (mkimg 0 0 (fun _ _ => 0%Z), 0%Z)) cos sin atan pf_R PI steps
    (vbent 10 ++ vbent (19/200) ++ vbent 0) 0 1 (1/20) 1 (1/2) 0 2 = Ok [vbent 0; vbent 10].
Proof.
  set (c := fun h : R => [(9/10, 81/2000 + h); (18/10, h); (27/10, 81/2000 + h)] : list pt).
  set (w := fun h : R => [162/1000 + h; - (18/100); 1/20]).
  destruct (C104_columns argsort_ins (fun _ => (mkimg 0 0 (fun _ _ => 0%Z), 0%Z)) pf_R (vbent 10 ++ vbent (19/200) ++ vbent 0)
    [vbent 0; vbent (19/200); vbent 10] [c 0; c (19/200); c 10] [w 0; w (19/200); w 10] 0 1 (1/20) 1 (1/2) 0 2 0 (36/10))
    as [kept [lines [n [W [P [S H]]]]]].
  - exact (argsort_ins_ok (fun x => x)).
  - exact pf_R_ok.
  - intros xs ys j. discriminate.
  - lra.
  - lra.
  - lra.
  - discriminate.
  - cbn [concat]. rewrite app_nil_r. rewrite Permutation_app_comm. rewrite <- app_assoc. rewrite (Permutation_app_comm (vbent (19/200))).
    rewrite <- app_assoc. apply Permutation_app_head. apply Permutation_app_comm.
  - rewrite vturn_0. exists (0, 162/1000 + 10). split; [now left|reflexivity].
  - rewrite vturn_0. exists (36/10, 162/1000 + 10). split; [right; right; right; right; now left|reflexivity].
  - rewrite vturn_0. intros p Hp. cbn in Hp. repeat (destruct Hp as [<-|Hp]; [cbn; lra|]). destruct Hp.
  - rewrite vturn_0. change (Z.min _ _) with 1%Z.
    assert (K1 : forall h (p : pt), In p (vbent h) -> pxc p = poly (w h) (py p)).
    { intros h p Hp. unfold vbent, w in *. cbn [In] in Hp. repeat (destruct Hp as [<-|Hp]; [unfold pxc, py; cbn [snd fst poly]; field|]). destruct Hp. }
    assert (K2 : forall h h' p, In p (vbent h') -> 19/200 <= Rabs (h' - h) -> 1/20 * 1 < Rabs (pxc p - poly (w h) (py p))).
    { intros h h' p Hp D. rewrite (K1 h' p Hp). replace (poly (w h') (py p) - poly (w h) (py p)) with (h' - h) by (unfold w; cbn [poly]; ring). lra. }
    assert (K3 : forall h, chain (fun p q : pt => py p < py q <= py p + (1 + 1 / 2) * 1) (vbent h)).
    { intros h. unfold vbent, chain, py. cbn [fst]. repeat split; lra. }
    assert (K4 : forall h, StronglySorted (fun p q : pt => py p < py q) (vbent h)).
    { intros h. unfold vbent, py. repeat constructor; cbn [fst]; lra. }
    assert (K5 : forall h, (Z.of_nat (length (vbent h)) <= 32767)%Z) by (intros h; cbn; lia).
    assert (K6 : forall h p, In p (vbent 10 ++ vbent (19/200) ++ vbent 0) -> ~ In p (vbent h) ->
      (h = 0 \/ h = 19/200 \/ h = 10) -> 1/20 * 1 < Rabs (pxc p - poly (w h) (py p))).
    { intros h p Hp Hn Hh. apply in_app_iff in Hp. rewrite in_app_iff in Hp.
      destruct Hh as [->|[->| ->]], Hp as [Hp|[Hp|Hp]]; try contradiction; (eapply K2; [exact Hp|absr]). }
    constructor; [|constructor; [|constructor; [|constructor]]].
    + split; [reflexivity|]. split; [apply K1|]. split; [intros p A B; apply K6; auto|]. split; [apply K3|]. split; [apply K4|apply K5].
    + split; [reflexivity|]. split; [apply K1|]. split; [intros p A B; apply K6; auto|]. split; [apply K3|]. split; [apply K4|apply K5].
    + split; [reflexivity|]. split; [apply K1|]. split; [intros p A B; apply K6; auto|]. split; [apply K3|]. split; [apply K4|apply K5].
  - rewrite vturn_0. change (Z.min _ _) with 1%Z.
    assert (K : forall h, selects (fun p : pt => Rabs (py p - (0 + 36 / 10) / 2) <= (1 + 1 / 2) * 1) (map (fun p : pt => p) (vbent h)) (c h)).
    { intros h. unfold vbent, c. cbn [map]. apply sel_no; [unfold py; cbn [fst]; absr|]. do 3 (apply sel_yes; [unfold py; cbn [fst]; absr|]).
      apply sel_no; [unfold py; cbn [fst]; absr|]. constructor. }
    constructor; [apply K|constructor; [apply K|constructor; [apply K|constructor]]].
  - change (Z.min _ _) with 1%Z. 
    assert (K : forall h, (2 < length (c h))%nat /\ (2 < length (c h))%nat /\ chain (fun p q => same_line 0 (1 * 1) (1 / 20 * 1) (pxc p, py p) (pxc q, py q)) (c h)).
    { intros h. split; [cbn; lia|]. split; [cbn; lia|]. unfold c, chain, same_line, line_dist, py, pxc. cbn [snd fst].
      replace (sqrt (0 * 0 + 1)) with 1 by (rewrite Rmult_0_l, Rplus_0_l; symmetry; apply sqrt_1). unfold Rdiv at 3 6 9. 
      rewrite ?Rinv_1, ?Rmult_1_r. repeat split; absr. }
    constructor; [apply K|constructor; [apply K|constructor; [apply K|constructor]]].
  - change (Z.min _ _) with 1%Z.
    assert (K : forall h h', (19/200 <= h' - h) -> forall p q, In p (c h) -> In q (c h') -> ~ same_line 0 (1 * 1) (1 / 20 * 1) (pxc p, py p) (pxc q, py q)).
    { intros h h' D p q Hp Hq [H1 H2]. revert H1 H2. unfold line_dist. 
      replace (sqrt (0 * 0 + 1)) with 1 by (rewrite Rmult_0_l, Rplus_0_l; symmetry; apply sqrt_1). unfold Rdiv at 1. rewrite Rinv_1, !Rmult_1_r.
      intros H1 H2. apply Rabs_def2 in H1, H2. unfold c in Hp, Hq. cbn [In] in Hp, Hq.
      destruct Hp as [<-|[<-|[<-|[]]]], Hq as [<-|[<-|[<-|[]]]]; unfold py, pxc in *; cbn [snd fst] in *; lra. }
    constructor; [constructor; [apply K; lra|constructor; [apply K; lra|constructor]]|].
    constructor; [constructor; [apply K; lra|constructor]|]. constructor; constructor.
  - assert (K : forall h, Rmean (map pxc (c h)) = h + 27/1000) by (intros h; unfold Rmean, c, pxc; cbn; field).
    repeat constructor; rewrite !K; lra.
  - intros r r' Hr Hr'. cbn [In] in Hr, Hr'. destruct Hr as [<-|[<-|[<-|[]]]], Hr' as [<-|[<-|[<-|[]]]]; cbn; lra.
  - intros r r' Hr Hr'. cbn [In] in Hr, Hr'. destruct Hr as [<-|[<-|[<-|[]]]], Hr' as [<-|[<-|[<-|[]]]]; cbn; lra.
  - exists n. intros steps Hs. rewrite (H steps Hs). f_equal.
    assert (EK : kept = [vbent 0; vbent 10]).
    { assert (A1 : ~ lines_apart pxc (1 / 10) (vbent 0) (vbent (19/200))) by (rewrite vbent_apart; absr).
      assert (A2 : lines_apart pxc (1 / 10) (vbent (19/200)) (vbent 10)) by (rewrite vbent_apart; absr).
      inversion W as [l C E1 E2|a l k J Nk E1 E2]; [exfalso; subst; cbn in C; tauto|]. subst.
      inversion J as [|? ? ? ? B1 J1|? ? ? ? B1 J1]; subst; [contradiction|].
      inversion J1 as [|? ? ? ? B2 J2|? ? ? ? B2 J2]; subst; [|contradiction]. inversion J2; subst. reflexivity. }
    subst kept. apply (sorted_perm_eq (fun l => Rmean (map pxc l))); [exact P|exact S|].
    assert (K : forall h, Rmean (map pxc (vbent h)) = h + 81/1000) by (intros h; unfold Rmean, vbent, pxc; cbn; field).
    repeat constructor; rewrite !K; lra.
Qed.
