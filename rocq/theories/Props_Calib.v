(** Properties of discorpy/proc/processing.py, the fitted distortion
    coefficients (C97). *)
From Coq Require Import Reals ZArith List Lra Lia.
From Flocq Require Import Core.
From Verif Require Import Base Num NumFacts Spec Lsq LsqEx ProcSpec PolyUniq PrepImg PrepPts PrepFacts PrepFacts2 Post PostLines Proc
  ProcFacts ProcFacts2 ProcFacts3 ProcFacts4 ProcFacts5 CalibSpec CalibFacts Props_Post Props_Proc.
Import ListNotations.
Local Open Scope R_scope.

(** ** C97 the coefficients are the best polynomial, and exact where one exists *)
(** The forward coefficients F minimise the squared deviation of F(r) from
    u/(a t^2 + c) over all dots of all lines (t the coordinate of the dot along
    its line and r its distance, both from the centre; a and c of the parabola
    fitted to the line; u its undistorted position, see C29), dots of an
    undistorted line through the centre excepted.  The real numbers have no
    infinity: no fitted parabola may vanish at a dot. *)
Theorem C97_forward_least_squares : forall st polyfit minimize lstsq lh lv xc yc num_fact opt thr w uh uv F,
  lstsq_oracle lstsq -> (num_fact <= 32767)%Z ->
  @calc_undistor_intercept R (Rst st) polyfit minimize lh lv xc yc opt thr = Ok (w, (uh, uv)) ->
  @calc_coef_forward R (Rst st) polyfit minimize lstsq lh lv xc yc num_fact opt thr = Ok F ->
  exists ch cv, fits_hor st polyfit xc yc lh ch /\ fits_ver st polyfit xc yc lv cv /\
  best_poly (Z.to_nat (Z.max 1 num_fact))
    (usable (line_samples (hor_sample xc yc) ch uh lh ++ line_samples (ver_sample xc yc) cv uv lv)) F.
Proof.
  intros st polyfit minimize lstsq lh lv xc yc num_fact opt thr w uh uv F LS NF E H.
  destruct (call_parts st polyfit minimize lh lv xc yc opt thr) as [w' [uh' [uv' [ch [cv [sh [sv [E' [Eh Ev]]]]]]]]]; [intros e X; pose proof (eq_trans (eq_sym E) X); discriminate|].
  apply (eq_trans (eq_sym (forward_call st polyfit minimize lstsq lh lv xc yc num_fact opt thr NF w uh uv ch cv sh sv E Eh Ev))) in H.
  exists ch, cv. split; [exact (para_hor_fits _ _ _ _ _ _ _ Eh)|]. split; [exact (para_ver_fits _ _ _ _ _ _ _ Ev)|].
  exact (solve_best st lstsq LS _ _ _ H).
Qed.
Print Assumptions C97_forward_least_squares.
(** The backward coefficients do so for the inverse factors (a t^2 + c)/u at
    the distance r u/(a t^2 + c) of the undistorted points. *)
Theorem C97_backward_least_squares : forall st polyfit minimize lstsq lh lv xc yc num_fact opt thr w uh uv B,
  lstsq_oracle lstsq -> (num_fact <= 32767)%Z ->
  @calc_undistor_intercept R (Rst st) polyfit minimize lh lv xc yc opt thr = Ok (w, (uh, uv)) ->
  @calc_coef_backward R (Rst st) polyfit minimize lstsq lh lv xc yc num_fact opt thr = Ok B ->
  exists ch cv, fits_hor st polyfit xc yc lh ch /\ fits_ver st polyfit xc yc lv cv /\
  best_poly (Z.to_nat (Z.max 1 num_fact))
    (map inverse_sample (line_samples (hor_sample xc yc) ch uh lh ++ line_samples (ver_sample xc yc) cv uv lv)) B.
Proof.
  intros st polyfit minimize lstsq lh lv xc yc num_fact opt thr w uh uv F LS NF E H.
  destruct (call_parts st polyfit minimize lh lv xc yc opt thr) as [w' [uh' [uv' [ch [cv [sh [sv [E' [Eh Ev]]]]]]]]]; [intros e X; pose proof (eq_trans (eq_sym E) X); discriminate|].
  apply (eq_trans (eq_sym (backward_call st polyfit minimize lstsq lh lv xc yc num_fact opt thr NF w uh uv ch cv sh sv E Eh Ev))) in H.
  exists ch, cv. split; [exact (para_hor_fits _ _ _ _ _ _ _ Eh)|]. split; [exact (para_ver_fits _ _ _ _ _ _ _ Ev)|].
  exact (solve_best st lstsq LS _ _ _ H).
Qed.
Print Assumptions C97_backward_least_squares.

(** Lines measured as parabolas symmetric about the centre.  If some
    polynomial P with the wanted number of coefficients moves their dots onto
    the undistorted lines, so does the result F; with enough distinct
    distances from the centre F = P. *)
Theorem C97_forward_exact : forall st polyfit minimize lstsq cs ds lh lv xc yc num_fact opt thr w uh uv P,
  polyfit_oracle polyfit -> lstsq_oracle lstsq -> (num_fact <= 32767)%Z -> let n := Z.to_nat (Z.max 1 num_fact) in
  Forall2 (bent_hor xc yc) cs lh -> Forall2 (bent_ver xc yc) ds lv ->
  st 0 = 0 -> (forall c, In c (cs ++ ds) -> st (fst c) = fst c /\ st (snd c) = snd c) ->
  @calc_undistor_intercept R (Rst st) polyfit minimize lh lv xc yc opt thr = Ok (w, (uh, uv)) ->
  (exists u, In u (uh ++ uv) /\ u <> 0) ->
  length P = n -> (forall p, In p (concat lh ++ concat lv) -> poly P (dist p (yc, xc)) <> 0) ->
  straightens_hor P xc yc uh lh -> straightens_ver P xc yc uv lv ->
  exists F, @calc_coef_forward R (Rst st) polyfit minimize lstsq lh lv xc yc num_fact opt thr = Ok F /\ length F = n /\
  straightens_hor F xc yc uh lh /\ straightens_ver F xc yc uv lv /\
  ((forall u, In u (uh ++ uv) -> u <> 0) -> distinct_values n (map (fun p => dist p (yc, xc)) (concat lh ++ concat lv)) -> F = P).
Proof.
  intros st polyfit minimize lstsq cs ds lh lv xc yc num_fact opt thr w uh uv P PF LS NF n Bh Bv Z0 ST E Hu LP NZ Ph Pv.
  pose proof (para_hor_exact st polyfit PF xc yc _ _ (bent_on_hor xc yc cs lh Bh)) as Eh.
  pose proof (para_ver_exact st polyfit PF xc yc _ _ (bent_on_ver xc yc ds lv Bv)) as Ev.
  rewrite (stored st) in Eh by (try assumption; intros c Hc; apply ST, in_app_iff; now left).
  rewrite (stored st) in Ev by (try assumption; intros c Hc; apply ST, in_app_iff; now right).
  pose proof (forward_call st polyfit minimize lstsq lh lv xc yc num_fact opt thr NF w uh uv _ _ _ _ E Eh Ev) as FC. fold n in FC.
  set (l := fwd_samples lh lv xc yc (map triple cs) (map triple ds) uh uv) in *.
  pose proof (Forall2_length _ _ _ Bh) as L1. pose proof (Forall2_length _ _ _ Bv) as L2.
  assert (L3 : length uh = length lh) by exact (Forall2_length _ _ _ Ph). assert (L4 : length uv = length lv) by exact (Forall2_length _ _ _ Pv).
  (* the sample of a dot *)
  assert (SH : forall i p, (i < length lh)%nat -> In p (nth i lh []) ->
     hor_sample xc yc (nth i (map triple cs) (0, 0, 0)) (nth i uh 0) p = (dist p (yc, xc), nth i uh 0 / (py p - yc))).
  { intros i p Hi Hp. unfold hor_sample. change (0, 0, 0) with (triple (0, 0)). rewrite map_nth. unfold triple. cbn [fst snd].
    assert (B : bent_hor xc yc (nth i cs (0, 0)) (nth i lh [])) by (apply F2_nth; [assumption|lia]).
    destruct B as [B _]. now rewrite <- (B p Hp). }
  assert (SV : forall i p, (i < length lv)%nat -> In p (nth i lv []) ->
     ver_sample xc yc (nth i (map triple ds) (0, 0, 0)) (nth i uv 0) p = (dist p (yc, xc), nth i uv 0 / (pxc p - xc))).
  { intros i p Hi Hp. unfold ver_sample. change (0, 0, 0) with (triple (0, 0)). rewrite map_nth. unfold triple. cbn [fst snd].
    assert (B : bent_ver xc yc (nth i ds (0, 0)) (nth i lv [])) by (apply F2_nth; [assumption|lia]).
    destruct B as [B _]. now rewrite <- (B p Hp). }
  assert (PH : forall i p, (i < length lh)%nat -> In p (nth i lh []) -> poly P (dist p (yc, xc)) * (py p - yc) = nth i uh 0).
  { intros i p Hi Hp. assert (Hi2 : (i < length uh)%nat) by lia. assert (B := F2_nth _ uh lh i 0 [] Ph Hi2 p Hp). cbn beta in B. rewrite radial_py in B. revert B. generalize (poly P (dist p (yc, xc)) * (py p - yc)) (nth i uh 0). intros; lra. }
  assert (PV : forall i p, (i < length lv)%nat -> In p (nth i lv []) -> poly P (dist p (yc, xc)) * (pxc p - xc) = nth i uv 0).
  { intros i p Hi Hp. assert (Hi2 : (i < length uv)%nat) by lia. assert (B := F2_nth _ uv lv i 0 [] Pv Hi2 p Hp). cbn beta in B. rewrite radial_px in B. revert B. generalize (poly P (dist p (yc, xc)) * (pxc p - xc)) (nth i uv 0). intros; lra. }
  assert (IH : forall i p, (i < length lh)%nat -> In p (nth i lh []) -> In p (concat lh ++ concat lv)).
  { intros i p Hi Hp. apply in_app_iff. left. apply in_concat. exists (nth i lh []). split; [now apply nth_In|assumption]. }
  assert (IV : forall i p, (i < length lv)%nat -> In p (nth i lv []) -> In p (concat lh ++ concat lv)).
  { intros i p Hi Hp. apply in_app_iff. right. apply in_concat. exists (nth i lv []). split; [now apply nth_In|assumption]. }
  (* P solves the system *)
  assert (XP : forall s, In s l -> poly P (fst s) = snd s).
  { intros s Hs. unfold l, fwd_samples in Hs. apply usable_in in Hs. destruct Hs as [Hs Nz]. apply in_app_iff in Hs.
    destruct Hs as [Hs|Hs]; apply line_samples_in in Hs; destruct Hs as [i [p [_ [Hi [Hi' [Hp ->]]]]]].
    - rewrite SH in * by assumption. cbn [fst snd] in *. rewrite <- (PH i p) in * by assumption.
      assert (py p - yc <> 0) by (intros Q; apply Nz; rewrite Q; unfold Rdiv; ring). field. assumption.
    - rewrite SV in * by assumption. cbn [fst snd] in *. rewrite <- (PV i p) in * by assumption.
      assert (pxc p - xc <> 0) by (intros Q; apply Nz; rewrite Q; unfold Rdiv; ring). field. assumption. }
  (* every dot of a line with u <> 0 is used *)
  assert (UH : forall i p, (i < length lh)%nat -> In p (nth i lh []) -> nth i uh 0 <> 0 -> In (dist p (yc, xc), nth i uh 0 / (py p - yc)) l).
  { intros i p Hi Hp Nz. unfold l, fwd_samples. apply usable_in. split.
    - apply in_app_iff. left. apply line_samples_in. exists i, p. rewrite map_length. repeat split; try lia; [assumption|]. symmetry. now apply SH.
    - cbn [snd]. rewrite <- (PH i p Hi Hp) in Nz |- *. intros Q. apply Nz.
      destruct (Req_dec (py p - yc) 0) as [Z|Z]; [rewrite Z; ring|]. exfalso. apply (NZ p); [now apply (IH i)|].
      rewrite <- Q. field. assumption. }
  assert (UV : forall i p, (i < length lv)%nat -> In p (nth i lv []) -> nth i uv 0 <> 0 -> In (dist p (yc, xc), nth i uv 0 / (pxc p - xc)) l).
  { intros i p Hi Hp Nz. unfold l, fwd_samples. apply usable_in. split.
    - apply in_app_iff. right. apply line_samples_in. exists i, p. rewrite map_length. repeat split; try lia; [assumption|]. symmetry. now apply SV.
    - cbn [snd]. rewrite <- (PV i p Hi Hp) in Nz |- *. intros Q. apply Nz.
      destruct (Req_dec (pxc p - xc) 0) as [Z|Z]; [rewrite Z; ring|]. exfalso. apply (NZ p); [now apply (IV i)|].
      rewrite <- Q. field. assumption. }
  assert (NE : l <> []).
  { assert (X : exists s, In s l); [|intros Q; rewrite Q in X; destruct X as [? []]]. destruct Hu as [u [Hu Nz]]. apply in_app_iff in Hu.
    destruct Hu as [Hu|Hu]; apply (In_nth _ _ 0) in Hu; destruct Hu as [i [Hi <-]].
    - assert (B : bent_hor xc yc (nth i cs (0, 0)) (nth i lh [])) by (apply F2_nth; [assumption|lia]).
      destruct B as [_ D]. destruct (nth i lh []) as [|p q] eqn:Q; [now apply distinct_values_ne in D|].
      eexists. apply (UH i p); [lia|rewrite Q; now left|assumption].
    - assert (B : bent_ver xc yc (nth i ds (0, 0)) (nth i lv [])) by (apply F2_nth; [assumption|lia]).
      destruct B as [_ D]. destruct (nth i lv []) as [|p q] eqn:Q; [now apply distinct_values_ne in D|].
      eexists. apply (UV i p); [lia|rewrite Q; now left|assumption]. }
  destruct (solve_total st lstsq LS n l NE) as [F SF]. exists F. split; [exact (eq_trans FC SF)|].
  pose proof (solve_best st lstsq LS n l F SF) as BP. pose proof (best_exact n l P F BP LP XP) as XF.
  split; [apply BP|]. split; [|split].
  - apply (F2_of_nth _ _ _ 0 []); [assumption|]. intros i Hi p Hp. rewrite radial_py. f_equal.
    destruct (Req_dec (nth i uh 0) 0) as [Z|Z].
    + rewrite Z. rewrite <- (PH i p) in Z by (try assumption; lia). apply Rmult_integral in Z.
      destruct Z as [Z|Z]; [exfalso; apply (NZ p); [apply (IH i); [lia|assumption]|assumption]|rewrite Z; ring].
    + specialize (XF _ (UH i p ltac:(lia) Hp Z)). cbn [fst snd] in XF. rewrite XF.
      assert (py p - yc <> 0) by (intros Q; apply Z; rewrite <- (PH i p ltac:(lia) Hp), Q; ring). field. assumption.
  - apply (F2_of_nth _ _ _ 0 []); [assumption|]. intros i Hi p Hp. rewrite radial_px. f_equal.
    destruct (Req_dec (nth i uv 0) 0) as [Z|Z].
    + rewrite Z. rewrite <- (PV i p) in Z by (try assumption; lia). apply Rmult_integral in Z.
      destruct Z as [Z|Z]; [exfalso; apply (NZ p); [apply (IV i); [lia|assumption]|assumption]|rewrite Z; ring].
    + specialize (XF _ (UV i p ltac:(lia) Hp Z)). cbn [fst snd] in XF. rewrite XF.
      assert (pxc p - xc <> 0) by (intros Q; apply Z; rewrite <- (PV i p ltac:(lia) Hp), Q; ring). field. assumption.
  - intros U D. apply (best_is n l P F BP LP XP). destruct D as [d [D1 [D2 D3]]]. exists d. split; [assumption|]. split; [|assumption].
    intros x Hx. specialize (D2 x Hx). apply in_map_iff in D2. destruct D2 as [p [<- Hp]]. apply in_app_iff in Hp.
    destruct Hp as [Hp|Hp]; apply in_concat in Hp; destruct Hp as [q [Hq Hp]]; apply (In_nth _ _ []) in Hq; destruct Hq as [i [Hi <-]].
    + apply in_map_iff. eexists. split; [|apply (UH i p); [assumption|assumption|]]; [reflexivity|].
      apply U, in_app_iff. left. apply nth_In. lia.
    + apply in_map_iff. eexists. split; [|apply (UV i p); [assumption|assumption|]]; [reflexivity|].
      apply U, in_app_iff. right. apply nth_In. lia.
Qed.
Print Assumptions C97_forward_exact.

(** The backward model: if the measured lines are the images of straight
    lines, at the undistorted positions, under the radial map of some P with
    the wanted number of coefficients (positive at the undistorted dots, so
    none is moved through the centre), the result maps the straight lines to
    the measured ones too; with enough distinct distances it is P. *)
Theorem C97_backward_exact : forall st polyfit minimize lstsq cs ds qh qv lh lv xc yc num_fact opt thr w uh uv P,
  polyfit_oracle polyfit -> lstsq_oracle lstsq -> (num_fact <= 32767)%Z -> let n := Z.to_nat (Z.max 1 num_fact) in
  let distorted G := map (map (radial_map G (yc, xc))) in
  lh = distorted P qh -> lv = distorted P qv ->
  Forall2 (bent_hor xc yc) cs lh -> Forall2 (bent_ver xc yc) ds lv ->
  st 0 = 0 -> (forall c, In c (cs ++ ds) -> st (fst c) = fst c /\ st (snd c) = snd c) ->
  @calc_undistor_intercept R (Rst st) polyfit minimize lh lv xc yc opt thr = Ok (w, (uh, uv)) ->
  Forall2 (fun u line => forall q, In q line -> py q = yc + u) uh qh ->
  Forall2 (fun u line => forall q, In q line -> pxc q = xc + u) uv qv ->
  (forall u, In u (uh ++ uv) -> u <> 0) -> (1 <= length (uh ++ uv))%nat ->
  length P = n -> (forall q, In q (concat qh ++ concat qv) -> 0 < poly P (dist q (yc, xc))) ->
  exists B, @calc_coef_backward R (Rst st) polyfit minimize lstsq lh lv xc yc num_fact opt thr = Ok B /\ length B = n /\
  distorted B qh = lh /\ distorted B qv = lv /\
  (distinct_values n (map (fun q => dist q (yc, xc)) (concat qh ++ concat qv)) -> B = P).
Proof.
  intros st polyfit minimize lstsq cs ds qh qv lh lv xc yc num_fact opt thr w uh uv P PF LS NF n distorted Dh Dv Bh Bv Z0 ST E Uh Uv NZ NE LP PP.
  pose proof (para_hor_exact st polyfit PF xc yc _ _ (bent_on_hor xc yc cs lh Bh)) as Eh.
  pose proof (para_ver_exact st polyfit PF xc yc _ _ (bent_on_ver xc yc ds lv Bv)) as Ev.
  rewrite (stored st) in Eh by (try assumption; intros c Hc; apply ST, in_app_iff; now left).
  rewrite (stored st) in Ev by (try assumption; intros c Hc; apply ST, in_app_iff; now right).
  pose proof (backward_call st polyfit minimize lstsq lh lv xc yc num_fact opt thr NF w uh uv _ _ _ _ E Eh Ev) as FC. fold n in FC.
  set (l := bwd_samples lh lv xc yc (map triple cs) (map triple ds) uh uv) in *.
  assert (L1 : length cs = length lh) by exact (Forall2_length _ _ _ Bh). assert (L2 : length ds = length lv) by exact (Forall2_length _ _ _ Bv).
  assert (L3 : length uh = length qh) by exact (Forall2_length _ _ _ Uh). assert (L4 : length uv = length qv) by exact (Forall2_length _ _ _ Uv).
  assert (L5 : length lh = length qh) by (rewrite Dh; apply map_length). assert (L6 : length lv = length qv) by (rewrite Dv; apply map_length).
  set (c0 := (yc, xc)) in *.
  assert (NH : forall i, nth i lh [] = map (radial_map P c0) (nth i qh [])).
  { intros i. rewrite Dh. exact (map_nth (map (radial_map P c0)) qh [] i). }
  assert (NV : forall i, nth i lv [] = map (radial_map P c0) (nth i qv [])).
  { intros i. rewrite Dv. exact (map_nth (map (radial_map P c0)) qv [] i). }
  assert (IH : forall i q, (i < length qh)%nat -> In q (nth i qh []) -> In q (concat qh ++ concat qv)).
  { intros i p Hi Hp. apply in_app_iff. left. apply in_concat. exists (nth i qh []). split; [now apply nth_In|assumption]. }
  assert (IV : forall i q, (i < length qv)%nat -> In q (nth i qv []) -> In q (concat qh ++ concat qv)).
  { intros i p Hi Hp. apply in_app_iff. right. apply in_concat. exists (nth i qv []). split; [now apply nth_In|assumption]. }
  assert (RD : forall q, In q (concat qh ++ concat qv) -> dist (radial_map P c0 q) c0 = poly P (dist q c0) * dist q c0).
  { intros q Hq. rewrite radial_dist. rewrite Rabs_pos_eq; [reflexivity|]. left. now apply PP. }
  (* the row of a dot *)
  assert (SH : forall i q, (i < length qh)%nat -> In q (nth i qh []) ->
     inverse_sample (hor_sample xc yc (nth i (map triple cs) (0, 0, 0)) (nth i uh 0) (radial_map P c0 q)) = (dist q c0, poly P (dist q c0))).
  { intros i q Hi Hq. assert (Hi2 : (i < length cs)%nat) by lia. assert (Hi3 : (i < length uh)%nat) by lia.
    assert (B := F2_nth _ cs lh i (0, 0) [] Bh Hi2). destruct B as [B _]. rewrite NH in B.
    assert (U := F2_nth _ uh qh i 0 [] Uh Hi3 q Hq). cbn beta in U.
    unfold inverse_sample, hor_sample. cbn [fst snd]. change (0, 0, 0) with (triple (0, 0)). rewrite map_nth. unfold triple. cbn [fst snd].
    rewrite <- (B (radial_map P c0 q)) by now apply in_map. fold c0. rewrite RD by now apply (IH i). 
    specialize (PP q (IH i q Hi Hq)). assert (Q : nth i uh 0 <> 0) by (apply NZ, in_app_iff; left; now apply nth_In).
    replace (py (radial_map P c0 q) - yc) with (poly P (dist q c0) * nth i uh 0) by (unfold c0; rewrite radial_py, U; ring).
    f_equal; field; split; lra. }
  assert (SV : forall i q, (i < length qv)%nat -> In q (nth i qv []) ->
     inverse_sample (ver_sample xc yc (nth i (map triple ds) (0, 0, 0)) (nth i uv 0) (radial_map P c0 q)) = (dist q c0, poly P (dist q c0))).
  { intros i q Hi Hq. assert (Hi2 : (i < length ds)%nat) by lia. assert (Hi3 : (i < length uv)%nat) by lia.
    assert (B := F2_nth _ ds lv i (0, 0) [] Bv Hi2). destruct B as [B _]. rewrite NV in B.
    assert (U := F2_nth _ uv qv i 0 [] Uv Hi3 q Hq). cbn beta in U.
    unfold inverse_sample, ver_sample. cbn [fst snd]. change (0, 0, 0) with (triple (0, 0)). rewrite map_nth. unfold triple. cbn [fst snd].
    rewrite <- (B (radial_map P c0 q)) by now apply in_map. fold c0. rewrite RD by now apply (IV i). 
    specialize (PP q (IV i q Hi Hq)). assert (Q : nth i uv 0 <> 0) by (apply NZ, in_app_iff; right; now apply nth_In).
    replace (pxc (radial_map P c0 q) - xc) with (poly P (dist q c0) * nth i uv 0) by (unfold c0; rewrite radial_px, U; ring).
    f_equal; field; split; lra. }
  assert (LL : forall s, In s l <-> exists q, In q (concat qh ++ concat qv) /\ s = (dist q c0, poly P (dist q c0))).
  { intros s. unfold l, bwd_samples. rewrite in_map_iff. split.
    - intros [s' [<- Hs]]. apply in_app_iff in Hs. destruct Hs as [Hs|Hs]; apply line_samples_in in Hs; destruct Hs as [i [p [_ [_ [Hi [Hp ->]]]]]].
      + rewrite NH in Hp. apply in_map_iff in Hp. destruct Hp as [q [<- Hq]]. assert (Hi' : (i < length qh)%nat) by (rewrite <- L5; exact Hi). exists q. split; [now apply (IH i)|now apply SH].
      + rewrite NV in Hp. apply in_map_iff in Hp. destruct Hp as [q [<- Hq]]. assert (Hi' : (i < length qv)%nat) by (rewrite <- L6; exact Hi). exists q. split; [now apply (IV i)|now apply SV].
    - intros [q [Hq ->]]. apply in_app_iff in Hq. destruct Hq as [Hq|Hq]; apply in_concat in Hq; destruct Hq as [ln [Hl Hq]];
        apply (In_nth _ _ []) in Hl; destruct Hl as [i [Hi <-]].
      + eexists. split; [apply (SH i q Hi Hq)|]. apply in_app_iff. left. apply line_samples_in. exists i, (radial_map P c0 q).
        rewrite map_length, NH. split; [rewrite L1, L5; exact Hi|]. split; [rewrite L3; exact Hi|]. split; [exact (eq_ind_r (fun k => (i < k)%nat) Hi L5)|]. split; [now apply in_map|reflexivity].
      + eexists. split; [apply (SV i q Hi Hq)|]. apply in_app_iff. right. apply line_samples_in. exists i, (radial_map P c0 q).
        rewrite map_length, NV. split; [rewrite L2, L6; exact Hi|]. split; [rewrite L4; exact Hi|]. split; [exact (eq_ind_r (fun k => (i < k)%nat) Hi L6)|]. split; [now apply in_map|reflexivity]. }
  assert (XP : forall s, In s l -> poly P (fst s) = snd s) by (intros s Hs; apply LL in Hs; destruct Hs as [q [_ ->]]; reflexivity).
  assert (NEl : l <> []).
  { assert (X : exists q, In q (concat qh ++ concat qv)).
    { destruct uh as [|u uh].
      - destruct uv as [|u uv]; [cbn in NE; lia|]. assert (Hi : (0 < length ds)%nat) by (cbn in L4; lia).
        destruct (F2_nth _ ds lv 0 (0, 0) [] Bv Hi) as [_ D]. rewrite NV in D. cbn [length] in L4.
        destruct (nth 0 qv []) as [|q z] eqn:Q; [now apply distinct_values_ne in D|]. exists q. apply (IV 0%nat); [lia|rewrite Q; now left].
      - assert (Hi : (0 < length cs)%nat) by (cbn in L3; lia).
        destruct (F2_nth _ cs lh 0 (0, 0) [] Bh Hi) as [_ D]. rewrite NH in D. cbn [length] in L3.
        destruct (nth 0 qh []) as [|q z] eqn:Q; [now apply distinct_values_ne in D|]. exists q. apply (IH 0%nat); [lia|rewrite Q; now left]. }
    destruct X as [q Hq]. intros Q. assert (Y : In (dist q c0, poly P (dist q c0)) l) by (apply LL; eauto). rewrite Q in Y. destruct Y. }
  destruct (solve_total st lstsq LS n l NEl) as [F SF]. exists F. split; [exact (eq_trans FC SF)|].
  pose proof (solve_best st lstsq LS n l F SF) as BP. pose proof (best_exact n l P F BP LP XP) as XF.
  assert (FP : forall q, In q (concat qh ++ concat qv) -> radial_map F c0 q = radial_map P c0 q).
  { intros q Hq. unfold radial_map. f_equal. f_equal. apply (XF (dist q c0, poly P (dist q c0))). apply LL. eauto. }
  split; [apply BP|]. split; [|split].
  - rewrite Dh. apply map_ext_in. intros ln Hl. apply map_ext_in. intros q Hq. apply FP. apply in_app_iff. left. apply in_concat. eauto.
  - rewrite Dv. apply map_ext_in. intros ln Hl. apply map_ext_in. intros q Hq. apply FP. apply in_app_iff. right. apply in_concat. eauto.
  - intros D. apply (best_is n l P F BP LP XP). destruct D as [d [D1 [D2 D3]]]. exists d. split; [assumption|]. split; [|assumption].
    intros x Hx. specialize (D2 x Hx). apply in_map_iff in D2. destruct D2 as [q [<- Hq]]. apply in_map_iff.
    exists (dist q c0, poly P (dist q c0)). split; [reflexivity|]. apply LL. eauto.
Qed.
Print Assumptions C97_backward_exact.

(** calc_coef_backward_from_forward returns the forward coefficients F and the
    B that best inverts them on the dots: B(F(r) r) should be 1/F(r) for a dot
    at distance r with F(r) <> 0.  If some polynomial with as many
    coefficients inverts F there, B does. *)
Theorem C97_backward_from_forward : forall st polyfit minimize lstsq lh lv xc yc num_fact opt thr F B,
  lstsq_oracle lstsq -> (num_fact <= 32767)%Z -> let n := Z.to_nat (Z.max 1 num_fact) in
  let dots := concat lh ++ concat lv in
  @calc_coef_backward_from_forward R (Rst st) polyfit minimize lstsq lh lv xc yc num_fact opt thr = Ok (F, B) ->
  @calc_coef_forward R (Rst st) polyfit minimize lstsq lh lv xc yc num_fact opt thr = Ok F /\
  best_poly n (map inverse_sample (usable (map (fun p => (dist p (yc, xc), poly F (dist p (yc, xc)))) dots))) B /\
  forall G, length G = n ->
    (forall p, In p dots -> let r := dist p (yc, xc) in poly F r <> 0 -> poly G (poly F r * r) * poly F r = 1) ->
    forall p, In p dots -> let r := dist p (yc, xc) in poly F r <> 0 -> poly B (poly F r * r) * poly F r = 1.
Proof.
  intros st polyfit minimize lstsq lh lv xc yc num_fact opt thr F B LS NF n dots H.
  unfold calc_coef_backward_from_forward in H.
  assert (NN : num_factors num_fact = n) by (unfold num_factors, n; rewrite wrap16_id by lia; f_equal; lia).
  assert (NN' : num_factors (wrap16 (Z.max num_fact 1)) = n).
  { rewrite wrap16_id by lia. unfold num_factors. rewrite wrap16_id by lia. unfold n. f_equal. lia. }
  assert (EF : @calc_coef_forward R (Rst st) polyfit minimize lstsq lh lv xc yc (wrap16 (Z.max num_fact 1)) opt thr =
               @calc_coef_forward R (Rst st) polyfit minimize lstsq lh lv xc yc num_fact opt thr).
  { unfold calc_coef_forward. now rewrite NN, NN'. }
  rewrite EF in H. destruct (@calc_coef_forward R (Rst st) polyfit minimize lstsq lh lv xc yc num_fact opt thr) as [F'|] eqn:E1; [|discriminate].
  cbn [bind] in H. rewrite NN in H. destruct (Nat.eqb_spec (length F') n) as [LF|]; [|discriminate]. cbn [negb] in H.
  destruct (@para_fit_hor R (Rst st) polyfit lh xc yc) as [[ch sh]|] eqn:Eh; [|discriminate].
  destruct (@para_fit_ver R (Rst st) polyfit lv xc yc) as [[cv sv]|] eqn:Ev; [|discriminate]. cbn [bind snd] in H.
  apply para_hor_lines in Eh. destruct Eh as [-> _]. apply para_ver_lines in Ev. destruct Ev as [-> _].
  match type of H with bind (solve_rows lstsq ?rows) _ = _ => set (rs := rows) in H end.
  destruct (solve_rows lstsq rs) as [B'|] eqn:SB; [|discriminate]. cbn [bind] in H. apply Ok_inj in H. apply pair_equal_spec in H. destruct H as [-> ->].
  set (l := map inverse_sample (usable (map (fun p => (dist p (yc, xc), poly F (dist p (yc, xc)))) dots))).
  assert (R1 : rs = map (@row_of (Rst st) n) l).
  { assert (IR : forall pts, concat (map (@inverse_row R (Rst st) n F) (map (@shiftp R (Rst st) xc yc) pts)) =
        map (@row_of (Rst st) n) (map inverse_sample (usable (map (fun p => (dist p (yc, xc), poly F (dist p (yc, xc)))) pts)))).
    { induction pts as [|p pts IH]; [reflexivity|]. cbn [map concat]. rewrite IH. unfold inverse_row at 1. rewrite (poly_value_R st), (radius_dist st).
      unfold usable at 2. cbn [filter snd]. change (@neqb R (Rst st)) with Req_bool. change (@n0 R (Rst st)) with 0.
      destruct (Req_bool (poly F (dist p (yc, xc))) 0); cbn [negb]; [reflexivity|]. cbn [map app]. f_equal.
      unfold row_of, inverse_sample. cbn [fst snd nmul ndiv Rst]. change (@n1 R (Rst st)) with 1. f_equal; [f_equal; ring|]. unfold Rdiv. ring. }
    assert (CC : forall ls : list (list (R * R)), concat (map (fun line => concat (map (@inverse_row R (Rst st) n F) line)) (map (map (@shiftp R (Rst st) xc yc)) ls)) =
        map (@row_of (Rst st) n) (map inverse_sample (usable (map (fun p => (dist p (yc, xc), poly F (dist p (yc, xc)))) (concat ls))))).
    { induction ls as [|a ls IH]; [reflexivity|]. cbn [map concat]. rewrite IH, IR, map_app, usable_app, !map_app. reflexivity. }
    unfold rs, l, dots. rewrite !CC, map_app, usable_app, !map_app. reflexivity. }
  rewrite R1 in SB. pose proof (solve_best st lstsq LS n l B SB) as BP. split; [reflexivity|]. split; [exact BP|].
  intros G LG HG p Hp r Hr.
  assert (U : forall s, In s l -> exists q, In q dots /\ poly F (dist q (yc, xc)) <> 0 /\ s = (dist q (yc, xc) * poly F (dist q (yc, xc)), / poly F (dist q (yc, xc)))).
  { intros s Hs. unfold l in Hs. apply in_map_iff in Hs. destruct Hs as [t [<- Ht]]. apply usable_in in Ht. destruct Ht as [Ht Nz].
    apply in_map_iff in Ht. destruct Ht as [q [<- Hq]]. exists q. split; [assumption|]. split; [exact Nz|reflexivity]. }
  assert (X : poly B (fst (inverse_sample (r, poly F r))) = snd (inverse_sample (r, poly F r))).
  { apply (best_exact n l G B BP LG).
    - intros s Hs. destruct (U s Hs) as [q [Hq [Nq ->]]]. cbn [fst snd]. specialize (HG q Hq Nq). cbn zeta in HG.
      apply (Rmult_eq_reg_r (poly F (dist q (yc, xc)))); [|assumption]. rewrite (Rmult_comm (dist q (yc, xc))), HG. field. assumption.
    - unfold l. apply in_map. apply usable_in. split; [|exact Hr]. apply in_map_iff. exists p. split; [reflexivity|assumption]. }
  cbn [inverse_sample fst snd] in X. rewrite (Rmult_comm r) in X. rewrite X. field. exact Hr.
Qed.
Print Assumptions C97_backward_from_forward.

(** What the user does: correct the measured lines with the forward model. *)
Corollary C97_corrected_lines : forall F xc yc uh uv lh lv,
  straightens_hor F xc yc uh lh -> straightens_ver F xc yc uv lv ->
  let corrected lines := map snd (@unwarp_line_forward R Rex (map (pair DF64) lines) xc yc F) in
  Forall2 (fun u line => forall q, In q line -> py q = yc + u) uh (corrected lh) /\
  Forall2 (fun u line => forall q, In q line -> pxc q = xc + u) uv (corrected lv).
Proof.
  intros F xc yc uh uv lh lv H V corrected.
  assert (C : forall lines, corrected lines = map (map (radial_map F (yc, xc))) lines).
  { assert (G : forall l m : list (R * R), Forall2 (fun p q => q = radial_map F (yc, xc) p) l m -> m = map (radial_map F (yc, xc)) l).
    { intros l m Q. induction Q as [|p q l m -> Q IH]; [reflexivity|]. cbn [map]. now rewrite IH. }
    intros lines. unfold corrected. pose proof (C01_forward_points (map (pair DF64) lines) xc yc F) as P.
    assert (D : Forall (fun l : dtype * list (R * R) => fst l = DF64) (map (pair DF64) lines)) by (apply Forall_map, Forall_forall; reflexivity).
    specialize (P D). revert P. generalize (@unwarp_line_forward R Rex (map (pair DF64) lines) xc yc F). clear -G.
    induction lines as [|l lines IH]; intros o P; inversion P as [|? ? ? ? [_ Q] P']; subst; [reflexivity|]. cbn [map]. rewrite (IH _ P'). f_equal.
    cbn [snd] in Q. exact (G _ _ Q). }
  rewrite !C. split.
  - clear -H. induction H as [|u l us ls H F2 IH]; cbn [map]; constructor; [|exact IH]. intros q Hq. apply in_map_iff in Hq. destruct Hq as [p [<- Hp]]. now apply H.
  - clear -V. induction V as [|u l us ls H F2 IH]; cbn [map]; constructor; [|exact IH]. intros q Hq. apply in_map_iff in Hq. destruct Hq as [p [<- Hp]]. now apply H.
Qed.
Print Assumptions C97_corrected_lines.

(** *** Example: a bent grid *)
Lemma poly_app0 P x : poly (P ++ [0]) x = poly P x.
Proof. induction P as [|a P IH]; cbn [app poly]; [ring|]. now rewrite IH. Qed.
Lemma root_poly ds : exists N, length N = S (length ds) /\ (forall x, In x ds -> poly N x = 0) /\ (forall x, ~ In x ds -> poly N x <> 0).
Proof.
  induction ds as [|a ds [N [L [Z NZ]]]].
  - exists [1]. split; [reflexivity|]. split; [intros x []|]. intros x _. cbn. lra.
  - assert (LL : length (0 :: N) = length (N ++ [0])) by (rewrite app_length; cbn; lia).
    exists (vlin 1 (0 :: N) (- a) (N ++ [0])).
    assert (E : forall x, poly (vlin 1 (0 :: N) (- a) (N ++ [0])) x = (x - a) * poly N x).
    { intros x. rewrite poly_vlin by exact LL. rewrite poly_app0. cbn [poly]. ring. }
    split; [|split].
    + rewrite (vlin_length _ _ _ _ (S (length N))); [cbn [length]; now rewrite L|reflexivity|rewrite app_length; cbn; lia].
    + intros x [->|Hx]; rewrite E; [ring|]. rewrite (Z x Hx). ring.
    + intros x Hx. rewrite E. apply Rmult_integral_contrapositive_currified.
      * intros Q. apply Hx. left. lra.
      * apply NZ. intros Q. apply Hx. now right.
Qed.
Lemma interpolate (l : list (R * R)) : NoDup (map fst l) -> exists P, length P = length l /\ forall s, In s l -> poly P (fst s) = snd s.
Proof.
  induction l as [|s l IH]; intros D.
  - exists []. split; [reflexivity|]. intros s [].
  - cbn [map] in D. inversion D as [|? ? D1 D2]; subst. destruct (IH D2) as [P [LP HP]]. destruct (root_poly (map fst l)) as [N [LN [Z NZ]]].
    rewrite map_length in LN. specialize (NZ _ D1). set (k := (snd s - poly P (fst s)) / poly N (fst s)).
    assert (LL : length (P ++ [0]) = length N) by (rewrite app_length; cbn; lia).
    exists (vlin 1 (P ++ [0]) k N).
    assert (E : forall x, poly (vlin 1 (P ++ [0]) k N) x = poly P x + k * poly N x).
    { intros x. rewrite poly_vlin by exact LL. rewrite poly_app0. ring. }
    split; [rewrite (vlin_length _ _ _ _ (S (length l))); [reflexivity|rewrite app_length; cbn; lia|assumption]|].
    intros t [->|Ht]; rewrite E.
    + unfold k. field. assumption.
    + rewrite (HP t Ht). rewrite Z by (apply in_map; assumption). ring.
Qed.
(** For bent lines at equal distances the undistorted positions are those of
    the lines (C29). *)
Lemma bent_positions polyfit minimize cs ds lh lv xc yc opt thr a e b f : polyfit_oracle polyfit -> minimize_oracle minimize ->
  Forall2 (bent_hor xc yc) cs lh -> Forall2 (bent_ver xc yc) ds lv -> (4 <= length cs)%nat -> (4 <= length ds)%nat -> e <> 0 -> f <> 0 ->
  equidistant a e (map snd cs) -> equidistant b f (map snd ds) -> 0 <= thr ->
  @calc_undistor_intercept R Rexact polyfit minimize lh lv xc yc opt thr = Ok (false, (map snd cs, map snd ds)).
Proof.
  intros PF MO Bh Bv N1 N2 He Hf Ec Ed Ht.
  pose proof (para_hor_exact (fun x => x) polyfit PF xc yc _ _ (bent_on_hor xc yc cs lh Bh)) as Eh.
  pose proof (para_ver_exact (fun x => x) polyfit PF xc yc _ _ (bent_on_ver xc yc ds lv Bv)) as Ev.
  rewrite (stored (fun x => x)) in Eh by auto. rewrite (stored (fun x => x)) in Ev by auto.
  apply para_hor_fits in Eh. apply para_ver_fits in Ev.
  assert (Q : forall l : list (R * R), map snd (map triple l) = map snd l) by (intros l; rewrite map_map; reflexivity).
  pose proof (C29_unchanged (fun x => x) polyfit minimize lh lv (map triple cs) (map triple ds) xc yc opt thr a e b f PF MO ltac:(reflexivity)) as C.
  rewrite <- (Q cs), <- (Q ds) in *. apply C; try assumption.
  - intros l Hl. apply in_app_iff in Hl. destruct Hl as [Hl|Hl]; apply (In_nth _ _ []) in Hl; destruct Hl as [i [Hi <-]].
    + assert (Hi' : (i < length cs)%nat) by (rewrite (Forall2_length _ _ _ Bh); exact Hi).
      destruct (F2_nth _ cs lh i (0, 0) [] Bh Hi') as [_ D]. intros Z. rewrite Z in D. now apply distinct_values_ne in D.
    + assert (Hi' : (i < length ds)%nat) by (rewrite (Forall2_length _ _ _ Bv); exact Hi).
      destruct (F2_nth _ ds lv i (0, 0) [] Bv Hi') as [_ D]. intros Z. rewrite Z in D. now apply distinct_values_ne in D.
  - rewrite <- (Forall2_length _ _ _ Bh). exact N1.
  - rewrite <- (Forall2_length _ _ _ Bv). exact N2.
Qed.
(** Lines at -3, -1, 1, 3 from the centre bent outwards: the dots at 0 stay,
    those at -1 and 1 move away by a third. *)
Definition ex_cs : list (R * R) := [(-1, -3); (-1/3, -1); (1/3, 1); (1, 3)].
Definition ex_hor : list (list (R * R)) := map (fun c => [(snd c * 4/3, -1); (snd c, 0); (snd c * 4/3, 1)]) ex_cs.
Definition ex_ver : list (list (R * R)) := map (map (fun p => (snd p, fst p))) ex_hor.
Lemma ex_bent : Forall2 (bent_hor 0 0) ex_cs ex_hor /\ Forall2 (bent_ver 0 0) ex_cs ex_ver.
Proof.
  split; unfold ex_ver, ex_hor, ex_cs; cbn [map fst snd]; repeat (apply Forall2_cons || apply Forall2_nil); (split;
    [intros p [<-|[<-|[<-|[]]]]; unfold py, pxc; cbn [fst snd]; field|unfold py, pxc; cbn [map fst snd]; distinct_lit]).
Qed.
Lemma ex_positions opt : @calc_undistor_intercept R Rexact pf_R min_R ex_hor ex_ver 0 0 opt (1/10) = Ok (false, ([-3; -1; 1; 3], [-3; -1; 1; 3])).
Proof.
  destruct ex_bent as [Bh Bv].
  assert (E : equidistant (-3) 2 (map snd ex_cs)) by (intros [|[|[|[|i]]]] H; cbn in H; try lia; cbn; ring).
  apply (bent_positions pf_R min_R ex_cs ex_cs _ _ 0 0 opt (1/10) (-3) 2 (-3) 2 pf_R_ok min_R_ok Bh Bv); try assumption; cbn; try lia; lra.
Qed.
Lemma ex_dist y x d : 0 <= d -> d * d = y * y + x * x -> dist (y, x) (0, 0) = d.
Proof.
  intros H E. unfold dist, py, pxc. cbn [fst snd]. match goal with |- sqrt ?e = _ => replace e with (d * d) by (rewrite E; ring) end. now apply sqrt_square.
Qed.
Lemma ex_nodup : NoDup [1; 3; 5/3; sqrt 17].
Proof.
  assert (4 < sqrt 17) by (rewrite <- (sqrt_square 4) by lra; apply sqrt_lt_1; lra).
  repeat constructor; cbn [In]; intuition lra.
Qed.
Ltac ex_dots := intros p Hp; repeat (destruct Hp as [<-|Hp]); try destruct Hp.
(** The dots are 1, 3, 5/3 or sqrt 17 away from the centre. *)
Lemma ex_radii p : In p (concat ex_hor ++ concat ex_ver) ->
  let r := dist p (0, 0) in
  (r = 1 \/ r = 3) /\ (py p = 0 \/ pxc p = 0) \/ r = 5/3 /\ (Rabs (py p) = 1 \/ Rabs (pxc p) = 1) \/ r = sqrt 17 /\ (Rabs (py p) = 1 \/ Rabs (pxc p) = 1).
Proof.
  assert (S17 : sqrt 17 * sqrt 17 = 17) by (apply sqrt_sqrt; lra). assert (S0 : 0 <= sqrt 17) by apply sqrt_pos.
  revert p. unfold ex_ver, ex_hor, ex_cs. cbn [map concat app fst snd]. ex_dots; cbn zeta;
  match goal with |- context [dist (?y, ?x) (0, 0)] =>
    first [ rewrite (ex_dist y x 1) by lra; left; unfold py, pxc; cbn [fst snd]; split; [now left|lra]
          | rewrite (ex_dist y x 3) by lra; left; unfold py, pxc; cbn [fst snd]; split; [now right|lra]
          | rewrite (ex_dist y x (5/3)) by lra; right; left; split; [reflexivity|]
          | rewrite (ex_dist y x (sqrt 17)) by lra; right; right; split; [reflexivity|] ] end;
  unfold py, pxc; cbn [fst snd]; unfold Rabs; repeat destruct (Rcase_abs _); try lra; solve [left; lra | right; lra].
Qed.
(** With four coefficients the calibration finds the polynomial which is 1 at
    the distances 1 and 3 and 3/4 at 5/3 and sqrt 17, and correcting the lines
    with it gives straight lines at equal distances. *)
Example C97_forward_ex : exists F, @calc_coef_forward R Rexact pf_R min_R ls_R ex_hor ex_ver 0 0 4 false (1/10) = Ok F /\
  length F = 4%nat /\ poly F 1 = 1 /\ poly F 3 = 1 /\ poly F (5/3) = 3/4 /\ poly F (sqrt 17) = 3/4 /\
  straightens_hor F 0 0 [-3; -1; 1; 3] ex_hor /\ straightens_ver F 0 0 [-3; -1; 1; 3] ex_ver.
Proof.
  destruct (interpolate [(1, 1); (3, 1); (5/3, 3/4); (sqrt 17, 3/4)] ex_nodup) as [P [LP HP]].
  assert (P1 : poly P 1 = 1) by (apply (HP (1, 1)); cbn; auto). assert (P2 : poly P 3 = 1) by (apply (HP (3, 1)); cbn; auto).
  assert (P3 : poly P (5/3) = 3/4) by (apply (HP (5/3, 3/4)); cbn; auto). assert (P4 : poly P (sqrt 17) = 3/4) by (apply (HP (sqrt 17, 3/4)); cbn; auto 6).
  assert (S17 : sqrt 17 * sqrt 17 = 17) by (apply sqrt_sqrt; lra). assert (S0 : 0 <= sqrt 17) by apply sqrt_pos.
  destruct ex_bent as [Bh Bv].
  assert (SH : straightens_hor P 0 0 [-3; -1; 1; 3] ex_hor).
  { unfold straightens_hor, ex_hor, ex_cs. cbn [map fst snd]. repeat (apply Forall2_cons || apply Forall2_nil); ex_dots; rewrite radial_py;
      match goal with |- context [dist (?y, ?x) (0, 0)] =>
      first [ rewrite (ex_dist y x 1) by lra; rewrite P1 | rewrite (ex_dist y x 3) by lra; rewrite P2
            | rewrite (ex_dist y x (5/3)) by lra; rewrite P3 | rewrite (ex_dist y x (sqrt 17)) by lra; rewrite P4 ] end; unfold py; cbn [fst]; lra. }
  assert (SV : straightens_ver P 0 0 [-3; -1; 1; 3] ex_ver).
  { unfold straightens_ver, ex_ver, ex_hor, ex_cs. cbn [map fst snd]. repeat (apply Forall2_cons || apply Forall2_nil); ex_dots; rewrite radial_px;
      match goal with |- context [dist (?y, ?x) (0, 0)] =>
      first [ rewrite (ex_dist y x 1) by lra; rewrite P1 | rewrite (ex_dist y x 3) by lra; rewrite P2
            | rewrite (ex_dist y x (5/3)) by lra; rewrite P3 | rewrite (ex_dist y x (sqrt 17)) by lra; rewrite P4 ] end; unfold pxc; cbn [snd]; lra. }
  destruct (C97_forward_exact (fun x => x) pf_R min_R ls_R ex_cs ex_cs ex_hor ex_ver 0 0 4 false (1/10) false [-3; -1; 1; 3] [-3; -1; 1; 3] P
    pf_R_ok ls_R_ok ltac:(lia) Bh Bv eq_refl ltac:(auto) (ex_positions false)) as [F [E [LF [FH [FV U]]]]].
  - exists 3. split; [cbn; auto 6|lra].
  - exact LP.
  - intros p Hp. destruct (ex_radii p Hp) as [[[->| ->] _]|[[-> _]|[-> _]]]; lra.
  - exact SH.
  - exact SV.
  - assert (FP : F = P).
    { apply U.
      - intros u Hu. cbn [In app] in Hu. intuition lra.
      - exists [1; 3; 5/3; sqrt 17]. split; [exact ex_nodup|]. split; [|cbn; lia].
        intros x Hx. apply in_map_iff. unfold ex_ver, ex_hor, ex_cs. cbn [map concat app fst snd].
        destruct Hx as [<-|[<-|[<-|[<-|[]]]]].
        + exists (1, 0). split; [apply ex_dist; lra|cbn; auto 30].
        + exists (3, 0). split; [apply ex_dist; lra|cbn; auto 30].
        + exists (1 * 4/3, 1). split; [apply ex_dist; lra|cbn; auto 30].
        + exists (3 * 4/3, 1). split; [apply ex_dist; lra|cbn; auto 30]. }
    subst F. exists P. auto 10.
Qed.
(** Backward: the straight lines with dots at 0 and -3/4, 3/4 are mapped to
    the bent ones by a factor 1 at the distances 1 and 3 and 4/3 at 5/4 and
    (3/4) sqrt 17. *)
Definition ex_straight_hor : list (list (R * R)) := map (fun c => [(c, -3/4); (c, 0); (c, 3/4)]) [-3; -1; 1; 3].
Definition ex_straight_ver : list (list (R * R)) := map (map (fun p => (snd p, fst p))) ex_straight_hor.
Lemma ex_nodup_back : NoDup [1; 3; 5/4; 3/4 * sqrt 17].
Proof.
  assert (4 < sqrt 17) by (rewrite <- (sqrt_square 4) by lra; apply sqrt_lt_1; lra).
  assert (sqrt 17 < 5) by (rewrite <- (sqrt_square 5) by lra; apply sqrt_lt_1; lra).
  repeat constructor; cbn [In]; intuition lra.
Qed.
Example C97_backward_ex : exists B, @calc_coef_backward R Rexact pf_R min_R ls_R ex_hor ex_ver 0 0 4 false (1/10) = Ok B /\
  length B = 4%nat /\ poly B 1 = 1 /\ poly B 3 = 1 /\ poly B (5/4) = 4/3 /\ poly B (3/4 * sqrt 17) = 4/3 /\
  map (map (radial_map B (0, 0))) ex_straight_hor = ex_hor /\ map (map (radial_map B (0, 0))) ex_straight_ver = ex_ver.
Proof.
  destruct (interpolate [(1, 1); (3, 1); (5/4, 4/3); (3/4 * sqrt 17, 4/3)] ex_nodup_back) as [P [LP HP]].
  assert (P1 : poly P 1 = 1) by (apply (HP (1, 1)); cbn; auto). assert (P2 : poly P 3 = 1) by (apply (HP (3, 1)); cbn; auto).
  assert (P3 : poly P (5/4) = 4/3) by (apply (HP (5/4, 4/3)); cbn; auto). assert (P4 : poly P (3/4 * sqrt 17) = 4/3) by (apply (HP (3/4 * sqrt 17, 4/3)); cbn; auto 6).
  assert (S17 : sqrt 17 * sqrt 17 = 17) by (apply sqrt_sqrt; lra). assert (S0 : 0 <= sqrt 17) by apply sqrt_pos.
  assert (RM : forall p q k, 0 <= k -> k * k = py p * py p + pxc p * pxc p -> q = (0 + poly P k * (py p - 0), 0 + poly P k * (pxc p - 0)) -> radial_map P (0, 0) p = q).
  { intros [y x] q k Hk E ->. unfold radial_map. rewrite (ex_dist y x k Hk E). reflexivity. }
  destruct ex_bent as [Bh Bv].
  assert (DH : ex_hor = map (map (radial_map P (0, 0))) ex_straight_hor).
  { unfold ex_hor, ex_straight_hor, ex_cs. cbn [map fst snd]. symmetry. unfold pt. repeat (apply f_equal2; try reflexivity);
      first [ apply (RM _ _ 1); unfold py, pxc; cbn [fst snd]; [lra|lra|rewrite P1; f_equal; lra]
            | apply (RM _ _ 3); unfold py, pxc; cbn [fst snd]; [lra|lra|rewrite P2; f_equal; lra]
            | apply (RM _ _ (5/4)); unfold py, pxc; cbn [fst snd]; [lra|lra|rewrite P3; f_equal; lra]
            | apply (RM _ _ (3/4 * sqrt 17)); unfold py, pxc; cbn [fst snd]; [lra|lra|rewrite P4; f_equal; lra] ]. }
  assert (DV : ex_ver = map (map (radial_map P (0, 0))) ex_straight_ver).
  { unfold ex_ver, ex_hor, ex_straight_ver, ex_straight_hor, ex_cs. cbn [map fst snd]. symmetry. unfold pt. repeat (apply f_equal2; try reflexivity);
      first [ apply (RM _ _ 1); unfold py, pxc; cbn [fst snd]; [lra|lra|rewrite P1; f_equal; lra]
            | apply (RM _ _ 3); unfold py, pxc; cbn [fst snd]; [lra|lra|rewrite P2; f_equal; lra]
            | apply (RM _ _ (5/4)); unfold py, pxc; cbn [fst snd]; [lra|lra|rewrite P3; f_equal; lra]
            | apply (RM _ _ (3/4 * sqrt 17)); unfold py, pxc; cbn [fst snd]; [lra|lra|rewrite P4; f_equal; lra] ]. }
  destruct (C97_backward_exact (fun x => x) pf_R min_R ls_R ex_cs ex_cs ex_straight_hor ex_straight_ver ex_hor ex_ver 0 0 4 false (1/10) false
    [-3; -1; 1; 3] [-3; -1; 1; 3] P pf_R_ok ls_R_ok ltac:(lia) DH DV Bh Bv eq_refl ltac:(auto) (ex_positions false)) as [B [E [LB [BH [BV U]]]]].
  - unfold ex_straight_hor. cbn [map]. repeat (apply Forall2_cons || apply Forall2_nil); ex_dots; unfold py; cbn [fst]; lra.
  - unfold ex_straight_ver, ex_straight_hor. cbn [map fst snd]. repeat (apply Forall2_cons || apply Forall2_nil); ex_dots; unfold pxc; cbn [snd]; lra.
  - intros u Hu. cbn [In app] in Hu. intuition lra.
  - cbn. lia.
  - exact LP.
  - unfold ex_straight_ver, ex_straight_hor. cbn [map concat app fst snd]. ex_dots;
      match goal with |- context [dist (?y, ?x) (0, 0)] =>
      first [ rewrite (ex_dist y x 1) by lra; rewrite P1 | rewrite (ex_dist y x 3) by lra; rewrite P2
            | rewrite (ex_dist y x (5/4)) by lra; rewrite P3 | rewrite (ex_dist y x (3/4 * sqrt 17)) by lra; rewrite P4 ] end; lra.
  - assert (BP : B = P).
    { apply U. exists [1; 3; 5/4; 3/4 * sqrt 17]. split; [exact ex_nodup_back|]. split; [|cbn; lia].
      intros x Hx. apply in_map_iff. unfold ex_straight_ver, ex_straight_hor. cbn [map concat app fst snd].
      destruct Hx as [<-|[<-|[<-|[<-|[]]]]].
      + exists (1, 0). split; [apply ex_dist; lra|cbn; auto 30].
      + exists (3, 0). split; [apply ex_dist; lra|cbn; auto 30].
      + exists (1, 3/4). split; [apply ex_dist; lra|cbn; auto 30].
      + exists (3, 3/4). split; [apply ex_dist; lra|cbn; auto 30]. }
    subst B. exists P. auto 10.
Qed.
