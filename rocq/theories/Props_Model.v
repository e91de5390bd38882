(** C136: a slightly wrong model corrects slightly wrong. *)
From Coq Require Import Reals ZArith List Lra Lia.
From Flocq Require Import Core.
From Verif Require Import Base Num Img Post Spec Lsq NumFacts PostLines PostImg PostPersp Props_Post RoundFacts Props_Round Props_Scene Props_Marks.
Import ListNotations.
Local Open Scope R_scope.

(** The absolute differences of two lists of coefficients; a missing coefficient
    counts as zero. *)
Fixpoint coef_gaps (F G : list R) : list R :=
  match F, G with
  | a :: F', b :: G' => Rabs (b - a) :: coef_gaps F' G'
  | _, [] => map Rabs F
  | [], _ => map Rabs G
  end.
(** |a1| + 2 |a2| r + 3 |a3| r^2 + ...: the most the polynomial can rise between
    radii up to r. *)
Fixpoint rise (F : list R) (r : R) : R :=
  match F with [] => 0 | _ :: l => poly (map Rabs l) r + r * rise l r end.
(** How far apart the corrected positions of q can be, with coefficients F and
    centre c, or G and d. *)
Definition model_error (F G : list R) (c d q : pt) : R :=
  let r := Rmax (dist q c) (dist q d) in
  dist c d * Rabs (1 - poly G (dist q d)) + dist q c * (poly (coef_gaps F G) r + dist c d * rise F r).

Lemma dist_tri p q s : dist p s <= dist p q + dist q s.
Proof.
  assert (E : forall a b : pt, dist a b = dist_euc (py a) (pxc a) (py b) (pxc b)) by reflexivity. rewrite !E. apply triangle.
Qed.
Lemma dist_flip p q : dist p q = dist q p.
Proof. unfold dist. f_equal. ring. Qed.
Lemma poly_abs_pos F r : 0 <= r -> 0 <= poly (map Rabs F) r.
Proof. intros Hr. induction F as [|a F IH]; cbn [map poly]; [lra|]. pose proof (Rabs_pos a). assert (0 <= r * poly (map Rabs F) r) by (apply Rmult_le_pos; assumption). lra. Qed.
Lemma poly_abs F r s : 0 <= r <= s -> Rabs (poly F r) <= poly (map Rabs F) s.
Proof.
  intros H. induction F as [|a F IH]; cbn [map poly]; [rewrite Rabs_R0; lra|]. eapply Rle_trans; [apply Rabs_triang|]. apply Rplus_le_compat_l. rewrite Rabs_mult, (Rabs_pos_eq r) by lra.
  apply Rmult_le_compat; [lra|apply Rabs_pos|lra|exact IH].
Qed.
Lemma poly_gaps F : forall G r s, 0 <= r <= s -> Rabs (poly G r - poly F r) <= poly (coef_gaps F G) s.
Proof.
  induction F as [|a F IH]; intros [|b G] r s H; cbn [coef_gaps].
  - cbn [poly map]. rewrite Rminus_diag_eq by reflexivity. rewrite Rabs_R0. lra.
  - cbn [poly]. rewrite Rminus_0_r. exact (poly_abs (b :: G) r s H).
  - change (poly [] r) with 0. replace (0 - poly (a :: F) r) with (- poly (a :: F) r) by ring. rewrite Rabs_Ropp. now apply poly_abs.
  - cbn [poly]. replace (b + r * poly G r - (a + r * poly F r)) with ((b - a) + r * (poly G r - poly F r)) by ring. eapply Rle_trans; [apply Rabs_triang|]. apply Rplus_le_compat_l.
    rewrite Rabs_mult, (Rabs_pos_eq r) by lra. apply Rmult_le_compat; [lra|apply Rabs_pos|lra|now apply IH].
Qed.
Lemma rise_pos F r : 0 <= r -> 0 <= rise F r.
Proof. intros Hr. induction F as [|a F IH]; cbn [rise]; [lra|]. pose proof (poly_abs_pos F r Hr). assert (0 <= r * rise F r) by (apply Rmult_le_pos; assumption). lra. Qed.
Lemma poly_rise F r s t : 0 <= r <= t -> 0 <= s <= t -> Rabs (poly F s - poly F r) <= Rabs (s - r) * rise F t.
Proof.
  intros Hr Hs. induction F as [|a F IH]; cbn [poly rise]; [rewrite Rminus_diag_eq by reflexivity; rewrite Rabs_R0; lra|].
  replace (a + s * poly F s - (a + r * poly F r)) with ((s - r) * poly F s + r * (poly F s - poly F r)) by ring. eapply Rle_trans; [apply Rabs_triang|]. rewrite !Rabs_mult, (Rabs_pos_eq r) by lra.
  rewrite Rmult_plus_distr_l. apply Rplus_le_compat; [apply Rmult_le_compat_l; [apply Rabs_pos|now apply poly_abs]|].
  apply Rle_trans with (r * (Rabs (s - r) * rise F t)); [apply Rmult_le_compat_l; [lra|exact IH]|].
  replace (Rabs (s - r) * (t * rise F t)) with (t * (Rabs (s - r) * rise F t)) by ring. apply Rmult_le_compat_r; [apply Rmult_le_pos; [apply Rabs_pos|apply rise_pos; lra]|lra].
Qed.
Lemma norm_add a b c d : sqrt ((a + c) * (a + c) + (b + d) * (b + d)) <= sqrt (a * a + b * b) + sqrt (c * c + d * d).
Proof.
  pose proof (dist_tri (a + c, b + d) (c, d) (0, 0)) as T. unfold dist, py, pxc in T. cbn [fst snd] in T.
  replace (a + c - 0) with (a + c) in T by ring. replace (b + d - 0) with (b + d) in T by ring. replace (a + c - c) with a in T by ring. replace (b + d - d) with b in T by ring. rewrite !Rminus_0_r in T. exact T.
Qed.
Lemma norm_scale k a b : sqrt ((k * a) * (k * a) + (k * b) * (k * b)) = Rabs k * sqrt (a * a + b * b).
Proof. replace (k * a * (k * a) + k * b * (k * b)) with (k² * (a * a + b * b)) by (unfold Rsqr; ring). rewrite sqrt_mult; [now rewrite sqrt_Rsqr_abs|apply Rle_0_sqr|]. apply Rplus_le_le_0_compat; apply Rle_0_sqr. Qed.

(** Positions. *)
Theorem C136_positions : forall F G c d q, dist (radial_map F c q) (radial_map G d q) <= model_error F G c d q.
Proof.
  intros F G c d q. unfold model_error. set (r := dist q c). set (s := dist q d). set (t := Rmax r s).
  assert (Hr : 0 <= r <= t) by (split; [apply dist_pos|apply Rmax_l]). assert (Hs : 0 <= s <= t) by (split; [apply dist_pos|apply Rmax_r]).
  assert (E : dist (radial_map F c q) (radial_map G d q) =
    sqrt (((1 - poly G s) * (py c - py d) + (poly F r - poly G s) * (py q - py c)) * ((1 - poly G s) * (py c - py d) + (poly F r - poly G s) * (py q - py c)) +
          ((1 - poly G s) * (pxc c - pxc d) + (poly F r - poly G s) * (pxc q - pxc c)) * ((1 - poly G s) * (pxc c - pxc d) + (poly F r - poly G s) * (pxc q - pxc c)))).
  { unfold radial_map. fold r. fold s. unfold dist, padd, pscale, psub, py, pxc. cbn [fst snd]. f_equal. ring. }
  rewrite E. eapply Rle_trans; [apply norm_add|]. rewrite !norm_scale. fold (dist c d). fold (dist q c). fold r.
  rewrite (Rmult_comm (Rabs (1 - poly G s))). apply Rplus_le_compat_l. rewrite Rmult_comm. apply Rmult_le_compat_l; [lra|].
  replace (poly F r - poly G s) with (- ((poly G s - poly F s) + (poly F s - poly F r))) by ring. rewrite Rabs_Ropp. eapply Rle_trans; [apply Rabs_triang|].
  apply Rplus_le_compat; [now apply poly_gaps|]. eapply Rle_trans; [now apply (poly_rise F r s t)|]. apply Rmult_le_compat_r; [apply rise_pos; lra|].
  unfold r, s. apply Rabs_le. pose proof (dist_tri q c d). pose proof (dist_tri q d c). rewrite (dist_flip d c) in *. lra.
Qed.
Print Assumptions C136_positions.

(** Points. *)
Theorem C136_points : forall F G c d lines, Forall (fun l => fst l = DF64) lines ->
  let out := @unwarp_line_forward R Rex lines (pxc c) (py c) F in let out' := @unwarp_line_forward R Rex lines (pxc d) (py d) G in
  length out = length lines /\ length out' = length lines /\
  forall k l, nth_error lines k = Some l -> exists u v, nth_error out k = Some u /\ nth_error out' k = Some v /\ length (snd u) = length (snd l) /\ length (snd v) = length (snd l) /\
    forall i p a b, nth_error (snd l) i = Some p -> nth_error (snd u) i = Some a -> nth_error (snd v) i = Some b -> dist a b <= model_error F G c d p.
Proof.
  intros F G c d lines D out out'.
  assert (Eo : out = map_lines (radial_map F c) lines) by (unfold out; rewrite forward_eq_map by exact D; now destruct c).
  assert (Eo' : out' = map_lines (radial_map G d) lines) by (unfold out'; rewrite forward_eq_map by exact D; now destruct d).
  rewrite Eo, Eo'. clear Eo Eo' out out'. unfold map_lines. split; [apply map_length|]. split; [apply map_length|]. intros k l Hk.
  exists (fst l, map (radial_map F c) (snd l)), (fst l, map (radial_map G d) (snd l)). split; [exact (map_nth_error _ k lines Hk)|]. split; [exact (map_nth_error _ k lines Hk)|]. cbn [fst snd].
  split; [apply map_length|]. split; [apply map_length|]. intros i p a b Hp A B. rewrite (map_nth_error _ i (snd l) Hp) in A. rewrite (map_nth_error _ i (snd l) Hp) in B. injection A as <-. injection B as <-. apply C136_positions.
Qed.
Print Assumptions C136_points.

(** Pictures: the lens has coefficients F and centre c, the correction uses G and
    d; the corrected picture shows the scene up to the change of brightness over
    one pixel and over the error of the position, and rounding. *)
Theorem C136_scene : forall rnd mat light scene L F G c d, exact_or_double rnd -> (length G <= 1000)%nat ->
  (0 < ih mat <= 2 ^ 24 + 1)%Z -> (0 < iw mat <= 2 ^ 24 + 1)%Z -> 0 <= L -> steep L light -> photograph mat light ->
  seen_through (radial_map F c) scene light ->
  forall i j, in_img mat i j -> let q := (IZR i, IZR j) in on_detector mat (radial_map G d q) ->
    Rabs (px (@unwarp_image_backward R (Rnum rnd) (@bilinear R Rex) mat (pxc d) (py d) G) i j - scene q)
    <= L * (1 + 2 * model_error F G c d q +
            (rounding_bound G (py d) (dist q d) + rounding_bound G (pxc d) (dist q d) + two (-24) * IZR (ih mat + iw mat - 2) + 2 * two (-150))).
Proof.
  intros rnd mat light scene L F G c d Hr Hn Hh Hw HL Hs Hp Ht i j Hij q D.
  assert (Ed : d = (py d, pxc d)) by (now destruct d).
  set (other := fun q => light (radial_map G (py d, pxc d) q)).
  assert (P := C110_scene rnd mat light other L (pxc d) (py d) G Hr Hn Hh Hw HL Hs Hp ltac:(intros p; reflexivity) i j Hij). cbv zeta in P. fold q in P. rewrite <- Ed in P. specialize (P D).
  unfold other in P. rewrite <- Ed in P. rewrite <- (Ht q). pose proof (Hs (radial_map F c q) (radial_map G d q)) as S. pose proof (C136_positions F G c d q) as M.
  pose proof (dist_l1 (radial_map F c q) (radial_map G d q)) as T. rewrite (Rabs_minus_sym (py _)), (Rabs_minus_sym (pxc _)) in T.
  assert (K : Rabs (light (radial_map G d q) - light (radial_map F c q)) <= L * (2 * model_error F G c d q)) by (eapply Rle_trans; [exact S|]; apply Rmult_le_compat_l; lra).
  set (v := px _ i j) in *. replace (v - light (radial_map F c q)) with ((v - light (radial_map G d q)) + (light (radial_map G d q) - light (radial_map F c q))) by ring.
  eapply Rle_trans; [apply Rabs_triang|]. lra.
Qed.
Print Assumptions C136_scene.

(** The error goes to zero with the errors of the coefficients and the centre,
    uniformly over any field of view. *)
Lemma poly_up F r s : 0 <= r <= s -> poly (map Rabs F) r <= poly (map Rabs F) s.
Proof.
  intros H. induction F as [|a F IH]; cbn [map poly]; [lra|]. apply Rplus_le_compat_l. apply Rmult_le_compat; [lra|apply poly_abs_pos; lra|lra|exact IH].
Qed.
Lemma rise_up F r s : 0 <= r <= s -> rise F r <= rise F s.
Proof.
  intros H. induction F as [|a F IH]; cbn [rise]; [lra|]. apply Rplus_le_compat; [now apply poly_up|]. apply Rmult_le_compat; [lra|apply rise_pos; lra|lra|exact IH].
Qed.
Lemma gaps_small F : forall G e r s, Forall2 (fun a b => Rabs (b - a) <= e) F G -> 0 <= e -> 0 <= r <= s -> 0 <= poly (coef_gaps F G) r <= e * poly (map (fun _ => 1) F) s.
Proof.
  induction F as [|a F IH]; intros G e r s H He Hr; inversion H; subst; cbn [coef_gaps map poly]; [lra|].
  match goal with H : Forall2 _ F ?g |- _ => destruct (IH g e r s H He Hr) as [A B] end. pose proof (Rabs_pos (y - a)).
  split; [assert (0 <= r * poly (coef_gaps F l') r) by (apply Rmult_le_pos; lra); lra|].
  apply Rle_trans with (e + s * (e * poly (map (fun _ => 1) F) s)); [|apply Req_le; ring]. apply Rplus_le_compat; [assumption|]. apply Rmult_le_compat; lra.
Qed.
Theorem C136_steady : forall F c field e, 0 < e -> exists t, 0 < t /\
  forall G d q, Forall2 (fun a b => Rabs (b - a) <= t) F G -> dist c d <= t -> dist q c <= field -> model_error F G c d q <= e.
Proof.
  intros F c field e He. set (s := Rmax 0 field + 1). assert (Hs : 1 <= s /\ field <= s - 1) by (unfold s; pose proof (Rmax_l 0 field); pose proof (Rmax_r 0 field); lra).
  set (K := poly (map (fun _ => 1) F) s). set (A := poly (map Rabs F) s). set (B := rise F s).
  assert (HK : 0 <= K) by (unfold K; clear -Hs; induction F as [|a F IH]; cbn [map poly]; [lra|]; assert (0 <= s * poly (map (fun _ => 1) F) s) by (apply Rmult_le_pos; lra); lra).
  assert (HA : 0 <= A) by (apply poly_abs_pos; lra). assert (HB : 0 <= B) by (apply rise_pos; lra).
  set (W := (1 + A + K) + s * (K + B)). assert (HW : 1 <= W) by (unfold W; assert (0 <= s * (K + B)) by (apply Rmult_le_pos; lra); lra).
  exists (Rmin 1 (e / W)). assert (Ht : 0 < Rmin 1 (e / W)) by (apply Rmin_glb_lt; [lra|apply Rdiv_lt_0_compat; lra]). split; [exact Ht|].
  set (t := Rmin 1 (e / W)) in *. assert (T1 : t <= 1) by apply Rmin_l. assert (T2 : t * W <= e).
  { apply Rle_trans with (e / W * W); [apply Rmult_le_compat_r; [lra|apply Rmin_r]|]. apply Req_le. field. lra. }
  intros G d q HG Hd Hq. unfold model_error. set (r := Rmax (dist q c) (dist q d)).
  pose proof (dist_pos q c) as Q0. pose proof (dist_pos q d) as Q1. pose proof (dist_pos c d) as Q2. pose proof (dist_tri q c d) as Tr.
  assert (Hr : 0 <= r <= s) by (unfold r; split; [eapply Rle_trans; [exact Q0|apply Rmax_l]|apply Rmax_lub; lra]).
  assert (Hqd : 0 <= dist q d <= s) by lra.
  destruct (gaps_small F G t r s HG ltac:(lra) Hr) as [G0 G1]. fold K in G1. destruct (gaps_small F G t s s HG ltac:(lra) ltac:(lra)) as [G2 G3]. fold K in G3.
  assert (V : Rabs (1 - poly G (dist q d)) <= 1 + A + K).
  { replace (1 - poly G (dist q d)) with (1 + - (poly F (dist q d) + (poly G (dist q d) - poly F (dist q d)))) by ring. eapply Rle_trans; [apply Rabs_triang|]. rewrite Rabs_R1, Rabs_Ropp.
    pose proof (Rabs_triang (poly F (dist q d)) (poly G (dist q d) - poly F (dist q d))). pose proof (poly_abs F _ _ Hqd) as PA. fold A in PA. pose proof (poly_gaps F G _ _ Hqd) as PG.
    assert (t * K <= K) by (rewrite <- (Rmult_1_l K) at 2; apply Rmult_le_compat_r; lra). lra. }
  assert (U : rise F r <= B) by (now apply rise_up). assert (U0 : 0 <= rise F r) by (apply rise_pos; lra).
  assert (X1 : dist c d * Rabs (1 - poly G (dist q d)) <= t * (1 + A + K)) by (apply Rmult_le_compat; [lra|apply Rabs_pos|lra|exact V]).
  assert (X2 : dist c d * rise F r <= t * B) by (apply Rmult_le_compat; lra). assert (X3 : 0 <= dist c d * rise F r) by (apply Rmult_le_pos; lra).
  assert (X4 : dist q c * (poly (coef_gaps F G) r + dist c d * rise F r) <= s * (t * K + t * B)) by (apply Rmult_le_compat; lra).
  eapply Rle_trans; [|exact T2]. unfold W. lra.
Qed.
Print Assumptions C136_steady.

(** A case: a centre off by 1/10 pixel and coefficients off by 1/1000 and
    1/1000000, on a field of 100 pixels, move a corrected point by less than
    3/10 of a pixel. *)
Example C136_case : forall q, dist q (0, 0) <= 100 ->
  dist (radial_map [1; 1 / 10000] (0, 0) q) (radial_map [1001 / 1000; 1 / 10000 + 1 / 1000000] (0, 1 / 10) q) <= 3 / 10.
Proof.
  intros q Hq. eapply Rle_trans; [apply C136_positions|].
  assert (Ec : dist (0, 0) (0, 1 / 10) = 1 / 10).
  { unfold dist, py, pxc. cbn [fst snd]. replace ((0 - 0) * (0 - 0) + (0 - 1 / 10) * (0 - 1 / 10)) with (1 / 10 * (1 / 10)) by field. apply sqrt_square. lra. }
  pose proof (dist_tri q (0, 0) (0, 1 / 10)) as T. rewrite Ec in T. unfold model_error. rewrite Ec. set (r := dist q (0, 0)) in *. set (s := dist q (0, 1 / 10)) in *.
  assert (0 <= r) by apply dist_pos. assert (0 <= s) by apply dist_pos. set (m := Rmax r s). assert (0 <= m <= 1001 / 10) by (unfold m; split; [eapply Rle_trans; [|apply Rmax_l]; assumption|apply Rmax_lub; lra]).
  cbn [coef_gaps rise map poly]. replace (1001 / 1000 - 1) with (1 / 1000) by field. replace (1 / 10000 + 1 / 1000000 - 1 / 10000) with (1 / 1000000) by field.
  rewrite (Rabs_pos_eq (1 / 1000)), (Rabs_pos_eq (1 / 1000000)), (Rabs_pos_eq (1 / 10000)) by lra.
  rewrite Rabs_left1 by lra. assert (r * (1 / 1000 + m * (1 / 1000000 + m * 0) + 1 / 10 * (1 / 10000 + m * 0 + m * 0)) <= 100 * (1 / 1000 + 1001 / 10 * (1 / 1000000) + 1 / 10 * (1 / 10000))) by (apply Rmult_le_compat; lra).
  lra.
Qed.
