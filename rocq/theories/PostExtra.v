(** Corollaries used by the property theorems of the postprocessing module. *)
From Coq Require Import Reals ZArith List Lra Lia Bool Permutation.
From Flocq Require Import Core.
From Verif Require Import Base Num Img Spec Lsq LsqEx Sorting Post NumFacts PostLines PostLines2
  PostImg PostImg2 PostPersp.
Local Open Scope R_scope.

(** Coefficients of a matrix scaled to have 1 in the corner. *)
Definition mat_coefs (m : mat3) : list R :=
  map (fun a => a / c9 m) [c1 m; c2 m; c3 m; c4 m; c5 m; c6 m; c7 m; c8 m].

Lemma coef_mat_coefs m : c9 m <> 0 -> coef_mat (mat_coefs m) = scale3 (/ c9 m) m.
Proof.
  intros H. unfold coef_mat, mat_coefs, scale3. cbn [map nth].
  f_equal; try (unfold Rdiv; ring). field. exact H.
Qed.

Lemma perspective_line_coefs lines c out : 
  @correct_perspective_line R Rex lines c = Ok out <->
  length c = 8%nat /\ out = map (map (proj (coef_mat c))) lines.
Proof.
  split.
  - intros H. destruct (Nat.eq_dec (length c) 8) as [E|NE].
    + do 9 (destruct c as [|? c]; [try discriminate|]); [|discriminate].
      rewrite perspective_line_map in H. injection H as <-. split; reflexivity.
    + apply (perspective_line_arity (fun x => x)) with (lines := lines) in NE. unfold Rex in H. congruence.
  - intros [E ->]. do 9 (destruct c as [|? c]; [try discriminate|]); [|discriminate].
    apply perspective_line_map.
Qed.

Lemma map_map_ext_in (f g : pt -> pt) lines :
  Forall (Forall (fun p => f p = g p)) lines -> map (map f) lines = map (map g) lines.
Proof.
  induction 1 as [|l ls H _ IH]; cbn [map]; [reflexivity|]. rewrite IH. f_equal.
  induction H as [|p l E _ IHl]; cbn [map]; [reflexivity|]. now rewrite E, IHl.
Qed.

Lemma perspective_compose a b lines l1 l2 :
  @correct_perspective_line R Rex lines b = Ok l1 ->
  @correct_perspective_line R Rex l1 a = Ok l2 ->
  Forall (Forall (fun p => den (coef_mat b) p <> 0 /\
                           den (coef_mat a) (proj (coef_mat b) p) <> 0)) lines ->
  c9 (mul3 (coef_mat a) (coef_mat b)) <> 0 ->
  @correct_perspective_line R Rex lines (mat_coefs (mul3 (coef_mat a) (coef_mat b))) = Ok l2.
Proof.
  intros Hb Ha Hd H9. apply perspective_line_coefs in Hb. apply perspective_line_coefs in Ha.
  destruct Hb as [Lb ->]. destruct Ha as [La ->].
  apply perspective_line_coefs. split; [reflexivity|].
  rewrite map_map. rewrite (map_ext _ (map (fun p => proj (coef_mat a) (proj (coef_mat b) p)))).
  2:{ intros l. apply map_map. }
  apply map_map_ext_in. eapply Forall_impl; [|exact Hd]. intros l Hl. cbn beta in Hl.
  eapply Forall_impl; [|exact Hl]. intros p [H1 H2]. cbn beta.
  rewrite coef_mat_coefs by assumption.
  destruct (proj_mul (coef_mat a) (coef_mat b) p H1 H2) as [E1 E2].
  rewrite proj_scale, E2; [reflexivity|now apply Rinv_neq_0_compat|].
  rewrite E1. now apply Rmult_integral_contrapositive.
Qed.

Lemma perspective_inverse a b k lines l1 :
  mul3 (coef_mat a) (coef_mat b) = M3 k 0 0 0 k 0 0 0 k -> k <> 0 ->
  length a = 8%nat ->
  Forall (Forall (fun p => den (coef_mat b) p <> 0 /\
                           den (coef_mat a) (proj (coef_mat b) p) <> 0)) lines ->
  @correct_perspective_line R Rex lines b = Ok l1 ->
  @correct_perspective_line R Rex l1 a = Ok lines.
Proof.
  intros Hm Hk La Hd Hb.
  apply perspective_line_coefs in Hb. destruct Hb as [Lb ->].
  apply perspective_line_coefs. split; [exact La|].
  rewrite map_map.
  rewrite (map_ext _ (map (fun p => proj (coef_mat a) (proj (coef_mat b) p)))).
  2:{ intros l. apply map_map. }
  transitivity (map (map (fun p : pt => p)) lines).
  - rewrite <- (map_id lines) at 1. apply map_ext. intros l. now rewrite map_id.
  - apply map_map_ext_in. eapply Forall_impl; [|exact Hd]. intros l Hl. cbn beta in Hl.
    eapply Forall_impl; [|exact Hl]. intros p [H1 H2]. cbn beta.
    destruct (proj_mul (coef_mat a) (coef_mat b) p H1 H2) as [_ E2].
    rewrite <- E2, Hm. symmetry. now apply mul3_id_proj.
Qed.

Lemma perspective_collinear c lines out :
  @correct_perspective_line R Rex lines c = Ok out ->
  Forall2 (fun l u => length u = length l /\
     forall i j k, (i < length l)%nat -> (j < length l)%nat -> (k < length l)%nat ->
       let p n := nth n l (0, 0) in let q n := nth n u (0, 0) in
       den (coef_mat c) (p i) <> 0 -> den (coef_mat c) (p j) <> 0 -> den (coef_mat c) (p k) <> 0 ->
       collinear (p i) (p j) (p k) -> collinear (q i) (q j) (q k)) lines out.
Proof.
  intros H. apply perspective_line_coefs in H. destruct H as [_ ->].
  apply Forall2_map_r. intros l _. rewrite map_length. split; [reflexivity|].
  intros i j k Hi Hj Hk. cbn zeta. intros H1 H2 H3 Hc.
  pose proof (nth_map_in (proj (coef_mat c)) l i (0, 0) (0, 0) Hi) as Ei.
  pose proof (nth_map_in (proj (coef_mat c)) l j (0, 0) (0, 0) Hj) as Ej.
  pose proof (nth_map_in (proj (coef_mat c)) l k (0, 0) (0, 0) Hk) as Ek.
  unfold pt, point in *. rewrite Ei, Ej, Ek. now apply proj_collinear.
Qed.

Definition fit1 (xs ys : list R) : R * R :=
  match polyfit_R 1 xs ys with [a; b] => (a, b) | _ => (0, 0) end.
Lemma fit1_ok : polyfit1_spec fit1.
Proof.
  intros xs ys _ _. unfold fit1. pose proof (polyfit_R_ok 1 xs ys) as H.
  destruct (polyfit_R 1 xs ys) as [|a [|b [|? ?]]]; destruct H as [Hl H]; try discriminate Hl.
  split; assumption.
Qed.

(** Identity calibration coefficients. *)
Lemma forward_identity lines xc yc n :
  Forall (fun l => fst l = DF64) lines ->
  @unwarp_line_forward R Rex lines xc yc (1 :: repeat 0 n) = lines.
Proof.
  intros H. rewrite forward_eq_map by assumption. apply map_lines_id. apply radial_identity.
Qed.

Lemma forward_translate lines xc yc fact t :
  Forall (fun l => fst l = DF64) lines ->
  @unwarp_line_forward R Rex (map_lines (fun p => padd p t) lines) (xc + pxc t) (yc + py t) fact =
  map_lines (fun p => padd p t) (@unwarp_line_forward R Rex lines xc yc fact).
Proof.
  intros H. apply forward_equiv; [assumption|]. intros p.
  change (yc + py t, xc + pxc t) with (padd (yc, xc) t). apply radial_translate.
Qed.

Lemma forward_rotate lines xc yc fact cs sn :
  Forall (fun l => fst l = DF64) lines -> cs * cs + sn * sn = 1 ->
  @unwarp_line_forward R Rex (map_lines (rotate_about (yc, xc) cs sn) lines) xc yc fact =
  map_lines (rotate_about (yc, xc) cs sn) (@unwarp_line_forward R Rex lines xc yc fact).
Proof. intros H E. apply forward_equiv; [assumption|]. intros p. now apply radial_rotate. Qed.

Lemma image_forward_exact mat xc yc fact :
  let tgt i j := let p := radial_map fact (yc, xc) (zpt i j) in
                 (ZnearestE (clamp (py p) 0 (IZR (ih mat - 1))),
                  ZnearestE (clamp (pxc p) 0 (IZR (iw mat - 1)))) in
  exists out, @unwarp_image_forward R Rex mat xc yc fact = Ok out /\
    ih out = ih mat /\ iw out = iw mat /\
    forall i j,
      (px out i j = 0 /\ forall a b, in_img mat a b -> tgt a b <> (i, j)) \/
      (exists a b, in_img mat a b /\ tgt a b = (i, j) /\ px out i j = px mat a b /\
         forall a' b', in_img mat a' b' -> tgt a' b' = (i, j) -> lex_le (a', b') (a, b)).
Proof.
  cbn zeta. destruct (image_forward_gen (fun x => x) mat xc yc fact) as [out [E [Eh [Ew H]]]].
  exists out. split; [exact E|]. split; [exact Eh|]. split; [exact Ew|].
  intros i j. destruct (H i j) as [[H0 H1]|[a [b [Hab [Ht [Hp Hl]]]]]].
  - left. split; [exact H0|]. intros a b Hab. rewrite <- (fwd_R mat xc yc fact a b Hab).
    exact (H1 a b Hab).
  - right. exists a, b. split; [exact Hab|]. split; [|split; [exact Hp|]].
    + rewrite <- (fwd_R mat xc yc fact a b Hab). exact Ht.
    + intros a' b' Hab' Ht'. apply Hl; [exact Hab'|]. rewrite <- (fwd_R mat xc yc fact a' b' Hab') in Ht'.
      exact Ht'.
Qed.

Lemma backward_constant rnd cast mat xc yc fact c : 
  (0 < ih mat)%Z -> (0 < iw mat)%Z ->
  (forall a b, a <= b -> cast a <= cast b) -> cast c = c ->
  (forall i j, in_img mat i j -> px mat i j = c) ->
  forall i j, in_img mat i j ->
    px (@unwarp_image_backward R (Rnum rnd) (@bilinear_cast R Rex cast) mat xc yc fact) i j = c.
Proof.
  intros Hh Hw Hm Hc H i j Hij.
  pose proof (image_backward_bounds rnd cast mat xc yc fact c c Hh Hw Hm Hc Hc) as B.
  cbn zeta in B. specialize (B ltac:(intros a b Hab; rewrite (H a b Hab); lra) i j Hij). lra.
Qed.
