(** Proofs about point/line functions of postprocessing.py. *)
From Coq Require Import Reals ZArith List Lra Lia Permutation FunctionalExtensionality.
From Flocq Require Import Core Relative.
From Verif Require Import Base Num Img Spec Lsq Post NumFacts.
Local Open Scope R_scope.

Lemma sqrt_sq_pos a : 0 <= a -> sqrt (a * a) = a.
Proof. apply sqrt_square. Qed.

(** ** C01 / C02 *)
Lemma unwarp_dot_forward_R d xc yc fact p :
  @unwarp_dot_forward R Rex d xc yc fact p =
  (@store R Rex d (py (radial_map fact (yc, xc) p)),
   @store R Rex d (pxc (radial_map fact (yc, xc) p))).
Proof.
  destruct p as [y x]. unfold unwarp_dot_forward.
  rewrite !radial_R. unnum. cbn [fst snd].
  unfold radial_map, dist, padd, pscale, psub, py, pxc; cbn [fst snd].
  replace ((x - xc) * (x - xc) + (y - yc) * (y - yc))
    with ((y - yc) * (y - yc) + (x - xc) * (x - xc)) by ring.
  reflexivity.
Qed.

Lemma Forall2_map_r {A B} (P : A -> B -> Prop) f l :
  (forall a, In a l -> P a (f a)) -> Forall2 P l (map f l).
Proof.
  induction l as [|a l IH]; intros H; cbn; constructor.
  - apply H; now left.
  - apply IH; intros; apply H; now right.
Qed.

Lemma forward_points lines xc yc fact :
  Forall (fun l => fst l = DF64) lines ->
  Forall2 (fun l u => fst u = DF64 /\
             Forall2 (fun p q => q = radial_map fact (yc, xc) p) (snd l) (snd u))
    lines (@unwarp_line_forward R Rex lines xc yc fact).
Proof.
  intros H. unfold unwarp_line_forward. apply Forall2_map_r.
  intros [d l] Hl. rewrite Forall_forall in H. specialize (H _ Hl). cbn [fst snd] in *.
  subst d. split; [reflexivity|]. apply Forall2_map_r. intros p _.
  rewrite unwarp_dot_forward_R. cbn [store].
  now destruct (radial_map fact (yc, xc) p).
Qed.

Lemma forward_points_dtype lines xc yc fact :
  Forall2 (fun l u => fst u = fst l /\
             Forall2 (fun p q =>
               let r := radial_map fact (yc, xc) p in
               match fst l with
               | DInt => q = (IZR (Ztrunc (py r)), IZR (Ztrunc (pxc r)))
               | DF32 => q = (f32 (py r), f32 (pxc r))
               | DF64 => q = r
               end) (snd l) (snd u))
    lines (@unwarp_line_forward R Rex lines xc yc fact).
Proof.
  unfold unwarp_line_forward. apply Forall2_map_r.
  intros [d l] Hl. cbn [fst snd]. split; [reflexivity|].
  apply Forall2_map_r. intros p _. rewrite unwarp_dot_forward_R.
  destruct d; reflexivity.
Qed.

Definition map_lines (f : pt -> pt) (ls : list (@line R)) : list (@line R) :=
  map (fun l => (fst l, map f (snd l))) ls.

Lemma forward_equiv lines xc yc xc' yc' fact (f : pt -> pt) :
  Forall (fun l => fst l = DF64) lines ->
  (forall p, radial_map fact (yc', xc') (f p) = f (radial_map fact (yc, xc) p)) ->
  @unwarp_line_forward R Rex (map_lines f lines) xc' yc' fact =
  map_lines f (@unwarp_line_forward R Rex lines xc yc fact).
Proof.
  intros Hd Hf. unfold unwarp_line_forward, map_lines. rewrite !map_map.
  apply map_ext_in. intros [d l] Hl. rewrite Forall_forall in Hd.
  specialize (Hd _ Hl). cbn [fst snd] in *. subst d. f_equal.
  rewrite !map_map. apply map_ext. intros p. rewrite !unwarp_dot_forward_R.
  cbn [store]. rewrite Hf.
  replace (py (radial_map fact (yc, xc) p), pxc (radial_map fact (yc, xc) p))
    with (radial_map fact (yc, xc) p) by now destruct (radial_map fact (yc, xc) p).
  now destruct (f (radial_map fact (yc, xc) p)).
Qed.

Ltac unpt := unfold radial_map, rotate_about, dist, padd, pscale, psub, swap, py, pxc in *;
  cbn [fst snd] in *.

Lemma radial_translate fact c t p :
  radial_map fact (padd c t) (padd p t) = padd (radial_map fact c p) t.
Proof.
  destruct c as [cy cx], p as [y x], t as [ty tx]. unpt.
  replace (y + ty - (cy + ty)) with (y - cy) by ring.
  replace (x + tx - (cx + tx)) with (x - cx) by ring.
  f_equal; ring.
Qed.
Lemma radial_rotate fact c cs sn p : cs * cs + sn * sn = 1 ->
  radial_map fact c (rotate_about c cs sn p) = rotate_about c cs sn (radial_map fact c p).
Proof.
  intros H. destruct c as [cy cx], p as [y x]. unpt.
  set (u := x - cx). set (v := y - cy).
  replace (cy + (sn * u + cs * v) - cy) with (sn * u + cs * v) by ring.
  replace (cx + (cs * u - sn * v) - cx) with (cs * u - sn * v) by ring.
  replace ((sn * u + cs * v) * (sn * u + cs * v) + (cs * u - sn * v) * (cs * u - sn * v))
    with ((cs * cs + sn * sn) * (v * v + u * u)) by ring.
  rewrite H, Rmult_1_l. f_equal; ring.
Qed.
Lemma radial_center fact c : radial_map fact c c = c.
Proof. destruct c as [cy cx]. unpt. f_equal; ring. Qed.
Lemma dist_pos p q : 0 <= dist p q.
Proof. apply sqrt_pos. Qed.
Lemma dist_scale c k p : dist (padd c (pscale k (psub p c))) c = Rabs k * dist p c.
Proof.
  destruct c as [cy cx], p as [y x]. unpt.
  rewrite <- sqrt_Rsqr_abs. rewrite <- sqrt_mult_alt by apply Rle_0_sqr.
  f_equal. unfold Rsqr. ring.
Qed.
Lemma radial_dist fact c p :
  dist (radial_map fact c p) c = Rabs (poly fact (dist p c)) * dist p c.
Proof. unfold radial_map. apply dist_scale. Qed.
Lemma poly_one n r : poly (1 :: repeat 0 n) r = 1.
Proof.
  cbn. assert (H : poly (repeat 0 n) r = 0).
  { induction n as [|n IH]; cbn; [reflexivity|rewrite IH; ring]. }
  rewrite H. ring.
Qed.
Lemma radial_identity n c p : radial_map (1 :: repeat 0 n) c p = p.
Proof.
  unfold radial_map. rewrite poly_one. destruct c as [cy cx], p as [y x].
  unpt. f_equal; ring.
Qed.

Lemma map_lines_id (f : pt -> pt) ls : (forall p, f p = p) -> map_lines f ls = ls.
Proof.
  intros H. unfold map_lines. rewrite <- (map_id ls) at 2. apply map_ext.
  intros [d l]. cbn [fst snd].
  assert (E : map f l = l) by (rewrite <- (map_id l) at 2; now apply map_ext).
  now rewrite E.
Qed.

Lemma forward_eq_map lines xc yc fact :
  Forall (fun l => fst l = DF64) lines ->
  @unwarp_line_forward R Rex lines xc yc fact = map_lines (radial_map fact (yc, xc)) lines.
Proof.
  intros Hd. unfold unwarp_line_forward, map_lines. apply map_ext_in.
  intros [d l] Hl. rewrite Forall_forall in Hd. specialize (Hd _ Hl). cbn [fst snd] in *.
  subst d. f_equal. apply map_ext. intros p. rewrite unwarp_dot_forward_R. cbn [store].
  now destruct (radial_map fact (yc, xc) p).
Qed.

Lemma int_loss : forall eps, 0 < eps ->
  exists p fact, let q := radial_map fact (0, 0) p in
   (exists a b, p = (IZR a, IZR b)) /\
   exists r, @unwarp_line_forward R Rex [(DInt, [p])] 0 0 fact = [(DInt, [r])] /\
     pxc q - pxc r > 1 - eps.
Proof.
  intros eps He. set (e := Rmin eps 1).
  assert (He1 : 0 < e <= 1 /\ e <= eps) by (unfold e, Rmin; destruct (Rle_dec eps 1); lra).
  exists (0, 1), [2 - e / 2]. cbn zeta. split; [exists 0%Z, 1%Z; reflexivity|].
  eexists. split.
  - unfold unwarp_line_forward. cbn [map fst snd]. rewrite unwarp_dot_forward_R. reflexivity.
  - cbn [store]. unnum. unpt. cbn [poly].
    replace (0 + (2 - e / 2 + sqrt ((0 - 0) * (0 - 0) + (1 - 0) * (1 - 0)) * 0) * (1 - 0))
      with (2 - e / 2) by ring.
    replace (Ztrunc (2 - e / 2)) with 1%Z; [lra|].
    rewrite Ztrunc_floor by lra. symmetry. apply Zfloor_imp. cbn. lra.
Qed.

(** ** C03 *)
Lemma dist_zero_eq p q : dist p q = 0 -> p = q.
Proof.
  destruct p as [a b], q as [c d]. unpt. intros H.
  pose proof (Rle_0_sqr (a - c)) as H1. pose proof (Rle_0_sqr (b - d)) as H2.
  unfold Rsqr in H1, H2. apply sqrt_eq_0 in H; [|lra].
  assert (E1 : (a - c) * (a - c) = 0) by lra.
  assert (E2 : (b - d) * (b - d) = 0) by lra.
  apply Rsqr_0_uniq in E1. apply Rsqr_0_uniq in E2. f_equal; lra.
Qed.

Lemma backward_point minimize xc yc fact p :
  let c := (yc, xc) in let rd := dist p c in
  let ru := minimize (fun u => (rd - u * poly fact u) ^ 2) rd in
  let q := @unwarp_dot_backward R Rex minimize DF64 xc yc fact p in
  (p = c -> q = c) /\
  (p <> c -> q = padd c (pscale (ru / rd) (psub p c))) /\
  ((rd - ru * poly fact ru) ^ 2 = 0 -> 0 <= ru -> radial_map fact c q = p).
Proof.
  destruct p as [y x]. cbn zeta.
  set (c := (yc, xc)). set (rd := dist (y, x) c).
  set (ru := minimize (fun u => (rd - u * poly fact u) ^ 2) rd).
  assert (Hq : @unwarp_dot_backward R Rex minimize DF64 xc yc fact (y, x) =
     padd c (pscale (if Req_bool rd 0 then 0 else ru / rd) (psub (y, x) c))).
  { unfold unwarp_dot_backward, func_diff.
    assert (Hf : (fun r => @npow R Rex (@nsub R Rex
         (@nsqrt R Rex (@nadd R Rex (@nmul R Rex (@nsub R Rex (snd (y,x)) xc) (@nsub R Rex (snd (y,x)) xc))
                                 (@nmul R Rex (@nsub R Rex (fst (y,x)) yc) (@nsub R Rex (fst (y,x)) yc))))
         (@nmul R Rex r (@radial R Rex fact r))) 2) =
       (fun u => (rd - u * poly fact u) ^ 2)).
    { extensionality u. rewrite radial_R. unnum. cbn [fst snd].
      unfold rd, c. unpt.
      replace ((x - xc) * (x - xc) + (y - yc) * (y - yc))
        with ((y - yc) * (y - yc) + (x - xc) * (x - xc)) by ring.
      reflexivity. }
    rewrite Hf.
    assert (Hr : @nsqrt R Rex (@nadd R Rex (@nmul R Rex (@nsub R Rex (snd (y,x)) xc) (@nsub R Rex (snd (y,x)) xc))
                                 (@nmul R Rex (@nsub R Rex (fst (y,x)) yc) (@nsub R Rex (fst (y,x)) yc))) = rd).
    { unnum. unfold rd, c. unpt. f_equal. ring. }
    rewrite Hr. fold ru. unnum. cbn [store fst snd]. unfold c. unpt.
    destruct (Req_bool rd 0); reflexivity. }
  rewrite Hq. split; [|split].
  - intros E. rewrite E. destruct c as [cy cx] eqn:Ec. unpt. f_equal; ring.
  - intros NE. destruct (Req_bool_spec rd 0) as [E|E]; [|reflexivity].
    exfalso. apply NE. now apply dist_zero_eq.
  - intros Hz Hpos. destruct (Req_bool_spec rd 0) as [E|E].
    + assert (Ep : (y, x) = c) by now apply dist_zero_eq.
      rewrite Ep.
      replace (padd c (pscale 0 (psub c c))) with c; [apply radial_center|].
      destruct c as [cy cx]. unpt. f_equal; ring.
    + assert (Hrd : 0 < rd) by (pose proof (dist_pos (y, x) c); fold rd in H; lra).
      unfold radial_map. rewrite dist_scale. fold rd.
      assert (Hru : Rabs (ru / rd) * rd = ru).
      { rewrite Rabs_pos_eq; [field; lra|]. apply Rmult_le_pos; [lra|].
        left. now apply Rinv_0_lt_compat. }
      rewrite Hru.
      assert (Hprod : ru * poly fact ru = rd).
      { cbn in Hz. assert (Hz' : (rd - ru * poly fact ru) * (rd - ru * poly fact ru) = 0) by lra.
        apply Rsqr_0_uniq in Hz'. lra. }
      destruct c as [cy cx]. unpt.
      f_equal.
      * replace (cy + poly fact ru * (cy + ru / rd * (y - cy) - cy))
          with (cy + (ru * poly fact ru) / rd * (y - cy)) by (field; lra).
        rewrite Hprod. field. lra.
      * replace (cx + poly fact ru * (cx + ru / rd * (x - cx) - cx))
          with (cx + (ru * poly fact ru) / rd * (x - cx)) by (field; lra).
        rewrite Hprod. field. lra.
Qed.

Lemma backward_lines minimize lines xc yc fact :
  Forall (fun l => fst l = DF64) lines ->
  Forall2 (fun l u => fst u = DF64 /\
     Forall2 (fun p q =>
       let c := (yc, xc) in let rd := dist p c in
       let ru := minimize (fun u => (rd - u * poly fact u) ^ 2) rd in
       (p = c -> q = c) /\
       (p <> c -> q = padd c (pscale (ru / rd) (psub p c))) /\
       ((rd - ru * poly fact ru) ^ 2 = 0 -> 0 <= ru -> radial_map fact c q = p))
       (snd l) (snd u))
    lines (@unwarp_line_backward R Rex minimize lines xc yc fact).
Proof.
  intros H. unfold unwarp_line_backward. apply Forall2_map_r.
  intros [d l] Hl. rewrite Forall_forall in H. specialize (H _ Hl). cbn [fst snd] in *.
  subst d. split; [reflexivity|]. apply Forall2_map_r. intros p _.
  exact (backward_point minimize xc yc fact p).
Qed.
