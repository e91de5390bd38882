(** Rotation, subset removal and the neighbour search. *)
From Coq Require Import Reals ZArith List Lra Lia Permutation Sorted.
From Flocq Require Import Core.
From Verif Require Import Base Num Img Post Spec NumFacts Lsq Sorting PrepSpec PrepImg PrepPts PrepFacts PrepFacts2.
Local Open Scope R_scope.

(** *** Rotation (radians) *)
Lemma rotate_rad pts a : @rotate_points R Rex cos sin PI pts a false = map (rot1 a) pts.
Proof. reflexivity. Qed.
Lemma rotate_deg pts a : @rotate_points R Rex cos sin PI pts a true = map (rot1 (a * (PI / 180))) pts.
Proof. reflexivity. Qed.
Lemma rot1_dist a p q : dist (rot1 a p) (rot1 a q) = dist p q.
Proof.
  unfold dist, rot1, py, pxc. cbn [fst snd]. f_equal.
  pose proof (sin2_cos2 a) as H. unfold Rsqr in H.
  transitivity ((sin a * sin a + cos a * cos a) * ((fst p - fst q) * (fst p - fst q) + (snd p - snd q) * (snd p - snd q))); [ring|].
  rewrite H. ring.
Qed.
Lemma rot1_0 p : rot1 0 p = p.
Proof. unfold rot1. rewrite sin_0, cos_0. destruct p as [y x]. cbn [fst snd]. f_equal; ring. Qed.
Lemma rot1_add a b p : rot1 b (rot1 a p) = rot1 (a + b) p.
Proof. unfold rot1. cbn [fst snd]. rewrite sin_plus, cos_plus. f_equal; ring. Qed.
Lemma rot1_inv a p : rot1 (- a) (rot1 a p) = p.
Proof. rewrite rot1_add. replace (a + - a) with 0 by ring. apply rot1_0. Qed.
Lemma rot1_swp a p : rot1 a (swp p) = swp (rot1 (- a) p).
Proof. unfold rot1, swp. cbn [fst snd]. rewrite sin_neg, cos_neg. f_equal; ring. Qed.

(** *** Subset removal *)
Lemma pnt_eqb_iff rnd (a b : pt) : @pnt_eqb R (Rnum rnd) a b = true <-> a = b.
Proof.
  unfold pnt_eqb. cbn [neqb Rnum]. rewrite andb_true_iff, !Req_bool_true_iff.
  destruct a, b. cbn. split; [intros [-> ->]; reflexivity|intros H; injection H; tauto].
Qed.
Lemma remove_subset_selects rnd sel pts :
  selects (fun p => ~ In p sel) pts (@remove_subset_points R (Rnum rnd) sel pts).
Proof.
  unfold remove_subset_points. apply filter_selects. intros a. rewrite negb_true_iff. split.
  - intros H Hin. apply not_true_iff_false in H. apply H. apply existsb_exists. exists a. split; [assumption|].
    now apply pnt_eqb_iff.
  - intros H. apply not_true_iff_false. intros E. apply existsb_exists in E. destruct E as [b [Hb Eb]].
    apply pnt_eqb_iff in Eb. now subst.
Qed.

(** *** np.unique *)
Lemma insert_row_in rnd x l p : In p (@insert_row R (Rnum rnd) x l) <-> p = x \/ In p l.
Proof.
  induction l as [|y l IH]; cbn [insert_row].
  - cbn. intuition.
  - destruct (@pnt_eqb R (Rnum rnd) x y) eqn:E.
    + apply pnt_eqb_iff in E. subst y. cbn. intuition.
    + destruct (lex_ltb x y); cbn [In]; [intuition|]. rewrite IH. intuition.
Qed.
Lemma unique_in rnd l p : In p (@unique_rows R (Rnum rnd) l) <-> In p l.
Proof.
  unfold unique_rows. induction l as [|x l IH]; cbn; [tauto|]. rewrite insert_row_in, IH. intuition.
Qed.
Definition lexlt (a b : pt) : Prop := fst a < fst b \/ (fst a = fst b /\ snd a < snd b).
Lemma lex_ltb_iff rnd (a b : pt) : @lex_ltb R (Rnum rnd) a b = true <-> lexlt a b.
Proof. unfold lex_ltb, lexlt. cbn [nltb neqb Rnum]. rewrite orb_true_iff, andb_true_iff, !Rlt_bool_true_iff, Req_bool_true_iff. tauto. Qed.
Lemma lexlt_trans a b c : lexlt a b -> lexlt b c -> lexlt a c.
Proof. unfold lexlt. intuition lra. Qed.
Lemma insert_row_sorted rnd x l : StronglySorted lexlt l -> StronglySorted lexlt (@insert_row R (Rnum rnd) x l).
Proof.
  induction l as [|y l IH]; intros S; cbn [insert_row]; [repeat constructor|].
  destruct (@pnt_eqb R (Rnum rnd) x y) eqn:E; [assumption|].
  destruct (@lex_ltb R (Rnum rnd) x y) eqn:L.
  - apply lex_ltb_iff in L. constructor; [assumption|]. constructor; [assumption|].
    inversion S as [|? ? S' F]; subst. rewrite Forall_forall in *. intros z Hz. apply (lexlt_trans _ y); auto.
  - inversion S as [|? ? S' F]; subst. constructor; [now apply IH|].
    rewrite Forall_forall in *. intros z Hz. apply insert_row_in in Hz. destruct Hz as [->|Hz]; [|now apply F].
    apply not_true_iff_false in E, L. rewrite pnt_eqb_iff in E. rewrite lex_ltb_iff in L.
    unfold lexlt in *. destruct x as [a b], y as [c d]. cbn in *.
    destruct (Rtotal_order a c) as [H|[H|H]]; [tauto| |now left]. subst c. right. split; [reflexivity|].
    destruct (Rtotal_order b d) as [H|[H|H]]; [tauto|subst; tauto|assumption].
Qed.
Lemma unique_sorted rnd l : StronglySorted lexlt (@unique_rows R (Rnum rnd) l).
Proof. unfold unique_rows. induction l as [|x l IH]; cbn; [constructor|]. now apply insert_row_sorted. Qed.
Lemma lex_sorted_nodup l : StronglySorted lexlt l -> NoDup l.
Proof.
  induction 1 as [|a l S IH F]; constructor; [|assumption]. intros H. rewrite Forall_forall in F. specialize (F a H).
  unfold lexlt in F. lra.
Qed.
Lemma unique_nodup rnd l : NoDup (@unique_rows R (Rnum rnd) l).
Proof. apply lex_sorted_nodup. apply (unique_sorted rnd). Qed.

(** *** Neighbour search *)
(** A polynomial fit of the points of [s] (abscissa [u], ordinate [w]). *)
Definition fits (polyfit : list R -> list R -> nat -> res (list R)) : Prop :=
  forall xs ys k v, polyfit xs ys k = Ok v -> polyfit_spec k xs ys v.

Lemma grown_incl u w tol k pool init s : grown u w tol k pool init s ->
  incl init s /\ forall p, In p s -> In p init \/ In p pool.
Proof.
  induction 1 as [|s v new s' G [I1 I2] F Hn Hs ND]; [split; [apply incl_refl|tauto]|]. split.
  - intros p Hp. apply Hs. left. now apply I1.
  - intros p Hp. apply Hs in Hp. destruct Hp as [Hp|Hp]; [now apply I2|]. right. now apply Hn.
Qed.
Lemma poly_app a b r : poly (a ++ [b]) r = poly a r + b * r ^ (length a).
Proof. induction a as [|c a IH]; cbn [app poly length pow]; [ring|]. rewrite IH. ring. Qed.
Lemma poly1d_rev v x : @poly1d R Rex v x = poly (rev v) x.
Proof.
  unfold poly1d. enough (H : forall acc, fold_left (fun acc a => @nadd R Rex (@nmul R Rex acc x) a) v acc =
    acc * x ^ length v + poly (rev v) x).
  { rewrite H. unfold n0, Rex. cbn [nofZ Rnum]. ring. }
  induction v as [|a v IH]; intros acc; cbn [fold_left rev length pow]; [cbn; ring|].
  rewrite IH, poly_app, rev_length. unfold Rex. cbn [nadd nmul Rnum]. ring.
Qed.

Section Nearby.
  Variable polyfit : list R -> list R -> nat -> res (list R).
  Hypothesis Hfit : fits polyfit.
  Let nh := @nearby_hor_loop R Rex polyfit.
  Let nv := @nearby_ver_loop R Rex polyfit.
  Lemma nearby_hor_grown pts sd ov tol k init fuel : forall a b c d s r,
    nh fuel pts sd ov tol k a b c d s = Ok r ->
    grown snd fst tol k pts init s -> grown snd fst tol k pts init r.
  Proof.
    induction fuel as [|fuel IH]; intros a b c d s r H G; [discriminate|].
    unfold nh in *. cbn [nearby_hor_loop] in H. cbv zeta in H.
    set (near := filter _ pts) in H. destruct near as [|p0 near'] eqn:En; [injection H as <-; assumption|].
    rewrite <- En in H. clear p0 near' En. unfold get_nearby_hor_points in H.
    destruct (polyfit (map snd s) (map fst s) k) as [v|e] eqn:Ef; cbn [bind] in H; [|discriminate].
    set (nb := filter _ near) in H. destruct nb as [|p0 nb'] eqn:En; [injection H as <-; assumption|].
    rewrite <- En in H. clear p0 nb' En.
    apply IH in H; [assumption|]. apply grown_more with (s := s) (v := v) (new := nb); [assumption|now apply Hfit| | |].
    - intros p Hp. unfold nb in Hp. apply filter_In in Hp. destruct Hp as [Hp Hc]. unfold near in Hp. apply filter_In in Hp.
      split; [tauto|]. unfold Rex in Hc. cbn [nleb Rnum nabs nsub] in Hc. apply Rle_bool_true_iff in Hc.
      change (Rnum (fun x => x)) with Rex in Hc. now rewrite poly1d_rev in Hc.
    - intros p. unfold Rex. rewrite unique_in, in_app_iff. tauto.
    - apply unique_nodup.
  Qed.
  Lemma nearby_ver_grown pts sd ov tol k init fuel : forall a b c d s r,
    nv fuel pts sd ov tol k a b c d s = Ok r ->
    grown fst snd tol k pts init s -> grown fst snd tol k pts init r.
  Proof.
    induction fuel as [|fuel IH]; intros a b c d s r H G; [discriminate|].
    unfold nv in *. cbn [nearby_ver_loop] in H. cbv zeta in H.
    set (near := filter _ pts) in H. destruct near as [|p0 near'] eqn:En; [injection H as <-; assumption|].
    rewrite <- En in H. clear p0 near' En. unfold get_nearby_ver_points in H.
    destruct (polyfit (map fst s) (map snd s) k) as [v|e] eqn:Ef; cbn [bind] in H; [|discriminate].
    set (nb := filter _ near) in H. destruct nb as [|p0 nb'] eqn:En; [injection H as <-; assumption|].
    rewrite <- En in H. clear p0 nb' En.
    apply IH in H; [assumption|]. apply grown_more with (s := s) (v := v) (new := nb); [assumption|now apply Hfit| | |].
    - intros p Hp. unfold nb in Hp. apply filter_In in Hp. destruct Hp as [Hp Hc]. unfold near in Hp. apply filter_In in Hp.
      split; [tauto|]. unfold Rex in Hc. cbn [nleb Rnum nabs nsub] in Hc. apply Rle_bool_true_iff in Hc.
      change (Rnum (fun x => x)) with Rex in Hc. now rewrite poly1d_rev in Hc.
    - intros p. unfold Rex. rewrite unique_in, in_app_iff. tauto.
    - apply unique_nodup.
  Qed.
End Nearby.

(** *** Termination *)
Section Term.
  Variable polyfit : list R -> list R -> nat -> res (list R).
  Let nh := @nearby_hor_loop R Rex polyfit.
  Let nv := @nearby_ver_loop R Rex polyfit.
  Lemma filter_nil {A} (f : A -> bool) l : (forall a, In a l -> f a = false) -> filter f l = [].
  Proof. intros H. induction l as [|a l IH]; cbn; [reflexivity|]. rewrite H by now left. apply IH. intros; apply H; now right. Qed.
  (** Every coordinate is within B of 0. *)
  Lemma nh_stop pts sd r tol k B x0 x1 : 0 <= r <= 1 -> (forall p, In p pts -> Rabs (snd p) <= B) ->
    0 < sd -> forall n i s fuel, (n < fuel)%nat ->
    B + Rabs x0 + Rabs x1 <= (INR (n + i) - 1) * sd ->
    nh fuel pts sd (sd * r) tol k (x1 + INR i * sd) (x1 + INR i * sd + sd) (x0 - INR i * sd) (x0 - INR i * sd - sd) s
    = nh (S n) pts sd (sd * r) tol k (x1 + INR i * sd) (x1 + INR i * sd + sd) (x0 - INR i * sd) (x0 - INR i * sd - sd) s.
  Proof.
    intros Hr HB Hsd. induction n as [|n IH]; intros i s fuel Hf Hn; (destruct fuel as [|fuel]; [lia|]).
    - unfold nh in *. cbn [nearby_hor_loop]. cbv zeta. rewrite filter_nil; [reflexivity|].
      intros p Hp. apply HB in Hp. unfold Rex. cbn [nleb nltb nadd nsub Rnum].
      change (0 + i)%nat with i in Hn.
      assert (E0 := Rle_abs (- x1)). rewrite Rabs_Ropp in E0. assert (E1 := Rle_abs x0). assert (E2 := Rle_abs (snd p)).
      assert (E3 := Rle_abs (- snd p)). rewrite Rabs_Ropp in E3.
      assert (E4 := Rabs_pos x0). assert (E5 := Rabs_pos x1). assert (G : sd * r <= sd) by nra.
      rewrite (Rlt_bool_false (x1 + INR i * sd - sd * r) (snd p)) by lra.
      rewrite (Rlt_bool_false (snd p) (x0 - INR i * sd + sd * r)) by lra. now rewrite !andb_false_r.
    - unfold nh in *. set (m := S n) in *. cbn [nearby_hor_loop]. cbv zeta.
      destruct (filter _ pts) as [|p0 near']; [reflexivity|]. set (near := p0 :: near').
      destruct (@get_nearby_hor_points R Rex polyfit s near tol k) as [[|q nb]|e]; cbn [bind]; try reflexivity.
      specialize (IH (S i)). replace (x1 + INR i * sd + sd) with (x1 + INR (S i) * sd) by (rewrite S_INR; ring).
      replace (x0 - INR i * sd - sd) with (x0 - INR (S i) * sd) by (rewrite S_INR; ring).
      unfold m. apply IH; [lia|]. replace (n + S i)%nat with (S n + i)%nat by lia. exact Hn.
  Qed.
  Lemma nh_stop0 pts sd r tol k x0 x1 s fuel : 0 <= r <= 1 -> sd <= 0 ->
    nh (S fuel) pts sd (sd * r) tol k x1 (x1 + sd) x0 (x0 - sd) s = Ok s.
  Proof.
    intros Hr Hsd. unfold nh. cbn [nearby_hor_loop]. cbv zeta. rewrite filter_nil; [reflexivity|].
    intros p _. unfold Rex. cbn [nleb nltb nadd nsub Rnum]. assert (sd * r <= 0) by nra.
    destruct (Rlt_le_dec (x1 - sd * r) (snd p)).
    - rewrite (Rle_bool_false (snd p)) by lra. cbn [andb orb].
      destruct (Rlt_le_dec (snd p) (x0 + sd * r)); [rewrite (Rle_bool_false (x0 - sd - sd * r)) by lra; reflexivity|].
      rewrite (Rlt_bool_false (snd p) (x0 + sd * r)) by lra. apply andb_false_r.
    - rewrite (Rlt_bool_false (x1 - sd * r)) by lra. rewrite andb_false_r. cbn [orb].
      destruct (Rlt_le_dec (snd p) (x0 + sd * r)); [rewrite (Rle_bool_false (x0 - sd - sd * r)) by lra; reflexivity|].
      rewrite (Rlt_bool_false (snd p) (x0 + sd * r)) by lra. apply andb_false_r.
  Qed.
  Lemma nv_stop pts sd r tol k B x0 x1 : 0 <= r <= 1 -> (forall p, In p pts -> Rabs (fst p) <= B) ->
    0 < sd -> forall n i s fuel, (n < fuel)%nat ->
    B + Rabs x0 + Rabs x1 <= (INR (n + i) - 1) * sd ->
    nv fuel pts sd (sd * r) tol k (x1 + INR i * sd) (x1 + INR i * sd + sd) (x0 - INR i * sd) (x0 - INR i * sd - sd) s
    = nv (S n) pts sd (sd * r) tol k (x1 + INR i * sd) (x1 + INR i * sd + sd) (x0 - INR i * sd) (x0 - INR i * sd - sd) s.
  Proof.
    intros Hr HB Hsd. induction n as [|n IH]; intros i s fuel Hf Hn; (destruct fuel as [|fuel]; [lia|]).
    - unfold nv in *. cbn [nearby_ver_loop]. cbv zeta. rewrite filter_nil; [reflexivity|].
      intros p Hp. apply HB in Hp. unfold Rex. cbn [nleb nltb nadd nsub Rnum].
      change (0 + i)%nat with i in Hn.
      assert (E0 := Rle_abs (- x1)). rewrite Rabs_Ropp in E0. assert (E1 := Rle_abs x0). assert (E2 := Rle_abs (fst p)).
      assert (E3 := Rle_abs (- fst p)). rewrite Rabs_Ropp in E3.
      assert (E4 := Rabs_pos x0). assert (E5 := Rabs_pos x1). assert (G : sd * r <= sd) by nra.
      rewrite (Rlt_bool_false (x1 + INR i * sd - sd * r) (fst p)) by lra.
      rewrite (Rlt_bool_false (fst p) (x0 - INR i * sd + sd * r)) by lra. now rewrite !andb_false_r.
    - unfold nv in *. set (m := S n) in *. cbn [nearby_ver_loop]. cbv zeta.
      destruct (filter _ pts) as [|p0 near']; [reflexivity|]. set (near := p0 :: near').
      destruct (@get_nearby_ver_points R Rex polyfit s near tol k) as [[|q nb]|e]; cbn [bind]; try reflexivity.
      specialize (IH (S i)). replace (x1 + INR i * sd + sd) with (x1 + INR (S i) * sd) by (rewrite S_INR; ring).
      replace (x0 - INR i * sd - sd) with (x0 - INR (S i) * sd) by (rewrite S_INR; ring).
      unfold m. apply IH; [lia|]. replace (n + S i)%nat with (S n + i)%nat by lia. exact Hn.
  Qed.
  Lemma nv_stop0 pts sd r tol k x0 x1 s fuel : 0 <= r <= 1 -> sd <= 0 ->
    nv (S fuel) pts sd (sd * r) tol k x1 (x1 + sd) x0 (x0 - sd) s = Ok s.
  Proof.
    intros Hr Hsd. unfold nv. cbn [nearby_ver_loop]. cbv zeta. rewrite filter_nil; [reflexivity|].
    intros p _. unfold Rex. cbn [nleb nltb nadd nsub Rnum]. assert (sd * r <= 0) by nra.
    destruct (Rlt_le_dec (x1 - sd * r) (fst p)).
    - rewrite (Rle_bool_false (fst p)) by lra. cbn [andb orb].
      destruct (Rlt_le_dec (fst p) (x0 + sd * r)); [rewrite (Rle_bool_false (x0 - sd - sd * r)) by lra; reflexivity|].
      rewrite (Rlt_bool_false (fst p) (x0 + sd * r)) by lra. apply andb_false_r.
    - rewrite (Rlt_bool_false (x1 - sd * r)) by lra. rewrite andb_false_r. cbn [orb].
      destruct (Rlt_le_dec (fst p) (x0 + sd * r)); [rewrite (Rle_bool_false (x0 - sd - sd * r)) by lra; reflexivity|].
      rewrite (Rlt_bool_false (fst p) (x0 + sd * r)) by lra. apply andb_false_r.
  Qed.
  Lemma nh_done pts sd r tol k B x0 x1 : (forall xs ys j, polyfit xs ys j <> Err External) ->
    0 <= r <= 1 -> (forall p, In p pts -> Rabs (snd p) <= B) ->
    0 < sd -> forall n i s, B + Rabs x0 + Rabs x1 <= (INR (n + i) - 1) * sd ->
    nh (S n) pts sd (sd * r) tol k (x1 + INR i * sd) (x1 + INR i * sd + sd) (x0 - INR i * sd) (x0 - INR i * sd - sd) s
    <> Err External.
  Proof.
    intros HE Hr HB Hsd. induction n as [|n IH]; intros i s Hn.
    - unfold nh in *. cbn [nearby_hor_loop]. cbv zeta. rewrite filter_nil; [discriminate|].
      intros p Hp. apply HB in Hp. unfold Rex. cbn [nleb nltb nadd nsub Rnum].
      change (0 + i)%nat with i in Hn.
      assert (E0 := Rle_abs (- x1)). rewrite Rabs_Ropp in E0. assert (E1 := Rle_abs x0). assert (E2 := Rle_abs (snd p)).
      assert (E3 := Rle_abs (- snd p)). rewrite Rabs_Ropp in E3.
      assert (E4 := Rabs_pos x0). assert (E5 := Rabs_pos x1). assert (G : sd * r <= sd) by nra.
      rewrite (Rlt_bool_false (x1 + INR i * sd - sd * r) (snd p)) by lra.
      rewrite (Rlt_bool_false (snd p) (x0 - INR i * sd + sd * r)) by lra. now rewrite !andb_false_r.
    - unfold nh in *. set (m := S n) in *. cbn [nearby_hor_loop]. cbv zeta.
      destruct (filter _ pts) as [|p0 near']; [discriminate|]. set (near := p0 :: near').
      destruct (@get_nearby_hor_points R Rex polyfit s near tol k) as [[|q nb]|e] eqn:E; cbn [bind]; try discriminate.
      + specialize (IH (S i)). replace (x1 + INR i * sd + sd) with (x1 + INR (S i) * sd) by (rewrite S_INR; ring).
        replace (x0 - INR i * sd - sd) with (x0 - INR (S i) * sd) by (rewrite S_INR; ring).
        apply IH. replace (n + S i)%nat with (S n + i)%nat by lia. exact Hn.
      + unfold get_nearby_hor_points in E. destruct (polyfit _ _ k) eqn:Ep; cbn [bind] in E; [discriminate|].
        injection E as <-. intros H. injection H as ->. now apply (HE _ _ _ Ep).
  Qed.
  Lemma nv_done pts sd r tol k B x0 x1 : (forall xs ys j, polyfit xs ys j <> Err External) ->
    0 <= r <= 1 -> (forall p, In p pts -> Rabs (fst p) <= B) ->
    0 < sd -> forall n i s, B + Rabs x0 + Rabs x1 <= (INR (n + i) - 1) * sd ->
    nv (S n) pts sd (sd * r) tol k (x1 + INR i * sd) (x1 + INR i * sd + sd) (x0 - INR i * sd) (x0 - INR i * sd - sd) s
    <> Err External.
  Proof.
    intros HE Hr HB Hsd. induction n as [|n IH]; intros i s Hn.
    - unfold nv in *. cbn [nearby_ver_loop]. cbv zeta. rewrite filter_nil; [discriminate|].
      intros p Hp. apply HB in Hp. unfold Rex. cbn [nleb nltb nadd nsub Rnum].
      change (0 + i)%nat with i in Hn.
      assert (E0 := Rle_abs (- x1)). rewrite Rabs_Ropp in E0. assert (E1 := Rle_abs x0). assert (E2 := Rle_abs (fst p)).
      assert (E3 := Rle_abs (- fst p)). rewrite Rabs_Ropp in E3.
      assert (E4 := Rabs_pos x0). assert (E5 := Rabs_pos x1). assert (G : sd * r <= sd) by nra.
      rewrite (Rlt_bool_false (x1 + INR i * sd - sd * r) (fst p)) by lra.
      rewrite (Rlt_bool_false (fst p) (x0 - INR i * sd + sd * r)) by lra. now rewrite !andb_false_r.
    - unfold nv in *. set (m := S n) in *. cbn [nearby_ver_loop]. cbv zeta.
      destruct (filter _ pts) as [|p0 near']; [discriminate|]. set (near := p0 :: near').
      destruct (@get_nearby_ver_points R Rex polyfit s near tol k) as [[|q nb]|e] eqn:E; cbn [bind]; try discriminate.
      + specialize (IH (S i)). replace (x1 + INR i * sd + sd) with (x1 + INR (S i) * sd) by (rewrite S_INR; ring).
        replace (x0 - INR i * sd - sd) with (x0 - INR (S i) * sd) by (rewrite S_INR; ring).
        apply IH. replace (n + S i)%nat with (S n + i)%nat by lia. exact Hn.
      + unfold get_nearby_ver_points in E. destruct (polyfit _ _ k) eqn:Ep; cbn [bind] in E; [discriminate|].
        injection E as <-. intros H. injection H as ->. now apply (HE _ _ _ Ep).
  Qed.
End Term.
Lemma bound_exists (u : pt -> R) pts : exists B, forall p, In p pts -> Rabs (u p) <= B.
Proof.
  induction pts as [|q pts [B H]]; [exists 0; intros ? []|].
  exists (Rmax (Rabs (u q)) B). intros p [<-|Hp]; [apply Rmax_l|]. eapply Rle_trans; [apply H; assumption|apply Rmax_r].
Qed.
Lemma steps_exists c sd : 0 < sd -> exists n, c <= (INR n - 1) * sd.
Proof.
  intros H. destruct (archimed (c / sd + 1)) as [Hu _]. set (z := up (c / sd + 1)) in *. exists (Z.to_nat z).
  assert (Hz : c / sd + 1 < INR (Z.to_nat z)).
  { destruct (Z_le_gt_dec 0 z) as [Hz|Hz]; [rewrite INR_IZR_INZ, Z2Nat.id by assumption; lra|].
    assert (IZR z < 0) by (apply IZR_lt; lia). pose proof (pos_INR (Z.to_nat z)). lra. }
  assert (E : c = c / sd * sd) by (field; lra). rewrite E at 1. apply Rmult_le_compat_r; lra.
Qed.

(** The search ends for every input. *)
Lemma hor_iter_terminates polyfit init pts xl xr sd tol ov k : (forall xs ys j, polyfit xs ys j <> Err External) ->
  exists n, @get_nearby_hor_points_iter R Rex polyfit n init pts xl xr sd tol ov k <> Err External /\
  forall fuel, (n <= fuel)%nat ->
    @get_nearby_hor_points_iter R Rex polyfit fuel init pts xl xr sd tol ov k =
    @get_nearby_hor_points_iter R Rex polyfit n init pts xl xr sd tol ov k.
Proof.
  intros HE. unfold get_nearby_hor_points_iter. cbv zeta.
  set (r := @nclip R Rex ov n0 n1).
  assert (Hr : 0 <= r <= 1).
  { unfold r, Rex. rewrite nclip_R by (unfold n0, n1; cbn; lra). apply (clamp_range ov 0 1); lra. }
  clearbody r.
  change (@nmul R Rex sd r) with (sd * r). change (@nadd R Rex xr sd) with (xr + sd). change (@nsub R Rex xl sd) with (xl - sd).
  destruct (Rle_lt_dec sd 0) as [Hs|Hs].
  - exists 1%nat. split; [rewrite nh_stop0 by assumption; discriminate|]. intros [|fuel] Hf; [lia|]. now rewrite !nh_stop0.
  - destruct (bound_exists snd pts) as [B HB]. destruct (steps_exists (B + Rabs xl + Rabs xr) sd Hs) as [n Hn].
    pose proof (nh_stop polyfit pts sd r tol k B xl xr Hr HB Hs n 0) as H.
    pose proof (nh_done polyfit pts sd r tol k B xl xr HE Hr HB Hs n 0) as D.
    rewrite Nat.add_0_r in H, D. cbn [INR] in H, D. rewrite Rmult_0_l, Rplus_0_r, Rminus_0_r in H, D.
    exists (S n). split; [now apply D|]. intros fuel Hf. apply H; [lia|assumption].
Qed.
Lemma ver_iter_terminates polyfit init pts xl xr sd tol ov k : (forall xs ys j, polyfit xs ys j <> Err External) ->
  exists n, @get_nearby_ver_points_iter R Rex polyfit n init pts xl xr sd tol ov k <> Err External /\
  forall fuel, (n <= fuel)%nat ->
    @get_nearby_ver_points_iter R Rex polyfit fuel init pts xl xr sd tol ov k =
    @get_nearby_ver_points_iter R Rex polyfit n init pts xl xr sd tol ov k.
Proof.
  intros HE. unfold get_nearby_ver_points_iter. cbv zeta.
  set (r := @nclip R Rex ov n0 n1).
  assert (Hr : 0 <= r <= 1).
  { unfold r, Rex. rewrite nclip_R by (unfold n0, n1; cbn; lra). apply (clamp_range ov 0 1); lra. }
  clearbody r.
  change (@nmul R Rex sd r) with (sd * r). change (@nadd R Rex xr sd) with (xr + sd). change (@nsub R Rex xl sd) with (xl - sd).
  destruct (Rle_lt_dec sd 0) as [Hs|Hs].
  - exists 1%nat. split; [rewrite nv_stop0 by assumption; discriminate|]. intros [|fuel] Hf; [lia|]. now rewrite !nv_stop0.
  - destruct (bound_exists fst pts) as [B HB]. destruct (steps_exists (B + Rabs xl + Rabs xr) sd Hs) as [n Hn].
    pose proof (nv_stop polyfit pts sd r tol k B xl xr Hr HB Hs n 0) as H.
    pose proof (nv_done polyfit pts sd r tol k B xl xr HE Hr HB Hs n 0) as D.
    rewrite Nat.add_0_r in H, D. cbn [INR] in H, D. rewrite Rmult_0_l, Rplus_0_r, Rminus_0_r in H, D.
    exists (S n). split; [now apply D|]. intros fuel Hf. apply H; [lia|assumption].
Qed.
