(** Small labelled images, used to show that hypotheses can be met. *)
From Coq Require Import Reals ZArith List Lra Lia Bool.
From Verif Require Import Base Num Img Spec NumFacts PrepSpec PrepImg PrepImgFacts.
Import ListNotations.
Local Open Scope Z_scope.

Lemma conn_set m p q : connected m p q -> set_pixel m q.
Proof. now destruct 1. Qed.
Lemma conn_set_l m p q : connected m p q -> set_pixel m p.
Proof. now induction 1. Qed.
Lemma conn_trans m p q r : connected m p q -> connected m q r -> connected m p r.
Proof. intros H K. induction K as [|q s t K IH A S]; [assumption|]. apply conn_step with s; auto. Qed.
Lemma conn_sym m p q : connected m p q -> connected m q p.
Proof.
  induction 1 as [p H|p q r H IH A S]; [now constructor|].
  apply conn_trans with q; [|assumption]. apply conn_step with r; [now constructor| |exact (conn_set _ _ _ H)].
  unfold adjacent in *. lia.
Qed.
(** A label image is right if neighbours agree and every dot hangs together
    with one of its pixels. *)
Lemma labelling_intro m lab n : ih lab = ih m -> iw lab = iw m -> 0 <= n ->
  (forall p, in_img m (fst p) (snd p) ->
     0 <= px lab (fst p) (snd p) <= n /\ (px lab (fst p) (snd p) <> 0 <-> px m (fst p) (snd p) <> 0%R)) ->
  (forall p q, set_pixel m p -> set_pixel m q -> adjacent p q -> px lab (fst p) (snd p) = px lab (fst q) (snd q)) ->
  (forall k, 1 <= k <= n -> exists r, set_pixel m r /\ px lab (fst r) (snd r) = k /\
     forall p, set_pixel m p -> px lab (fst p) (snd p) = k -> connected m r p) ->
  labelling m lab n.
Proof.
  intros Eh Ew Hn H1 H2 H3. split; [assumption|]. split; [assumption|]. split; [assumption|]. split; [assumption|]. split.
  - intros k Hk. destruct (H3 k Hk) as [r [[Hr _] [E _]]]. eauto.
  - intros p q Hp Hq. split.
    + intros E. destruct (H1 p (proj1 Hp)) as [B1 B2]. assert (px lab (fst p) (snd p) <> 0) by (apply B2; apply Hp).
      destruct (H3 (px lab (fst p) (snd p)) ltac:(lia)) as [r [_ [_ Hr]]].
      apply conn_trans with r; [apply conn_sym|]; apply Hr; auto.
    + intros C. induction C as [|p q r C IH A S]; [reflexivity|]. rewrite IH; [|assumption|exact (conn_set _ _ _ C)].
      apply H2; [exact (conn_set _ _ _ C)|assumption|assumption].
Qed.

(** A row of single-pixel dots in the even columns. *)
Definition row_img (w : Z) : image R := mkimg 1 w (fun _ j => if Z.even j then 1%R else 0%R).
Definition row_lab (w : Z) : image Z := mkimg 1 w (fun _ j => if Z.even j then j / 2 + 1 else 0).
Lemma row_set w p : set_pixel (row_img w) p <-> fst p = 0 /\ 0 <= snd p < w /\ Z.even (snd p) = true.
Proof.
  unfold set_pixel, row_img, in_img. cbn. destruct (Z.even (snd p)).
  - split; [intros; lia|]. intros H. split; [lia|lra].
  - split; [intros [_ H]; lra|intros [_ [_ H]]; discriminate].
Qed.
Lemma row_labelling w : 0 <= w -> labelling (row_img w) (row_lab w) ((w + 1) / 2).
Proof.
  intros Hw. apply labelling_intro; try reflexivity.
  - apply Z.div_pos; lia.
  - intros p [Hp1 Hp2]. cbn in Hp1, Hp2 |- *. destruct (Z.even (snd p)) eqn:E.
    + split; [split|].
      * assert (0 <= snd p / 2) by (apply Z.div_pos; lia). lia.
      * apply Zeven_bool_iff in E. apply Zeven_ex in E. destruct E as [q E]. rewrite E, Z.mul_comm, Z.div_mul by lia.
        apply Z.div_le_lower_bound; lia.
      * split; [intros _; lra|]. intros _. assert (0 <= snd p / 2) by (apply Z.div_pos; lia). lia.
    + split; [split; [lia|apply Z.div_pos; lia]|]. split; [congruence|intros H; lra].
  - intros p q Hp Hq A. apply row_set in Hp, Hq. exfalso. unfold adjacent in A.
    destruct Hp as [P1 [P2 P3]], Hq as [Q1 [Q2 Q3]]. rewrite P1, Q1 in A.
    apply Zeven_bool_iff, Zeven_ex in P3, Q3. destruct P3 as [a P3], Q3 as [b Q3]. lia.
  - intros k Hk. exists (0, 2 * (k - 1)). 
    assert (D := Z.mul_div_le (w + 1) 2 ltac:(lia)).
    assert (S : set_pixel (row_img w) (0, 2 * (k - 1))).
    { apply row_set. cbn [fst snd]. split; [reflexivity|]. split; [lia|]. now rewrite Z.even_mul. }
    split; [assumption|]. split.
    + cbn [fst snd row_lab px]. rewrite Z.even_mul. cbn [Z.even orb]. rewrite Z.mul_comm, Z.div_mul by lia. lia.
    + intros p Hp E. apply row_set in Hp. destruct Hp as [P1 [P2 P3]]. cbn [row_lab px] in E. rewrite P3 in E.
      apply Zeven_bool_iff, Zeven_ex in P3. destruct P3 as [a P3]. rewrite P3, Z.mul_comm, Z.div_mul in E by lia.
      replace p with (0, 2 * (k - 1)); [now constructor|]. destruct p as [i j]. cbn [fst snd] in *. f_equal; lia.
Qed.
Lemma row_int16 w : int16_image (row_img w).
Proof. intros i j _. cbn. destruct (Z.even j); [exists 1|exists 0]; split; try lia; reflexivity. Qed.
Lemma row_binary w : binary_image (row_img w).
Proof. intros i j _. cbn. destruct (Z.even j); tauto. Qed.

(** An L-shaped dot around a single-pixel dot. *)
Definition hook_set (i j : Z) : bool := (j =? 0) || (i =? 2).
Definition hook_img : image R := mkimg 3 3 (fun i j => if hook_set i j then 1%R else if (i =? 0) && (j =? 2) then 1%R else 0%R).
Definition hook_lab : image Z := mkimg 3 3 (fun i j => if hook_set i j then 1 else if (i =? 0) && (j =? 2) then 2 else 0).
Lemma hook_cases p : in_img hook_img (fst p) (snd p) ->
  In p [(0,0); (1,0); (2,0); (2,1); (2,2); (0,2); (0,1); (1,1); (1,2)].
Proof.
  destruct p as [i j]. unfold in_img. cbn [fst snd ih iw hook_img]. intros [H1 H2].
  assert (i = 0 \/ i = 1 \/ i = 2) as [->|[->| ->]] by lia; assert (j = 0 \/ j = 1 \/ j = 2) as [->|[->| ->]] by lia; cbn; tauto.
Qed.
Ltac hook_case H := apply hook_cases in H; cbn [In] in H; 
  repeat match type of H with _ \/ _ => destruct H as [H|H] end; try contradiction; subst; cbn [fst snd] in *.
Lemma hook_set_pixel p : set_pixel hook_img p <-> In p [(0,0); (1,0); (2,0); (2,1); (2,2); (0,2)].
Proof.
  split.
  - intros [H N]. hook_case H; cbn in N |- *; try tauto; exfalso; apply N; reflexivity.
  - cbn [In]. intros H. repeat match type of H with _ \/ _ => destruct H as [H|H] end; try contradiction; subst p; (split; [unfold in_img; cbn; lia|cbn; lra]).
Qed.
Lemma hook_conn q : In q [(0,0); (1,0); (2,0); (2,1); (2,2)] -> connected hook_img (0, 0) q.
Proof.
  assert (S : forall p, In p [(0,0); (1,0); (2,0); (2,1); (2,2); (0,2)] -> set_pixel hook_img p) by (intros; now apply hook_set_pixel).
  assert (C0 : connected hook_img (0, 0) (0, 0)) by (constructor; apply S; cbn; tauto).
  assert (C1 : connected hook_img (0, 0) (1, 0)) by (apply conn_step with (0, 0); [assumption|unfold adjacent; cbn; lia|apply S; cbn; tauto]).
  assert (C2 : connected hook_img (0, 0) (2, 0)) by (apply conn_step with (1, 0); [assumption|unfold adjacent; cbn; lia|apply S; cbn; tauto]).
  assert (C3 : connected hook_img (0, 0) (2, 1)) by (apply conn_step with (2, 0); [assumption|unfold adjacent; cbn; lia|apply S; cbn; tauto]).
  assert (C4 : connected hook_img (0, 0) (2, 2)) by (apply conn_step with (2, 1); [assumption|unfold adjacent; cbn; lia|apply S; cbn; tauto]).
  cbn [In]. intros H. repeat match type of H with _ \/ _ => destruct H as [H|H] end; try contradiction; subst; assumption.
Qed.
Lemma hook_labelling : labelling hook_img hook_lab 2.
Proof.
  apply labelling_intro; try reflexivity; try lia.
  - intros p H. hook_case H; cbn; split; try lia; (split; [intros; lra || congruence|intros; lia || lra]).
  - intros p q Hp Hq A. apply hook_set_pixel in Hp, Hq. cbn [In] in Hp, Hq. unfold adjacent in A.
    repeat match type of Hp with _ \/ _ => destruct Hp as [Hp|Hp] end; try contradiction; subst p;
    repeat match type of Hq with _ \/ _ => destruct Hq as [Hq|Hq] end; try contradiction; subst q; cbn in A |- *; try lia; reflexivity.
  - intros k Hk. assert (k = 1 \/ k = 2) as [->| ->] by lia.
    + exists (0, 0). split; [apply hook_set_pixel; cbn; tauto|]. split; [reflexivity|].
      intros p Hp E. apply hook_set_pixel in Hp. apply hook_conn. cbn [In] in Hp |- *.
      repeat match type of Hp with _ \/ _ => destruct Hp as [Hp|Hp] end; try contradiction; subst p; try tauto. cbn in E. discriminate.
    + exists (0, 2). split; [apply hook_set_pixel; cbn; tauto|]. split; [reflexivity|].
      intros p Hp E. apply hook_set_pixel in Hp. cbn [In] in Hp.
      repeat match type of Hp with _ \/ _ => destruct Hp as [Hp|Hp] end; try contradiction; subst p; try (cbn in E; discriminate).
      constructor. apply hook_set_pixel; cbn; tauto.
Qed.
Lemma hook_int16 : int16_image hook_img.
Proof. intros i j _. cbn. destruct (hook_set i j); [|destruct ((i =? 0) && (j =? 2))]; [exists 1|exists 1|exists 0]; split; try lia; reflexivity. Qed.
(** Its boxes: the whole image, and one pixel. *)
Lemma hook_box1 : hull_box hook_lab 1 0 3 0 3.
Proof.
  split; [lia|]. split; [lia|]. intros i j. split.
  - intros [[p [q [[H1 _] [[H2 _] H]]]] [p' [q' [[H3 _] [[H4 _] H']]]]]. unfold in_img in *. cbn in *. lia.
  - intros [Hi Hj]. split; exists (0, 0), (2, 2); repeat split; cbn; lia || reflexivity.
Qed.
Lemma hook_box2 : hull_box hook_lab 2 0 1 2 3.
Proof.
  assert (G : forall p, labelled hook_lab 2 p -> p = (0, 2)).
  { intros p [H E]. change (in_img hook_img (fst p) (snd p)) in H. hook_case H; cbn in E; try discriminate; reflexivity. }
  split; [lia|]. split; [lia|]. intros i j. split.
  - intros [[p [q [H1 [H2 H]]]] [p' [q' [H3 [H4 H']]]]]. apply G in H1, H2, H3, H4. subst. cbn in *. lia.
  - intros [Hi Hj]. split; exists (0, 2), (0, 2); repeat split; cbn; lia || reflexivity.
Qed.
