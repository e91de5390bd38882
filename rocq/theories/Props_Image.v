(** Image files written by save_image and read by load_image (C102). *)
From Coq Require Import Ascii String ZArith List Lia Floats.
From Verif Require Import Base Text Fs FsFacts Hdf HdfFacts Num Losa LosaFacts LosaFacts2 LosaFacts3 LosaSpec LosaFacts4 Props_Losa.
Local Open Scope nat_scope.

(** ** C102 *)
(** Two-dimensional data in a TIFF file: load_image gives the saved values as
    float32, whatever the type of the data, the overwrite and the average
    option are.  [s'] is any text for the returned path. *)
Theorem C102_tif : forall {T} {N : Num T} win cwd pil_array pil_ext s s' (im : image T) ow average f f' q,
  is_tif (suffix (get_path win cwd s)) -> List.length (nshape (iarr im)) <= 2 ->
  save_image win cwd pil_array pil_ext s im ow f = (f', Ok q) -> get_path win cwd s' = q ->
  load_image win cwd s' average f' = (f', Ok {| nshape := nshape (iarr im); nval := fun idx => nf32 (nval (iarr im) idx) |}).
Proof.
  intros T N win cwd pil_array pil_ext s s' im ow average f f' q Ht Hl H Hq.
  assert (P : prepare_image (suffix (get_path win cwd s)) im = Ok im).
  { unfold prepare_image. destruct (2 <? Z.of_nat (List.length (nshape (iarr im))))%Z eqn:E; [apply Z.ltb_lt in E; lia|]. destruct Ht as [-> | ->]; reflexivity. }
  pose proof (image_content win cwd pil_array pil_ext s im im ow f f' q P H) as L. subst q.
  exact (C76_plain win cwd s' average f' _ im L (or_intror Hl)).
Qed.
Print Assumptions C102_tif.
(** Data with fewer channels than rows and columns: the mean over the channels,
    again whatever the options are. *)
Theorem C102_tif_channels : forall {T} {N : Num T} win cwd pil_array pil_ext s s' k (a : ndarr T) h w c ow average f f' q,
  is_tif (suffix (get_path win cwd s)) -> nshape a = [h; w; c] -> (c < h)%Z -> (c < w)%Z ->
  save_image win cwd pil_array pil_ext s {| ikind_of := k; iarr := a |} ow f = (f', Ok q) -> get_path win cwd s' = q ->
  exists m, load_image win cwd s' average f' = (f', Ok m) /\ nshape m = [h; w] /\
    forall i j, nval m [i; j] = nf32 (ndiv (nsum (map (fun n => nval a [i; j; n]) (zrange 0 c))) (nofZ c)).
Proof.
  intros T N win cwd pil_array pil_ext s s' k a h w c ow average f f' q Ht Hs H1 H2 H Hq.
  destruct (C76_channels_last a h w c Hs H1 H2) as [_ C]. destruct (C win cwd pil_array pil_ext s f f' q ow k Ht H) as [m [[e L] [S V]]].
  exists (ndmap nf32 (iarr m)). subst q. split; [|split].
  - apply (C76_plain win cwd s' average f' e m L). right. rewrite S. cbn. lia.
  - exact S.
  - intros i j. cbn [ndmap nval]. now rewrite V.
Qed.
Print Assumptions C102_tif_channels.
(** 8-bit data in a file without loss (PNG). *)
Theorem C102_png : forall {T} {N : Num T} win cwd pil_array pil_ext s s' (im : image T) ow average f f' q,
  suffix (get_path win cwd s) = lit ".png" -> ikind_of im = KU8 -> (average = false \/ List.length (nshape (iarr im)) <= 2) ->
  save_image win cwd pil_array pil_ext s im ow f = (f', Ok q) -> get_path win cwd s' = q ->
  load_image win cwd s' average f' = (f', Ok {| nshape := nshape (iarr im); nval := fun idx => nf32 (nval (iarr im) idx) |}).
Proof.
  intros T N win cwd pil_array pil_ext s s' im ow average f f' q Ht Hk Ha H Hq.
  destruct (C75_uint8 win cwd pil_array pil_ext s im ow f f' q) as [e L]; [rewrite Ht; intros [E|E]; discriminate E|exact Hk|exact H|]. subst q.
  exact (C76_plain win cwd s' average f' e im L Ha).
Qed.
Print Assumptions C102_png.
(** Loading changes no file, and everything that is no image (nothing there, a
    directory, another file) is a ValueError. *)
Theorem C102_load_error : forall {T} {N : Num T} win cwd s average (f : @FS T),
  fst (load_image win cwd s average f) = f /\
  ((exists e im, look f (get_path win cwd s) = Some (File (CImage e im))) \/ load_image win cwd s average f = (f, Err ValueError)) /\
  ((exists e im, look f (get_path win cwd s) = Some (File (CImage e im))) -> exists m, load_image win cwd s average f = (f, Ok m)).
Proof.
  intros T N win cwd s average f. unfold load_image, ibind, get, ret, throw.
  destruct (look f (get_path win cwd s)) as [[|[]]|] eqn:E; (split; [reflexivity|]); (split; [|intros [? [? X]]; try discriminate X; eexists; reflexivity]);
    first [now right|left; do 2 eexists; reflexivity].
Qed.
Print Assumptions C102_load_error.
Definition two_by_three : image PrimFloat.float := {| ikind_of := KFloat; iarr := {| nshape := [2; 3]%Z; nval := fun idx => match idx with [0; 0]%Z => 0.5%float | _ => (-3)%float end |} |}.
Example C102_ex : exists f' q, save_image (N := FloatNum) false home (fun _ => true) (fun _ _ => true) (lit "out/a.tif") two_by_three false [(home, Dir); (home ++ [lit "out"; lit "a.tif"], Dir)] = (f', Ok q) /\
  q = home ++ [lit "out"; lit "a_0000.tif"] /\ get_path false home (posix q) = q /\ is_tif (suffix (get_path false home (lit "out/a.tif"))) /\
  (exists m, load_image (N := FloatNum) false home (posix q) true f' = (f', Ok m) /\ nshape m = [2; 3]%Z /\ nval m [1; 2]%Z = (-3)%float) /\
  load_image (N := FloatNum) false home (lit "out/a.tif") true f' = (f', Err ValueError).
Proof.
  assert (S : exists f', save_image (N := FloatNum) false home (fun _ => true) (fun _ _ => true) (lit "out/a.tif") two_by_three false [(home, Dir); (home ++ [lit "out"; lit "a.tif"], Dir)] =
    (f', Ok (home ++ [lit "out"; lit "a_0000.tif"])) /\ look f' (home ++ [lit "out"; lit "a.tif"]) = Some Dir) by (eexists; split; [vm_compute; reflexivity|reflexivity]).
  destruct S as [f' [S D]]. exists f', (home ++ [lit "out"; lit "a_0000.tif"]).
  assert (G : get_path false home (posix (home ++ [lit "out"; lit "a_0000.tif"])) = home ++ [lit "out"; lit "a_0000.tif"]) by reflexivity.
  assert (I : is_tif (suffix (get_path false home (lit "out/a.tif")))) by (left; reflexivity).
  split; [exact S|]. split; [reflexivity|]. split; [exact G|]. split; [exact I|]. split.
  - pose proof (C102_tif false home (fun _ => true) (fun _ _ => true) _ _ two_by_three false true _ f' _ I (le_n 2) S G) as L.
    eexists. split; [exact L|]. split; [reflexivity|]. vm_compute. reflexivity.
  - destruct (C102_load_error (N := FloatNum) false home (lit "out/a.tif") true f') as [_ [[[e [im E]]|E] _]]; [|exact E].
    pose proof (eq_trans (eq_sym D) E) as X. discriminate X.
Qed.
