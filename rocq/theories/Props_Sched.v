(** C122: saving while other processes save, and crashes. *)
From Coq Require Import Ascii String Lia.
From Verif Require Import Base Text Fs FsFacts Json Hdf Num Losa LosaSpec LosaFacts LosaFacts2 LosaFacts3 LosaFacts4 LosaFacts5 JsonFacts JsonSpec MetaFacts Props_Losa Props_Meta Props_Json Sched SchedFacts.
Local Open Scope nat_scope.

(** The text arrives in the file in pieces. *)
Definition pieces (cut : text -> list text) : Prop := forall t, List.concat (cut t) = t.
(** The calls of save functions and the processes that execute them. *)
Inductive in_steps {T} {N : Num T} (win : bool) (cwd : path) : io (@FS T) path -> @job T -> Prop :=
| st_txt str_ cut s x y facts ow j : pieces cut -> txt_job win cwd str_ cut s x y facts ow = Ok j ->
    in_steps win cwd (save_metadata_txt win cwd str_ s x y facts ow) j
| st_json X repr (to_float : X -> res T) cut s x y facts ow j : pieces cut -> json_job win cwd repr to_float cut s x y facts ow = Ok j ->
    in_steps win cwd (save_metadata_json win cwd repr to_float s x y facts ow) j
| st_pkl P (pdump : P -> text * option exn) cut s v ow j : pieces cut -> pkl_job win cwd pdump cut s v ow = Ok j ->
    in_steps win cwd (save_python_list win cwd pdump s v ow) j
| st_hdf mid s idata key ow j : hdf_job win cwd mid s idata key ow = Ok j ->
    in_steps win cwd (save_hdf_file win cwd s idata key ow) j
| st_stream s shape key dt ow options j : stream_job win cwd s shape key dt ow options = Ok j ->
    in_steps win cwd (open_hdf_stream win cwd s shape key dt ow options) j
| st_image pil_array pil_ext mid s im ow j : image_job win cwd pil_array pil_ext mid s im ow = Ok j ->
    in_steps win cwd (save_image win cwd pil_array pil_ext s im ow) j
| st_plot mpl_format mid s ow m : has_format_spec (pname (get_path win cwd s)) ->
    m = save_plot_image win cwd mpl_format s ow \/ m = save_residual_plot win cwd mpl_format s ow \/ m = save_plot_points win cwd mpl_format s ow ->
    in_steps win cwd m (fig_job win cwd mpl_format mid s ow).

Lemma ok_inj {A} (x y : A) : Ok x = Ok y -> x = y.
Proof. congruence. Qed.
Lemma ibind_eq {S A B} (m : io S A) (k : A -> io S B) s : ibind m k s = match m s with (s', Ok a) => k a s' | (s', Err e) => (s', Err e) end.
Proof. reflexivity. Qed.
Section Steps.
  Context {T : Type} {N : Num T}.
  Variables (win : bool) (cwd : path).
  Local Notation FS := (@FS T).
  Local Notation job := (@job T).

  Lemma growing_cons (K : text -> @content T) l : growing K l = K [] :: map (fun i => K (List.concat (firstn i l))) (seq 1 (List.length l)).
  Proof. reflexivity. Qed.
  Lemma last_map_seq {A} (g : nat -> A) n d : List.last (map g (seq 1 n)) d = match n with 0 => d | _ => g n end.
  Proof.
    destruct n; [reflexivity|]. rewrite seq_S, map_app. cbn [map]. now rewrite last_last.
  Qed.
  Lemma growing_last (K : text -> @content T) l : exists cs, growing K l = K [] :: cs /\ List.last cs (K []) = K (List.concat l).
  Proof.
    eexists. split; [apply growing_cons|]. rewrite last_map_seq. destruct l as [|a l]; [reflexivity|].
    cbn [List.length]. change (S (List.length l)) with (List.length (a :: l)). now rewrite firstn_all.
  Qed.
  Lemma write_snd (g : FS) q (c c' : @content T) : snd (write_file q c g) = snd (write_file q c' g).
  Proof. unfold write_file. destruct (look g q) as [[]|]; destruct (look g (parent q)) as [[]|]; reflexivity. Qed.
  Lemma write_cases (g : FS) q (c : @content T) : (exists e, forall c', write_file q c' g = (g, Err e)) \/ (q <> [] /\ forall c', write_file q c' g = ((q, File c') :: g, Ok tt)).
  Proof.
    destruct (write_file q c g) as [g' r] eqn:E. destruct (write_file_spec _ _ _ _ _ E) as [[e [-> ->]]|[-> [-> [Nq [L1 L2]]]]].
    - left. exists e. intros c'. pose proof (write_snd g q c c') as H. rewrite E in H. cbn [snd] in H. destruct (write_file q c' g) as [g2 r2] eqn:E2. cbn [snd] in H. subst r2.
      destruct (write_file_spec _ _ _ _ _ E2) as [[e' [H ->]]|[H _]]; [reflexivity|discriminate].
    - right. split; [exact Nq|]. intros c'. now apply write_ok.
  Qed.
  Lemma same_refl {C} (f : fs C) : same_look f f. Proof. now intros p. Qed.

  Lemma text_like p ow cut t e : pieces cut -> writes_like (T := T) {| jpath := p; jover := ow; jtrace := fun _ => growing CText (cut t); jend := to_end e; jfail := same |} (w_text t e).
  Proof.
    intros Hc q g _. cbn [jtrace jend jfail]. destruct (growing_last CText (cut t)) as [cs [-> L]]. rewrite (Hc t) in L. unfold w_text, ibind.
    destruct (write_cases g q (CText [])) as [[x W]|[Nq W]]; rewrite !W; [reflexivity|].
    exists ((q, File (CText t)) :: g). rewrite L. split; [destruct e; reflexivity|apply same_refl].
  Qed.
  Lemma bytes_like p ow cut t e : pieces cut -> writes_like (T := T) {| jpath := p; jover := ow; jtrace := fun _ => growing CBytes (cut t); jend := to_end e; jfail := same |} (w_bytes t e).
  Proof.
    intros Hc q g _. cbn [jtrace jend jfail]. destruct (growing_last CBytes (cut t)) as [cs [-> L]]. rewrite (Hc t) in L. unfold w_bytes, ibind.
    destruct (write_cases g q (CBytes [])) as [[x W]|[Nq W]]; rewrite !W; [reflexivity|].
    exists ((q, File (CBytes t)) :: g). rewrite L. split; [destruct e; reflexivity|apply same_refl].
  Qed.
  Lemma twice (g : FS) q (a b : @content T) : q <> [] -> same_look ((q, File a) :: (q, File b) :: g) ((q, File a) :: g).
  Proof.
    intros Nq p. destruct (list_eq_dec (list_eq_dec Ascii.ascii_dec) p q) as [->|Ne]; [now rewrite !look_cons_same|]. now rewrite !look_cons_other.
  Qed.
  Lemma hdf_like mid s (idata : dset T) key ow j : hdf_job win cwd mid s idata key ow = Ok j ->
    jover j = ow /\ target win cwd hdf_exts (lit ".hdf") s = Ok (jpath j) /\ writes_like j (w_hdf idata key).
  Proof.
    unfold hdf_job, target. destruct (default_ext _ _ _) as [p|]; [|discriminate]. cbn [bind]. intros H. apply ok_inj in H.
    destruct (hcreate (comps key) (HGroup (HHard (lit "data") (HData idata) HNil)) HNil) as [root|e] eqn:E; subst j; cbn [jover jpath]; (split; [reflexivity|]); (split; [reflexivity|]);
      intros q g _; cbn [jtrace jend jfail app]; unfold w_hdf, ibind, as_value_error, lift, update_file, ret; rewrite E;
      (destruct (write_cases g q (CHdf HNil)) as [[x W]|[Nq W]]; rewrite !W; [reflexivity|]).
    - eexists. split; [reflexivity|]. rewrite last_last. now apply twice.
    - eexists. split; [reflexivity|]. apply same_refl.
  Qed.
  Lemma stream_loop key dt shape q (opts : list (text * dset T)) : forall (root : hitems T) (g : FS), q <> [] -> look g q = Some (File (CHdf root)) ->
    exists g', (root2 <-- stream_options key q root opts ;; root' <-- lift (hcreate (comps key) (HData (zeros dt shape)) root2) ;; _ <-- update_file q (CHdf root') ;; ret q) g
      = (g', to_end (snd (stream_trace key dt shape root opts)) q) /\
    same_look g' ((q, File (List.last (fst (stream_trace key dt shape root opts)) (CHdf root))) :: g).
  Proof.
    assert (Id : forall (g : FS) c, q <> [] -> look g q = Some (File c) -> same_look g ((q, File c) :: g)).
    { intros g c Nq L p. destruct (list_eq_dec (list_eq_dec Ascii.ascii_dec) p q) as [->|Ne]; [now rewrite look_cons_same|]. now rewrite look_cons_other. }
    induction opts as [|[k d] opts IH]; intros root g Nq L; cbn [stream_options stream_trace].
    - unfold ibind, ret, lift, update_file, zeros. destruct (hcreate _ _ root) as [root'|e]; cbn [fst snd to_end List.last]; eexists; (split; [reflexivity|]); [apply same_refl|now apply Id].
    - destruct (contains key k); [exists g; split; [reflexivity|now apply Id]|].
      unfold ibind at 1 2. unfold lift at 1. destruct (hcreate (comps k) (HData d) root) as [root'|e]; [|exists g; split; [reflexivity|now apply Id]].
      destruct (IH root' ((q, File (CHdf root')) :: g) Nq (look_cons_same _ _ _ Nq)) as [g' [R S]]. exists g'.
      destruct (stream_trace key dt shape root' opts) as [t e] eqn:E. cbn [fst snd] in *. split.
      + rewrite <- R. unfold ibind at 1 2. unfold update_file at 1. reflexivity.
      + intros p. rewrite S. rewrite (twice g q _ _ Nq p). destruct (list_eq_dec (list_eq_dec Ascii.ascii_dec) p q) as [->|Ne]; [|now rewrite !look_cons_other].
        rewrite !look_cons_same by exact Nq. f_equal. f_equal. destruct t; [reflexivity|]. clear. revert c. induction t as [|y t IHt]; intros c; [reflexivity|]. cbn [List.last] in *. apply IHt.
  Qed.
  Lemma stream_like s shape key dt ow (options : list (text * list (text * dset T))) j : stream_job win cwd s shape key dt ow options = Ok j ->
    jover j = ow /\ target win cwd hdf_exts (lit ".hdf") s = Ok (jpath j) /\ writes_like j (w_stream key dt shape (flat_map snd options)).
  Proof.
    unfold stream_job, target. destruct (default_ext _ _ _) as [p|]; [|discriminate]. cbn [bind].
    destruct (stream_trace key dt shape HNil (flat_map snd options)) as [t e] eqn:E. intros H. apply ok_inj in H. subst j. cbn [jover jpath].
    split; [reflexivity|]. split; [reflexivity|]. intros q g _. cbn [jtrace jend jfail]. unfold w_stream, as_value_error. rewrite ibind_eq.
    destruct (write_cases g q (CHdf HNil)) as [[x W]|[Nq W]]; rewrite !W; [reflexivity|].
    destruct (stream_loop key dt shape q (flat_map snd options) HNil ((q, File (CHdf HNil)) :: g) Nq (look_cons_same _ _ _ Nq)) as [g' [R S]].
    rewrite E in R, S. exists g'. split; [exact R|]. intros p'. rewrite S. now rewrite (twice g q _ _ Nq p').
  Qed.
End Steps.
Section Steps2.
  Context {T : Type} {N : Num T}.
  Variables (win : bool) (cwd : path).
  Local Notation FS := (@FS T).
  Lemma trace_like (mid : list (@content T)) x : exists c cs, mid ++ [x] = c :: cs /\ List.last cs c = x.
  Proof.
    destruct mid as [|c mid]; [exists x, []; now split|]. exists c, (mid ++ [x]). split; [reflexivity|]. now rewrite last_last.
  Qed.
  Lemma image_like pil_array pil_ext mid s (im : image T) ow j : image_job win cwd pil_array pil_ext mid s im ow = Ok j ->
    exists im', prepare_image (suffix (get_path win cwd s)) im = Ok im' /\ jover j = ow /\ jpath j = get_path win cwd s /\ writes_like j (w_img pil_array pil_ext im').
  Proof.
    unfold image_job. destruct (prepare_image _ im) as [im'|]; [|discriminate]. cbn [bind]. intros H. apply ok_inj in H. subst j. exists im'. cbn [jover jpath].
    split; [reflexivity|]. split; [reflexivity|]. split; [reflexivity|]. intros q g _. cbn [jtrace jend jfail]. unfold w_img, as_value_error. rewrite ibind_eq.
    destruct (pil_array im'); [|reflexivity]. cbn [andb]. cbv beta iota delta [ret]. rewrite ibind_eq. destruct (pil_ext (lower (suffix q)) im'); [|reflexivity].
    destruct (trace_like mid (CImage (lower (suffix q)) im')) as [c [cs [-> L]]].
    destruct (write_cases g q c) as [[x W]|[Nq W]]; rewrite !W; [reflexivity|]. eexists. split; [reflexivity|]. rewrite L. apply same_refl.
  Qed.
  Lemma fig_like mpl_format mid s ow : has_format (pname (get_path win cwd s)) -> writes_like (fig_job (T := T) win cwd mpl_format mid s ow) (w_fig mpl_format).
  Proof.
    intros Hf q g Hq. assert (F : has_format (pname q)).
    { destruct Hq as [->|[_ [n ->]]]; [exact Hf|now apply numbered_format]. }
    cbn [fig_job jtrace jend jfail]. destruct F as [a [e [E [He [Hd Ha]]]]]. unfold w_fig, as_value_error, savefig.
    rewrite (splitext_format _ _ _ E He Hd Ha). cbn [tl]. rewrite ibind_eq. destruct e as [|c0 e]; [congruence|]. destruct (mpl_format (c0 :: e)); [|reflexivity].
    destruct (trace_like mid (CFig (c0 :: e))) as [c [cs [-> L]]].
    destruct (write_cases g q c) as [[x W]|[Nq W]]; rewrite !W; [reflexivity|]. eexists. split; [reflexivity|]. rewrite L. apply same_refl.
  Qed.
  Lemma steps_saver m j : in_steps win cwd m j -> exists w, (forall f : FS, m f = saver (jpath j) (jover j) w f) /\ writes_like j w.
  Proof.
    intros []; clear m j.
    - unfold txt_job in H0. destruct (default_ext _ _ _) as [p|] eqn:E; [|discriminate]. cbn [bind] in H0. apply ok_inj in H0. subst j0. eexists. split; [|apply text_like; exact H].
      intros f. cbn [jpath jover]. rewrite save_txt_saver. unfold target. rewrite E. reflexivity.
    - unfold json_job in H0. destruct (default_ext _ _ _) as [p|] eqn:E; [|discriminate]. cbn [bind] in H0. apply ok_inj in H0.
      exists (fun q => xc <-- lift (to_float x) ;; yc <-- lift (to_float y) ;; w_text (fst (dump_meta repr xc yc facts)) (snd (dump_meta repr xc yc facts)) q).
      split.
      + intros f. rewrite save_json_saver. unfold target. rewrite E. subst j0. destruct (to_float x) as [xc|]; [|reflexivity]. destruct (to_float y) as [yc|]; [|reflexivity]. destruct (dump_meta repr xc yc facts) as [t e] eqn:Ed; reflexivity.
      + intros q g Hq. unfold lift. rewrite ibind_eq. destruct (to_float x) as [xc|e]; [|subst j0; reflexivity]. rewrite ibind_eq. destruct (to_float y) as [yc|e]; [|subst j0; reflexivity].
        destruct (dump_meta repr xc yc facts) as [t e] eqn:Ed. cbn [fst snd]. subst j0. exact (text_like p ow cut t e H q g Hq).
    - unfold pkl_job in H0. destruct (default_ext _ _ _) as [p|] eqn:E; [|discriminate]. cbn [bind] in H0. destruct (pdump v) as [t e] eqn:Ed. apply ok_inj in H0. subst j0. eexists. split; [|apply bytes_like; exact H].
      intros f. cbn [jpath jover]. rewrite save_pkl_saver. unfold target. rewrite E, Ed. reflexivity.
    - destruct (hdf_like _ _ _ _ _ _ _ _ H) as [O [P W]]. eexists. split; [|exact W]. intros f. rewrite save_hdf_saver. rewrite P, O. reflexivity.
    - destruct (stream_like _ _ _ _ _ _ _ _ _ H) as [O [P W]]. eexists. split; [|exact W]. intros f. rewrite stream_saver. rewrite P, O. reflexivity.
    - destruct (image_like _ _ _ _ _ _ _ H) as [im' [P [O [Pj W]]]]. eexists. split; [|exact W]. intros f. rewrite save_image_saver. rewrite P, O, Pj. reflexivity.
    - apply has_format_spec_iff in H. exists (w_fig mpl_format). split; [|now apply fig_like]. intros f. cbn [fig_job jpath jover]. destruct H0 as [-> | [-> | ->]]; reflexivity.
  Qed.
End Steps2.

(** ** C122 *)
(** The model in steps is the model of the save functions: a process that runs
    on its own ends with the same result and leaves the same files. *)
Theorem C122_alone : forall {T} {N : Num T} win cwd m j (f f' : @FS T) r, in_steps win cwd m j -> proper f -> m f = (f', r) ->
  exists n g, run (repeat 0 n) (start f [j]) = (g, [(j, PEnd r)]) /\ forall q, look g q = look f' q.
Proof.
  intros T N win cwd m j f f' r St P E. destruct (steps_saver win cwd m j St) as [w [Hm W]]. rewrite Hm in E.
  destruct (reach_saver j w f f' r P W E) as [g [R S]]. destruct (reach_run _ _ _ _ _ R) as [n Hn]. exists n, g. now split.
Qed.
Print Assumptions C122_alone.

(** Whatever the processes and the schedule, stopped at any moment: what exists
    keeps its content unless a call with overwrite=True was given that very
    path. *)
Theorem C122_nothing_lost : forall {T} (f : @FS T) jobs schedule q, look f q <> None ->
  (forall j, In j jobs -> jover j = true -> jpath j <> q) -> look (fst (run schedule (start f jobs))) q = look f q.
Proof.
  intros T f jobs schedule q L H. destruct (look f q) as [n|] eqn:E; [|congruence]. apply (kept_inv q n). split; [exact E|].
  intros i j c Hi. unfold start in Hi. cbn [snd] in Hi. rewrite nth_error_map in Hi. destruct (nth_error jobs i) as [j'|] eqn:Ej; [|discriminate]. cbn [option_map] in Hi. injection Hi as -> <-.
  split; [intros x Hx; inversion Hx|]. apply H. now apply nth_error_In in Ej.
Qed.
Print Assumptions C122_nothing_lost.

Lemma calm_start {T} (f : @FS T) jobs i j : nth_error jobs i = Some j -> suffix (jpath j) <> [] -> writable f (jpath j) ->
  (forall k j', k <> i -> nth_error jobs k = Some j' -> ok_beside j j') -> calm f j i (start f jobs) /\ nth_error (snd (start f jobs)) i = Some (j, PFolder).
Proof.
  intros E Hs Hw Hb. assert (E' : nth_error (snd (start f jobs)) i = Some (j, PFolder)) by (unfold start; cbn [snd]; rewrite nth_error_map, E; reflexivity).
  split; [|exact E']. split; [exists PFolder; split; [exact E'|now apply good_start]|]. intros k j' c' Nk Hk. unfold start in Hk. cbn [snd] in Hk. rewrite nth_error_map in Hk.
  destruct (nth_error jobs k) as [j2|] eqn:Ek; [|discriminate]. cbn [option_map] in Hk. injection Hk as -> <-. split; [now apply (Hb k)|exact Logic.I].
Qed.
Lemma free_number {T} (f : @FS T) p : exists n, look f (numbered p n) = None.
Proof.
  destruct (find_free f p 0 (S (List.length f))) as [q|] eqn:F; [|now apply find_free_ends in F].
  destruct (find_free_some _ _ _ _ _ F) as [k [_ [-> [H1 H2]]]]. now exists k.
Qed.

(** A call that may use no name and no folder that another call may use, beside
    any number of others: whatever the schedule, after some number of its own
    turns it has ended with the result of the call on its own, and its files are
    the ones it would have left. *)
Theorem C122_independent : forall {T} {N : Num T} win cwd m j (f f' : @FS T) r jobs i,
  in_steps win cwd m j -> proper f -> m f = (f', r) -> nth_error jobs i = Some j -> suffix (jpath j) <> [] -> writable f (jpath j) ->
  (forall k j', k <> i -> nth_error jobs k = Some j' -> ok_beside j j') ->
  exists K, forall schedule, K <= count_occ Nat.eq_dec schedule i ->
    nth_error (snd (run schedule (start f jobs))) i = Some (j, PEnd r) /\
    forall q, candidate j q -> look (fst (run schedule (start f jobs))) q = look f' q.
Proof.
  intros T N win cwd m j f f' r jobs i St P E Ei Hs Hw Hb. destruct (C122_alone _ _ _ _ _ _ _ St P E) as [n [g0 [R0 S0]]].
  destruct (picked_some f j) as [qn Hq]. destruct (free_number f (jpath j)) as [n0 Hn0].
  destruct (calm_start f jobs i j Ei Hs Hw Hb) as [Hc Hi]. destruct (calm_start f [j] 0 j eq_refl Hs Hw) as [Hc0 Hi0]; [intros [|k] j' Nk Hk; [congruence|destruct k; discriminate]|].
  destruct (calm_run f j 0 Hs Hw qn n0 Hq Hn0 (repeat 0 n) _ _ Hc0 Hi0) as [[[c0 [Z0 G0]] _] _]. rewrite R0 in Z0, G0. cbn [fst snd nth_error] in Z0, G0. injection Z0 as <-.
  exists (S (turns j qn n0 PFolder)). intros schedule Hk. destruct (calm_run f j i Hs Hw qn n0 Hq Hn0 schedule _ _ Hc Hi) as [[[c1 [Z1 G1]] _] [c' [Z2 Z3]]].
  assert (c1 = c') by congruence. subst c1. destruct Z3 as [[r' ->]|Z3]; [|lia].
  destruct (good_end f j _ _ _ _ G1 G0) as [-> L]. split; [exact Z2|]. intros q Hq'. rewrite L by exact Hq'. apply S0.
Qed.
Print Assumptions C122_independent.

(** At any moment before that: each name that the call may use has the content
    it had, or it is the name the call picked and holds one of the contents that
    the call puts there one after the other. *)
Theorem C122_any_moment : forall {T} {N : Num T} (j : @job T) (f : @FS T) jobs i schedule q,
  nth_error jobs i = Some j -> suffix (jpath j) <> [] -> writable f (jpath j) ->
  (forall k j', k <> i -> nth_error jobs k = Some j' -> ok_beside j j') -> candidate j q ->
  let g := fst (run schedule (start f jobs)) in
  look g q = look f q \/ ((if jover j then q = jpath j else look f q = None) /\ exists c, In c (jtrace j q) /\ look g q = Some (File c)).
Proof.
  intros T N j f jobs i schedule q Ei Hs Hw Hb Hq g. destruct (picked_some f j) as [qn Hp]. destruct (free_number f (jpath j)) as [n0 Hn0].
  destruct (calm_start f jobs i j Ei Hs Hw Hb) as [Hc Hi]. destruct (calm_run f j i Hs Hw qn n0 Hp Hn0 schedule _ _ Hc Hi) as [[[c1 [Z1 G1]] _] _].
  destruct (good_now f j _ _ q G1 Hq) as [H|[P H]]; [now left|right]. split; [|exact H]. destruct P as [[-> ->]|[-> P]]; [reflexivity|now apply fresh_none in P].
Qed.
Print Assumptions C122_any_moment.
(** Calls are apart when their paths are in folders neither of which is in the
    other, or in the same folder with different extensions. *)
Lemma suffix_numbered p n : suffix p <> [] -> suffix (numbered p n) = suffix p.
Proof.
  intros Hs. unfold suffix, numbered. rewrite pname_app. fold (suffix p).
  destruct (suffix_nodot (pname p)) as [E|[e [E [E1 E2]]]]; [unfold suffix in Hs; congruence|].
  unfold suffix in Hs |- *. rewrite E. rewrite (app_assoc (lit "_")), app_assoc. apply suffix_of_app; auto. destruct (stem p); discriminate.
Qed.
Lemma candidate_suffix {T} (j : @job T) q : suffix (jpath j) <> [] -> candidate j q -> suffix q = suffix (jpath j).
Proof. intros Hs [->|[_ [n ->]]]; [reflexivity|now apply suffix_numbered]. Qed.
Theorem C122_apart : forall {T} (j j' : @job T), suffix (jpath j) <> [] -> suffix (jpath j') <> [] ->
  (forall b, parent (jpath j') <> parent (jpath j) ++ b) /\ (forall b, parent (jpath j) <> parent (jpath j') ++ b) \/
  parent (jpath j) = parent (jpath j') /\ suffix (jpath j) <> suffix (jpath j') -> ok_beside j j'.
Proof.
  intros T j j' Hs Hs' H. assert (F' : job_folder j' = parent (jpath j')) by (unfold job_folder; destruct (suffix (jpath j')); congruence).
  assert (Sp : forall j0 : @job T, suffix (jpath j0) <> [] -> forall q, candidate j0 q -> exists x, q = parent (jpath j0) ++ [x]).
  { intros j0 S0 q C. assert (Nq : q <> []) by (intros ->; apply (candidate_suffix j0 [] S0) in C; now elim S0). exists (pname q). rewrite <- (candidate_parent j0 q C). now apply split_last_name. }
  split; [|split].
  - intros q C C'. destruct H as [[H1 H2]|[_ H2]].
    + apply (H1 []). rewrite app_nil_r, <- (candidate_parent j q C), <- (candidate_parent j' q C'). reflexivity.
    + apply H2. now rewrite <- (candidate_suffix j q Hs C), <- (candidate_suffix j' q Hs' C').
  - intros q b C' E. destruct (Sp j' Hs' q C') as [x ->]. rewrite <- app_assoc in E. destruct H as [[_ H2]|[H2 _]]; [now apply (H2 ([x] ++ b))|].
    rewrite H2 in E. rewrite <- (app_nil_r (parent (jpath j'))) in E at 1. apply app_inv_head in E. discriminate.
  - intros q b C E. rewrite F' in E. destruct (Sp j Hs q C) as [x ->]. rewrite <- app_assoc in E. destruct H as [[H1 _]|[H2 _]]; [now apply (H1 ([x] ++ b))|].
    rewrite <- H2 in E. rewrite <- (app_nil_r (parent (jpath j))) in E at 1. apply app_inv_head in E. discriminate.
Qed.
Print Assumptions C122_apart.

(** Refuted: with overwrite=False two calls never write to the same file.  Two
    calls for the same free path in an existing folder have a schedule in which
    both return that path and only what the second wrote is left. *)
Lemma saver_free {T} (f f' : @FS T) p w r : look f p = None -> look f (parent p) = Some Dir -> suffix p <> [] -> saver p false w f = (f', r) -> w p f = (f', r).
Proof.
  intros L D Hs. unfold saver, ibind. assert (C : create_folder p f = (f, Ok tt)).
  { unfold create_folder. destruct (suffix p); [congruence|]. unfold ibind, get, exists_. cbn. rewrite D. reflexivity. }
  rewrite C. unfold create_file_name, ibind, get, exists_. rewrite L. auto.
Qed.
Theorem C122_race_refuted : forall {T} {N : Num T} win cwd m1 m2 j1 j2 (f f1 f2 : @FS T) p c1 c2,
  in_steps win cwd m1 j1 -> in_steps win cwd m2 j2 -> jover j1 = false -> jover j2 = false -> jpath j1 = p -> jpath j2 = p ->
  suffix p <> [] -> look f p = None -> look f (parent p) = Some Dir ->
  m1 f = (f1, Ok p) -> look f1 p = Some (File c1) -> m2 f = (f2, Ok p) -> look f2 p = Some (File c2) ->
  exists schedule g, run schedule (start f [j1; j2]) = (g, [(j1, PEnd (Ok p)); (j2, PEnd (Ok p))]) /\
    look g p = Some (File c2) /\ forall q, q <> p -> look g q = look f q.
Proof.
  intros T N win cwd m1 m2 j1 j2 f f1 f2 p c1 c2 St1 St2 O1 O2 P1 P2 Hs Lp D E1 L1 E2 L2.
  destruct (steps_saver win cwd m1 j1 St1) as [w1 [M1 W1]]. destruct (steps_saver win cwd m2 j2 St2) as [w2 [M2 W2]].
  rewrite M1, P1, O1 in E1. rewrite M2, P2, O2 in E2. apply saver_free in E1; auto. apply saver_free in E2; auto.
  assert (Np : p <> []) by now apply suffix_ne.
  assert (F : forall j, jpath j = p -> jover j = false -> step j PFolder f = (f, PName) /\ step j PName f = (f, name_known j p)).
  { intros j Pj Oj. unfold step, job_folder, folder_done. rewrite Pj, Oj. destruct (suffix p); [congruence|]. unfold exists_. rewrite D, Lp. now split. }
  assert (G : forall (j : @job T) w g0 fj, jpath j = p -> writes_like j w -> look g0 (parent p) = Some Dir -> look g0 p <> Some Dir -> w p f = (fj, Ok p) -> look fj p <> None ->
     exists c cs, look fj p = Some (File (List.last cs c)) /\ exists g, reach j (g0, name_known j p) (g, PEnd (Ok p)) /\ same_look g ((p, File (List.last cs c)) :: g0)).
  { intros j w g0 fj Pj W D0 L0 E Lf. pose proof (W p f (or_introl (eq_sym Pj))) as W'. unfold name_known. destruct (jtrace j p) as [|c cs] eqn:Et; [rewrite E in W'; injection W' as <- _; congruence|].
    exists c, cs. rewrite write_ok in W' by (congruence || assumption). destruct W' as [fj' [W' S]]. rewrite E in W'. injection W' as <- Ej.
    split; [rewrite S; now apply look_cons_same|]. destruct (reach_puts j p cs c ((p, File c) :: g0) (look_cons_same _ _ _ Np) Np) as [g [R S']].
    exists g. split; [|intros q; rewrite S'; now apply twice]. rewrite Ej. apply reach_step. cbn [step]. rewrite write_ok by assumption. exact R. }
  destruct (G j1 w1 f f1 P1 W1 D ltac:(congruence) E1 ltac:(congruence)) as [a [cs [_ [g1 [R1 S1]]]]].
  assert (D1 : look g1 (parent p) = Some Dir). { rewrite S1, look_cons_other; [exact D|]. intros H. pose proof (f_equal (@List.length _) H) as H'. rewrite (parent_length p Np) in H'. unfold path, text in *. lia. }
  destruct (G j2 w2 g1 f2 P2 W2 D1 ltac:(rewrite S1, look_cons_same by exact Np; discriminate) E2 ltac:(congruence)) as [b [ds [Lb [g [R2 S2]]]]].
  destruct (F j1 P1 O1) as [F1 F2]. destruct (F j2 P2 O2) as [F3 F4].
  destruct (reach_world j1 _ _ _ _ 0 [(j1, name_known j1 p); (j2, name_known j2 p)] R1 eq_refl) as [n1 Hn1].
  destruct (reach_world j2 _ _ _ _ 1 [(j1, PEnd (Ok p)); (j2, name_known j2 p)] R2 eq_refl) as [n2 Hn2].
  exists ([0; 0; 1; 1] ++ repeat 0 n1 ++ repeat 1 n2), g. rewrite !run_app.
  assert (A : run [0; 0; 1; 1] (start f [j1; j2]) = (f, [(j1, name_known j1 p); (j2, name_known j2 p)])).
  { unfold run, start. cbn [fold_left map]. rewrite (act_at f [(j1, PFolder); (j2, PFolder)] 0 j1 PFolder eq_refl), F1. cbn [fst snd replace_nth].
    rewrite (act_at f [(j1, PName); (j2, PFolder)] 0 j1 PName eq_refl), F2. cbn [fst snd replace_nth]. rewrite (act_at f [(j1, name_known j1 p); (j2, PFolder)] 1 j2 PFolder eq_refl), F3. cbn [fst snd replace_nth]. rewrite (act_at f [(j1, name_known j1 p); (j2, PName)] 1 j2 PName eq_refl), F4. reflexivity. }
  rewrite A, Hn1. cbn [replace_nth]. rewrite Hn2. cbn [replace_nth]. split; [reflexivity|]. split.
  - rewrite S2, look_cons_same by exact Np. congruence.
  - intros q Hq. now rewrite S2, look_cons_other, S1, look_cons_other by exact Hq.
Qed.
Print Assumptions C122_race_refuted.
Lemma reach_named {T} (j : @job T) w (f f' : @FS T) q : proper f -> writes_like j w -> saver (jpath j) (jover j) w f = (f', Ok q) ->
  exists q' g1 f1, reach j (f, PFolder) (g1, name_known j q') /\ same_look g1 f1 /\ candidate j q' /\ w q' f1 = (f', Ok q).
Proof.
  intros P W. unfold saver, ibind at 1. destruct (create_folder (jpath j) f) as [f1 s] eqn:E. destruct (reach_folder j f f1 s P E) as [g1 [S1 R1]].
  destruct s as [[]|e]; [|discriminate]. unfold ibind. unfold folder_done in R1. destruct (jover j) eqn:Ow.
  - unfold ret. intros H. exists (jpath j), g1, f1. repeat split; try assumption. now left.
  - destruct (create_file_name_spec (jpath j) f1) as [q' [-> Hq]]. intros H. exists q', g1, f1. split; [|split; [exact S1|split; [|exact H]]].
    + apply (reach_trans _ _ _ _ R1). apply reach_name. now apply (fresh_same _ _ _ _ S1).
    + destruct Hq as [[_ ->]|[_ [n [-> _]]]]; [now left|right; split; [exact Ow|now exists n]].
Qed.
Lemma reach_part {T} (j : @job T) q post c : q <> [] -> forall pre x (g : @FS T), look g q = Some (File x) -> 
  exists g2, reach j (g, put_next j q (pre ++ c :: post)) (g2, put_next j q post) /\ look g2 q = Some (File c).
Proof.
  intros Nq. induction pre as [|y pre IH]; intros x g L; cbn [app put_next].
  - exists ((q, File c) :: g). split; [apply reach_step; cbn [step]; constructor|now apply look_cons_same].
  - destruct (IH y ((q, File y) :: g) (look_cons_same _ _ _ Nq)) as [g2 [R L2]]. exists g2. split; [|exact L2]. apply reach_step. cbn [step]. exact R.
Qed.
Lemma steps_end {T} {N : Num T} win cwd m (j : @job T) : in_steps win cwd m j -> forall q q', jend j q = Ok q' -> q' = q.
Proof.
  intros [] q q'; clear m j.
  - unfold txt_job in H0. destruct (default_ext _ _ _); [|discriminate]. cbn [bind] in H0. apply ok_inj in H0. subst j0. cbn [jend to_end]. congruence.
  - unfold json_job in H0. destruct (default_ext _ _ _); [|discriminate]. cbn [bind] in H0. apply ok_inj in H0. subst j0. destruct (to_float x); [|discriminate]. destruct (to_float y); [|discriminate].
    destruct (dump_meta repr _ _ facts) as [t [e|]]; cbn [jend to_end]; congruence.
  - unfold pkl_job in H0. destruct (default_ext _ _ _); [|discriminate]. cbn [bind] in H0. destruct (pdump v) as [t [e|]]; apply ok_inj in H0; subst j0; cbn [jend to_end]; congruence.
  - unfold hdf_job in H. destruct (default_ext _ _ _); [|discriminate]. cbn [bind] in H. apply ok_inj in H. subst j0. destruct (hcreate _ _ _); cbn [jend to_end]; congruence.
  - unfold stream_job in H. destruct (default_ext _ _ _); [|discriminate]. cbn [bind] in H. destruct (stream_trace _ _ _ _ _) as [t [e|]]; apply ok_inj in H; subst j0; cbn [jend to_end]; congruence.
  - unfold image_job in H. destruct (prepare_image _ _) as [im'|]; [|discriminate]. cbn [bind] in H. apply ok_inj in H. subst j0. cbn [jend]. destruct (pil_array im'); [|discriminate]. destruct (pil_ext _ im'); congruence.
  - cbn [fig_job jend]. destruct (mpl_format _); congruence.
Qed.
(** Each of these contents is there at some moment. *)
Theorem C122_moments : forall {T} {N : Num T} win cwd m j (f f' : @FS T) q c, in_steps win cwd m j -> proper f -> m f = (f', Ok q) -> In c (jtrace j q) -> exists n, look (fst (run (repeat 0 n) (start f [j]))) q = Some (File c).
Proof.
  intros T N win cwd m j f f' q c St P E Hc. destruct (steps_saver win cwd m j St) as [w [Hm W]]. rewrite Hm in E.
  destruct (reach_named j w f f' q P W E) as [q' [g1 [f1 [R [S [Cq Hw]]]]]]. pose proof (W q' f1 Cq) as H.
  assert (q' = q).
  { symmetry. apply (steps_end win cwd m j St). destruct (jtrace j q') as [|a l]; [congruence|]. destruct (write_file q' a f1) as [g' [[]|e]]; [destruct H as [g2 [H _]]; congruence|congruence]. }
  subst q'. destruct (jtrace j q) as [|a l] eqn:Et; [now elim Hc|]. destruct (write_file q a f1) as [g' [[]|e]] eqn:Ew; [|congruence].
  pose proof (write_same q a g1 f1 S) as Ws. rewrite Ew in Ws. cbn [snd] in Ws. destruct (write_file q a g1) as [g2 s] eqn:Eg. cbn [snd] in Ws. subst s.
  destruct (write_file_spec _ _ _ _ _ Eg) as [[e [X _]]|[_ [-> [Nq _]]]]; [discriminate|].
  assert (Z : exists g3 c3, reach j (g1, name_known j q) (g3, c3) /\ look g3 q = Some (File c)).
  { unfold name_known. rewrite Et. destruct Hc as [->|Hc].
    - exists ((q, File c) :: g1), (put_next j q l). split; [apply reach_step; cbn [step]; rewrite Eg; constructor|now apply look_cons_same].
    - apply in_split in Hc. destruct Hc as [pre [post ->]]. destruct (reach_part j q post c Nq pre a ((q, File a) :: g1) (look_cons_same _ _ _ Nq)) as [g3 [R3 L3]].
      exists g3, (put_next j q post). split; [|exact L3]. apply reach_step. cbn [step]. rewrite Eg. exact R3. }
  destruct Z as [g3 [c3 [R3 L3]]]. destruct (reach_run _ _ _ _ _ (reach_trans _ _ _ _ R R3)) as [n Hn]. exists n. unfold start. cbn [map]. rewrite Hn. exact L3.
Qed.
Print Assumptions C122_moments.
Lemma in_growing {T} (K : text -> @content T) l c : In c (growing K l) <-> exists i, i <= List.length l /\ c = K (List.concat (firstn i l)).
Proof.
  unfold growing. rewrite in_map_iff. split.
  - intros [i [<- H]]. apply in_seq in H. exists i. split; [lia|reflexivity].
  - intros [i [H ->]]. exists i. split; [reflexivity|]. apply in_seq. lia.
Qed.
Lemma growing_prefix {T} (K : text -> @content T) cut t c : pieces cut -> In c (growing K (cut t)) -> exists a b, t = a ++ b /\ c = K a.
Proof.
  intros Hc H. apply in_growing in H. destruct H as [i [_ ->]]. exists (List.concat (firstn i (cut t))), (List.concat (skipn i (cut t))). split; [|reflexivity].
  rewrite <- concat_app, firstn_skipn. symmetry. apply Hc.
Qed.
(** A crash while a JSON metadata file is written: at any moment the file is as
    before, or complete, or it is rejected by load_metadata_json. *)
Theorem C122_json_crash : forall {T} {N : Num T} {X} win cwd repr parse_float (to_float : X -> res T) cut s x y facts ow j (f f' : @FS T) q jobs i schedule s',
  float_repr_ok repr parse_float -> ~ unknown_in facts -> (forall w, array_in w facts -> array_value w) ->
  pieces cut -> json_job win cwd repr to_float cut s x y facts ow = Ok j -> proper f -> save_metadata_json win cwd repr to_float s x y facts ow f = (f', Ok q) ->
  nth_error jobs i = Some j -> suffix (jpath j) <> [] -> writable f (jpath j) -> (forall k j', k <> i -> nth_error jobs k = Some j' -> ok_beside j j') ->
  get_path win cwd s' = q ->
  let g := fst (run schedule (start f jobs)) in
  look g q = look f q \/ look g q = look f' q \/ load_metadata_json win cwd parse_float s' g = (g, Err ValueError).
Proof.
  intros T N X win cwd repr pf to_float cut s x y facts ow j f f' q jobs i schedule s' Hr U A Hc Hj P E Ei Hs Hw Hb Hq' g.
  pose proof (st_json win cwd X repr to_float cut s x y facts ow j Hc Hj) as St.
  destruct (C122_alone _ _ _ _ _ _ _ St P E) as [n [g0 [R0 S0]]].
  destruct (calm_start f [j] 0 j eq_refl Hs Hw) as [Hc0 Hi0]; [intros [|k] j' Nk Hk; [congruence|destruct k; discriminate]|].
  destruct (picked_some f j) as [qn Hqn]. destruct (free_number f (jpath j)) as [n0 Hn0].
  destruct (calm_run f j 0 Hs Hw qn n0 Hqn Hn0 (repeat 0 n) _ _ Hc0 Hi0) as [[[c0 [Z0 G0]] _] _]. rewrite R0 in Z0, G0. cbn [fst snd nth_error] in Z0, G0. injection Z0 as <-.
  destruct G0 as [_ [q0 [Pq [Eq Hg]]]]. symmetry in Eq. pose proof (steps_end win cwd _ j St _ _ Eq) as Z. subst q0.
  destruct (C122_any_moment j f jobs i schedule q Ei Hs Hw Hb (picked_candidate f j q Pq)) as [H|[_ [c [Hin L]]]]; [now left|right]. fold g in L.
  destruct (C103_saved_file_cut win cwd repr pf to_float s x y facts ow f f' q g s' [] Hr U A E) as [t0 [Lt _]].
  assert (Tr : jtrace j q = growing CText (cut t0)).
  { assert (Tr : exists t, jtrace j q = growing CText (cut t)).
    { unfold json_job in Hj. destruct (default_ext _ _ _) as [p|]; [|discriminate]. cbn [bind] in Hj. apply ok_inj in Hj. subst j. destruct (to_float x) as [xc|]; [|discriminate]. destruct (to_float y) as [yc|]; [|discriminate].
      destruct (dump_meta repr xc yc facts) as [t e]. now exists t. }
    destruct Tr as [t Tr]. rewrite Tr. do 2 f_equal. destruct (growing_last (T := T) CText (cut t)) as [cs [Gc Gl]]. rewrite (Hc t) in Gl.
    destruct Hg as [[H _]|[_ [a [z [H1 H2]]]]]; [rewrite Tr, Gc in H; discriminate|]. rewrite Tr, Gc in H1. rewrite S0, Lt in H2. injection H2 as <-.
    assert (Q : List.last (CText [] :: cs) (CText []) = CText t0) by (rewrite H1; apply last_last).
    destruct cs as [|b cs]; [cbn [List.last] in *; congruence|]. change (List.last (b :: cs) (CText []) = CText t0) in Q. congruence. }
  rewrite Tr in Hin. destruct (growing_prefix CText cut t0 c Hc Hin) as [a [b [Eab ->]]]. destruct b as [|z b].
  - left. rewrite app_nil_r in Eab. subst a. congruence.
  - right. destruct (C103_saved_file_cut win cwd repr pf to_float s x y facts ow f f' q g s' a Hr U A E) as [t1 [Lt1 H]].
    apply (H (z :: b)); [congruence|discriminate|congruence].
Qed.
Print Assumptions C122_json_crash.
(** Refuted: a crash while a file is overwritten leaves the old file or the new
    one.  At some moment the file is empty. *)
Theorem C122_old_lost_refuted : forall {T} {N : Num T} win cwd m j (f f' : @FS T) q K l, in_steps win cwd m j -> proper f -> m f = (f', Ok q) ->
  jtrace j q = growing K l -> exists n, look (fst (run (repeat 0 n) (start f [j]))) q = Some (File (K [])).
Proof.
  intros T N win cwd m j f f' q K l St P E Tr. apply (C122_moments win cwd m j f f' q); try assumption. rewrite Tr. apply in_growing. exists 0. split; [lia|reflexivity].
Qed.
Print Assumptions C122_old_lost_refuted.
(** Refuted: a text metadata file that a crash cut off is rejected.  At some
    moment it is read without any error as a shorter list of coefficients. *)
Theorem C122_text_crash_refuted : forall {T} {N : Num T} win cwd str_ float_ s s' (x y : T) facts more ow j (f f' : @FS T) q,
  (forall v, In v (x :: y :: facts ++ more) -> str_ v <> [] /\ (forall c, In c (str_ v) -> ~ blank c) /\ float_ (str_ v) = Ok v) ->
  txt_job win cwd str_ (map (fun c => [c])) s x y (facts ++ more) ow = Ok j -> proper f ->
  save_metadata_txt win cwd str_ s x y (facts ++ more) ow f = (f', Ok q) -> get_path win cwd s' = q ->
  exists n, let g := fst (run (repeat 0 n) (start f [j])) in load_metadata_txt win cwd float_ s' g = (g, Ok (x, y, facts)).
Proof.
  intros T N win cwd str_ float_ s s' x y facts more ow j f f' q V Hj P E Es.
  assert (Hc : pieces (map (fun c => [c]))) by (intros t; induction t as [|c t IH]; [reflexivity|]; cbn [map List.concat app]; now rewrite IH).
  pose proof (st_txt win cwd str_ (map (fun c => [c])) s x y (facts ++ more) ow j Hc Hj) as St.
  destruct (C103_text_cut_refuted win cwd str_ float_ s s' x y facts more ow f f' q V E) as [t [r [L [_ H]]]].
  assert (In (CText t) (jtrace j q)) as Hin.
  { pose proof E as E'. rewrite save_txt_saver in E'. unfold txt_job in Hj. unfold target in E'. destruct (default_ext _ _ _) as [p|]; [|discriminate]. cbn [bind] in Hj. apply ok_inj in Hj. subst j.
    pose proof (saved_text _ _ _ _ _ _ E') as L'. change (jtrace _ q) with (growing (T := T) CText (map (fun c => [c]) (meta_text str_ x y (facts ++ more)))). assert (Et : meta_text str_ x y (facts ++ more) = t ++ r) by congruence. rewrite Et. apply in_growing. exists (List.length t).
    rewrite map_length, app_length. split; [lia|]. f_equal. rewrite map_app, firstn_app, map_length, Nat.sub_diag. cbn [firstn]. rewrite app_nil_r, firstn_all2 by (rewrite map_length; lia). symmetry. apply Hc. }
  destruct (C122_moments win cwd _ j f f' q _ St P E Hin) as [n Hn]. exists n. intros g.
  apply H. now rewrite Es.
Qed.
Print Assumptions C122_text_crash_refuted.

(** The hypotheses are met: text and JSON metadata are saved by two processes
    into the folder of [ex_fs]; two processes save text to the same free path;
    one process overwrites a text file. *)
Definition bytes (t : text) : list text := map (fun c => [c]) t.
Lemma bytes_pieces : pieces bytes.
Proof. intros t. induction t as [|c t IH]; [reflexivity|]. unfold bytes in *. cbn [map List.concat app]. now rewrite IH. Qed.
Definition boolNum : Num bool := {|
  nadd := xorb; nsub := xorb; nmul := andb; ndiv := andb; nopp := fun b => b; nabs := fun b => b; nsqrt := fun b => b; npow := fun b _ => b;
  nleb := implb; nltb := fun a b => negb a && b; neqb := Bool.eqb; nofZ := fun z => negb (Z.eqb z 0); nofQ := fun z _ => negb (Z.eqb z 0);
  nfloor := fun b => if b then 1%Z else 0%Z; nceil := fun b => if b then 1%Z else 0%Z; ntrunc := fun b => if b then 1%Z else 0%Z; nrint := fun b => if b then 1%Z else 0%Z; nf32 := fun b => b |}.
Lemma proper_list {C} (f : fs C) : (forall e, In e f -> fst e = [] \/ look f (parent (fst e)) = Some Dir) -> proper f.
Proof.
  intros H p n Np L. assert (I : exists e, In e f /\ fst e = p).
  { clear H. induction f as [|[q m] f IH]; [destruct p; [congruence|discriminate]|]. 
    destruct (list_eq_dec (list_eq_dec Ascii.ascii_dec) p q) as [->|Ne]; [exists (q, m); split; [now left|reflexivity]|].
    rewrite look_cons_other in L by exact Ne. destruct (IH L) as [e [H1 H2]]. exists e. split; [now right|exact H2]. }
  destruct I as [e [I <-]]. destruct (H e I) as [E|E]; [congruence|exact E].
Qed.
Lemma ex_proper : proper ex_fs.
Proof. apply proper_list. intros e [<-|[<-|[<-|[]]]]; right; reflexivity. Qed.


Definition job_of (r : res (@job bool)) : @job bool :=
  match r with Ok j => j | Err _ => {| jpath := []; jover := false; jtrace := fun _ => []; jend := fun _ => Err ValueError; jfail := same |} end.
Definition ex_txt (s : text) (x y : bool) (facts : list bool) (ow : bool) : @job bool := job_of (txt_job false home ex_str bytes s x y facts ow).
Definition ex_json (s : text) : @job bool := job_of (json_job false home ex_str (@Ok bool) bytes s true false (PTuple [PFloat true; PFloat false]) false).
Lemma ex_folder (w : text) : writable ex_fs (home ++ [w]) <-> look ex_fs (home ++ [w]) <> Some Dir.
Proof.
  split; [intros H; apply H|]. intros L. split; [|exact L]. intros d b E Hb. destruct d as [|x [|y d]]; [reflexivity| |].
  - injection E as <- _. reflexivity.
  - destruct d; [|discriminate]. injection E as _ _ <-. congruence.
Qed.
(** Side by side, in any order of turns. *)
Example C122_ex_beside : exists K, forall schedule, K <= count_occ Nat.eq_dec schedule 0 ->
  let w := run schedule (start ex_fs [ex_txt (lit "a.txt") true false [true] false; ex_json (lit "a.json")]) in
  nth_error (snd w) 0 = Some (ex_txt (lit "a.txt") true false [true] false, PEnd (Ok (home ++ [lit "a_0001.txt"]))) /\
  look (fst w) (home ++ [lit "a_0001.txt"]) = Some (File (CText (lit "xcenter = 1.5" ++ LF :: lit "ycenter = 0.5" ++ LF :: lit "factor0 = 1.5" ++ [LF]))).
Proof.
  destruct (C122_independent (N := boolNum) false home _ (ex_txt (lit "a.txt") true false [true] false) ex_fs _ _ [ex_txt (lit "a.txt") true false [true] false; ex_json (lit "a.json")] 0
    (st_txt (N := boolNum) false home ex_str bytes (lit "a.txt") true false [true] false _ bytes_pieces eq_refl) ex_proper eq_refl eq_refl) as [K HK].
  - discriminate.
  - apply (ex_folder (lit "a.txt")). discriminate.
  - intros [|[|k]] j' Nk E; [congruence| |destruct k; discriminate]. injection E as <-. apply C122_apart; [discriminate|discriminate|]. right. split; [reflexivity|discriminate].
  - exists K. intros schedule H w. destruct (HK schedule H) as [H1 H2]. split; [exact H1|]. unfold w. rewrite H2; [reflexivity|]. right. split; [reflexivity|]. exists 1. reflexivity.
Qed.
(** The race. *)
Example C122_ex_race : exists schedule g, run schedule (start ex_fs [ex_txt (lit "b.txt") true false [] false; ex_txt (lit "b.txt") false false [] false]) =
    (g, [(ex_txt (lit "b.txt") true false [] false, PEnd (Ok (home ++ [lit "b.txt"]))); (ex_txt (lit "b.txt") false false [] false, PEnd (Ok (home ++ [lit "b.txt"])))]) /\
  look g (home ++ [lit "b.txt"]) = Some (File (CText (lit "xcenter = 0.5" ++ LF :: lit "ycenter = 0.5" ++ [LF]))) /\ forall q, q <> home ++ [lit "b.txt"] -> look g q = look ex_fs q.
Proof.
  eapply (C122_race_refuted (N := boolNum) false home);
    [exact (st_txt (N := boolNum) false home ex_str bytes (lit "b.txt") true false [] false _ bytes_pieces eq_refl)
    |exact (st_txt (N := boolNum) false home ex_str bytes (lit "b.txt") false false [] false _ bytes_pieces eq_refl)
    |reflexivity|reflexivity|reflexivity|reflexivity|discriminate|reflexivity|reflexivity|vm_compute; reflexivity|vm_compute; reflexivity|vm_compute; reflexivity|vm_compute; reflexivity].
Qed.
(** The crash. *)
Example C122_ex_crash : 
  (exists n, look (fst (run (repeat 0 n) (start ex_fs [ex_txt (lit "a.txt") true false [true; false] true]))) (home ++ [lit "a.txt"]) = Some (File (CText []))) /\
  (exists n, let g := fst (run (repeat 0 n) (start ex_fs [ex_txt (lit "a.txt") true false [true; false] true])) in
     load_metadata_txt false home ex_float (lit "a.txt") g = (g, Ok (true, false, [true]))).
Proof.
  split.
  - eapply (C122_old_lost_refuted (N := boolNum) false home);
      [exact (st_txt (N := boolNum) false home ex_str bytes (lit "a.txt") true false [true; false] true _ bytes_pieces eq_refl)|exact ex_proper|vm_compute; reflexivity|reflexivity].
  - eapply (C122_text_crash_refuted (N := boolNum) false home ex_str ex_float (lit "a.txt") (lit "a.txt") true false [true] [false] true);
      [intros v _; apply C65_ex|reflexivity|exact ex_proper|vm_compute; reflexivity|reflexivity].
Qed.
Example C122_ex_json : forall schedule, 
  let g := fst (run schedule (start ex_fs [ex_txt (lit "a.txt") true false [true] false; ex_json (lit "a.json")])) in
  look g (home ++ [lit "a.json"]) = None \/
  look g (home ++ [lit "a.json"]) = look (fst (save_metadata_json false home ex_str (@Ok bool) (lit "a.json") true false (PTuple [PFloat true; PFloat false]) false ex_fs)) (home ++ [lit "a.json"]) \/
  load_metadata_json false home ex_parse (lit "a.json") g = (g, Err ValueError).
Proof.
  intros schedule g. refine (C122_json_crash (N := boolNum) false home ex_str ex_parse (@Ok bool) bytes (lit "a.json") true false (PTuple [PFloat true; PFloat false]) false (ex_json (lit "a.json")) ex_fs _ (home ++ [lit "a.json"])
    [ex_txt (lit "a.txt") true false [true] false; ex_json (lit "a.json")] 1 schedule (lit "a.json") ex_repr_ok _ _ bytes_pieces eq_refl ex_proper eq_refl eq_refl _ _ _ eq_refl).
  - intros H. inversion H as [ |l v I U|l v I U]; subst; destruct I as [<-|[<-|[]]]; inversion U.
  - intros w H. inversion H as [ |l v I U|l v I U]; subst; destruct I as [<-|[<-|[]]]; inversion U.
  - discriminate.
  - apply (ex_folder (lit "a.json")). discriminate.
  - intros [|[|k]] j' Nk E; [|congruence|destruct k; discriminate]. injection E as <-. apply C122_apart; [discriminate|discriminate|]. right. split; [reflexivity|discriminate].
Qed.

Lemma steps_trace {T} {N : Num T} win cwd m (j : @job T) : in_steps win cwd m j -> forall q q', jend j q = Ok q' -> jtrace j q <> [].
Proof.
  intros [] q q'; clear m j.
  - unfold txt_job in H0. destruct (default_ext _ _ _); [|discriminate]. cbn [bind] in H0. apply ok_inj in H0. subst j0. discriminate.
  - unfold json_job in H0. destruct (default_ext _ _ _); [|discriminate]. cbn [bind] in H0. apply ok_inj in H0. subst j0. destruct (to_float x); [|discriminate]. destruct (to_float y); [|discriminate].
    destruct (dump_meta repr _ _ facts) as [t [e|]]; discriminate.
  - unfold pkl_job in H0. destruct (default_ext _ _ _); [|discriminate]. cbn [bind] in H0. destruct (pdump v) as [t [e|]]; apply ok_inj in H0; subst j0; discriminate.
  - unfold hdf_job in H. destruct (default_ext _ _ _); [|discriminate]. cbn [bind] in H. apply ok_inj in H. subst j0. destruct (hcreate _ _ _); discriminate.
  - unfold stream_job in H. destruct (default_ext _ _ _); [|discriminate]. cbn [bind] in H. destruct (stream_trace _ _ _ _ _) as [t [e|]]; apply ok_inj in H; subst j0; discriminate.
  - unfold image_job in H. destruct (prepare_image _ _) as [im'|]; [|discriminate]. cbn [bind] in H. apply ok_inj in H. subst j0. cbn [jend jtrace]. destruct (pil_array im'); [|discriminate]. destruct (pil_ext _ im'); [|discriminate]. cbn [andb]. intros _ H. now apply app_eq_nil in H.
  - cbn [fig_job jend jtrace]. destruct (mpl_format _); [|discriminate]. intros _ H1. now apply app_eq_nil in H1.
Qed.
(** One call: what it keeps, and where it wrote. *)
Lemma steps_call {T} {N : Num T} win cwd m (j : @job T) f f' r : in_steps win cwd m j -> m f = (f', r) ->
  (forall x, look f x <> None -> (jover j = true -> jpath j <> x) -> look f' x = look f x) /\
  (forall q, r = Ok q -> (exists c, look f' q = Some (File c)) /\ (look f q <> None -> jover j = true /\ jpath j = q)).
Proof.
  intros St E. destruct (steps_saver win cwd m j St) as [w [Hm W]]. rewrite Hm in E. unfold saver, ibind at 1 in E.
  destruct (create_folder (jpath j) f) as [f1 s] eqn:Ef. destruct (create_folder_spec _ _ _ _ Ef) as [Kp _].
  assert (Kx : forall x, look f x <> None -> look f1 x = look f x) by (intros x L; destruct (look f x) as [n|] eqn:El; [now apply Kp|congruence]).
  destruct s as [[]|e]; [|injection E as <- <-; split; [intros x L _; now apply Kx|discriminate]].
  assert (Q : exists q, candidate j q /\ w q f1 = (f', r) /\ (jover j = true /\ jpath j = q \/ look f1 q = None)).
  { unfold ibind in E. destruct (jover j) eqn:O.
    - exists (jpath j). split; [now left|]. split; [exact E|now left].
    - destruct (create_file_name_spec (jpath j) f1) as [q [Eq Hq]]. rewrite Eq in E. exists q. split; [|split; [exact E|right; now apply fresh_none in Hq]].
      destruct Hq as [[_ ->]|[_ [n [-> _]]]]; [now left|right; split; [exact O|now exists n]]. }
  destruct Q as [q [Cq [Ew Hq]]]. pose proof (W q f1 Cq) as H. rewrite Ew in H.
  assert (D : (f' = f1 /\ forall q', r <> Ok q') \/ (r = jend j q /\ exists c, q <> [] /\ same_look f' ((q, File c) :: f1))).
  { destruct (jtrace j q) as [|a l] eqn:Et.
    - injection H as -> ->. left. split; [reflexivity|]. intros q' Hr. now apply (steps_trace win cwd m j St q q').
    - destruct (write_file q a f1) as [g [[]|e]] eqn:Eg.
      + destruct H as [g' [H S]]. injection H as <- ->. right. split; [reflexivity|]. exists (List.last l a). destruct (write_file_spec _ _ _ _ _ Eg) as [[e [X _]]|[_ [_ [Nq _]]]]; [discriminate|]. now split.
      + injection H as -> ->. left. split; [reflexivity|discriminate]. }
  destruct D as [[-> Hr]|[Hr [c [Nq S]]]].
  - split; [intros x L _; now apply Kx|]. intros q' Hq'. now elim (Hr q').
  - split.
    + intros x L Hx. rewrite S. destruct (list_eq_dec (list_eq_dec Ascii.ascii_dec) x q) as [->|Ne]; [|rewrite look_cons_other by exact Ne; now apply Kx].
      exfalso. destruct Hq as [[O P]|Hq]; [now apply Hx|]. rewrite (Kx q L) in Hq. congruence.
    + intros q' Hq'. rewrite Hr in Hq'. pose proof (steps_end win cwd m j St _ _ Hq'). subst q'. split; [exists c; rewrite S; now apply look_cons_same|].
      intros L. destruct Hq as [Hq|Hq]; [exact Hq|]. rewrite (Kx q L) in Hq. congruence.
Qed.
(** Every history of calls, one after the other: the file that a call returned
    has what the call wrote until the end, and no later call returns the same
    path, unless a later call with overwrite=True is given that very path. *)
Definition after {T} (f : @FS T) (ms : list (io (@FS T) path)) : @FS T := fold_left (fun g m => fst (m g)) ms f.
Theorem C122_history : forall {T} {N : Num T} win cwd (calls : list (io (@FS T) path * @job T)) f before m j later g q,
  Forall (fun c => in_steps win cwd (fst c) (snd c)) calls -> calls = before ++ (m, j) :: later ->
  m (after f (map fst before)) = (g, Ok q) ->
  (forall m' j', In (m', j') later -> jover j' = true -> jpath j' <> q) ->
  (exists c, look g q = Some (File c)) /\ look (after f (map fst calls)) q = look g q /\
  forall l1 m' j' l2 g' q', later = l1 ++ (m', j') :: l2 -> m' (after g (map fst l1)) = (g', Ok q') -> q' <> q.
Proof.
  intros T N win cwd calls f before m j later g q St -> E Hl. apply Forall_app in St. destruct St as [_ St]. inversion_clear St as [|x l Sm Sl]. cbn [fst snd] in Sm.
  destruct (steps_call win cwd m j _ _ _ Sm E) as [_ H]. destruct (H q eq_refl) as [[c Lc] _].
  assert (K : forall l, Forall (fun c => in_steps win cwd (fst c) (snd c)) l -> (forall m' j', In (m', j') l -> jover j' = true -> jpath j' <> q) -> look (after g (map fst l)) q = Some (File c)).
  { intros l. revert g E H Lc. clear. intros g _ _. revert g. induction l as [|[m' j'] l IH]; intros g Lc Hs Hl; [exact Lc|]. inversion_clear Hs. cbn [fst snd] in *.
    change (after g (map fst ((m', j') :: l))) with (after (fst (m' g)) (map fst l)). apply IH; [|assumption|intros m2 j2 I; apply (Hl m2 j2); now right].
    destruct (m' g) as [g' r] eqn:Em. destruct (steps_call win cwd m' j' _ _ _ H Em) as [K _]. cbn [fst]. rewrite K; [exact Lc|congruence|apply (Hl m' j'); now left]. }
  split; [now exists c|]. split.
  - rewrite map_app. unfold after at 1. rewrite fold_left_app. change (look (after (fst (m (after f (map fst before)))) (map fst later)) q = look g q). rewrite E. cbn [fst]. rewrite K by assumption. congruence.
  - intros l1 m' j' l2 g' q' -> E' ->. apply Forall_app in Sl. destruct Sl as [S1 S2]. inversion_clear S2 as [|x l Sm' _]. cbn [fst snd] in Sm'.
    destruct (steps_call win cwd m' j' _ _ _ Sm' E') as [_ H']. destruct (H' q eq_refl) as [_ H2]. destruct H2 as [O P].
    + rewrite K; [discriminate|exact S1|]. intros m2 j2 I. apply (Hl m2 j2). apply in_or_app. now left.
    + apply (Hl m' j'); [apply in_or_app; right; now left|exact O|exact P].
Qed.
Print Assumptions C122_history.
Example C122_ex_history : exists g q g' q', save_metadata_txt false home ex_str (lit "a.txt") true false [true] false ex_fs = (g, Ok q) /\
  save_metadata_txt false home ex_str (lit "a.txt") false false [] false g = (g', Ok q') /\ q = home ++ [lit "a_0001.txt"] /\ q' = home ++ [lit "a_0002.txt"] /\
  in_steps (N := boolNum) false home (save_metadata_txt false home ex_str (lit "a.txt") true false [true] false) (ex_txt (lit "a.txt") true false [true] false).
Proof.
  do 4 eexists. split; [vm_compute; reflexivity|]. split; [vm_compute; reflexivity|]. split; [vm_compute; reflexivity|]. split; [vm_compute; reflexivity|].
  exact (st_txt (N := boolNum) false home ex_str bytes (lit "a.txt") true false [true] false _ bytes_pieces eq_refl).
Qed.
