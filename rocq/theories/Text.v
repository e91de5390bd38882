(** Python str operations used by losa/loadersaver.py, on ASCII text.
    Non-ASCII characters (other Unicode white space, case folding) are not
    modelled. *)
From Coq Require Import Ascii String Decimal DecimalString DecimalNat DecimalFacts.
From Verif Require Import Base.

(** str; used by discorpy/losa/loadersaver.py 133-147 (info_keys),
    loadersaver.py 148-159 (info_entry), loadersaver.py 109-168
    (get_hdf_information) and others. *)
Definition text := list ascii.
(** Literals.
    Used by loadersaver.py 237-245 (get_key_items), loadersaver.py 47-67
    (correct_text), loadersaver.py 400-402 (numbered) and others. *)
Definition lit (s : string) : text := list_ascii_of_string s.

(** Equality of characters; used by loadersaver.py 237-245 (get_key_items),
    loadersaver.py 431-441 (prepare_image), loadersaver.py 47-67 (correct_text)
    and others. *)
Definition aeqb : ascii -> ascii -> bool := Ascii.eqb.
(** a == b for str; used by loadersaver.py 237-245 (get_key_items),
    loadersaver.py 431-441 (prepare_image). *)
Fixpoint teqb (a b : text) : bool :=
  match a, b with
  | [], [] => true
  | x :: a', y :: b' => aeqb x y && teqb a' b'
  | _, _ => false
  end.
Lemma teqb_eq a b : teqb a b = true <-> a = b.
Proof.
  revert b. induction a as [|x a IH]; intros [|y b]; cbn; try (split; congruence).
  rewrite andb_true_iff, IH. unfold aeqb. rewrite Ascii.eqb_eq. split.
  - intros [-> ->]. reflexivity.
  - intros H. injection H as -> ->. auto.
Qed.
Lemma teqb_refl a : teqb a a = true. Proof. now apply teqb_eq. Qed.

(** x in l for a list of str; used by loadersaver.py 572-605 (save_hdf_file),
    loadersaver.py 608-656 (open_hdf_stream), loadersaver.py 713-751
    (save_metadata_txt) and others. *)
Fixpoint tmem (x : text) (l : list text) : bool :=
  match l with [] => false | y :: l' => teqb x y || tmem x l' end.
Lemma tmem_in x l : tmem x l = true <-> In x l.
Proof.
  induction l as [|y l IH]; cbn; [split; [discriminate|easy]|].
  rewrite orb_true_iff, IH, teqb_eq. split; intros [H|H]; auto.
Qed.

(** ord; used by loadersaver.py 411-450 (save_image), loadersaver.py 411-450
    (image_job). *)
Definition code (c : ascii) : nat := nat_of_ascii c.

(** [pattern in s] for strings.
    Used by loadersaver.py 210-224 (find_loop), loadersaver.py 47-67
    (correct_text), loadersaver.py 645-654 (stream_options) and others. *)
Fixpoint prefixb (p s : text) : bool :=
  match p, s with
  | [], _ => true
  | x :: p', y :: s' => aeqb x y && prefixb p' s'
  | _ :: _, [] => false
  end.
(** pattern in s; used by loadersaver.py 210-224 (find_loop), loadersaver.py
    47-67 (correct_text), loadersaver.py 645-654 (stream_options) and others. *)
Fixpoint contains (p s : text) : bool :=
  prefixb p s || match s with [] => false | _ :: s' => contains p s' end.

Lemma prefixb_spec p s : prefixb p s = true <-> exists r, s = p ++ r.
Proof.
  revert s. induction p as [|x p IH]; intros s; cbn.
  - split; [intros _; now exists s|reflexivity].
  - destruct s as [|y s]; cbn.
    + split; [discriminate|]. intros [r H]. discriminate.
    + rewrite andb_true_iff, IH. unfold aeqb. rewrite Ascii.eqb_eq. split.
      * intros [-> [r ->]]. now exists r.
      * intros [r H]. injection H as -> ->. split; [reflexivity|now exists r].
Qed.
Lemma contains_spec p s : contains p s = true <-> exists a b, s = a ++ p ++ b.
Proof.
  induction s as [|c s IH]; cbn [contains].
  - rewrite orb_false_r, prefixb_spec. split.
    + intros [r H]. exists [], r. exact H.
    + intros [a [b H]]. destruct a; [|discriminate]. now exists b.
  - rewrite orb_true_iff, prefixb_spec, IH. split.
    + intros [[r H]|[a [b H]]]; [exists [], r; exact H|]. exists (c :: a), b. now rewrite H.
    + intros [a [b H]]. destruct a as [|x a]; [left; exists b; exact H|].
      right. injection H as -> ->. now exists a, b.
Qed.

(** s.replace(c, r) for a single character c.
    Used by loadersaver.py 47-67 (correct_text). *)
Definition replace_char (c : ascii) (r : text) (s : text) : text :=
  flat_map (fun x => if aeqb x c then r else [x]) s.

(** str.lower for ASCII.
    Used by loadersaver.py 411-450 (save_image), loadersaver.py 411-450
    (image_job). *)
Definition lower_char (c : ascii) : ascii :=
  let n := code c in if (65 <=? n)%nat && (n <=? 90)%nat then ascii_of_nat (n + 32) else c.
(** str.lower; used by loadersaver.py 411-450 (save_image), loadersaver.py
    411-450 (image_job). *)
Definition lower (s : text) : text := map lower_char s.

(** White space and line boundaries among the ASCII characters.
    Used by loadersaver.py 754-776 (parse_meta). *)
Definition is_ws (c : ascii) : bool :=
  let n := code c in ((9 <=? n) && (n <=? 13) || (28 <=? n) && (n <=? 32))%nat.
(** Line boundaries of str.splitlines; used by loadersaver.py 754-776
    (parse_meta). *)
Definition is_nl (c : ascii) : bool :=
  let n := code c in ((10 <=? n) && (n <=? 13) || (28 <=? n) && (n <=? 30))%nat.

(** '\n'; used by loadersaver.py 713-751 (save_metadata_txt), loadersaver.py
    713-751 (txt_job). *)
Definition LF : ascii := ascii_of_nat 10.
(** '\r'; used by loadersaver.py 829-848 (load_metadata_json). *)
Definition CR : ascii := ascii_of_nat 13.

(** Reading a file in text mode: '\r\n' and '\r' become '\n'.
    Used by loadersaver.py 829-848 (load_metadata_json). *)
Fixpoint univ_newlines (s : text) : text :=
  match s with
  | [] => []
  | c :: s' =>
      if aeqb c CR then
        match s' with
        | d :: s'' => if aeqb d LF then LF :: univ_newlines s'' else LF :: univ_newlines s'
        | [] => [LF]
        end
      else c :: univ_newlines s'
  end.

(** str.splitlines() (after newline translation). [cur] is the current line.
    Used by loadersaver.py 754-776 (parse_meta). *)
Fixpoint splitlines_from (cur : text) (s : text) : list text :=
  match s with
  | [] => match cur with [] => [] | _ => [cur] end
  | c :: s' => if is_nl c then cur :: splitlines_from [] s' else splitlines_from (cur ++ [c]) s'
  end.
(** str.splitlines(); used by loadersaver.py 754-776 (parse_meta). *)
Definition splitlines (s : text) : list text := splitlines_from [] s.

(** str.split()
    Used by loadersaver.py 754-776 (parse_meta). *)
Fixpoint split_from (cur : text) (s : text) : list text :=
  match s with
  | [] => match cur with [] => [] | _ => [cur] end
  | c :: s' =>
      if is_ws c then match cur with [] => split_from [] s' | _ => cur :: split_from [] s' end
      else split_from (cur ++ [c]) s'
  end.
(** str.split(); used by loadersaver.py 754-776 (parse_meta). *)
Definition split_ws (s : text) : list text := split_from [] s.

(** str of a non-negative int, and with at least four digits (f"{n:04d}").
    Used by loadersaver.py 713-751 (save_metadata_txt), loadersaver.py 713-751
    (txt_job). *)
Definition dec (n : nat) : text := lit (NilEmpty.string_of_uint (Nat.to_uint n)).
(** A number with at least four digits, as in the names Name_0001.ext; used by
    loadersaver.py 400-402 (numbered). *)
Definition dec4 (n : nat) : text :=
  let d := Nat.to_uint n in
  lit (NilEmpty.string_of_uint (Nat.iter (4 - nb_digits d) D0 d)).

(** ** Facts *)
(** (Only used in statements about loadersaver.py 713-776.) *)
Definition no_ws (s : text) : Prop := Forall (fun c => is_ws c = false) s.

Lemma nl_ws c : is_nl c = true -> is_ws c = true.
Proof. unfold is_nl, is_ws. intros H. lia. Qed.
Lemma cr_nl : is_nl CR = true. Proof. reflexivity. Qed.
Lemma lf_nl : is_nl LF = true. Proof. reflexivity. Qed.

Lemma univ_newlines_id s : Forall (fun c => c <> CR) s -> univ_newlines s = s.
Proof.
  induction s as [|c s IH]; intros H; cbn [univ_newlines]; [reflexivity|].
  inversion_clear H. unfold aeqb. destruct (Ascii.eqb_spec c CR) as [E|E]; [congruence|].
  f_equal. auto.
Qed.

Lemma splitlines_line cur l s : Forall (fun c => is_nl c = false) l ->
  splitlines_from cur (l ++ LF :: s) = (cur ++ l) :: splitlines_from [] s.
Proof.
  revert cur. induction l as [|c l IH]; intros cur H; cbn [app splitlines_from].
  - rewrite lf_nl. now rewrite app_nil_r.
  - inversion_clear H. rewrite H0. rewrite IH by assumption. now rewrite <- app_assoc.
Qed.
Lemma splitlines_lines ls : Forall (Forall (fun c => is_nl c = false)) ls ->
  splitlines (concat (map (fun l => l ++ [LF]) ls)) = ls.
Proof.
  unfold splitlines. induction ls as [|l ls IH]; intros H; cbn [map concat]; [reflexivity|].
  inversion_clear H. rewrite <- app_assoc. cbn [app]. rewrite splitlines_line by assumption.
  now rewrite IH.
Qed.

Lemma split_word cur w : no_ws w -> (cur <> [] \/ w <> []) -> split_from cur w = [cur ++ w].
Proof.
  revert cur. induction w as [|c w IH]; intros cur H Hne; cbn [split_from].
  - rewrite app_nil_r. destruct cur; [|reflexivity]. destruct Hne; congruence.
  - inversion_clear H. rewrite H0, IH; [now rewrite <- app_assoc|assumption|].
    left. now destruct cur.
Qed.
Lemma split_app_space a w : no_ws w -> w <> [] ->
  forall cur, exists l, split_from cur (a ++ " "%char :: w) = l ++ [w].
Proof.
  intros Hw Hne. induction a as [|c a IH]; intros cur; cbn [app split_from].
  - change (is_ws " ") with true. cbv iota. destruct cur as [|x cur].
    + exists []. now rewrite split_word by auto.
    + exists [x :: cur]. rewrite split_word by auto. reflexivity.
  - destruct (is_ws c).
    + destruct cur as [|x cur]; [apply IH|]. destruct (IH []) as [l E]. exists ((x :: cur) :: l).
      rewrite E. reflexivity.
    + apply IH.
Qed.
Lemma split_last a w : no_ws w -> w <> [] ->
  pyget (split_ws (a ++ " "%char :: w)) (-1) = Ok w.
Proof.
  intros Hw Hne. unfold split_ws. destruct (split_app_space a w Hw Hne []) as [l ->].
  unfold pyget. rewrite app_length. cbn [length].
  replace (-1 <? 0)%Z with true by reflexivity.
  replace ((-1 + Z.of_nat (length l + 1) <? 0) || (Z.of_nat (length l + 1) <=? -1 + Z.of_nat (length l + 1)))%Z
    with false by (symmetry; lia).
  replace (Z.to_nat (-1 + Z.of_nat (length l + 1))) with (length l) by lia.
  rewrite nth_error_app2 by lia. now rewrite Nat.sub_diag.
Qed.

(** Decimal printing is injective. *)
Lemma lit_inj a b : lit a = lit b -> a = b.
Proof.
  unfold lit. intros H. rewrite <- (string_of_list_ascii_of_string a), <- (string_of_list_ascii_of_string b).
  now rewrite H.
Qed.
Lemma of_uint_zeros k d : Nat.of_uint (Nat.iter k D0 d) = Nat.of_uint d.
Proof. induction k as [|k IH]; [reflexivity|]. cbn [Nat.iter nat_rect]. exact IH. Qed.
Lemma string_of_uint_inj a b : NilEmpty.string_of_uint a = NilEmpty.string_of_uint b -> a = b.
Proof.
  intros H. pose proof (NilEmpty.usu a) as A. pose proof (NilEmpty.usu b) as B. congruence.
Qed.
Lemma dec4_inj n m : dec4 n = dec4 m -> n = m.
Proof.
  unfold dec4. intros H. apply lit_inj, string_of_uint_inj in H.
  apply (f_equal Nat.of_uint) in H. rewrite !of_uint_zeros in H.
  now rewrite !DecimalNat.Unsigned.of_to in H.
Qed.
Lemma dec_inj n m : dec n = dec m -> n = m.
Proof.
  unfold dec. intros H. apply lit_inj, string_of_uint_inj in H.
  apply (f_equal Nat.of_uint) in H. now rewrite !DecimalNat.Unsigned.of_to in H.
Qed.

(** A decimal digit; only used in statements (loadersaver.py 379-408). *)
Definition is_digit (c : ascii) : bool := let n := code c in ((48 <=? n) && (n <=? 57))%nat.
Lemma uint_digits d : Forall (fun c => is_digit c = true) (lit (NilEmpty.string_of_uint d)).
Proof. induction d; cbn; constructor; (reflexivity || assumption). Qed.
Lemma digit_not_ws c : is_digit c = true -> is_ws c = false.
Proof. unfold is_digit, is_ws. lia. Qed.
Lemma dec_no_ws n : no_ws (dec n).
Proof.
  unfold no_ws, dec. eapply Forall_impl; [|apply uint_digits]. intros c. apply digit_not_ws.
Qed.
Lemma string_of_uint_length d : List.length (lit (NilEmpty.string_of_uint d)) = nb_digits d.
Proof. induction d; cbn; auto. Qed.
Lemma dec4_length n : (4 <= List.length (dec4 n))%nat.
Proof.
  unfold dec4. rewrite string_of_uint_length.
  set (d := Nat.to_uint n). set (k := (4 - nb_digits d)%nat).
  assert (H : forall k, nb_digits (Nat.iter k D0 d) = (k + nb_digits d)%nat).
  { clear. induction k as [|k IH]; [reflexivity|]. change (Nat.iter (S k) D0 d) with (D0 (Nat.iter k D0 d)). cbn [nb_digits]. now rewrite IH. }
  rewrite H. unfold k. lia.
Qed.
