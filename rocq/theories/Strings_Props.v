(** Arrays, strings, comparing, completing, translating. *)
From Coq Require Import ZArith List Bool Lia ZifyBool.
From Verif Require Import Strings_Model Strings_Spec Strings_Proofs Strings_Text.
Import ListNotations.
Open Scope Z_scope.

(** The empty string, "abc", a constant string "Xy", [1 2], a constant vector [7] *)
Definition ex_heap : heap :=
  mkheap [mkstr [] true; mkstr [97; 98; 99] false; mkstr [88; 121] true]
         [mkvec 2 [VInt 1; VInt 2] false false; mkvec 1 [VInt 7] true false].
Lemma ex_sound : sound ex_heap.
Proof.
  split; [eexists; reflexivity | ]. split; repeat constructor; cbn; unfold byte; try lia; try discriminate.
Qed.

(** * C62: arrays keep what is stored in them *)

(** After any calls of aset that succeeded, on any arrays, an element is what
    the last one said about it, or what it was before. *)
Theorem C62_read_what_was_written : forall hist h h' a i, sound h -> arrayp a = true -> 0 <= i ->
  do_all h hist = Some h' -> sound h' /\ element h' a i = last_said hist a i (element h a i).
Proof. exact last_said_ok. Qed.
Print Assumptions C62_read_what_was_written.
Definition ex_hist : list (val * Z * val) := [(VVec 0, 1, VStr 2); (VStr 1, 0, VInt 355); (VVec 0, 1, nil); (VVec 0, 0, VInt 9)].
Example read_ex : exists h', do_all ex_heap ex_hist = Some h' /\ element h' (VVec 0) 1 = Some nil /\ element h' (VStr 1) 0 = Some (VInt 99) /\
  last_said ex_hist (VVec 0) 1 (element ex_heap (VVec 0) 1) = Some nil /\ last_said ex_hist (VVec 0) 7 None = None.
Proof. eexists. vm_compute. repeat split. Qed.

(** aset succeeds exactly for an index of a writable array, and a character if
    it is a string; it returns the value; if it does not succeed it signals and
    nothing has changed.  No length and no permission changes. *)
Theorem C62_aset_in_bounds : forall h a i v, sound h ->
  (settable h a i v /\ exists h', aset h a (VInt i) v = (Ret v, h') /\ sound h' /\
     (forall b, zlen (elements h' b) = zlen (elements h b)) /\ (forall b, constant h' b = constant h b))
  \/ (~ settable h a i v /\ aset h a (VInt i) v = (Sig, h)).
Proof.
  intros h a i v S. destruct (aset_ok h a i v S) as [(St & h' & E & S' & E1 & E2 & C & _) | N]; [left | right; exact N].
  split; [exact St | ]. exists h'. repeat (split; auto). intros b.
  assert (D : b = a \/ b <> a).
  { destruct a as [ | p | p | | ], b as [ | q | q | | ]; try (right; discriminate); try (destruct St as (A & _); discriminate).
    - destruct (Nat.eq_dec q p) as [-> | N]; [now left | right; congruence].
    - destruct (Nat.eq_dec q p) as [-> | N]; [now left | right; congruence]. }
  destruct D as [-> | N]; [ | now rewrite E2]. rewrite E1. unfold zlen. now rewrite set_nth_length.
Qed.
Print Assumptions C62_aset_in_bounds.
Example aset_ex : settable ex_heap (VStr 1) 2 (VInt 65) /\ ~ settable ex_heap (VStr 1) 3 (VInt 65) /\ ~ settable ex_heap (VVec 1) 0 (VInt 65) /\
  ~ settable ex_heap (VStr 1) 0 nil.
Proof.
  split; [split; [reflexivity | split; [reflexivity | split; [vm_compute; split; congruence | eauto]]] | ].
  split; [intros (_ & _ & [_ H] & _); vm_compute in H; discriminate | ].
  split; [intros (_ & H & _); discriminate | intros (_ & _ & _ & c & H); discriminate].
Qed.

(** aref gives the element at an index, and signals for everything else; it
    never reads outside of the array.  length is the number of elements. *)
Theorem C62_aref_in_bounds : forall h a i, sound h -> arrayp a = true ->
  length_ h a = Ret (VInt (zlen (elements h a))) /\
  (forall x, aref h a (VInt i) = Ret x <-> 0 <= i /\ nth_error (elements h a) (Z.to_nat i) = Some x) /\
  (aref h a (VInt i) = Sig <-> ~ 0 <= i < zlen (elements h a)).
Proof.
  intros h a i S A. split; [now apply length_ok | ]. rewrite (aref_ok h a i S), A. destruct (Z.leb_spec 0 i) as [L | L]; cbn [andb].
  - assert (T : Z.of_nat (Z.to_nat i) = i) by lia. destruct (nth_error (elements h a) (Z.to_nat i)) as [y | ] eqn:E.
    + pose proof (nth_error_Some (elements h a) (Z.to_nat i)) as [N _]. specialize (N ltac:(congruence)). split.
      * intros x. split; [intros [= ->]; auto | intros [_ [= ->]]; reflexivity].
      * split; [discriminate | ]. unfold zlen. lia.
    + apply nth_error_None in E. split.
      * intros x. split; [discriminate | intros [_ H]; discriminate].
      * split; [unfold zlen; lia | reflexivity].
  - split; [intros x; split; [discriminate | lia] | split; [lia | reflexivity]].
Qed.
Print Assumptions C62_aref_in_bounds.
Example aref_ex : aref ex_heap (VStr 2) (VInt 1) = Ret (VInt 121) /\ aref ex_heap (VStr 2) (VInt 2) = Sig /\ aref ex_heap (VVec 1) (VInt (-1)) = Sig.
Proof. vm_compute. auto. Qed.

(** vector, make-vector, make-string and copy-sequence return new arrays with
    the elements asked for and change nothing else.  Partial: vectors of less
    than 2^23 elements. *)
Theorem C62_new_arrays_partial : forall h, sound h ->
  (forall l, zlen l < 2 ^ 23 -> exists v, fresh h (vector h l) v l /\ constant (snd (vector h l)) v = false) /\
  (forall n x, 0 <= n < 2 ^ 23 -> exists v, let r := make_vector h (VInt n) x in
     fresh h r v (repeat x (Z.to_nat n)) /\ constant (snd r) v = false) /\
  (forall n c, 0 <= n < 2 ^ 56 -> fresh_string h (make_string h (VInt n) (VInt c)) (repeat (c mod 256) (Z.to_nat n))) /\
  (forall n, 0 <= n < 2 ^ 56 -> fresh_string h (make_string h (VInt n) nil) (repeat 32 (Z.to_nat n))) /\
  (forall n x, n < 0 -> make_vector h (VInt n) x = (Sig, h) /\ make_string h (VInt n) x = (Sig, h)) /\
  (forall a, arrayp a = true -> (forall p, a = VVec p -> zlen (elements h a) < 2 ^ 23) -> exists v, fresh h (copy_sequence h a) v (elements h a)).
Proof.
  intros h S.
  assert (MS : forall n c, 0 <= n < 2 ^ 56 -> byte c -> fresh_string h (new_str h (repeat c (Z.to_nat n))) (repeat c (Z.to_nat n))).
  { intros n c H B. apply new_str_ok; [exact S | | rewrite zlen_repeat by lia; lia].
    apply Forall_forall. intros x I. apply repeat_spec in I. now subst. }
  split; [ | split; [ | split; [ | split; [ | split]]]].
  - intros l L. destruct (vector_ok h l S L) as (p & F). now exists (VVec p).
  - intros n x H. destruct (make_vector_ok h n x S H) as (p & F). now exists (VVec p).
  - intros n c H. unfold make_string. replace (n <? 0) with false by lia. apply MS; [exact H | ]. unfold byte. pose proof (Z.mod_pos_bound c 256 ltac:(lia)). lia.
  - intros n H. unfold make_string, nil. replace (n <? 0) with false by lia. apply MS; [exact H | ]. unfold byte. lia.
  - intros n x H. unfold make_vector, make_string. replace (n <? 0) with true by lia. auto.
  - intros a A L. destruct (copy_ok h a S A) as (v & F & _); [destruct a; auto; now apply (L p) | eauto].
Qed.
Print Assumptions C62_new_arrays_partial.
Example new_ex : let h' := snd (make_vector ex_heap (VInt 3) (VStr 1)) in
  fst (make_vector ex_heap (VInt 3) (VStr 1)) = Ret (VVec 2) /\ elements h' (VVec 2) = [VStr 1; VStr 1; VStr 1] /\
  elements (snd (copy_sequence h' (VVec 2))) (VVec 3) = [VStr 1; VStr 1; VStr 1].
Proof. vm_compute. auto. Qed.

(** From 2^23 elements on the length in the header is wrong: the vector seems
    to have nearly 2^56 elements, and the one behind the last is read from
    memory that is not the vector's. *)
Theorem C62_long_vectors : forall h n x, sound h -> 2 ^ 23 <= n < 2 ^ 24 ->
  exists v h', make_vector h (VInt n) x = (Ret v, h') /\ length_ h' v = Ret (VInt (2 ^ 56 - 2 ^ 24 + n)) /\ aref h' v (VInt n) = Wild.
Proof.
  intros h n x S H. unfold make_vector. replace (n <? 0) with false by lia. rewrite wrap32_id by lia. unfold new_vec.
  assert (E : rep_make_vector n = Made (2 ^ 56 - 2 ^ 24 + n) n).
  { unfold rep_make_vector. rewrite (wrap32_id (8 * (n - 1) + 24)) by lia. replace (8 * (n - 1) + 24 <? 0) with false by lia. replace (8 * (n - 1) + 24 <? 16) with false by lia.
    f_equal; [ | replace (8 * (n - 1) + 24 - 16) with (n * 8) by lia; apply Z.div_mul; lia].
    unfold wrap32.
    replace ((n * 256 + 2 ^ 31) mod 2 ^ 32) with (n * 256 + 2 ^ 31 - 2 ^ 32) by (apply Z.mod_unique_pos with (q := 1); lia).
    replace ((n * 256 + 2 ^ 31 - 2 ^ 32 - 2 ^ 31) mod 2 ^ 64) with ((n - 2 ^ 24 + 2 ^ 56) * 256) by (apply Z.mod_unique_pos with (q := -1); lia).
    rewrite Z.div_mul by lia. lia. }
  rewrite E, zlen_repeat by lia. rewrite Z.ltb_irrefl. eexists _, _. split; [reflexivity | ].
  assert (G : forall m, nth (length m) (m ++ [mkvec (2 ^ 56 - 2 ^ 24 + n) (repeat x (Z.to_nat n) ++ repeat (VOther 0) (Z.to_nat n - length (repeat x (Z.to_nat n)))) false false]) (mkvec 0 [] true false)
    = mkvec (2 ^ 56 - 2 ^ 24 + n) (repeat x (Z.to_nat n) ++ repeat (VOther 0) (Z.to_nat n - length (repeat x (Z.to_nat n)))) false false).
  { intros m. rewrite app_nth2, Nat.sub_diag by lia. reflexivity. }
  unfold length_, aref, get_vec. cbn [vecs]. rewrite G. cbn [v_len v_slots]. split; [reflexivity | ].
  replace (n <? 0) with false by lia. replace (n <? 2 ^ 56 - 2 ^ 24 + n) with true by lia.
  rewrite repeat_length, Nat.sub_diag. cbn [repeat]. rewrite app_nil_r.
  destruct (nth_error (repeat x (Z.to_nat n)) (Z.to_nat n)) eqn:N; [ | reflexivity].
  assert (nth_error (repeat x (Z.to_nat n)) (Z.to_nat n) <> None) as N' by congruence. apply nth_error_Some in N'. rewrite repeat_length in N'. lia.
Qed.
Print Assumptions C62_long_vectors.
Theorem C62_vector_length_refuted : exists h n x v h', sound h /\ 0 <= n < 2 ^ 61 /\ make_vector h (VInt n) x = (Ret v, h') /\
  length_ h' v <> Ret (VInt n) /\ aref h' v (VInt n) = Wild.
Proof.
  destruct (C62_long_vectors ex_heap (2 ^ 23) nil ex_sound ltac:(lia)) as (v & h' & E & L & W).
  exists ex_heap, (2 ^ 23), nil, v, h'. split; [exact ex_sound | ]. split; [lia | ]. split; [exact E | ]. split; [ | exact W]. rewrite L. intros [= H].
Qed.
Print Assumptions C62_vector_length_refuted.
(** The number of elements is converted to int: of 2^32+5 five are left, for
    2^28 there is neither a value nor an error, for 2^29 sixteen bytes are
    allocated and written over. *)
Theorem C62_vector_size_refuted : exists h x, sound h /\
  (exists v h', make_vector h (VInt (2 ^ 32 + 5)) x = (Ret v, h') /\ length_ h' v = Ret (VInt 5)) /\
  make_vector h (VInt (2 ^ 28)) x = (NoValue, h) /\ make_vector h (VInt (2 ^ 29)) x = (Wild, h).
Proof.
  exists ex_heap, nil. split; [exact ex_sound | ]. split; [ | split].
  - exists (VVec 2), (snd (make_vector ex_heap (VInt (2 ^ 32 + 5)) nil)). vm_compute. auto.
  - unfold make_vector. replace (2 ^ 28 <? 0) with false by reflexivity. unfold new_vec.
    replace (rep_make_vector (wrap32 (2 ^ 28))) with MNull by (vm_compute; reflexivity). reflexivity.
  - unfold make_vector. replace (2 ^ 29 <? 0) with false by reflexivity. unfold new_vec.
    replace (rep_make_vector (wrap32 (2 ^ 29))) with (Made 0 0) by (vm_compute; reflexivity).
    rewrite wrap32_id by lia. rewrite zlen_repeat by lia. reflexivity.
Qed.
Print Assumptions C62_vector_size_refuted.
(** A copy of a constant string can be written to, one of a constant vector
    cannot. *)
Theorem C62_copy_writable_refuted : exists h s v s' v' h1 h2, sound h /\ constant h s = true /\ constant h v = true /\
  copy_sequence h s = (Ret s', h1) /\ copy_sequence h1 v = (Ret v', h2) /\
  aset h2 v' (VInt 0) (VInt 65) = (Sig, h2) /\ fst (aset h2 s' (VInt 0) (VInt 65)) = Ret (VInt 65).
Proof. exists ex_heap, (VStr 2), (VVec 1). eexists _, _, _, _. split; [exact ex_sound | ]. repeat (split; [reflexivity | ]). split; reflexivity. Qed.
Print Assumptions C62_copy_writable_refuted.
(** aset returns its argument, not what is stored. *)
Theorem C62_stored_is_returned_refuted : exists h s i v h', sound h /\ aset h s (VInt i) v = (Ret v, h') /\ aref h' s (VInt i) <> Ret v.
Proof. exists ex_heap, (VStr 1), 0, (VInt 300). eexists. split; [exact ex_sound | ]. split; [reflexivity | ]. vm_compute. congruence. Qed.
Print Assumptions C62_stored_is_returned_refuted.
(** elt of a list is the element at the index.  Partial: indices below 2^31;
    others are converted to int, so that the index 2^32 is the first. *)
Theorem C62_elt_partial : forall h l i, 0 <= i < 2 ^ 31 ->
  (i < zlen l -> exists x, nth_error l (Z.to_nat i) = Some x /\ elt h (VList l) (VInt i) = Ret x) /\
  (zlen l <= i -> elt h (VList l) (VInt i) = Ret nil).
Proof.
  intros h l i H. unfold elt. cbn [arrayp nth_]. rewrite wrap32_id by lia. replace (i <? 0) with false by lia. split; intros L.
  - destruct (nth_error l (Z.to_nat i)) as [x | ] eqn:E.
    + exists x. split; [reflexivity | ]. now rewrite (nth_error_nth l _ nil E).
    + apply nth_error_None in E. unfold zlen in L. lia.
  - rewrite nth_overflow; [reflexivity | ]. unfold zlen in L. lia.
Qed.
Print Assumptions C62_elt_partial.
Example elt_ex : elt ex_heap (VList [VInt 4; VStr 1]) (VInt 1) = Ret (VStr 1) /\ elt ex_heap (VList [VInt 4]) (VInt 1) = Ret nil.
Proof. vm_compute. auto. Qed.
Theorem C62_elt_refuted : exists h l i x, zlen l <= i /\ elt h (VList l) (VInt i) = Ret x /\ x <> nil.
Proof. exists ex_heap, [VInt 4], (2 ^ 32), (VInt 4). vm_compute. repeat split; congruence. Qed.
Print Assumptions C62_elt_refuted.

(** * C63: parts and sums of strings *)

(** substring is the part between two places, or an error if they are not
    places in order.  Partial: strings of less than 2^31 characters. *)
Theorem C63_substring_partial : forall h p a e, sound h -> zlen (text h p) < 2 ^ 31 ->
  (forall x m y, text h p = x ++ m ++ y -> zlen x = a -> zlen m = e - a ->
     fresh_string h (substring h (VStr p) (VInt a) (VInt e)) m) /\
  (forall x m, text h p = x ++ m -> zlen x = a -> fresh_string h (substring h (VStr p) (VInt a) nil) m) /\
  (~ (0 <= a <= e /\ e <= zlen (text h p)) -> substring h (VStr p) (VInt a) (VInt e) = (Sig, h)) /\
  (~ (0 <= a <= zlen (text h p)) -> substring h (VStr p) (VInt a) nil = (Sig, h)).
Proof.
  intros h p a e S L.
  assert (M : forall e x m y, text h p = x ++ m ++ y -> zlen x = a -> zlen m = e - a -> fresh_string h (substring h (VStr p) (VInt a) (VInt e)) m).
  { intros e0 x m y E X M. assert (zlen (text h p) = zlen x + zlen m + zlen y) by (rewrite E; unfold zlen; rewrite !app_length; lia).
    destruct (substring_ok h p a e0 S L) as [(_ & _ & F) | (N & _)].
    - rewrite (slice_unique _ a e0 x m y E X M) in F. exact F.
    - destruct N. unfold zlen in *. lia. }
  split; [ | split; [ | split]].
  - intros x m y. apply M.
  - intros x m E X. rewrite substring_end, wrap32_id by (unfold zlen in *; lia). apply (M _ x m []); [now rewrite app_nil_r | exact X | ].
    rewrite E. unfold zlen in *. rewrite app_length. lia.
  - intros N. destruct (substring_ok h p a e S L) as [(H1 & H2 & _) | (_ & E)]; [tauto | exact E].
  - intros N. rewrite substring_end, wrap32_id by (unfold zlen in *; lia). destruct (substring_ok h p a (zlen (text h p)) S L) as [(H1 & H2 & _) | (_ & E)]; [destruct N; lia | exact E].
Qed.
Print Assumptions C63_substring_partial.
Example substring_ex : text (snd (substring ex_heap (VStr 1) (VInt 1) (VInt 2))) 3 = [98] /\ text (snd (substring ex_heap (VStr 1) (VInt 1) nil)) 3 = [98; 99] /\
  substring ex_heap (VStr 1) (VInt 2) (VInt 1) = (Sig, ex_heap).
Proof. vm_compute. auto. Qed.

(** A heap with a string of n times the letter a *)
Definition big (n : Z) : heap := mkheap [mkstr [] true; mkstr (repeat 97 (Z.to_nat n)) false] [].
Lemma big_text : forall n, text (big n) 1 = repeat 97 (Z.to_nat n).
Proof. reflexivity. Qed.
Lemma big_zlen : forall n, 0 <= n -> zlen (text (big n) 1) = n.
Proof. intros. rewrite big_text. now apply zlen_repeat. Qed.
Lemma big_sound : forall n, 0 <= n < 2 ^ 56 -> sound (big n).
Proof.
  intros n H. split; [eexists; reflexivity | ]. split; [ | constructor]. constructor; [split; [constructor | reflexivity] | ]. constructor; [ | constructor].
  cbn [s_bytes]. split; [ | rewrite zlen_repeat; lia]. apply Forall_forall. intros x I. apply repeat_spec in I. subst. unfold byte. lia.
Qed.
(** The length is converted to int: of a string of 2^31 characters no part can
    be taken. *)
Theorem C63_substring_refuted : exists h p, sound h /\ zlen (text h p) = 2 ^ 31 /\ substring h (VStr p) (VInt 0) (VInt 1) = (Sig, h) /\
  substring h (VStr p) (VInt 0) nil = (Sig, h).
Proof.
  assert (G : exists n, n = 2 ^ 31) by eauto. destruct G as (n & G). exists (big n), 1%nat. split; [apply big_sound; lia | ].
  pose proof (big_zlen n ltac:(lia)) as Z1. split; [congruence | ].
  assert (W : wrap32 (zlen (s_bytes (get_str (big n) 1))) = - 2 ^ 31) by (change (s_bytes (get_str (big n) 1)) with (text (big n) 1); rewrite Z1, G; reflexivity).
  unfold substring, nil. rewrite W. split; reflexivity.
Qed.
Print Assumptions C63_substring_refuted.

(** concat is the characters of its arguments, one after the other; other
    values in lists and vectors are left out.  Partial: less than 2^32-1
    elements in all. *)
Theorem C63_concat_partial : forall h args bs, sound h -> Forall2 (spelled h) args bs -> sizes h args < 2 ^ 32 - 1 ->
  string_of h (concat h args) (List.concat bs).
Proof. exact concat_ok. Qed.
Print Assumptions C63_concat_partial.
Definition ex_args : list val := [VStr 1; VList [VInt 65; VStr 1; VInt 322]; VInt 33; VVec 0; VOther 3].
Example concat_ex : Forall2 (spelled ex_heap) ex_args [[97; 98; 99]; [65; 66]; [33]; [1; 2]; []] /\ sizes ex_heap ex_args < 2 ^ 32 - 1 /\
  text (snd (concat ex_heap ex_args)) 3 = [97; 98; 99; 65; 66; 33; 1; 2].
Proof.
  split; [ | vm_compute; split; [reflexivity | reflexivity]].
  constructor; [apply Sp_string | ]. constructor; [apply Sp_list, letters_chars; reflexivity | ]. constructor; [apply (Sp_char _ 33) | ].
  constructor; [apply Sp_vector; [reflexivity | apply letters_chars; reflexivity] | ]. constructor; [apply Sp_other | constructor].
Qed.
(** The sum of the lengths is an unsigned int: two strings of 2^31 characters
    make the empty string, and with one of five characters more the buffer is
    for five. *)
Theorem C63_concat_refuted : exists h p b, sound h /\ zlen (text h p) = 2 ^ 31 /\
  concat h [VStr p; VStr p] = (Ret b, h) /\ length_ h b = Ret (VInt 0) /\
  concat h [VStr p; VStr p; VList [VInt 97; VInt 97; VInt 97; VInt 97; VInt 97]] = (Wild, h).
Proof.
  assert (G : exists n, n = 2 ^ 31) by eauto. destruct G as (n & G). exists (big n), 1%nat, null_string. split; [apply big_sound; lia | ].
  pose proof (big_zlen n ltac:(lia)) as Z1. split; [congruence | ].
  change (text (big n) 1) with (s_bytes (get_str (big n) 1)) in Z1. unfold concat. cbn [fold_left concat_len]. rewrite Z1.
  replace ((((0 + n) mod 2 ^ 32 + n) mod 2 ^ 32)) with 0 by (rewrite G; reflexivity).
  split; [reflexivity | ]. split; [reflexivity | ].
  replace ((0 + zlen [VInt 97; VInt 97; VInt 97; VInt 97; VInt 97]) mod 2 ^ 32) with 5 by reflexivity.
  cbn [concat_write concat_bytes]. replace (5 =? 0) with false by reflexivity. set (s := s_bytes (get_str (big n) 1)) in *.
  set (t := chars _ ++ []). replace (zlen (s ++ s ++ t) + 1 <=? (5 + 1) mod 2 ^ 32) with false; [reflexivity | ].
  unfold zlen in *. rewrite !app_length. replace ((5 + 1) mod 2 ^ 32) with 6 by reflexivity. lia.
Qed.
Print Assumptions C63_concat_refuted.

(** A string is the concatenation of its two parts at any place. *)
Theorem C63_split_partial : forall h p k, sound h -> zlen (text h p) < 2 ^ 31 -> 0 <= k <= zlen (text h p) ->
  exists a b h1 h2, substring h (VStr p) (VInt 0) (VInt k) = (Ret (VStr a), h1) /\
    substring h1 (VStr p) (VInt k) nil = (Ret (VStr b), h2) /\
    string_of h2 (concat h2 [VStr a; VStr b]) (text h p).
Proof.
  intros h p k S L K. set (x := firstn (Z.to_nat k) (text h p)). set (y := skipn (Z.to_nat k) (text h p)).
  assert (E : text h p = x ++ y) by (symmetry; apply firstn_skipn).
  assert (X : zlen x = k) by (unfold x, zlen in *; rewrite firstn_length; lia).
  destruct (proj1 (C63_substring_partial h p 0 k S L) [] x y E eq_refl ltac:(lia)) as (a & F & T & _).
  destruct (substring h (VStr p) (VInt 0) (VInt k)) as [r1 h1] eqn:E1. destruct F as (F1 & F2 & F3 & F4 & F5 & F6 & F7). cbn [fst snd] in *. subst r1.
  assert (Lp : (p < length (strs h))%nat \/ text h p = []).
  { destruct (Nat.lt_ge_cases p (length (strs h))) as [Q | Q]; [now left | right]. unfold text, get_str. now rewrite nth_overflow. }
  assert (Tp : text h1 p = text h p).
  { destruct Lp as [Lp | Lp]; [unfold text; now rewrite (proj1 F6 p Lp) | ].
    destruct (Nat.eq_dec p a) as [-> | N]; [rewrite T; unfold x; rewrite Lp; now rewrite firstn_nil | ].
    unfold substring in E1. destruct ((_ <? 0) || _); [discriminate | ]. destruct ((_ <? k) || _); [discriminate | ]. unfold new_str in E1. destruct (_ <=? _); [ | discriminate].
    injection E1 as Ea <-. unfold text, get_str in *. cbn [strs]. destruct (Nat.lt_ge_cases p (length (strs h))) as [Q | Q]; [now rewrite app_nth1 | ].
    rewrite (nth_overflow (strs h)) by exact Q. rewrite nth_overflow; [reflexivity | ]. rewrite app_length. cbn [length]. lia. }
  destruct (proj1 (proj2 (C63_substring_partial h1 p k 0 F7 ltac:(now rewrite Tp))) x y ltac:(now rewrite Tp) X) as (b & G & Tb & _).
  destruct (substring h1 (VStr p) (VInt k) nil) as [r2 h2] eqn:E2. destruct G as (G1 & G2 & G3 & G4 & G5 & G6 & G7). cbn [fst snd] in *. subst r2.
  exists a, b, h1, h2. split; [reflexivity | ]. split; [exact E2 | ].
  assert (Ta : text h2 a = x) by (rewrite <- T; unfold text; now rewrite (proj1 G6 a F3)).
  replace (text h p) with (List.concat [x; y]) by (cbn [List.concat]; rewrite app_nil_r; now symmetry). apply concat_ok; [exact G7 | | ].
  - constructor; [rewrite <- Ta; constructor | ]. constructor; [rewrite <- Tb; constructor | constructor].
  - cbn [sizes fold_right size elements]. unfold text in Ta, Tb. rewrite Ta, Tb. assert (zlen (text h p) = zlen x + zlen y) by (rewrite E; unfold zlen; rewrite app_length; lia).
    unfold zlen in *. rewrite !map_length. lia.
Qed.
Print Assumptions C63_split_partial.
Example split_ex : zlen (text ex_heap 1) < 2 ^ 31 /\ 0 <= 1 <= zlen (text ex_heap 1).
Proof. vm_compute. repeat split; congruence. Qed.

(** mapconcat is the results' characters with the separator's between each two.
    Partial: as concat; functions without effects. *)
Theorem C63_mapconcat_partial : forall h f s sep sb bs, sound h -> sequence s -> spelled h sep sb ->
  Forall2 (fun x b => spelled h (f x) b) (items h s) bs -> sizes h (between sep (map f (items h s))) < 2 ^ 32 - 1 ->
  string_of h (mapconcat h f s sep) (intercalate sb bs).
Proof. exact mapconcat_ok. Qed.
Print Assumptions C63_mapconcat_partial.
Example mapconcat_ex : let f := fun v => VList [v; v] in
  spelled ex_heap (VStr 2) [88; 121] /\ Forall2 (fun x b => spelled ex_heap (f x) b) (items ex_heap (VStr 1)) [[97; 97]; [98; 98]; [99; 99]] /\
  text (snd (mapconcat ex_heap f (VStr 1) (VStr 2))) 3 = [97; 97; 88; 121; 98; 98; 88; 121; 99; 99] /\
  text (snd (mapconcat ex_heap f (VList [VInt 97; VInt 98]) (VInt 45))) 3 = [97; 97; 45; 98; 98].
Proof.
  split; [apply (Sp_string ex_heap 2) | ]. split; [ | vm_compute; auto]. repeat constructor; apply letters_chars; reflexivity.
Qed.

(** * C64: comparing strings *)

(** string-head-eq tells whether a string begins with another.  Partial: no
    zero characters. *)
Theorem C64_head_partial : forall a b, no_zero a -> no_zero b -> (string_head_eq a b = true <-> prefix_of b a).
Proof. exact head_eq_ok. Qed.
Print Assumptions C64_head_partial.
Example head_ex : no_zero [97; 98; 200] /\ no_zero [97; 98] /\ string_head_eq [97; 98; 200] [97; 98] = true /\ string_head_eq [97; 98] [97; 99] = false.
Proof. split; [ | split]; [repeat constructor; lia.. | vm_compute; auto]. Qed.
Theorem C64_head_refuted : exists a b, Forall byte a /\ Forall byte b /\ string_head_eq a b = true /\ ~ prefix_of b a.
Proof.
  exists [97; 0; 98], [97; 0; 99]. split; [repeat constructor; unfold byte; lia | ]. split; [repeat constructor; unfold byte; lia | ]. split; [reflexivity | ].
  intros (r & E). discriminate.
Qed.
Print Assumptions C64_head_refuted.

(** string-equal compares without letter case.  Partial: ASCII, no zeros. *)
Theorem C64_equal_partial : forall toupper a b, upper_library toupper -> Forall ascii a -> Forall ascii b ->
  (string_equal toupper a b = true <-> map upper a = map upper b) /\
  (string_lessp toupper a b = true <-> lex (map upper a) (map upper b)).
Proof.
  intros toupper a b U A B.
  assert (K : forall s, Forall ascii s -> map (fun c => toupper (schar c)) (until_zero s) = map upper s).
  { intros s F. rewrite until_zero_id by (eapply Forall_impl; [ | exact F]; unfold ascii, byte; intros; lia). apply map_ext_in. intros c I. rewrite Forall_forall in F. specialize (F c I).
    unfold ascii in F. unfold schar. replace (c <? 128) with true by lia. apply U. lia. }
  rewrite equal_ok, lessp_ok, !K by assumption. split; reflexivity.
Qed.
Print Assumptions C64_equal_partial.
Example equal_ex : upper_library upper /\ string_equal upper [97; 66] [65; 98] = true /\ string_lessp upper [97; 66] [65; 99] = true /\ Forall ascii [97; 66].
Proof. split; [intros c _; reflexivity | ]. split; [reflexivity | ]. split; [reflexivity | ]. repeat constructor; unfold ascii; lia. Qed.

(** For all strings, in every locale: string-equal is an equivalence,
    string-lessp is a strict order of its classes, and of two strings one is
    less or they are equal; so sorting with string-lessp makes sense. *)
Theorem C64_order : forall toupper, let less a b := string_lessp toupper a b = true in let same a b := string_equal toupper a b = true in
  (forall a, same a a) /\ (forall a b, same a b -> same b a) /\ (forall a b c, same a b -> same b c -> same a c) /\
  (forall a, ~ less a a) /\ (forall a b c, less a b -> less b c -> less a c) /\
  (forall a b, less a b \/ same a b \/ less b a) /\ (forall a b, less a b -> ~ same a b) /\
  (forall a a' b b', same a a' -> same b b' -> less a b -> less a' b').
Proof.
  intros toupper less same. unfold less, same.
  split; [intros a; now apply equal_ok | ]. split; [intros a b; rewrite !equal_ok; auto | ]. split; [intros a b c; rewrite !equal_ok; congruence | ].
  split; [intros a; rewrite lessp_ok; apply lex_irrefl | ]. split; [intros a b c; rewrite !lessp_ok; apply lex_trans | ].
  split; [intros a b; rewrite !lessp_ok, equal_ok; apply lex_total | ].
  split; [intros a b; rewrite lessp_ok, equal_ok; intros H E; rewrite E in H; now apply lex_irrefl in H | ].
  intros a a' b b'. rewrite !equal_ok, !lessp_ok. now intros -> ->.
Qed.
Print Assumptions C64_order.
Example order_ex : string_lessp upper [97; 0; 98] [97; 99] = true /\ string_equal upper [97; 0; 98] [65] = true.
Proof. vm_compute. auto. Qed.
Theorem C64_equal_refuted : exists a b, Forall byte a /\ Forall byte b /\ string_equal upper a b = true /\ length a <> length b.
Proof. exists [97; 0; 98], [97]. split; [repeat constructor; unfold byte; lia | ]. split; [repeat constructor; unfold byte; lia | ]. split; [reflexivity | discriminate]. Qed.
Print Assumptions C64_equal_refuted.
(** Bytes from 128 on are negative: they come before all others, unlike in the
    order of characters. *)
Theorem C64_high_bytes_refuted : exists a b, no_zero a /\ no_zero b /\ lex a b /\ string_lessp (fun c => c) a b = false.
Proof. exists [97], [200]. split; [repeat constructor; lia | ]. split; [repeat constructor; lia | ]. split; [apply Lex_here; lia | reflexivity]. Qed.
Print Assumptions C64_high_bytes_refuted.

(** * C65: completing and translating strings *)

(** complete-string returns, as a new string, as much of the first match as all
    matches begin with, or nil if there is no match.  Partial: no zeros, less
    than 2^31 characters, ASCII if letter case is ignored. *)
Theorem C65_complete_partial : forall tolower h p l fold, sound h -> lower_library tolower ->
  let fo := match fold with VList [] => false | _ => true end in
  Forall (plain fo) (text h p :: strings h l) -> (forall t, In t (strings h l) -> zlen t < 2 ^ 31) ->
  let r := complete_string tolower h (VStr p) (VList l) fold in
  (r = (Ret nil, h) /\ (forall t, In t (strings h l) -> ~ prefix_of (key fo (text h p)) (key fo t))) \/
  (exists b, completes fo (text h p) (strings h l) b /\ fresh_string h r b).
Proof. intros tolower h p l fold S L fo F Z1. exact (complete_ok tolower h p l fold S L F Z1). Qed.
Print Assumptions C65_complete_partial.
Definition words : heap := mkheap [mkstr [] true; mkstr [97] false; mkstr [65; 98; 99; 100] false; mkstr [120] false; mkstr [97; 66; 99; 101; 102] false; mkstr [97; 98] false] [].
Example complete_ex : Forall (plain true) (text words 1 :: strings words [VStr 3; VStr 2; nil; VStr 4]) /\
  text (snd (complete_string lower words (VStr 1) (VList [VStr 3; VStr 2; nil; VStr 4]) (VInt 1))) 6 = [65; 98; 99] /\
  text (snd (complete_string lower words (VStr 1) (VList [VStr 3; VStr 2; nil; VStr 4; VStr 5]) nil)) 6 = [97] /\
  complete_string lower words (VStr 3) (VList [VStr 2; VStr 4]) nil = (Ret nil, words).
Proof. split; [ | vm_compute; auto]. repeat constructor; unfold byte, ascii; try lia; discriminate. Qed.
(** What completes a string is unique. *)
Theorem C65_completion_unique : forall fo orig l b b', completes fo orig l b -> completes fo orig l b' -> b = b'.
Proof.
  intros fo orig l b b' (l1 & f & l2 & E & N1 & H & P & _ & A & M) (l1' & f' & l2' & E' & N1' & H' & P' & _ & A' & M').
  assert (f = f').
  { clear P A M P' A' M'. subst l. revert l1' E' N1'. induction l1 as [ | x l1 IH]; intros [ | x' l1'] E' N1'; cbn in E'.
    - now injection E'.
    - injection E' as <- _. destruct (N1' f); [now left | exact H].
    - injection E' as -> _. destruct (N1 f'); [now left | exact H'].
    - injection E' as -> E'. apply (IH ltac:(intros; apply N1; now right) l1' E'). intros; apply N1'; now right. }
  subst f'. assert (L : length b = length b') by (pose proof (M b' P' A'); pose proof (M' b P A); lia).
  destruct P as (r & ->), P' as (r' & E2). apply (f_equal (firstn (length b))) in E2. rewrite L in E2 at 2.
  rewrite !firstn_app, !firstn_all, L, !Nat.sub_diag in E2. cbn [firstn] in E2. now rewrite !app_nil_r in E2.
Qed.
Print Assumptions C65_completion_unique.
(** Completing what has been completed gives the same again (with letter case). *)
Theorem C65_completion_stable : forall orig l b, completes false orig l b -> completes false b l b.
Proof.
  intros orig l b (l1 & f & l2 & E & N1 & H & P & O & A & M). cbn [key] in *.
  assert (W : forall t, prefix_of b t -> prefix_of orig t) by (intros t (r & ->); destruct O as (q & ->); exists (q ++ r); now rewrite <- app_assoc).
  exists l1, f, l2. cbn [key]. split; [exact E | ]. split; [intros t I H'; apply (N1 t I), W, H' | ]. split; [exact P | ]. split; [exact P | ].
  split; [exists []; now rewrite app_nil_r | ]. split; [auto | ]. intros b' P' A'. apply M; [exact P' | ]. intros t I Ht. apply A'; auto.
Qed.
Print Assumptions C65_completion_stable.
Example completes_ex : completes false [97] [[120]; [97; 98; 99]; [97; 98; 100]] [97; 98].
Proof.
  exists [[120]], [97; 98; 99], [[97; 98; 100]]. cbn [key]. split; [reflexivity | ]. split; [intros t [<- | []] (r & E); discriminate | ].
  split; [exists [98; 99]; reflexivity | ]. split; [exists [99]; reflexivity | ]. split; [exists [98]; reflexivity | ]. split.
  - intros t [<- | [<- | [<- | []]]] (q & Q); [discriminate | eexists; reflexivity..].
  - intros b' (r & E) A. assert (Q : prefix_of b' [97; 98; 100]) by (apply A; [cbn; auto | exists [98; 100]; reflexivity]). destruct Q as (q & Q).
    destruct b' as [ | x [ | y [ | z b']]]; cbn; try lia. cbn in E, Q. congruence.
Qed.
(** A zero in the string to complete lets the comparison end early, and the end
    of a shorter string is passed. *)
Theorem C65_complete_zero_refuted : exists h s l, sound h /\ complete_string lower h s (VList l) nil = (Wild, h).
Proof.
  exists (mkheap [mkstr [] true; mkstr [97; 0; 98] false; mkstr [97] false] []), (VStr 1), [VStr 2; VStr 2].
  split; [ | reflexivity]. split; [eexists; reflexivity | ]. split; repeat constructor; cbn; unfold byte; lia.
Qed.
Print Assumptions C65_complete_zero_refuted.

(** translate-string replaces every character by the table's entry for it,
    keeps those the table does not reach, and changes nothing else.  Partial:
    less than 2^31 characters; the table is another string. *)
Theorem C65_translate_partial : forall h p tp, sound h -> constant h (VStr p) = false -> p <> tp ->
  zlen (text h p) < 2 ^ 31 -> zlen (text h tp) < 2 ^ 31 ->
  exists h', translate_string h (VStr p) (VStr tp) = (Ret (VStr p), h') /\ sound h' /\
    text h' p = map (translated (text h tp)) (text h p) /\ constant h' (VStr p) = false /\
    (forall v, v <> VStr p -> elements h' v = elements h v /\ constant h' v = constant h v).
Proof.
  intros h p tp S C N L Lt. destruct (translate_ok h p tp S C N L Lt) as (h' & H1 & H2 & H3 & H4 & H5 & _). exists h'. auto.
Qed.
Print Assumptions C65_translate_partial.
Definition tr_heap : heap := mkheap [mkstr [] true; mkstr [1; 2; 0; 9] false; mkstr [66; 65; 67] true] [].
Example translate_ex : text (snd (translate_string tr_heap (VStr 1) (VStr 2))) 1 = [65; 67; 66; 9] /\
  translate_string tr_heap (VStr 2) (VStr 1) = (Sig, tr_heap).
Proof. vm_compute. auto. Qed.
(** A string that is its own table is translated by what it becomes. *)
Theorem C65_translate_self_refuted : exists h p h', sound h /\ translate_string h (VStr p) (VStr p) = (Ret (VStr p), h') /\
  text h' p <> map (translated (text h p)) (text h p).
Proof.
  exists tr_heap, 1%nat. eexists. split; [ | split; [reflexivity | vm_compute; congruence]].
  split; [eexists; reflexivity | ]. split; repeat constructor; cbn; unfold byte; lia.
Qed.
Print Assumptions C65_translate_self_refuted.

(** string-upcase, string-downcase and capitalize-string return new strings and
    leave their argument alone; ASCII letters change as they should.  Partial:
    less than 2^31 characters, ASCII, not empty for capitalize-string. *)
Theorem C65_case_partial : forall toupper tolower h up down p, sound h -> upper_library toupper -> lower_library tolower ->
  text h up = upcase_table toupper -> text h down = downcase_table tolower -> live h (VStr up) -> live h (VStr down) ->
  zlen (text h p) < 2 ^ 31 -> Forall ascii (text h p) ->
  fresh_string h (string_upcase h (VStr up) (VStr p)) (map upper (text h p)) /\
  fresh_string h (string_upcase h (VStr down) (VStr p)) (map lower (text h p)) /\
  (forall c s, text h p = c :: s -> fresh_string h (capitalize_string toupper h (VStr p)) (upper c :: s)).
Proof.
  intros toupper tolower h up down p S U D Tu Td Lu Ld L A. rewrite Forall_forall in A.
  assert (Up : forall c, ascii c -> toupper c mod 256 = upper c).
  { intros c H. unfold ascii in H. rewrite U by lia. apply Z.mod_small. unfold upper. destruct ((97 <=? c) && (c <=? 122)) eqn:?; lia. }
  assert (Lo : forall c, ascii c -> tolower c mod 256 = lower c).
  { intros c H. unfold ascii in H. rewrite D by lia. apply Z.mod_small. unfold lower. destruct ((65 <=? c) && (c <=? 90)) eqn:?; lia. }
  split; [ | split].
  - replace (map upper (text h p)) with (map (fun c => toupper c mod 256) (text h p)) by (apply map_ext_in; auto). now apply upcase_ok.
  - replace (map lower (text h p)) with (map (fun c => tolower c mod 256) (text h p)) by (apply map_ext_in; auto). now apply upcase_ok.
  - intros c s E. rewrite <- (Up c) by (apply A; rewrite E; now left). now apply capitalize_ok.
Qed.
Print Assumptions C65_case_partial.
Definition case_heap : heap := mkheap [mkstr [] true; mkstr [97; 66; 49] true; mkstr (upcase_table upper) false; mkstr (downcase_table lower) false] [].
Example case_ex : text case_heap 2 = upcase_table upper /\ Forall ascii (text case_heap 1) /\
  text (snd (string_upcase case_heap (VStr 2) (VStr 1))) 4 = [65; 66; 49] /\ text (snd (string_upcase case_heap (VStr 3) (VStr 1))) 4 = [97; 98; 49] /\
  text (snd (capitalize_string upper case_heap (VStr 1))) 4 = [65; 66; 49].
Proof. split; [reflexivity | ]. split; [repeat constructor; unfold ascii; lia | ]. vm_compute. auto. Qed.
(** capitalize-string returns an empty string itself, not a new one. *)
Theorem C65_capitalize_empty_refuted : exists h s, sound h /\ live h s /\ arrayp s = true /\ capitalize_string upper h s = (Ret s, h).
Proof. exists ex_heap, (VStr 0). split; [exact ex_sound | ]. split; [cbn; lia | ]. split; reflexivity. Qed.
Print Assumptions C65_capitalize_empty_refuted.

(** string-upper-case-p: no lower case letter and some upper case letter; and
    the other way round; string-capitalized-p: it begins with one. *)
Theorem C65_case_predicates : forall s,
  (string_upper_case_p s = true <-> (forall c, In c s -> ~ 97 <= c <= 122) /\ exists c, In c s /\ 65 <= c <= 90) /\
  (string_lower_case_p s = true <-> (forall c, In c s -> ~ 65 <= c <= 90) /\ exists c, In c s /\ 97 <= c <= 122) /\
  (string_capitalized_p s = true <-> exists c r, s = c :: r /\ 65 <= c <= 90).
Proof.
  assert (U : forall c, isupper c = true <-> 65 <= c <= 90) by (intros; unfold isupper; lia).
  assert (U' : forall c, isupper c = false <-> ~ 65 <= c <= 90) by (intros; unfold isupper; lia).
  assert (L : forall c, islower c = true <-> 97 <= c <= 122) by (intros; unfold islower; lia).
  assert (L' : forall c, islower c = false <-> ~ 97 <= c <= 122) by (intros; unfold islower; lia).
  intros s. unfold string_upper_case_p, string_lower_case_p. rewrite !case_loop_ok. split; [ | split].
  - split.
    + intros [A [B | (c & I & B)]]; [discriminate | ]. split; [intros d J; now apply L', A | exists c; split; [exact I | now apply U]].
    + intros [A (c & I & B)]. split; [intros d J; now apply L', A | right; exists c; split; [exact I | now apply U]].
  - split.
    + intros [A [B | (c & I & B)]]; [discriminate | ]. split; [intros d J; now apply U', A | exists c; split; [exact I | now apply L]].
    + intros [A (c & I & B)]. split; [intros d J; now apply U', A | right; exists c; split; [exact I | now apply L]].
  - destruct s as [ | c s]; cbn [string_capitalized_p].
    + split; [discriminate | intros (c & r & E & _); discriminate].
    + rewrite U. split; [intros H; exists c, s; auto | intros (d & r & [= <- <-] & H); exact H].
Qed.
Print Assumptions C65_case_predicates.
Example predicates_ex : string_upper_case_p [65; 49; 90] = true /\ string_upper_case_p [49] = false /\ string_lower_case_p [65; 98] = false /\ string_capitalized_p [65; 98] = true.
Proof. vm_compute. auto. Qed.
