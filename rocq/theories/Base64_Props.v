(** Base64: the theorems. *)
From Coq Require Import ZArith List Bool Lia.
From Verif Require Import Base64_Model Base64_Spec Base64_Proofs.
Import ListNotations.
Open Scope Z_scope.

(** Encoding never fails on bytes and decoding gives back the input. *)
Theorem C11_decode_encode : forall l, Forall byte l -> exists out, encode l = Some out /\ decode out = l.
Proof. intros l H. apply round_trip. exact H. Qed.
Print Assumptions C11_decode_encode.

Example C11_decode_encode_case :
  encode [77; 97; 110; 0; 255] = Some [84; 87; 70; 117; 65; 80; 56; 61; 10] /\
  decode [84; 87; 70; 117; 65; 80; 56; 61; 10] = [77; 97; 110; 0; 255] /\ Forall byte [77; 97; 110; 0; 255].
Proof. split; [reflexivity|]. split; [reflexivity|]. repeat constructor; unfold byte; lia. Qed.

(** The text has only alphabet characters, '=' and newlines, and every line is
    at most 76 characters long. *)
Theorem C11_encoded_text : forall l out, Forall byte l -> encode l = Some out ->
  Forall (fun c => in_alphabet c \/ c = 61 \/ c = 10) out /\
  Forall (fun line => Z.of_nat (length line) <= 76) (lines out).
Proof.
  intros l out H E. split; [eapply encode_chars; eauto|].
  destruct (encode_lines l H 0 out) as (H1 & H2); try lia; auto.
  destruct (lines out) as [|x xs] eqn:EL; [exfalso; exact (lines_nonempty _ EL)|]. constructor; auto.
Qed.
Print Assumptions C11_encoded_text.

(** 58 bytes: the first 57 fill a line *)
Example C11_encoded_text_case : exists out, encode (repeat 0 58) = Some out /\ map (@length Z) (lines out) = [76; 4; 0]%nat.
Proof. eexists. split; reflexivity. Qed.

(** Decoding ignores every character outside the alphabet. *)
Theorem C11_decode_ignores_others : forall l l', 
  (exists keep : list bool, length keep = length l /\
     l' = map snd (filter fst (combine keep l)) /\
     forall i c, nth_error l i = Some c -> (nth_error keep i = Some true <-> in_alphabet c)) ->
  decode l = decode l'.
Proof.
  intros l l' (keep & Hk & -> & Hn). unfold decode. rewrite decode_filter by lia. f_equal.
  revert l Hk Hn. induction keep as [|b keep IH]; intros [|c l] Hk Hn; try discriminate; auto.
  injection Hk as Hk. pose proof (Hn 0%nat c eq_refl) as H0. simpl in H0.
  cbn [filter combine fst].
  assert (IH' := IH l Hk (fun i d Hi => Hn (S i) d Hi)).
  destruct b.
  - destruct (proj1 H0 eq_refl) as (v & Hv). apply char_value_spec in Hv. rewrite Hv. simpl. f_equal. exact IH'.
  - destruct (char_value c) as [v|] eqn:E; [|exact IH'].
    apply char_value_spec in E. assert (X : Some false = Some true) by (apply H0; exists v; exact E). discriminate.
Qed.
Print Assumptions C11_decode_ignores_others.

Example C11_decode_ignores_others_case :
  decode [84; 10; 87; 13; 61; 70; 32; 117] = decode [84; 87; 70; 117] /\
  decode [84; 87; 70; 117] = [77; 97; 110].
Proof. split; reflexivity. Qed.

(** Any text of alphabet characters decodes to bytes that are the same number
    in base 256 as the text is in base 64, without the trailing bits that make
    up no byte. *)
Theorem C11_decode_meaning : forall l vs, Forall2 six_bit_char l vs ->
  Forall byte (decode l) /\ Z.of_nat (length (decode l)) = 6 * Z.of_nat (length l) / 8 /\
  number 256 (decode l) = number 64 vs / 2 ^ ((6 * Z.of_nat (length l)) mod 8).
Proof.
  intros l vs H. destruct (decode_number l vs 0 0 H) as (H1 & H2 & H3); [lia|simpl; lia|].
  rewrite Z.add_0_l in H2. rewrite !Z.add_0_l in H3. unfold decode. auto.
Qed.
Print Assumptions C11_decode_meaning.

Example C11_decode_meaning_case : Forall2 six_bit_char [84; 87; 69] [19; 22; 4] /\ decode [84; 87; 69] = [77; 97].
Proof. split; [|reflexivity]. repeat constructor; unfold six_bit_char; lia. Qed.

(** Without its newlines the text is a whole number of groups of four, one for
    each three bytes begun, and ends in one '=' for each byte missing from the
    last group. *)
Theorem C11_padding : forall l out, Forall byte l -> encode l = Some out ->
  exists body, filter (fun c => negb (c =? 10)) out = body ++ repeat 61 (Z.to_nat (- Z.of_nat (length l) mod 3)) /\
    Forall in_alphabet body /\
    Z.of_nat (length body) + - Z.of_nat (length l) mod 3 = 4 * ((Z.of_nat (length l) + 2) / 3).
Proof. intros l out H E. eapply encode_padding; eauto. Qed.
Print Assumptions C11_padding.

Example C11_padding_case : encode [77] = Some [84; 81; 61; 61; 10] /\ - Z.of_nat (length [77]) mod 3 = 2.
Proof. split; reflexivity. Qed.
