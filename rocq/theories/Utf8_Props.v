(** C30: counting and cutting characters of UTF-8 strings. *)
From Coq Require Import List ZArith Bool Lia.
From Verif Require Import Utf8_Model Utf8_Spec Utf8_Proofs.
Import ListNotations.
Open Scope Z_scope.

(** utf8-string-length is the number of characters.  Missing: texts with the
    character U+0000. *)
Theorem C30_length_partial : forall cs beyond fuel,
  Forall (fun c => scalar c /\ c <> 0) cs -> (length (text cs) < fuel)%nat ->
  string_length fuel (text cs) beyond = Some (Z.of_nat (length cs)).
Proof. exact length_text. Qed.
Print Assumptions C30_length_partial.

(** utf8-substring returns the characters selected.  Missing: U+0000, and
    texts of 2 GB and more. *)
Theorem C30_substring_partial : forall cs beyond fuel,
  Forall (fun c => scalar c /\ c <> 0) cs -> (length (text cs) < fuel)%nat ->
  Z.of_nat (length (text cs)) < 2 ^ 31 ->
  forall start end_, 0 <= start <= end_ -> end_ <= Z.of_nat (length cs) ->
  substring fuel (text cs) beyond start (Some end_) =
  Some (Value (text (slice cs (Z.to_nat start) (Z.to_nat end_)))).
Proof. exact substring_end. Qed.
Print Assumptions C30_substring_partial.

Theorem C30_substring_rest_partial : forall cs beyond fuel,
  Forall (fun c => scalar c /\ c <> 0) cs -> (length (text cs) < fuel)%nat ->
  Z.of_nat (length (text cs)) < 2 ^ 31 ->
  forall start, 0 <= start <= Z.of_nat (length cs) ->
  substring fuel (text cs) beyond start None = Some (Value (text (skipn (Z.to_nat start) cs))).
Proof. exact substring_rest. Qed.
Print Assumptions C30_substring_rest_partial.

(** Ranges outside the text are errors. *)
Theorem C30_range_error_partial : forall cs beyond fuel,
  Forall (fun c => scalar c /\ c <> 0) cs -> (length (text cs) < fuel)%nat ->
  Z.of_nat (length (text cs)) < 2 ^ 31 ->
  forall start end_,
  ~ (0 <= start <= Z.of_nat (length cs)) \/
  (exists e, end_ = Some e /\ ~ (start <= e <= Z.of_nat (length cs))) ->
  exists n, substring fuel (text cs) beyond start end_ = Some (BadArg n).
Proof. exact substring_error. Qed.
Print Assumptions C30_range_error_partial.

(** aé€😀z: characters of one, two, three and four bytes *)
Definition sample : list Z := [97; 0xe9; 0x20ac; 0x1f600; 122].
Example C30_case :
  Forall (fun c => scalar c /\ c <> 0) sample /\
  length (text sample) = 11%nat /\
  string_length 20 (text sample) (fun _ => 255) = Some 5 /\
  substring 20 (text sample) (fun _ => 255) 1 (Some 4) =
    Some (Value [0xc3; 0xa9; 0xe2; 0x82; 0xac; 0xf0; 0x9f; 0x98; 0x80]) /\
  substring 20 (text sample) (fun _ => 255) 6 None = Some (BadArg 2).
Proof.
  split; [repeat constructor; unfold scalar; lia | ]. repeat split; vm_compute; reflexivity.
Qed.

(** FALSE for texts with U+0000: counting stops there. *)
Theorem C30_zero_refuted :
  exists cs beyond fuel n, Forall scalar cs /\ (length (text cs) < fuel)%nat /\
  string_length fuel (text cs) beyond = Some n /\ n <> Z.of_nat (length cs).
Proof.
  exists [97; 0; 98], (fun _ => 0), 10%nat, 1.
  split; [repeat constructor; unfold scalar; lia | ]. split; [cbn; lia | ]. split; [reflexivity | discriminate].
Qed.
Print Assumptions C30_zero_refuted.

(** FALSE for 2^31 characters: (utf8-substring text 0) signals an error. *)
Theorem C30_long_refuted :
  exists cs, Forall (fun c => scalar c /\ c <> 0) cs /\
  forall beyond fuel, (length (text cs) < fuel)%nat ->
  substring fuel (text cs) beyond 0 None = Some (BadArg 2).
Proof.
  exists (repeat 97 (Z.to_nat (2 ^ 31))). split.
  - apply Forall_forall. intros x X. apply repeat_spec in X. subst. unfold scalar. lia.
  - intros beyond fuel F. apply long_text; [apply Z2Nat.id; lia | exact F].
Qed.
Print Assumptions C30_long_refuted.

(** FALSE that the result depends on the string only: behind an incomplete
    character at the end, the memory after the string is counted as well. *)
Theorem C30_incomplete_refuted :
  exists s beyond beyond' fuel n n', string_length fuel s beyond = Some n /\
  string_length fuel s beyond' = Some n' /\ n <> n'.
Proof.
  exists [0xe2], (fun _ => 0), (fun i => if Nat.ltb i 5 then 97 else 0), 20%nat, 1, 5.
  split; [reflexivity | ]. split; [reflexivity | discriminate].
Qed.
Print Assumptions C30_incomplete_refuted.
