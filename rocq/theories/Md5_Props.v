(** C32: MD5 and the cutting of its input. *)
From Coq Require Import List ZArith Bool Lia.
From Verif Require Import Md5_Model Md5_Spec Md5_Proofs.
Import ListNotations.
Open Scope Z_scope.

(** Feeding a message in any chunks gives the digest that RFC 1321 defines for
    the whole message; what was in the buffer before does not matter.  Missing:
    chunks of 4 GB and more, see below. *)
Theorem C32_chunks_partial : forall junk l,
  length junk = 128%nat -> Forall (fun d => Z.of_nat (length d) < 2 ^ 32) l ->
  finish_ctx (fold_left (fun c d => process_bytes d c) l (init_ctx junk)) = md5 (concat l).
Proof. exact md5_chunks. Qed.
Print Assumptions C32_chunks_partial.

Theorem C32_buffer_partial : forall junk data,
  length junk = 128%nat -> Z.of_nat (length data) < 2 ^ 32 -> md5_buffer junk data = md5 data.
Proof. exact md5_buffer_ok. Qed.
Print Assumptions C32_buffer_partial.

(** A file gives the digest of its contents however many bytes each fread
    returns. *)
Theorem C32_file : forall size, (forall k, (0 < size k)%nat) -> forall junk file,
  length junk = 128%nat ->
  forall fuel, (length file + 1 < fuel)%nat -> md5_stream size fuel junk file = Some (md5 file).
Proof. exact md5_stream_ok. Qed.
Print Assumptions C32_file.

(** Chunks that meet block boundaries in several ways *)
Example C32_chunks_case :
  let m := map Z.of_nat (seq 1 200) in
  let j := repeat 255 128 in
  finish_ctx (fold_left (fun c d => process_bytes d c)
     [firstn 1 m; firstn 63 (skipn 1 m); []; firstn 64 (skipn 64 m); skipn 128 m] (init_ctx j)) =
  md5 m.
Proof. vm_compute. reflexivity. Qed.
(** The test vector abc of the RFC *)
Example C32_abc :
  flat_map hex (md5 [97; 98; 99]) =
  [57; 48; 48; 49; 53; 48; 57; 56; 51; 99; 100; 50; 52; 102; 98; 48;
   100; 54; 57; 54; 51; 102; 55; 100; 50; 56; 101; 49; 55; 102; 55; 50].
Proof. vm_compute. reflexivity. Qed.
Example C32_file_case :
  md5_stream (fun k => (k * 7 + 3)%nat) 60 (repeat 0 128) (map Z.of_nat (seq 0 50)) =
  Some (md5 (map Z.of_nat (seq 0 50))).
Proof. vm_compute. reflexivity. Qed.

(** FALSE for single chunks of 8 GB: the length of the message is miscounted. *)
Theorem C32_huge_chunk_refuted :
  exists c len, 0 <= len < 2 ^ 64 /\ 0 <= total0 c < 2 ^ 32 /\ 0 <= total1 c < 2 ^ 32 /\
  total0 (count len c) + 2 ^ 32 * total1 (count len c) <>
  (total0 c + 2 ^ 32 * total1 c + len) mod 2 ^ 64.
Proof. exact count_refuted. Qed.
Print Assumptions C32_huge_chunk_refuted.

(** FALSE that md5-string gives the digest of its argument: the digits of a
    byte of 128 or more are taken from memory before the table of digits. *)
Theorem C32_md5_string_refuted :
  exists data before before' junk, length junk = 128%nat /\
  md5_string_digits before junk data <> md5_string_digits before' junk data.
Proof.
  exists [], (fun _ => 0), (fun _ => 1), (repeat 0 128). split; [reflexivity | ].
  vm_compute. congruence.
Qed.
Print Assumptions C32_md5_string_refuted.

(** FALSE also when no byte is that large: the digits of each byte are
    swapped. *)
Theorem C32_md5_digits_refuted :
  exists data, byte_list data /\ Forall (fun b => b < 128) (md5 data) /\
  forall before junk, length junk = 128%nat ->
  md5_string_digits before junk data <> flat_map hex (md5 data).
Proof.
  exists [49; 54; 53; 48; 48]. split; [repeat constructor; lia | ]. split.
  - assert (E : forallb (fun b => b <? 128) (md5 [49; 54; 53; 48; 48]) = true) by (vm_compute; reflexivity).
    rewrite forallb_forall in E. apply Forall_forall. intros x X. specialize (E x X). apply Z.ltb_lt. exact E.
  - intros before junk J. unfold md5_string_digits. rewrite md5_buffer_ok by (auto; cbn; lia).
    vm_compute. congruence.
Qed.
Print Assumptions C32_md5_digits_refuted.
