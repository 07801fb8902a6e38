(** Model of /repo/src/utf8.c: utf8-string-length and utf8-substring.

    A Lisp string of bytes [s] is stored in memory with a zero byte behind it;
    [beyond] is the memory after that.  Of utf8_strlen only the case of
    negative [max] and of utf8_offset_to_pointer only the one of nonnegative
    [offset] are modelled: the others are not used. *)
From Coq Require Import List ZArith Bool.
Import ListNotations.
Open Scope Z_scope.

(** the byte at an offset from the start of the string *)
Definition mem (s : list Z) (beyond : nat -> Z) (p : nat) : Z :=
  if Nat.ltb p (length s) then nth p s 0
  else if Nat.eqb p (length s) then 0
  else beyond (p - length s - 1)%nat.

(** utf8_skip_data, lines 33-42 *)
Definition skip_data : list nat :=
  repeat 1%nat 192 ++ repeat 2%nat 32 ++ repeat 3%nat 16 ++ repeat 4%nat 8 ++
  repeat 5%nat 4 ++ repeat 6%nat 2 ++ repeat 1%nat 2.
Definition skip (b : Z) : nat := nth (Z.to_nat b) skip_data 1%nat.

Section Memory.
  Variable m : nat -> Z.

  (** utf8_next_char, line 45 *)
  Definition next_char (p : nat) : nat := (p + skip (m p))%nat.

  (** utf8_strlen with negative max, lines 78-85; [None]: still running *)
  Fixpoint strlen (fuel : nat) (p : nat) (len : Z) : option Z :=
    match fuel with
    | O => None
    | S fuel => if m p =? 0 then Some len else strlen fuel (next_char p) (len + 1)
    end.

  (** utf8_offset_to_pointer, lines 166-170 *)
  Fixpoint offset_to_pointer (p offset : nat) : nat :=
    match offset with
    | O => p
    | S n => offset_to_pointer (next_char p) n
    end.

  (** rep_string_dupn: the bytes from [p], [n] of them *)
  Definition dupn (p n : nat) : list Z := map (fun i => m (p + i)%nat) (seq 0 n).
End Memory.

Definition wrap32 (z : Z) : Z := (z + 2 ^ 31) mod 2 ^ 32 - 2 ^ 31.

(** Futf8_string_length, lines 197-200 *)
Definition string_length (fuel : nat) (s : list Z) (beyond : nat -> Z) : option Z :=
  strlen (mem s beyond) fuel 0 0.

Inductive result := Value (s : list Z) | BadArg (n : nat).

(** Futf8_substring, lines 213-235; [utf8len] and [slen] are ints.  START and END are fixnums *)
Definition substring (fuel : nat) (s : list Z) (beyond : nat -> Z) (start : Z) (end_ : option Z)
  : option result :=
  let m := mem s beyond in
  match strlen m fuel 0 0 with
  | None => None
  | Some len =>
      let utf8len := wrap32 len in
      if (utf8len <? start) || (start <? 0) then Some (BadArg 2)
      else
        let pstart := offset_to_pointer m 0 (Z.to_nat start) in
        match end_ with
        | Some e =>
            if (utf8len <? e) || (e <? start) then Some (BadArg 3)
            else
              let pend := offset_to_pointer m 0 (Z.to_nat e) in
              Some (Value (dupn m pstart (pend - pstart)))
        | None =>
            let slen := wrap32 (Z.of_nat (length s)) in
            Some (Value (dupn m pstart (Z.to_nat (slen - Z.of_nat pstart))))
        end
  end.
