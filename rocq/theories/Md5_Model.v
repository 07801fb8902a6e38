(** Model of /repo/src/md5.c, and of digest_to_repv and the two Lisp functions
    of /repo/src/rep-md5.c.

    md5_uint32 values are integers in [0, 2^32), bytes integers in [0, 256);
    size_t values are natural numbers (no object is as large as 2^64).  The
    machine is little-endian, so SWAP is the identity (lines 47-52). *)
From Coq Require Import List ZArith Bool.
Import ListNotations.
Open Scope Z_scope.

Definition m32 : Z := 2 ^ 32.
Definition add32 (a b : Z) : Z := (a + b) mod m32.
Definition not32 (a : Z) : Z := Z.lxor a (Z.ones 32).

(** lines 247-250 *)
Definition FF (b c d : Z) : Z := Z.lxor d (Z.land b (Z.lxor c d)).
Definition FG (b c d : Z) : Z := FF d b c.
Definition FH (b c d : Z) : Z := Z.lxor (Z.lxor b c) d.
Definition FI (b c d : Z) : Z := Z.lxor c (Z.lor b (not32 d)).

Inductive fkind := kF | kG | kH | kI.
Definition fn (k : fkind) : Z -> Z -> Z -> Z :=
  match k with kF => FF | kG => FG | kH => FH | kI => FI end.

(** CYCLIC, line 303 *)
Definition cyclic (w s : Z) : Z := Z.lor ((Z.shiftl w s) mod m32) (Z.shiftr w (32 - s)).

Inductive reg := rA | rB | rC | rD.
Definition regs : Type := Z * Z * Z * Z.

(** The two OP macros, lines 290-299 and 334-341: which register is [a]
    settles b, c and d *)
Definition op_value (k : fkind) (a b c d x s t : Z) : Z :=
  add32 (cyclic (add32 a (add32 (add32 (fn k b c d) x) t)) s) b.
Definition op (X : list Z) (r : regs) (o : fkind * reg * nat * Z * Z) : regs :=
  let '(A, B, C, D) := r in
  let '(f, a, k, s, t) := o in
  let x := nth k X 0 in
  match a with
  | rA => (op_value f A B C D x s t, B, C, D)
  | rD => (A, B, C, op_value f D A B C x s t)
  | rC => (A, B, op_value f C D A B x s t, D)
  | rB => (A, op_value f B C D A x s t, C, D)
  end.

(** lines 312-327, 345-402; the words of the first round are used in order
    ( *cwp++, ++words) *)
Definition ops : list (fkind * reg * nat * Z * Z) :=
   [ (kF, rA, 0%nat, 7, 0xd76aa478);
     (kF, rD, 1%nat, 12, 0xe8c7b756);
     (kF, rC, 2%nat, 17, 0x242070db);
     (kF, rB, 3%nat, 22, 0xc1bdceee);
     (kF, rA, 4%nat, 7, 0xf57c0faf);
     (kF, rD, 5%nat, 12, 0x4787c62a);
     (kF, rC, 6%nat, 17, 0xa8304613);
     (kF, rB, 7%nat, 22, 0xfd469501);
     (kF, rA, 8%nat, 7, 0x698098d8);
     (kF, rD, 9%nat, 12, 0x8b44f7af);
     (kF, rC, 10%nat, 17, 0xffff5bb1);
     (kF, rB, 11%nat, 22, 0x895cd7be);
     (kF, rA, 12%nat, 7, 0x6b901122);
     (kF, rD, 13%nat, 12, 0xfd987193);
     (kF, rC, 14%nat, 17, 0xa679438e);
     (kF, rB, 15%nat, 22, 0x49b40821);
     (kG, rA, 1%nat, 5, 0xf61e2562);
     (kG, rD, 6%nat, 9, 0xc040b340);
     (kG, rC, 11%nat, 14, 0x265e5a51);
     (kG, rB, 0%nat, 20, 0xe9b6c7aa);
     (kG, rA, 5%nat, 5, 0xd62f105d);
     (kG, rD, 10%nat, 9, 0x02441453);
     (kG, rC, 15%nat, 14, 0xd8a1e681);
     (kG, rB, 4%nat, 20, 0xe7d3fbc8);
     (kG, rA, 9%nat, 5, 0x21e1cde6);
     (kG, rD, 14%nat, 9, 0xc33707d6);
     (kG, rC, 3%nat, 14, 0xf4d50d87);
     (kG, rB, 8%nat, 20, 0x455a14ed);
     (kG, rA, 13%nat, 5, 0xa9e3e905);
     (kG, rD, 2%nat, 9, 0xfcefa3f8);
     (kG, rC, 7%nat, 14, 0x676f02d9);
     (kG, rB, 12%nat, 20, 0x8d2a4c8a);
     (kH, rA, 5%nat, 4, 0xfffa3942);
     (kH, rD, 8%nat, 11, 0x8771f681);
     (kH, rC, 11%nat, 16, 0x6d9d6122);
     (kH, rB, 14%nat, 23, 0xfde5380c);
     (kH, rA, 1%nat, 4, 0xa4beea44);
     (kH, rD, 4%nat, 11, 0x4bdecfa9);
     (kH, rC, 7%nat, 16, 0xf6bb4b60);
     (kH, rB, 10%nat, 23, 0xbebfbc70);
     (kH, rA, 13%nat, 4, 0x289b7ec6);
     (kH, rD, 0%nat, 11, 0xeaa127fa);
     (kH, rC, 3%nat, 16, 0xd4ef3085);
     (kH, rB, 6%nat, 23, 0x04881d05);
     (kH, rA, 9%nat, 4, 0xd9d4d039);
     (kH, rD, 12%nat, 11, 0xe6db99e5);
     (kH, rC, 15%nat, 16, 0x1fa27cf8);
     (kH, rB, 2%nat, 23, 0xc4ac5665);
     (kI, rA, 0%nat, 6, 0xf4292244);
     (kI, rD, 7%nat, 10, 0x432aff97);
     (kI, rC, 14%nat, 15, 0xab9423a7);
     (kI, rB, 5%nat, 21, 0xfc93a039);
     (kI, rA, 12%nat, 6, 0x655b59c3);
     (kI, rD, 3%nat, 10, 0x8f0ccc92);
     (kI, rC, 10%nat, 15, 0xffeff47d);
     (kI, rB, 1%nat, 21, 0x85845dd1);
     (kI, rA, 8%nat, 6, 0x6fa87e4f);
     (kI, rD, 15%nat, 10, 0xfe2ce6e0);
     (kI, rC, 6%nat, 15, 0xa3014314);
     (kI, rB, 13%nat, 21, 0x4e0811a1);
     (kI, rA, 4%nat, 6, 0xf7537e82);
     (kI, rD, 11%nat, 10, 0xbd3af235);
     (kI, rC, 2%nat, 15, 0x2ad7d2bb);
     (kI, rB, 9%nat, 21, 0xeb86d391) ].

Definition word (b : list Z) : Z :=
  nth 0 b 0 + 256 * nth 1 b 0 + 65536 * nth 2 b 0 + 16777216 * nth 3 b 0.
Definition words16 (b : list Z) : list Z :=
  map (fun i => word (skipn (4 * i) b)) (seq 0 16).

(** One turn of the loop of md5_process_block, lines 273-409 *)
Definition round (b : list Z) (r : regs) : regs :=
  let '(A, B, C, D) := r in
  let '(A', B', C', D') := fold_left (op (words16 b)) ops r in
  (add32 A' A, add32 B' B, add32 C' C, add32 D' D).

(** struct md5_ctx, md5.h 77-87 *)
Record ctx := {
  abcd : regs;
  total0 : Z; total1 : Z;
  buflen : nat;
  buffer : list Z                 (* 128 bytes *)
}.

(** md5_init_ctx, lines 61-72; the buffer is not initialised: any contents *)
Definition init_ctx (junk : list Z) : ctx :=
  {| abcd := (0x67452301, 0xefcdab89, 0x98badcfe, 0x10325476);
     total0 := 0; total1 := 0; buflen := 0; buffer := junk |}.

Fixpoint rounds (fuel : nat) (b : list Z) (r : regs) : regs :=
  match fuel, b with
  | O, _ | _, [] => r
  | S fuel, _ => rounds fuel (skipn 64 b) (round b r)
  end.

(** total[0] += len; if (total[0] < len) ++total[1] (lines 107-109, 271-273);
    the comparison is one of size_t values in md5_process_block *)
Definition count (len : Z) (c : ctx) : ctx :=
  let t0 := (total0 c + len) mod m32 in
  {| abcd := abcd c; total0 := t0;
     total1 := if t0 <? len then (total1 c + 1) mod m32 else total1 c;
     buflen := buflen c; buffer := buffer c |}.

(** lines 255-417 *)
Definition process_block (b : list Z) (c : ctx) : ctx :=
  let c := count (Z.of_nat (length b)) c in
  {| abcd := rounds (length b) b (abcd c); total0 := total0 c; total1 := total1 c;
     buflen := buflen c; buffer := buffer c |}.

(** memcpy (&buffer[at], src, length src) *)
Definition put (pos : nat) (src b : list Z) : list Z :=
  firstn pos b ++ src ++ skipn (pos + length src) b.

Definition set_buf (n : nat) (b : list Z) (c : ctx) : ctx :=
  {| abcd := abcd c; total0 := total0 c; total1 := total1 c; buflen := n; buffer := b |}.

(** n & ~63 and n & 63 *)
Definition blocks_of (n : nat) : nat := (64 * (n / 64))%nat.
Definition excess (n : nat) : nat := (n mod 64)%nat.

(** lines 195-239 *)
Definition process_bytes (data : list Z) (c : ctx) : ctx :=
  let '(data, c) :=
    if Nat.eqb (buflen c) 0 then (data, c)
    else
      let left_over := buflen c in
      let add := if Nat.ltb (length data) (128 - left_over) then length data else (128 - left_over)%nat in
      let c := set_buf (left_over + add) (put left_over (firstn add data) (buffer c)) c in
      let n := (left_over + add)%nat in
      let c :=
        if Nat.ltb 64 n then
          let c := process_block (firstn (blocks_of n) (buffer c)) c in
          set_buf (excess n) (put 0 (firstn (excess n) (skipn (blocks_of n) (buffer c))) (buffer c)) c
        else c in
      (skipn add data, c) in
  let '(data, c) :=
    if Nat.ltb 64 (length data) then
      (skipn (blocks_of (length data)) data,
       process_block (firstn (blocks_of (length data)) data) c)
    else (data, c) in
  if Nat.ltb 0 (length data) then set_buf (length data) (put 0 data (buffer c)) c else c.

Definition le32 (w : Z) : list Z :=
  [w mod 256; w / 256 mod 256; w / 65536 mod 256; w / 16777216 mod 256].

(** md5_read_ctx, lines 79-90 *)
Definition read_ctx (c : ctx) : list Z :=
  let '(A, B, C, D) := abcd c in le32 A ++ le32 B ++ le32 C ++ le32 D.

Definition fillbuf : list Z := 0x80 :: repeat 0 63.

(** lines 97-126 *)
Definition finish_ctx (c : ctx) : list Z :=
  let bytes := buflen c in
  let c := count (Z.of_nat bytes) c in
  let pad := if Nat.leb 56 bytes then (64 + 56 - bytes)%nat else (56 - bytes)%nat in
  let b := put bytes (firstn pad fillbuf) (buffer c) in
  let b := put (bytes + pad) (le32 (Z.shiftl (total0 c) 3 mod m32)) b in
  let b := put (bytes + pad + 4)
             (le32 (Z.lor (Z.shiftl (total1 c) 3 mod m32) (Z.shiftr (total0 c) 29))) b in
  read_ctx (process_block (firstn (bytes + pad + 8) b) c).

(** md5_buffer, lines 176-192 *)
Definition md5_buffer (junk data : list Z) : list Z :=
  finish_ctx (process_bytes data (init_ctx junk)).

(** md5_stream, lines 131-174.  [file] are the bytes not yet read, the [k]-th
    call of fread returns [size k] bytes unless fewer are wanted or left.
    Read errors are not modelled. *)
Definition BLOCKSIZE : nat := 4096.
Section Stream.
  Variable size : nat -> nat.

  Definition fread (k want : nat) (file : list Z) : list Z :=
    firstn (Nat.min (size k) want) file.

  (** the do loop: bytes in the buffer, result of the last fread, rest of the
      file, calls made *)
  Fixpoint fill (fuel k : nat) (buf file : list Z) : option (list Z * nat * list Z * nat) :=
    match fuel with
    | O => None
    | S fuel =>
        let got := fread k (BLOCKSIZE - length buf) file in
        let buf := buf ++ got in
        let file := skipn (length got) file in
        if Nat.ltb (length buf) BLOCKSIZE && negb (Nat.eqb (length got) 0)
        then fill fuel (S k) buf file
        else Some (buf, length got, file, S k)
    end.

  Fixpoint stream_loop (fuel k : nat) (c : ctx) (file : list Z) : option (list Z) :=
    match fuel with
    | O => None
    | S fuel =>
        match fill fuel k [] file with
        | None => None
        | Some (buf, n, file, k) =>
            if Nat.eqb n 0 then
              Some (finish_ctx (if Nat.ltb 0 (length buf) then process_bytes buf c else c))
            else stream_loop fuel k (process_block buf c) file
        end
    end.

  Definition md5_stream (fuel : nat) (junk file : list Z) : option (list Z) :=
    stream_loop fuel 0 (init_ctx junk) file.
End Stream.

(** * rep-md5.c *)

(** lines 30-49: the digits given to rep_parse_number.  [char] is signed;
    [before i] is the memory at hex_digits[i] for negative [i]. *)
Definition hex_digits : list Z :=
  [48; 49; 50; 51; 52; 53; 54; 55; 56; 57; 97; 98; 99; 100; 101; 102].
Definition hex_digit (before : Z -> Z) (i : Z) : Z :=
  if i <? 0 then before i else nth (Z.to_nat i) hex_digits 0.
Definition signed_char (b : Z) : Z := if b <? 128 then b else b - 256.
Definition digest_digits (before : Z -> Z) (digest : list Z) : list Z :=
  flat_map (fun b => [hex_digit before (Z.land (signed_char b) 15);
                      hex_digit before (Z.shiftr (signed_char b) 4)]) digest.

(** md5-string, lines 51-68 *)
Definition md5_string_digits (before : Z -> Z) (junk data : list Z) : list Z :=
  digest_digits before (md5_buffer junk data).
