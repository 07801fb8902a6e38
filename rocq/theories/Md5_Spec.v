(** MD5 as RFC 1321 defines it. *)
From Coq Require Import List ZArith Bool.
Import ListNotations.
Open Scope Z_scope.

(** 3.4: the auxiliary functions, on 32-bit words *)
Definition inv (x : Z) : Z := 2 ^ 32 - 1 - x.
Definition F (x y z : Z) : Z := Z.lor (Z.land x y) (Z.land (inv x) z).
Definition G (x y z : Z) : Z := Z.lor (Z.land x z) (Z.land y (inv z)).
Definition H (x y z : Z) : Z := Z.lxor (Z.lxor x y) z.
Definition I (x y z : Z) : Z := Z.lxor y (Z.lor x (inv z)).

Definition aux (i : nat) : Z -> Z -> Z -> Z :=
  if Nat.ltb i 16 then F else if Nat.ltb i 32 then G else if Nat.ltb i 48 then H else I.
Definition index (i : nat) : nat :=
  if Nat.ltb i 16 then i
  else if Nat.ltb i 32 then (5 * i + 1) mod 16
  else if Nat.ltb i 48 then (3 * i + 5) mod 16
  else (7 * i) mod 16.
Definition shift (i : nat) : Z :=
  nth (4 * (i / 16) + i mod 4)
      [7; 12; 17; 22; 5; 9; 14; 20; 4; 11; 16; 23; 6; 10; 15; 21] 0.
(** T[i + 1] = floor (4294967296 * abs (sin (i + 1))) *)
Definition T (i : nat) : Z := nth i
 [0xd76aa478; 0xe8c7b756; 0x242070db; 0xc1bdceee;
  0xf57c0faf; 0x4787c62a; 0xa8304613; 0xfd469501;
  0x698098d8; 0x8b44f7af; 0xffff5bb1; 0x895cd7be;
  0x6b901122; 0xfd987193; 0xa679438e; 0x49b40821;
  0xf61e2562; 0xc040b340; 0x265e5a51; 0xe9b6c7aa;
  0xd62f105d; 0x02441453; 0xd8a1e681; 0xe7d3fbc8;
  0x21e1cde6; 0xc33707d6; 0xf4d50d87; 0x455a14ed;
  0xa9e3e905; 0xfcefa3f8; 0x676f02d9; 0x8d2a4c8a;
  0xfffa3942; 0x8771f681; 0x6d9d6122; 0xfde5380c;
  0xa4beea44; 0x4bdecfa9; 0xf6bb4b60; 0xbebfbc70;
  0x289b7ec6; 0xeaa127fa; 0xd4ef3085; 0x04881d05;
  0xd9d4d039; 0xe6db99e5; 0x1fa27cf8; 0xc4ac5665;
  0xf4292244; 0x432aff97; 0xab9423a7; 0xfc93a039;
  0x655b59c3; 0x8f0ccc92; 0xffeff47d; 0x85845dd1;
  0x6fa87e4f; 0xfe2ce6e0; 0xa3014314; 0x4e0811a1;
  0xf7537e82; 0xbd3af235; 0x2ad7d2bb; 0xeb86d391] 0.

Definition rotate (x s : Z) : Z := (x * 2 ^ s) mod 2 ^ 32 + x / 2 ^ (32 - s).

(** One of the 64 operations, with the roles of the registers rotated
    instead of their names *)
Definition step (X : nat -> Z) (r : Z * Z * Z * Z) (i : nat) : Z * Z * Z * Z :=
  let '(a, b, c, d) := r in
  (d, (b + rotate ((a + aux i b c d + X (index i) + T i) mod 2 ^ 32) (shift i)) mod 2 ^ 32, b, c).

(** words of a block, low-order byte first *)
Definition block_word (M : list Z) (k : nat) : Z :=
  nth (4 * k) M 0 + nth (4 * k + 1) M 0 * 2 ^ 8 + nth (4 * k + 2) M 0 * 2 ^ 16 +
  nth (4 * k + 3) M 0 * 2 ^ 24.

Definition compress (r : Z * Z * Z * Z) (M : list Z) : Z * Z * Z * Z :=
  let '(a, b, c, d) := r in
  let '(a', b', c', d') := fold_left (step (block_word M)) (seq 0 64) r in
  ((a + a') mod 2 ^ 32, (b + b') mod 2 ^ 32, (c + c') mod 2 ^ 32, (d + d') mod 2 ^ 32).

(** 3.1, 3.2: padding and length *)
Definition bytes_le (n : nat) (x : Z) : list Z :=
  map (fun i => x / 2 ^ (8 * Z.of_nat i) mod 256) (seq 0 n).
Definition padded (m : list Z) : list Z :=
  m ++ [128] ++ repeat 0 (Z.to_nat ((55 - Z.of_nat (length m)) mod 64)) ++
  bytes_le 8 (8 * Z.of_nat (length m) mod 2 ^ 64).

(** 3.4, 3.5: blocks and output *)
Definition blocks (M : list Z) : list (list Z) :=
  map (fun i => firstn 64 (skipn (64 * i) M)) (seq 0 (length M / 64)).
Definition md5 (m : list Z) : list Z :=
  let '(a, b, c, d) :=
    fold_left compress (blocks (padded m)) (0x67452301, 0xefcdab89, 0x98badcfe, 0x10325476) in
  bytes_le 4 a ++ bytes_le 4 b ++ bytes_le 4 c ++ bytes_le 4 d.

Definition byte_list (l : list Z) : Prop := Forall (fun b => 0 <= b < 256) l.

(** Hexadecimal digits of a digest *)
Definition hex (b : Z) : list Z :=
  let digit d := if d <? 10 then 48 + d else 87 + d in [digit (b / 16); digit (b mod 16)].
