(** UTF-8 (RFC 3629). *)
From Coq Require Import List ZArith Bool.
Import ListNotations.
Open Scope Z_scope.

(** Unicode scalar values *)
Definition scalar (c : Z) : Prop := (0 <= c < 0xd800) \/ (0xe000 <= c < 0x110000).

Definition encode (c : Z) : list Z :=
  if c <? 0x80 then [c]
  else if c <? 0x800 then [0xc0 + c / 64; 0x80 + c mod 64]
  else if c <? 0x10000 then [0xe0 + c / 4096; 0x80 + c / 64 mod 64; 0x80 + c mod 64]
  else [0xf0 + c / 262144; 0x80 + c / 4096 mod 64; 0x80 + c / 64 mod 64; 0x80 + c mod 64].
Definition text (cs : list Z) : list Z := flat_map encode cs.

(** The characters from number [start] up to, but not including, [end_] *)
Definition slice (cs : list Z) (start end_ : nat) : list Z := firstn (end_ - start) (skipn start cs).
