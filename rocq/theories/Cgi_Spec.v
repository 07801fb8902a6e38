(** Query strings of forms: NAME=VALUE&NAME=VALUE..., the characters of names
    and values as they are, as % with two hexadecimal digits, or space as +. *)
From Coq Require Import List ZArith Bool.
Import ListNotations.
Open Scope Z_scope.

(** The value of a hexadecimal digit, of either case *)
Inductive digit : Z -> Z -> Prop :=
| d_dec d : 0 <= d <= 9 -> digit (48 + d) d
| d_up d : 10 <= d <= 15 -> digit (65 + (d - 10)) d
| d_low d : 10 <= d <= 15 -> digit (97 + (d - 10)) d.

(** [encoded hex raw s e]: e is a way to write s; characters with [raw] may be
    written as they are; with or without % *)
Inductive encoded (hex : bool) (raw : Z -> Prop) : list Z -> list Z -> Prop :=
| e_nil : encoded hex raw [] []
| e_raw c s e : raw c -> encoded hex raw s e -> encoded hex raw (c :: s) (c :: e)
| e_space s e : encoded hex raw s e -> encoded hex raw (32 :: s) (43 :: e)
| e_hex c1 c2 a b s e : hex = true -> digit a c1 -> digit b c2 -> encoded hex raw s e ->
    encoded hex raw (16 * c1 + c2 :: s) (37 :: a :: b :: e).

(** Not & = + % in names, not & + % in values; no zero bytes *)
Definition raw_name (c : Z) : Prop := 0 < c < 256 /\ c <> 38 /\ c <> 61 /\ c <> 43 /\ c <> 37.
Definition raw_value (c : Z) : Prop := 0 < c < 256 /\ c <> 38 /\ c <> 43 /\ c <> 37.

(** The query string q says these names and values; % in names or not *)
Inductive query (hex : bool) : list (list Z * list Z) -> list Z -> Prop :=
| q_none : query hex [] []
| q_one n v en ev : n <> [] -> encoded hex raw_name n en -> encoded true raw_value v ev ->
    query hex [(n, v)] (en ++ 61 :: ev)
| q_more n v en ev l q : n <> [] -> encoded hex raw_name n en -> encoded true raw_value v ev -> query hex l q ->
    query hex ((n, v) :: l) (en ++ 61 :: ev ++ 38 :: q).

(** The value "" is reported as nil *)
Definition reported (p : list Z * list Z) : list Z * option (list Z) :=
  (fst p, match snd p with [] => None | v => Some v end).
