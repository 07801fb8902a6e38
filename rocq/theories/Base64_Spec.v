(** What base64 text is, and its meaning by arithmetic, without the code. *)
From Coq Require Import ZArith List Bool.
Import ListNotations.
Open Scope Z_scope.

Definition byte (c : Z) : Prop := 0 <= c < 256.

(** The characters of the alphabet and their six-bit values (RFC 2045 6.8,
    table 1) *)
Definition six_bit_char (c v : Z) : Prop :=
  (65 <= c <= 90 /\ v = c - 65) \/ (97 <= c <= 122 /\ v = c - 71) \/ (48 <= c <= 57 /\ v = c + 4) \/
  (c = 43 /\ v = 62) \/ (c = 47 /\ v = 63).

Definition in_alphabet (c : Z) : Prop := exists v, six_bit_char c v.

(** The number whose digits in base [b] are [l], most significant first *)
Definition number (b : Z) (l : list Z) : Z := fold_left (fun n d => n * b + d) l 0.

(** Text cut in lines at newlines (10); the last line is what follows the last
    newline *)
Fixpoint lines (l : list Z) : list (list Z) :=
  match l with
  | [] => [[]]
  | c :: r => if c =? 10 then [] :: lines r
              else match lines r with
                   | x :: xs => (c :: x) :: xs
                   | [] => [[c]]
                   end
  end.
