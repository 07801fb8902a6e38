(** What a file handler for other machines promises, without reference to how the
    pieces of an answer are put together. *)

From Coq Require Import ZArith List Bool.
Import ListNotations.
Open Scope Z_scope.

(** A text arrives in pieces, none of them empty; [later] is still to come *)
Definition arrives (pieces : list (list Z)) (later text : list Z) : Prop :=
  Forall (fun p => p <> []) pieces /\ concat pieces ++ later = text.
(** Lengths that eight hexadecimal digits can hold *)
Definition fits (s : list Z) : Prop := Z.of_nat (length s) < 2 ^ 32.
(** Text that a C string can hold *)
Definition no_zero (s : list Z) : Prop := Forall (fun c => c <> 0) s.
Definition all_bytes (s : list Z) : Prop := Forall (fun c => 0 <= c < 256) s.
