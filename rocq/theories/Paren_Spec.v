(** Balanced text. Nothing of the model is used here *)

From Coq Require Import ZArith List Bool.
Import ListNotations.
Open Scope Z_scope.

(** The pairs of brackets *)
Definition brackets (c k : Z) : Prop := (c = 40 /\ k = 41) \/ (c = 91 /\ k = 93) \/ (c = 123 /\ k = 125).
(** What is between the quotes of a string *)
Inductive string_body : list Z -> Prop :=
| Sb_nil : string_body []
| Sb_plain s x : string_body s -> x <> 34 -> x <> 92 -> string_body (s ++ [x])
| Sb_escaped s x : string_body s -> string_body (s ++ [92; x]).
Definition ends_in (x : Z) (s : list Z) : Prop := exists s', s = s' ++ [x].
(** Other bytes, character literals, strings and groups in brackets. A string is not
    directly behind the literal of the backslash *)
Inductive balanced (c k : Z) : list Z -> Prop :=
| B_nil : balanced c k []
| B_plain s x : balanced c k s -> x <> c -> x <> k -> x <> 34 -> x <> 92 -> balanced c k (s ++ [x])
| B_literal s x : balanced c k s -> balanced c k (s ++ [35; 92; x])
| B_string s b : balanced c k s -> ~ ends_in 92 s -> string_body b -> balanced c k (s ++ 34 :: b ++ [34])
| B_group s t : balanced c k s -> balanced c k t -> balanced c k (s ++ c :: t ++ [k]).
