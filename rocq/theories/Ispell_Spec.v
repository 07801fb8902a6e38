(** What the process answers *)

From Coq Require Import ZArith List Bool.
Import ListNotations.
Open Scope Z_scope.

(** An answer is a line that is not empty, and an empty line *)
Definition answer (l : list Z) : list Z := l ++ [10; 10].
Definition proper (l : list Z) : Prop := l <> [] /\ ~ In 10 l.
Definition whole (pieces : list (list Z)) : list (option (list Z)) := map Some pieces.
