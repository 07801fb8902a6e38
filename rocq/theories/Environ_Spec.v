(** Environments: NAME=VALUE, the name without =. *)
From Coq Require Import List ZArith.
From Verif Require Import Regexp_Spec.
Import ListNotations.
Open Scope Z_scope.

(** The entry e says that n is v *)
Definition says (e n v : list Z) : Prop := e = n ++ 61 :: v /\ ~ In 61 n.

(** The first entry for a name counts *)
Inductive value_of (n : list Z) : list (list Z) -> option (list Z) -> Prop :=
| v_none : value_of n [] None
| v_here e v env : says e n v -> value_of n (e :: env) (Some v)
| v_later e env r : (forall v, ~ says e n v) -> value_of n env r -> value_of n (e :: env) r.

(** A name, without = and zero bytes; a set of strings *)
Definition name (n : list Z) : Prop := Forall char n /\ ~ In 61 n /\ Z.of_nat (length n) <= 6550.
Definition strings (env : list (list Z)) : Prop := Forall (Forall char) env.

(** No name twice *)
Definition no_doubles (env : list (list Z)) : Prop :=
  forall a rest e b e' c n v v', env = a ++ rest -> rest = e :: b ++ e' :: c -> says e n v -> ~ says e' n v'.
