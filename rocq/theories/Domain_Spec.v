(** What is said about domain names. *)

From Coq Require Import List ZArith Bool Sorting.Sorted.
Import ListNotations.
Open Scope Z_scope.

Definition bytes (d : list Z) : Prop := Forall (fun c => 0 < c < 256) d.
Definition undotted (l : list Z) : Prop := ~ In 46 l.

(** Labels with dots between them. *)
Fixpoint dotted (ls : list (list Z)) : list Z :=
  match ls with
  | [] => []
  | l :: [] => l
  | l :: ls => l ++ [46] ++ dotted ls
  end.
Definition labels_of (d : list Z) (ls : list (list Z)) : Prop :=
  ls <> [] /\ dotted ls = d /\ Forall undotted ls.

(** a is above b: something, a dot, and a. *)
Definition is_above (a b : list Z) : Prop := exists p, b = p ++ [46] ++ a.

(** The parent: what follows the first label. *)
Definition is_parent (a b : list Z) : Prop := exists l, undotted l /\ b = l ++ [46] ++ a.

(** A name and all the names above it, the longest first. *)
Definition chain (d : list Z) (l : list (list Z)) : Prop :=
  (forall x, In x l <-> x = d \/ is_above x d) /\
  StronglySorted (fun x y => (length y < length x)%nat) l.
