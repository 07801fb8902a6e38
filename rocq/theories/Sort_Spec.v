(** What a stable sort is. *)
From Coq Require Import ZArith List Bool Sorting.Permutation Sorting.Sorted.
From Verif Require Import Lists_Model Lists_Spec.
Import ListNotations.

(** A strict weak order. *)
Definition strict_weak_order (pred : val -> val -> bool) : Prop :=
  (forall x, pred x x = false) /\
  (forall x y z, pred x y = true -> pred y z = true -> pred x z = true) /\
  (forall x y z, pred x y = false -> pred y x = false -> pred y z = false -> pred z y = false ->
     pred x z = false /\ pred z x = false).

(** No element is followed by a smaller one. *)
Definition in_order (pred : val -> val -> bool) (l : list (nat * val)) : Prop :=
  StronglySorted (fun a b => pred (snd b) (snd a) = false) l.

(** Elements that compare equal to [x] *)
Definition equiv (pred : val -> val -> bool) (x : val) (c : nat * val) : bool :=
  negb (pred x (snd c)) && negb (pred (snd c) x).

(** [l'] is the stable sorting of the cells [l]. *)
Definition stable_sort_of (pred : val -> val -> bool) (l l' : list (nat * val)) : Prop :=
  Permutation l l' /\ in_order pred l' /\
  forall x, filter (equiv pred x) l' = filter (equiv pred x) l.
