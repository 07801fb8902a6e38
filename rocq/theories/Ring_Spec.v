(** A ring of capacity [n] as the list of the last at most [n] items, newest
    first. *)
From Coq Require Import ZArith List.
From Verif Require Import Ring_Model.
Import ListNotations.

Section Spec.
  Context {V : Type}.
  Inductive op := Append (v : V) | Replace (v : V).
  Definition apply_op (n : nat) (l : list V) (o : op) : list V :=
    match o with
    | Append v => firstn n (v :: l)
    | Replace v => match l with [] => [v] | _ :: l' => v :: l' end
    end.
  Definition contents (n : nat) (os : list op) : list V := fold_left (apply_op n) os [].

  (** The operation on the library's ring; None is an error. *)
  Definition apply_ring (r : option ring) (o : op) : option ring :=
    match r with
    | Some r => match o with Append v => ring_append r v | Replace v => ring_replace r v end
    | None => None
    end.
End Spec.
Arguments op : clear implicits.
