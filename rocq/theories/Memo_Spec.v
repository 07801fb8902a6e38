(** What a function computes when nothing is remembered. *)
From Coq Require Import List.
From Verif Require Import Memo_Model.

Section Plain.
  Context {K V : Type}.
  Variable f : K -> prog K V.

  (** A function at work ends so, in [h] steps. *)
  Inductive ends : nat -> prog K V -> outcome V -> Prop :=
  | EGive : forall v, ends 0 (Give v) (Ret v)
  | EThrow : ends 0 Throw Thrown
  | ESelf : forall h1 h2 a k v o, ends h1 (f a) (Ret v) -> ends h2 (k v) o -> ends (S (h1 + h2)) (Self a k) o
  | ESelfThrown : forall h a k, ends h (f a) Thrown -> ends (S h) (Self a k) Thrown.

  Definition computes (a : K) (o : outcome V) : Prop := exists h, ends h (f a) o.
End Plain.

(** [eqb] decides equality, [nilp] decides being nil. *)
Definition tells {K V} (eqb : K -> K -> bool) (nilp : V -> bool) (nil_ : V) : Prop :=
  (forall a b, eqb a b = true <-> a = b) /\ (forall v, nilp v = true <-> v = nil_).
