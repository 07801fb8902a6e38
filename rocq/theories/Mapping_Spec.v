(** Calls one after the other, with no loop and no list being built. *)
From Coq Require Import List ZArith.
Import ListNotations.
From Verif Require Import Mapping_Model.

Fixpoint of_list (l : list val) : val :=
  match l with [] => Nil | x :: r => Cons x (of_list r) end.

(** [calls f s l s' vs]: the calls for the elements of [l], in order and once each, lead from [s] to
    [s'] and give [vs]. *)
Inductive calls {St : Type} (f : St -> val -> St * outcome) : St -> list val -> St -> list val -> Prop :=
| CNone : forall s, calls f s [] s []
| COne : forall s x s1 v l s2 vs, f s x = (s1, Ret v) -> calls f s1 l s2 vs ->
    calls f s (x :: l) s2 (v :: vs).

(** [leaves f s l s' e]: one of these calls leaves with [e]; none is made behind it. *)
Definition leaves {St : Type} (f : St -> val -> St * outcome) s l s' e : Prop :=
  (forall v, e <> Ret v) /\
  exists pre x post s1 vs, l = pre ++ x :: post /\ calls f s pre s1 vs /\ f s1 x = (s', e).

(** the elements that got a true answer, or a false one *)
Inductive chosen (true_ones : bool) : list val -> list val -> list val -> Prop :=
| HNone : chosen true_ones [] [] []
| HIn : forall x v l vs r, (v <> Nil <-> true_ones = true) -> chosen true_ones l vs r ->
    chosen true_ones (x :: l) (v :: vs) (x :: r)
| HOut : forall x v l vs r, (v <> Nil <-> true_ones = false) -> chosen true_ones l vs r ->
    chosen true_ones (x :: l) (v :: vs) r.
