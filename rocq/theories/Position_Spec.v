(** The places of an item in a list that may be circular *)

From Coq Require Import ZArith List.
From Verif Require Import Position_Model.
Import ListNotations.

(** The cell after k steps, when the list goes so far *)
Fixpoint nth_cell (h : heap) (l : nat) (k : nat) : option nat :=
  match k with
  | O => match h l with Some _ => Some l | None => None end
  | S k => match h l with Some (_, l) => nth_cell h l k | None => None end
  end.
(** The item is at place k *)
Definition at_place (h : heap) (l k : nat) : Prop :=
  exists c r, nth_cell h l k = Some c /\ h c = Some (true, r).
(** There are only finitely many cells *)
Definition finite (h : heap) : Prop := exists n, forall c, n <= c -> h c = None.
(** A list that never ends *)
Definition endless (h : heap) (l : nat) : Prop := forall k, nth_cell h l k <> None.
(** A text with other bytes for the newlines *)
Definition spaced (t : list Z) : list Z := map (fun c => if Z.eqb c 10 then 32%Z else c) t.
