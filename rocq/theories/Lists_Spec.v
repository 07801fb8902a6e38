(** What it means for a value to be a list in a heap. *)
From Coq Require Import ZArith List Arith.
From Verif Require Import Lists_Model.
Import ListNotations.

(** [chain h v l e]: starting at [v] the cells of [l] follow each other in the
    heap, [l] giving address and element of each, and the last cdr is [e]. *)
Fixpoint chain (h : heap) (v : val) (l : list (nat * val)) (e : val) : Prop :=
  match l with
  | [] => v = e
  | (p, x) :: l' => v = Cell p /\ fst (mem h p) = x /\ chain h (snd (mem h p)) l' e
  end.

Definition addrs (l : list (nat * val)) : list nat := map fst l.
Definition elems (l : list (nat * val)) : list val := map snd l.

Definition not_cell (e : val) : Prop := forall p, e <> Cell p.

(** A finite list of this heap, possibly ending in an atom other than nil. *)
Definition is_list (h : heap) (v : val) (l : list (nat * val)) (e : val) : Prop :=
  chain h v l e /\ not_cell e.

(** All its addresses are in use, i.e. below the allocation counter. *)
Definition allocated (h : heap) (l : list (nat * val)) : Prop := Forall (fun p => p < next h) (addrs l).

(** [l] consists of cells that did not exist in [h]. *)
Definition fresh (h : heap) (l : list (nat * val)) : Prop :=
  NoDup (addrs l) /\ Forall (fun p => next h <= p) (addrs l).

(** No cell that existed has changed. *)
Definition heap_kept (h h' : heap) : Prop := forall p, p < next h -> mem h' p = mem h p.

(** No cell outside [ps] has changed, and no car at all. *)
Definition only_cdrs_of (ps : list nat) (h h' : heap) : Prop :=
  next h' = next h /\ (forall p, ~ In p ps -> mem h' p = mem h p) /\
  (forall p, fst (mem h' p) = fst (mem h p)).

(** An argument of append or nconc: the value, its cells and its last cdr *)
Definition arg := (val * list (nat * val) * val)%type.
Definition arg_val (a : arg) : val := fst (fst a).
Definition arg_cells (a : arg) : list (nat * val) := snd (fst a).
Definition arg_end (a : arg) : val := snd a.

(** A list in use *)
Definition arg_ok (h : heap) (a : arg) : Prop :=
  is_list h (arg_val a) (arg_cells a) (arg_end a) /\ listp (arg_val a) = true /\ allocated h (arg_cells a).
