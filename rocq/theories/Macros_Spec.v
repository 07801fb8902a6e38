(** Macro expansion of trees, without any memory. *)
From Coq Require Import List Bool Arith.
From Verif Require Import Macros_Model.
Import ListNotations.

Inductive tree := Leaf (n : nat) | Node (a d : tree).

(** A value that stands for a tree in allocated memory *)
Inductive stands (s : state) : val -> tree -> Prop :=
| StSym : forall n, stands s (Sym n) (Leaf n)
| StPtr : forall p a d, used s p = true -> stands s (fst (mem s p)) a -> stands s (snd (mem s p)) d ->
    stands s (Ptr p) (Node a d).

(** What each macro makes of its arguments *)
Definition meaning := nat -> option (tree -> tree).

(** One expansion of a form, None when it is no macro call *)
Definition once (mean : meaning) (t : tree) : option tree :=
  match t with
  | Node (Leaf m) args => match mean m with Some f => Some (f args) | None => None end
  | _ => None
  end.

(** Expanding until it is no macro call, or one that expands into itself *)
Inductive expands (mean : meaning) : tree -> tree -> Prop :=
| Stays : forall t, once mean t = None -> expands mean t t
| Same : forall t, once mean t = Some t -> expands mean t t
| Goes : forall t u t', once mean t = Some u -> expands mean u t' -> expands mean t t'.

(** Allocated memory: no allocated cell, protected value or remembered value
    points to one that is not allocated. *)
Definition sound_memory (s : state) : Prop :=
  (forall p, used s p = true -> held s (fst (mem s p)) = true /\ held s (snd (mem s p)) = true) /\
  (forall v, In v (roots s) -> held s v = true).

(** What is remembered is true: a form that stands for a tree is remembered with
    the expansion of the tree. *)
Definition remembers_truth (mean : meaning) (s : state) : Prop :=
  forall i p v, In (p, v) (hist s i) -> used s p = true /\ held s v = true /\
    forall t, stands s (Ptr p) t -> exists t', expands mean t t' /\ stands s v t'.

Definition good (mean : meaning) (s : state) : Prop := sound_memory s /\ remembers_truth mean s.

(** The macros mean this, for budgets below [b]: they are defined for the same
    symbols, and a macro function called in a good state with the arguments of a
    protected form, that stand for a tree, gives a value that stands for what the
    macro makes of the tree. *)
Definition macros_mean_below (b : nat) (macro : nat -> option (val -> prog)) (mean : meaning) : Prop :=
  forall m, match macro m, mean m with
            | None, None => True
            | Some f, Some g => forall n s p t s' v', n < b -> good mean s ->
                In (Ptr p) (roots s) -> stands s (snd (mem s p)) t ->
                exec macro n s (f (snd (mem s p))) = Some (s', v') -> stands s' v' (g t)
            | _, _ => False
            end.
Definition macros_mean macro mean := forall b, macros_mean_below b macro mean.

(** A start: sound memory, nothing remembered *)
Definition fresh (s : state) : Prop := sound_memory s /\ forall i, hist s i = [].
