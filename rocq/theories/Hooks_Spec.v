(** What a user of hooks relies on: a hook is a list of functions. *)
From Coq Require Import ZArith List Bool Arith.
From Verif Require Import Lists_Model Lists_Spec Hooks_Model.
Import ListNotations.

(** The cells of every hook: each variable holds a list, and no cell belongs to
    two hooks. *)
Definition hooks_are (w : world) (L : nat -> list (nat * val)) : Prop :=
  (forall k, match var w k with
             | None => L k = []
             | Some v => is_list (hp w) v (L k) Nil
             end) /\
  (forall k, allocated (hp w) (L k)) /\
  (forall k k' p, k <> k' -> In p (addrs (L k)) -> ~ In p (addrs (L k'))).

(** The functions of every hook *)
Definition holds (w : world) (H : nat -> list val) : Prop :=
  exists L, hooks_are w L /\ forall k, H k = elems (L k).

(** The changes a program can make, and what each does to the lists *)
Inductive change := CAdd (k : nat) (f : val) (at_end : bool) | CRemove (k : nat) (f : val) | CRemoveNamed (k : nat) (n : Z).

Definition put (H : nat -> list val) (k : nat) (l : list val) : nat -> list val :=
  fun i => if i =? k then l else H i.

Definition changed (name_of : val -> Z) (H : nat -> list val) (c : change) : nat -> list val :=
  match c with
  | CAdd k f true => put H k (H k ++ [f])
  | CAdd k f false => put H k (f :: H k)
  | CRemove k f => put H k (filter (fun g => negb (val_eqb f g)) (H k))
  | CRemoveNamed k n => put H k (filter (fun g => negb (Z.eqb (name_of g) n)) (H k))
  end.

Definition make (name_of : val -> Z) (fuel : nat) (w : world) (c : change) : did :=
  match c with
  | CAdd k f e => add_hook fuel w k f e
  | CRemove k f => remove_hook fuel w k f
  | CRemoveNamed k n => remove_hook_by_name name_of fuel w k n
  end.

(** A sequence of changes, each given the budget [fuel] *)
Fixpoint make_all (name_of : val -> Z) (fuel : nat) (w : world) (cs : list change) : did :=
  match cs with
  | [] => Did w
  | c :: cs' => match make name_of fuel w c with
                | Did w' => make_all name_of fuel w' cs'
                | d => d
                end
  end.

(** No function of the set [P] is ever removed from hook [k], by name or by
    itself, nor added at its end, by what the action does. *)
Definition spares (name_of : val -> Z) (P : val -> bool) (k : nat) (a : act) : Prop :=
  match a with
  | Add k' f true => k' = k -> P f = false
  | Add _ _ false => True
  | Remove k' f => k' = k -> forall g, val_eqb f g = true -> P g = false
  | RemoveNamed k' n => k' = k -> forall g, Z.eqb (name_of g) n = true -> P g = false
  | Run _ _ => True
  end.

(** Only functions of [Q] are added at the end of hook [k]. *)
Definition appends_only (Q : val -> Prop) (k : nat) (a : act) : Prop :=
  match a with
  | Add k' f true => k' = k -> Q f
  | _ => True
  end.

(** Whether an answer ends a run of this type *)
Definition ends_run (ty : hook_type) (a : ans) : Prop :=
  a = Thrown \/ (ty = TAnd /\ a = Ret Nil) \/ (ty = TOr /\ exists v, a = Ret v /\ v <> Nil).

(** The last answer, nil when nothing was called *)
Definition last_answer (calls : list (val * ans)) : ans := last (map snd calls) (Ret Nil).
