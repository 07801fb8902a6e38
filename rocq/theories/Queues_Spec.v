(** First-in first-out queues as plain lists, several of them, and histories. *)
From Coq Require Import ZArith List Bool Arith.
From Verif Require Import Lists_Model Queues_Model.
Import ListNotations.

(** What a program can do: create a queue, or use the i-th one created. *)
Inductive op :=
| New | Enq (i : nat) (x : val) | Deq (i : nat) | Del (i : nat) (x : val)
| ToList (i : nat) | Len (i : nat) | EmptyP (i : nat).

(** What it sees. *)
Inductive out := Done | Value (v : val) | Error | Elems (l : list val) | Num (n : Z) | Bool (b : bool).

Fixpoint set_nth {A} (i : nat) (a : A) (l : list A) : list A :=
  match l, i with
  | [], _ => []
  | _ :: l', 0 => a :: l'
  | b :: l', S i' => b :: set_nth i' a l'
  end.

(** The specification: each queue is a list. *)
Definition spec_step (qs : list (list val)) (o : op) : list (list val) * out :=
  match o with
  | New => (qs ++ [[]], Done)
  | Enq i x => (match nth_error qs i with Some l => set_nth i (l ++ [x]) qs | None => qs end, Done)
  | Deq i => match nth_error qs i with
             | Some (x :: l) => (set_nth i l qs, Value x)
             | _ => (qs, Error)
             end
  | Del i x => (match nth_error qs i with
                | Some l => set_nth i (filter (fun y => negb (val_eqb y x)) l) qs
                | None => qs end, Done)
  | ToList i => (qs, Elems (nth i qs []))
  | Len i => (qs, Num (Z.of_nat (length (nth i qs []))))
  | EmptyP i => (qs, Bool (match nth i qs [] with [] => true | _ => false end))
  end.

Fixpoint spec_run (qs : list (list val)) (os : list op) : list out :=
  match os with
  | [] => []
  | o :: os' => let (qs', r) := spec_step qs o in r :: spec_run qs' os'
  end.

(** Every operation names a queue that exists. *)
Definition names (o : op) (n : nat) : Prop :=
  match o with
  | New => True
  | Enq i _ | Deq i | Del i _ | ToList i | Len i | EmptyP i => i < n
  end.
Fixpoint well_named (n : nat) (os : list op) : Prop :=
  match os with
  | [] => True
  | o :: os' => names o n /\ well_named (match o with New => S n | _ => n end) os'
  end.

(** The same program on the queues of the library.  The loops get as budget
    the number of cells ever made; None is a budget that did not suffice or a
    wrong-type error. *)
Definition step (h : heap) (qs : list nat) (o : op) : option (heap * list nat * out) :=
  let fuel := S (next h) in
  match o with
  | New => let (h', q) := make_queue h in Some (h', qs ++ [q], Done)
  | Enq i x => option_map (fun h' => (h', qs, Done)) (enqueue h (nth i qs 0) x)
  | Deq i => match dequeue h (nth i qs 0) with
             | Some (h', v) => Some (h', qs, Value v)
             | None => Some (h, qs, Error)
             end
  | Del i x => option_map (fun h' => (h', qs, Done)) (delete_from_queue fuel h (nth i qs 0) x)
  | ToList i => option_map (fun l => (h, qs, Elems l)) (list_elems fuel h (queue_list h (nth i qs 0)))
  | Len i => option_map (fun n => (h, qs, Num n)) (queue_length fuel h (nth i qs 0))
  | EmptyP i => Some (h, qs, Bool (queue_empty_p h (nth i qs 0)))
  end.

Fixpoint run (h : heap) (qs : list nat) (os : list op) : option (list out) :=
  match os with
  | [] => Some []
  | o :: os' => match step h qs o with
                | Some (h', qs', r) => option_map (fun l => r :: l) (run h' qs' os')
                | None => None
                end
  end.
