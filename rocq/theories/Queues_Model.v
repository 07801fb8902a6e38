(** Model of /repo/lisp/rep/data/queues.jl on the heap of cons cells.

    A queue is named by the address of the cell its datum holds; the datum
    wrapper and its type check (make-datum, datum-ref) are left out. *)
From Coq Require Import ZArith List Bool Arith.
From Verif Require Import Lists_Model.
Import ListNotations.

Definition null (v : val) : bool := match v with Nil => true | _ => false end.

(** queues.jl 51-52 make-queue *)
Definition make_queue (h : heap) : heap * nat := (fst (cons h Nil Nil), next h).

(** queues.jl 54-64 enqueue; rplacd of something that is no cons is an error *)
Definition enqueue (h : heap) (cell : nat) (x : val) : option heap :=
  let (h1, new) := cons h x Nil in
  if null (cdr h1 (Cell cell)) then
    let h2 := set_cdr h1 cell new in
    Some (set_car h2 cell new)
  else
    match car h1 (Cell cell) with
    | Cell t =>
      let h2 := set_cdr h1 t new in
      Some (set_car h2 cell new)
    | _ => None
    end.

(** queues.jl 66-76 dequeue: None is the error *)
Definition dequeue (h : heap) (cell : nat) : option (heap * val) :=
  let c := Cell cell in
  if null (cdr h c) then None
  else
    let r := car h (cdr h c) in
    if negb (val_eqb (car h c) (cdr h c)) then
      Some (set_cdr h cell (cdr h (cdr h c)), r)
    else
      let h1 := set_cdr h cell Nil in
      Some (set_car h1 cell Nil, r).

(** queues.jl 78-79 queue-empty-p, 84-85 queue->list *)
Definition queue_empty_p (h : heap) (cell : nat) : bool := null (cdr h (Cell cell)).
Definition queue_list (h : heap) (cell : nat) : val := cdr h (Cell cell).

(** queues.jl 87-88 queue-length *)
Definition queue_length (fuel : nat) (h : heap) (cell : nat) : option Z :=
  length_loop fuel h (queue_list h cell) 0.

(** queues.jl 92-102: the loop of delete-from-queue *)
Fixpoint delete_queue_loop (fuel : nat) (h : heap) (cell : nat) (x : val) (ptr : nat) : option heap :=
  match fuel with
  | 0 => None
  | S fuel' =>
    match cdr h (Cell ptr) with
    | Nil =>
      if null (cdr h (Cell cell)) then Some (set_car h cell Nil)
      else Some (set_car h cell (Cell ptr))
    | d =>
      if val_eqb (car h d) x then
        delete_queue_loop fuel' (set_cdr h ptr (cdr h d)) cell x ptr
      else match d with
           | Cell p => delete_queue_loop fuel' h cell x p
           | _ => None
           end
    end
  end.

(** queues.jl 90-102 delete-from-queue *)
Definition delete_from_queue (fuel : nat) (h : heap) (cell : nat) (x : val) : option heap :=
  delete_queue_loop fuel h cell x cell.

(** Reading the elements of a list, for observing what queue->list returned *)
Fixpoint list_elems (fuel : nat) (h : heap) (v : val) : option (list val) :=
  match fuel with
  | 0 => None
  | S fuel' =>
    match v with
    | Cell p => match list_elems fuel' h (snd (mem h p)) with
                | Some l => Some (fst (mem h p) :: l)
                | None => None
                end
    | _ => Some []
    end
  end.
