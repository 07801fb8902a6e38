(** Model of /repo/lisp/rep/data/ring.jl.

    The vector of N+2 slots of the datum is a record: slot 0 is [r_size], slot 1
    is [r_pos], the N others are [items].  Reading or writing outside the
    vector is an error (None), as aref and aset signal it. *)
From Coq Require Import ZArith List Bool.
Import ListNotations.
Open Scope Z_scope.

Section Ring.
  Context {V : Type}.
  Variable nil_ : V.

  Record ring := mk_ring { r_size : Z; r_pos : Z; items : list V }.

  (** ring.jl 57-59 ring-capacity, 61-63 ring-size *)
  Definition ring_capacity (r : ring) : Z := Z.of_nat (length (items r)).
  Definition ring_size (r : ring) : Z := r_size r.

  (** ring.jl 73-76 get-item, set-item.  Position -1 and -2 would be the slots
      of position and size; they are not used by callers within the theorems
      and are errors here. *)
  Definition get_item (r : ring) (pos : Z) : option V :=
    if pos <? 0 then None else nth_error (items r) (Z.to_nat pos).
  Fixpoint update (l : list V) (i : nat) (v : V) : option (list V) :=
    match l, i with
    | [], _ => None
    | _ :: l', O => Some (v :: l')
    | a :: l', S i' => option_map (cons a) (update l' i' v)
    end.
  Definition set_item (r : ring) (pos : Z) (v : V) : option ring :=
    if pos <? 0 then None
    else option_map (mk_ring (r_size r) (r_pos r)) (update (items r) (Z.to_nat pos) v).

  (** ring.jl 80-87 make-ring (16 slots when no size is given) *)
  Definition make_ring (size : option nat) : ring :=
    mk_ring 0 0 (repeat nil_ (match size with Some n => n | None => 16%nat end)).

  (** ring.jl 89-96 ring-append; (mod x 0) is an error *)
  Definition ring_append (r : ring) (v : V) : option ring :=
    match set_item r (r_pos r) v with
    | Some r1 =>
      if ring_capacity r1 =? 0 then None
      else
        let new_pos := (r_pos r1 + 1) mod ring_capacity r1 in
        let size' := if r_size r1 =? ring_capacity r1 then r_size r1 else r_size r1 + 1 in
        Some (mk_ring size' new_pos (items r1))
    | None => None
    end.

  (** ring.jl 98-107 ring-ref *)
  Definition ring_ref (r : ring) (depth : Z) : option V :=
    if ring_capacity r <=? depth then Some nil_
    else if ring_capacity r =? 0 then None
    else get_item r ((r_pos r - (depth + 1)) mod ring_capacity r).

  (** ring.jl 109-114 ring-replace (also set-ring-head, 129) *)
  Definition ring_replace (r : ring) (v : V) : option ring :=
    if r_size r =? 0 then ring_append r v
    else if ring_capacity r =? 0 then None
    else set_item r ((r_pos r - 1) mod ring_capacity r) v.

  (** ring.jl 116-122 ring->list: the loop pushes elements 0 to size-1 and
      reverses the result *)
  Fixpoint ring_list_loop (r : ring) (i : Z) (n : nat) (contents : list V) : option (list V) :=
    match n with
    | O => Some (rev contents)
    | S n' => match ring_ref r i with
              | Some v => ring_list_loop r (i + 1) n' (v :: contents)
              | None => None
              end
    end.
  Definition ring_list (r : ring) : option (list V) := ring_list_loop r 0 (Z.to_nat (r_size r)) [].

  (** ring.jl 126-127 get-from-ring *)
  Definition get_from_ring (r : ring) (depth : option Z) : option V :=
    ring_ref r (match depth with Some d => d - 1 | None => 0 end).
End Ring.
