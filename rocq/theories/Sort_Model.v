(** Model of /repo/lisp/rep/data/sort.jl on the heap of cons cells.

    The predicate is a pure function of two elements.  [fuel] bounds both the
    recursion and the loops. *)
From Coq Require Import ZArith List Bool Arith.
From Verif Require Import Lists_Model.
Import ListNotations.

Section Sort.
  Variable pred : val -> val -> bool.

  (** sort.jl 65-70: append the cell [tem] to the list being built; gives the
      heap and out-head (out becomes tem) *)
  Definition link (h : heap) (out_head out tem : val) : heap * val :=
    match out with
    | Cell o => (set_cdr h o tem, out_head)
    | _ => (h, tem)
    end.

  (** sort.jl 52-76: the merge loop and what follows it *)
  Fixpoint merge_loop (fuel : nat) (h : heap) (lst mid out_head out : val) : option (heap * val) :=
    match fuel with
    | 0 => None
    | S fuel' =>
      match lst, mid with
      | Nil, Nil => Some (h, out_head)
      | Nil, _ => Some (link h out_head out mid)
      | _, Nil => Some (link h out_head out lst)
      | _, _ =>
        if pred (car h mid) (car h lst) then
          let tem := mid in
          let mid' := cdr h mid in
          let (h', head') := link h out_head out tem in
          merge_loop fuel' h' lst mid' head' tem
        else
          let tem := lst in
          let lst' := cdr h lst in
          let (h', head') := link h out_head out tem in
          merge_loop fuel' h' lst' mid head' tem
      end
    end.

  (** sort.jl 28-76 sort.  The length and the index of nthcdr are not limited
      to the C int range here. *)
  Fixpoint sort (fuel : nat) (h : heap) (lst : val) : option (heap * val) :=
    match fuel with
    | 0 => None
    | S fuel' =>
      match length_loop (S fuel') h lst 0 with
      | Some len =>
        if (len <? 2)%Z then Some (h, lst)
        else
          match nthcdr_loop (Z.to_nat (Z.quot len 2 - 1)) h lst with
          | Cell m =>
            let mid := snd (mem h m) in
            let h1 := set_cdr h m Nil in
            match sort fuel' h1 lst with
            | Some (h2, lst') =>
              match sort fuel' h2 mid with
              | Some (h3, mid') => merge_loop (S fuel') h3 lst' mid' Nil Nil
              | None => None
              end
            | None => None
            end
          | _ => None
          end
      | None => None
      end
    end.
End Sort.
