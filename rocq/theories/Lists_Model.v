(** A heap of cons cells and the list functions of /repo/src/lispcmds.c.

    Cells of dumped (read-only) constants are not modelled, every cell is
    writable; neither are interrupts (rep_TEST_INT) nor running out of memory.
    A C loop is a function of a step budget [fuel] and gives None when the
    budget runs out; the theorems give a budget that suffices. *)
From Coq Require Import ZArith List Bool Arith.
Import ListNotations.

(** A Lisp value as seen by the list functions: nil, a cons cell or anything
    else. *)
Inductive val := Nil | Cell (p : nat) | Atom (z : Z).

Definition val_eqb (a b : val) : bool :=
  match a, b with
  | Nil, Nil => true
  | Cell p, Cell q => p =? q
  | Atom x, Atom y => (x =? y)%Z
  | _, _ => false
  end.

(** values.c 440-515 (cons block allocation) reduced to an address counter. *)
Record heap := mk_heap { mem : nat -> val * val; next : nat }.

Definition consp (v : val) : bool := match v with Cell _ => true | _ => false end.
Definition listp (v : val) : bool := match v with Atom _ => false | _ => true end.

(** lispcmds.c 121-144 Fcar, Fcdr: nil for anything but a cons *)
Definition car (h : heap) (v : val) : val := match v with Cell p => fst (mem h p) | _ => Nil end.
Definition cdr (h : heap) (v : val) : val := match v with Cell p => snd (mem h p) | _ => Nil end.

Definition write (h : heap) (p : nat) (c : val * val) : heap :=
  mk_heap (fun q => if q =? p then c else mem h q) (next h).
(** lispcmds.c 278-306 Frplaca, Frplacd on a cell *)
Definition set_car (h : heap) (p : nat) (v : val) : heap := write h p (v, snd (mem h p)).
Definition set_cdr (h : heap) (p : nat) (v : val) : heap := write h p (fst (mem h p), v).

(** values.c 481-507 Fcons *)
Definition cons (h : heap) (a d : val) : heap * val :=
  (mk_heap (fun q => if q =? next h then (a, d) else mem h q) (S (next h)), Cell (next h)).

(** A C location of type repv*: a local variable or the cdr field of a cell *)
Inductive place := PVar | PCdr (p : nat).
Definition load (h : heap) (var : val) (l : place) : val :=
  match l with PVar => var | PCdr p => snd (mem h p) end.
(** *place = v, giving the heap and the variable *)
Definition store (h : heap) (var : val) (l : place) (v : val) : heap * val :=
  match l with PVar => (h, v) | PCdr p => (set_cdr h p v, var) end.

(** lispcmds.c 308-327 Freverse *)
Fixpoint reverse_loop (fuel : nat) (h : heap) (res head : val) : option (heap * val) :=
  match fuel with
  | 0 => None
  | S fuel' =>
    if consp head then
      let (h', res') := cons h (car h head) res in
      reverse_loop fuel' h' res' (cdr h head)
    else Some (h, res)
  end.
Definition reverse (fuel : nat) (h : heap) (head : val) : option (heap * val) :=
  if listp head then reverse_loop fuel h Nil head else None.

(** lispcmds.c 329-356 Fnreverse; rep_NULL is the None of [nxt]. *)
Fixpoint nreverse_loop (fuel : nat) (h : heap) (res : val) (head : nat) : option (heap * val) :=
  match fuel with
  | 0 => None
  | S fuel' =>
    let nxt := match snd (mem h head) with Cell q => Some q | _ => None end in
    let h' := set_cdr h head res in
    match nxt with
    | Some q => nreverse_loop fuel' h' (Cell head) q
    | None => Some (h', Cell head)
    end
  end.
Definition nreverse (fuel : nat) (h : heap) (head : val) : option (heap * val) :=
  match head with
  | Nil => Some (h, Nil)
  | Cell p => nreverse_loop fuel h Nil p
  | Atom _ => None
  end.

(** lispcmds.c 229-235, 266-272: move the location to the end of the list *)
Fixpoint to_end (fuel : nat) (h : heap) (var : val) (l : place) : option place :=
  match fuel with
  | 0 => None
  | S fuel' => match load h var l with
               | Cell p => to_end fuel' h var (PCdr p)
               | _ => Some l
               end
  end.

(** lisp.c 2388-2405 rep_copy_list; [var] is the variable [result] *)
Fixpoint copy_loop (fuel : nat) (h : heap) (var : val) (last : place) (list : val)
  : option (heap * val) :=
  match fuel with
  | 0 => None
  | S fuel' =>
    match list with
    | Cell p =>
      let (h1, c) := cons h (fst (mem h p)) Nil in
      let (h2, var') := store h1 var last c in
      match c with
      | Cell q => copy_loop fuel' h2 var' (PCdr q) (snd (mem h2 p))
      | _ => None
      end
    | _ => Some (store h var last list)
    end
  end.
Definition copy_list (fuel : nat) (h : heap) (list : val) : option (heap * val) :=
  copy_loop fuel h Nil PVar list.

(** lispcmds.c 204-239 Fappend: [argv] is what is left of the arguments; all but
    the last are checked and copied. *)
Fixpoint append_loop (fuel : nat) (h : heap) (res : val) (res_end : place) (argv : list val)
  : option (heap * val) :=
  match argv with
  | [] => Some (h, res)
  | a :: rest =>
    let lastp := match rest with [] => true | _ => false end in
    match (if lastp then Some (h, a) else if listp a then copy_list fuel h a else None) with
    | Some (h1, c) =>
      let (h2, res') := store h1 res res_end c in
      match to_end fuel h2 res' res_end with
      | Some e => append_loop fuel h2 res' e rest
      | None => None
      end
    | None => None
    end
  end.
Definition append (fuel : nat) (h : heap) (argv : list val) := append_loop fuel h Nil PVar argv.

(** lispcmds.c 241-276 Fnconc_ *)
Fixpoint nconc_loop (fuel : nat) (h : heap) (res : val) (res_end : place) (argv : list val)
  : option (heap * val) :=
  match argv with
  | [] => Some (h, res)
  | a :: rest =>
    let lastp := match rest with [] => true | _ => false end in
    if lastp || listp a then
      let (h1, res') := store h res res_end a in
      match to_end fuel h1 res' res_end with
      | Some e => nconc_loop fuel h1 res' e rest
      | None => None
      end
    else None
  end.
Definition nconc (fuel : nat) (h : heap) (argv : list val) := nconc_loop fuel h Nil PVar argv.

(** lispcmds.c 694-736 Fdelete and Fdelq, 738-806 Fdelete_if, Fdelete_if_not:
    [del] is the test that removes an element (!rep_value_cmp, ==, a predicate
    without side effects). *)
Fixpoint delete_loop (fuel : nat) (del : val -> bool) (h : heap) (list : val) (head : place)
  : option (heap * val) :=
  match fuel with
  | 0 => None
  | S fuel' =>
    match load h list head with
    | Cell p =>
      if del (fst (mem h p)) then
        let (h', list') := store h list head (snd (mem h p)) in
        delete_loop fuel' del h' list' head
      else delete_loop fuel' del h list (PCdr p)
    | _ => Some (h, list)
    end
  end.
Definition delete_by (fuel : nat) (del : val -> bool) (h : heap) (list : val) : option (heap * val) :=
  if listp list then delete_loop fuel del h list PVar else None.
Definition delq (fuel : nat) (h : heap) (elt list : val) := delete_by fuel (val_eqb elt) h list.
Definition delete_if_not (fuel : nat) (pred : val -> bool) (h : heap) (list : val) :=
  delete_by fuel (fun x => negb (pred x)) h list.

(** lispcmds.c 580-617 Ffilter with a predicate without side effects *)
Fixpoint filter_loop (fuel : nat) (pred : val -> bool) (h : heap) (output : val) (ptr : place) (list : val)
  : option (heap * val) :=
  match fuel with
  | 0 => None
  | S fuel' =>
    match list with
    | Cell p =>
      if pred (fst (mem h p)) then
        let (h1, c) := cons h (fst (mem h p)) Nil in
        let (h2, output') := store h1 output ptr c in
        match c with
        | Cell q => filter_loop fuel' pred h2 output' (PCdr q) (snd (mem h2 p))
        | _ => None
        end
      else filter_loop fuel' pred h output ptr (snd (mem h p))
    | _ => Some (h, output)
    end
  end.
Definition filter_list (fuel : nat) (pred : val -> bool) (h : heap) (list : val) :=
  if listp list then filter_loop fuel pred h Nil PVar list else None.

(** lispcmds.c 522-555 Fmapcar with a function without side effects *)
Fixpoint mapcar_loop (fuel : nat) (f : val -> val) (h : heap) (res : val) (last : place) (list : val)
  : option (heap * val) :=
  match fuel with
  | 0 => None
  | S fuel' =>
    match list with
    | Cell p =>
      let (h1, c) := cons h Nil Nil in
      let (h2, res') := store h1 res last c in
      match c with
      | Cell q =>
        let h3 := set_car h2 q (f (fst (mem h2 p))) in
        mapcar_loop fuel' f h3 res' (PCdr q) (snd (mem h3 p))
      | _ => None
      end
    | _ => Some (h, res)
    end
  end.
Definition mapcar (fuel : nat) (f : val -> val) (h : heap) (list : val) :=
  if listp list then mapcar_loop fuel f h Nil PVar list else None.

(** lispcmds.c 1097-1107 Flength of a list (an int counter) *)
Fixpoint length_loop (fuel : nat) (h : heap) (v : val) (i : Z) : option Z :=
  match fuel with
  | 0 => None
  | S fuel' => match v with Cell p => length_loop fuel' h (snd (mem h p)) (i + 1)%Z | _ => Some i end
  end.

(** lispcmds.c 477-498 Fnthcdr, 454-475 Fnth: [i] is the C int made from the
    index, a 62-bit fixnum. *)
Definition to_int (z : Z) : Z := ((z + 2147483648) mod 4294967296 - 2147483648)%Z.
Fixpoint nthcdr_loop (i : nat) (h : heap) (v : val) : val :=
  match i with 0 => v | S i' => if consp v then nthcdr_loop i' h (cdr h v) else v end.
Definition nthcdr (h : heap) (index : Z) (v : val) : option val :=
  let i := to_int index in
  if (i <? 0)%Z then None else if listp v then Some (nthcdr_loop (Z.to_nat i) h v) else None.
Definition nth_elt (h : heap) (index : Z) (v : val) : option val :=
  option_map (car h) (nthcdr h index v).

(** lispcmds.c 500-520 Flast *)
Fixpoint last_loop (fuel : nat) (h : heap) (v : val) : option val :=
  match fuel with
  | 0 => None
  | S fuel' => if consp (cdr h v) then last_loop fuel' h (cdr h v) else Some (car h v)
  end.

(** lispcmds.c 619-692 Fmember, Fmemq, Fmemql: the first tail whose car passes
    [test] *)
Fixpoint member_loop (fuel : nat) (test : val -> bool) (h : heap) (v : val) : option val :=
  match fuel with
  | 0 => None
  | S fuel' => match v with
               | Cell p => if test (fst (mem h p)) then Some v
                           else member_loop fuel' test h (snd (mem h p))
               | _ => Some Nil
               end
  end.

(** lispcmds.c 358-452 Fassoc, Fassq, Frassoc, Frassq: the first element that
    is a cons whose [field] passes [test] *)
Fixpoint assoc_loop (fuel : nat) (test : val -> bool) (field : heap -> val -> val) (h : heap) (v : val)
  : option val :=
  match fuel with
  | 0 => None
  | S fuel' => match v with
               | Cell p =>
                 let c := fst (mem h p) in
                 if consp c && test (field h c) then Some c
                 else assoc_loop fuel' test field h (snd (mem h p))
               | _ => Some Nil
               end
  end.
