(** macroexpand and its memory of earlier expansions, /repo/src/macros.c, with
    the allocation and reclaiming of cons cells.

    Macro functions are arbitrary Lisp.  Here such a function is a program that
    reads cells, allocates cells, lets the garbage collector run and calls
    macroexpand.  The addresses that the allocator gives out and the cells that
    the collector keeps are part of the program, so that what holds for all
    programs holds for every allocator and every collection.  Not modelled:
    ENVIRONMENT as a function, autoloaded macros (macros.c 92-115), a macro in
    place of a symbol as the car of a form (84-85), the binding of
    macro-environment (117-121), interrupts. *)
From Coq Require Import List Bool Arith.
Import ListNotations.

Inductive val := Sym (n : nat) | Ptr (p : nat).
Definition val_eqb (a b : val) : bool :=
  match a, b with
  | Sym m, Sym n => m =? n
  | Ptr p, Ptr q => p =? q
  | _, _ => false
  end.

(** [mem], [used]: contents of the cons cells and which of them are allocated
    (values.c 440-530); [hist]: macros.c 43-47, a list of (form . expansion) in
    each of 256 places; [roots]: what rep_PUSHGC protects. *)
Record state := mk_state {
  mem : nat -> val * val; used : nat -> bool;
  hist : nat -> list (nat * val); roots : list val }.

(** A macro function at work *)
Inductive prog :=
| Done (v : val)
| Fail
| Read (p : nat) (k : val * val -> prog)
| New (p : nat) (a d : val) (k : val -> prog)
| Collect (keep : list nat) (k : prog)
| Expand (v : val) (k : val -> prog).

(** macros.c 41 HIST_HASH_FN of an address *)
Definition hist_hash (p : nat) : nat := (p / 16) mod 256.

(** macros.c 198-202 *)
Definition clear_history (s : state) : state := mk_state (mem s) (used s) (fun _ => []) (roots s).

(** values.c 481-507 Fcons at an unused address *)
Definition alloc (s : state) (p : nat) (a d : val) : state :=
  mk_state (fun q => if q =? p then (a, d) else mem s q) (fun q => (q =? p) || used s q) (hist s) (roots s).

(** values.c 954-1040: the kept cells must contain the roots and whatever a kept
    cell points to. *)
Definition inside (keep : list nat) (v : val) : bool :=
  match v with Sym _ => true | Ptr p => existsb (Nat.eqb p) keep end.
Definition closed (s : state) (keep : list nat) : bool :=
  forallb (inside keep) (roots s) &&
  forallb (fun p => inside keep (fst (mem s p)) && inside keep (snd (mem s p))) keep.

(** values.c 970 calls rep_macros_before_gc, macros.c 189-195 *)
Definition collect (s : state) (keep : list nat) : state :=
  let s := clear_history s in
  mk_state (mem s) (fun p => used s p && existsb (Nat.eqb p) keep) (hist s) (roots s).

(** macros.c 148-157: search the history *)
Fixpoint search (h : list (nat * val)) (p : nat) : option val :=
  match h with
  | [] => None
  | (q, v) :: h' => if q =? p then Some v else search h' p
  end.

(** macros.c 172-177 *)
Definition remember (s : state) (p : nat) (v : val) : state :=
  mk_state (mem s) (used s)
    (fun i => if i =? hist_hash p then (p, v) :: hist s i else hist s i) (roots s).

Definition push_root (s : state) (v : val) : state := mk_state (mem s) (used s) (hist s) (v :: roots s).
Definition pop_root (s : state) : state := mk_state (mem s) (used s) (hist s) (tl (roots s)).

(** A value in use; a program holds no others. *)
Definition held (s : state) (v : val) : bool :=
  match v with Sym _ => true | Ptr p => used s p end.

Section Macros.
  (** the macro function that a symbol names, if any (macros.c 74-83); the same
      throughout *)
  Variable macro : nat -> option (val -> prog).

  (** [exec]: a macro function at work.  [expand_1]: macros.c 60-124.
      [expand_loop]: 162-169, [pred] protected.  [expand]: 126-180.  None: an
      error, no more budget, or a choice that no allocator or collector makes. *)
  Fixpoint exec (n : nat) (s : state) (c : prog) : option (state * val) :=
    match n with
    | 0 => None
    | S n =>
      match c with
      | Done v => if held s v then Some (s, v) else None
      | Fail => None
      | Read p k => if used s p then exec n s (k (mem s p)) else None
      | New p a d k => if used s p || negb (held s a && held s d) then None
                       else exec n (alloc s p a d) (k (Ptr p))
      | Collect keep k => if closed s keep then exec n (collect s keep) k else None
      | Expand v k => if held s v then
                        match expand n s v with
                        | Some (s', v') => exec n s' (k v')
                        | None => None
                        end
                      else None
      end
    end
  with expand_1 (n : nat) (s : state) (form : val) : option (state * val) :=
    match n with
    | 0 => None
    | S n =>
      match form with
      | Sym _ => Some (s, form)
      | Ptr p =>
        match fst (mem s p) with
        | Ptr _ => Some (s, form)
        | Sym m => match macro m with
                   | None => Some (s, form)
                   | Some f => exec n s (f (snd (mem s p)))
                   end
        end
      end
    end
  with expand_loop (n : nat) (s : state) (pred : val) : option (state * val) :=
    match n with
    | 0 => None
    | S n =>
      match expand_1 n (push_root s pred) pred with
      | None => None
      | Some (s', form) =>
        let s' := pop_root s' in
        if val_eqb form pred then Some (s', form) else expand_loop n s' form
      end
    end
  with expand (n : nat) (s : state) (form : val) : option (state * val) :=
    match n with
    | 0 => None
    | S n =>
      match form with
      | Sym _ => Some (s, form)
      | Ptr p =>
        match search (hist s (hist_hash p)) p with
        | Some v => Some (s, v)
        | None =>
          match expand_loop n (push_root s form) form with
          | None => None
          | Some (s', v) => Some (remember (pop_root s') p v, v)
          end
        end
      end
    end.
End Macros.
