(** The garbage collector: src/values.c, src/weak-refs.c, src/tuples.c.

    What is modelled: rep_mark_value and the macros it uses, the marking
    of the roots, run_guardians, rep_scan_weak_refs, cons_sweep, the
    sweeps that walk a chain of cells (vector_sweep, sweep_guardians),
    the primitives of guardians and weak references, and the counting
    that string_sweep does.

    What is not: the other sweeps that keep a free list inside blocks
    (strings, tuples, funargs, numbers, symbols) are represented by
    [chain_sweep], a freed cell being one without contents.  Cells built
    into the program image by dumping (rep_dumped_cons_start, static
    vectors and funargs) do not exist: dumping is compiled only under
    ENABLE_BROKEN_DUMPING.  Finding all the roots, which Fgarbage_collect
    does from several tables, is a list given to [collect]. *)

From Coq Require Import ZArith List Bool Arith.
Import ListNotations.
Local Open Scope nat_scope.

(** ** Values and cells.

    rep_lisp.h 119-186: a repv is the null pointer, a fixnum, or a
    pointer to a cell. *)
Definition loc := nat.

Inductive value :=
| VNull
| VInt (n : Z)
| VPtr (p : loc).

(** Qnil is the cell of the symbol nil; it is given location 0. *)
Definition nil_loc : loc := 0.
Definition Qnil : value := VPtr nil_loc.

(** The kinds of cells that rep_mark_value tells apart
    (values.c 822-925).  A user allocated type has a mark function that
    does rep_MARKVAL on some components: [OOther] has those components
    in their order.  Guardians and weak references are such types, with
    their own constructors because the collector treats them specially.
    [OStatic] is a subr, a special form or a string defined by DEFSTRING
    (rep_lisp.h 393-400), none of which is ever marked. *)
Inductive obj :=
| OCons (car cdr : value)
| OVector (items : list value)
| OSymbol (name next : value)
| OString
| ONumber
| OFunarg (name env structure fn : value)
| OStatic
| OOther (parts : list value)
| OGuardian (accessible inaccessible : value)
| OWeak (referent : value).

(** The contents of the cells and the mark bits.  In memory the bit is a
    bit of the car or, for a cons, of the cdr (rep_lisp.h 671-683); here
    it is kept apart.  rep_GCDR is then just the cdr. *)
Definition cells := loc -> option obj.
Definition marks := loc -> bool.

Definition set (m : marks) (p : loc) : marks := fun q => if q =? p then true else m q.
Definition clear (m : marks) (p : loc) : marks := fun q => if q =? p then false else m q.
Definition put (c : cells) (p : loc) (o : option obj) : cells :=
  fun q => if q =? p then o else c q.

(** The outcome of a computation on memory: [Wild] is a read through a
    pointer that points to no cell, [Fuel] is not a result (the
    theorems show that enough fuel always exists). *)
Inductive res (A : Type) :=
| Done (a : A)
| Wild
| Fuel.
Arguments Done {A} a.
Arguments Wild {A}.
Arguments Fuel {A}.

Definition bind {A B} (r : res A) (f : A -> res B) : res B :=
  match r with Done a => f a | Wild => Wild | Fuel => Fuel end.

(** rep_GC_MARKEDP, rep_lisp.h 682-683: reads the car of the cell, also
    when the value is a fixnum or null. *)
Definition markedp (c : cells) (m : marks) (v : value) : res bool :=
  match v with
  | VPtr p => match c p with Some _ => Done (m p) | None => Wild end
  | _ => Wild
  end.

(** rep_MARKVAL, rep_lisp.h 704-708, and the equal test before each
    [goto again] (values.c 842, 884). *)
Definition markval (c : cells) (rec : value -> marks -> res marks) (v : value) (m : marks) :=
  match v with
  | VNull | VInt _ => Done m
  | VPtr _ => bind (markedp c m v) (fun b => if b then Done m else rec v m)
  end.

(** The test at values.c 906, before marking the function of a funarg,
    has no rep_INTP. *)
Definition markval_fun (c : cells) (rec : value -> marks -> res marks) (v : value) (m : marks) :=
  match v with
  | VNull => Done m
  | _ => bind (markedp c m v) (fun b => if b then Done m else rec v m)
  end.

Fixpoint markvals (c : cells) (rec : value -> marks -> res marks) (vs : list value)
    (m : marks) : res marks :=
  match vs with
  | [] => Done m
  | v :: vs => bind (markval c rec v m) (markvals c rec vs)
  end.

Definition is_nil (v : value) : bool :=
  match v with VPtr p => p =? nil_loc | _ => false end.

(** rep_mark_value, values.c 812-926. *)
Fixpoint mark_value (fuel : nat) (c : cells) (v : value) (m : marks) : res marks :=
  match fuel with
  | O => Fuel
  | S fuel =>
    let rec := mark_value fuel c in
    match v with
    | VNull => Wild
    | VInt _ => Done m
    | VPtr p =>
      match c p with
      | None => Wild
      | Some (OCons a d) =>
        if is_nil d then markval c rec a (set m p)
        else bind (markval c rec a (set m p)) (markval c rec d)
      | Some (OVector l) => markvals c rec l (set m p)
      | Some (OSymbol n x) => bind (markval c rec n (set m p)) (markval c rec x)
      | Some OString => Done (set m p)
      | Some ONumber => Done (set m p)
      | Some (OFunarg n e s f) =>
        bind (markval c rec n (set m p)) (fun m =>
        bind (markval c rec e m) (fun m =>
        bind (markval c rec s m) (markval_fun c rec f)))
      | Some OStatic => Done m
      | Some (OOther l) => markvals c rec l (set m p)
      | Some (OGuardian _ i) => markval c rec i (set m p)  (* mark_guardian, 686-691 *)
      | Some (OWeak _) => Done (set m p)                   (* no mark function, weak-refs.c 99-101 *)
      end
    end
  end.

(** ** The state of the storage.

    [conses] are the cells of all the blocks in the order cons_sweep
    visits them, [others] the dynamically allocated cells that are not
    conses or guardians, [guardians] and [weak_refs] the two chains
    (values.c 649, weak-refs.c 32), [freelist] is rep_cons_freelist. *)
Record state := mkState {
  cell : cells;
  mark : marks;
  conses : list loc;
  freelist : value;
  used_cons : nat;
  others : list loc;
  guardians : list loc;
  weak_refs : list loc
}.

(** ** run_guardians, values.c 693-739.

    [slot] is what [ptr] points to: the accessible field of a guardian
    or the cdr of a cell. *)
Inductive slot :=
| SAcc (g : loc)
| SCdr (k : loc).

Definition read_slot (c : cells) (s : slot) : res value :=
  match s with
  | SAcc g => match c g with Some (OGuardian a _) => Done a | _ => Wild end
  | SCdr k => match c k with Some (OCons _ d) => Done d | _ => Wild end
  end.

Definition write_slot (c : cells) (s : slot) (v : value) : cells :=
  match s with
  | SAcc g => match c g with Some (OGuardian _ i) => put c g (Some (OGuardian v i)) | _ => c end
  | SCdr k => match c k with Some (OCons a _) => put c k (Some (OCons a v)) | _ => c end
  end.

(** The loop at 705-731 for one guardian. *)
Fixpoint scan_accessible (fuel : nat) (c : cells) (m : marks) (g : loc) (ptr : slot)
    (changed : list value) : res (cells * marks * list value) :=
  match fuel with
  | O => Fuel
  | S fuel =>
    bind (read_slot c ptr) (fun cur =>
    if is_nil cur then Done (c, m, changed)
    else
      match cur with
      | VPtr k =>
        match c k with
        | Some (OCons x d) =>
          bind (markedp c m x) (fun b =>
          if b then scan_accessible fuel c (set m k) g (SCdr k) changed
          else
            let c := write_slot c ptr d in
            match c g with
            | Some (OGuardian a i) =>
              let c := put c k (Some (OCons x i)) in
              let c := put c g (Some (OGuardian a (VPtr k))) in
              scan_accessible fuel c (set m k) g ptr (x :: changed)
            | _ => Wild
            end)
        | _ => Wild
        end
      | _ => Wild
      end)
  end.

(** The loop at 703-732 over the chain. *)
Fixpoint scan_guardians (fuel : nat) (gs : list loc) (c : cells) (m : marks)
    (changed : list value) : res (cells * marks * list value) :=
  match gs with
  | [] => Done (c, m, changed)
  | g :: gs =>
    bind (scan_accessible fuel c m g (SAcc g) changed) (fun r =>
    let '(c, m, changed) := r in scan_guardians fuel gs c m changed)
  end.

Definition run_guardians (fuel : nat) (s : state) : res state :=
  bind (scan_guardians fuel (guardians s) (cell s) (mark s) []) (fun r =>
  let '(c, m, changed) := r in
  bind (markvals c (mark_value fuel c) changed m) (fun m =>
  Done (mkState c m (conses s) (freelist s) (used_cons s) (others s) (guardians s)
          (weak_refs s)))).

(** ** rep_scan_weak_refs, weak-refs.c 61-84: the loop, with the new
    chain built by pushing at the front. *)
Fixpoint scan_weak (refs : list loc) (c : cells) (m : marks) (acc : list loc)
  : res (cells * list loc) :=
  match refs with
  | [] => Done (c, acc)
  | w :: refs =>
    match c w with
    | Some (OWeak v) =>
      if m w then
        match v with
        | VInt _ => scan_weak refs c m (w :: acc)
        | _ =>
          bind (markedp c m v) (fun b =>
          scan_weak refs (if b then c else put c w (Some (OWeak Qnil))) m (w :: acc))
        end
      else scan_weak refs c m acc
    | _ => Wild
    end
  end.

(** ** cons_sweep, values.c 516-543. *)
Fixpoint cons_sweep (ps : list loc) (c : cells) (m : marks) (free : value) (used : nat)
  : cells * marks * value * nat :=
  match ps with
  | [] => (c, m, free, used)
  | p :: ps =>
    if m p then cons_sweep ps c (clear m p) free (S used)
    else
      let a := match c p with Some (OCons a _) => a | _ => VNull end in
      cons_sweep ps (put c p (Some (OCons a free))) m (VPtr p) used
  end.

(** vector_sweep, values.c 610-632, and sweep_guardians, 741-760: the
    chain is rebuilt in reverse without the unmarked cells, which are
    freed. *)
Fixpoint chain_sweep (ps : list loc) (c : cells) (m : marks) (chain : list loc)
  : cells * marks * list loc :=
  match ps with
  | [] => (c, m, chain)
  | p :: ps =>
    if m p then chain_sweep ps c (clear m p) (p :: chain)
    else chain_sweep ps (put c p None) m chain
  end.

(** ** Fgarbage_collect, values.c 950-1052, without the statistics and
    the hook.  [roots] are the values on which it does rep_MARKVAL. *)
Definition collect (fuel : nat) (roots : list value) (s : state) : res state :=
  bind (markvals (cell s) (mark_value fuel (cell s)) roots (mark s)) (fun m =>
  bind (run_guardians fuel
          (mkState (cell s) m (conses s) (freelist s) (used_cons s) (others s)
             (guardians s) (weak_refs s))) (fun s =>
  bind (scan_weak (weak_refs s) (cell s) (mark s) []) (fun r =>
  let '(c, ws) := r in
  let '(c, m, os) := chain_sweep (others s) c (mark s) [] in
  let '(c, m, free, used) := cons_sweep (conses s) c m VNull 0 in
  let '(c, m, gs) := chain_sweep (guardians s) c m [] in
  Done (mkState c m (conses s) free used os gs ws)))).

(** Fcons, values.c 489-507, when the free list is not empty. *)
Definition cons (a d : value) (s : state) : res (value * state) :=
  match freelist s with
  | VPtr p =>
    match cell s p with
    | Some (OCons _ next) =>
      Done (VPtr p,
            mkState (put (cell s) p (Some (OCons a d))) (mark s) (conses s) next
              (S (used_cons s)) (others s) (guardians s) (weak_refs s))
    | _ => Wild
    end
  | _ => Fuel
  end.

(** Fprimitive_guardian_push and Fprimitive_guardian_pop, values.c
    664-684. *)
Definition guardian_push (g : loc) (x : value) (s : state) : res state :=
  match cell s g with
  | Some (OGuardian a i) =>
    bind (cons x a s) (fun r =>
    let '(k, s) := r in
    Done (mkState (put (cell s) g (Some (OGuardian k i))) (mark s) (conses s) (freelist s)
            (used_cons s) (others s) (guardians s) (weak_refs s)))
  | _ => Wild
  end.

Definition guardian_pop (g : loc) (s : state) : res (value * state) :=
  match cell s g with
  | Some (OGuardian a i) =>
    if is_nil i then Done (Qnil, s)
    else
      match i with
      | VPtr k =>
        match cell s k with
        | Some (OCons x d) =>
          Done (x, mkState (put (cell s) g (Some (OGuardian a d))) (mark s) (conses s)
                     (freelist s) (used_cons s) (others s) (guardians s) (weak_refs s))
        | _ => Wild
        end
      | _ => Wild
      end
  | _ => Wild
  end.

(** ** The counting in string_sweep, values.c 339-393.

    A block is the list of its cells, [true] for a marked string; a
    free or unmarked cell is [false].  The result is used_strings and
    the number of blocks that are kept. *)
Definition block_count (b : list bool) : nat := length (filter (fun x => x) b).

Fixpoint string_sweep (blocks : list (list bool)) (used kept : nat) : nat * nat :=
  match blocks with
  | [] => (used, kept)
  | b :: blocks =>
    let newused := block_count b in
    if newused =? 0 then string_sweep blocks used kept
    else if existsb negb b then string_sweep blocks (used + newused) (S kept)
    else string_sweep blocks used (S kept)
  end.
