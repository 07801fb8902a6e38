(** Where a form was read: /repo/src/origin.c, with the guardian
    (/repo/src/values.c 649-737) that tells it which forms are gone.

    Modelled: cons cells, their allocation, change and reclaiming.  Which cells a
    collection marks is left open: any set that is closed under pointers and that
    contains only cells the program could still reach.  The garbage collector
    runs the after-gc-hook (values.c 1046), of which origin-after-gc is a member;
    here it is an operation of its own, at any time.  Not modelled: the free list
    of items, closures (origin.c 117-118), call-with-lexical-origins. *)
From Coq Require Import ZArith List Bool Arith.
Import ListNotations.

Inductive val := Sym (n : nat) | Ptr (p : nat).

(** A file name and a line *)
Definition origin := (nat * Z)%type.

(** [used]: allocated cells.  [own]: those of them the program may hold.
    [buckets]: origin.c 49-52.  [accessible], [inaccessible]: the lists of the
    guardian. *)
Record state := mk_state {
  mem : nat -> val * val; used : nat -> bool; own : nat -> bool;
  buckets : nat -> list (nat * origin); accessible : list nat; inaccessible : list nat }.

(** origin.c 50 HASH *)
Definition hash (p : nat) : nat := (p / 8) mod 1024.

Definition is_in (l : list nat) (p : nat) : bool := existsb (Nat.eqb p) l.

(** A file that is read: whether it is a file whose lines are counted, its name,
    the present line. *)
Record stream := mk_stream { filep : bool; bogus : bool; name : nat; line_number : Z }.

(** origin.c 69-98 rep_record_origin, [on]: rep_record_origins *)
Definition record_origin (s : state) (on : bool) (form : val) (strm : stream) (start_line : Z) : state :=
  match form with
  | Sym _ => s
  | Ptr p =>
    if negb on || negb (filep strm) || bogus strm then s
    else
      let o := (name strm, if Z.ltb 0 start_line then start_line else line_number strm) in
      mk_state (mem s) (used s) (own s)
        (fun b => if b =? hash p then (p, o) :: buckets s b else buckets s b)
        (p :: accessible s) (inaccessible s)
  end.

(** origin.c 123-127: the items of a bucket *)
Fixpoint find_item (l : list (nat * origin)) (p : nat) : option origin :=
  match l with
  | [] => None
  | (q, o) :: l' => if q =? p then Some o else find_item l' p
  end.

(** origin.c 111-140 lexical-origin; [scan]: 130-137 *)
Fixpoint lexical_origin (fuel : nat) (s : state) (form : val) : option (option origin) :=
  match fuel with
  | 0 => None
  | S n =>
    match form with
    | Sym _ => Some None
    | Ptr p => match find_item (buckets s (hash p)) p with
               | Some o => Some (Some o)
               | None => scan n s form
               end
    end
  end
with scan (fuel : nat) (s : state) (form : val) : option (option origin) :=
  match fuel with
  | 0 => None
  | S n =>
    match form with
    | Sym _ => Some None
    | Ptr p => match lexical_origin n s (fst (mem s p)) with
               | None => None
               | Some (Some o) => Some (Some o)
               | Some None => scan n s (snd (mem s p))
               end
    end
  end.

(** origin.c 155-175 origin-after-gc: all that the guardian has given up *)
Definition drop_form (b : nat -> list (nat * origin)) (p : nat) : nat -> list (nat * origin) :=
  fun i => if i =? hash p then filter (fun it => negb (fst it =? p)) (b i) else b i.
Definition after_gc (s : state) : state :=
  mk_state (mem s) (used s) (own s) (fold_left drop_form (inaccessible s) (buckets s)) (accessible s) [].

(** values.c 954-1040 garbage-collect: [live] is what is marked without the
    guardian, [kept] what is marked through its list of inaccessible objects
    (694-737), which are those given up before and those that are no longer
    live. *)
Definition collect (s : state) (live kept : list nat) : state :=
  mk_state (mem s)
    (fun p => used s p && (is_in live p || is_in kept p))
    (fun p => own s p && is_in live p)
    (buckets s)
    (filter (is_in live) (accessible s))
    (rev (filter (fun p => negb (is_in live p)) (accessible s)) ++ inaccessible s).

(** What can happen *)
Inductive op :=
| Cons (p : nat) (a d : val)
| Set_ (p : nat) (a d : val)
| Record_ (on : bool) (form : val) (strm : stream) (start_line : Z)
| Collect (live kept : list nat)
| AfterGc.

Definition owned (s : state) (v : val) : bool := match v with Sym _ => true | Ptr p => own s p end.
Definition inside (l : list nat) (v : val) : bool := match v with Sym _ => true | Ptr p => is_in l p end.
Definition closed (s : state) (l : list nat) : bool :=
  forallb (fun p => inside l (fst (mem s p)) && inside l (snd (mem s p))) l.

(** One step; None for what no program, allocator or collector does: using what
    it does not hold, giving out a cell in use, marking wrongly. *)
Definition step (s : state) (o : op) : option state :=
  match o with
  | Cons p a d =>
    if used s p || negb (owned s a && owned s d) then None
    else Some (mk_state (fun q => if q =? p then (a, d) else mem s q)
                 (fun q => (q =? p) || used s q) (fun q => (q =? p) || own s q)
                 (buckets s) (accessible s) (inaccessible s))
  | Set_ p a d =>
    if own s p && owned s a && owned s d then
      Some (mk_state (fun q => if q =? p then (a, d) else mem s q) (used s) (own s)
              (buckets s) (accessible s) (inaccessible s))
    else None
  | Record_ on form strm line => if owned s form then Some (record_origin s on form strm line) else None
  | Collect live kept =>
    if closed s live && closed s kept && forallb (own s) live &&
       forallb (is_in kept) (inaccessible (collect s live kept))
    then Some (collect s live kept) else None
  | AfterGc => Some (after_gc s)
  end.

Fixpoint steps (s : state) (l : list op) : option state :=
  match l with
  | [] => Some s
  | o :: l' => match step s o with Some s' => steps s' l' | None => None end
  end.

(** origin.c 177-189 and an empty store *)
Definition start : state :=
  mk_state (fun _ => (Sym 0, Sym 0)) (fun _ => false) (fun _ => false) (fun _ => []) [] [].
