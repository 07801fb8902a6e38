(* What timers are for, said without chains and relative times. *)
From Coq Require Import ZArith List Bool Sorting.Sorted.
From Verif Require Import Timers_Model.
Import ListNotations.
Open Scope Z_scope.

(* The length in milliseconds of a period given as seconds and milliseconds. *)
Definition ms (p : Z * Z) : Z := 1000 * fst p + snd p.

(* Arguments within the documented use: no negative period, time goes forward. *)
Definition ok_op (o : op) : Prop :=
  match o with
  | OMake s m => 0 <= ms (s, m)
  | ODelete _ => True
  | OSet _ None => True
  | OSet _ (Some p) => 0 <= ms p
  end.
Definition ok_event (e : event) : Prop :=
  match e with
  | EOp dt o => 0 <= dt /\ ok_op o
  | ETick dt => 0 <= dt
  | _ => True
  end.

Definition reachable (s : st) : Prop :=
  exists es, Forall ok_event es /\ s = run init es.

(* No signal waits to be handled and no handler is running. *)
Definition quiet (s : st) : Prop := pipe s = 0%nat /\ ready s = [].

(** * When the pending timers will go off if nothing more is done *)

Fixpoint sums (base : Z) (l : list (nat * Z)) : list (nat * Z) :=
  match l with
  | [] => []
  | (i, d) :: r => (i, base + d) :: sums (base + d) r
  end.

Definition rel (t : timer) : Z := 1000 * rel_secs t + rel_msecs t.
Definition deltas (f : nat -> timer) (c : list nat) : list (nat * Z) :=
  map (fun i => (i, rel (f i))) c.

(* The time since the itimer was last started for the first timer. *)
Definition elapsed (s : st) : Z :=
  match chain s, itimer s with
  | i :: _, Some r => rel (tms s i) - r
  | _, _ => 0
  end.

(* That these really are the times at which the functions are called by an idle
   program is theorem C18_schedule. *)
Definition sched (s : st) : list (nat * Z) :=
  sums (now s - elapsed s) (deltas (tms s) (chain s)).

Fixpoint time_of (i : nat) (l : list (nat * Z)) : option Z :=
  match l with
  | [] => None
  | (j, t) :: r => if Nat.eqb j i then Some t else time_of i r
  end.

Definition shift (d : Z) (o : option Z) : option Z := option_map (fun t => t + d) o.

Definition due (limit : Z) (p : nat * Z) : bool := snd p <=? limit.
Definition later (limit : Z) (p : nat * Z) : bool := negb (snd p <=? limit).

Definition by_time (p q : nat * Z) : Prop := snd p <= snd q.

(* The timer an operation is about, when it exists, and the period it gets. *)
Definition target (s : st) (o : op) : nat :=
  match o with OMake _ _ => fresh s | ODelete i => i | OSet i _ => i end.
Definition old_period (s : st) (i : nat) : Z := ms (secs (tms s i), msecs (tms s i)).
Definition new_period (s : st) (o : op) : Z :=
  match o with
  | OMake sc m => ms (sc, m)
  | ODelete _ => 0
  | OSet i None => old_period s i
  | OSet i (Some p) => ms p
  end.

(** * Ideal timers: a list of (timer, time at which to call), in the order in
      which they were set, the time, the periods and the calls made so far *)

Record ideal := mkIdeal {
  count : nat;
  period : nat -> Z;
  waiting : list (nat * Z);
  clock : Z;
  called : list (nat * Z)
}.

Definition ideal0 : ideal := mkIdeal 0 (fun _ => 0) [] 0 [].

Definition without (i : nat) (l : list (nat * Z)) : list (nat * Z) :=
  filter (fun p => negb (Nat.eqb (fst p) i)) l.

(* A timer with a period of zero is never called. *)
Definition start (d : ideal) (i : nat) (p : Z) : ideal :=
  mkIdeal (count d) (fun j => if Nat.eqb j i then p else period d j)
          (without i (waiting d) ++ (if 0 <? p then [(i, clock d + p)] else []))
          (clock d) (called d).
Definition ideal_op (d : ideal) (o : op) : ideal :=
  match o with
  | OMake s m =>
    let d' := start d (count d) (ms (s, m)) in
    mkIdeal (S (count d)) (period d') (waiting d') (clock d') (called d')
  | ODelete i => mkIdeal (count d) (period d) (without i (waiting d)) (clock d) (called d)
  | OSet i p =>
    if Nat.ltb i (count d)
    then start d i (match p with Some p => ms p | None => period d i end)
    else d
  end.

(* Stable sort by time. *)
Fixpoint place (p : nat * Z) (l : list (nat * Z)) : list (nat * Z) :=
  match l with
  | [] => [p]
  | q :: r => if snd q <=? snd p then q :: place p r else p :: l
  end.
Definition sorted (l : list (nat * Z)) : list (nat * Z) := fold_left (fun a p => place p a) l [].

(* Time goes on until limit: what is due is called, in order of time. *)
Definition ideal_wait (d : ideal) (limit : Z) : ideal :=
  mkIdeal (count d) (period d) (filter (later limit) (waiting d)) limit
          (called d ++ sorted (filter (due limit) (waiting d))).

(* A history: some operations at one instant, then waiting until some time. *)
Definition phase := (list op * Z)%type.
Definition ideal_phase (d : ideal) (p : phase) : ideal :=
  ideal_wait (fold_left ideal_op (fst p) d) (snd p).
Definition ideal_run (ps : list phase) : ideal := fold_left ideal_phase ps ideal0.

Definition real_phase (s : st) (p : phase) : st :=
  let s := run s (map (EOp 0) (fst p)) in
  idle (S (S (length (chain s)))) s (snd p).
Definition real_run (ps : list phase) : st := fold_left real_phase ps init.

(* The histories for which the code is exact: after a wait operations are done
   only if the wait ended with the call of some timer, or nothing is waiting. *)
Fixpoint aligned (d : ideal) (ps : list phase) : Prop :=
  match ps with
  | [] => True
  | p :: r =>
    let d1 := fold_left ideal_op (fst p) d in
    let d2 := ideal_phase d p in
    Forall ok_op (fst p) /\ clock d <= snd p /\
    (r = [] \/ waiting d2 = [] \/ clock d = snd p \/ In (snd p) (map snd (waiting d1))) /\
    aligned d2 r
  end.

(** * Counting *)

Definition is_set (i : nat) (n : nat) (e : event) : bool :=
  match e with
  | EOp _ (OMake _ _) => Nat.eqb n i
  | EOp _ (OSet j _) => Nat.eqb j i
  | _ => false
  end.
(* How often timer i is set in a history starting with n timers. *)
Fixpoint times_set (i : nat) (n : nat) (es : list event) : nat :=
  match es with
  | [] => 0
  | e :: r =>
    (if is_set i n e then 1 else 0) +
    times_set i (match e with EOp _ (OMake _ _) => S n | _ => n end) r
  end.
Definition times_called (i : nat) (s : st) : nat :=
  length (filter (fun p => Nat.eqb (fst p) i) (calls s)).
Definition never_set (i : nat) (es : list event) : Prop :=
  Forall (fun e => forall dt p, e <> EOp dt (OSet i p)) es.
