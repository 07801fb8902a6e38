(** What a collection should do, said with reachability in the graph of
    cells; nothing here mentions mark bits or the steps of the
    collector. *)

From Coq Require Import ZArith List Bool Arith.
Import ListNotations.
From Verif Require Import Gc_Model.

(** The values that keep other cells alive when a cell is alive: a weak
    reference does not keep its referent, a guardian does not keep what
    it guards, only what it has yet to hand out. *)
Definition strong (o : obj) : list value :=
  match o with
  | OCons a d => [a; d]
  | OVector l => l
  | OSymbol n x => [n; x]
  | OString | ONumber | OStatic => []
  | OFunarg n e s f => [n; e; s; f]
  | OOther l => l
  | OGuardian _ i => [i]
  | OWeak _ => []
  end.

Inductive reach (c : cells) (roots : list value) : loc -> Prop :=
| reach_root p : In (VPtr p) roots -> reach c roots p
| reach_step p o q :
    reach c roots p -> c p = Some o -> In (VPtr q) (strong o) -> reach c roots q.

(** A list in memory, ended by nil, with its cells and its elements. *)
Inductive list_at (c : cells) : value -> list loc -> list value -> Prop :=
| list_nil : list_at c Qnil [] []
| list_cons k x d ks xs :
    k <> nil_loc -> c k = Some (OCons x d) -> list_at c d ks xs ->
    list_at c (VPtr k) (k :: ks) (x :: xs).

(** A list in memory, ended by NULL: the free list. *)
Inductive free_at (c : cells) : value -> list loc -> Prop :=
| free_nil : free_at c VNull []
| free_cons k x d ks :
    c k = Some (OCons x d) -> free_at c d ks -> free_at c (VPtr k) (k :: ks).

(** A guardian: what it guards, and what it has yet to hand out. *)
Record guard := mkGuard {
  g_loc : loc;
  g_cells : list loc;
  guarded : list value;
  p_cells : list loc;
  pending : list value
}.

Definition describes (c : cells) (d : guard) : Prop :=
  exists a i,
    c (g_loc d) = Some (OGuardian a i) /\
    list_at c a (g_cells d) (guarded d) /\
    list_at c i (p_cells d) (pending d).

Definition all_guarded (ds : list guard) : list value := flat_map guarded ds.
Definition all_cells (ds : list guard) : list loc := flat_map g_cells ds.

(** A cell that the collector could free. *)
Definition collectable (c : cells) (p : loc) : Prop :=
  exists o, c p = Some o /\ o <> OStatic.

Definition plain (o : obj) : Prop :=
  match o with OCons _ _ | OStatic | OGuardian _ _ => False | _ => True end.

(** The function of a closure is not a fixnum. *)
Definition fn_ok (o : obj) : Prop :=
  match o with OFunarg _ _ _ (VInt _) => False | _ => True end.

(** The states between collections: every cell is accounted for, all that
    can be reached from the roots or is guarded exists, the lists of the
    guardians are their own, no fixnum is guarded. *)
Record well_formed (roots : list value) (ds : list guard) (s : state) : Prop := {
  wf_marks : forall p, mark s p = false;
  wf_guardians : map g_loc ds = guardians s;
  wf_describes : forall d, In d ds -> describes (cell s) d;
  wf_nodup : NoDup (conses s ++ others s ++ guardians s);
  wf_conses : forall p, In p (conses s) -> exists a d, cell s p = Some (OCons a d);
  wf_others : forall p, In p (others s) -> exists o, cell s p = Some o /\ plain o;
  wf_all : forall p o, cell s p = Some o ->
    o = OStatic \/ In p (conses s ++ others s ++ guardians s);
  wf_own : NoDup (all_cells ds);
  wf_private : forall k, In k (all_cells ds) -> ~ reach (cell s) (roots ++ all_guarded ds) k;
  wf_guarded : forall v, In v (all_guarded ds) -> exists p, v = VPtr p;
  wf_reach : forall p, reach (cell s) (roots ++ all_guarded ds) p ->
    exists o, cell s p = Some o /\ fn_ok o;
  wf_weak_nodup : NoDup (weak_refs s);
  wf_weak : forall w, In w (weak_refs s) <-> exists v, cell s w = Some (OWeak v);
  wf_referent : forall w v, cell s w = Some (OWeak v) ->
    match v with
    | VNull => False
    | VInt _ => True
    | VPtr q => cell s q <> None /\ ~ In q (all_cells ds)
    end;
  wf_nil : In Qnil roots /\ exists n x, cell s nil_loc = Some (OSymbol n x)
}.

(** No guardian that cannot be reached has something to hand out. *)
Definition no_lost_guardian (roots : list value) (ds : list guard) (s : state) : Prop :=
  forall d, In d ds -> reach (cell s) roots (g_loc d) \/ pending d = [].

(** A decision of reachability, leaving out the cells that are never
    collected. *)
Definition decides (roots : list value) (s : state) (live : loc -> bool) : Prop :=
  forall p, live p = true <-> reach (cell s) roots p /\ collectable (cell s) p.

Definition alive (live : loc -> bool) (v : value) : bool :=
  match v with VPtr p => live p | _ => true end.

(** What becomes of a guardian: the dead objects, last one first, are put
    before what it has yet to hand out. *)
Fixpoint pick (f : value -> bool) (ks : list loc) (xs : list value) : list loc :=
  match ks, xs with
  | k :: ks, x :: xs => if f x then k :: pick f ks xs else pick f ks xs
  | _, _ => []
  end.

Definition dead (live : loc -> bool) (v : value) : bool := negb (alive live v).

Definition after_collect (live : loc -> bool) (d : guard) : guard :=
  mkGuard (g_loc d)
    (pick (alive live) (g_cells d) (guarded d))
    (filter (alive live) (guarded d))
    (rev (pick (dead live) (g_cells d) (guarded d)) ++ p_cells d)
    (rev (filter (dead live) (guarded d)) ++ pending d).

Definition saved (live : loc -> bool) (ds : list guard) : list value :=
  filter (dead live) (all_guarded ds).

(** What must be there after a collection: what the roots reach, and what
    the guarded objects that the roots no longer reach do. *)
Definition protected (roots : list value) (ds : list guard) (s : state)
    (live : loc -> bool) (p : loc) : Prop :=
  reach (cell s) (roots ++ saved live ds) p.

(** The guardians after a collection: those that are kept. *)
Definition guards_after (live kept : loc -> bool) (ds : list guard) : list guard :=
  map (after_collect live) (rev (filter (fun d => kept (g_loc d)) ds)).

(** ** A guardian seen from outside: calls and collections. *)
Inductive event :=
| EPush (x : value)
| EPop
| ECollect (live : value -> bool).

(** The objects that the calls without argument return, in order. *)
Record watch := mkWatch {
  w_guarded : list value;
  w_pending : list value
}.

Definition event_step (w : watch) (e : event) : watch * list value :=
  match e with
  | EPush x => (mkWatch (x :: w_guarded w) (w_pending w), [])
  | EPop =>
    match w_pending w with
    | [] => (w, [])
    | x :: l => (mkWatch (w_guarded w) l, [x])
    end
  | ECollect live =>
    (mkWatch (filter live (w_guarded w))
       (rev (filter (fun v => negb (live v)) (w_guarded w)) ++ w_pending w), [])
  end.

Fixpoint events (w : watch) (es : list event) : list value :=
  match es with
  | [] => []
  | e :: es => let '(w', out) := event_step w e in out ++ events w' es
  end.

(** A push followed by a collection that finds the object dead. *)
Inductive found_dead (x : value) : list event -> Prop :=
| fd_here live es : live x = false -> found_dead x (ECollect live :: es)
| fd_later e es : found_dead x es -> found_dead x (e :: es).

Inductive pushed_then_dead (x : value) : list event -> Prop :=
| pd_here es : found_dead x es -> pushed_then_dead x (EPush x :: es)
| pd_later e es : pushed_then_dead x es -> pushed_then_dead x (e :: es).

Definition value_eq_dec (x y : value) : {x = y} + {x <> y}.
Proof. decide equality; [apply Z.eq_dec | apply Nat.eq_dec]. Defined.

(** How often an object is given to the guardian. *)
Fixpoint pushes (x : value) (es : list event) : nat :=
  match es with
  | [] => 0
  | EPush y :: es => if value_eq_dec y x then S (pushes x es) else pushes x es
  | _ :: es => pushes x es
  end.

(** The calls (cons a d) one after the other for each (a . d) of a list, the
    cells they return. *)
Inductive cons_calls : list (value * value) -> state -> list loc -> state -> Prop :=
| no_call s : cons_calls [] s [] s
| a_call a d p s s1 l ps s2 :
    cons a d s = Done (VPtr p, s1) -> cons_calls l s1 ps s2 -> cons_calls ((a, d) :: l) s (p :: ps) s2.
