(** What autoloaded definitions are for, said of what the program did, with no table. *)
From Coq Require Import List ZArith.
Import ListNotations.
From Verif Require Import Autoload_Model.

(** the definition that was made last by the program itself *)
Inductive last_definition (s : nat) : list op -> option Z -> Prop :=
| LNone : forall ops, (forall v, ~ In (Define s v) ops) -> last_definition s ops None
| LSome : forall pre v post, (forall w, ~ In (Define s w) post) ->
    last_definition s (pre ++ Define s v :: post) (Some v).

(** what a reference must give behind what was done *)
Inductive must_give (body : nat -> list (nat * Z)) (s : nat) (ops : list op) : value -> Prop :=
| MModule : forall m v, In (Auto s m) ops -> In (s, v) (body m) -> must_give body s ops (VDef v)
| MOwn : forall v, (forall m, ~ In (Auto s m) ops) -> last_definition s ops (Some v) ->
    must_give body s ops (VDef v)
| MNone : (forall m, ~ In (Auto s m) ops) -> last_definition s ops None -> must_give body s ops VNil.

(** Modules define what they are named for and agree with each other; what they define
    is left to them by the program. *)
Record tidy (body : nat -> list (nat * Z)) (ops : list op) : Prop := mk_tidy {
  td_named : forall s m, In (Auto s m) ops -> exists v, In (s, v) (body m);
  td_agree : forall m1 m2 s v w, In (s, v) (body m1) -> In (s, w) (body m2) -> v = w;
  td_left : forall s v m w, In (Define s v) ops -> ~ In (s, w) (body m)
}.

(** A module is loaded for a reason only: a reference behind an autoload that names it. *)
Definition has_reason (ops : list op) (m : nat) : Prop :=
  exists pre s post, ops = pre ++ Ref s :: post /\ In (Auto s m) pre.
