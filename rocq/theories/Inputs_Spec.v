(** What is said about input handlers, in terms of what happened. *)

From Coq Require Import ZArith List Bool Sorting.Sorted.
From Verif Require Import Inputs_Model.
Import ListNotations.
Open Scope Z_scope.

(** The callback that is registered for a descriptor after some events. *)
Fixpoint current (l : list ev) (i : fd) : option callback :=
  match l with
  | [] => None
  | Did (Register j c) :: l => if Nat.eqb i j then Some c else current l i
  | Did (Deregister j) :: l => if Nat.eqb i j then None else current l i
  | _ :: l => current l i
  end.

(** An event that changes what is registered for a descriptor. *)
Definition touches (i : fd) (e : ev) : Prop :=
  (exists c, e = Did (Register i c)) \/ e = Did (Deregister i).

(** The descriptors called, the newest first. *)
Fixpoint called (l : list ev) : list fd :=
  match l with
  | [] => []
  | Call i _ :: l => i :: called l
  | _ :: l => called l
  end.

(** Time spent, in milliseconds. *)
Fixpoint spent (l : list ev) : Z :=
  match l with
  | [] => 0
  | Select ms :: l => ms + spent l
  | Suspend ms :: l => ms + spent l
  | _ :: l => spent l
  end.

(** The members of a set of descriptors below size, in order. *)
Definition members (size : nat) (x : fdset) : list fd := filter x (seq 0 size).
Definition card (size : nat) (x : fdset) : Z := Z.of_nat (length (members size x)).

Definition fd_op (size : nat) (o : op) : Prop :=
  match o with
  | Register i _ | Deregister i | Mark i => (i < size)%nat
  | _ => True
  end.

(** A world that names descriptors only that exist, and where select does what
    it should: it reports members of the set and their number. *)
Definition sane (size : nat) (W : world) : Prop :=
  (forall l i c, Forall (fd_op size) (react W l i c)) /\
  (forall l z, Forall (fd_op size) (fst (on_idle W l z))) /\
  (forall l k, Forall (fd_op size) (fst (periodic W l k))) /\
  (forall l, Forall (fd_op size) (others W l)) /\
  (forall l, 0 <= max_sleep W l) /\
  (forall l x ms r y, kernel W l x ms = (r, y) ->
     -1 <= r /\ (0 <= r -> r = card size y /\ forall i, y i = true -> x i = true /\ (i < size)%nat)).

(** Nothing is thrown. *)
Definition calm (W : world) : Prop :=
  (forall l i c, ~ In Throw (react W l i c)) /\ (forall l, tested W l = false) /\
  (forall l, ~ In Throw (others W l)).

(** Everything a program can do. *)
Section Reach.
  Variable W : world.
  Variable size : nat.
  Variable chunk : Z.
  Variable garbage : fdset.
  Variable ncallbacks : nat.
  Inductive step : st -> st -> Prop :=
  | step_op o s : fd_op size o -> step s (do_op o s)
  | step_turn fuel s b s' : turn W size chunk garbage ncallbacks fuel s = Some (b, s') -> step s s'
  | step_sit fuel ms s a s' : sit_for W size chunk garbage fuel ms s = Some (a, s') -> step s s'
  | step_callbacks fuel ms cs s a s' :
      accept_callbacks W size chunk garbage ncallbacks fuel ms cs s = Some (a, s') -> step s s'
  | step_fds fuel ms l s a s' :
      accept_fds W size chunk garbage ncallbacks fuel ms l s = Some (a, s') -> step s s'
  | step_poll fuel i s b s' : poll_input W size chunk garbage fuel i s = Some (b, s') -> step s s'.
  Inductive reach : st -> Prop :=
  | reach_start : reach start
  | reach_step s s' : reach s -> step s s' -> reach s'.
End Reach.

(** A number of turns of the event loop. *)
Inductive turns (W : world) (size : nat) (chunk : Z) (garbage : fdset) (n : nat) : nat -> st -> st -> Prop :=
| turns_none s : turns W size chunk garbage n 0 s s
| turns_more k s s1 fuel b s2 : turns W size chunk garbage n k s s1 ->
    turn W size chunk garbage n fuel s1 = Some (b, s2) -> turns W size chunk garbage n (S k) s s2.
