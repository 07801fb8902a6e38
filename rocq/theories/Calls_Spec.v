(** What is said about calls and their answers, from what can be observed. *)

From Coq Require Import List Bool Arith.
From Verif Require Import Calls_Model.
Import ListNotations.

Section Spec.
  Variable V : Type.

  (** The calls made with their callbacks, and the callbacks called, from a log *)
  Definition noted (l : list (event V)) : list (nat * nat) :=
    flat_map (fun e => match e with Noted _ id cb => [(id, cb)] | _ => [] end) l.
  Definition called (l : list (event V)) : list (nat * nat * (bool * V)) :=
    flat_map (fun e => match e with Called _ id cb ok v => [(id, cb, (ok, v))] | _ => [] end) l.
  Definition called_ids (l : list (event V)) : list nat := map (fun x => fst (fst x)) (called l).
  (** The messages written, the newest first *)
  Definition wrote (l : list (event V)) : list (msg V) :=
    flat_map (fun e => match e with Wrote _ _ m => [m] | _ => [] end) l.

  (** Nothing is under way and nothing at work. *)
  Definition quiet (s : sys V) : Prop := up V s = [] /\ work V s = [] /\ down V s = [].
  (** Moves other than new calls *)
  Definition no_new (mv : move V) : Prop := match mv with MvCall _ _ _ _ | MvOneway _ _ _ => False | _ => True end.
End Spec.
