(** What a cache of directories promises *)

From Coq Require Import ZArith List Bool.
From Verif Require Import Dircache_Model.
Import ListNotations.
Open Scope Z_scope.

(** The answer is true of a listing *)
Definition true_of (a : answer) (base : Z) (listing : list (Z * Z)) : Prop :=
  match a with
  | Found i => In (base, i) listing
  | Absent => forall i, ~ In (base, i) listing
  | Error => False
  end.
(** No reading was broken off *)
Definition unbroken (x : Z * event) : Prop := match snd x with Look _ _ b => b = None | _ => True end.
(** Does not invalidate d, nor empty the cache *)
Definition keeps (d : Z) (x : Z * event) : Prop :=
  match snd x with Own _ dirs => ~ In d dirs | Empty => False | _ => True end.
(** From w on, nobody else changes d, and commands of the session that change d
    invalidate it *)
Fixpoint orderly (d : Z) (w : world) (evs : list (Z * event)) : Prop :=
  match evs with
  | [] => True
  | x :: evs =>
      match snd x with
      | Own after dirs => In d dirs \/ after d = server w d
      | Others after => after d = server w d
      | _ => True
      end /\ orderly d (step w x) evs
  end.
(** Directories looked at in some events *)
Definition looked (evs : list (Z * event)) : list Z :=
  flat_map (fun x => match snd x with Look d _ _ => [d] | _ => [] end) evs.
Definition only_looks (evs : list (Z * event)) : Prop :=
  Forall (fun x => match snd x with Look _ _ _ => True | _ => False end) evs.
