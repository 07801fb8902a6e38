(** What untrusted code must leave alone. *)
From Coq Require Import List ZArith Bool.
Import ListNotations.
From Verif Require Import Gaol_Model.

(** x was declared by defvar in trusted code *)
Definition trusted (x : sym) (st : state) : Prop :=
  special (flag st x) = true /\ defvard (flag st x) = true /\ weak (flag st x) = false.
(** structure i has a list of special variables without x *)
Definition outside (x : sym) (i : id) (st : state) : Prop := exists l, env st i = Only l /\ ~ In x l.
Definition restricted (i : id) (st : state) : Prop := exists l, env st i = Only l.
(** The dynamic bindings of x, innermost first *)
Definition bindings_of (x : sym) (st : state) : list (sym * option Z) := filter (fun b => Nat.eqb (fst b) x) (bound st).
(** Nothing of x has changed *)
Definition same_variable (x : sym) (st st' : state) : Prop :=
  flag st' x = flag st x /\ specials st' x = specials st x /\ bindings_of x st' = bindings_of x st /\ plist st' x = plist st x.

(** The program runs in no structures but those of [ok] *)
Fixpoint confined (ok : id -> Prop) (p : prog) : Prop :=
  match p with
  | Return _ => True
  | Do _ k => forall a, confined ok (k a)
  | Let _ _ body k => confined ok body /\ forall a, confined ok (k a)
  | Call j body k => ok j /\ confined ok body /\ forall a, confined ok (k a)
  end.
(** It does not bind x *)
Fixpoint no_let (x : sym) (p : prog) : Prop :=
  match p with
  | Return _ => True
  | Do _ k => forall a, no_let x (k a)
  | Let y _ body k => y <> x /\ no_let x body /\ forall a, no_let x (k a)
  | Call _ body k => no_let x body /\ forall a, no_let x (k a)
  end.

(** Two states that differ in the values of x only, x being bound in both *)
Definition same_but (x : sym) (b1 b2 : sym * option Z) : Prop :=
  fst b1 = fst b2 /\ (fst b1 <> x -> snd b1 = snd b2) /\ (fst b1 = x -> exists v w, snd b1 = Some v /\ snd b2 = Some w).
Definition alike (x : sym) (s1 s2 : state) : Prop :=
  (forall y, flag s1 y = flag s2 y) /\
  (forall y, y <> x -> specials s1 y = specials s2 y) /\
  (exists v w, specials s1 x = Some v /\ specials s2 x = Some w) /\
  Forall2 (same_but x) (bound s1) (bound s2) /\
  (forall i y, own s1 i y = own s2 i y) /\ (forall i, env s1 i = env s2 i) /\ (forall y, plist s1 y = plist s2 y).
