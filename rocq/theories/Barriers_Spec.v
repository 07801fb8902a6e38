(* Specification of what invoking a continuation does, by the numbers of barriers. *)
From Coq Require Import ZArith List Bool.
Import ListNotations.
From Verif Require Import Barriers_Model.
Open Scope Z_scope.

(* frames are put on the stack below the ones that are there *)
Definition fits (s : st) (e : event) : Prop :=
  match e with
  | Enter p _ _ _ => match cur s with b :: _ => p < point b | [] => True end
  | _ => True
  end.
(* those up to the innermost closed one *)
Fixpoint near (l : list barrier) : list barrier :=
  match l with
  | [] => []
  | b :: r => b :: if closed b then [] else near r
  end.
(* barriers at the same address, one around the program and the other around the
   continuation it invokes, are the same barrier *)
Definition honest (s : st) (e : event) : Prop :=
  match e with
  | Invoke k =>
    match nth_error (conts s) k with
    | Some c => valid c = true -> forall b d, In b (near (cur s)) -> In d (near (chain c)) -> point b = point d -> bid b = bid d
    | None => True
    end
  | _ => True
  end.
Fixpoint along (P : st -> event -> Prop) (s : st) (es : list event) : Prop :=
  match es with
  | [] => True
  | e :: r => P s e /\ along P (step s e) r
  end.
(* the continuation invoked has only barriers that are around the program, or all of them
   and more *)
Definition nested (s : st) (e : event) : Prop :=
  match e with
  | Invoke k =>
    match nth_error (conts s) k with
    | Some c => valid c = true -> (exists a, cur s = a ++ chain c) \/ (exists b, chain c = b ++ cur s)
    | None => True
    end
  | _ => True
  end.
(* any program *)
Definition history (es : list event) : Prop := along fits init es.
(* no address is that of two barriers that matter *)
Definition plain (es : list event) : Prop := along (fun s e => fits s e /\ honest s e) init es.

(* the barriers a to be left and b to be entered on the way from one list to another *)
Definition route (from to : list barrier) (a b common : list barrier) : Prop :=
  from = a ++ common /\ to = b ++ common /\ (forall x, In x a -> ~ In x to) /\ (forall x, In x b -> ~ In x from).

(* is barrier n around the program, by what has been observed? *)
Fixpoint inside (tr : list obs) (n : nat) : bool :=
  match tr with
  | [] => false
  | OEnter b :: r | OIn b :: r => if Nat.eqb (bid b) n then true else inside r n
  | OExit b :: r | OOut b :: r => if Nat.eqb (bid b) n then false else inside r n
  | _ :: r => inside r n
  end.
(* barriers whose crossing can be observed *)
Definition full (b : barrier) : bool := closed b || fin b && fout b.
(* such barriers are entered only when outside and left only when inside *)
Definition allowed (before : list obs) (o : obs) : Prop :=
  match o with
  | OEnter b | OIn b => full b = true -> inside before (bid b) = false
  | OExit b | OOut b => full b = true -> inside before (bid b) = true
  | _ => True
  end.
