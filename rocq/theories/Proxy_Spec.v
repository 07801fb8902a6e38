(** What was sent, and what calls one after the other give *)

From Coq Require Import List Bool Arith.
From Verif Require Import Proxy_Model.
Import ListNotations.

Section Spec.
Context {S A V E : Type}.
Variable f : S -> A -> S * (V + E).

(** The messages sent; calls have the numbers n, n + 1, ... *)
Fixpoint sent (n : nat) (l : list (event A)) : list (msg A) :=
  match l with
  | [] => []
  | Call a :: l => Sync n a :: sent (1 + n) l
  | Cast a :: l => Async a :: sent n l
  | _ :: l => sent n l
  end.
Definition arg (m : msg A) : A := match m with Sync _ a => a | Async a => a end.
(** The state after calls one after the other *)
Fixpoint after (o : S) (l : list (msg A)) : S :=
  match l with [] => o | m :: l => after (fst (f o (arg m))) l end.
(** Their answers, of the synchronous ones *)
Fixpoint answers (o : S) (l : list (msg A)) : list (nat * (V + E)) :=
  match l with
  | [] => []
  | Sync p a :: l => (p, snd (f o a)) :: answers (fst (f o a)) l
  | Async a :: l => answers (fst (f o a)) l
  end.
(** No asynchronous one raises an exception *)
Fixpoint calm (o : S) (l : list (msg A)) : Prop :=
  match l with
  | [] => True
  | Sync _ a :: l => calm (fst (f o a)) l
  | Async a :: l => (exists v, snd (f o a) = inl v) /\ calm (fst (f o a)) l
  end.
End Spec.
