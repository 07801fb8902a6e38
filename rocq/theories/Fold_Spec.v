(* What constant folding may rely on, and what it should keep. *)
From Coq Require Import String List Bool.
Import ListNotations.
From Verif Require Import Fold_Model.

Section Spec.
Variables V S : Type.
Variable is_nil : V -> bool.
Variable apply : V -> list V -> S -> option (V * S).
Variable global : sym -> S -> option V.
Variable C : comp V S.

(* A function that has no effect and whose result or error depends on
   nothing but its arguments *)
Definition pure (fv : V) : Prop :=
  forall vs, (exists v, forall s, apply fv vs s = Some (v, s)) \/ (forall s, apply fv vs s = None).

(* The program runs with the functions and constants the compiler saw, and
   the functions that are listed are as described. *)
Record right : Prop := {
  right_functions : forall f, In f constant_functions ->
    exists fv, function_value C f = Some fv /\ (forall s, global f s = Some fv) /\ pure fv;
  right_consts : forall x v s, assq x (const_env C) = Some v -> global x s = Some v;
  right_immutable : forall x v s, immutable C x = Some v -> global x s = Some v }.

(* no local variable of the form has the name of a constant of the file *)
Fixpoint unshadowed (e : form V) : Prop :=
  match e with
  | Self _ => True
  | Quote _ => True
  | Var _ => True
  | Call _ args => (fix all l := match l with [] => True | x :: r => unshadowed x /\ all r end) args
  | If c a b => unshadowed c /\ unshadowed a /\ unshadowed b
  | Let x e b => assq x (const_env C) = None /\ unshadowed e /\ unshadowed b
  | Progn a b => unshadowed a /\ unshadowed b
  | Macro b => unshadowed b
  end.

(* f, in the scope of the variables l', is a part of e in the scope of l *)
Inductive within : list sym -> form V -> list sym -> form V -> Prop :=
| w_here : forall l e, within l e l e
| w_arg : forall l f args x l' e, In x args -> within l x l' e -> within l (Call f args) l' e
| w_if1 : forall l c a b l' e, within l c l' e -> within l (If c a b) l' e
| w_if2 : forall l c a b l' e, within l a l' e -> within l (If c a b) l' e
| w_if3 : forall l c a b l' e, within l b l' e -> within l (If c a b) l' e
| w_let1 : forall l x i b l' e, within l i l' e -> within l (Let x i b) l' e
| w_let2 : forall l x i b l' e, within (x :: l) b l' e -> within l (Let x i b) l' e
| w_progn1 : forall l a b l' e, within l a l' e -> within l (Progn a b) l' e
| w_progn2 : forall l a b l' e, within l b l' e -> within l (Progn a b) l' e
| w_macro : forall l b l' e, within l b l' e -> within l (Macro b) l' e.

End Spec.
Arguments within {V}. Arguments unshadowed {V S}. Arguments right {V S}. Arguments pure {V S}.
