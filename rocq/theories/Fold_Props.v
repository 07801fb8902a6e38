(* C77: constant folding and constants *)
From Coq Require Import String List Bool Arith.
Import ListNotations.
From Verif Require Import Fold_Model Fold_Spec Fold_Proofs.
Open Scope string_scope.
Open Scope list_scope.

(* The form that is compiled means the same as the form of the program, in
   every environment and state: the same value or error and the same
   effects. *)
Theorem C77_compiled_form : forall V S is_nil apply global (C : comp V S) e e' env s,
  right apply global C -> unshadowed C e -> (forall x, In x (map fst env) -> assq x (const_env C) = None) ->
  compile apply C (map fst env) e = Some e' ->
  eval is_nil apply global env s e' = eval is_nil apply global env s e.
Proof.
  intros V S is_nil apply global C e e' env s R U L K.
  eapply compile_ok; eauto.
Qed.
Print Assumptions C77_compiled_form.

(* When the compiler stops with an error then the form has a call, in
   some scope, that is an error whenever it is evaluated. *)
Theorem C77_compile_error : forall V S is_nil apply global (C : comp V S) e locals,
  right apply global C -> unshadowed C e -> (forall x, In x locals -> assq x (const_env C) = None) ->
  compile apply C locals e = None ->
  exists l f args, within locals e l (Call f args) /\ In f constant_functions /\
    forall env s, map fst env = l -> eval is_nil apply global env s (Call f args) = None.
Proof.
  intros V S is_nil apply global C e locals R U L K.
  eapply compile_fails; eauto.
Qed.
Print Assumptions C77_compile_error.

(* A small world: the state counts calls of tick, which is not listed, and
   holds the match data *)
Inductive val := Nil | N (n : nat) | F (f : sym).
Definition nilp (v : val) : bool := match v with Nil => true | _ => false end.
Definition call1 (fv : val) (vs : list val) (s : nat) : option (val * nat) :=
  match fv with
  | F f =>
      if String.eqb f "+" then match vs with [N a; N b] => Some (N (a + b), s) | _ => None end
      else if String.eqb f "aref" then None
      else if String.eqb f "tick" then Some (N s, Datatypes.S s)
      else Some (Nil, s)
  | _ => None
  end.
Definition glob1 (x : sym) (s : nat) : option val :=
  if String.eqb x "limit" then Some (N 10) else if String.eqb x "pi" then Some (N 3) else Some (F x).
Definition C1 : comp val nat :=
  mkc [("limit", N 10)] (fun x => if String.eqb x "pi" then Some (N 3) else None) (fun f => Some (F f)) 0.

Lemma in_constant_functions f : In f constant_functions -> f <> "limit" /\ f <> "pi" /\ f <> "tick".
Proof.
  intro H. repeat split; intros ->; unfold constant_functions in H; cbn in H;
    repeat (destruct H as [H|H]; [discriminate H|]); exact H.
Qed.

Example right1 : right call1 glob1 C1.
Proof.
  constructor.
  - intros f H. apply in_constant_functions in H. destruct H as (H1 & H2 & H3).
    exists (F f). split; auto. split.
    + intro s. unfold glob1. rewrite <- String.eqb_neq in H1, H2. rewrite H1, H2. auto.
    + intro vs. unfold call1. rewrite <- String.eqb_neq in H3. rewrite H3.
      destruct (String.eqb f "+").
      * destruct vs as [|[|a|] [|[|b|] [|]]]; eauto.
      * destruct (String.eqb f "aref"); eauto.
  - intros x v s H. cbn [C1 const_env assq] in H. unfold glob1. rewrite String.eqb_sym.
    destruct (String.eqb "limit" x); congruence.
  - intros x v s H. cbn [C1 immutable] in H. unfold glob1. destruct (String.eqb_spec x "limit").
    + subst. discriminate.
    + destruct (String.eqb x "pi"); congruence.
Qed.

(* (let ((a (tick))) (+ a (+ limit (+ pi 1)))): the inner sum is folded, the outer one and the call of tick are kept *)
Definition e1 : form val :=
  Let "a" (Call "tick" []) (Call "+" [Var "a"; Macro (Call "+" [Var "limit"; Call "+" [Var "pi"; Self (N 1)]])]).
Example e1_compiled :
  compile call1 C1 [] e1 = Some (Let "a" (Call "tick" []) (Call "+" [Var "a"; Quote (N 14)])) /\
  unshadowed C1 e1 /\ eval nilp call1 glob1 [] 5 e1 = Some (N 19, 6).
Proof. repeat split. Qed.

(* A call that is an error stops the compiler even where the program would
   never evaluate it. *)
Theorem C77_dead_code_refuted : exists V S is_nil apply global (C : comp V S) e,
  right apply global C /\ unshadowed C e /\ compile apply C [] e = None /\
  forall s, exists v, eval is_nil apply global [] s e = Some (v, s).
Proof.
  exists val, nat, nilp, call1, glob1, C1, (If (Quote Nil) (Call "aref" [Self (N 1)]) (Self (N 2))).
  split; [apply right1|]. repeat split. intro s. exists (N 2). reflexivity.
Qed.
Print Assumptions C77_dead_code_refuted.

(* A local variable, or a parameter, that has the name of a constant
   defined in the file is compiled to the constant. *)
Theorem C77_shadowed_constant_refuted : exists V S is_nil apply global (C : comp V S) e e',
  right apply global C /\ compile apply C [] e = Some e' /\
  forall s, eval is_nil apply global [] s e' <> eval is_nil apply global [] s e.
Proof.
  exists val, nat, nilp, call1, glob1, C1, (Let "limit" (Self (N 3)) (Var "limit")), (Let "limit" (Self (N 3)) (Quote (N 10))).
  split; [apply right1|]. split; [reflexivity|]. intros s H. cbn in H. discriminate.
Qed.
Print Assumptions C77_shadowed_constant_refuted.

(* string-match is listed, and it is not as the list says: it sets the match
   data, here the state. A folded call does not. *)
Definition call2 (fv : val) (vs : list val) (s : nat) : option (val * nat) :=
  match fv with
  | F f =>
      if String.eqb f "string-match" then match vs with [N re; N str] => Some (N re, str) | _ => None end
      else if String.eqb f "match-start" then Some (N s, s)
      else Some (Nil, s)
  | _ => None
  end.
Definition C2 : comp val nat := mkc [] (fun _ => None) (fun f => Some (F f)) 0.
Theorem C77_string_match_refuted : exists e e',
  In "string-match" constant_functions /\
  compile call2 C2 [] e = Some e' /\
  eval nilp call2 (fun x _ => Some (F x)) [] 7 e = Some (N 5, 5) /\
  eval nilp call2 (fun x _ => Some (F x)) [] 7 e' = Some (N 7, 7).
Proof.
  exists (Progn (Call "string-match" [Self (N 1); Self (N 5)]) (Call "match-start" [])),
         (Progn (Quote (N 1)) (Call "match-start" [])).
  split; [cbn; tauto|]. repeat split.
Qed.
Print Assumptions C77_string_match_refuted.

(* concat is listed; a call makes a new string, that aset may change. A folded
   call gives the same string every time. The state is the number of
   strings made so far, a string is its number. *)
Definition call3 (fv : val) (vs : list val) (s : nat) : option (val * nat) :=
  match fv with
  | F f => if String.eqb f "concat" then Some (N s, Datatypes.S s) else Some (Nil, s)
  | _ => None
  end.
Theorem C77_concat_refuted : exists e e',
  In "concat" constant_functions /\
  compile call3 C2 [] e = Some e' /\
  (forall s1 s2 v1 v2 t1 t2, s1 <> s2 ->
     eval nilp call3 (fun x _ => Some (F x)) [] s1 e = Some (v1, t1) ->
     eval nilp call3 (fun x _ => Some (F x)) [] s2 e = Some (v2, t2) -> v1 <> v2) /\
  exists v, forall s, eval nilp call3 (fun x _ => Some (F x)) [] s e' = Some (v, s).
Proof.
  exists (Call "concat" [Self (N 1); Self (N 5)]), (Quote (N 0)).
  split; [cbn; tauto|]. split; [reflexivity|]. split.
  - cbn. intros. congruence.
  - exists (N 0). reflexivity.
Qed.
Print Assumptions C77_concat_refuted.
