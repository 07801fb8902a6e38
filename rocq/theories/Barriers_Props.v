(* C23: continuations and dynamic-wind *)
From Coq Require Import ZArith List Bool Lia.
Import ListNotations.
From Verif Require Import Barriers_Model Barriers_Spec Barriers_Proofs Barriers_TraceProofs.
Open Scope Z_scope.

(* a root with a dynamic-wind in it that captures a continuation (0), is left, and is
   entered again from the inside of another dynamic-wind at a different address *)
Definition winds : list event :=
  [Enter 100 true false false; Enter 90 false true true; Capture; Exit; Enter 80 false true true; Enter 70 false true false].
Example C23_winds_plain : plain winds.
Proof. cbn. repeat split; lia. Qed.
Example C23_winds_honest : honest (run init winds) (Invoke 0).
Proof. cbn. intros _ b d B D. intuition subst; cbn in *; congruence. Qed.

(* Invoking a valid continuation: the barriers around the program that are not around the
   continuation are left, innermost first, then those only around the continuation are
   entered, outermost first; no function of another barrier is called.  If a closed
   barrier would be left the invocation is refused and nothing happens.
   Partial: where barriers that matter share an address the claim is false
   (C23_same_address_refuted, C23_closed_crossed_refuted).  The functions of barriers
   return normally. *)
Theorem C23_jump_partial : forall es k c, plain es -> nth_error (conts (run init es)) k = Some c -> valid c = true -> honest (run init es) (Invoke k) ->
  exists a b common, route (cur (run init es)) (chain c) a b common /\ common <> [] /\ (forall x, In x b -> closed x = false) /\
  let s := run init es in
  let s' := step s (Invoke k) in
  if existsb closed a then cur s' = cur s /\ trace s' = ORefused k :: trace s
  else cur s' = chain c /\ trace s' = rev (map OOut (filter fout a) ++ OJump k :: map OIn (filter fin (rev b))) ++ trace s.
Proof. exact jump_thm. Qed.
Print Assumptions C23_jump_partial.

Example C23_jump_case : let b := mkB 1 90 false true true in let d := mkB 2 80 false true true in
  firstn 3 (trace (step (run init winds) (Invoke 0))) = [OIn b; OJump 0; OOut d] /\ map bid (cur (step (run init winds) (Invoke 0))) = [1; 0]%nat.
Proof. split; reflexivity. Qed.

(* what is to be left and to be entered is determined *)
Theorem C23_route_unique : forall from to a b c a' b' c', route from to a b c -> route from to a' b' c' -> a = a' /\ b = b' /\ c = c'.
Proof. exact route_unique. Qed.
Print Assumptions C23_route_unique.

(* In every history a barrier with an in and an out function is entered and left in turns:
   its out function is never called twice without it having been entered in between, and
   so on.  By what has been observed exactly the barriers of the list are around the program. *)
Theorem C23_alternate_partial : forall es, plain es ->
  let s := run init es in
  (forall x o y, trace s = x ++ o :: y -> allowed y o) /\
  (forall b, In b (cur s) -> full b = true -> inside (trace s) (bid b) = true) /\
  (forall c b, In c (conts s) -> In b (chain c) -> full b = true -> ~ In b (cur s) -> inside (trace s) (bid b) = false).
Proof.
  intros es P s. destruct (inv_run es init inv_init eq_refl P) as [V B]. destruct (alt_run es init inv_init eq_refl alt_init P) as [A1 A2 A3].
  fold s in V, B, A1, A2, A3. split; [exact A1 |]. split.
  - intros b I F. apply (A2 (cur s)); auto. left; auto.
  - intros c b I J F N. destruct (inside (trace s) (bid b)) eqn:X; auto. apply (A2 (chain c)) in X; auto; [contradiction | apply chain_in; auto].
Qed.
Print Assumptions C23_alternate_partial.

Example C23_alternate_case : let es := winds ++ [Invoke 0; Capture; Exit; Invoke 1] in
  plain es /\ inside (trace (run init es)) 1 = true /\ inside (trace (run init es)) 2 = false.
Proof.
  split; [| split; reflexivity]. unfold plain, winds. cbn. repeat match goal with |- _ /\ _ => split | |- True => exact I end; try lia;
    intros _ b d B D; intuition subst; cbn in *; congruence.
Qed.

(* A continuation is valid exactly while the closed barrier it was captured in is around the
   program; invoking another one is an error that changes nothing. *)
Theorem C23_valid_partial : forall es c r, plain es -> In c (conts (run init es)) -> root (chain c) = Some r ->
  (valid c = true <-> In r (cur (run init es))).
Proof.
  intros es c r P I R. destruct (inv_run es init inv_init eq_refl P) as [V B]. split; intros H.
  - destruct (v_root _ V c I) as (q & Q & X). rewrite R in Q. injection Q as <-. auto.
  - destruct (valid c) eqn:C; auto. exfalso. refine (gone_run es init inv_init _ P c r I C R H). intros ? ? [].
Qed.
Print Assumptions C23_valid_partial.
Theorem C23_invalid : forall s k c, broken s = false -> nth_error (conts s) k = Some c -> valid c = false ->
  step s (Invoke k) = mkSt (cur s) (conts s) (next s) (OInvalid k :: trace s) false.
Proof. intros s k c B N C. unfold step, invoke. rewrite B, N, C. reflexivity. Qed.
Print Assumptions C23_invalid.

Example C23_valid_case : map valid (conts (run init (winds ++ [Exit; Exit]))) = [true] /\ map valid (conts (run init (winds ++ [Exit; Exit; Exit]))) = [false].
Proof. split; reflexivity. Qed.

(* continuation-callable-p tells whether an invocation succeeds *)
Theorem C23_callable_partial : forall es k c, plain es -> nth_error (conts (run init es)) k = Some c ->
  let s := run init es in
  let s' := step s (Invoke k) in
  if callable s c then cur s' = chain c /\ exists x y, trace s' = x ++ OJump k :: y ++ trace s
  else cur s' = cur s /\ (trace s' = ORefused k :: trace s \/ trace s' = OInvalid k :: trace s).
Proof. exact callable_thm. Qed.
Print Assumptions C23_callable_partial.

Example C23_callable_case : let c := mkC [mkB 1 90 false true true; mkB 0 100 true false false] true in
  conts (run init winds) = [c] /\ callable (run init winds) c = true /\ callable (run init (winds ++ [Enter 60 true false false])) c = false.
Proof. repeat split. Qed.

(* No undefined behaviour: a valid continuation's closed barrier is never gone *)
Theorem C23_never_broken_partial : forall es, plain es -> broken (run init es) = false.
Proof. intros es P. apply (inv_run es init inv_init eq_refl P). Qed.
Print Assumptions C23_never_broken_partial.

(* Programs that use continuations only to escape from, or to enter again from outside of all
   other barriers, are plain whatever the addresses are. *)
Theorem C23_nested : forall es, along (fun s e => fits s e /\ nested s e) init es -> plain es.
Proof. intros es. apply nested_plain, inv_init. Qed.
Print Assumptions C23_nested.

(* barrier 2 takes the address of barrier 1 but only escapes are made from it *)
Example C23_nested_case : along (fun s e => fits s e /\ nested s e) init
  [Enter 100 true false false; Capture; Enter 90 false true true; Capture; Exit; Invoke 1; Exit; Enter 90 false true true; Invoke 0].
Proof.
  cbn. repeat match goal with |- _ /\ _ => split | |- True => exact I end; try lia; intros _; [right; eexists [_] | left; eexists [_]]; reflexivity.
Qed.

(* Two dynamic-winds called one after the other in the same function have their barriers at
   the same address.  If the body of the second invokes a continuation captured in the first,
   the second's out and the first's in functions are not called. *)
Theorem C23_same_address_refuted : exists es k c, history es /\ nth_error (conts (run init es)) k = Some c /\ valid c = true /\
  exists b d r, cur (run init es) = [d; r] /\ chain c = [b; r] /\ bid b <> bid d /\ full b = true /\ full d = true /\ closed b = false /\ closed d = false /\
  trace (step (run init es) (Invoke k)) = OJump k :: trace (run init es).
Proof.
  exists [Enter 100 true false false; Enter 90 false true true; Capture; Exit; Enter 90 false true true], 0%nat, (mkC [mkB 1 90 false true true; mkB 0 100 true false false] true).
  split; [cbn; repeat split; lia |]. split; [reflexivity |]. split; [reflexivity |].
  exists (mkB 1 90 false true true), (mkB 2 90 false true true), (mkB 0 100 true false false). repeat split. cbn. discriminate.
Qed.
Print Assumptions C23_same_address_refuted.

(* A closed barrier at the address an open one once had is crossed: the invocation is not
   refused, the closed barrier is never exited, and continuations captured in it stay valid.
   One invoked later finds that the stack it needs is gone. *)
Theorem C23_closed_crossed_refuted : exists es k, history es /\ broken (run init es) = false /\ broken (step (run init es) (Invoke k)) = true /\
  exists es1 k1 r, es = es1 ++ [Invoke k1] /\ closed r = true /\ In r (cur (run init es1)) /\ ~ In r (cur (run init es)) /\
  trace (run init es) = OJump k1 :: trace (run init es1).
Proof.
  exists [Enter 100 true false false; Enter 90 false true true; Capture; Exit; Enter 90 true false false; Capture; Invoke 0], 1%nat.
  split; [cbn; repeat split; lia |]. split; [reflexivity |]. split; [reflexivity |].
  exists [Enter 100 true false false; Enter 90 false true true; Capture; Exit; Enter 90 true false false; Capture], 0%nat, (mkB 2 90 true false false).
  split; [reflexivity |]. split; [reflexivity |]. split; [cbn; auto |]. split; [cbn; intros [X | [X | []]]; discriminate | reflexivity].
Qed.
Print Assumptions C23_closed_crossed_refuted.
