(* C19: the thread queues of src/continuations.c. *)
From Coq Require Import ZArith List Bool Permutation Sorted Lia.
Import ListNotations.
From Verif Require Import Threads_Model Threads_Spec Threads_OrderProofs Threads_EffectProofs.
Open Scope Z_scope.

(* three threads beside the default one (3), of which 1 is suspended for 5 ms and
   2 for 3 ms; in an inner root a further thread yields *)
Definition some_events : list event :=
  [EMake false; EMake false; EMake false; ESuspend (Some 2%nat) (Some 5); ESuspend (Some 3%nat) (Some 3);
   EYield; ETick 4000; EEnter; EMake false; EYield].

(* After any events the linked queues are those of the scheduler on lists, walked
   from either end. *)
Theorem C19_refines : forall es, same_state (run init es) (a_run ainit es).
Proof. exact refines. Qed.
Print Assumptions C19_refines.

Example C19_refines_case : run_queue (run init some_events) 0 = [0; 1]%nat /\ susp_queue (run init some_events) 0 = [3; 2]%nat /\
  run_queue (run init some_events) 1 = [4; 5]%nat /\ failed (run init some_events) = false.
Proof. now vm_compute. Qed.

(* Every live thread of a root in force is in exactly one of its two queues, and
   all-threads lists each once. *)
Theorem C19_one_queue : forall es r, let s := run init es in
  all_threads s r = run_queue s r ++ susp_queue s r /\ NoDup (all_threads s r) /\
  (In r (stack s) -> forall t, In t (all_threads s r) <-> live_in s r t) /\
  (forall t, In t (run_queue s r) -> susp (att (th s t)) = false) /\
  (forall t, In t (susp_queue s r) -> susp (att (th s t)) = true).
Proof. exact all_threads_ok. Qed.
Print Assumptions C19_one_queue.

Example C19_one_queue_case : In 0%nat (stack (run init some_events)) /\ all_threads (run init some_events) 0 = [0; 1; 3; 2]%nat.
Proof. vm_compute. auto. Qed.

(* Suspended threads are in the order of their wake-up times. *)
Theorem C19_sorted : forall es r, let s := run init es in
  StronglySorted (fun x y => in_order (run_at (att (th s x))) (run_at (att (th s y)))) (susp_queue s r).
Proof. exact sorted_ok. Qed.
Print Assumptions C19_sorted.

Theorem C19_order_is_time : forall p q, finite_time p -> finite_time q -> in_order p q -> micros p <= micros q.
Proof. exact order_time. Qed.
Print Assumptions C19_order_is_time.

(* The wake-up time is ms milliseconds from now. *)
Theorem C19_deadline : forall n ms, 0 <= n -> 0 < ms -> micros (deadline n ms) = n + ms * 1000 /\ finite_time (deadline n ms).
Proof. exact deadline_time. Qed.
Print Assumptions C19_deadline.

Example C19_sorted_case :
  map (fun t => run_at (att (th (run init some_events) t))) (susp_queue (run init some_events) 0) = [(0, 3000); (0, 5000)] /\
  deadline 1999999 2500 = (4, 499999).
Proof. vm_compute. auto. Qed.

(* As long as only threads of the innermost root are deleted, suspended or woken,
   the running thread is the first of the run queue. *)
Theorem C19_running_partial : forall es r, let s := run init es in all_along named_local init es -> In r (stack s) ->
  active (rt s r) = hd_error (run_queue s r) /\ (run_queue s r = [] -> susp_queue s r = []).
Proof. exact running_ok. Qed.
Print Assumptions C19_running_partial.

Example C19_running_case : all_along named_local init some_events /\ active (rt (run init some_events) 1) = Some 4%nat.
Proof. vm_compute. auto 20. Qed.

(* If besides no runnable thread is woken and no suspended one suspended then no
   assertion fails. *)
Theorem C19_no_failure_partial : forall es, all_along named_local init es -> all_along named_right init es ->
  failed (run init es) = false.
Proof. exact no_failure. Qed.
Print Assumptions C19_no_failure_partial.

Example C19_no_failure_case : all_along named_local init (some_events ++ [EThrow; EYield; EWake (Some 2%nat)]) /\
  all_along named_right init (some_events ++ [EThrow; EYield; EWake (Some 2%nat)]).
Proof. vm_compute. auto 30. Qed.

(* thread-yield: the running thread goes to the end of the run queue, those whose
   time has come follow it, the next one runs. *)
Theorem C19_yield : forall es r l x q, let s := run init es in failed s = false -> all_along named_local init es ->
  stack s = r :: l -> run_queue s r = x :: q ->
  exists woken rest, let s' := step s EYield in
    run_queue s' r = q ++ [x] ++ woken /\ susp_queue s' r = rest /\ active (rt s' r) = hd_error (q ++ [x]) /\
    Permutation (woken ++ rest) (susp_queue s r) /\
    (forall t, In t woken -> may_run s t) /\ (forall t, In t rest -> ~ may_run s t) /\ now s' = now s /\
    (forall i, i <> r -> run_queue s' i = run_queue s i /\ susp_queue s' i = susp_queue s i /\ active (rt s' i) = active (rt s i)).
Proof. exact yield_ok. Qed.
Print Assumptions C19_yield.

Example C19_yield_case : let s := run init (some_events ++ [EThrow]) in
  stack s = [0%nat] /\ run_queue s 0 = [0; 1]%nat /\ run_queue (step s EYield) 0 = [1; 0; 3]%nat /\ susp_queue (step s EYield) 0 = [2]%nat /\
  active (rt (step s EYield) 0) = Some 1%nat.
Proof. now vm_compute. Qed.

(* With no thread suspended, the run queue goes round: after as many yields as
   there are threads before it each thread runs. *)
Theorem C19_turns : forall p q es r l, let s := run init es in failed s = false -> all_along named_local init es ->
  stack s = r :: l -> run_queue s r = p ++ q -> q <> [] -> susp_queue s r = [] ->
  run_queue (run s (repeat EYield (length p))) r = q ++ p /\ active (rt (run s (repeat EYield (length p))) r) = hd_error q.
Proof. exact turns_ok. Qed.
Print Assumptions C19_turns.

Example C19_turns_case : let s := run init [EMake false; EMake false; EMake false] in
  run_queue s 0 = [1; 0; 2; 3]%nat /\ active (rt (run s [EYield; EYield]) 0) = Some 2%nat.
Proof. now vm_compute. Qed.

(** * What does not hold *)

(* Suspending the running thread of an outer root leaves it running though it is
   not in the run queue; when it returns the interpreter hangs or aborts. *)
Theorem C19_running_refuted : exists es r t, In r (stack (run init es)) /\ active (rt (run init es) r) = Some t /\
  run_queue (run init es) r = [] /\ failed (run init (es ++ [EThrow; EReturn])) = true.
Proof. exists [EList; EEnter; ESuspend (Some 0%nat) None], 0%nat, 0%nat. vm_compute. auto. Qed.
Print Assumptions C19_running_refuted.

(* Deleting the running thread of the outer root from within an inner root
   that has no threads ends the inner root, and the deleted thread goes on running. *)
Theorem C19_delete_outer_refuted : exists es t, all_along named_local init es /\ stack (run init es) = [1; 0]%nat /\
  live_in (run init es) 0 t /\
  let s := run init (es ++ [EDelete (Some t)]) in stack s = [0%nat] /\ active (rt s 0) = Some t /\ exited (att (th s t)) = true.
Proof. exists [EList; EEnter], 0%nat. vm_compute. auto 20. Qed.
Print Assumptions C19_delete_outer_refuted.

(* thread-wake on a live thread that is not suspended fails an assertion ... *)
Theorem C19_wake_runnable_refuted : exists es t, all_along named_local init (es ++ [EWake (Some t)]) /\ live_in (run init es) 0 t /\
  failed (run init es) = false /\ failed (run init (es ++ [EWake (Some t)])) = true.
Proof. exists [EMake false], 0%nat. vm_compute. auto 20. Qed.
Print Assumptions C19_wake_runnable_refuted.

(* ... thread-wake without argument too ... *)
Theorem C19_wake_self_refuted : failed (run init [EWake None]) = true.
Proof. reflexivity. Qed.
Print Assumptions C19_wake_self_refuted.

(* ... and thread-suspend on one that is suspended. *)
Theorem C19_suspend_suspended_refuted : exists es t, all_along named_local init (es ++ [ESuspend (Some t) None]) /\
  live_in (run init es) 0 t /\ failed (run init es) = false /\ failed (run init (es ++ [ESuspend (Some t) None])) = true.
Proof. exists [EMake true], 0%nat. vm_compute. auto 20. Qed.
Print Assumptions C19_suspend_suspended_refuted.

(* A thread from make-suspended-thread is made runnable by the next yield. *)
Theorem C19_made_suspended_refuted : exists es t, susp_queue (run init es) 0 = [t] /\
  poll (att (th (run init es) t)) = None /\ In t (run_queue (run init (es ++ [EYield])) 0).
Proof. exists [EMake true; ETick 1], 0%nat. vm_compute. auto 20. Qed.
Print Assumptions C19_made_suspended_refuted.
