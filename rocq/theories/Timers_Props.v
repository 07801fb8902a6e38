(* C18: timers. *)
From Coq Require Import ZArith List Bool Lia Sorting.Sorted Permutation.
From Verif Require Import Timers_Model Timers_Spec Timers_RunProofs.
Import ListNotations.
Open Scope Z_scope.

(** The assertion in the signal handler never fails. *)
Theorem C18_no_assertion_failure : forall s, reachable s -> failed s = false.
Proof. exact no_assert. Qed.
Print Assumptions C18_no_assertion_failure.

(** From any state in which nothing is being handled: the pending timers, in the
    order of the chain, have non-decreasing times, and an idle program calls
    exactly those whose time has come by the limit, each once, at its time and in
    this order; the others keep their times. *)
Theorem C18_schedule : forall s limit, reachable s -> quiet s -> now s <= limit ->
  let s' := idle (S (S (length (chain s)))) s limit in
  StronglySorted by_time (sched s) /\ map fst (sched s) = chain s /\
  calls s' = calls s ++ filter (due limit) (sched s) /\
  sched s' = filter (later limit) (sched s) /\ now s' = limit /\ quiet s'.
Proof. exact schedule. Qed.
Print Assumptions C18_schedule.

(** The effect of make-timer, set-timer and delete-timer on the times of all
    timers: the others all move by d and the timer itself is elapsed - d too
    early, where d is zero or the time elapsed since the itimer was last
    started.  The full statement wants d = 0 and nothing too early; that holds
    if no time has elapsed, and is false otherwise (see below). *)
Theorem C18_operation_partial : forall s o, reachable s -> quiet s -> ok_op o ->
  (target s o < fresh (do_op s o))%nat ->
  let s' := step s (EOp 0 o) in
  quiet s' /\ now s' = now s /\ calls s' = calls s /\ 0 <= elapsed s /\
  exists d, (d = 0 \/ d = elapsed s) /\
    (forall j, j <> target s o -> time_of j (sched s') = shift d (time_of j (sched s))) /\
    time_of (target s o) (sched s') =
      (if 0 <? new_period s o then Some (now s + new_period s o - (elapsed s - d)) else None).
Proof. exact operation. Qed.
Print Assumptions C18_operation_partial.

(** Histories in which operations are done only at times at which some timer is
    called or none is waiting behave like ideal timers. *)
Theorem C18_history_partial : forall ps, aligned ideal0 ps ->
  calls (real_run ps) = called (ideal_run ps) /\ now (real_run ps) = clock (ideal_run ps) /\
  sched (real_run ps) = sorted (waiting (ideal_run ps)).
Proof. exact history. Qed.
Print Assumptions C18_history_partial.

(** What the sorting in the specification means: same timers, by time, timers set
    for the same time in the order in which they were set. *)
Theorem C18_sorted_meaning : forall l, Permutation l (sorted l) /\ StronglySorted by_time (sorted l) /\
  forall t, filter (fun p => snd p =? t) (sorted l) = filter (fun p => snd p =? t) l.
Proof. exact sorted_spec. Qed.
Print Assumptions C18_sorted_meaning.

(** In every history a timer is called at most once for each time it is set. *)
Theorem C18_once_per_set : forall es i, Forall ok_event es ->
  (times_called i (run init es) <= times_set i 0 es)%nat.
Proof. exact once_per_set. Qed.
Print Assumptions C18_once_per_set.

(** After delete-timer a timer is not called until it is set again, even if it has
    fired already and its call is due. *)
Theorem C18_deleted_silent : forall es1 dt i es2,
  Forall ok_event (es1 ++ EOp dt (ODelete i) :: es2) -> never_set i es2 ->
  let s0 := run init es1 in
  (i < fresh s0)%nat ->
  let s := step s0 (EOp dt (ODelete i)) in
  times_called i (run s es2) = times_called i s.
Proof. exact deleted_silent. Qed.
Print Assumptions C18_deleted_silent.

(** * Findings *)

(** Deleting the first timer 0.9 s after it was set for 1 s delays another timer,
    set for 2 s, by 0.9 s. *)
Theorem C18_delete_delays_refuted : exists es, Forall ok_event es /\
  let s := run init es in
  quiet s /\ time_of 1 (sched s) = Some 2000 /\
  time_of 1 (sched (step s (EOp 0 (ODelete 0)))) = Some 2900 /\
  calls (idle 9 (step s (EOp 0 (ODelete 0))) 10000) = [(1%nat, 2900)].
Proof.
  exists [EOp 0 (OMake 1 0); EOp 0 (OMake 2 0); ETick 900]. split.
  - repeat constructor; cbn; lia.
  - vm_compute. repeat split.
Qed.
Print Assumptions C18_delete_delays_refuted.

(** A timer set for 20 s while another one is due in 1 s is called after 11 s. *)
Theorem C18_set_early_refuted : exists es, Forall ok_event es /\
  let s := run init es in
  quiet s /\ now s = 9000 /\
  calls (idle 9 (step s (EOp 0 (OMake 20 0))) 30000) = [(0%nat, 10000); (1%nat, 20000)].
Proof.
  exists [EOp 0 (OMake 10 0); ETick 9000]. split.
  - repeat constructor; cbn; lia.
  - vm_compute. repeat split.
Qed.
Print Assumptions C18_set_early_refuted.

(** A timer set to go off before all others delays them: one due in 1 s is called
    after 10 s. *)
Theorem C18_set_delays_refuted : exists es, Forall ok_event es /\
  let s := run init es in
  quiet s /\ now s = 9000 /\ time_of 0 (sched s) = Some 10000 /\
  calls (idle 9 (step s (EOp 0 (OMake 0 500))) 30000) = [(1%nat, 9500); (0%nat, 19000)].
Proof.
  exists [EOp 0 (OMake 10 0); ETick 9000]. split.
  - repeat constructor; cbn; lia.
  - vm_compute. repeat split.
Qed.
Print Assumptions C18_set_delays_refuted.

(** A function called for a timer that sets another timer due at the same moment
    to one hour later: that timer is called at once all the same, and again after
    the hour. *)
Theorem C18_reset_called_anyway_refuted : exists es, Forall ok_event es /\
  let s := run init es in
  let s := step s (EOp 0 (OSet 1 (Some (3600, 0)))) in
  time_of 1 (sched s) = Some 3601000 /\
  calls (idle 9 (step s ECall) 4000000) = [(0%nat, 1000); (1%nat, 1000); (1%nat, 3601000)].
Proof.
  exists [EOp 0 (OMake 1 0); EOp 0 (OMake 1 0); ETick 1000; EHandle; ECall]. split.
  - repeat constructor; cbn; lia.
  - vm_compute. repeat split.
Qed.
Print Assumptions C18_reset_called_anyway_refuted.

(** If the itimer runs out while make-timer has SIGALRM blocked, the signal meant
    for the old first timer is taken for the new one: here a timer of 500 ms is
    called at once, and the one that was due waits 501 ms more. *)
Theorem C18_race_refuted : exists es, Forall ok_event es /\
  let s := run init es in
  let s := step (step (step s (EOp 1 (OMake 0 500))) EHandle) ECall in
  now s = 1000 /\ calls s = [(1%nat, 1000)] /\
  calls (idle 9 s 9000) = [(1%nat, 1000); (0%nat, 1500)].
Proof.
  exists [EOp 0 (OMake 1 0); ETick 999]. split.
  - repeat constructor; cbn; lia.
  - vm_compute. repeat split.
Qed.
Print Assumptions C18_race_refuted.

(** One timer with a negative number of seconds (here -1 s and 500 ms) stops all
    timers set later. *)
Theorem C18_negative_refuted :
  let s := run init [EOp 0 (OMake (-1) 500); EOp 0 (OMake 1 0); EOp 0 (OMake 2 0)] in
  forall limit, calls (idle 9 s limit) = [].
Proof. intros s limit. reflexivity. Qed.
Print Assumptions C18_negative_refuted.

(** * Cases *)

Example C18_schedule_case :
  let s := run init [EOp 0 (OMake 0 300); EOp 0 (OMake 0 100); EOp 3 (OMake 0 300); ETick 50; EOp 0 (ODelete 1); EOp 0 (OMake 1 (-500))] in
  quiet s /\ chain s = [0%nat; 2%nat; 3%nat] /\ calls (idle 9 s 400) = [(0%nat, 353); (2%nat, 353)].
Proof. vm_compute. repeat split. Qed.

Example C18_history_case :
  let ps := [([OMake 1 0; OMake 2 500; OMake 1 0; OMake 0 1500; ODelete 3], 1000);
             ([OSet 0 None; OMake 0 500], 2000);
             ([OSet 1 (Some (0, 1))], 2001); ([], 5000)] in
  aligned ideal0 ps /\ calls (real_run ps) = [(0%nat, 1000); (2%nat, 1000); (4%nat, 1500); (0%nat, 2000); (1%nat, 2001)].
Proof.
  split.
  - cbn [aligned fst snd]. repeat split; try lia; try (repeat constructor; cbn; lia); vm_compute; auto 10;
      try (right; right; right; auto 10); try discriminate; try (intro; discriminate).
  - vm_compute. reflexivity.
Qed.

Example C18_once_case :
  let es := [EOp 0 (OMake 0 10); ETick 10; EHandle; ECall; EOp 0 (OSet 0 None); ETick 10; EHandle; ECall] in
  times_set 0 0 es = 2%nat /\ times_called 0 (run init es) = 2%nat.
Proof. vm_compute. split; reflexivity. Qed.

Example C18_deleted_case :
  let s := run init [EOp 0 (OMake 0 10); EOp 0 (OMake 0 10); ETick 10; EHandle; ECall] in
  ready s = [1%nat] /\ calls (run s [EOp 0 (ODelete 1); ECall; ETick 100]) = [(0%nat, 10)].
Proof. vm_compute. split; reflexivity. Qed.
