(* Model of the thread queues of src/continuations.c (lines 200-260 and 775-1150,
   1555-1830), with WITH_CONTINUATIONS.

   Thread structs and closed barriers (dynamic roots) are numbered; a pointer is
   an option nat.  Saving and invoking continuations is not part of this model:
   a context switch to a thread is the assignment of the field active of the
   root, and the thread that is running in a root is its active one.  Only
   closed barriers have queues in use.  The clock is in microseconds. *)
From Coq Require Import ZArith List Bool.
Import ListNotations.
Open Scope Z_scope.

(* continuations.c:244-257: all but next and pred.  car's flags TF_SUSPENDED and
   TF_EXITED; poll is the argument of thread_join_poller; exit_val is None
   for rep_NULL, Some false for nil, Some true for t (values returned by thread
   functions are not modelled); troot is cont->root. *)
Record attr := mkAttr {
  susp : bool; exited : bool;
  run_at : Z * Z;
  poll : option nat;
  exit_val : option bool;
  troot : nat
}.

Record thread := mkThread { nxt : option nat; prd : option nat; att : attr }.

(* continuations.c:184-197: the queues of a barrier *)
Record root := mkRoot {
  head : option nat; tail : option nat;
  shead : option nat; stail : option nat;
  active : option nat
}.

(* stack: the closed barriers in force, innermost first; failed: an assertion
   failed or the program hangs. *)
Record st := mkSt {
  th : nat -> thread; nth_ : nat;
  rt : nat -> root; nroots : nat;
  stack : list nat;
  now : Z;
  failed : bool
}.

Definition no_attr : attr := mkAttr false false (0, 0) None None 0.
Definition no_thread : thread := mkThread None None no_attr.
Definition no_root : root := mkRoot None None None None None.

(* The program runs inside the root barrier of rep_init/rep_top_level. *)
Definition init : st := mkSt (fun _ => no_thread) 0 (fun _ => no_root) 1 [0%nat] 0 false.

Definition upd {A} (f : nat -> A) (i : nat) (v : A) : nat -> A :=
  fun j => if Nat.eqb j i then v else f j.

Definition with_th (s : st) (f : nat -> thread) : st := mkSt f (nth_ s) (rt s) (nroots s) (stack s) (now s) (failed s).
Definition with_rt (s : st) (f : nat -> root) : st := mkSt (th s) (nth_ s) f (nroots s) (stack s) (now s) (failed s).
Definition with_now (s : st) (n : Z) : st := mkSt (th s) (nth_ s) (rt s) (nroots s) (stack s) n (failed s).
Definition with_stack (s : st) (l : list nat) : st := mkSt (th s) (nth_ s) (rt s) (nroots s) l (now s) (failed s).
Definition fail (s : st) : st := mkSt (th s) (nth_ s) (rt s) (nroots s) (stack s) (now s) true.

Definition set_nxt (s : st) (t : nat) (p : option nat) : st :=
  with_th s (upd (th s) t (mkThread p (prd (th s t)) (att (th s t)))).
Definition set_prd (s : st) (t : nat) (p : option nat) : st :=
  with_th s (upd (th s) t (mkThread (nxt (th s t)) p (att (th s t)))).
Definition set_att (s : st) (t : nat) (a : attr) : st :=
  with_th s (upd (th s) t (mkThread (nxt (th s t)) (prd (th s t)) a)).
Definition set_head (s : st) (r : nat) (p : option nat) : st :=
  with_rt s (upd (rt s) r (mkRoot p (tail (rt s r)) (shead (rt s r)) (stail (rt s r)) (active (rt s r)))).
Definition set_tail (s : st) (r : nat) (p : option nat) : st :=
  with_rt s (upd (rt s) r (mkRoot (head (rt s r)) p (shead (rt s r)) (stail (rt s r)) (active (rt s r)))).
Definition set_shead (s : st) (r : nat) (p : option nat) : st :=
  with_rt s (upd (rt s) r (mkRoot (head (rt s r)) (tail (rt s r)) p (stail (rt s r)) (active (rt s r)))).
Definition set_stail (s : st) (r : nat) (p : option nat) : st :=
  with_rt s (upd (rt s) r (mkRoot (head (rt s r)) (tail (rt s r)) (shead (rt s r)) p (active (rt s r)))).
Definition set_active (s : st) (r : nat) (p : option nat) : st :=
  with_rt s (upd (rt s) r (mkRoot (head (rt s r)) (tail (rt s r)) (shead (rt s r)) (stail (rt s r)) p)).

Definition attr_susp (a : attr) (b : bool) : attr := mkAttr b (exited a) (run_at a) (poll a) (exit_val a) (troot a).
Definition attr_exited (a : attr) : attr := mkAttr (susp a) true (run_at a) (poll a) (exit_val a) (troot a).
Definition attr_exit_val (a : attr) (v : option bool) : attr := mkAttr (susp a) (exited a) (run_at a) (poll a) v (troot a).

Definition opt_is (p : option nat) (t : nat) : bool :=
  match p with Some q => Nat.eqb q t | None => false end.
Definition is_none {A} (p : option A) : bool := match p with None => true | _ => false end.

(* continuations.c:268-271, TV_LATER_P *)
Definition later (a b : Z * Z) : bool :=
  (fst b <? fst a) || ((fst a =? fst b) && (snd b <? snd a)).

(* gettimeofday *)
Definition timeval (n : Z) : Z * Z := (n / 1000000, n mod 1000000).

(* continuations.c:807-809: the first suspended thread from ptr on that is not
   earlier than t; fuel bounds the length of the queue *)
Fixpoint find_later (fuel : nat) (s : st) (t : nat) (ptr : option nat) : option nat :=
  match fuel, ptr with
  | S f, Some p =>
    if later (run_at (att (th s t))) (run_at (att (th s p))) then find_later f s t (nxt (th s p)) else Some p
  | _, _ => ptr
  end.

(* continuations.c:792-830 *)
Definition enqueue_thread (s : st) (t : nat) (r : nat) : st :=
  if exited (att (th s t)) then fail s
  else if negb (susp (att (th s t))) then
    let s := set_prd s t (tail (rt s r)) in
    let s := match prd (th s t) with Some p => set_nxt s p (Some t) | None => s end in
    let s := match head (rt s r) with None => set_head s r (Some t) | Some _ => s end in
    set_tail s r (Some t)
  else
    match find_later (nth_ s) s t (shead (rt s r)) with
    | Some ptr =>
      let s := set_prd s t (prd (th s ptr)) in
      let s := match prd (th s ptr) with
               | Some p => set_nxt s p (Some t)
               | None => set_shead s r (Some t)
               end in
      let s := set_prd s ptr (Some t) in
      set_nxt s t (Some ptr)
    | None =>
      let s := set_prd s t (stail (rt s r)) in
      let s := match prd (th s t) with Some p => set_nxt s p (Some t) | None => s end in
      let s := match shead (rt s r) with None => set_shead s r (Some t) | Some _ => s end in
      set_stail s r (Some t)
    end.

(* continuations.c:832-857 *)
Definition unlink_thread (s : st) (t : nat) : st :=
  let r := troot (att (th s t)) in
  let s := match prd (th s t) with Some p => set_nxt s p (nxt (th s t)) | None => s end in
  let s := match nxt (th s t) with Some n => set_prd s n (prd (th s t)) | None => s end in
  let s :=
    if negb (susp (att (th s t))) then
      let s := if opt_is (head (rt s r)) t then set_head s r (nxt (th s t)) else s in
      if opt_is (tail (rt s r)) t then set_tail s r (prd (th s t)) else s
    else
      let s := if opt_is (shead (rt s r)) t then set_shead s r (nxt (th s t)) else s in
      if opt_is (stail (rt s r)) t then set_stail s r (prd (th s t)) else s in
  set_prd (set_nxt s t None) t None.

(* continuations.c:859-869 *)
Definition thread_wake (s : st) (t : nat) : st :=
  let r := troot (att (th s t)) in
  if negb (susp (att (th s t))) then fail s
  else if exited (att (th s t)) then fail s
  else
    let s := unlink_thread s t in
    let s := set_att s t (attr_susp (att (th s t)) false) in
    enqueue_thread s t r.

(* continuations.c:1657-1663, thread_join_poller, if there is one *)
Definition polled (s : st) (t : nat) : bool :=
  match poll (att (th s t)) with Some x => exited (att (th s x)) | None => false end.

(* continuations.c:871-886; the loops of poll_threads and of thread_yield
   (1096-1104) are the same but for the test *)
Fixpoint wake_loop (fuel : nat) (test : st -> nat -> bool) (s : st) (ptr : option nat) (woke : bool) : st * bool :=
  match fuel, ptr with
  | S f, Some t =>
    let next := nxt (th s t) in
    if test s t then wake_loop f test (thread_wake s t) next true
    else wake_loop f test s next woke
  | _, _ => (s, woke)
  end.
Definition poll_threads (s : st) (r : nat) : st * bool :=
  wake_loop (nth_ s) polled s (shead (rt s r)) false.

(* The end of rep_call_with_barrier for a closed barrier (continuations.c:382-394):
   all its threads are marked and the barrier is gone. *)
Fixpoint mark_exited (fuel : nat) (s : st) (ptr : option nat) : st :=
  match fuel, ptr with
  | S f, Some t => mark_exited f (set_att s t (attr_exited (att (th s t)))) (nxt (th s t))
  | _, _ => s
  end.
Definition pop_root (s : st) : st :=
  match stack s with
  | [] => s
  | r :: l =>
    let s := mark_exited (nth_ s) s (head (rt s r)) in
    let s := mark_exited (nth_ s) s (shead (rt s r)) in
    let s := match active (rt s r) with
             | Some t => set_att s t (attr_exited (att (th s t)))
             | None => s
             end in
    with_stack s l
  end.

(* continuations.c:948-963: sleep until thread b is to run (rep_sleep_for has a
   resolution of milliseconds) *)
Definition sleep_for (s : st) (b : nat) : st :=
  let at_ := run_at (att (th s b)) in
  if later at_ (timeval (now s)) then
    let d := (fst at_ * 1000000 + snd at_) - now s in
    with_now s (now s + d / 1000 * 1000)
  else s.

(* continuations.c:900-969 with the context switch reduced to active := head.
   When there is no thread left exit_barrier_cell is thrown, which ends the
   innermost root (317-395).  The jump to the label again is taken at most once
   as then head is not null. *)
Definition switch (s : st) (r : nat) : st := set_active s r (head (rt s r)).
Definition thread_invoke (s : st) : st :=
  match stack s with
  | [] => s
  | r :: _ =>
    match head (rt s r) with
    | Some _ => switch s r
    | None =>
      match shead (rt s r) with
      | None => pop_root (set_active s r None)
      | Some _ =>
        let '(s, woke) := poll_threads s r in
        if woke then switch s r
        else match shead (rt s r) with
             | Some b => switch (thread_wake (sleep_for s b) b) r
             | None => s
             end
      end
    end
  end.

(* continuations.c:971-981 *)
Definition thread_delete (s : st) (t : nat) : st :=
  let r := troot (att (th s t)) in
  let a := head (rt s r) in
  let s := unlink_thread s t in
  let s := set_att s t (attr_exited (att (th s t))) in
  if opt_is a t then thread_invoke s else s.

(* continuations.c:992-1006 and 983-990: a new thread of the innermost root r *)
Definition new_thread (s : st) (r : nat) (su : bool) : st :=
  mkSt (upd (th s) (nth_ s) (mkThread None None (mkAttr su false (0, 0) None None r)))
       (S (nth_ s)) (rt s) (nroots s) (stack s) (now s) (failed s).

(* continuations.c:1008-1022 *)
Definition ensure_default_thread (s : st) : st :=
  match stack s with
  | [] => s
  | r :: _ =>
    match active (rt s r) with
    | Some _ => s
    | None =>
      let x := nth_ s in
      let s := enqueue_thread (new_thread s r false) x r in
      set_active s r (Some x)
    end
  end.

(* continuations.c:1024-1043 *)
Definition make_thread (s : st) (su : bool) : st :=
  match stack s with
  | [] => s
  | r :: _ =>
    let t := nth_ s in
    let s := ensure_default_thread (new_thread s r su) in
    enqueue_thread s t r
  end.

(* continuations.c:1099-1100, the test in thread_yield *)
Definition due (n : Z * Z) (s : st) (t : nat) : bool :=
  later n (run_at (att (th s t))) || polled s t.

(* continuations.c:1078-1090: move the head of the run queue to its end *)
Definition rotate (s : st) (r : nat) : st :=
  match head (rt s r) with
  | None => s
  | Some old =>
    match nxt (th s old) with
    | None => s
    | Some n =>
      let s := match prd (th s old) with Some p => set_nxt s p (nxt (th s old)) | None => s end in
      let s := set_prd s n (prd (th s old)) in
      let s := set_head s r (nxt (th s old)) in
      let s := set_nxt s old None in
      let s := set_prd s old (tail (rt s r)) in
      let s := match prd (th s old) with Some p => set_nxt s p (Some old) | None => s end in
      set_tail s r (Some old)
    end
  end.

Definition opt_eq (p q : option nat) : bool :=
  match p, q with
  | Some a, Some b => Nat.eqb a b
  | None, None => true
  | _, _ => false
  end.

(* continuations.c:1066-1113 *)
Definition thread_yield (s : st) : st :=
  match stack s with
  | [] => s
  | r :: _ =>
    let old_head := head (rt s r) in
    let s := rotate s r in
    let '(s, _) := wake_loop (nth_ s) (due (timeval (now s))) s (shead (rt s r)) false in
    if opt_eq (head (rt s r)) old_head then s else thread_invoke s
  end.

Definition max_time : Z := 2 ^ 63 - 1.

(* continuations.c:1125-1142; ms is an unsigned long *)
Definition deadline (n : Z) (ms : Z) : Z * Z :=
  if ms =? 0 then (max_time, max_time)
  else
    let '(sec, usec) := timeval n in
    let sec := sec + ms / 1000 in
    let usec := usec + ms mod 1000 * 1000 in
    if 1000000 <? usec then (sec + usec / 1000000, usec mod 1000000) else (sec, usec).

(* continuations.c:1115-1150 *)
Definition thread_suspend (s : st) (t : nat) (ms : Z) (p : option nat) : st :=
  let r := troot (att (th s t)) in
  if susp (att (th s t)) then fail s
  else if exited (att (th s t)) then fail s
  else
    let s := unlink_thread s t in
    let s := set_att s t (mkAttr true (exited (att (th s t))) (deadline (now s) ms) p (Some false) (troot (att (th s t)))) in
    let s := enqueue_thread s t r in
    match stack s with
    | [] => s
    | cr :: _ => if opt_is (active (rt s cr)) t then thread_invoke s else s
    end.

(** * The Lisp functions and what else can happen *)

(* XTHREADP and THREADP for the thread number t *)
Definition xthreadp (s : st) (t : nat) : bool := Nat.ltb t (nth_ s).
Definition threadp (s : st) (t : nat) : bool := Nat.ltb t (nth_ s) && negb (exited (att (th s t))).

(* continuations.c:1767-1793 with depth 0 *)
Definition current_thread (s : st) : st * option nat :=
  let s := ensure_default_thread s in
  match stack s with
  | [] => (s, None)
  | r :: _ => (s, active (rt s r))
  end.

Definition ulong (ms : Z) : Z := ms mod 2 ^ 64.

(* EMake: make-thread and make-suspended-thread (1558-1588).  EYield: thread-yield
   (1590-1603) or preemption.  EDelete (1605-1624), ESuspend (1626-1655; None is a
   timeout of nil), EJoin (1665-1699, a timeout of nil is 0), EWake (1701-1719):
   the thread is given by its number, and None stands for nil.  EList: current-thread
   or all-threads (1767-1828).  EReturn: the
   function of the running thread or of the root returns.  EThrow: a throw leaves
   the root.  EEnter: call-with-dynamic-root.  ETick: time passes. *)
Inductive event :=
| EMake (su : bool)
| EYield
| EDelete (t : option nat)
| ESuspend (t : option nat) (ms : option Z)
| EJoin (t : nat) (ms : option Z)
| EWake (t : option nat)
| EList
| EReturn
| EThrow
| EEnter
| ETick (dt : Z).

Definition the_thread (s : st) (t : option nat) : st * option nat :=
  match t with Some t => (s, Some t) | None => current_thread s end.

(* thread-suspend: for another thread exit_val is read and cleared at once, for
   the running one when it runs again (that is not modelled). *)
Definition Fthread_suspend (s : st) (t : option nat) (ms : option Z) : st :=
  match the_thread s t with
  | (s, Some t) =>
    if threadp s t then
      let me := match stack s with r :: _ => opt_is (active (rt s r)) t | [] => false end in
      let s := thread_suspend s t (match ms with None => 1 | Some m => ulong m end) None in
      if me then s else set_att s t (attr_exit_val (att (th s t)) None)
    else s
  | (s, None) => s
  end.

Definition Fthread_delete (s : st) (t : option nat) : st :=
  match the_thread s t with
  | (s, Some t) => if threadp s t then thread_delete s t else s
  | (s, None) => s
  end.

Definition Fthread_wake (s : st) (t : option nat) : st :=
  match the_thread s t with
  | (s, Some t) =>
    if threadp s t then thread_wake (set_att s t (attr_exit_val (att (th s t)) (Some true))) t else s
  | (s, None) => s
  end.

Definition Fthread_join (s : st) (t : nat) (ms : option Z) : st :=
  match current_thread s with
  | (s, Some self) =>
    if xthreadp s t && negb (Nat.eqb t self) &&
       match stack s with r :: _ => Nat.eqb (troot (att (th s t))) r | [] => false end &&
       threadp s self
    then thread_suspend s self (match ms with None => 0 | Some m => ulong m end) (Some t)
    else s
  | (s, None) => s
  end.

(* continuations.c:352-369 and 1048-1062.  When thread_delete comes back to the
   same root without having switched to another thread, the loop in
   rep_call_with_barrier goes on for ever or the assertion in make_thread fails. *)
Definition thread_return (s : st) : st :=
  match stack s with
  | [] => s
  | r :: _ =>
    match active (rt s r) with
    | None => pop_root s
    | Some t =>
      let a := head (rt s r) in
      let s := thread_delete s t in
      if opt_is a t then s else fail s
    end
  end.

Definition step (s : st) (e : event) : st :=
  if failed s then s
  else match e with
  | EMake su => make_thread s su
  | EYield => thread_yield s
  | EDelete t => Fthread_delete s t
  | ESuspend t ms => Fthread_suspend s t ms
  | EJoin t ms => Fthread_join s t ms
  | EWake t => Fthread_wake s t
  | EList => ensure_default_thread s
  | EReturn => thread_return s
  | EThrow => pop_root s
  | EEnter => mkSt (th s) (nth_ s) (rt s) (S (nroots s)) (nroots s :: stack s) (now s) (failed s)
  | ETick dt => with_now s (now s + dt)
  end.

Definition run (s : st) (es : list event) : st := fold_left step es s.

(* all-threads (1795-1828): from the tails back *)
Fixpoint collect (fuel : nat) (s : st) (ptr : option nat) (out : list nat) : list nat :=
  match fuel, ptr with
  | S f, Some t => collect f s (prd (th s t)) (t :: out)
  | _, _ => out
  end.
Definition all_threads (s : st) (r : nat) : list nat :=
  collect (nth_ s) s (tail (rt s r)) (collect (nth_ s) s (stail (rt s r)) []).
