(** Input handlers and waiting for input: src/unix_main.c 260-321, 377-653
    and src/misc.c 323-340.  rep_wait_for_input_fun, rep_register_input_fd_fun,
    rep_deregister_input_fd_fun and rep_redisplay_fun are null.  Callbacks do not
    start event loops of their own and do not add event loop callbacks. *)

From Coq Require Import ZArith List Bool.
Import ListNotations.
Open Scope Z_scope.

Definition fd := nat.
Definition callback := nat.
Definition fdset := fd -> bool.
Definition none : fdset := fun _ => false.
Definition put {A} (m : fd -> A) (i : fd) (v : A) : fd -> A :=
  fun j => if Nat.eqb j i then v else m j.

(** What a program does to the tables: rep_register_input_fd 280-290 (the close
    on exec flag is left out), rep_deregister_input_fd 292-300,
    rep_mark_input_pending 313-321; an error or interrupt sets
    rep_throw_value, an event loop that handles it clears it. *)
Inductive op :=
| Register (i : fd) (c : callback)
| Deregister (i : fd)
| Mark (i : fd)
| Throw
| Caught.

Inductive ev :=
| Did (o : op)
| Call (i : fd) (c : callback)      (* input_actions[i] (i) *)
| Select (ms : Z)                   (* select with this timeout *)
| Suspend (ms : Z)                  (* Fthread_suspend *)
| Idle (period : Z)                 (* rep_on_idle *)
| Periodic (k : nat).               (* event_loop_callbacks[k] () *)

(** 260-271 and the idle_period of 487; the log has the newest event first. *)
Record st := mk {
  input_fdset : fdset;
  actions : fd -> option callback;
  pending : fdset;
  pending_count : Z;
  idle_period : Z;
  interrupted : bool;
  log : list ev }.
Definition start : st := mk none (fun _ => None) none 0 0 false [].

Definition note (e : ev) (s : st) : st :=
  mk (input_fdset s) (actions s) (pending s) (pending_count s) (idle_period s) (interrupted s) (e :: log s).
Definition set_idle (z : Z) (s : st) : st :=
  mk (input_fdset s) (actions s) (pending s) (pending_count s) z (interrupted s) (log s).

Definition do_op (o : op) (s : st) : st :=
  note (Did o)
    match o with
    | Register i c => mk (put (input_fdset s) i true) (put (actions s) i (Some c)) (pending s) (pending_count s)
                        (idle_period s) (interrupted s) (log s)
    | Deregister i => mk (put (input_fdset s) i false) (put (actions s) i None) (pending s) (pending_count s)
                        (idle_period s) (interrupted s) (log s)
    | Mark i => if pending s i then s
                else mk (input_fdset s) (actions s) (put (pending s) i true) (pending_count s + 1)
                       (idle_period s) (interrupted s) (log s)
    | Throw => mk (input_fdset s) (actions s) (pending s) (pending_count s) (idle_period s) true (log s)
    | Caught => mk (input_fdset s) (actions s) (pending s) (pending_count s) (idle_period s) false (log s)
    end.
Definition do_ops (l : list op) (s : st) : st := fold_left (fun s o => do_op o s) l s.

(** The world: all that is not in this file may depend on everything that
    happened before. *)
Record world := mkworld {
  react : list ev -> fd -> callback -> list op;      (* a callback *)
  on_idle : list ev -> Z -> list op * bool;
  periodic : list ev -> nat -> list op * bool;
  others : list ev -> list op;                       (* other threads, while suspended *)
  tested : list ev -> bool;                          (* rep_TEST_INT_SLOW finds an interrupt *)
  max_sleep : list ev -> Z;                          (* rep_max_sleep_for () *)
  kernel : list ev -> fdset -> Z -> Z * fdset }.     (* select: result and set *)

Section Loop.
  Variable W : world.
  Variable size : nat.              (* FD_SETSIZE *)
  Variable chunk : Z.               (* rep_input_timeout_secs * 1000 *)
  Variable garbage : fdset.         (* the uninitialised `out' of 411 *)
  Variable ncallbacks : nat.        (* next_event_loop_callback *)

  (** 413-426: the loop over pending inputs *)
  Fixpoint scan (is : list fd) (inputs : fdset) (s : st) (seen count : Z) (out : fdset) : Z * fdset :=
    match is with
    | [] => (count, out)
    | i :: is =>
        if seen <? pending_count s then
          if pending s i then
            if inputs i then
              scan is inputs s (seen + 1) (count + 1) (put (if count =? 0 then none else out) i true)
            else scan is inputs s (seen + 1) count out
          else scan is inputs s seen count out
        else (count, out)
    end.

  (** 441-475: the loop around select; ready is -1 before the first call.  None:
      the step budget is used up. *)
  Fixpoint wait_loop (fuel : nat) (inputs : fdset) (timeout ready : Z) (s : st) : option (Z * fdset * st) :=
    match fuel with
    | O => None
    | S k =>
        let this := Z.min timeout chunk in
        let actual := Z.min this (max_sleep W (log s)) in
        let s := if (ready =? 0) && tested W (log s) then do_op Throw s else s in
        if (ready =? 0) && interrupted s then Some (ready, inputs, s)
        else
          let '(r, copy) := kernel W (log s) inputs actual in
          let s := note (Select actual) s in
          let s := if (r =? 0) && (actual <? this)
                   then let s := note (Suspend (this - actual)) s in do_ops (others W (log s)) s
                   else s in
          let timeout := timeout - this in
          if (r =? 0) && (0 <? timeout) then wait_loop k inputs timeout r s
          else Some (r, copy, s)
    end.

  (** wait_for_input 402-479 *)
  Definition wait_for_input (fuel : nat) (inputs : fdset) (timeout : Z) (s : st) : option (Z * fdset * st) :=
    if 0 <? pending_count s then
      let '(count, out) := scan (seq 0 size) inputs s 0 0 garbage in
      if 0 <? count then Some (count, out, s) else wait_loop fuel inputs timeout (-1) s
    else wait_loop fuel inputs timeout (-1) s.

  (** 496-512: the loop over the fds *)
  Fixpoint handle_loop (is : list fd) (inputs : fdset) (ready : Z) (refresh : bool) (s : st) : bool * st :=
    match is with
    | [] => (refresh, s)
    | i :: is =>
        if (0 <? ready) && negb (interrupted s) then
          if inputs i then
            let s := if pending s i
                     then mk (input_fdset s) (actions s) (put (pending s) i false) (pending_count s - 1)
                            (idle_period s) (interrupted s) (log s)
                     else s in
            match actions s i with
            | Some c =>
                let s := note (Call i c) s in
                handle_loop is inputs (ready - 1) true (do_ops (react W (log s) i c) s)
            | None => handle_loop is inputs (ready - 1) refresh s
            end
          else handle_loop is inputs ready refresh s
        else (refresh, s)
    end.

  (** rep_proc_periodically 385-396 *)
  Fixpoint proc_loop (ks : list nat) (ret : bool) (s : st) : bool * st :=
    match ks with
    | [] => (ret, s)
    | k :: ks =>
        let s := note (Periodic k) s in
        let '(ops, b) := periodic W (log s) k in
        proc_loop ks (if b then true else ret) (do_ops ops s)
    end.

  (** handle_input 484-527 *)
  Definition handle_input (inputs : fdset) (ready : Z) (s : st) : bool * st :=
    let '(refresh, s) :=
      if 0 <? ready then handle_loop (seq 0 size) inputs ready false (set_idle 0 s)
      else if ready =? 0 then
        if interrupted s then (true, set_idle (idle_period s + 1) s)
        else
          let s := note (Idle (idle_period s)) s in
          let '(ops, b) := on_idle W (log s) (idle_period s) in
          let s := do_ops ops s in
          (b, set_idle (idle_period s + 1) s)
      else (false, s) in
    if interrupted s then (refresh, s)
    else let '(b, s) := proc_loop (seq 0 ncallbacks) false s in
         (if b then true else refresh, s).

  (** One turn of rep_event_loop 540-549, without the redisplay and the handling
      of exceptions *)
  Definition turn (fuel : nat) (s : st) : option (bool * st) :=
    if interrupted s then Some (false, s)
    else
      match wait_for_input fuel (input_fdset s) chunk s with
      | None => None
      | Some (ready, copy, s) => Some (handle_input copy ready s)
      end.

  (** The result of a Lisp function: nil, t or an error *)
  Inductive answer := Nil | T | Error.

  (** rep_sit_for 567-580 *)
  Definition sit_for (fuel : nat) (ms : Z) (s : st) : option (answer * st) :=
    match wait_for_input fuel (input_fdset s) ms s with
    | None => None
    | Some (ready, _, s) => Some (if interrupted s then Error else if 0 <? ready then Nil else T, s)
    end.
  (** sit-for, misc.c 338: the sum of two longs becomes an unsigned long *)
  Definition Fsit_for (fuel : nat) (secs msecs : Z) (s : st) : option (answer * st) :=
    sit_for fuel ((secs * 1000 + msecs) mod 2 ^ 64) s.

  (** The end that 607-613 and 630-636 have in common *)
  Definition accept (fuel : nat) (ms : Z) (copy : fdset) (s : st) : option (answer * st) :=
    match wait_for_input fuel copy ms s with
    | None => None
    | Some (ready, copy, s) =>
        let s := if (0 <? ready) && negb (interrupted s) then snd (handle_input copy ready s) else s in
        Some (if interrupted s then Error else if 0 <? ready then Nil else T, s)
    end.
  (** rep_accept_input_for_callbacks 585-614 *)
  Definition accept_callbacks (fuel : nat) (ms : Z) (cs : list callback) (s : st) : option (answer * st) :=
    accept fuel ms
      (fun i => Nat.ltb i size && input_fdset s i &&
        match actions s i with Some c => existsb (Nat.eqb c) cs | None => false end) s.
  (** rep_accept_input_for_fds 619-637 *)
  Definition accept_fds (fuel : nat) (ms : Z) (fds : list fd) (s : st) : option (answer * st) :=
    accept fuel ms (fun i => existsb (Nat.eqb i) fds && input_fdset s i) s.

  (** rep_poll_input 646-653; rep_bool is int *)
  Definition poll_input (fuel : nat) (i : fd) (s : st) : option (bool * st) :=
    match wait_for_input fuel (put none i true) 0 s with
    | None => None
    | Some (ready, _, s) => Some (negb (ready =? 0), s)
    end.
End Loop.
