(* Model of src/timers.c (with HAVE_SETITIMER).

   Lisp_Timer structs are numbered by nat; the pointers next are replaced by
   the list of the numbers in the chain.  Times are unbounded integers (the C
   code uses longs; a period of 2^61 seconds is needed to overflow).  The
   kernel's ITIMER_REAL is modelled by the milliseconds left, the process clock
   by now.  The memory management of timers and the functions called are not
   modelled: a call of the function of timer i at time T is recorded in calls. *)
From Coq Require Import ZArith List Bool.
Import ListNotations.
Open Scope Z_scope.

(* timers.c:60-69 *)
Record timer := mkTimer {
  secs : Z; msecs : Z;
  rel_secs : Z; rel_msecs : Z;
  fired : bool; deleted : bool
}.

(* timer_chain; the itimer (milliseconds left, None when not running); whether
   SIGALRM has the handler (or is ignored); whether a blocked SIGALRM is pending;
   bytes in the pipe (in units of one int); the array timers of a running
   timer_fd_handler from index i on; failed is a failed assertion. *)
Record st := mkSt {
  tms : nat -> timer;
  fresh : nat;
  chain : list nat;
  itimer : option Z;
  caught : bool;
  pending : bool;
  pipe : nat;
  ready : list nat;
  now : Z;
  calls : list (nat * Z);
  failed : bool
}.

Definition set_tm (f : nat -> timer) (i : nat) (t : timer) : nat -> timer :=
  fun j => if Nat.eqb j i then t else f j.
Definition with_tms (s : st) (f : nat -> timer) : st :=
  mkSt f (fresh s) (chain s) (itimer s) (caught s) (pending s) (pipe s) (ready s) (now s) (calls s) (failed s).
Definition with_chain (s : st) (f : nat -> timer) (c : list nat) : st :=
  mkSt f (fresh s) c (itimer s) (caught s) (pending s) (pipe s) (ready s) (now s) (calls s) (failed s).
Definition with_alarm (s : st) (it : option Z) (c p : bool) : st :=
  mkSt (tms s) (fresh s) (chain s) it c p (pipe s) (ready s) (now s) (calls s) (failed s).
Definition with_pipe (s : st) (n : nat) : st :=
  mkSt (tms s) (fresh s) (chain s) (itimer s) (caught s) (pending s) n (ready s) (now s) (calls s) (failed s).
Definition with_ready (s : st) (c r : list nat) : st :=
  mkSt (tms s) (fresh s) c (itimer s) (caught s) (pending s) (pipe s) r (now s) (calls s) (failed s).
Definition with_now (s : st) (n : Z) : st :=
  mkSt (tms s) (fresh s) (chain s) (itimer s) (caught s) (pending s) (pipe s) (ready s) n (calls s) (failed s).
Definition with_call (s : st) (i : nat) : st :=
  mkSt (tms s) (fresh s) (chain s) (itimer s) (caught s) (pending s) (pipe s) (ready s) (now s)
       (calls s ++ [(i, now s)]) (failed s).
Definition with_failed (s : st) : st :=
  mkSt (tms s) (fresh s) (chain s) (itimer s) (caught s) (pending s) (pipe s) (ready s) (now s) (calls s) true.
Definition with_fresh (s : st) : st :=
  mkSt (tms s) (S (fresh s)) (chain s) (itimer s) (caught s) (pending s) (pipe s) (ready s) (now s) (calls s) (failed s).

Definition set_rel (t : timer) (s m : Z) : timer := mkTimer (secs t) (msecs t) s m (fired t) (deleted t).
Definition set_fired (t : timer) (b : bool) : timer := mkTimer (secs t) (msecs t) (rel_secs t) (rel_msecs t) b (deleted t).
Definition set_deleted (t : timer) (b : bool) : timer := mkTimer (secs t) (msecs t) (rel_secs t) (rel_msecs t) (fired t) b.
Definition set_period (t : timer) (s m : Z) : timer := mkTimer s m (rel_secs t) (rel_msecs t) (fired t) (deleted t).

Definition zero_timer : timer := mkTimer 0 0 0 0 false false.

(* Before the first timer: SIGALRM is not caught and the itimer not set. *)
Definition init : st :=
  mkSt (fun _ => zero_timer) 0 [] None false false 0 [] 0 [] false.

(* timers.c:90-94: the timers of the chain from the head on while their relative
   times are zero *)
Fixpoint mark_fired (f : nat -> timer) (c : list nat) : nat -> timer :=
  match c with
  | [] => f
  | i :: r =>
    if (rel_secs (f i) =? 0) && (rel_msecs (f i) =? 0)
    then mark_fired (set_tm f i (set_fired (f i) true)) r
    else f
  end.

(* timers.c:83-96 *)
Definition timer_signal_handler (s : st) : st :=
  match chain s with
  | [] => with_failed s
  | i :: _ =>
    let f := set_tm (tms s) i (set_rel (tms s i) 0 0) in
    with_pipe (with_tms s (mark_fired f (chain s))) (S (pipe s))
  end.

(* timers.c:98-119.  setitimer fails (EINVAL), leaving the itimer as it was, if
   tv_sec is negative; rel_msecs * 1000 is in range after fix_time.  Ignoring a
   signal discards a pending instance of it. *)
Definition setup_next_timer (s : st) : st :=
  match chain s with
  | i :: _ =>
    let t := tms s i in
    if (0 <? rel_secs t) || (0 <? rel_msecs t) then
      let it := if rel_secs t <? 0 then itimer s else Some (1000 * rel_secs t + rel_msecs t) in
      with_alarm s it true (pending s)
    else with_alarm s (itimer s) false false
  | [] => with_alarm s (itimer s) false false
  end.

(* timers.c:121-135; each loop runs at most |msecs| times *)
Fixpoint fix_neg (fuel : nat) (s m : Z) : Z * Z :=
  match fuel with
  | O => (s, m)
  | S f => if m <? 0 then fix_neg f (s - 1) (m + 1000) else (s, m)
  end.
Fixpoint fix_pos (fuel : nat) (s m : Z) : Z * Z :=
  match fuel with
  | O => (s, m)
  | S f => if 1000 <=? m then fix_pos f (s + 1) (m - 1000) else (s, m)
  end.
Definition fix_time (s m : Z) : Z * Z :=
  let '(s, m) := fix_neg (Z.to_nat (Z.abs m)) s m in
  fix_pos (Z.to_nat (Z.abs m)) s m.

(* timers.c:148-167: the walk down the chain from x, and the insertion of timer i *)
Fixpoint insert_walk (f : nat -> timer) (i : nat) (x : list nat) : (nat -> timer) * list nat :=
  match x with
  | [] => (f, [i])
  | j :: r =>
    let t := f i in
    let u := f j in
    if (rel_secs u <? rel_secs t) || ((rel_secs u =? rel_secs t) && (rel_msecs u <=? rel_msecs t))
    then
      let '(s, m) := fix_time (rel_secs t - rel_secs u) (rel_msecs t - rel_msecs u) in
      let '(f, c) := insert_walk (set_tm f i (set_rel t s m)) i r in
      (f, j :: c)
    else
      let '(s, m) := fix_time (rel_secs u - rel_secs t) (rel_msecs u - rel_msecs t) in
      (set_tm f j (set_rel u s m), i :: j :: r)
  end.

Definition head_is (c : list nat) (i : nat) : bool :=
  match c with j :: _ => Nat.eqb j i | [] => false end.

(* timers.c:137-173, with SIGALRM blocked *)
Definition insert_timer (s : st) (i : nat) : st :=
  let t := tms s i in
  if (0 <? secs t) || (0 <? msecs t) then
    let t := mkTimer (secs t) (msecs t) (secs t) (msecs t) false false in
    let '(f, c) := insert_walk (set_tm (tms s) i t) i (chain s) in
    let s := with_chain s f c in
    if head_is (chain s) i then setup_next_timer s else s
  else s.

(* timers.c:183-197: find timer i in the chain x; None if it is not there *)
Fixpoint delete_walk (f : nat -> timer) (i : nat) (x : list nat) : option ((nat -> timer) * list nat) :=
  match x with
  | [] => None
  | j :: r =>
    if Nat.eqb j i then
      let t := f i in
      let f :=
        match r with
        | k :: _ =>
          let u := f k in
          let '(s, m) := fix_time (rel_secs u + rel_secs t) (rel_msecs u + rel_msecs t) in
          set_tm f k (set_rel u s m)
        | [] => f
        end in
      Some (set_tm f i (set_rel (f i) 0 0), r)
    else
      match delete_walk f i r with
      | Some (f, c) => Some (f, j :: c)
      | None => None
      end
  end.

(* timers.c:175-202, with SIGALRM blocked *)
Definition delete_timer (s : st) (i : nat) : st :=
  let s := with_tms s (set_tm (tms s) i (set_deleted (tms s i) true)) in
  match delete_walk (tms s) i (chain s) with
  | None => s
  | Some (f, c) =>
    let at_head := head_is (chain s) i in
    let s := with_chain s f c in
    if at_head then setup_next_timer s else s
  end.

(* timers.c:215-224: the fired timers at the front of the chain, and the rest *)
Fixpoint take_fired (f : nat -> timer) (c : list nat) : list nat * list nat :=
  match c with
  | i :: r => if fired (f i) then let '(a, b) := take_fired f r in (i :: a, b) else ([], c)
  | [] => ([], [])
  end.

(* timers.c:204-226: timer_fd_handler up to the loop calling the functions *)
Definition fd_handler (s : st) : st :=
  let s := with_pipe s (pred (pipe s)) in
  let '(a, b) := take_fired (tms s) (chain s) in
  setup_next_timer (with_ready s b a).

(* timers.c:228-232: one turn of the loop *)
Definition call_next (s : st) : st :=
  match ready s with
  | [] => s
  | i :: r =>
    let s := with_ready s (chain s) r in
    if deleted (tms s i) then s else with_call s i
  end.

(* The Lisp functions.  timers.c:238-262 (make-timer), 264-276 (delete-timer),
   278-301 (set-timer; the argument is None when both times are nil).  A new
   timer comes from malloc: its flags are whatever was there; insert_timer sets
   them if the period is positive and nothing reads them otherwise (delete-timer
   writes deleted, the handler reads it only for timers that were inserted). *)
Inductive op :=
| OMake (s m : Z)
| ODelete (i : nat)
| OSet (i : nat) (p : option (Z * Z)).

Definition make_timer (s : st) (sc ms : Z) : st :=
  let i := fresh s in
  let '(sc, ms) := fix_time sc ms in
  let s := with_fresh (with_tms s (set_tm (tms s) i (mkTimer sc ms 0 0 false false))) in
  insert_timer s i.

Definition set_timer (s : st) (i : nat) (p : option (Z * Z)) : st :=
  let s := delete_timer s i in
  let s :=
    match p with
    | None => s
    | Some (sc, ms) =>
      let '(sc, ms) := fix_time sc ms in
      with_tms s (set_tm (tms s) i (set_period (tms s i) sc ms))
    end in
  insert_timer s i.

Definition do_op (s : st) (o : op) : st :=
  match o with
  | OMake sc ms => make_timer s sc ms
  | ODelete i => if Nat.ltb i (fresh s) then delete_timer s i else s
  | OSet i p => if Nat.ltb i (fresh s) then set_timer s i p else s
  end.

(** * Time *)

(* dt milliseconds pass.  If the itimer runs out it stops (it_interval is 0) and
   SIGALRM is raised: dropped if ignored, delivered if not blocked, else left
   pending. *)
Definition pass (s : st) (dt : Z) (blocked : bool) : st :=
  match itimer s with
  | None => with_now s (now s + dt)
  | Some r =>
    if dt <? r then with_now (with_alarm s (Some (r - dt)) (caught s) (pending s)) (now s + dt)
    else
      let s := with_now (with_alarm s None (caught s) (pending s)) (now s + dt) in
      if caught s then
        if blocked then with_alarm s None true true else timer_signal_handler s
      else s
  end.

(* sigprocmask (SIG_SETMASK, &old, 0): a pending signal is delivered *)
Definition unblock (s : st) : st :=
  if pending s then
    let s := with_alarm s (itimer s) (caught s) false in
    if caught s then timer_signal_handler s else s
  else s.

(* What can happen next.  EOp dt o: a call of a Lisp function, dt milliseconds
   of which pass while SIGALRM is blocked, before the chain is changed (blocking
   more than once in set-timer is merged into one).  ETick: time passes.
   EHandle: the event loop finds the pipe readable and calls timer_fd_handler
   (not while another call of it is still running).  ECall: the loop of
   timer_fd_handler goes on.  Between ECalls other events are what the called
   functions do. *)
Inductive event :=
| EOp (dt : Z) (o : op)
| ETick (dt : Z)
| EHandle
| ECall.

Definition step (s : st) (e : event) : st :=
  match e with
  | EOp dt o => unblock (do_op (pass s dt true) o)
  | ETick dt => pass s dt false
  | EHandle => match pipe s, ready s with S _, [] => fd_handler s | _, _ => s end
  | ECall => call_next s
  end.

Definition run (s : st) (es : list event) : st := fold_left step es s.

(* The functions of all ready timers are called, one after the other. *)
Fixpoint call_all (n : nat) (s : st) : st :=
  match n with
  | O => s
  | S n' => match ready s with [] => s | _ => call_all n' (call_next s) end
  end.

(* An idle program: the event loop waits until time limit, calling
   timer_fd_handler as soon as the pipe becomes readable. *)
Fixpoint idle (fuel : nat) (s : st) (limit : Z) : st :=
  match fuel with
  | O => s
  | S f =>
    match itimer s with
    | Some r =>
      if now s + r <=? limit then
        let s := step (step s (ETick r)) EHandle in
        idle f (call_all (length (ready s)) s) limit
      else step s (ETick (limit - now s))
    | None => step s (ETick (limit - now s))
    end
  end.
