(* Model of lisp/rep/threads/mutex.jl, condition-variable.jl and message-port.jl on
   top of the threads of Threads_Model, for programs with one dynamic root.

   A thread that is inside a call has a list of instructions still to be done; each
   instruction is done without another thread running in between.  The bodies of
   without-interrupts (utils.jl:29-35) are one instruction; elsewhere a thread
   may be preempted between any two expressions that touch shared data.  A thread
   blocked in thread-suspend has the instruction IWoken first, which is
   what follows the call of thread_suspend in Fthread_suspend.  Errors leave a
   call up to its unwind-protect.  The first thread exists from the start.  Some
   instructions carry what was read before, or (IWake) the condition variable
   they belong to. *)
From Coq Require Import ZArith List Bool.
Import ListNotations.
From Verif Require Import Threads_Model.
Open Scope Z_scope.

(* mutexes and condition variables: those made by the user and those of ports *)
Inductive obj := User (n : nat) | Port (n : nat).

Definition obj_eqb (a b : obj) : bool :=
  match a, b with
  | User x, User y | Port x, Port y => Nat.eqb x y
  | _, _ => false
  end.

Inductive what := WMutex (m : obj) | WCond (c : obj).

Inductive instr :=
| IObtain (m : obj) (ms : option Z)
| IWoken (w : what)
| IMaybe (m : obj)
| IRelease (m : obj)
| IPush (c : obj)
| IWait (c m : obj) (ms : option Z)
| ITake (c : obj)
| IDelq (c : obj) (t : nat)
| IWake (c : obj) (t : nat)
| IBroad (c : obj)
| IClear (c : obj) (l : list nat)
| IEnq1 (p : nat) (v : Z)
| IEnq2 (p : nat) (v : Z) (q : list Z)
| IFetch (p : nat) (ms : option Z) (first : bool)
| IDeq1 (p : nat)
| IDeq2 (p : nat) (q : list Z)
| ICheck (p : nat)
| ICleanup.

Inductive call :=
| Obtain (m : nat) (ms : option Z)
| Maybe (m : nat)
| Release (m : nat)
| Wait (c m : nat) (ms : option Z)
| Signal (c : nat)
| Broadcast (c : nat)
| Send (p : nat) (v : Z)
| Fetch (p : nat) (ms : option Z)
| Waiting (p : nat).

(* What can be observed.  TTry, TGot: obtain-mutex is called and returns; TMaybe:
   maybe-obtain-mutex returns; TRel: release-mutex by the owner; TError: an error;
   TPush, TWaitEnd: condition-variable-wait is called and its thread-suspend is left,
   true unless the timeout was reached; TSignal, TBroad: the threads taken from
   the condition variable by condition-variable-signal and -broadcast, first one first; TSent: a message is in the queue; TFetched: the
   result of message-fetch; TAny: the result of message-waiting-p. *)
Inductive obs :=
| TTry (t : nat) (m : obj)
| TGot (t : nat) (m : obj) (b : bool)
| TMaybe (t : nat) (m : obj) (b : bool)
| TRel (t : nat) (m : obj)
| TError (t : nat)
| TPush (t : nat) (c : obj)
| TWaitEnd (t : nat) (c : obj) (b : bool)
| TSignal (t : nat) (c : obj) (x : nat)
| TBroad (t : nat) (c : obj) (l : list nat)
| TSent (t p : nat) (v : Z)
| TFetched (t p : nat) (r : option Z)
| TAny (t p : nat) (b : bool).

(* mtx: the cdr of a mutex, i.e. the owner and the blocked threads
   (mutex.jl:37); cvs: the list in a condition variable
   (condition-variable.jl:41); queue: the messages in a port, first one first
   (Queues_Model has the cells); acq: the variable acquired of
   condition-variable-wait; trace: latest first. *)
Record sst := mkS {
  ts : st;
  mtx : obj -> list nat;
  cvs : obj -> list nat;
  queue : nat -> list Z;
  todo : nat -> list instr;
  acq : nat -> bool;
  trace : list obs
}.

Definition sinit : sst :=
  mkS init (fun _ => []) (fun _ => []) (fun _ => []) (fun _ => []) (fun _ => false) [].

Definition oput {A} (f : obj -> A) (i : obj) (v : A) : obj -> A :=
  fun j => if obj_eqb j i then v else f j.

Definition s_ts (s : sst) (x : st) : sst := mkS x (mtx s) (cvs s) (queue s) (todo s) (acq s) (trace s).
Definition s_mtx (s : sst) (m : obj) (l : list nat) : sst := mkS (ts s) (oput (mtx s) m l) (cvs s) (queue s) (todo s) (acq s) (trace s).
Definition s_cvs (s : sst) (c : obj) (l : list nat) : sst := mkS (ts s) (mtx s) (oput (cvs s) c l) (queue s) (todo s) (acq s) (trace s).
Definition s_queue (s : sst) (p : nat) (l : list Z) : sst := mkS (ts s) (mtx s) (cvs s) (upd (queue s) p l) (todo s) (acq s) (trace s).
Definition s_todo (s : sst) (t : nat) (l : list instr) : sst := mkS (ts s) (mtx s) (cvs s) (queue s) (upd (todo s) t l) (acq s) (trace s).
Definition s_acq (s : sst) (t : nat) (b : bool) : sst := mkS (ts s) (mtx s) (cvs s) (queue s) (todo s) (upd (acq s) t b) (trace s).
Definition log (s : sst) (o : obs) : sst := mkS (ts s) (mtx s) (cvs s) (queue s) (todo s) (acq s) (o :: trace s).

(* mutex.jl:47-76, condition-variable.jl:51-74, message-port.jl:51-81.  User objects
   and those of ports are distinct. *)
Definition prog (c : call) : list instr :=
  match c with
  | Obtain m ms => [IObtain (User m) ms]
  | Maybe m => [IMaybe (User m)]
  | Release m => [IRelease (User m)]
  | Wait c m ms => [IPush (User c); IWait (User c) (User m) ms; IObtain (User m) None]
  | Signal c => [ITake (User c)]
  | Broadcast c => [IBroad (User c)]
  | Send p v => [IObtain (Port p) None; IEnq1 p v; ITake (Port p); ICleanup; IRelease (Port p)]
  | Fetch p ms => [IObtain (Port p) None; IFetch p ms true; ICleanup; IRelease (Port p)]
  | Waiting p => [IObtain (Port p) None; ICheck p; ICleanup; IRelease (Port p)]
  end.

(* an error: go on with the cleanup forms of unwind-protect, if any *)
Fixpoint unwind (l : list instr) : list instr :=
  match l with
  | [] => []
  | ICleanup :: r => r
  | _ :: r => unwind r
  end.
Definition raise (s : sst) (t : nat) (l : list instr) : sst := log (s_todo s t (unwind l)) (TError t).

(* thread-wake; it is an error if the thread has exited *)
Definition do_wake (s : sst) (t x : nat) (l : list instr) : sst :=
  if threadp (ts s) x then s_todo (s_ts s (step (ts s) (EWake (Some x)))) t l
  else raise s t l.

(* mutex.jl:65-76 *)
Definition do_release (s : sst) (t : nat) (m : obj) (l : list instr) : sst :=
  match mtx s m with
  | o :: r =>
    if Nat.eqb o t then
      let s := log (s_mtx s m r) (TRel t m) in
      match r with
      | [] => s_todo s t l
      | x :: _ => do_wake s t x l
      end
    else raise s t l
  | [] => raise s t l
  end.

(* thread-suspend of the running thread *)
Definition do_suspend (s : sst) (t : nat) (ms : option Z) : sst := s_ts s (step (ts s) (ESuspend (Some t) ms)).

Definition exec (s : sst) (t : nat) (i : instr) (l : list instr) : sst :=
  match i with
  (* mutex.jl:50-54 *)
  | IObtain m ms =>
    let s := log s (TTry t m) in
    match mtx s m with
    | [] => s_todo (log (s_mtx s m [t]) (TGot t m true)) t l
    | o :: r => do_suspend (s_todo (s_mtx s m ((o :: r) ++ [t])) t (IWoken (WMutex m) :: l)) t ms
    end
  (* continuations.c:1647-1649 and the not around thread-suspend *)
  | IWoken w =>
    let b := match exit_val (att (th (ts s) t)) with Some false => false | _ => true end in
    let s := s_ts s (set_att (ts s) t (attr_exit_val (att (th (ts s) t)) None)) in
    match w with
    | WMutex m => s_todo (log s (TGot t m b)) t l
    | WCond c => s_todo (log (s_acq s t b) (TWaitEnd t c b)) t l
    end
  (* mutex.jl:56-63 *)
  | IMaybe m =>
    match mtx s m with
    | [] => s_todo (log (s_mtx s m [t]) (TMaybe t m true)) t l
    | _ => s_todo (log s (TMaybe t m false)) t l
    end
  | IRelease m => do_release s t m l
  (* condition-variable.jl:54-55 *)
  | IPush c =>
    let s := log s (TPush t c) in
    s_todo (if existsb (Nat.eqb t) (cvs s c) then s else s_cvs s c (t :: cvs s c)) t l
  (* condition-variable.jl:56-60 *)
  | IWait c m ms =>
    let s := do_release s t m (IWoken (WCond c) :: l) in
    match todo s t with
    | IWoken _ :: _ => do_suspend s t ms
    | _ => s
    end
  (* condition-variable.jl:64-66; 67; 68 *)
  | ITake c =>
    match cvs s c with
    | [] => s_todo s t l
    | x :: r => let y := last (x :: r) x in s_todo s t (IDelq c y :: IWake c y :: l)
    end
  | IDelq c x => s_todo (log (s_cvs s c (filter (fun y => negb (Nat.eqb y x)) (cvs s c))) (TSignal t c x)) t l
  | IWake _ x => do_wake s t x l
  (* condition-variable.jl:70-74 *)
  | IBroad c => s_todo s t (IClear c (rev (cvs s c)) :: map (IWake c) (rev (cvs s c)) ++ l)
  | IClear c r => s_todo (log (s_cvs s c []) (TBroad t c r)) t l
  (* message-port.jl:79: queues.jl enqueue reads the queue and then changes it *)
  | IEnq1 p v => s_todo s t (IEnq2 p v (queue s p) :: l)
  | IEnq2 p v q => s_todo (log (s_queue s p (q ++ [v])) (TSent t p v)) t l
  (* message-port.jl:64-71 *)
  | IFetch p ms first =>
    match queue s p with
    | [] =>
      if first || acq s t
      then s_todo s t ([IPush (Port p); IWait (Port p) (Port p) ms; IObtain (Port p) None; IFetch p ms false] ++ l)
      else s_todo (log s (TFetched t p None)) t l
    | _ => s_todo s t (IDeq1 p :: l)
    end
  (* queues.jl dequeue *)
  | IDeq1 p => match queue s p with [] => raise s t l | q => s_todo s t (IDeq2 p q :: l) end
  | IDeq2 p q => s_todo (log (s_queue s p (tl q)) (TFetched t p (hd_error q))) t l
  (* message-port.jl:55 *)
  | ICheck p => s_todo (log s (TAny t p (match queue s p with [] => false | _ => true end))) t l
  | ICleanup => s_todo s t l
  end.

(* SYield: preemption or thread-yield.  SSleep: the program of a thread calls
   thread-suspend on itself.  SReturn: it ends.  SCall: it calls a function.  SGo:
   the running thread does the next instruction of its call. *)
Inductive sevent :=
| SYield
| STick (dt : Z)
| SMake
| SSleep (ms : Z)
| SReturn
| SCall (c : call)
| SGo.

Definition idle (s : sst) (t : option nat) : bool :=
  match t with Some t => match todo s t with [] => true | _ => false end | None => true end.

Definition sstep (s : sst) (e : sevent) : sst :=
  if failed (ts s) then s
  else
    let '(x, me) := current_thread (ts s) in
    let s := s_ts s x in
    match e with
    | SYield => s_ts s (step (ts s) EYield)
    | STick dt => s_ts s (step (ts s) (ETick dt))
    | SMake => if idle s me then s_ts s (step (ts s) (EMake false)) else s
    | SSleep ms => if idle s me then s_ts s (step (ts s) (ESuspend None (Some ms))) else s
    | SReturn => if idle s me then s_ts s (step (ts s) EReturn) else s
    | SCall c => match me with
                 | Some t => if idle s me then s_todo s t (prog c) else s
                 | None => s
                 end
    | SGo => match me with
             | Some t => match todo s t with i :: l => exec s t i l | [] => s end
             | None => s
             end
    end.

Definition srun (s : sst) (es : list sevent) : sst := fold_left sstep es s.
