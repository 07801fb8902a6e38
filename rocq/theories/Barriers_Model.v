(* Model of barriers and continuations: rep_call_with_barrier, trace_barriers,
   common_ancestor, primitive_invoke_continuation, continuation-callable-p and
   primitive_call_cc (src/continuations.c:305-395, 405-448, 531-747).

   Of the stack only the barriers on it are modelled.  What saving and reloading
   the stack (452-529) does for them is modelled by keeping the list.  Threads are
   in Threads_Model.  STACK_DIRECTION is negative: newer data have smaller addresses. *)
From Coq Require Import ZArith List Bool.
Import ListNotations.
Open Scope Z_scope.

(* struct rep_barrier_struct (177-189).  point is the address of the barrier, which is
   also what pointers to it are compared by.  fin, fout: are there in and out
   functions?  bid numbers the calls of rep_call_with_barrier; the program does not
   see it.  depth (a short) is the length of the list. *)
Record barrier := mkB { bid : nat; point : Z; closed : bool; fin : bool; fout : bool }.

(* struct rep_continuation_struct (202-221): chain is barriers with the barriers that
   are outwards from it *)
Record cont := mkC { chain : list barrier; valid : bool }.

(* functions of barriers called, jumps, errors; latest first *)
Inductive obs :=
| OEnter (b : barrier)
| OExit (b : barrier)
| OIn (b : barrier)
| OOut (b : barrier)
| OJump (k : nat)
| ORefused (k : nat)
| OInvalid (k : nat)
| ONoRoot.

(* barriers, innermost first; conts: continuations in the order of their creation.
   broken: a continuation that is still valid was invoked though the barrier it needs is
   gone, so that arbitrary memory was read *)
Record st := mkSt { cur : list barrier; conts : list cont; next : nat; trace : list obs; broken : bool }.

Definition init : st := mkSt [] [] 0 [] false.

(* 336-337, 378: root_barrier *)
Fixpoint root (l : list barrier) : option barrier :=
  match l with
  | [] => None
  | b :: r => if closed b then Some b else root r
  end.

(* 405-423 *)
Fixpoint trace_barriers (l : list barrier) : list barrier :=
  match l with
  | [] => []
  | b :: r => if closed b then [b] else b :: trace_barriers r
  end.

(* 425-448.  scan is the inner loop from index i; None: found, otherwise the new first_dest *)
Fixpoint scan (p : Z) (l : list barrier) (i fd : nat) : option nat :=
  match l with
  | [] => Some fd
  | d :: r => if point d =? p then None else scan p r (S i) (if point d <? p then S i else fd)
  end.
Fixpoint common_ancestor (current hist : list barrier) (fd : nat) : option barrier :=
  match current with
  | [] => None
  | b :: r =>
    match scan (point b) (skipn fd hist) fd fd with
    | None => Some b
    | Some fd => if closed b then None else common_ancestor r hist fd
    end
  end.

(* the loops at 556 and 698 *)
Fixpoint until (p : Z) (l : list barrier) : list barrier :=
  match l with
  | [] => []
  | b :: r => if point b =? p then [] else b :: until p r
  end.

(* 531-580 and 661-716; the error of an unreachable continuation *)
Definition jump (s : st) (k : nat) (c : cont) : st :=
  match common_ancestor (cur s) (trace_barriers (chain c)) 0 with
  | None => mkSt (cur s) (conts s) (next s) (ORefused k :: trace s) (broken s)
  | Some anc =>
    let outs := filter fout (until (point anc) (cur s)) in
    let ins := filter fin (rev (until (point anc) (chain c))) in
    mkSt (chain c) (conts s) (next s) (rev (map OIn ins) ++ OJump k :: rev (map OOut outs) ++ trace s) (broken s)
  end.

Definition live (s : st) (c : cont) : bool :=
  match root (chain c) with
  | Some r => existsb (fun b => Nat.eqb (bid b) (bid r)) (cur s)
  | None => false
  end.

(* 582-599 *)
Definition invoke (s : st) (k : nat) (c : cont) : st :=
  if valid c then
    if live s c then jump s k c
    else mkSt (cur s) (conts s) (next s) (trace s) true
  else mkSt (cur s) (conts s) (next s) (OInvalid k :: trace s) (broken s).

(* 607-637 *)
Definition callable (s : st) (c : cont) : bool :=
  valid c && match common_ancestor (cur s) (trace_barriers (chain c)) 0 with Some _ => true | None => false end.

(* 372-377 *)
Definition invalidate (b : barrier) (c : cont) : cont :=
  match root (chain c) with
  | Some r => if point r =? point b then mkC (chain c) false else c
  | None => c
  end.

(* Enter: rep_call_with_barrier is called, in a frame at address p; Exit: the callback
   returns, normally or by a throw; Capture: call/cc; Invoke: the function given
   by it is called *)
Inductive event := Enter (p : Z) (cl i o : bool) | Exit | Capture | Invoke (k : nat).

Definition step (s : st) (e : event) : st :=
  if broken s then s
  else match e with
  | Enter p cl i o =>
    let b := mkB (next s) p cl i o in
    mkSt (b :: cur s) (conts s) (S (next s)) (OEnter b :: trace s) (broken s)
  | Exit =>
    match cur s with
    | [] => s
    | b :: r => mkSt r (if closed b then map (invalidate b) (conts s) else conts s) (next s) (OExit b :: trace s) (broken s)
    end
  | Capture =>
    match root (cur s) with
    | None => mkSt (cur s) (conts s) (next s) (ONoRoot :: trace s) (broken s)
    | Some _ => mkSt (cur s) (conts s ++ [mkC (cur s) true]) (next s) (trace s) (broken s)
    end
  | Invoke k => match nth_error (conts s) k with Some c => invoke s k c | None => s end
  end.

Definition run (s : st) (es : list event) : st := fold_left step es s.
