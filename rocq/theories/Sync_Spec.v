(* Specification of mutexes, condition variables and message ports, in terms of
   what is observed (the trace, latest first). *)
From Coq Require Import ZArith List Bool.
Import ListNotations.
From Verif Require Import Threads_Model Sync_Model.
Open Scope Z_scope.

(* t has obtained m and not released it *)
Fixpoint holds (tr : list obs) (t : nat) (m : obj) : bool :=
  match tr with
  | [] => false
  | TGot u n true :: r | TMaybe u n true :: r => if Nat.eqb u t && obj_eqb n m then true else holds r t m
  | TRel u n :: r => if Nat.eqb u t && obj_eqb n m then false else holds r t m
  | _ :: r => holds r t m
  end.

(* no thread-suspend within the library ended by its timeout *)
Definition no_timeout (tr : list obs) : Prop :=
  forall o, In o tr -> match o with TGot _ _ false | TWaitEnd _ _ false => False | _ => True end.

(* in the order of time: who called obtain-mutex, and for whom it returned *)
Fixpoint tries (tr : list obs) (m : obj) : list nat :=
  match tr with
  | [] => []
  | TTry t n :: r => if obj_eqb n m then tries r m ++ [t] else tries r m
  | _ :: r => tries r m
  end.
Fixpoint gots (tr : list obs) (m : obj) : list nat :=
  match tr with
  | [] => []
  | TGot t n true :: r => if obj_eqb n m then gots r m ++ [t] else gots r m
  | _ :: r => gots r m
  end.

(* who called condition-variable-wait, and who was chosen by signal or broadcast *)
Fixpoint waits (tr : list obs) (c : obj) : list nat :=
  match tr with
  | [] => []
  | TPush t d :: r => if obj_eqb d c then waits r c ++ [t] else waits r c
  | _ :: r => waits r c
  end.
Fixpoint chosen (tr : list obs) (c : obj) : list nat :=
  match tr with
  | [] => []
  | TSignal _ d x :: r => if obj_eqb d c then chosen r c ++ [x] else chosen r c
  | TBroad _ d l :: r => if obj_eqb d c then chosen r c ++ l else chosen r c
  | _ :: r => chosen r c
  end.

(* messages sent to and fetched from port p *)
Fixpoint sent (tr : list obs) (p : nat) : list Z :=
  match tr with
  | [] => []
  | TSent _ q v :: r => if Nat.eqb q p then sent r p ++ [v] else sent r p
  | _ :: r => sent r p
  end.
Fixpoint fetched (tr : list obs) (p : nat) : list Z :=
  match tr with
  | [] => []
  | TFetched _ q (Some v) :: r => if Nat.eqb q p then fetched r p ++ [v] else fetched r p
  | _ :: r => fetched r p
  end.

(* t is inside obtain-mutex, suspended or about to go on *)
Definition blocked (s : sst) (t : nat) (m : obj) : Prop := exists l, todo s t = IWoken (WMutex m) :: l.
(* the same for the thread-suspend in condition-variable-wait *)
Definition waiting (s : sst) (t : nat) (c : obj) : Prop := exists l, todo s t = IWoken (WCond c) :: l.
(* it has been woken by thread-wake and is in the run queue *)
Definition released (s : sst) (t : nat) : Prop :=
  exit_val (att (th (ts s) t)) = Some true /\ susp (att (th (ts s) t)) = false.

(* The discipline asked of a program: a mutex is not obtained by the thread that holds it and
   released only by the one that does; condition variable c is used with mutex am
   c, which is held around wait, signal and broadcast. *)
Definition disciplined (am : nat -> nat) (s : sst) (e : sevent) : Prop :=
  match snd (current_thread (ts s)) with
  | None => True
  | Some t =>
    match e with
    | SCall (Obtain m _) => holds (trace s) t (User m) = false
    | SCall (Release m) => holds (trace s) t (User m) = true
    | SCall (Wait c m _) => holds (trace s) t (User m) = true /\ m = am c
    | SCall (Signal c) | SCall (Broadcast c) => holds (trace s) t (User (am c)) = true
    | _ => True
    end
  end.
Fixpoint along (P : sst -> sevent -> Prop) (s : sst) (es : list sevent) : Prop :=
  match es with
  | [] => True
  | e :: r => P s e /\ along P (sstep s e) r
  end.

(* the mutex that goes with a condition variable *)
Definition mutex_of (am : nat -> nat) (c : obj) : obj := match c with User n => User (am n) | Port p => Port p end.

(* What may be observed after the trace b.  Obtaining a mutex: nobody holds it and
   all who called before have had their turn.  maybe-obtain-mutex: true just if
   nobody holds the mutex or waits for it.  Signal takes the thread
   that has waited longest, broadcast all; a wait ends only when the thread
   has been chosen for it.  Messages are fetched in the order in which
   they were sent, each once; message-waiting-p tells whether there are any.  No
   errors. *)
Definition allowed (am : nat -> nat) (b : list obs) (o : obs) : Prop :=
  match o with
  | TTry t m => holds b t m = false
  | TGot t m r => r = true /\ (forall u, holds b u m = false) /\ exists q, tries b m = gots b m ++ t :: q
  | TMaybe t m r => r = true <-> (forall u, holds b u m = false) /\ tries b m = gots b m
  | TRel t m => holds b t m = true
  | TError _ => False
  | TPush t c => holds b t (mutex_of am c) = true
  | TWaitEnd t c r => r = true /\ count_occ Nat.eq_dec (chosen b c) t = count_occ Nat.eq_dec (waits b c) t
  | TSignal t c x => holds b t (mutex_of am c) = true /\ exists q, waits b c = chosen b c ++ x :: q
  | TBroad t c l => holds b t (mutex_of am c) = true /\ waits b c = chosen b c ++ l
  | TSent t p v => holds b t (Port p) = true
  | TFetched t p r => exists v q, r = Some v /\ sent b p = fetched b p ++ v :: q
  | TAny t p r => r = true <-> sent b p <> fetched b p
  end.

(* y is in a call on port p (it has the port's mutex still to release) and in the run queue *)
Definition busy (s : sst) (p y : nat) : Prop := In (IRelease (Port p)) (todo s y) /\ susp (att (th (ts s) y)) = false.

(* t is in the thread-suspend of condition-variable-wait, by what was observed *)
Fixpoint in_wait (tr : list obs) (t : nat) (c : obj) : bool :=
  match tr with
  | [] => false
  | TPush u d :: r => if Nat.eqb u t && obj_eqb d c then true else in_wait r t c
  | TWaitEnd u d _ :: r => if Nat.eqb u t && obj_eqb d c then false else in_wait r t c
  | _ :: r => in_wait r t c
  end.

(* Histories: from the start, of a disciplined program, without an assertion that fails *)
Definition history (am : nat -> nat) (es : list sevent) : Prop := along (disciplined am) sinit es /\ failed (ts (srun sinit es)) = false.
(* and without timeouts *)
Definition calm (am : nat -> nat) (es : list sevent) : Prop := history am es /\ no_timeout (trace (srun sinit es)).
