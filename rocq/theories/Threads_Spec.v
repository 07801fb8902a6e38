(* Specification of the threads: a scheduler on plain lists, and what the queues
   must satisfy.  Only the attributes of threads, the clock arithmetic (deadline,
   later, timeval) and the events are taken from Threads_Model. *)
From Coq Require Import ZArith List Bool Sorted.
Import ListNotations.
From Verif Require Import Threads_Model.
Open Scope Z_scope.

(** * A scheduler on lists *)

Record ast := mkA {
  aat : nat -> attr; acount : nat;
  runq : nat -> list nat;
  suspq : nat -> list nat;
  aact : nat -> option nat;
  aroots : nat; astack : list nat;
  anow : Z; afailed : bool
}.

Definition ainit : ast :=
  mkA (fun _ => no_attr) 0 (fun _ => []) (fun _ => []) (fun _ => None) 1 [0%nat] 0 false.

Definition put {A} (f : nat -> A) (i : nat) (v : A) : nat -> A :=
  fun j => if Nat.eqb j i then v else f j.

Definition a_att (a : ast) (t : nat) (x : attr) : ast :=
  mkA (put (aat a) t x) (acount a) (runq a) (suspq a) (aact a) (aroots a) (astack a) (anow a) (afailed a).
Definition a_queues (a : ast) (r : nat) (q sq : list nat) : ast :=
  mkA (aat a) (acount a) (put (runq a) r q) (put (suspq a) r sq) (aact a) (aroots a) (astack a) (anow a) (afailed a).
Definition a_act (a : ast) (r : nat) (p : option nat) : ast :=
  mkA (aat a) (acount a) (runq a) (suspq a) (put (aact a) r p) (aroots a) (astack a) (anow a) (afailed a).
Definition a_now (a : ast) (n : Z) : ast :=
  mkA (aat a) (acount a) (runq a) (suspq a) (aact a) (aroots a) (astack a) n (afailed a).
Definition a_fail (a : ast) : ast :=
  mkA (aat a) (acount a) (runq a) (suspq a) (aact a) (aroots a) (astack a) (anow a) true.

Definition without (t : nat) (l : list nat) : list nat := filter (fun x => negb (Nat.eqb x t)) l.

(* among the suspended threads: behind those that are to run strictly earlier *)
Fixpoint by_time (f : nat -> attr) (t : nat) (l : list nat) : list nat :=
  match l with
  | [] => [t]
  | x :: r => if later (run_at (f t)) (run_at (f x)) then x :: by_time f t r else t :: l
  end.

Definition a_enter (a : ast) (t r : nat) : ast :=
  if susp (aat a t) then a_queues a r (runq a r) (by_time (aat a) t (suspq a r))
  else a_queues a r (runq a r ++ [t]) (suspq a r).
Definition a_leave (a : ast) (t : nat) : ast :=
  let r := troot (aat a t) in
  if susp (aat a t) then a_queues a r (runq a r) (without t (suspq a r))
  else a_queues a r (without t (runq a r)) (suspq a r).

(* a suspended thread becomes the last of the run queue *)
Definition a_wake (a : ast) (t : nat) : ast :=
  let r := troot (aat a t) in
  a_queues (a_att a t (attr_susp (aat a t) false)) r (runq a r ++ [t]) (without t (suspq a r)).

Definition a_polled (a : ast) (t : nat) : bool :=
  match poll (aat a t) with Some x => exited (aat a x) | None => false end.
Definition a_due (a : ast) (t : nat) : bool :=
  later (timeval (anow a)) (run_at (aat a t)) || a_polled a t.

(* the innermost root ends and with it all its threads *)
Definition a_exit_all (a : ast) (l : list nat) : ast :=
  fold_left (fun a t => a_att a t (attr_exited (aat a t))) l a.
Definition a_pop (a : ast) : ast :=
  match astack a with
  | [] => a
  | r :: l =>
    let a := a_exit_all a (runq a r) in
    let a := a_exit_all a (suspq a r) in
    let a := match aact a r with Some t => a_exit_all a [t] | None => a end in
    mkA (aat a) (acount a) (runq a) (suspq a) (aact a) (aroots a) l (anow a) (afailed a)
  end.

Definition a_sleep (a : ast) (b : nat) : ast :=
  let w := run_at (aat a b) in
  if later w (timeval (anow a))
  then a_now a (anow a + (fst w * 1000000 + snd w - anow a) / 1000 * 1000)
  else a.

(* run the first thread of the run queue; if there is none, wake the suspended
   ones that wait for an exited thread, or else the first one at its time *)
Definition a_next (a : ast) : ast :=
  match astack a with
  | [] => a
  | r :: _ =>
    match runq a r with
    | x :: _ => a_act a r (Some x)
    | [] =>
      match suspq a r with
      | [] => a_pop (a_act a r None)
      | b :: _ =>
        match filter (a_polled a) (suspq a r) with
        | w :: ws => a_act (fold_left a_wake (w :: ws) a) r (Some w)
        | [] => a_act (a_wake (a_sleep a b) b) r (Some b)
        end
      end
    end
  end.

Definition a_delete (a : ast) (t : nat) : ast :=
  let first := hd_error (runq a (troot (aat a t))) in
  let a := a_leave a t in
  let a := a_att a t (attr_exited (aat a t)) in
  if opt_is first t then a_next a else a.

Definition a_new (a : ast) (r : nat) (su : bool) : ast :=
  mkA (put (aat a) (acount a) (mkAttr su false (0, 0) None None r)) (S (acount a))
      (runq a) (suspq a) (aact a) (aroots a) (astack a) (anow a) (afailed a).

(* the thread of the root itself exists from the first use of threads on *)
Definition a_default (a : ast) : ast :=
  match astack a with
  | [] => a
  | r :: _ =>
    match aact a r with
    | Some _ => a
    | None => a_act (a_enter (a_new a r false) (acount a) r) r (Some (acount a))
    end
  end.

Definition a_make (a : ast) (su : bool) : ast :=
  match astack a with
  | [] => a
  | r :: _ => a_enter (a_default (a_new a r su)) (acount a) r
  end.

Definition to_end (l : list nat) : list nat :=
  match l with [] => [] | x :: r => r ++ [x] end.

Definition a_yield (a : ast) : ast :=
  match astack a with
  | [] => a
  | r :: _ =>
    let first := hd_error (runq a r) in
    let due := filter (a_due a) (suspq a r) in
    let a := fold_left a_wake due (a_queues a r (to_end (runq a r)) (suspq a r)) in
    if opt_eq (hd_error (runq a r)) first then a else a_next a
  end.

Definition a_suspend (a : ast) (t : nat) (ms : Z) (p : option nat) : ast :=
  if susp (aat a t) || exited (aat a t) then a_fail a
  else
    let r := troot (aat a t) in
    let a := a_leave a t in
    let a := a_att a t (mkAttr true false (deadline (anow a) ms) p (Some false) r) in
    let a := a_enter a t r in
    match astack a with
    | [] => a
    | cr :: _ => if opt_is (aact a cr) t then a_next a else a
    end.

Definition a_current (a : ast) : ast * option nat :=
  let a := a_default a in
  match astack a with [] => (a, None) | r :: _ => (a, aact a r) end.
Definition a_the (a : ast) (t : option nat) : ast * option nat :=
  match t with Some t => (a, Some t) | None => a_current a end.
Definition a_live (a : ast) (t : nat) : bool := Nat.ltb t (acount a) && negb (exited (aat a t)).

Definition a_step (a : ast) (e : event) : ast :=
  if afailed a then a
  else match e with
  | EMake su => a_make a su
  | EYield => a_yield a
  | EDelete t =>
    match a_the a t with
    | (a, Some t) => if a_live a t then a_delete a t else a
    | (a, None) => a
    end
  | ESuspend t ms =>
    match a_the a t with
    | (a, Some t) =>
      if a_live a t then
        let me := match astack a with r :: _ => opt_is (aact a r) t | [] => false end in
        let a := a_suspend a t (match ms with None => 1 | Some m => ulong m end) None in
        if me then a else a_att a t (attr_exit_val (aat a t) None)
      else a
    | (a, None) => a
    end
  | EJoin t ms =>
    match a_current a with
    | (a, Some self) =>
      if Nat.ltb t (acount a) && negb (Nat.eqb t self) &&
         match astack a with r :: _ => Nat.eqb (troot (aat a t)) r | [] => false end && a_live a self
      then a_suspend a self (match ms with None => 0 | Some m => ulong m end) (Some t)
      else a
    | (a, None) => a
    end
  | EWake t =>
    match a_the a t with
    | (a, Some t) =>
      if a_live a t then
        let a := a_att a t (attr_exit_val (aat a t) (Some true)) in
        if susp (aat a t) then a_wake a t else a_fail a
      else a
    | (a, None) => a
    end
  | EList => a_default a
  | EReturn =>
    match astack a with
    | [] => a
    | r :: _ =>
      match aact a r with
      | None => a_pop a
      | Some t =>
        let first := hd_error (runq a r) in
        let a := a_delete a t in
        if opt_is first t then a else a_fail a
      end
    end
  | EThrow => a_pop a
  | EEnter =>
    mkA (aat a) (acount a) (runq a) (suspq a) (aact a) (S (aroots a)) (aroots a :: astack a) (anow a) (afailed a)
  | ETick dt => a_now a (anow a + dt)
  end.

Definition a_run (a : ast) (es : list event) : ast := fold_left a_step es a.

(** * The queues of the model as lists *)

(* what is found from a head by the next pointers, with a bound *)
Fixpoint forward (fuel : nat) (s : st) (p : option nat) : list nat :=
  match fuel, p with
  | S f, Some t => t :: forward f s (nxt (th s t))
  | _, _ => []
  end.
Fixpoint backward (fuel : nat) (s : st) (p : option nat) : list nat :=
  match fuel, p with
  | S f, Some t => t :: backward f s (prd (th s t))
  | _, _ => []
  end.

Definition run_queue (s : st) (r : nat) : list nat := forward (nth_ s) s (head (rt s r)).
Definition susp_queue (s : st) (r : nat) : list nat := forward (nth_ s) s (shead (rt s r)).

(* the model is in the state of the list scheduler *)
Definition same_state (s : st) (a : ast) : Prop :=
  failed s = afailed a /\ stack s = astack a /\ now s = anow a /\ nth_ s = acount a /\
  (forall t, att (th s t) = aat a t) /\
  (forall r, active (rt s r) = aact a r) /\
  (forall r, run_queue s r = runq a r /\ susp_queue s r = suspq a r) /\
  (forall r, backward (nth_ s) s (tail (rt s r)) = rev (runq a r) /\
             backward (nth_ s) s (stail (rt s r)) = rev (suspq a r)).

(** * What users rely on *)

(* t was created in root r and has not exited *)
Definition live_in (s : st) (r t : nat) : Prop :=
  (t < nth_ s)%nat /\ exited (att (th s t)) = false /\ troot (att (th s t)) = r.

(* time of a deadline in microseconds *)
Definition micros (p : Z * Z) : Z := fst p * 1000000 + snd p.

(* the order of two wake-up times *)
Definition in_order (p q : Z * Z) : Prop := fst p < fst q \/ fst p = fst q /\ snd p <= snd q.
Definition finite_time (p : Z * Z) : Prop := 0 <= snd p <= 1000000.

(* the time of thread t has come, or the thread it waits for has exited *)
Definition may_run (s : st) (t : nat) : Prop :=
  in_order (run_at (att (th s t))) (now s / 1000000, now s mod 1000000) /\
    run_at (att (th s t)) <> (now s / 1000000, now s mod 1000000) \/
  (exists x, poll (att (th s t)) = Some x /\ exited (att (th s x)) = true).

(* Only threads of the innermost root are named, ... *)
Definition named_local (s : st) (e : event) : Prop :=
  match e with
  | EDelete (Some t) | ESuspend (Some t) _ | EWake (Some t) =>
    match stack s with r :: _ => troot (att (th s t)) = r | [] => True end
  | _ => True
  end.
(* ... runnable threads are not woken and suspended ones not suspended *)
Definition named_right (s : st) (e : event) : Prop :=
  match e with
  | ESuspend (Some t) _ => susp (att (th s t)) = false
  | EWake (Some t) => susp (att (th s t)) = true
  | EWake None => False
  | _ => True
  end.
Fixpoint all_along (P : st -> event -> Prop) (s : st) (es : list event) : Prop :=
  match es with
  | [] => True
  | e :: r => P s e /\ all_along P (step s e) r
  end.
