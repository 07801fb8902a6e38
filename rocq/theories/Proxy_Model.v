(** Objects behind a thread of their own: lisp/rep/threads/proxy.jl.

    The function is any function with a state that gives a value or an exception. A message
    port is a queue (message-port.jl; the ports themselves are modelled elsewhere); each
    call makes a new port, ports are numbered in the order of the calls. *)

From Coq Require Import List Bool Arith.
Import ListNotations.

Section Proxy.
Context {S A V E : Type}.
Variable f : S -> A -> S * (V + E).

(** proxy.jl 69, 64: what is sent to the port of the thread *)
Inductive msg := Sync (port : nat) (a : A) | Async (a : A).
(** The state of the function, the port of the thread, whether the thread lives, the number
    of return ports made, their contents, and what was fetched from them *)
Record sys := mkp { obj : S; queue : list msg; alive : bool; made : nat; ports : list (nat * (V + E)); taken : list (nat * (V + E)) }.

(** 44-59 one turn of the loop of the thread: a call answers with the value or the
    exception; an exception of an asynchronous call is not caught and ends the thread *)
Definition serve (s : sys) : sys :=
  if alive s then
    match queue s with
    | [] => s
    | Sync p a :: q => let (o, r) := f (obj s) a in mkp o q true (made s) (ports s ++ [(p, r)]) (taken s)
    | Async a :: q =>
        let (o, r) := f (obj s) a in
        mkp o q (match r with inl _ => true | inr _ => false end) (made s) (ports s) (taken s)
    end
  else s.

(** message-fetch of the caller, 70: takes what is in the port, else goes on waiting *)
Fixpoint take (p : nat) (l : list (nat * (V + E))) : option ((V + E) * list (nat * (V + E))) :=
  match l with
  | [] => None
  | (q, r) :: l =>
      if Nat.eqb q p then Some (r, l)
      else match take p l with Some (r', l') => Some (r', (q, r) :: l') | None => None end
  end.

(** What threads may do, in any order: call (68-69), call asynchronously (64, 78-79), serve,
    fetch a result (70-73), delete the thread (81-82) *)
Inductive event := Call (a : A) | Cast (a : A) | Serve | Fetch (p : nat) | Delete.
Definition step (s : sys) (e : event) : sys :=
  match e with
  | Call a => mkp (obj s) (queue s ++ [Sync (made s) a]) (alive s) (1 + made s) (ports s) (taken s)
  | Cast a => mkp (obj s) (queue s ++ [Async a]) (alive s) (made s) (ports s) (taken s)
  | Serve => serve s
  | Fetch p =>
      match take p (ports s) with
      | Some (r, l) => mkp (obj s) (queue s) (alive s) (made s) l (taken s ++ [(p, r)])
      | None => s
      end
  | Delete => mkp (obj s) (queue s) false (made s) (ports s) (taken s)
  end.
Definition start (o : S) : sys := mkp o [] true 0 [] [].
Definition run (o : S) (l : list event) : sys := fold_left step l (start o).
End Proxy.
Arguments msg : clear implicits.
Arguments event : clear implicits.
Arguments sys : clear implicits.
