(** memoize of /repo/lisp/rep/util/memoize.jl.

    The function that is memoized is arbitrary Lisp whose answer depends on its
    arguments only up to equal; here it is a program that may call the memoized
    function, as a recursive function does, and ends in a value or a non-local
    exit.  The hash table is an association list: Tables proves that tables
    behave like one.  Changing the argument list after the call is not
    modelled. *)
From Coq Require Import List Bool.
Import ListNotations.

Section Memo.
  Variables (K V : Type).
  (** [eqb]: equal; [nilp]: being nil *)
  Variables (eqb : K -> K -> bool) (nilp : V -> bool) (nil_ : V).

  Inductive outcome := Ret (v : V) | Thrown.
  (** A function at work *)
  Inductive prog := Give (v : V) | Throw | Self (args : K) (k : V -> prog).
  Variable f : K -> prog.

  (** /repo/src/tables.c 346-358 table-ref: nil when there is no such key *)
  Fixpoint table_ref (c : list (K * V)) (a : K) : V :=
    match c with
    | [] => nil_
    | (b, v) :: c' => if eqb b a then v else table_ref c' a
    end.
  (** tables.c 375-438 table-set *)
  Definition table_set (c : list (K * V)) (a : K) (v : V) : list (K * V) := (a, v) :: c.

  (** The cache and the argument lists that [f] has been applied to, latest
      first *)
  Definition state := (list (K * V) * list K)%type.

  (** memoize.jl 43-46: the lambda; [run] is the body of [f]. *)
  Fixpoint call (n : nat) (s : state) (a : K) : option (state * outcome) :=
    match n with
    | 0 => None
    | S n =>
      let cached := table_ref (fst s) a in
      if negb (nilp cached) then Some (s, Ret cached)
      else match run n (fst s, a :: snd s) (f a) with
           | Some (s', Ret v) => Some ((table_set (fst s') a v, snd s'), Ret v)
           | Some (s', Thrown) => Some (s', Thrown)
           | None => None
           end
    end
  with run (n : nat) (s : state) (p : prog) : option (state * outcome) :=
    match n with
    | 0 => None
    | S n =>
      match p with
      | Give v => Some (s, Ret v)
      | Throw => Some (s, Thrown)
      | Self a k => match call n s a with
                    | Some (s', Ret v) => run n s' (k v)
                    | x => x
                    end
      end
    end.

  (** A sequence of calls, the outcome of each *)
  Fixpoint calls (n : nat) (s : state) (l : list K) : option (state * list outcome) :=
    match l with
    | [] => Some (s, [])
    | a :: l' => match call n s a with
                 | None => None
                 | Some (s', o) => match calls n s' l' with
                                   | None => None
                                   | Some (s'', os) => Some (s'', o :: os)
                                   end
                 end
    end.
End Memo.
Arguments Ret {V}. Arguments Thrown {V}. Arguments Give {K V}. Arguments Throw {K V}. Arguments Self {K V}.
