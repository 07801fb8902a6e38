(** Functions that call a function for the elements of a list: src/lispcmds.c mapcar, mapc, filter
    and lisp/rep/data.jl assoc-regexp, member-if, remove-if, remove-if-not, for functions that have
    effects and may leave. *)
From Coq Require Import List ZArith.
Import ListNotations.

(** Lisp values as far as these functions see them.
    Simplification: the cells of the list are not changed by the function that is called. *)
Inductive val := Nil | Atom (n : Z) | Cons (a d : val).

(** How a call ends: with a value, with a throw to the tag return (data.jl 33, 36),
    or with any other exit, an error or a throw. *)
Inductive outcome := Ret (v : val) | Thrown (v : val) | Left_by (n : Z).

(** lispcmds.c 121-132 Fcar and the same for Fcdr: nil of all that is no cell *)
Definition car (v : val) : val := match v with Cons a _ => a | _ => Nil end.
Definition cdr (v : val) : val := match v with Cons _ d => d | _ => Nil end.

(** lispcmds.c 329-356 Fnreverse, on cells that nobody else has *)
Fixpoint nreverse_onto (res head : val) : val :=
  match head with
  | Cons a d => nreverse_onto (Cons a res) d
  | _ => res
  end.
Definition nreverse (head : val) : val := nreverse_onto Nil head.

Section Calls.
  Variable St : Type.

  (** lispcmds.c 557-578 Fmapc.  Simplification: no interrupts. *)
  Fixpoint mapc (fn : St -> val -> St * outcome) (s : St) (list : val) : St * outcome :=
    match list with
    | Cons a d =>
        match fn s a with
        | (s', Ret _) => mapc fn s' d
        | r => r
        end
    | _ => (s, Ret Nil)
    end.

  (** lispcmds.c 522-555 Fmapcar.  Simplification: the cells that are made so far are kept in
      reverse, instead of a pointer to the end of them; no interrupts. *)
  Fixpoint mapcar_loop (fn : St -> val -> St * outcome) (s : St) (res list : val) : St * outcome :=
    match list with
    | Cons a d =>
        match fn s a with
        | (s', Ret v) => mapcar_loop fn s' (Cons v res) d
        | r => r
        end
    | _ => (s, Ret (nreverse res))
    end.
  Definition mapcar fn s list := mapcar_loop fn s Nil list.

  (** lispcmds.c 580-617 Ffilter, with the same simplifications *)
  Fixpoint filter_loop (pred : St -> val -> St * outcome) (s : St) (output list : val) : St * outcome :=
    match list with
    | Cons a d =>
        match pred s a with
        | (s', Ret Nil) => filter_loop pred s' output d
        | (s', Ret _) => filter_loop pred s' (Cons a output) d
        | r => r
        end
    | _ => (s, Ret (nreverse output))
    end.
  Definition filter_list pred s list := filter_loop pred s Nil list.

  (** data.jl 45-51 member-if.  An atom at the end is no null, its car and cdr are nil. *)
  Fixpoint member_if (fn : St -> val -> St * outcome) (s : St) (lst : val) : St * outcome :=
    match lst with
    | Nil => (s, Ret Nil)
    | Atom _ =>
        match fn s Nil with
        | (s', Ret Nil) => (s', Ret Nil)
        | (s', Ret _) => (s', Ret lst)
        | r => r
        end
    | Cons a d =>
        match fn s a with
        | (s', Ret Nil) => member_if fn s' d
        | (s', Ret _) => (s', Ret lst)
        | r => r
        end
    end.

  (** data.jl 53-60 remove-if; an atom at the end as before *)
  Fixpoint remove_loop (pred : St -> val -> St * outcome) (s : St) (rest out : val) : St * outcome :=
    match rest with
    | Nil => (s, Ret (nreverse out))
    | Atom _ =>
        match pred s Nil with
        | (s', Ret Nil) => (s', Ret (nreverse (Cons Nil out)))
        | (s', Ret _) => (s', Ret (nreverse out))
        | r => r
        end
    | Cons a d =>
        match pred s a with
        | (s', Ret Nil) => remove_loop pred s' d (Cons a out)
        | (s', Ret _) => remove_loop pred s' d out
        | r => r
        end
    end.
  Definition remove_if pred s lst := remove_loop pred s lst Nil.

  (** data.jl 62-65 remove-if-not; [Atom 1] is t *)
  Definition negated (fn : St -> val -> St * outcome) (s : St) (x : val) : St * outcome :=
    match fn s x with
    | (s', Ret Nil) => (s', Ret (Atom 1))
    | (s', Ret _) => (s', Ret Nil)
    | r => r
    end.
  Definition remove_if_not fn s lst := remove_if (negated fn) s lst.

  (** data.jl 30-36 assoc-regexp; [matches] is string-match with the input, for a regular
      expression *)
  Definition assoc_regexp (matches : St -> val -> St * outcome) (s : St) (alist : val) : St * outcome :=
    match mapc (fun s cell =>
                  match matches s (car cell) with
                  | (s', Ret Nil) => (s', Ret Nil)
                  | (s', Ret _) => (s', Thrown cell)
                  | r => r
                  end) s alist with
    | (s', Thrown v) => (s', Ret v)
    | r => r
    end.
End Calls.
