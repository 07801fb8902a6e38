(** position, on lists that may be circular: lisp/rep/util/misc.jl.

    The cons cells of a list are numbers; a heap says what each one holds. Comparing an
    item with equal is a test of the car, so that a cell says whether it matches. *)

From Coq Require Import ZArith List Bool.
Import ListNotations.

(** None: not a cons cell. Otherwise whether the car equals the item, and the cdr *)
Definition heap := nat -> option (bool * nat).

(** misc.jl 42-50 position. The outer None: not yet finished; the inner one is #f. cdr of
    what is not a cell is nil, which is not a cell either. *)
Fixpoint position_loop (fuel : nat) (h : heap) (slow l i : nat) : option (option nat) :=
  match fuel with
  | O => None
  | S fuel =>
      match h l with
      | None => Some None
      | Some (true, _) => Some (Some i)
      | Some (false, l) =>
          let i := S i in
          match h l with
          | None => Some None
          | Some (true, _) => Some (Some i)
          | Some (false, rest) =>
              if Nat.eqb l slow then Some None
              else match h slow with
                   | None => Some None
                   | Some (_, slow) => position_loop fuel h slow rest (S i)
                   end
          end
      end
  end.
Definition position (fuel : nat) (h : heap) (l : nat) : option (option nat) := position_loop fuel h l l 0.

(** 75-79 option-index, of a list of options that are alone or head a list. [None]: nil. *)
Inductive choice := Alone (x : Z) | Heading (x : Z).
Definition chosen (c : choice) : Z := match c with Alone x => x | Heading x => x end.
Fixpoint option_index (lst : list choice) (x : Z) (i : nat) : option nat :=
  match lst with [] => None | c :: rest => if Z.eqb (chosen c) x then Some i else option_index rest x (S i) end.

(** 66-73 remove-newlines: the text behind point; out, last one first *)
Fixpoint newline_at (t : list Z) : option nat :=
  match t with [] => None | c :: t => if Z.eqb c 10 then Some O else option_map S (newline_at t) end.
Fixpoint newlines_loop (fuel : nat) (t : list Z) (out : list (list Z)) : option (list Z) :=
  match fuel with
  | O => None
  | S fuel =>
      match newline_at t with
      | Some k => newlines_loop fuel (skipn (S k) t) ([32%Z] :: firstn k t :: out)
      | None => Some (concat (rev (t :: out)))
      end
  end.
Definition remove_newlines (t : list Z) : option (list Z) := newlines_loop (S (length t)) t [].
