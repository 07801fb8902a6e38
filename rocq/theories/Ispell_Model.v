(** Words are checked by a process: lisp/rep/util/ispell.jl.

    The output of the process is a list of pieces in the order in which they come; None is
    a time without output that is longer than the limit. *)

From Coq Require Import ZArith List Bool.
Import ListNotations.
Open Scope Z_scope.

(** The first line with its newline, and what is behind it *)
Fixpoint cut_line (t : list Z) : option (list Z * list Z) :=
  match t with
  | [] => None
  | c :: r => if c =? 10 then Some ([10], r)
              else match cut_line r with Some (l, r') => Some (c :: l, r') | None => None end
  end.

(** ispell.jl 127-137 ispell-read-line with 75-88 output-filter: the callback takes one line
    and is removed, so what is behind that line stays pending. First what is pending is
    looked at, then pieces are waited for. The line or None for an error, what is pending,
    the pieces to come. That the process ends is not modelled *)
Fixpoint wait_line (pending : list Z) (pieces : list (option (list Z))) : option (list Z) * list Z * list (option (list Z)) :=
  match pieces with
  | [] => (None, pending, [])
  | None :: pieces => (None, pending, pieces)
  | Some p :: pieces =>
      match cut_line (pending ++ p) with
      | Some (l, r) => (Some l, r, pieces)
      | None => wait_line (pending ++ p) pieces
      end
  end.
Definition read_line (pending : list Z) (pieces : list (option (list Z))) : option (list Z) * list Z * list (option (list Z)) :=
  match cut_line pending with
  | Some (l, r) => (Some l, r, pieces)
  | None => wait_line pending pieces
  end.

(** 159-175 ispell-word: the response, or None for an error *)
Definition starts_empty (l : list Z) : bool := match l with c :: _ => c =? 10 | [] => false end.
Definition ispell_word (pending : list Z) (pieces : list (option (list Z))) : option (list Z) * list Z * list (option (list Z)) :=
  match read_line pending pieces with
  | (None, pe, ps) => (None, pe, ps)
  | (Some l, pe, ps) =>
      if starts_empty l then (None, pe, ps)
      else match read_line pe ps with
           | (None, pe, ps) => (None, pe, ps)
           | (Some l', pe, ps) => (if starts_empty l' then Some l else None, pe, ps)
           end
  end.
(** Words checked one after the other *)
Fixpoint check_words (n : nat) (pending : list Z) (pieces : list (option (list Z))) : list (option (list Z)) * list Z * list (option (list Z)) :=
  match n with
  | O => ([], pending, pieces)
  | S n =>
      match ispell_word pending pieces with
      | (r, pe, ps) => match check_words n pe ps with (rs, pe, ps) => (r :: rs, pe, ps) end
      end
  end.
