(** The cursor shows the opening bracket while a line is edited: src/readline.c.

    The text before the cursor is a list of bytes, the nearest one first; so the index of
    its head in the line is the length of its tail. *)

From Coq Require Import ZArith List Bool.
Import ListNotations.
Open Scope Z_scope.

(** readline.c 109-112 *)
Definition opening (k : Z) : Z :=
  if k =? 41 then 40 else if k =? 93 then 91 else if k =? 125 then 123 else 0.

(** 117-119: the two bytes before are the backslash and the number sign *)
Definition literal_before (r : list Z) : bool :=
  match r with a :: b :: _ => (a =? 92) && (b =? 35) | _ => false end.
Definition slash_before (r : list Z) : bool :=
  match r with a :: _ => a =? 92 | [] => false end.

(** 123-131: back over a string *)
Fixpoint skip_string (t : list Z) : list Z :=
  match t with
  | [] => []
  | x :: r => if (x =? 34) && negb (slash_before r) then r else skip_string r
  end.

(** 102-139 find_matching_paren: None is -1. The fuel is the number of turns of the loop;
    there are never more than bytes *)
Fixpoint find_back (fuel : nat) (c k : Z) (found : nat) (t : list Z) : option nat :=
  match fuel, t with
  | O, _ => None
  | _, [] => None
  | S fuel, x :: r =>
      if literal_before r then find_back fuel c k found r
      else if x =? k then find_back fuel c k (S found) r
      else if x =? 34 then find_back fuel c k found (skip_string r)
      else if x =? c then
        match found with
        | O => Some (length r)
        | S found => find_back fuel c k found r
        end
      else find_back fuel c k found r
  end.
Definition find_matching_paren (k : Z) (t : list Z) : option nat :=
  find_back (S (length t)) (opening k) k 0 t.

(** 141-172 match_paren: a closing bracket k is typed behind t; where the cursor is shown
    for a moment, and the text before it afterwards, where it stays. A count given to the
    key and the pause are not modelled *)
Definition match_paren (k : Z) (t : list Z) : option nat * list Z :=
  (if slash_before t then None
   else match t with [] => None | _ => find_matching_paren k t end, k :: t).
