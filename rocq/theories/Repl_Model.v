(** The interactive interpreter: lisp/rep/util/repl.jl.

    The reader and the regular expressions that tell commands and empty lines from forms
    are parameters; evaluation and commands are only recorded. Names are lists of bytes. *)

From Coq Require Import ZArith List Bool Arith.
Import ListNotations.
Open Scope Z_scope.

(** *** Commands *)
Definition name_dec : forall a b : list Z, {a = b} + {a <> b} := list_eq_dec Z.eq_dec.
Section Commands.
Context {C : Type}.
Fixpoint assq (n : list Z) (l : list (list Z * C)) : option (list Z * C) :=
  match l with
  | [] => None
  | c :: l => if name_dec (fst c) n then Some c else assq n l
  end.
Fixpoint rplacd_cell (n : list Z) (v : C) (l : list (list Z * C)) : list (list Z * C) :=
  match l with
  | [] => []
  | c :: l => if name_dec (fst c) n then (fst c, v) :: l else c :: rplacd_cell n v l
  end.
(** repl.jl 179-183 define-repl-command *)
Definition define_command (l : list (list Z * C)) (c : list Z * C) : list (list Z * C) :=
  match assq (fst c) l with
  | Some _ => rplacd_cell (fst c) (snd c) l
  | None => c :: l
  end.
(** 190, 198: the quoted name at the beginning of the other *)
Fixpoint begins (n t : list Z) : bool :=
  match n, t with
  | [], _ => true
  | x :: n, y :: t => (x =? y) && begins n t
  | _, [] => false
  end.
Inductive found := Cell (c : list Z * C) | Unknown | Ambiguous.
(** 191-206 *)
Fixpoint find_loop (n : list Z) (rest : list (list Z * C)) (matched : option (list Z * C)) : found :=
  match rest with
  | [] => match matched with Some c => Cell c | None => Unknown end
  | c :: rest =>
      if begins n (fst c) then
        match matched with Some _ => Ambiguous | None => find_loop n rest (Some c) end
      else find_loop n rest matched
  end.
(** 185-206 find-command *)
Definition find_command (n : list Z) (l : list (list Z * C)) : found :=
  match assq n l with Some c => Cell c | None => find_loop n l None end.
End Commands.
Arguments found : clear implicits.

(** *** Input *)
Section Input.
Context {F : Type}.
(** What the reader says about a text: a form and what is behind it, that more is needed,
    another error *)
Inductive reading := Whole (x : F) (rest : list Z) | Premature | Bad.
Inductive kind := KCommand | KBlank | KForm.
Inductive done := Evaluated (x : F) | Commanded (t : list Z) | Failed.
Variable kind_of : list Z -> kind.
Variable read : list Z -> reading.
Record repl := mkrepl { pending : list Z; log : list done }.
(** 63-99 repl-iterate, with whether to run again *)
Definition iterate (s : repl) (input : list Z) : repl * bool :=
  let input := pending s ++ input in
  match kind_of input with
  | KCommand => (mkrepl [] (log s ++ [Commanded input]), true)
  | KBlank => (mkrepl [] (log s), true)
  | KForm =>
      match read input with
      | Whole x _ => (mkrepl [] (log s ++ [Evaluated x]), true)
      | Premature => (mkrepl input (log s), match input with [] => false | _ => true end)
      | Bad => (mkrepl [] (log s ++ [Failed]), true)
      end
  end.
(** 109-128 repl: the lines that come, until the end or until it should not run again *)
Fixpoint run_repl (s : repl) (lines : list (list Z)) : repl :=
  match lines with
  | [] => s
  | l :: lines => let (s, again) := iterate s l in if again then run_repl s lines else s
  end.
End Input.
Arguments reading : clear implicits.
Arguments done : clear implicits.
Arguments repl : clear implicits.
