(** Collection of strings to be translated: lisp/rep/i18n/xgettext.jl.

    Strings and names of files are lists of bytes. What the scan of the forms registers
    is given as a list; the scan itself is not modelled. *)

From Coq Require Import ZArith List Bool.
From Verif Require Import Reader_Model.
Import ListNotations.
Open Scope Z_scope.

Definition bytes_dec : forall a b : list Z, {a = b} + {a <> b} := list_eq_dec Z.eq_dec.

(** assoc, and rplacd of the cell that it gives *)
Fixpoint cell (s : list Z) (l : list (list Z * list (list Z))) : option (list (list Z)) :=
  match l with
  | [] => None
  | (s', fs) :: l => if bytes_dec s' s then Some fs else cell s l
  end.
Fixpoint set_cell (s : list Z) (fs : list (list Z)) (l : list (list Z * list (list Z))) : list (list Z * list (list Z)) :=
  match l with
  | [] => []
  | (s', fs') :: l => if bytes_dec s' s then (s', fs) :: l else (s', fs') :: set_cell s fs l
  end.

(** xgettext.jl 48-54 register, for a file and a string *)
Definition register (found : list (list Z * list (list Z))) (r : list Z * list Z) : list (list Z * list (list Z)) :=
  let (file, s) := r in
  match cell s found with
  | Some fs => if in_dec bytes_dec file fs then found else set_cell s (file :: fs) found
  | None => (s, [file]) :: found
  end.

(** string-match of a backslash and n: where the first one is *)
Fixpoint match_n (t : list Z) : option nat :=
  match t with
  | [] => None
  | c :: r =>
      match r with
      | d :: _ => if (c =? 92) && (d =? 110) then Some 0%nat else option_map S (match_n r)
      | [] => None
      end
  end.
(** 143-147: a line end outside of the quotes behind each of them *)
Fixpoint split_out (fuel point : nat) (out : list Z) : list Z :=
  match fuel with
  | O => out
  | S fuel =>
      if Nat.ltb point (length out) then
        match match_n (skipn point out) with
        | None => out
        | Some i =>
            split_out fuel (point + i + 2 + 3)
              (firstn (point + i) out ++ [92; 110; 34; 10; 34] ++ skipn (point + i + 2) out)
        end
      else out
  end.
(** 138-140: printed with print-escape newlines *)
Definition message (s : list Z) : list Z :=
  let out := print_string EscNewlines s in split_out (length out) 0 out.
(** 134-137, 148: the lines of one string; not in C mode *)
Definition file_line (f : list Z) : list Z := [35; 58; 32] ++ f ++ [32; 10].
Definition entry (x : list Z * list (list Z)) : list Z :=
  concat (map file_line (snd x)) ++ [109; 115; 103; 105; 100; 32] ++ message (fst x)
  ++ [10; 109; 115; 103; 115; 116; 114; 32; 34; 34; 10; 10].
(** 130-149 output-strings *)
Definition output_strings (found : list (list Z * list (list Z))) : list Z := concat (map entry (rev found)).
(** A run of the program *)
Definition extract (regs : list (list Z * list Z)) : list Z := output_strings (fold_left register regs []).
