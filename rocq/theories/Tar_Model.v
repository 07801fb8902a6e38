(** Listings of tar files: lisp/rep/io/file-handlers/tar.jl.

    Text is a list of bytes. *)

From Coq Require Import ZArith List Bool.
Import ListNotations.
Open Scope Z_scope.

(** *** The listing as it comes *)
Section Listing.
Context {E : Type}.
(** tarfh-parse-list of one line (tar.jl 209-227), a parameter; errors are not modelled *)
Variable parse : list Z -> E.
Fixpoint first_line (t : list Z) : option (list Z * list Z) :=
  match t with
  | [] => None
  | c :: r => if c =? 10 then Some ([], r)
              else match first_line r with Some (l, r') => Some (c :: l, r') | None => None end
  end.
(** 199-205: the loop over the lines; the entries are the newest first *)
Fixpoint lines_loop (fuel : nat) (t : list Z) (entries : list E) : list Z * list E :=
  match fuel with
  | O => (t, entries)
  | S fuel =>
      match first_line t with
      | Some (l, r) => lines_loop fuel r (parse l :: entries)
      | None => (t, entries)
      end
  end.
(** 192-207 tarfh-output-function: what is pending (nothing is the empty text) and the
    entries *)
Definition output_function (s : list Z * list E) (piece : list Z) : list Z * list E :=
  let t := fst s ++ piece in lines_loop (S (length t)) t (snd s).
(** 316-322 of tarfh-get-file: a new listing; what is pending is global and is not emptied *)
Definition read_listing (pending : list Z) (pieces : list (list Z)) : list Z * list E :=
  let (pe, es) := fold_left output_function pieces (pending, []) in (pe, rev es).
End Listing.

(** *** Directories *)
Definition bytes_dec : forall a b : list Z, {a = b} + {a <> b} := list_eq_dec Z.eq_dec.
Fixpoint behind (dir name : list Z) : option (list Z) :=
  match dir, name with
  | [], _ => Some name
  | x :: dir, y :: name => if x =? y then behind dir name else None
  | _, [] => None
  end.
Fixpoint component (t : list Z) : list Z :=
  match t with [] => [] | c :: r => if c =? 47 then [] else c :: component r end.
(** 264-272 of tarfh-directory-files: the names of the entries, the directory with its slash;
    the regular expression is the quoted directory and at least one byte that is no slash *)
Definition add_file (dir : list Z) (files : list (list Z)) (name : list Z) : list (list Z) :=
  match behind dir name with
  | None => files
  | Some r =>
      match component r with
      | [] => files
      | x => if in_dec bytes_dec x files then files else x :: files
      end
  end.
Definition directory_files (dir : list Z) (names : list (list Z)) : list (list Z) := fold_left (add_file dir) names [].

(** *** Symbolic links *)
Section Links.
Context {N T E : Type}.
Inductive file := Link (target : T) | Other (e : E).
Variable get : N -> option file.
Variable expand : T -> N -> N.
(** 333-342 tarfh-lookup-file; None: not finished *)
Fixpoint lookup_file (fuel : nat) (n : N) : option (option E) :=
  match fuel with
  | O => None
  | S fuel =>
      match get n with
      | None => Some None
      | Some (Other e) => Some (Some e)
      | Some (Link t) => lookup_file fuel (expand t n)
      end
  end.
End Links.
Arguments file : clear implicits.

(** *** Modes *)
Definition char_at (s : list Z) (i : nat) : Z := nth i s 0.
Definition lower (c : Z) : bool := (97 <=? c) && (c <=? 122).
(** 243-252 *)
Definition tuple_function (s : list Z) (point : nat) (tuple : Z) : Z :=
  Z.shiftl ((if negb (char_at s point =? 45) then 4 else 0) + (if negb (char_at s (1 + point) =? 45) then 2 else 0)
            + (if lower (char_at s (2 + point)) then 1 else 0)) (tuple * 3)
  + (if existsb (Z.eqb (char_at s (2 + point))) [115; 83; 116; 84] then Z.shiftl 512 tuple else 0).
(** 239-256 tarfh-file-get-modes *)
Definition get_modes (s : list Z) : Z := tuple_function s 1 2 + tuple_function s 4 1 + tuple_function s 7 0.
