(** Extraction of documentation from sources: src/repdoc.c.

    Text is a list of bytes without zeros. The sizes of the two buffers (512 and 16384)
    are parameters. *)

From Coq Require Import ZArith List Bool.
Import ListNotations.
Open Scope Z_scope.

(** fgets (s, n, f): at most n - 1 bytes, up to and with the newline; None at the end of
    the file. With room for nothing but the terminating zero, an empty string is given
    and nothing is read (as in the GNU C library). *)
Fixpoint take_line (k : nat) (t : list Z) : list Z * list Z :=
  match k, t with
  | O, _ => ([], t)
  | _, [] => ([], [])
  | S k, c :: t => if c =? 10 then ([10], t) else let (a, b) := take_line k t in (c :: a, b)
  end.
Definition fgets (n : nat) (t : list Z) : option (list Z * list Z) :=
  match n, t with
  | O, _ => None
  | S O, _ => Some ([], t)
  | S _, [] => None
  | S k, _ => Some (take_line k t)
  end.

(** strstr: what is before the needle and what behind it *)
Fixpoint strip (n t : list Z) : option (list Z) :=
  match n, t with
  | [], _ => Some t
  | _, [] => None
  | x :: n, y :: t => if x =? y then strip n t else None
  end.
Fixpoint strstr (n t : list Z) : option (list Z * list Z) :=
  match strip n t with
  | Some r => Some ([], r)
  | None =>
      match t with
      | [] => None
      | c :: t => match strstr n t with Some (a, b) => Some (c :: a, b) | None => None end
      end
  end.

(** "::doc:", "::" and "::end::" *)
Definition doc_mark : list Z := [58; 58; 100; 111; 99; 58].
Definition colons : list Z := [58; 58].
Definition end_mark : list Z := [58; 58; 101; 110; 100; 58; 58].

(** repdoc.c 57-63: the lines up to the one with the end mark are put one behind the
    other. None: not finished *)
Fixpoint body (fuel size : nat) (out t : list Z) : option (list Z * list Z) :=
  match fuel with
  | O => None
  | S fuel =>
      match fgets (size - length out) t with
      | None => Some (out, t)
      | Some (line, t) =>
          match strstr end_mark line with
          | Some _ => Some (out, t)
          | None => body fuel size (out ++ line) t
          end
      end
  end.
(** 38-77 scanfile: what is stored, in order; 64-67: the last byte, the newline, is
    dropped *)
Fixpoint scanfile (fuel lsize size : nat) (t : list Z) : option (list (list Z * list Z)) :=
  match fuel with
  | O => None
  | S fuel =>
      match fgets lsize t with
      | None => Some []
      | Some (line, t) =>
          match strstr doc_mark line with
          | None => scanfile fuel lsize size t
          | Some (_, r) =>
              match strstr colons r with
              | None => scanfile fuel lsize size t
              | Some (id, _) =>
                  match body fuel size [] t with
                  | None => None
                  | Some (text, t) =>
                      match scanfile fuel lsize size t with
                      | None => None
                      | Some l => Some ((id, removelast text) :: l)
                      end
                  end
              end
          end
      end
  end.
(** 73: gdbm_store with GDBM_REPLACE, and what is found under a name afterwards (the
    database itself is not modelled) *)
Fixpoint bytes_eqb (a b : list Z) : bool :=
  match a, b with
  | [], [] => true
  | x :: a, y :: b => (x =? y) && bytes_eqb a b
  | _, _ => false
  end.
Definition store (db : list (list Z * list Z)) (kv : list Z * list Z) : list (list Z * list Z) :=
  kv :: filter (fun e => negb (bytes_eqb (fst e) (fst kv))) db.
Fixpoint fetch (db : list (list Z * list Z)) (k : list Z) : option (list Z) :=
  match db with
  | [] => None
  | (k', v) :: db => if bytes_eqb k' k then Some v else fetch db k
  end.
(** 94-109: the files of the command line one after the other into one database *)
Fixpoint scan_files (fuel lsize size : nat) (files : list (list Z)) (db : list (list Z * list Z)) : option (list (list Z * list Z)) :=
  match files with
  | [] => Some db
  | f :: files =>
      match scanfile fuel lsize size f with
      | None => None
      | Some l => scan_files fuel lsize size files (fold_left store l db)
      end
  end.
