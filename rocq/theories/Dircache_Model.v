(** The cache of directories of a remote session:
    lisp/rep/io/file-handlers/remote/rep.jl.

    Directories and names of files are numbers, as are the records of files. How a file
    name is split into the two, and symbolic links, are not modelled. Reading a directory
    is one step. *)

From Coq Require Import ZArith List Bool.
Import ListNotations.
Open Scope Z_scope.

(** rep.jl 479-482: directory, expiry, entries *)
Record centry := mkc { c_dir : Z; c_expiry : Z; c_files : list (Z * Z) }.

(** 488-494 remote-rep-dir-cached-p *)
Fixpoint cached (d : Z) (l : list centry) : option centry :=
  match l with [] => None | e :: l => if c_dir e =? d then Some e else cached d l end.
(** delq of the entry found: the first one of its directory *)
Fixpoint drop (d : Z) (l : list centry) : list centry :=
  match l with [] => [] | e :: l => if c_dir e =? d then l else e :: drop d l end.

(** 60-62 *)
Definition expiry_time : Z := 60.
Definition max_dirs : nat := 5.

(** 518-522: (setcdr (nthcdr k l) nil), with k one less than the length of l *)
Definition setcdr_nil (k : nat) (l : list centry) : list centry := firstn (S k) l.
Definition make_room (l : list centry) : list centry :=
  if Nat.leb max_dirs (length l) then setcdr_nil (length l - 1) l else l.

(** 545-550 *)
Fixpoint file_of (base : Z) (l : list (Z * Z)) : option Z :=
  match l with [] => None | (n, i) :: l => if n =? base then Some i else file_of base l end.

Inductive answer := Found (i : Z) | Absent | Error.
Definition answer_of (base : Z) (l : list (Z * Z)) : answer :=
  match file_of base l with Some i => Found i | None => Absent end.

(** 496-550 remote-rep-get-file. [listing]: what the server says of the directory,
    nothing when it cannot read it (537-539: file-errors are ignored). The records are
    collected last one first (564-580). [broken]: the reading ends with another error
    (time-out or interrupt, 208-209) after that many records; the entry has been put
    into the cache before (529-530). *)
Definition get_file (now : Z) (listing : list (Z * Z)) (broken : option nat) (d base : Z) (l : list centry) : answer * list centry :=
  let read l :=
    let l := make_room l in
    match broken with
    | None => (answer_of base (rev listing), mkc d (now + expiry_time) (rev listing) :: l)
    | Some k => (Error, mkc d (now + expiry_time) (rev (firstn k listing)) :: l)
    end in
  match cached d l with
  | None => read l
  | Some e => if now <? c_expiry e then (answer_of base (c_files e), e :: drop d l) else read (drop d l)
  end.

(** 601-607 remote-rep-invalidate-directory *)
Definition invalidate (d : Z) (l : list centry) : list centry :=
  match cached d l with None => l | Some _ => drop d l end.

(** A session in time. The server is what it says of each directory. *)
Record world := mkw { now : Z; server : Z -> list (Z * Z); cache : list centry }.
Inductive event :=
| Look (d base : Z) (broken : option nat)
(** 380-434: a command of this session; afterwards directories are invalidated, whether
    it succeeded or not *)
| Own (after : Z -> list (Z * Z)) (dirs : list Z)
(** anybody else *)
| Others (after : Z -> list (Z * Z))
(** 609-613 remote-rep-empty-cache *)
| Empty.
(** An event some time after the one before *)
Definition step (w : world) (x : Z * event) : world :=
  let t := now w + Z.max 0 (fst x) in
  match snd x with
  | Look d base broken => mkw t (server w) (snd (get_file t (server w d) broken d base (cache w)))
  | Own after dirs => mkw t after (fold_left (fun l d => invalidate d l) dirs (cache w))
  | Others after => mkw t after (cache w)
  | Empty => mkw t (server w) []
  end.
Definition run (w : world) (evs : list (Z * event)) : world := fold_left step evs w.
Definition start (t : Z) (s : Z -> list (Z * Z)) : world := mkw t s [].
(** What a look says, dt after the events so far *)
Definition asked (w : world) (dt d base : Z) : answer :=
  fst (get_file (now w + Z.max 0 dt) (server w d) None d base (cache w)).
