(** [load]: the search for the file, and what is called after it was loaded.

    lispcmds.c 1217-1530, files.c 1476-1500, lisp/rep/io/files.jl 56-75.

    Not modelled: file handlers that signal an error (the jump to path_error
    takes what was found so far), interrupts during the search, messages. *)

From Coq Require Import String List ZArith Bool.
Import ListNotations.
Local Open Scope string_scope.

Section Search.
  (** load_file_exists_p, lispcmds.c 1217-1228: readable and not a directory *)
  Variable readable : string -> bool.
  (** file-modtime *)
  Variable modtime : string -> Z.
  (** expand-file-name FILE DIRECTORY *)
  Variable expand : string -> string -> string.

  (** rep_file_newer_than, files.c 1476-1500 *)
  Definition newer_than (name1 name2 : string) : bool := Z.gtb (modtime name1) (modtime name2).

  (** lispcmds.c 1420-1437; [try] is None while the C variable is null *)
  Definition consider (name try : option string) : option string :=
    match try with
    | None => name
    | Some t =>
        if readable t then
          match name with
          | Some n => if newer_than t n then Some t else name
          | None => Some t
          end
        else name
    end.

  (** 1414-1417: the variable keeps what it had if the suffix is no string *)
  Definition suffixed (dir : string) (sfx try : option string) : option string :=
    match sfx with Some s => Some (dir ++ s) | None => try end.

  (** 1385-1451, one directory of load-path; the name found and the variable
      [try].  The suffixes are the car and the cdr of %load-suffixes *)
  Definition lisp_dir (interp no_suffix : bool) (sfx : option string * option string)
    (file d : string) (try : option string) : option string * option string :=
    let dir := expand file d in
    if no_suffix then ((if readable dir then Some dir else None), try)
    else
      let t1 := if interp then try else suffixed dir (snd sfx) try in
      let n1 := if interp then None else consider None t1 in
      let t0 := suffixed dir (fst sfx) t1 in
      (consider n1 t0, t0).

  (** 1380-1456; the elements of the path that are no strings are None *)
  Fixpoint lisp_path (interp no_suffix : bool) (sfx : option string * option string)
    (file : string) (path : list (option string)) (try : option string) : option string :=
    match path with
    | [] => None
    | None :: path => lisp_path interp no_suffix sfx file path try
    | Some d :: path =>
        let '(name, try) := lisp_dir interp no_suffix sfx file d try in
        match name with
        | Some n => Some n
        | None => lisp_path interp no_suffix sfx file path try
        end
    end.

  (** The second round, 1397-1409 and 1458-1473 *)
  Fixpoint dl_path (file : string) (path : list (option string)) : option string :=
    match path with
    | [] => None
    | None :: path => dl_path file path
    | Some d :: path =>
        match consider (consider None (Some (expand file d ++ ".so"))) (Some (expand ("lib" ++ file ++ ".so") d)) with
        | Some n => Some n
        | None => dl_path file path
        end
    end.

  Inductive found := Lisp (name : string) | Library (name : string) | Missing.

  (** 1329-1491; [no_path] replaces both paths by the empty string.  Missing is
      the error, or nil if NO-ERROR is given *)
  Definition load_search (interp no_suffix no_path : bool) (sfx : option string * option string)
    (load_path dl_load_path : list (option string)) (file : string) : found :=
    let path := if no_path then [Some ""] else load_path in
    match lisp_path interp no_suffix sfx file path None with
    | Some n => Lisp n
    | None =>
        match dl_path file (if no_path then [Some ""] else dl_load_path) with
        | Some n => Library n
        | None => Missing
        end
    end.
End Search.

(** lispcmds.c 2176 *)
Definition default_suffixes : option string * option string := (Some ".jl", Some ".jlc").

(** * after-load-alist *)

Definition alist := list (string * list nat).

(** call-after-load, files.jl 56-64 *)
Fixpoint call_after_load (library : string) (thunk : nat) (al : alist) : option alist :=
  match al with
  | [] => None
  | (f, ts) :: al =>
      if String.eqb library f then Some ((f, thunk :: ts) :: al)
      else match call_after_load library thunk al with Some al => Some ((f, ts) :: al) | None => None end
  end.
Definition register (library : string) (thunk : nat) (al : alist) : alist :=
  match call_after_load library thunk al with
  | Some al => al
  | None => (library, [thunk]) :: al
  end.

Fixpoint assoc (file : string) (al : alist) : option (list nat) :=
  match al with
  | [] => None
  | (f, ts) :: al => if String.eqb file f then Some ts else assoc file al
  end.
(** delq of the element that assoc found *)
Fixpoint delete (file : string) (al : alist) : alist :=
  match al with
  | [] => []
  | (f, ts) :: al => if String.eqb file f then al else (f, ts) :: delete file al
  end.

Section After.
  (** What a thunk does: what it registers, and whether it signals an error *)
  Variable effect : nat -> list (string * nat).
  Variable fails : nat -> bool.

  Definition register_all (l : list (string * nat)) (al : alist) : alist :=
    fold_left (fun al x => register (fst x) (snd x) al) l al.

  (** lispcmds.c 1514-1522; [intr] is rep_INTERRUPTP *)
  Fixpoint call_all (ts : list nat) (intr : bool) (al : alist) : list nat * bool * alist :=
    match ts with
    | [] => ([], intr, al)
    | t :: ts =>
        if intr then ([], intr, al)
        else
          let '(calls, i, al) := call_all ts (fails t) (register_all (effect t) al) in
          (t :: calls, i, al)
    end.

  (** 1501-1526: the calls made, in order *)
  Fixpoint after_load (fuel : nat) (file : string) (intr : bool) (al : alist) : option (list nat * bool * alist) :=
    match fuel with
    | O => None
    | S fuel =>
        match assoc file al with
        | None => Some ([], intr, al)
        | Some ts =>
            let '(calls, intr, al) := call_all ts intr (delete file al) in
            match after_load fuel file intr al with
            | None => None
            | Some (calls', intr, al) => Some (calls ++ calls', intr, al)
            end
        end
    end%list.
End After.
