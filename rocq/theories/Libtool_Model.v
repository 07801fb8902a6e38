(** Files of libtool that name a library: src/unix_dl.c 200-213 load_requires and the part of
    rep_intern_dl_library, 241-332, that reads them. *)
From Coq Require Import List ZArith Bool Lia.
Import ListNotations.
Local Open Scope Z_scope.

(** Texts are lists of bytes.  Simplification: files hold no byte 0. *)
Definition bytes := list Z.

(** The strings of unix_dl.c 259, 289, 293 and 296 *)
Definition s_dlname : bytes := [100; 108; 110; 97; 109; 101; 61; 39]%Z.
Definition s_globally : bytes := [114; 101; 112; 95; 111; 112; 101; 110; 95; 103; 108; 111; 98; 97; 108; 108; 121; 61]%Z.
Definition s_yes : bytes := [121; 101; 115]%Z.
Definition s_requires : bytes := [114; 101; 112; 95; 114; 101; 113; 117; 105; 114; 101; 115; 61; 39]%Z.

(** fgets of unix_dl.c 257 with a buffer of 256 bytes: up to 255 bytes, up to and with a newline *)
Fixpoint fgets (n : nat) (t : bytes) : bytes * bytes :=
  match n, t with
  | S n, c :: r => if c =? 10 then ([c], r) else let (a, b) := fgets n r in (c :: a, b)
  | _, _ => ([], t)
  end.

(** strncmp with a string and its length: what is behind it *)
Fixpoint behind (p buf : bytes) : option bytes :=
  match p, buf with
  | [], _ => Some buf
  | x :: p, y :: buf => if x =? y then behind p buf else None
  | _, _ => None
  end.

(** strchr of a quote (unix_dl.c 263, 300): what is before it *)
Fixpoint before_quote (t : bytes) : option bytes :=
  match t with
  | [] => None
  | c :: r => if c =? 39 then Some [] else option_map (cons c) (before_quote r)
  end.

(** unix_dl.c 269-284: the file name up to and with its last slash *)
Fixpoint directory (name : bytes) : bytes :=
  match name with
  | [] => []
  | c :: r =>
      match directory r with
      | [] => if c =? 47 then [c] else []
      | d => c :: d
      end
  end.

Definition blank (c : Z) : bool := (c =? 32) || (c =? 9).

(** strspn and strcspn of blanks (unix_dl.c 203, 206, 210) *)
Fixpoint skip_blanks (t : bytes) : bytes :=
  match t with
  | c :: r => if blank c then skip_blanks r else t
  | [] => []
  end.
Fixpoint word (t : bytes) : bytes * bytes :=
  match t with
  | c :: r => if blank c then ([], t) else let (a, b) := word r in (c :: a, b)
  | [] => ([], [])
  end.

Section Load.
  (** whether Fintern_structure succeeds for a name *)
  Variable loads : bytes -> bool.

  (** unix_dl.c 200-213 load_requires: the names that were asked for, and whether all loaded *)
  Fixpoint load_loop (fuel : nat) (ptr : bytes) : list bytes * bool :=
    match fuel, ptr with
    | S fuel, _ :: _ =>
        let (w, e) := word ptr in
        if loads w
        then let (ws, ok) := load_loop fuel (skip_blanks e) in (w :: ws, ok)
        else ([w], false)
    | _, _ => ([], true)
    end.
  Definition load_requires (ptr : bytes) : list bytes * bool :=
    load_loop (length ptr) (skip_blanks ptr).

  (** the variables of rep_intern_dl_library while it reads; [asked] is what load_requires asked for;
      [failed] is that it returned -1 at unix_dl.c 312 *)
  Record reading := mk_reading {
    dlname : option bytes; globally : bool; asked : list bytes; failed : bool }.

  (** unix_dl.c 259-314, for one buffer *)
  Definition one_line (file_name : bytes) (r : reading) (buf : bytes) : reading :=
    match behind s_dlname buf with
    | Some ptr =>
        match before_quote ptr with
        | Some (c :: n) => mk_reading (Some (directory file_name ++ c :: n)) (globally r) (asked r) false
        | _ => r
        end
    | None =>
    match behind s_globally buf with
    | Some ptr =>
        match behind s_yes ptr with
        | Some _ => mk_reading (dlname r) true (asked r) false
        | None => r
        end
    | None =>
    match behind s_requires buf with
    | Some ptr =>
        match before_quote ptr with
        | Some s => let (ws, ok) := load_requires s in
                    mk_reading (dlname r) (globally r) (asked r ++ ws) (negb ok)
        | None => r
        end
    | None => r
    end end end.

  (** unix_dl.c 257-315: the loop, left at once when a module does not load *)
  Fixpoint read_loop (fuel : nat) (file_name : bytes) (r : reading) (t : bytes) : reading :=
    match fuel, t with
    | S fuel, _ :: _ =>
        let (buf, rest) := fgets 255 t in
        let r' := one_line file_name r buf in
        if failed r' then r' else read_loop fuel file_name r' rest
    | _, _ => r
    end.

  Definition read_la (file_name t : bytes) : reading :=
    read_loop (length t) file_name (mk_reading None false [] false) t.

  (** unix_dl.c 310-316: the file is closed behind the loop only *)
  Definition closed (r : reading) : bool := negb (failed r).
End Load.
