(* Model of the file name functions: src/unix_files.c (the built-in operations on Unix names),
   src/files.c (the Lisp entry points that dispatch on file handlers) and the handler of names
   that start with a tilde, lisp/rep/io/file-handlers/tilde.jl.

   A Lisp string is the list of its characters.  It may contain null characters; the C code sees
   such a string up to the first of them wherever it uses strchr, strrchr, strlen or stpcpy, and
   so does the model (cstr).  Memory exhaustion, interrupts and the protection of values from the
   garbage collector are left out.  Of the three handlers that rep installs only the one for the
   tilde is modelled (tilde.jl 93-94): the names considered match neither the regexp of remote
   files nor the one of tar archives (lisp/rep/io/file-handlers.jl 50 and 58).  The default
   directory is a string. *)
From Coq Require Import List Bool Arith Ascii.
Import ListNotations.

Definition str := list ascii.
Definition slash : ascii := "/".
Definition dot : ascii := ".".
Definition tilde : ascii := "~".
Definition null : ascii := "000".
Definition is (c d : ascii) : bool := Ascii.eqb c d.

(* The part of a Lisp string that C sees when it is passed as a char pointer (rep_STR). *)
Fixpoint cstr (s : str) : str :=
  match s with
  | [] => []
  | c :: t => if is c null then [] else c :: cstr t
  end.

(* iptr[n], src/unix_files.c 119-131; the terminator reads as a null *)
Definition at_ (i : str) (n : nat) : ascii := nth n i null.

(** * unix_files.c *)

(* The part of a name before its first slash; strchr and memcpy, src/unix_files.c 181-185 *)
Fixpoint until_slash (i : str) : str :=
  match i with
  | [] => []
  | c :: t => if is c slash then [] else c :: until_slash t
  end.

Fixpoint from_slash (i : str) : str :=
  match i with
  | [] => []
  | c :: t => if is c slash then i else from_slash t
  end.

(* Step over slashes; src/unix_files.c 142-143 (backwards over the output) and 191-193 (forwards
   over the input) *)
Fixpoint skip_slashes (i : str) : str :=
  match i with
  | [] => []
  | c :: t => if is c slash then skip_slashes t else i
  end.

(* The buffer of rep_expand_file_name: the characters from buf to optr, the last one first, and
   the largest distance that optr ever had from buf.  What lies above optr is never read again,
   since back never exceeds optr. *)
Record buffer := Buffer { out : str; high : nat }.

(* *optr++ = c *)
Definition put (c : ascii) (b : buffer) : buffer :=
  Buffer (c :: out b) (Nat.max (high b) (S (length (out b)))).

(* memcpy(optr, s, n); optr += n;  src/unix_files.c 184-185 *)
Definition puts (s : str) (b : buffer) : buffer :=
  Buffer (rev_append s (out b)) (Nat.max (high b) (length s + length (out b))).

(* buf[n], for n below optr *)
Definition buf_at (b : buffer) (n : nat) : ascii := nth n (rev (out b)) null.

(* The handling of a component dot-dot; src/unix_files.c 133-176.  slash_follows is the test
   iptr[2] == '/'.  The pointers end and back are given by what lies below them. *)
Definition parent (slash_follows : bool) (b : buffer) : buffer :=
  let optr := length (out b) in
  let below_end := skip_slashes (out b) in
  let below_back := from_slash below_end in
  let end_ := length below_end in
  let back := length below_back in
  let all_dots := forallb (is dot) (until_slash below_end) in
  if (back <? optr) && negb (is (buf_at b back) slash) && (negb all_dots || negb (end_ - back =? 2))
  then Buffer below_back (high b)
  else if all_dots && (end_ =? back) && (back =? 0) && (0 <? optr) && is (buf_at b 0) slash
          && (optr - end_ =? 1)
  then Buffer (skipn (optr - (back + 1)) (out b)) (high b)
  else
    let b1 := put dot (put dot b) in
    if slash_follows then put slash b1 else b1.

(* One turn of the loop of rep_expand_file_name; src/unix_files.c 115-194.  i is the input from
   iptr on, and is not empty. *)
Definition expand_step (i : str) (b : buffer) : str * buffer :=
  if is (at_ i 0) dot && is (at_ i 1) slash then (skip_slashes (skipn 1 i), b)
  else if is (at_ i 0) dot && is (at_ i 1) null then
    (skipn 1 i, if length (out b) =? 0 then put dot b else b)
  else if is (at_ i 0) dot && is (at_ i 1) dot && (is (at_ i 2) slash || is (at_ i 2) null) then
    (skip_slashes (skipn (if is (at_ i 2) null then 2 else 3) i), parent (is (at_ i 2) slash) b)
  else
    let b1 := puts (until_slash i) b in
    let i1 := from_slash i in
    if is (at_ i1 0) slash then (skip_slashes (skipn 1 i1), put slash b1) else (skip_slashes i1, b1).

(* The loop; src/unix_files.c 115-194.  Each turn reads at least one character, so that as many
   turns as there are characters are enough. *)
Fixpoint expand_loop (turns : nat) (i : str) (b : buffer) : buffer :=
  match i with
  | [] => b
  | _ :: _ =>
    match turns with
    | O => b
    | S n => let (i', b') := expand_step i b in expand_loop n i' b'
    end
  end.

(* src/unix_files.c 108-206; the buffer after the loop and the final test.  Whether the result is
   the argument itself or a copy (201-205) is left out. *)
Definition expand_buffer (file : str) : buffer :=
  let b := expand_loop (length (cstr file)) (cstr file) (Buffer [] 0) in
  if length (out b) =? 0 then put dot b else b.

(* src/unix_files.c 108-206.  path_max is PATH_MAX; None stands for a write outside buf. *)
Definition rep_expand_file_name (path_max : nat) (file : str) : option str :=
  let b := expand_buffer file in
  if high b <=? path_max then Some (rev (out b)) else None.

(* src/unix_files.c 101-106 *)
Definition rep_file_name_absolute_p (file : str) : bool := is (at_ file 0) slash || is (at_ file 0) tilde.

(* file_part(name) - name, src/unix_files.c 71-76: the place after the last slash, or 0 *)
Fixpoint after_last_slash (s : str) (n best : nat) : nat :=
  match s with
  | [] => best
  | c :: t => after_last_slash t (S n) (if is c slash then S n else best)
  end.

Definition file_part (file : str) : nat := after_last_slash (cstr file) 0 0.

(* src/unix_files.c 229-234 *)
Definition rep_file_name_nondirectory (file : str) : str :=
  if file_part file =? 0 then file else skipn (file_part file) (cstr file).

(* src/unix_files.c 236-241 *)
Definition rep_file_name_directory (file : str) : str := firstn (file_part file) file.

(* src/unix_files.c 243-262 *)
Definition rep_file_name_as_directory (file : str) : str :=
  if file_part file =? length file then file else file ++ [slash].

(* src/unix_files.c 264-283 *)
Definition rep_directory_file_name (file : str) : str :=
  if negb (file_part file =? length file) then file
  else if length file =? 0 then [dot]
  else if length file =? 1 then file
  else firstn (length file - 1) file.

(* Remove the slashes at the end; src/unix_files.c 220-225.  The list is reversed. *)
Definition chop (s : str) : str := rev (skip_slashes (rev s)).

(* src/unix_files.c 208-227.  realpath(3) is a parameter; its result is a C string.  None stands
   for reading past buf, which strncpy leaves without a terminator if the name fills it. *)
Definition rep_canonical_file_name (realpath : str -> option str) (path_max : nat) (file : str) : option str :=
  match realpath (cstr file) with
  | Some p => Some (chop p)
  | None => if length (cstr file) <? path_max then Some (chop (cstr file)) else None
  end.

(* src/unix_main.c 167-214: the value of user-home-directory for a home directory (the variable
   HOME, or the one of the password file) called src.  The test src[len] != '/' looks at the
   terminator. *)
Definition rep_user_home_directory (src : str) : str :=
  if negb (is (nth (length src) src null) slash) then src ++ [slash] else src.

(** * files.c and tilde.jl *)

(* Does the regexp of the tilde handler, ^~, match?  tilde.jl 93, src/files.c 216-217 *)
Definition tilde_name (file : str) : bool := is (at_ file 0) tilde.

(* src/files.c 377-394.  The handler answers t (tilde.jl 48). *)
Definition file_name_absolute_p (file : str) : bool :=
  if tilde_name file then true else rep_file_name_absolute_p file.

(* src/files.c 541-558.  The handler calls the operation again, now with itself blocked
   (tilde.jl 59-64). *)
Definition file_name_as_directory (file : str) : str := rep_file_name_as_directory file.

(* rep_concat2, src/values.c 298-305 *)
Definition concat2 (s1 s2 : str) : str := cstr s1 ++ cstr s2.

(* src/files.c 431-440: the name that is then simplified *)
Definition join (file dir : str) : str :=
  if file_name_absolute_p file then file
  else
    let d := file_name_as_directory dir in
    if 0 <? length d then concat2 d file else file.

(* The match of (~[^/]* /). in tilde.jl 55, without the blank: the first group and what follows it *)
Definition tilde_split (file : str) : option (str * str) :=
  let rest := from_slash (cstr file) in
  if tilde_name file && (1 <? length rest)
  then Some (firstn (S (length (until_slash (cstr file)))) file,
             skipn (S (length (until_slash (cstr file)))) file)
  else None.

(* Fexpand_file_name called with the tilde handler blocked; src/files.c 396-456 from tilde.jl 57.
   The predicate file-name-absolute-p is not blocked, but its answer is the same. *)
Definition expand_file_name_blocked (path_max : nat) (file dir : str) : option str :=
  rep_expand_file_name path_max (join file dir).

(* The handler for expand-file-name; tilde.jl 49-58 *)
Definition tilde_expand_file_name (path_max : nat) (file : str) : option str :=
  match tilde_split file with
  | Some (user, rest) =>
    match expand_file_name_blocked path_max rest [dot] with
    | Some e => Some (user ++ e)
    | None => None
    end
  | None => Some file
  end.

(* src/files.c 396-456.  dir is BASE-DIR if that is a string, otherwise the default directory. *)
Definition expand_file_name (path_max : nat) (file dir : str) : option str :=
  let f := join file dir in
  if tilde_name f then tilde_expand_file_name path_max f else rep_expand_file_name path_max f.

(* tilde.jl 33-44.  home u is the value of user-home-directory, for the current user if u is
   empty. *)
Definition tilde_expand (home : str -> str) (file : str) : str :=
  if tilde_name file then
    let user := tl (until_slash (cstr file)) in
    let rest := skipn (length (until_slash (cstr file))) file in
    home user ++ (if is (at_ rest 0) slash then skipn 1 rest else rest)
  else file.

(* src/files.c 458-477, with the tilde handler, tilde.jl 65-75: the handler calls the operation
   again on the expanded name, which is then taken as it is. *)
Definition local_file_name (home : str -> str) (path_max : nat) (default file : str) : option str :=
  match expand_file_name path_max file default with
  | None => None
  | Some e =>
    if tilde_name e then expand_file_name path_max (tilde_expand home e) default else Some e
  end.

(* src/files.c 479-501, with the tilde handler, tilde.jl 65-75 *)
Definition canonical_file_name (realpath : str -> option str) (home : str -> str) (path_max : nat) (default file : str) : option str :=
  match expand_file_name path_max file default with
  | None => None
  | Some e =>
    if tilde_name e then
      match expand_file_name path_max (tilde_expand home e) default with
      | None => None
      | Some e' => rep_canonical_file_name realpath path_max e'
      end
    else rep_canonical_file_name realpath path_max e
  end.

(** * The operations on files *)

(* The operations of src/files.c that take the name of one file (first argument), expand it and
   look for a handler (rep_expand_and_get_handler, src/files.c 340-352): lines 1020-1570. *)
Inductive file_op :=
| delete_file | make_directory | delete_directory | file_readable_p | file_writable_p
| file_executable_p | file_exists_p | file_regular_p | file_directory_p | file_symlink_p
| file_owner_p | file_gid | file_uid | file_nlinks | file_size | file_modes | set_file_modes
| file_modes_as_string | file_modtime | directory_files | read_symlink | make_symlink.

(* Does the handler of the tilde know the operation?  The list of tilde.jl 65-72 *)
Definition tilde_knows (op : file_op) : bool :=
  match op with
  | delete_file | delete_directory | make_directory | file_exists_p | file_regular_p
  | file_readable_p | file_writable_p | file_directory_p | file_symlink_p | file_owner_p
  | file_nlinks | file_size | file_modes | file_modes_as_string | set_file_modes | file_modtime
  | directory_files | read_symlink | make_symlink => true
  | file_executable_p | file_gid | file_uid => false
  end.

(* What calling such an operation comes to *)
Inductive outcome :=
| BuiltIn (name : str)   (* the function of unix_files.c is called with this name *)
| Error                  (* the error of tilde.jl 86 *)
| Overflow.              (* a write outside the buffer of rep_expand_file_name *)

(* src/files.c 1020-1570: for instance 1223-1230 for file-executable-p; tilde.jl 46-86.  The
   handler calls the operation again on the name without the tilde. *)
Definition file_operation (home : str -> str) (path_max : nat) (default : str) (op : file_op) (file : str) : outcome :=
  match expand_file_name path_max file default with
  | None => Overflow
  | Some e =>
    if tilde_name e then
      if tilde_knows op then
        match expand_file_name path_max (tilde_expand home e) default with
        | Some e' => BuiltIn e'
        | None => Overflow
        end
      else Error
    else BuiltIn e
  end.
