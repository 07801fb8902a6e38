(* What file names mean, independently of the functions of Files_Model: how the operating system
   finds the file of a name in a tree of directories, and what a simplified name looks like. *)
From Coq Require Import List Bool Arith Ascii.
Import ListNotations.
From Verif Require Import Files_Model.

(** * Finding a file *)

(* A file system: its files and directories, which of them are directories, the directory above
   a directory, and the files that a directory lists under their names. *)
Record fs := Fs { node : Type; root : node; isdir : node -> bool; up : node -> node;
                  entry : node -> str -> option node }.

(* No symbolic links to directories: a directory that is listed in n has n above it. *)
Definition tree (F : fs) : Prop :=
  isdir F (root F) = true /\ up F (root F) = root F /\
  forall n c m, entry F n c = Some m -> isdir F m = true -> up F m = n.

Definition str_eqb (a b : str) : bool := if list_eq_dec ascii_dec a b then true else false.

(* The parts of a name between its slashes; there is one more of them than there are slashes. *)
Fixpoint split (s : str) : list str :=
  match s with
  | [] => [[]]
  | c :: t =>
    if is c slash then [] :: split t
    else match split t with
         | [] => [[c]]
         | p :: ps => (c :: p) :: ps
         end
  end.

(* One step: an empty part (two slashes, or a slash at the end) is like a dot. *)
Definition step (F : fs) (n : node F) (c : str) : option (node F) :=
  if isdir F n then
    if str_eqb c [] || str_eqb c [dot] then Some n
    else if str_eqb c [dot; dot] then Some (up F n)
    else entry F n c
  else None.

Fixpoint walk (F : fs) (n : node F) (cs : list str) : option (node F) :=
  match cs with
  | [] => Some n
  | c :: cs' => match step F n c with Some m => walk F m cs' | None => None end
  end.

(* The file that a name denotes for a process whose working directory is cwd *)
Definition resolve (F : fs) (cwd : node F) (name : str) : option (node F) :=
  match name with
  | [] => None
  | c :: t => if is c slash then walk F (root F) (split t) else walk F cwd (split name)
  end.

(** * Names *)

(* No null character, so that C sees the whole name *)
Definition plain (s : str) : Prop := ~ In null s.

(* A component that names an entry of a directory *)
Definition ordinary (c : str) : Prop := c <> [] /\ c <> [dot] /\ c <> [dot; dot] /\ ~ In slash c /\ ~ In null c.

Definition absolute (s : str) : Prop := exists t, s = slash :: t.

(* All components followed by a slash *)
Definition slashed (cs : list str) : str := concat (map (fun c => c ++ [slash]) cs).

(* A name that cannot be simplified: a slash or nothing, as many dot-dots as one likes if there is
   no slash at the start, and ordinary components; with or without a slash at the end.  The
   current directory is a dot. *)
Definition name_of (abs : bool) (ups : nat) (names : list str) (final : bool) (s : str) : Prop :=
  let cs := @repeat str [dot; dot] ups ++ names in
  Forall ordinary names /\ (abs = true -> ups = 0) /\
  (if final then s = (if abs then [slash] else []) ++ slashed cs
   else s ++ [slash] = (if abs then [slash] else []) ++ slashed cs /\ cs <> []).

Definition simple (s : str) : Prop :=
  s = [dot] \/ exists abs ups names final, name_of abs ups names final s /\ s <> [].

(* The file system in which every name exists in every directory *)
Definition full_tree : fs := Fs (list str) [] (fun _ => true) (@tl str) (fun n c => Some (c :: n)).

(* Names that do not depend on the default directory, and the others *)
Definition rooted (s : str) : Prop := absolute s \/ exists t, s = tilde :: t.
Definition relative (s : str) : Prop := ~ absolute s /\ tilde_name s = false.

(* What realpath(3) is trusted to do: it fails if there is no such file, and otherwise returns a
   name from the root for it, with no slash at the end unless the name is the one of the root. *)
Definition realpath_ok (F : fs) (cwd : node F) (realpath : str -> option str) : Prop :=
  forall p, match realpath p with
            | Some q => absolute q /\ plain q /\ resolve F cwd q = resolve F cwd p /\ resolve F cwd p <> None /\
                        (q = [slash] \/ ~ exists q', q = q' ++ [slash])
            | None => resolve F cwd p = None
            end.
