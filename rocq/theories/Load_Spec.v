(** What [load] takes, and what is called after it, without the loops. *)

From Coq Require Import String List ZArith Bool Permutation.
Import ListNotations.
Local Open Scope string_scope.
Require Import Verif.Load_Model.

(** Of two candidates the first is taken, unless the second was modified later *)
Inductive chosen (readable : string -> bool) (modtime : string -> Z) (a b : option string) : string -> Prop :=
| the_first x : a = Some x -> readable x = true ->
    (forall y, b = Some y -> readable y = true -> (modtime y <= modtime x)%Z) -> chosen readable modtime a b x
| the_second y : b = Some y -> readable y = true ->
    (forall x, a = Some x -> readable x = true -> (modtime x < modtime y)%Z) -> chosen readable modtime a b y.

(** The file is that of the first directory with a readable candidate *)
Definition chosen_in (readable : string -> bool) (modtime : string -> Z)
  (first second : string -> option string) (path : list (option string)) (n : string) : Prop :=
  exists before d after, path = (before ++ Some d :: after)%list /\
    chosen readable modtime (first d) (second d) n /\
    forall d' n', In (Some d') before -> (first d' = Some n' \/ second d' = Some n') -> readable n' = false.
Definition none_in (readable : string -> bool)
  (first second : string -> option string) (path : list (option string)) : Prop :=
  forall d n, In (Some d) path -> (first d = Some n \/ second d = Some n) -> readable n = false.

(** The candidates of a directory: FILE.jlc and FILE.jl, or FILE alone *)
Definition with_suffix (name : string) (sfx : option string) : option string :=
  match sfx with Some s => Some (name ++ s) | None => None end.
Definition compiled (expand : string -> string -> string) (interp no_suffix : bool) (sfx : option string * option string)
  (file d : string) : option string :=
  if no_suffix then Some (expand file d)
  else if interp then None else with_suffix (expand file d) (snd sfx).
Definition source (expand : string -> string -> string) (no_suffix : bool) (sfx : option string * option string)
  (file d : string) : option string :=
  if no_suffix then None else with_suffix (expand file d) (fst sfx).
Definition shared_object (expand : string -> string -> string) (file d : string) : option string :=
  Some (expand file d ++ ".so").
Definition shared_lib (expand : string -> string -> string) (file d : string) : option string :=
  Some (expand ("lib" ++ file ++ ".so") d).

(** The calls that are due *)
Definition pending (al : alist) : list (string * nat) := flat_map (fun x => map (pair (fst x)) (snd x)) al.
(** One entry for a name, as [call-after-load] leaves it *)
Definition one_entry (al : alist) : Prop := NoDup (map fst al).
