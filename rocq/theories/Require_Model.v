(** Loading of modules and features by name: require, provide, featurep,
    intern-structure, open-structures, access-structures, make-structure with
    its thunks, name-structure.

    src/structures.c 642-777, 1067-1180, 1380-1464; lispcmds.c 1230-1290;
    lisp/rep/module-system.jl 61-97, structures.jl 51-53.

    Forms that do anything else are [Do].  The value of a form matters only as
    being a structure or not.  Left out: the bindings (Modules_Model), except
    that of `features', which no structure exports to others; the opening of
    rep.module-system in every header; the search for the file (Load_Model):
    a name has a file or not; the handlers of errors: an error ends the
    program. *)

From Coq Require Import List Arith Bool.
Import ListNotations.

Definition name := nat.

Inductive form :=
| Provide (f : name)
| Require (f : name)
| Open (l : list name)                (* open-structures, open *)
| Access (l : list name)              (* access-structures, access *)
| Alias (from to : name)              (* define-structure-alias *)
| Structure (nm : option name) (header body : list form)   (* define-structure, structure *)
| Do (n : nat).

(** A structure: its name, what it opened and accessed, and the value of
    `features' *)
Record struct := mks { sname : option name; imports : list name; accessible : list name; features : list name }.
(** What happened, the last first *)
Inductive event := Loaded (f : name) (into : nat) | Did (n : nat) (into : nat).
(** %structures: the last binding of a name counts *)
Record world := mkw { structs : list struct; names : list (name * option nat); trace : list event }.

Definition memq (f : name) (l : list name) : bool := existsb (Nat.eqb f) l.
Definition empty : struct := mks None [] [] [].
Definition get (w : world) (s : nat) : struct := nth s (structs w) empty.
Fixpoint set_nth (l : list struct) (s : nat) (x : struct) : list struct :=
  match l, s with
  | [], _ => []
  | _ :: l, O => x :: l
  | y :: l, S s => y :: set_nth l s x
  end.
Definition put (w : world) (s : nat) (x : struct) : world := mkw (set_nth (structs w) s x) (names w) (trace w).
Definition note (w : world) (e : event) : world := mkw (structs w) (names w) (e :: trace w).

(** get-structure, 642-656 *)
Fixpoint bound (f : name) (l : list (name * option nat)) : option nat :=
  match l with
  | [] => None
  | (g, r) :: l => if Nat.eqb f g then r else bound f l
  end.
Definition get_structure (w : world) (f : name) : option nat := bound f (names w).
(** name-structure, 658-684 *)
Definition bind_name (w : world) (f : name) (r : option nat) : world := mkw (structs w) ((f, r) :: names w) (trace w).
Definition name_structure (w : world) (s : nat) (nm : option name) : world :=
  match nm with
  | Some f =>
      let w := bind_name w f (Some s) in
      match sname (get w s) with
      | None => put w s (mks (Some f) (imports (get w s)) (accessible (get w s)) (features (get w s)))
      | Some _ => w
      end
  | None =>
      match sname (get w s) with
      | Some f => bind_name w f None
      | None => w
      end
  end.

(** featurep, 1382-1396 *)
Definition featurep (w : world) (cur : nat) (f : name) : bool := memq f (features (get w cur)).
(** provide, 1398-1417 *)
Definition provide (w : world) (cur : nat) (f : name) : world :=
  let x := get w cur in
  put w cur (mks (sname x) (imports x) (accessible x) (if memq f (features x) then features x else f :: features x)).
Definition import (w : world) (cur : nat) (f : name) : world :=
  let x := get w cur in put w cur (mks (sname x) (f :: imports x) (accessible x) (features x)).
Definition make_accessible (w : world) (cur : nat) (f : name) : world :=
  let x := get w cur in put w cur (mks (sname x) (imports x) (f :: accessible x) (features x)).

Inductive value := Other | Struct (s : nat).
Inductive outcome := Done (v : value) (w : world) | Error (w : world) | OutOfFuel (w : world).
Definition andthen (o : outcome) (k : value -> world -> outcome) : outcome :=
  match o with Done v w => k v w | _ => o end.

Section Run.
  (** The forms of the file that is loaded for a name: Fstructure_file, Fload *)
  Variable files : name -> option (list form).
  (** *user-structure*, or the default structure: 1089-1095 *)
  Variable root : nat.

  (** Fload_file, lispcmds.c 1230-1290, in structure [into] *)
  Definition load (run : world -> nat -> list form -> value -> outcome) (w : world) (into : nat) (f : name) : outcome :=
    match files f with
    | None => Error w
    | Some forms => run (note w (Loaded f into)) into forms Other
    end.
  (** intern-structure, 1067-1108 *)
  Definition intern_structure run (w : world) (f : name) : outcome :=
    match get_structure w f with
    | Some s => Done (Struct s) w
    | None => load run w root f
    end.
  (** require, 1419-1464 *)
  Definition require run (w : world) (cur : nat) (f : name) : outcome :=
    if featurep w cur f then Done Other w
    else if memq f (imports (get w cur)) then Done Other w
    else
      match get_structure w f with
      | Some _ => Done Other (provide (import w cur f) cur f)
      | None =>
          andthen (load run w cur f) (fun v w =>
            match v with
            | Struct s => Done Other (provide (import (name_structure w s (Some f)) cur f) cur f)
            | Other => Done Other w
            end)
      end.
  (** open-structures, 1113-1147; the access-structures of 1149-1183 *)
  Fixpoint open_structures run (w : world) (cur : nat) (l : list name) : outcome :=
    match l with
    | [] => Done Other w
    | f :: l =>
        if memq f (imports (get w cur)) then open_structures run w cur l
        else
          andthen (intern_structure run w f) (fun v w =>
            match v with
            | Struct _ => open_structures run (import w cur f) cur l
            | Other => Error w
            end)
    end.
  Fixpoint access_structures run (w : world) (cur : nat) (l : list name) : outcome :=
    match l with
    | [] => Done Other w
    | f :: l =>
        if memq f (accessible (get w cur)) then access_structures run w cur l
        else
          andthen (intern_structure run w f) (fun v w =>
            match v with
            | Struct _ => access_structures run (make_accessible w cur f) cur l
            | Other => Error w
            end)
    end.
  (** make-structure, 690-777: named before its thunks are called *)
  Definition make_structure (run : world -> nat -> list form -> value -> outcome) (w : world) (nm : option name) (header body : list form) : outcome :=
    let s := length (structs w) in
    let w := mkw (structs w ++ [mks nm [] [] []]) (names w) (trace w) in
    let w := match nm with Some _ => name_structure w s nm | None => w end in
    match andthen (run w s header Other) (fun _ w => run w s body Other) with
    | Done _ w => Done (Struct s) w
    | Error w => Error (name_structure w s None)
    | o => o
    end.

  (** The forms one after the other; the value is that of the last *)
  Fixpoint run (fuel : nat) (w : world) (cur : nat) (l : list form) (v : value) : outcome :=
    match fuel with
    | O => OutOfFuel w
    | S fuel =>
        match l with
        | [] => Done v w
        | x :: l =>
            andthen
              match x with
              | Provide f => Done Other (provide w cur f)
              | Require f => require (run fuel) w cur f
              | Open l => open_structures (run fuel) w cur l
              | Access l => access_structures (run fuel) w cur l
              | Alias from to =>
                  match get_structure w from with
                  | Some s => Done Other (name_structure w s (Some to))
                  | None => Error w
                  end
              | Structure nm header body => make_structure (run fuel) w nm header body
              | Do n => Done Other (note w (Did n cur))
              end
              (fun v w => run fuel w cur l v)
        end
    end.
End Run.
