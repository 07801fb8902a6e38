(** Autoloaded definitions: lisp/rep/util/autoloader.jl, for any table that is read
    and written with a getter and a setter. *)
From Coq Require Import List ZArith Bool Lia.
Import ListNotations.

(** What the getter gives for a symbol.  [VNil] is no definition; [VCell m] is a cell whose car is
    the tag of autoloader.jl 35-36 and whose cdr is the name of a module; [VDef v] is any other
    value.  The tag is a symbol that is not interned, so no other value has it in its car.
    Simplification: symbols and names of modules are numbers, other values are integers. *)
Inductive value := VNil | VCell (m : nat) | VDef (v : Z).

Definition table := nat -> value.
Definition set_def (t : table) (s : nat) (v : value) : table :=
  fun x => if Nat.eqb x s then v else t x.

Record state := mk_state { defs : table; loaded : list nat }.

Section Modules.
  (** What the body of each module defines through the setter, in order.
      Simplification: bodies of modules do nothing else with the table. *)
  Variable body : nat -> list (nat * Z).

  (** src/structures.c 1067-1108 Fintern_structure (called by autoloader.jl 57): a structure that is
      there already is given at once, otherwise the module is loaded. *)
  Definition intern_structure (st : state) (m : nat) : state :=
    if in_dec Nat.eq_dec m (loaded st) then st
    else mk_state (fold_left (fun t d => set_def t (fst d) (VDef (snd d))) (body m) (defs st))
                  (loaded st ++ [m]).

  (** autoloader.jl 43-46 make-autoloader: the function that it gives.
      Simplification: no further arguments for the setter. *)
  Definition autoload (st : state) (s m : nat) : state :=
    match defs st s with
    | VNil => mk_state (set_def (defs st) s (VCell m)) (loaded st)
    | _ => st
    end.

  (** autoloader.jl 52-59 autoloader-ref: the function that it gives *)
  Definition autoload_ref (st : state) (s : nat) : state * value :=
    match defs st s with
    | VCell m => let st' := intern_structure st m in (st', defs st' s)
    | v => (st, v)
    end.

  (** What a program does with the table: install an autoload, define, or refer to a symbol. *)
  Inductive op := Auto (s m : nat) | Define (s : nat) (v : Z) | Ref (s : nat).

  Definition step (x : state * list value) (o : op) : state * list value :=
    let (st, out) := x in
    match o with
    | Auto s m => (autoload st s m, out)
    | Define s v => (mk_state (set_def (defs st) s (VDef v)) (loaded st), out)
    | Ref s => let (st', v) := autoload_ref st s in (st', out ++ [v])
    end.

  Definition start : state := mk_state (fun _ => VNil) [].
  Definition run (ops : list op) : state * list value := fold_left step ops (start, []).
End Modules.
