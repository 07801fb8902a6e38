(** Special variables in restricted environments: src/symbols.c 484-1352, as
    used by lisp/rep/util/gaol.jl 137-160 for untrusted code.

    Symbols and structures are numbered; values are integers.  Not modelled:
    buffer-local values (SF_LOCAL), constants, the debugger's flag, the
    documentation of defvar (a put afterwards) and lexical bindings: the
    variables here are those that are free in the code.  The default value of
    defvar is a value rather than a form. *)
From Coq Require Import List ZArith Bool.
Import ListNotations.

Definition sym := nat.
Definition id := nat.

(** src/rep_lisp.h 431-443 *)
Record flags := { special : bool; weak : bool; weak_mod : bool; defvard : bool }.
(** special_env of a structure: t, or a list (src/repint.h 137) *)
Inductive senv := All | Only (l : list sym).

(** [specials]: the structure of special values; [bound]: rep_special_bindings,
    None the void value; [own]: the bindings of each structure *)
Record state := {
  flag : sym -> flags;
  specials : sym -> option Z;
  bound : list (sym * option Z);
  own : id -> sym -> option Z;
  env : id -> senv;
  plist : sym -> list (Z * Z) }.

Definition upd {A} (f : nat -> A) (k : nat) (a : A) : nat -> A := fun k' => if Nat.eqb k' k then a else f k'.
Definition set_flag st x f := {| flag := upd (flag st) x f; specials := specials st; bound := bound st; own := own st; env := env st; plist := plist st |}.
Definition set_special st x v := {| flag := flag st; specials := upd (specials st) x v; bound := bound st; own := own st; env := env st; plist := plist st |}.
Definition set_bound st b := {| flag := flag st; specials := specials st; bound := b; own := own st; env := env st; plist := plist st |}.
Definition set_own st i x v := {| flag := flag st; specials := specials st; bound := bound st; own := upd (own st) i (upd (own st i) x v); env := env st; plist := plist st |}.
Definition set_env st i e := {| flag := flag st; specials := specials st; bound := bound st; own := own st; env := upd (env st) i e; plist := plist st |}.
Definition set_plist st x l := {| flag := flag st; specials := specials st; bound := bound st; own := own st; env := env st; plist := upd (plist st) x l |}.

(** 562-589 search_special_environment: -1, 1, 0 *)
Inductive verdict := Anything | Listed | Unlisted.
Definition search (st : state) (i : id) (x : sym) : verdict :=
  match env st i with
  | All => Anything
  | Only l => if existsb (Nat.eqb x) l then Listed else Unlisted
  end.
(** 544-560 search_special_bindings *)
Fixpoint binding (b : list (sym * option Z)) (x : sym) : option (option Z) :=
  match b with
  | [] => None
  | (y, v) :: b => if Nat.eqb y x then Some v else binding b x
  end.
Fixpoint set_binding (b : list (sym * option Z)) (x : sym) (v : option Z) : list (sym * option Z) :=
  match b with
  | [] => []
  | (y, w) :: b => if Nat.eqb y x then (y, v) :: b else (y, w) :: set_binding b x v
  end.

Inductive answer := Value (v : Z) | Truth (b : bool) | Properties (l : list (Z * Z)) | Property (v : option Z) | Set_ok | Error.

Section Gaol.
  (** what a structure has from those it opened; the flag STF_SET_BINDS; the
      structure named by *user-structure*; closures of an autoload form *)
  Variable imports : id -> sym -> option Z.
  Variable set_binds : id -> bool.
  Variable user : option id.
  Variable autoload : Z -> bool.

  (** src/structures.c 781-805 *)
  Definition structure_ref (st : state) (i : id) (x : sym) : option Z :=
    match own st i x with Some v => Some v | None => imports i x end.
  (** src/structures.c 821-862 *)
  Definition structure_set (st : state) (i : id) (x : sym) (v : option Z) : option state :=
    match v with
    | None => Some (set_own st i x None)
    | Some _ =>
        if set_binds i then Some (set_own st i x v)
        else match own st i x with Some _ => Some (set_own st i x v) | None => None end
    end.

  (** the special value: 860-867, 908-912 *)
  Definition special_value (st : state) (x : sym) : option Z :=
    match binding (bound st) x with Some v => v | None => specials st x end.
  Definition set_special_value (st : state) (x : sym) (v : option Z) : state :=
    match binding (bound st) x with
    | Some _ => set_bound st (set_binding (bound st) x v)
    | None => set_special st x v
    end.
  (** 836-887 symbol-value without error *)
  Definition symbol_value (st : state) (i : id) (x : sym) : option Z :=
    if special (flag st x)
    then match search st i x with
         | Anything => special_value st x
         | Listed => if weak_mod (flag st x) then None else special_value st x
         | Unlisted => None
         end
    else structure_ref st i x.
  (** 889-920 default-value *)
  Definition default_value (st : state) (i : id) (x : sym) : option Z :=
    if special (flag st x)
    then match search st i x with
         | Anything => special_value st x
         | Listed => if weak_mod (flag st x) then None else special_value st x
         | Unlisted => None
         end
    else structure_ref st i x.
  (** 922-967 do_set with Fstructure_set; None is an error *)
  Definition do_set (st : state) (i : id) (x : sym) (v : option Z) : option state :=
    if special (flag st x)
    then match search st i x with
         | Anything => Some (set_special_value st x v)
         | Listed => if weak_mod (flag st x) then None else Some (set_special_value st x v)
         | Unlisted => None
         end
    else structure_set st i x v.
  (** 985-1015 set-default *)
  Definition set_default (st : state) (i : id) (x : sym) (v : Z) : option state :=
    if special (flag st x)
    then match search st i x with
         | Anything => Some (set_special_value st x (Some v))
         | Listed => if weak_mod (flag st x) then None else Some (set_special_value st x (Some v))
         | Unlisted => None
         end
    else match structure_set st i x (Some v) with Some st' => Some st' | None => None end.
  Definition is_some {A} (o : option A) : bool := match o with Some _ => true | None => false end.
  (** 1046-1067 default-boundp *)
  Definition default_boundp (st : state) (i : id) (x : sym) : bool :=
    if special (flag st x) then is_some (special_value st x) else is_some (structure_ref st i x).
  (** src/structures.c 1621-1639 rep_get_initial_special_value *)
  Definition get_initial (st : state) (x : sym) : option (Z * state) :=
    match user with
    | Some u => match structure_ref st u x with Some v => Some (v, set_own st u x None) | None => None end
    | None => None
    end.

  (** 692-834 defvar *)
  Definition defvar (st : state) (i : id) (x : sym) (v : Z) : state * answer :=
    let '(st, tmp) :=
      if default_boundp st i x
      then match symbol_value st i x with
           | Some w => if autoload w then (match do_set st i x None with Some st' => st' | None => st end, false) else (st, true)
           | None => (st, true)
           end
      else (st, false) in
    let spec := search st i x in
    let f := flag st x in
    if match spec with Unlisted => defvard f && negb (weak f) | _ => false end then (st, Error)
    else
      let '(st, v, tmp) :=
        if special f then (st, v, tmp)
        else match get_initial st x with
             | Some (w, st') => (st', w, false)
             | None => (st, v, tmp)
             end in
      let all := match env st i with All => true | Only _ => false end in
      let st := if negb tmp || (weak f && negb (weak_mod f) && all) then set_special st x (Some v) else st in
      match spec with
      | Unlisted =>
          let st := set_flag st x {| special := true; weak := true; weak_mod := weak_mod f; defvard := true |} in
          (set_env st i (Only (x :: match env st i with Only l => l | All => [] end)), Set_ok)
      | _ =>
          (set_flag st x
             (if all && weak f then {| special := true; weak := false; weak_mod := true; defvard := true |}
              else {| special := true; weak := weak f; weak_mod := weak_mod f; defvard := true |}), Set_ok)
      end.

  (** 1319-1340 make-variable-special *)
  Definition make_special (st : state) (i : id) (x : sym) : state * answer :=
    match search st i x with
    | Unlisted => (st, Error)
    | _ =>
        let f := flag st x in
        let st := if special f then st
                  else match get_initial st x with Some (w, st') => set_special st' x (Some w) | None => st end in
        (set_flag st x {| special := true; weak := weak f; weak_mod := weak_mod f; defvard := defvard f |}, Set_ok)
    end.

  (** 1227-1265 put *)
  Fixpoint put_in (l : list (Z * Z)) (p v : Z) : option (list (Z * Z)) :=
    match l with
    | [] => None
    | (q, w) :: l => if Z.eqb q p then Some ((q, v) :: l) else match put_in l p v with Some l' => Some ((q, w) :: l') | None => None end
    end.
  Fixpoint get_in (l : list (Z * Z)) (p : Z) : option Z :=
    match l with [] => None | (q, w) :: l => if Z.eqb q p then Some w else get_in l p end.

  (** what Lisp code can do with a variable *)
  Inductive op :=
  | Defvar (x : sym) (v : Z) | Symbol_value (x : sym) | Default_value (x : sym) | Set_ (x : sym) (v : Z)
  | Set_default (x : sym) (v : Z) | Makunbound (x : sym) | Boundp (x : sym) | Default_boundp (x : sym)
  | Setplist (x : sym) (l : list (Z * Z)) | Put (x : sym) (p v : Z) | Symbol_plist (x : sym) | Get (x : sym) (p : Z)
  | Make_variable_special (x : sym) | Special_variable_p (x : sym).

  Definition or_error (st : state) (o : option state) : state * answer :=
    match o with Some st' => (st', Set_ok) | None => (st, Error) end.
  Definition or_void (st : state) (o : option Z) : state * answer :=
    (st, match o with Some v => Value v | None => Error end).
  Definition if_listed (st : state) (i : id) (x : sym) (r : state * answer) : state * answer :=
    match search st i x with Unlisted => (st, Error) | _ => r end.
  (** the code runs in structure i *)
  Definition step (st : state) (i : id) (o : op) : state * answer :=
    match o with
    | Defvar x v => defvar st i x v
    | Symbol_value x => or_void st (symbol_value st i x)
    | Default_value x => or_void st (default_value st i x)
    | Set_ x v => or_error st (do_set st i x (Some v))
    | Set_default x v => or_error st (set_default st i x v)
    | Makunbound x => or_error st (do_set st i x None)                       (* 1192-1200 *)
    | Boundp x => (st, Truth (is_some (symbol_value st i x)))                (* 1069-1078 *)
    | Default_boundp x => (st, Truth (default_boundp st i x))
    | Setplist x l => if_listed st i x (set_plist st x l, Set_ok)             (* 1018-1033 *)
    | Put x p v =>
        if_listed st i x (set_plist st x (match put_in (plist st x) p v with Some l => l | None => (p, v) :: plist st x end), Set_ok)
    | Symbol_plist x => if_listed st i x (st, Properties (plist st x))        (* 1080-1096 *)
    | Get x p => (st, Property (get_in (plist st x) p))                      (* 1202-1225 *)
    | Make_variable_special x => make_special st i x
    | Special_variable_p x => (st, Truth (special (flag st x)))              (* 1342-1352 *)
    end.

  (** Code that does one thing after the other, depending on the answers: Let
      binds a variable around a body (602-614 rep_bind_special and its
      undoing 640-680; what is not special is lexical), Call calls a closure of
      another structure (rep_USE_FUNARG) *)
  Inductive prog :=
  | Return (a : answer)
  | Do (o : op) (k : answer -> prog)
  | Let (x : sym) (v : Z) (body : prog) (k : answer -> prog)
  | Call (i : id) (body : prog) (k : answer -> prog).
  Fixpoint run (i : id) (st : state) (p : prog) : state * answer :=
    match p with
    | Return a => (st, a)
    | Do o k => let '(st, a) := step st i o in run i st (k a)
    | Let x v body k =>
        if special (flag st x)
        then match search st i x with
             | Unlisted => run i st (k Error)
             | _ =>
                 let '(st, a) := run i (set_bound st ((x, Some v) :: bound st)) body in
                 run i (set_bound st (tl (bound st))) (k a)
             end
        else let '(st, a) := run i st body in run i st (k a)
    | Call j body k => let '(st, a) := run j st body in run i st (k a)
    end.

  (** What the compiler makes of defvar inside another form:
      lisp/rep/vm/compiler/rep.jl 273-289 trans-defvar *)
  Definition compiled_defvar (x : sym) (v : Z) (k : answer -> prog) : prog :=
    Do (Make_variable_special x) (fun _ => Do (Boundp x) (fun b =>
      match b with Truth true => k b | _ => Do (Set_ x v) k end)).
End Gaol.
