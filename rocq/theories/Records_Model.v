(* Data objects (src/datums.c) and record types (lisp/rep/data/records.jl).
   Printing (define-datum-printer, record-printer, disclosers) is left out: the
   printer of a type is registered when the type is made and changes no record. *)
From Coq Require Import List Arith Bool Lia.
Import ListNotations.

Definition sym := nat.

(* Values. Nil is the empty list. Fn is a builtin function, Ref an object in
   the heap. *)
Inductive value := Nil | Sym (s : sym) | Fn (f : sym) | Ref (a : nat).

(* Objects. A record type is the vector (vector name fields nil) of
   records.jl 71-74; its elements are kept apart here because only the
   functions of records.jl 76-79 look at them, and only its third element,
   the discloser, ever changes. *)
Inductive obj :=
| Vec (l : list value)
| Datum (id v : value)
| RType (name : sym) (fields : list sym).

(* The state: the heap, and the value slot of rep_eol_datum, the static
   datum that the empty list points to (datums.c 42-43, 155-171: its id is the
   empty list itself, and so is its value at the start). *)
Record state := mk { heap : list obj; eol : value }.

Definition initial : state := mk [] Nil.

(* Pointer equality: DATUM_ID (obj) == id, and eq *)
Definition veq (a b : value) : bool :=
  match a, b with
  | Nil, Nil => true
  | Sym x, Sym y => Nat.eqb x y
  | Fn x, Fn y => Nat.eqb x y
  | Ref x, Ref y => Nat.eqb x y
  | _, _ => false
  end.

Definition alloc (st : state) (o : obj) : value * state :=
  (Ref (length (heap st)), mk (heap st ++ [o]) (eol st)).
Definition fetch (st : state) (v : value) : option obj :=
  match v with Ref a => nth_error (heap st) a | _ => None end.
Fixpoint upd {A} (l : list A) (k : nat) (x : A) : list A :=
  match l, k with
  | [], _ => []
  | _ :: r, 0 => x :: r
  | y :: r, S k => y :: upd r k x
  end.
Definition store (st : state) (v : value) (o : obj) : state :=
  match v with Ref a => mk (upd (heap st) a o) (eol st) | _ => st end.

(* DATUMP, DATUM_ID and DATUM_VALUE (datums.c 36-40) *)
Definition datum_of (st : state) (v : value) : option (value * value) :=
  match v with
  | Nil => Some (Nil, eol st)
  | _ => match fetch st v with Some (Datum id x) => Some (id, x) | _ => None end
  end.

(* make-datum 85-95 *)
Definition make_datum (st : state) (v id : value) : value * state := alloc st (Datum id v).

(* datum-ref 118-128; None is the error *)
Definition datum_ref (st : state) (d id : value) : option value :=
  match datum_of st d with
  | Some (i, x) => if veq i id then Some x else None
  | None => None
  end.

(* datum-set 130-142 *)
Definition datum_set (st : state) (d id v : value) : option (value * state) :=
  match datum_of st d with
  | Some (i, _) =>
      if veq i id
      then Some (v, match d with Nil => mk (heap st) v | _ => store st d (Datum i v) end)
      else None
  | None => None
  end.

(* has-type-p 144-154 *)
Definition has_type_p (st : state) (d id : value) : bool :=
  match datum_of st d with Some (i, _) => veq i id | None => false end.

(* aref and aset on vectors (src/lispcmds.c 859-930); anything else is an
   error here (strings and byte code never get to these calls). *)
Definition aref (st : state) (v : value) (i : nat) : option value :=
  match fetch st v with Some (Vec l) => nth_error l i | _ => None end.
Definition aset (st : state) (v : value) (i : nat) (x : value) : option state :=
  match fetch st v with
  | Some (Vec l) => if i <? length l then Some (store st v (Vec (upd l i x))) else None
  | _ => None
  end.

(* make-record-type 71-74 *)
Definition make_record_type (st : state) (name : sym) (fields : list sym) : value * state :=
  alloc st (RType name fields).

(* record-type-fields 77: aref of the type; an error for anything else *)
Definition type_fields (st : state) (rt : value) : option (list sym) :=
  match fetch st rt with Some (RType _ f) => Some f | _ => None end.

(* make-record 83-84: the arguments of make-datum first, so the vector is
   allocated before the datum *)
Definition make_record (st : state) (rt : value) : option (value * state) :=
  match type_fields st rt with
  | Some f => let (v, st) := alloc st (Vec (repeat Nil (length f))) in Some (make_datum st v rt)
  | None => None
  end.

(* field-index 88-93: the end test comes before the test for the empty
   list, and the car of the empty list is the empty list *)
Fixpoint field_index_from (i : nat) (fields : list sym) (field : value) : option nat :=
  match fields with
  | [] => if veq Nil field then Some i else None
  | f :: r => if veq (Sym f) field then Some i else field_index_from (S i) r field
  end.
Definition field_index (st : state) (rt field : value) : option nat :=
  match type_fields st rt with
  | Some f => field_index_from 0 f field
  | None => None
  end.

(* field-ref 95-96 and field-set 98-99 *)
Definition field_ref (st : state) (rt r : value) (i : nat) : option value :=
  match datum_ref st r rt with Some v => aref st v i | None => None end.
Definition field_set (st : state) (rt r : value) (i : nat) (x : value) : option state :=
  match datum_ref st r rt with Some v => aset st v i x | None => None end.

(* record-constructor 103-115: the indices, when the constructor is made.. *)
Fixpoint indices (st : state) (rt : value) (fields : list value) : option (list nat) :=
  match fields with
  | [] => Some []
  | f :: r =>
      match field_index st rt f with
      | Some i => match indices st rt r with Some l => Some (i :: l) | None => None end
      | None => None
      end
  end.
(* ..and the loop over the arguments, when it is called *)
Fixpoint fill (st : state) (rt r : value) (ids : list nat) (args : list value) : option state :=
  match args, ids with
  | x :: args, i :: ids =>
      match field_set st rt r i x with Some st => fill st rt r ids args | None => None end
  | _, _ => Some st
  end.
Definition construct (st : state) (rt : value) (ids : list nat) (args : list value) : option (value * state) :=
  match make_record st rt with
  | Some (r, st) => match fill st rt r ids args with Some st => Some (r, st) | None => None end
  | None => None
  end.

(* record-accessor 135-138, record-modifier 140-143, record-predicate 145-147:
   making the function, and calling it *)
Definition record_accessor (st : state) (rt field : value) : option nat := field_index st rt field.
Definition call_accessor (st : state) (rt : value) (i : nat) (r : value) : option value := field_ref st rt r i.
Definition record_modifier (st : state) (rt field : value) : option nat := field_index st rt field.
Definition call_modifier (st : state) (rt : value) (i : nat) (r x : value) : option (value * state) :=
  match field_set st rt r i x with Some st => Some (x, st) | None => None end.
Definition call_predicate (st : state) (rt r : value) : bool := has_type_p st r rt.

(* make-record-constructor 117-131. A lambda list is a list of markers
   (#!optional, #!key, #!rest), symbols and lists (symbol default), ended by
   the empty list or by a symbol. *)
Inductive item := Marker (k : sym) | Plain (s : sym) | Default (s : sym).
Record lambda_list := mkl { items : list item; tail : option sym }.

(* has-field-p 118-122: the car of the item when it is a list, else the item,
   else the symbol that ends the list. No field is named like a marker:
   markers are not symbols that a program can write as names. *)
Fixpoint has_item (l : list item) (field : sym) : bool :=
  match l with
  | [] => false
  | Marker _ :: r => has_item r field
  | Plain s :: r => Nat.eqb s field || has_item r field
  | Default s :: r => Nat.eqb s field || has_item r field
  end.
Definition has_field_p (l : lambda_list) (field : sym) : bool :=
  has_item (items l) field || match tail l with Some s => Nat.eqb s field | None => false end.

Inductive expr := EVar (s : sym) | ENil | ECall (f : sym) (args : list expr).

Definition VECTOR : sym := 0.
Definition MAKE_RECORD_DATUM : sym := 1.

(* the body of the constructor, 123-131: out is built backwards and reversed *)
Fixpoint constructor_args (l : lambda_list) (names : list sym) (out : list expr) : list expr :=
  match names with
  | [] => rev out
  | f :: r => constructor_args l r ((if has_field_p l f then EVar f else ENil) :: out)
  end.
Definition constructor_body (rt : sym) (l : lambda_list) (names : list sym) : expr :=
  ECall MAKE_RECORD_DATUM [ECall VECTOR (constructor_args l names []); EVar rt].

(* Evaluation of such a body: the local variables, then the global ones.
   The global variables used are the two functions and the type. *)
Fixpoint assoc {A} (k : sym) (l : list (sym * A)) : option A :=
  match l with
  | [] => None
  | (x, v) :: r => if Nat.eqb x k then Some v else assoc k r
  end.
Definition env := list (sym * value).
Definition look (e g : env) (s : sym) : option value :=
  match assoc s e with Some v => Some v | None => assoc s g end.

Definition call (st : state) (f : value) (args : list value) : option (value * state) :=
  match f with
  | Fn n =>
      if Nat.eqb n VECTOR then Some (alloc st (Vec args))
      else if Nat.eqb n MAKE_RECORD_DATUM then
        match args with
        | [v; id] => Some (make_datum st v id)
        | [v] => Some (make_datum st v Nil)
        | [] => Some (make_datum st Nil Nil)
        | v :: id :: _ => Some (make_datum st v id)
        end
      else None
  | _ => None
  end.

Fixpoint eval (e g : env) (st : state) (x : expr) : option (value * state) :=
  match x with
  | ENil => Some (Nil, st)
  | EVar s => match look e g s with Some v => Some (v, st) | None => None end
  | ECall f args =>
      match look e g f with
      | Some fv =>
          match
            (fix evlis st (l : list expr) : option (list value * state) :=
               match l with
               | [] => Some ([], st)
               | x :: r =>
                   match eval e g st x with
                   | Some (v, st) =>
                       match evlis st r with Some (vs, st) => Some (v :: vs, st) | None => None end
                   | None => None
                   end
               end) st args
          with
          | Some (vs, st) => call st fv vs
          | None => None
          end
      | None => None
      end
  end.

(* the variables of a lambda list, in the order in which lambda binds them;
   a later one hides an earlier one (src/lisp.c 1136-1167: each is consed on
   to the environment). How arguments are matched with them is in Params. *)
Fixpoint item_vars (l : list item) : list sym :=
  match l with
  | [] => []
  | Marker _ :: r => item_vars r
  | Plain s :: r => s :: item_vars r
  | Default s :: r => s :: item_vars r
  end.
Definition lambda_vars (l : lambda_list) : list sym :=
  item_vars (items l) ++ match tail l with Some s => [s] | None => [] end.

(* A call of the constructor that define-record-type (161-186) defines: the
   name of the type is also the variable that holds it. vals are the values
   that lambda gives to the variables. *)
Definition macro_construct (st : state) (rt : value) (l : lambda_list) (vals : list value) : option (value * state) :=
  match fetch st rt with
  | Some (RType name fields) =>
      eval (rev (combine (lambda_vars l) vals))
           [(VECTOR, Fn VECTOR); (MAKE_RECORD_DATUM, Fn MAKE_RECORD_DATUM); (name, rt)]
           st (constructor_body name l fields)
  | _ => None
  end.

(* Programs: a sequence of calls. Every result is kept; an operand is a
   constant or an earlier result. *)
Inductive operand := ONil | OSym (s : sym) | OReg (n : nat).
Inductive op :=
| NewType (name : sym) (fields : list sym)
| Construct (rt : operand) (fields : list sym) (args : list operand)
| MacroConstruct (rt : operand) (l : lambda_list) (vals : list operand)
| Get (rt : operand) (field : sym) (r : operand)
| Set_ (rt : operand) (field : sym) (r x : operand)
| Is (rt r : operand)
| NewDatum (x : operand) (id : sym)
| DatumRef (d : operand) (id : sym)
| DatumSet (d : operand) (id : sym) (x : operand)
| HasType (d : operand) (id : sym).

Definition operand_value (regs : list value) (o : operand) : value :=
  match o with ONil => Nil | OSym s => Sym s | OReg n => nth n regs Nil end.

Definition T : sym := 2.
Definition truth (b : bool) : value := if b then Sym T else Nil.

(* A call that signals an error gives None *)
Definition step (st : state) (regs : list value) (o : op) : option (value * state) :=
  let v := operand_value regs in
  match o with
  | NewType name fields => Some (make_record_type st name fields)
  | Construct rt fields args =>
      match indices st (v rt) (map Sym fields) with
      | Some ids => construct st (v rt) ids (map v args)
      | None => None
      end
  | MacroConstruct rt l vals => macro_construct st (v rt) l (map v vals)
  | Get rt field r =>
      match record_accessor st (v rt) (Sym field) with
      | Some i => match call_accessor st (v rt) i (v r) with Some x => Some (x, st) | None => None end
      | None => None
      end
  | Set_ rt field r x =>
      match record_modifier st (v rt) (Sym field) with
      | Some i => call_modifier st (v rt) i (v r) (v x)
      | None => None
      end
  | Is rt r => Some (truth (call_predicate st (v rt) (v r)), st)
  | NewDatum x id => Some (make_datum st (v x) (Sym id))
  | DatumRef d id => match datum_ref st (v d) (Sym id) with Some x => Some (x, st) | None => None end
  | DatumSet d id x => datum_set st (v d) (Sym id) (v x)
  | HasType d id => Some (truth (has_type_p st (v d) (Sym id)), st)
  end.

(* What the program sees of a value: the constant, or the first of the
   results kept so far that is eq to it. *)
Inductive seen := SeenNil | SeenSym (s : sym) | SeenFn (s : sym) | SeenObj (k : nat) | SeenError.
Fixpoint first_eq (v : value) (l : list value) (k : nat) : nat :=
  match l with
  | [] => k
  | x :: r => if veq x v then k else first_eq v r (S k)
  end.
Definition see (regs : list value) (v : value) : seen :=
  match v with
  | Nil => SeenNil
  | Sym s => SeenSym s
  | Fn s => SeenFn s
  | Ref _ => SeenObj (first_eq v regs 0)
  end.

(* After an error the state is as before the call (none of the calls changes
   anything before it signals); nil is kept as the result. *)
Fixpoint run (st : state) (regs : list value) (p : list op) : list seen :=
  match p with
  | [] => []
  | o :: p =>
      match step st regs o with
      | Some (v, st) => see regs v :: run st (regs ++ [v]) p
      | None => SeenError :: run st (regs ++ [Nil]) p
      end
  end.
