(** Message-passing objects: lisp/rep/data/objects.jl 57-104, with the binding
    of `#!key (self ...)' by bind_lambda_list_1, src/lisp.c 1292-1319.

    An object is a closure; here it is its index in a list of objects, with the
    base object evaluated when it was made (line 85) and its methods.  What the
    methods of several objects capture are variables in one store.  Bodies are
    expressions; functions given as methods are primitives without effects on
    the store.  Keywords other than #:self are symbols. *)

From Coq Require Import List Arith Bool ZArith.
Import ListNotations.

Inductive val := Nil | Num (z : Z) | Sym (s : nat) | KwSelf | Obj (o : nat) | Lst (l : list val).

Inductive expr :=
| Lit (v : val)
| Local (x : nat)                              (* a parameter, or self *)
| Cell (c : nat)                               (* a captured variable *)
| SetCell (c : nat) (e : expr)
| Progn (a b : expr)
| Send (o op : expr) (args : list expr).       (* (o op arg...) *)

(** The name of self among the locals *)
Definition self_name : nat := 0.

(** ((NAME . PARAMS) BODY) and (NAME FUNCTION) *)
Inductive method :=
| Body (params : list nat) (rest : option nat) (e : expr)
| Function (p : nat).
Record object := mko { base : val; methods : list (val * method) }.

Definition env := list (nat * val).
Fixpoint assq (x : nat) (l : env) : option val :=
  match l with [] => None | (y, v) :: l => if Nat.eqb x y then Some v else assq x l end.

Inductive error := Unknown (op : val) | Unbound (x : nat) | NotFunction | Bad.
Inductive res := Done (v : val) (st : list val) | Err (e : error) (st : list val) | NoFuel.

(** eql on what can be a method name in `case' *)
Definition eql (a b : val) : bool :=
  match a, b with
  | Nil, Nil => true
  | Num x, Num y => Z.eqb x y
  | Sym x, Sym y => Nat.eqb x y
  | KwSelf, KwSelf => true
  | Obj x, Obj y => Nat.eqb x y
  | _, _ => false
  end.
Fixpoint find_method (op : val) (l : list (val * method)) : option method :=
  match l with
  | [] => None
  | (n, m) :: l => if eql op n then Some m else find_method op l
  end.

(** lisp.c 1292-1301 and 1305-1319: the value after the first #:self that has
    one, and the rest without both *)
Fixpoint take_self (args : list val) : option val * list val :=
  match args with
  | KwSelf :: v :: r => (Some v, r)
  | a :: r => let '(s, r) := take_self r in (s, a :: r)
  | [] => (None, [])
  end.

(** make-let-bindings, objects.jl 57-69: (nth i args) and (nthcdr i args) *)
Fixpoint bindings (params : list nat) (rest : option nat) (i : nat) (args : list val) : env :=
  match params with
  | [] => match rest with Some x => [(x, Lst (skipn i args))] | None => [] end
  | x :: params => (x, nth i args Nil) :: bindings params rest (S i) args
  end.

Section Run.
  Variable objects : list object.
  Variable prim : nat -> list val -> option val.

  Definition get_obj (o : nat) : object := nth o objects (mko Nil []).

  Section Calls.
    Variable eval : env -> expr -> list val -> res.
    (** object and object-lambda, 71-104.  [n] bounds the delegations *)
    Fixpoint call (n : nat) (o : nat) (op : val) (args : list val) (st : list val) : res :=
      let '(s, args) := take_self args in
      let self := match s with Some v => v | None => Obj o end in
      match find_method op (methods (get_obj o)) with
      | Some (Body params rest e) => eval (rev (bindings params rest 0 args) ++ [(self_name, self)]) e st
      | Some (Function p) => match prim p args with Some v => Done v st | None => Err Bad st end
      | None =>
          match base (get_obj o) with
          | Nil => Err (Unknown op) st
          | Obj b =>
              match n with
              | O => NoFuel
              | S n => call n b op (KwSelf :: self :: args) st
              end
          | _ => Err NotFunction st
          end
      end.
    Fixpoint evals (E : env) (l : list expr) (st : list val) (k : list val -> list val -> res) : res :=
      match l with
      | [] => k [] st
      | e :: l =>
          match eval E e st with
          | Done v st => evals E l st (fun vs st => k (v :: vs) st)
          | r => r
          end
      end.
  End Calls.

  Fixpoint set_nth (l : list val) (c : nat) (v : val) : list val :=
    match l, c with
    | [], _ => []
    | _ :: l, O => v :: l
    | a :: l, S c => a :: set_nth l c v
    end.

  Fixpoint eval (fuel : nat) (E : env) (e : expr) (st : list val) : res :=
    match fuel with
    | O => NoFuel
    | S fuel =>
        match e with
        | Lit v => Done v st
        | Local x => match assq x E with Some v => Done v st | None => Err (Unbound x) st end
        | Cell c => Done (nth c st Nil) st
        | SetCell c e => match eval fuel E e st with Done v st => Done v (set_nth st c v) | r => r end
        | Progn a b => match eval fuel E a st with Done _ st => eval fuel E b st | r => r end
        | Send o op args =>
            match eval fuel E o st with
            | Done f st =>
                match eval fuel E op st with
                | Done opv st =>
                    evals (eval fuel) E args st (fun vs st =>
                      match f with
                      | Obj i => call (eval fuel) (length objects) i opv vs st
                      | _ => Err NotFunction st
                      end)
                | r => r
                end
            | r => r
            end
        end
    end.
End Run.
