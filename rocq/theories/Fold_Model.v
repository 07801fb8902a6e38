(* Constant folding and constants in the compiler: lisp/rep/vm/compiler/src.jl
   40-66 and 94-109, utils.jl 334-357, basic.jl 142-175, rep.jl 41-55 and
   135-140. *)
From Coq Require Import String List Bool.
Import ListNotations.
Open Scope string_scope.
Open Scope list_scope.

Definition sym := string.

(* constant-functions, rep.jl 39-55: side-effect-free functions, they should
   always return the same value when given the same inputs *)
Definition constant_functions : list sym :=
  ["+"; "-"; "*"; "/"; "%"; "mod"; "max"; "min"; "1+"; "1-"; "car"; "cdr"; "assoc"; "assq"; "rassoc"; "rassq"; "nth"; "nthcdr";
   "last"; "member"; "memq"; "arrayp"; "aref"; "substring"; "concat"; "length"; "elt"; "lognot"; "not";
   "logior"; "logxor"; "logand"; "equal"; "="; "/="; ">"; "<"; ">="; "<="; "ash"; "zerop"; "null"; "atom"; "consp";
   "listp"; "numberp"; "integerp"; "stringp"; "vectorp"; "bytecodep"; "functionp"; "macrop";
   "special-form-p"; "subrp"; "sequencep"; "string-head-eq"; "string-equal";
   "string-lessp"; "string-match"; "string-looking-at"; "quote-regexp";
   "complete-string"; "time-later-p"; "alpha-char-p"; "upper-case-p"; "lower-case-p";
   "digit-char-p"; "alphanumericp"; "space-char-p"; "char-upcase"; "char-downcase";
   "quotient"; "floor"; "ceiling"; "truncate"; "round"; "exp"; "log"; "sin"; "cos"; "tan"; "asin"; "acos";
   "atan"; "sqrt"; "expt"; "prin1-to-string"; "read-from-string"; "assoc-regexp";
   "string="; "string<"; "nop"; "identity"; "caar"; "cdar"; "cadr"; "cddr"; "caaar"; "cdaar";
   "cadar"; "cddar"; "caadr"; "cdadr"; "caddr"; "cdddr"; "positivep"; "negativep"; "oddp";
   "evenp"; "abs"; "lcm"; "modulo"; "lsh"; "string-upper-case-p"; "string-lower-case-p";
   "string-capitalized-p"].

Fixpoint assq {A} (k : sym) (l : list (sym * A)) : option A :=
  match l with
  | [] => None
  | (x, v) :: r => if String.eqb x k then Some v else assq k r
  end.
Definition memq (k : sym) (l : list sym) : bool := existsb (String.eqb k) l.

Section Fold.
(* values, with the test for the empty list, and states of the world *)
Variables V S : Type.
Variable is_nil : V -> bool.

(* Forms. A macro call is given with the form it expands to. Keywords,
   numbers, strings and vectors are self-evaluating. Other special forms than
   cond, let and progn treat their parts in the same way. *)
Inductive form :=
| Self (v : V)
| Quote (v : V)
| Var (x : sym)
| Call (f : sym) (args : list form)
| If (c a b : form)
| Let (x : sym) (e b : form)
| Progn (a b : form)
| Macro (expansion : form).

(* Running: calls of functions, and the global values, which the state may
   hold *)
Variable apply : V -> list V -> S -> option (V * S).
Variable global : sym -> S -> option V.

(* The meaning of a form (Feval, src/lisp.c 1816-1945): a call evaluates the
   function, a local or a global variable, and the arguments in order. None
   is an error. *)
Fixpoint eval (env : list (sym * V)) (s : S) (e : form) : option (V * S) :=
  match e with
  | Self v => Some (v, s)
  | Quote v => Some (v, s)
  | Var x =>
      match assq x env with
      | Some v => Some (v, s)
      | None => match global x s with Some v => Some (v, s) | None => None end
      end
  | Call f args =>
      match (match assq f env with Some v => Some v | None => global f s end) with
      | None => None
      | Some fv =>
          match
            (fix evlis (s : S) (l : list form) : option (list V * S) :=
               match l with
               | [] => Some ([], s)
               | x :: r =>
                   match eval env s x with
                   | Some (v, s) => match evlis s r with Some (vs, s) => Some (v :: vs, s) | None => None end
                   | None => None
                   end
               end) s args
          with
          | Some (vs, s) => apply fv vs s
          | None => None
          end
      end
  | If c a b =>
      match eval env s c with
      | Some (v, s) => if is_nil v then eval env s b else eval env s a
      | None => None
      end
  | Let x e b =>
      match eval env s e with
      | Some (v, s) => eval ((x, v) :: env) s b
      | None => None
      end
  | Progn a b => match eval env s a with Some (_, s) => eval env s b | None => None end
  | Macro b => eval env s b
  end.

(* Compiling: const-env (rep.jl 137-140), the immutable global
   bindings and their values, the values of the functions (all as seen by
   the compiler, whose own state is s0) *)
Record comp := mkc {
  const_env : list (sym * V);
  immutable : sym -> option V;
  function_value : sym -> option V;
  s0 : S }.
Variable C : comp.

(* foldablep, src.jl 42-45 and rep.jl 258-259 *)
Definition foldablep (locals : list sym) (f : sym) : bool :=
  negb (memq f locals) && memq f constant_functions.

(* compiler-binding-immutable-p, modules.jl 167-172 *)
Definition binding_immutable (locals : list sym) (x : sym) : option V :=
  if memq x locals then None else immutable C x.

(* compiler-constant-p and compiler-constant-value, utils.jl 334-357, of
   an argument that is not a call to be folded *)
Definition constant_value (locals : list sym) (e : form) : option V :=
  match e with
  | Self v => Some v
  | Quote v => Some v
  | Var x =>
      match binding_immutable locals x with
      | Some v => Some v
      | None => assq x (const_env C)
      end
  | _ => None
  end.

(* fold-constants, src.jl 52-66. Stop is the throw to exit. An argument is
   expanded (compiler-macroexpand) until it is no macro call. *)
Inductive outcome (A : Type) := Got (v : A) | Stop | Fail.
Arguments Got {A}. Arguments Stop {A}. Arguments Fail {A}.

Fixpoint fold_arg (locals : list sym) (e : form) : outcome V :=
  match e with
  | Macro b => fold_arg locals b
  | Call f args =>
      if foldablep locals f then
        match
          (fix fold_args (l : list form) : outcome (list V) :=
             match l with
             | [] => Got []
             | x :: r =>
                 match fold_arg locals x with
                 | Got v => match fold_args r with Got vs => Got (v :: vs) | Stop => Stop | Fail => Fail end
                 | Stop => Stop
                 | Fail => Fail
                 end
             end) args
        with
        | Got vs =>
            match function_value C f with
            | Some fv => match apply fv vs (s0 C) with Some (v, _) => Got v | None => Fail end
            | None => Fail
            end
        | Stop => Stop
        | Fail => Fail
        end
      else Stop
  | _ => match constant_value locals e with Some v => Got v | None => Stop end
  end.

(* source-code-transform (94-109) and compile-form-1 (basic.jl 142-175): the
   form whose code is emitted. The value of a folded call is quoted
   (quote-constant 47-50). None: an error while compiling. *)
Fixpoint compile (locals : list sym) (e : form) : option form :=
  match e with
  | Self v => Some (Self v)
  | Quote v => Some (Quote v)
  | Var x =>
      match assq x (const_env C) with
      | Some v => Some (Quote v)
      | None => match binding_immutable locals x with Some v => Some (Quote v) | None => Some (Var x) end
      end
  | Call f args =>
      match (if foldablep locals f then fold_arg locals (Call f args) else Stop) with
      | Got v => Some (Quote v)
      | Fail => None
      | Stop =>
          match
            (fix compile_args (l : list form) : option (list form) :=
               match l with
               | [] => Some []
               | x :: r =>
                   match compile locals x with
                   | Some x => match compile_args r with Some r => Some (x :: r) | None => None end
                   | None => None
                   end
               end) args
          with
          | Some args => Some (Call f args)
          | None => None
          end
      end
  | If c a b =>
      match compile locals c, compile locals a, compile locals b with
      | Some c, Some a, Some b => Some (If c a b)
      | _, _, _ => None
      end
  | Let x e b =>
      match compile locals e, compile (x :: locals) b with
      | Some e, Some b => Some (Let x e b)
      | _, _ => None
      end
  | Progn a b =>
      match compile locals a, compile locals b with
      | Some a, Some b => Some (Progn a b)
      | _, _ => None
      end
  | Macro b => compile locals b
  end.

End Fold.

Arguments Self {V}. Arguments Quote {V}. Arguments Var {V}. Arguments Call {V}.
Arguments If {V}. Arguments Let {V}. Arguments Progn {V}. Arguments Macro {V}.
Arguments mkc {V S}. Arguments const_env {V S}. Arguments immutable {V S}.
Arguments function_value {V S}. Arguments s0 {V S}.
Arguments Got {A}. Arguments Stop {A}. Arguments Fail {A}.
Arguments eval {V S}. Arguments compile {V S}. Arguments fold_arg {V S}.
