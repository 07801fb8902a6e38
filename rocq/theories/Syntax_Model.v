(** The syntax that /repo/lisp/rep/lang/interpreter.jl defines by macros (let,
    let*, letrec, named let, if, case, when, unless, or, and, do, while, prog1,
    prog2), as functions from forms to forms, with the evaluator that runs the
    expansions (/repo/src/lisp.c 1816-1945, 2036-2066; lispcmds.c 100-118,
    1173-1216; symbols.c 1126-1151).

    Simplified: parameter lists are lists of symbols (Params has the others); no
    special variables; primitive functions return data (no functions), may fail,
    and act on a world that is left open, but do not call functions; the standard names are imported and cannot be assigned; a macro
    is expanded once per evaluation (Macros has the memory of expansions); tail
    calls are calls; values other than symbols, numbers and () are not identified
    by eql. *)
From Coq Require Import String ZArith List Bool Arith.
Import ListNotations.
Open Scope string_scope.

(** Forms; [Gen]: symbols from gensym *)
Inductive sexp :=
| Nil | Sym (s : string) | Gen (n : nat) | Num (z : Z) | Str (s : string) | Cons (a d : sexp).

Definition atom_eqb (a b : sexp) : bool :=
  match a, b with
  | Nil, Nil => true
  | Sym x, Sym y => String.eqb x y
  | Gen m, Gen n => Nat.eqb m n
  | Num x, Num y => Z.eqb x y
  | _, _ => false
  end.
Definition symbolp (f : sexp) : bool := match f with Sym _ | Gen _ => true | _ => false end.
Definition consp (f : sexp) : bool := match f with Cons _ _ => true | _ => false end.
Definition null (f : sexp) : bool := match f with Nil => true | _ => false end.

(** lispcmds.c 121-150: nil of anything that is no cons *)
Definition car (f : sexp) : sexp := match f with Cons a _ => a | _ => Nil end.
Definition cdr (f : sexp) : sexp := match f with Cons _ d => d | _ => Nil end.
Definition cadr (f : sexp) : sexp := car (cdr f).
Definition cddr (f : sexp) : sexp := cdr (cdr f).
Definition caddr (f : sexp) : sexp := car (cddr f).

Fixpoint form_list (l : list sexp) : sexp := match l with [] => Nil | a :: l' => Cons a (form_list l') end.
(** mapcar, append, reverse (Lists has them on a heap) *)
Fixpoint mapcar (h : sexp -> sexp) (l : sexp) : sexp :=
  match l with Cons a d => Cons (h a) (mapcar h d) | _ => Nil end.
Fixpoint append (a b : sexp) : sexp := match a with Cons x d => Cons x (append d b) | _ => b end.
Fixpoint reverse_onto (l out : sexp) : sexp := match l with Cons a d => reverse_onto d (Cons a out) | _ => out end.
Definition reverse (l : sexp) : sexp := reverse_onto l Nil.

(** ** The macros *)

(** interpreter.jl 118-150 let *)
Definition let_macro (args : sexp) : sexp :=
  let named := symbolp (car args) in
  let fn := car args in
  let args := if named then cdr args else args in
  let vars := mapcar (fun x => if consp x then car x else x) (car args) in
  let values := mapcar (fun x => if consp x then Cons (Sym "progn") (cdr x) else Nil) (car args) in
  let lam := Cons (Sym "lambda") (Cons vars (cdr args)) in
  if named then form_list [Sym "letrec"; form_list [form_list [fn; lam]]; Cons fn values]
  else Cons lam values.

(** interpreter.jl 152-161 let* *)
Fixpoint let_star_loop (rest body : sexp) : sexp :=
  match rest with
  | Cons b rest' => let_star_loop rest' (form_list [Sym "let"; form_list [b]; body])
  | _ => body
  end.
Definition let_star_macro (args : sexp) : sexp :=
  let_star_loop (reverse (car args)) (Cons (Sym "progn") (cdr args)).

(** interpreter.jl 163-176 letrec *)
Definition letrec_macro (args : sexp) : sexp :=
  let vars := mapcar (fun x => if consp x then car x else x) (car args) in
  let setters := mapcar (fun x => if consp x then form_list [Sym "setq"; car x; Cons (Sym "progn") (cdr x)]
                                  else form_list [Sym "setq"; x; Nil]) (car args) in
  Cons (Sym "let") (Cons vars (append setters (cdr args))).

(** interpreter.jl 196-202 if *)
Definition if_macro (args : sexp) : sexp :=
  let condition := car args in let then_ := cadr args in let else_ := cddr args in
  if null else_ then form_list [Sym "cond"; form_list [condition; then_]]
  else form_list [Sym "cond"; form_list [condition; then_]; Cons (Sym "t") else_].

(** interpreter.jl 204-228 case *)
Definition case_clause (tem this : sexp) : sexp :=
  if atom_eqb (car this) (Sym "t") then Cons (Sym "t") (cdr this)
  else if negb (null (cdr (car this))) then
    Cons (form_list [Sym "memql"; tem; form_list [Sym "quote"; car this]]) (cdr this)
  else Cons (form_list [Sym "eql"; tem; form_list [Sym "quote"; car (car this)]]) (cdr this).
Fixpoint case_loop (tem body rest : sexp) : sexp :=
  match rest with
  | Cons this rest' => case_loop tem (Cons (case_clause tem this) body) rest'
  | _ => reverse body
  end.
Definition case_macro (tem args : sexp) : sexp :=
  form_list [Sym "let"; form_list [form_list [tem; car args]]; Cons (Sym "cond") (case_loop tem Nil (cdr args))].

(** interpreter.jl 230-238 when, unless *)
Definition when_macro (args : sexp) : sexp :=
  form_list [Sym "if"; car args; Cons (Sym "progn") (cdr args)].
Definition unless_macro (args : sexp) : sexp :=
  form_list [Sym "if"; form_list [Sym "not"; car args]; Cons (Sym "progn") (cdr args)].

(** interpreter.jl 240-251 or *)
Definition or_macro (args : sexp) : sexp :=
  if null args then Sym "nil" else Cons (Sym "cond") (mapcar (fun a => form_list [a]) args).

(** interpreter.jl 253-269 and *)
Fixpoint and_loop (rest body : sexp) : sexp :=
  match rest with
  | Cons a rest' =>
    and_loop rest' (if null body then form_list [Sym "cond"; form_list [a]]
                    else form_list [Sym "cond"; form_list [a; body]])
  | _ => body
  end.
Definition and_macro (args : sexp) : sexp :=
  if null args then Sym "t" else and_loop (reverse args) Nil.

(** interpreter.jl 316-356 do *)
Definition do_macro (tem args : sexp) : sexp :=
  let vars := car args in let test := cadr args in let body := cddr args in
  form_list
    [Sym "let"; tem; mapcar (fun var => form_list [car var; cadr var]) vars;
     Cons (Sym "if") (Cons (car test) (Cons (Cons (Sym "progn") (cdr test))
       (append body (form_list
          [Cons tem (mapcar (fun var => if null (cddr var) then car var else caddr var) vars)]))))].

(** interpreter.jl 358-373 while *)
Definition while_macro (tem args : sexp) : sexp :=
  form_list [Sym "let"; tem; Nil;
    form_list [Sym "cond"; form_list [car args; Cons (Sym "progn") (cdr args); form_list [tem]]]].

(** interpreter.jl 375-378 prog1, 380-386 prog2 *)
Definition prog1_macro (tem args : sexp) : sexp :=
  form_list [Cons (Sym "lambda") (Cons (form_list [tem]) (append (cdr args) (form_list [tem]))); car args].
Definition prog2_macro (args : sexp) : sexp :=
  form_list [Sym "progn"; car args; Cons (Sym "prog1") (cdr args)].

Inductive macro :=
| MLet | MLetStar | MLetrec | MIf | MCase | MWhen | MUnless | MOr | MAnd | MDo | MWhile | MProg1 | MProg2.
(** The expansion, given what gensym returns *)
Definition expand (m : macro) (tem args : sexp) : sexp :=
  match m with
  | MLet => let_macro args
  | MLetStar => let_star_macro args
  | MLetrec => letrec_macro args
  | MIf => if_macro args
  | MCase => case_macro tem args
  | MWhen => when_macro args
  | MUnless => unless_macro args
  | MOr => or_macro args
  | MAnd => and_macro args
  | MDo => do_macro tem args
  | MWhile => while_macro tem args
  | MProg1 => prog1_macro tem args
  | MProg2 => prog2_macro args
  end.

Definition uses_gensym (m : macro) : bool :=
  match m with MCase | MDo | MWhile | MProg1 => true | _ => false end.

(** ** The evaluator *)

Inductive special := SQuote | SLambda | SCond | SProgn | SSetq.
Inductive prim := PEql | PMemql | PNot | POther (n : nat).

(** Values.  [Clo]: a closure of (PARAMS . BODY); the environment gives variables
    their places in the store. *)
Inductive value :=
| VAtom (a : sexp) | VPair (a d : value)
| Clo (lam : sexp) (env : list (sexp * nat)) | Prim (p : prim) | Special (x : special) | Macro (m : macro).
Definition env := list (sexp * nat).

Definition nilp (v : value) : bool := match v with VAtom Nil => true | _ => false end.
Fixpoint quoted (f : sexp) : value :=
  match f with Cons a d => VPair (quoted a) (quoted d) | a => VAtom a end.
Definition truth (b : bool) : value := if b then VAtom (Sym "t") else VAtom Nil.

(** numbers.c 2029-2050 eql *)
Definition eql (a b : value) : bool := match a, b with VAtom x, VAtom y => atom_eqb x y | _, _ => false end.
(** lispcmds.c 667-693 memql *)
Fixpoint memql (v l : value) : value :=
  match l with
  | VPair a d => if eql v a then l else memql v d
  | _ => VAtom Nil
  end.

Fixpoint lookup (e : env) (x : sexp) : option nat :=
  match e with [] => None | (y, l) :: e' => if atom_eqb y x then Some l else lookup e' x end.

(** What the standard names stand for *)
Definition std (f : sexp) : option value :=
  match f with
  | Sym s =>
    if String.eqb s "quote" then Some (Special SQuote)
    else if String.eqb s "lambda" then Some (Special SLambda)
    else if String.eqb s "cond" then Some (Special SCond)
    else if String.eqb s "progn" then Some (Special SProgn)
    else if String.eqb s "setq" then Some (Special SSetq)
    else if String.eqb s "let" then Some (Macro MLet)
    else if String.eqb s "let*" then Some (Macro MLetStar)
    else if String.eqb s "letrec" then Some (Macro MLetrec)
    else if String.eqb s "if" then Some (Macro MIf)
    else if String.eqb s "case" then Some (Macro MCase)
    else if String.eqb s "when" then Some (Macro MWhen)
    else if String.eqb s "unless" then Some (Macro MUnless)
    else if String.eqb s "or" then Some (Macro MOr)
    else if String.eqb s "and" then Some (Macro MAnd)
    else if String.eqb s "do" then Some (Macro MDo)
    else if String.eqb s "while" then Some (Macro MWhile)
    else if String.eqb s "prog1" then Some (Macro MProg1)
    else if String.eqb s "prog2" then Some (Macro MProg2)
    else if String.eqb s "eql" then Some (Prim PEql)
    else if String.eqb s "memql" then Some (Prim PMemql)
    else if String.eqb s "not" then Some (Prim PNot)
    else if String.eqb s "t" then Some (VAtom (Sym "t"))
    else if String.eqb s "nil" then Some (VAtom Nil)
    else None
  | _ => None
  end.

Section Eval.
  (** What primitives do besides computing *)
  Variable world : Type.
  Inductive res := Ret (v : value) | Exit (v : value).
  Variable call_prim : nat -> list value -> world -> world * (sexp + sexp).

  Record state := mk_state {
    store : list value; globals : sexp -> option value; next_gen : nat; outside : world }.

  Fixpoint update (l : nat) (v : value) (st : list value) : list value :=
    match st, l with
    | [], _ => []
    | _ :: st', 0 => v :: st'
    | x :: st', S l' => x :: update l' v st'
    end.
  Definition set_store (s : state) (st : list value) : state := mk_state st (globals s) (next_gen s) (outside s).

  Definition gensym (s : state) : state := mk_state (store s) (globals s) (S (next_gen s)) (outside s).

  Definition void_value (x : sexp) : value := VPair (VAtom (Sym "void-value")) (VAtom x).
  Definition missing_arg : value := VAtom (Sym "missing-arg").
  Definition invalid_function : value := VAtom (Sym "invalid-function").
  Definition setting_constant : value := VAtom (Sym "setting-constant").

  (** symbols.c 836-887 symbol-value, 972-1050 set: lexical bindings first *)
  Definition value_of (e : env) (s : state) (x : sexp) : res :=
    match lookup e x with
    | Some l => Ret (nth l (store s) (VAtom Nil))
    | None => match std x with
              | Some v => Ret v
              | None => match globals s x with Some v => Ret v | None => Exit (void_value x) end
              end
    end.
  Definition assign (e : env) (s : state) (x : sexp) (v : value) : state * res :=
    match lookup e x with
    | Some l => (set_store s (update l v (store s)), Ret v)
    | None => match std x with
              | Some _ => (s, Exit setting_constant)
              | None => (mk_state (store s) (fun y => if atom_eqb x y then Some v else globals s y) (next_gen s) (outside s), Ret v)
              end
    end.

  (** lisp.c 1179-1400 bind_lambda_list for a list of symbols: None for other
      lists, Some None when an argument is missing *)
  Fixpoint bind (params : sexp) (vs : list value) (e : env) (st : list value) : option (option (env * list value)) :=
    match params with
    | Nil => Some (Some (e, st))
    | Cons x params' =>
      if symbolp x then
        match vs with
        | [] => Some None
        | v :: vs' => bind params' vs' ((x, length st) :: e) (st ++ [v])%list
        end
      else None
    | _ => None
    end.

  Definition nth_arg (n : nat) (vs : list value) : value := nth n vs (VAtom Nil).

  (** [eval]: lisp.c 1816-1945.  [progn]: 2036-2066.  [evcond]: lispcmds.c
      1173-1216.  [evsetq]: symbols.c 1126-1151.  [evargs]: lisp.c 1136-1167.
      [apply]: 1547-1720 with 1404-1455. *)
  Fixpoint eval (n : nat) (e : env) (s : state) (f : sexp) : option (state * res) :=
    match n with
    | 0 => None
    | S n =>
      match f with
      | Sym _ | Gen _ => Some (s, value_of e s f)
      | Cons fn args =>
        match eval n e s fn with
        | None => None
        | Some (s, Exit x) => Some (s, Exit x)
        | Some (s, Ret (Special SQuote)) => Some (s, Ret (quoted (car args)))
        | Some (s, Ret (Special SLambda)) =>
          if consp args then Some (s, Ret (Clo args e)) else Some (s, Exit missing_arg)
        | Some (s, Ret (Special SCond)) => evcond n e s args
        | Some (s, Ret (Special SProgn)) => progn n e s args
        | Some (s, Ret (Special SSetq)) => evsetq n e s args (VAtom Nil)
        | Some (s, Ret (Macro m)) =>
          eval n e (if uses_gensym m then gensym s else s) (expand m (Gen (next_gen s)) args)
        | Some (s, Ret fv) =>
          match evargs n e s args with
          | None => None
          | Some (s, inl x) => Some (s, Exit x)
          | Some (s, inr vs) => apply n s fv vs
          end
        end
      | _ => Some (s, Ret (VAtom f))
      end
    end
  with progn (n : nat) (e : env) (s : state) (fs : sexp) : option (state * res) :=
    match n with
    | 0 => None
    | S n =>
      match fs with
      | Cons f fs' =>
        match eval n e s f with
        | Some (s', Ret v) => if consp fs' then progn n e s' fs' else Some (s', Ret v)
        | x => x
        end
      | _ => Some (s, Ret (VAtom Nil))
      end
    end
  with evcond (n : nat) (e : env) (s : state) (cls : sexp) : option (state * res) :=
    match n with
    | 0 => None
    | S n =>
      match cls with
      | Cons (Cons c b) cls' =>
        match eval n e s c with
        | Some (s', Ret v) =>
          if nilp v then evcond n e s' cls'
          else if consp b then progn n e s' b else Some (s', Ret v)
        | x => x
        end
      | _ => Some (s, Ret (VAtom Nil))
      end
    end
  with evsetq (n : nat) (e : env) (s : state) (args : sexp) (last : value) : option (state * res) :=
    match n with
    | 0 => None
    | S n =>
      match args with
      | Cons x (Cons f args') =>
        if symbolp x then
          match eval n e s f with
          | Some (s', Ret v) =>
            match assign e s' x v with
            | (s'', Ret _) => evsetq n e s'' args' v
            | (s'', Exit y) => Some (s'', Exit y)
            end
          | x => x
          end
        else Some (s, Ret last)
      | _ => Some (s, Ret last)
      end
    end
  with evargs (n : nat) (e : env) (s : state) (args : sexp) : option (state * (value + list value)) :=
    match n with
    | 0 => None
    | S n =>
      match args with
      | Cons f args' =>
        match eval n e s f with
        | None => None
        | Some (s', Exit x) => Some (s', inl x)
        | Some (s', Ret v) =>
          match evargs n e s' args' with
          | None => None
          | Some (s'', inl x) => Some (s'', inl x)
          | Some (s'', inr vs) => Some (s'', inr (v :: vs))
          end
        end
      | _ => Some (s, inr [])
      end
    end
  with apply (n : nat) (s : state) (fv : value) (vs : list value) : option (state * res) :=
    match n with
    | 0 => None
    | S n =>
      match fv with
      | Clo lam e =>
        match bind (car lam) vs e (store s) with
        | None => None
        | Some None => Some (s, Exit missing_arg)
        | Some (Some (e', st)) => progn n e' (set_store s st) (cdr lam)
        end
      | Prim PEql => Some (s, Ret (truth (eql (nth_arg 0 vs) (nth_arg 1 vs))))
      | Prim PMemql => Some (s, Ret (memql (nth_arg 0 vs) (nth_arg 1 vs)))
      | Prim PNot => Some (s, Ret (truth (nilp (nth_arg 0 vs))))
      | Prim (POther k) =>
        let (w, r) := call_prim k vs (outside s) in
        Some (mk_state (store s) (globals s) (next_gen s) w,
              match r with inl d => Ret (quoted d) | inr d => Exit (quoted d) end)
      | _ => Some (s, Exit invalid_function)
      end
    end.
End Eval.
Arguments mk_state {world}. Arguments store {world}. Arguments globals {world}. Arguments next_gen {world}.
Arguments outside {world}. Arguments gensym {world}. Arguments set_store {world}. Arguments value_of {world}. Arguments assign {world}.
Arguments eval {world}. Arguments progn {world}. Arguments evcond {world}. Arguments evsetq {world}.
Arguments evargs {world}. Arguments apply {world}.
