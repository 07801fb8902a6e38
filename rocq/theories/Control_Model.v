(** Non-local exits: call-with-exception-handler, raise-exception and signal
    (src/lispcmds.c, src/lisp.c), catch, throw, unwind-protect and
    condition-case as the interpreter has them (lisp/rep/lang/interpreter.jl)
    and as the compiler and the byte-code machine have them
    (lisp/rep/vm/compiler/rep.jl, src/lispmach.h).  Forms are: constants,
    lexical variables, setq, let of one variable, progn of two forms, if, calls
    of functions, and the forms above.  A function is anything that gets values
    and the state of the world and returns a value or exits; interrupts, the
    debugger and backtraces are left out. *)
From Coq Require Import List ZArith Bool.
Import ListNotations.
Open Scope Z_scope.

(** Atom 0 is nil, Atom 1 the symbol error.  A cons has an address. *)
Inductive val := Atom (n : Z) | Cons (addr : Z) (car cdr : val).
Definition nil_ : val := Atom 0.
Definition error_ : val := Atom 1.
(** eq, lispcmds.c 1551-1563: the same pointer or the same atom.  Numbers that
    are not fixnums are left out. *)
Definition eq_ (a b : val) : bool :=
  match a, b with
  | Atom m, Atom n => m =? n
  | Cons p _ _, Cons q _ _ => p =? q
  | _, _ => false
  end.
Definition nilp (v : val) : bool := eq_ v nil_.
(** memq, lispcmds.c 643-667; whether there is such an element *)
Fixpoint memq (x l : val) : bool :=
  match l with
  | Cons _ a d => if eq_ a x then true else memq x d
  | Atom _ => false
  end.

(** rep_throw_value: a cons of a tag and a value *)
Definition exn : Type := val * val.
Inductive outcome := Ret (v : val) | Exit (x : exn).

Inductive form :=
| Quote (v : val)
| Var (x : nat)
| Set_ (x : nat) (e : form)
| Let (x : nat) (e body : form)
| Progn (a b : form)
| If (c a b : form)
| Call (f : nat) (args : forms)
| Throw (tag value : form)
| Catch (tag body : form)
| Unwind (body cleanup : form)
| Cond (x : nat) (body : form) (hs : handlers)   (* condition-case *)
with forms := FNil | FCons (e : form) (l : forms)
with handlers := HNil | HCons (spec : val) (body : form) (hs : handlers).

(** A condition-case that names no variable is one with a variable that
    nothing refers to (interpreter.jl 481-484, rep.jl 784-789). *)

(** The lexical environment: the names, innermost first, and the values of the
    cells in the same order: rep_env without its symbols, as OP_BIND makes it
    (lispmach.h 861-866).  [index] is the lexical address of the compiler
    (bindings.jl 65-87, lap.jl), [set_nth] is OP_SETN (lispmach.h 126-133,
    935-940).  An unknown variable is not modelled (nil). *)
Fixpoint index (x : nat) (names : list nat) : option nat :=
  match names with
  | [] => None
  | y :: names => if Nat.eqb x y then Some O else option_map S (index x names)
  end.
Fixpoint set_nth (l : list val) (n : nat) (v : val) : list val :=
  match l, n with
  | [], _ => []
  | _ :: l, O => v :: l
  | a :: l, S n => a :: set_nth l n v
  end.

Section World.
  Variable world : Type.
  (** Calling the function f *)
  Variable ext : nat -> list val -> world -> outcome * world.

  (** The state: the values of the lexical variables, and the world *)
  Definition state : Type := list val * world.
  Definition thunk : Type := state -> outcome * state.

  (** * The interpreter *)

  (** call-with-exception-handler, lispcmds.c 1948-1976.  rep_throw_value is
      reset before the handler is called, so that raise-exception, 1978-1991,
      sets it. *)
  Definition call_with_exception_handler (t : thunk) (handler : exn -> thunk) : thunk := fun s =>
    match t s with
    | (Ret v, s) => (Ret v, s)
    | (Exit data, s) => handler data s
    end.
  Definition raise_exception (data : exn) : thunk := fun s => (Exit data, s).
  (** call-with-catch, interpreter.jl 411-418 *)
  Definition call_with_catch (tag : val) (t : thunk) : thunk :=
    call_with_exception_handler t (fun data => if eq_ (fst data) tag then fun s => (Ret (snd data), s) else raise_exception data).
  (** call-with-unwind-protect, 420-430: the variable saved-data, which nothing
      else sees, is what the handler returned *)
  Definition call_with_unwind_protect (t prot : thunk) : thunk := fun s =>
    let '(saved, r, s) :=
      match t s with
      | (Ret v, s) => (None, v, s)
      | (Exit data, s) => (Some data, nil_, s)
      end in
    match prot s with
    | (Ret _, s) => match saved with Some data => raise_exception data s | None => (Ret r, s) end
    | (Exit x, s) => (Exit x, s)
    end.
  (** (nth 1 data), for data whose cdr is [d]; nth and listp, lispcmds.c 454-478, 1758-1766 *)
  Definition nth1 (d : val) : val := match d with Cons _ a _ => a | Atom _ => nil_ end.
  Definition listp (v : val) : bool := match v with Cons _ _ _ => true | Atom n => n =? 0 end.
  (** call-with-error-handlers, 432-448 *)
  Fixpoint pick (type : val) (data : exn) (hs : list (val * (val -> thunk))) : thunk :=
    match hs with
    | [] => raise_exception data
    | (h_type, f) :: rest =>
        if (listp h_type && memq type h_type) || eq_ h_type error_ || eq_ h_type type then f (snd data)
        else pick type data rest
    end.
  Definition call_with_error_handlers (t : thunk) (hs : list (val * (val -> thunk))) : thunk :=
    call_with_exception_handler t (fun data =>
      if negb (eq_ (fst data) error_) then raise_exception data else pick (nth1 (snd data)) data hs).

  (** Binding a variable for the extent of a thunk: the environment is put back
      when the function returns, however it does (the saved call
      of funcall, lisp.c 1580-1720) *)
  Definition with_binding (v : val) (t : thunk) : thunk := fun s =>
    let '(o, (env, w)) := t (v :: fst s, snd s) in (o, (tl env, w)).
  (** Evaluation; [catch], [throw], [unwind-protect] and [condition-case] are
      the macros and the function of interpreter.jl 450-493.  The binding of
      %in-condition-case is left out: it is for the debugger. *)
  Fixpoint eval (names : list nat) (e : form) : thunk :=
    match e with
    | Quote v => fun s => (Ret v, s)
    | Var x => fun s => (Ret (match index x names with Some i => nth i (fst s) nil_ | None => nil_ end), s)
    | Set_ x e => fun s =>
        match eval names e s with
        | (Ret v, s) => (Ret v, match index x names with Some i => (set_nth (fst s) i v, snd s) | None => s end)
        | r => r
        end
    | Let x e body => fun s =>
        match eval names e s with
        | (Ret v, s) => with_binding v (eval (x :: names) body) s
        | r => r
        end
    | Progn a b => fun s => match eval names a s with (Ret _, s) => eval names b s | r => r end
    | If c a b => fun s =>
        match eval names c s with
        | (Ret v, s) => if nilp v then eval names b s else eval names a s
        | r => r
        end
    | Call f args => fun s =>
        match eval_list names args s with
        | (inl vs, s) => let '(o, w) := ext f vs (snd s) in (o, (fst s, w))
        | (inr x, s) => (Exit x, s)
        end
    | Throw tag value => fun s =>
        match eval names tag s with
        | (Ret t, s) => match eval names value s with
                        | (Ret v, s) => raise_exception (t, v) s
                        | r => r
                        end
        | r => r
        end
    | Catch tag body => fun s =>
        match eval names tag s with
        | (Ret t, s) => call_with_catch t (eval names body) s
        | r => r
        end
    | Unwind body cleanup => call_with_unwind_protect (eval names body) (eval names cleanup)
    | Cond x body hs => call_with_error_handlers (eval names body) (eval_handlers names x hs)
    end
  with eval_list (names : list nat) (l : forms) : state -> (list val + exn) * state :=
    match l with
    | FNil => fun s => (inl [], s)
    | FCons e l => fun s =>
        match eval names e s with
        | (Ret v, s) => match eval_list names l s with
                        | (inl vs, s) => (inl (v :: vs), s)
                        | r => r
                        end
        | (Exit x, s) => (inr x, s)
        end
    end
  with eval_handlers (names : list nat) (x : nat) (hs : handlers) : list (val * (val -> thunk)) :=
    match hs with
    | HNil => []
    | HCons spec body hs => (spec, fun d => with_binding d (eval (x :: names) body)) :: eval_handlers names x hs
    end.

  (** * The machine *)

  (** The instructions of lispmach.h used here.  Addresses are numbers of
      instructions (the assembler is C34's).  PUSH_LABEL is a push of an address,
      which the assembler makes a constant. *)
  Inductive insn :=
  | PUSH (v : val) | PUSH_LABEL (a : nat) | REF (i : nat) | SETN (i : nat) | DUP | POP
  | CALL (f n : nat) | THROW | JMP (a : nat) | JN (a : nat) | JTP (a : nat) | EJMP (a : nat)
  | INIT_BIND | BIND | UNBIND | BINDERR | CATCH | ERRORPRO.
  (** Elements of the binding stack, lispmach.h 79-87: an error handler (PC . SP), or a frame of
      so many lexical bindings *)
  Inductive bitem := Handler (pc : nat) (sp : nat) | Frame (lexicals : nat).
  (** The stack holds values, addresses, and exceptions given to handlers *)
  Inductive sitem := V (v : val) | A (a : nat) | X (x : exn).

  (** Running, or at the label error: with rep_throw_value set *)
  Inductive config :=
  | Run (pc : nat) (stack : list sitem) (binds : list bitem) (s : state)
  | Error (x : exn) (stack : list sitem) (binds : list bitem) (s : state).

  Definition is_nil (i : sitem) : bool := match i with V v => nilp v | _ => false end.
  (** rep_compare_error, lisp.c 2570-2586; every atom is taken for a symbol *)
  Definition compare_error (error handler : val) : bool :=
    match error with
    | Cons _ sym _ =>
        match handler with
        | Atom _ => eq_ sym handler || eq_ handler error_
        | Cons _ _ _ => memq sym handler
        end
    | Atom _ => false
    end.
  (** The values popped for a call, first argument deepest *)
  Fixpoint pop_values (n : nat) (st : list sitem) : option (list val * list sitem) :=
    match n with
    | O => Some ([], st)
    | S n => match st with
             | V v :: st => option_map (fun '(l, st) => (l ++ [v], st)) (pop_values n st)
             | _ => None
             end
    end.
  (** The elements left when the stack is cut to [n] *)
  Definition cut (n : nat) (st : list sitem) : list sitem := skipn (length st - n) st.

  (** One step; None: the end of the code, nothing left to unwind, or a stack
      that is not as it should be *)
  Definition step (code : list insn) (c : config) : option config :=
    match c with
    | Error x st bs s =>
        (* lispmach.h 2219-2264 *)
        match bs with
        | [] => None
        | Frame n :: bs => Some (Error x st bs (skipn n (fst s), snd s))
        | Handler pc sp :: bs => Some (Run pc (X x :: cut sp st) bs s)
        end
    | Run pc st bs s =>
        match nth_error code pc with
        | None => None
        | Some i =>
            match i, st with
            | PUSH v, _ => Some (Run (S pc) (V v :: st) bs s)
            | PUSH_LABEL a, _ => Some (Run (S pc) (A a :: st) bs s)
            | REF i, _ => Some (Run (S pc) (V (nth i (fst s) nil_) :: st) bs s)
            | SETN i, V v :: st => Some (Run (S pc) st bs (set_nth (fst s) i v, snd s))
            | DUP, x :: st => Some (Run (S pc) (x :: x :: st) bs s)
            | POP, _ :: st => Some (Run (S pc) st bs s)
            | CALL f n, _ =>
                match pop_values n st with
                | Some (vs, st) =>
                    match ext f vs (snd s) with
                    | (Ret v, w) => Some (Run (S pc) (V v :: st) bs (fst s, w))
                    | (Exit x, w) => Some (Error x st bs (fst s, w))
                    end
                | None => None
                end
            | THROW, V v :: V t :: st => Some (Error (t, v) (V t :: st) bs s)             (* 1546-1554 *)
            | JMP a, _ => Some (Run a st bs s)
            | JN a, x :: st => Some (Run (if is_nil x then a else S pc) st bs s)           (* 2129-2135 *)
            | JTP a, x :: st' => Some (if is_nil x then Run (S pc) st' bs s else Run a st bs s)  (* 2173-2179 *)
            | EJMP a, x :: st =>                                                          (* 2119-2127 *)
                match x with
                | X e => Some (Error e st bs s)
                | V v => if nilp v then Some (Run a st bs s) else None
                | A _ => None
                end
            | INIT_BIND, _ => Some (Run (S pc) st (Frame 0 :: bs) s)
            | BIND, V v :: st =>
                match bs with
                | Frame n :: bs => Some (Run (S pc) st (Frame (S n) :: bs) (v :: fst s, snd s))
                | _ => None
                end
            | UNBIND, _ =>                                                                (* 88-105, 1145-1148 *)
                match bs with
                | Frame n :: bs => Some (Run (S pc) st bs (skipn n (fst s), snd s))
                | Handler _ _ :: bs => Some (Run (S pc) st bs s)
                | [] => None
                end
            | BINDERR, A a :: st => Some (Run (S pc) st (Handler a (length st) :: bs) s)    (* 1556-1565 *)
            | CATCH, V tag :: X x :: st =>                                                (* 1530-1544 *)
                Some (if eq_ (fst x) tag then Run (S pc) (V nil_ :: V (snd x) :: st) bs s else Run (S pc) (X x :: st) bs s)
            | ERRORPRO, V c :: X x :: st =>                                               (* 1599-1618 *)
                Some (if eq_ (fst x) error_ && compare_error (snd x) c
                      then Run (S pc) (V nil_ :: st) (Frame 1 :: bs) (snd x :: fst s, snd s)
                      else Run (S pc) (X x :: st) bs s)
            | _, _ => None
            end
        end
    end.

  (** * The compiler: the code of a form, to be put at address [b].  Labels
      are their addresses.  All variables are in the environment: that the
      compiler may keep one that no closure captures in a register, and the
      binding of %in-condition-case, are left out.  A call names its function in
      the instruction, instead of pushing it first. *)
  Fixpoint count (l : forms) : nat := match l with FNil => O | FCons _ l => S (count l) end.
  Fixpoint compile (names : list nat) (b : nat) (e : form) : list insn :=
    match e with
    | Quote v => [PUSH v]
    | Var x => [match index x names with Some i => REF i | None => PUSH nil_ end]
    | Set_ x e =>
        (* compile-set, rep.jl 395-409 *)
        let c := compile names b e in
        c ++ [DUP; match index x names with Some i => SETN i | None => POP end]
    | Let x e body =>
        (* the call of a lambda, compile-lambda-inline, inline.jl 128-185 *)
        let c := compile names b e in
        let d := compile (x :: names) (b + length c + 2) body in
        c ++ [INIT_BIND; BIND] ++ d ++ [UNBIND]
    | Progn x y =>
        (* compile-body, basic.jl 236-252 *)
        let c := compile names b x in
        c ++ [POP] ++ compile names (b + length c + 1) y
    | If c x y =>
        (* (cond (c x) (t y)), compile-cond, rep.jl 550-624; constant conditions
           are squashed *)
        match c with
        | Quote v => if nilp v then compile names b y else compile names b x
        | _ =>
            let cc := compile names b c in
            let cx := compile names (b + length cc + 1) x in
            let els := (b + length cc + 1 + length cx + 1)%nat in
            let cy := compile names els y in
            cc ++ [JN els] ++ cx ++ [JMP (els + length cy)] ++ cy
        end
    | Call f args => compile_list names b args ++ [CALL f (count args)]
    | Throw tag value =>
        (* compile-2-args, rep.jl 1009-1017 *)
        let c := compile names b tag in
        c ++ compile names (b + length c) value ++ [THROW]
    | Catch tag body =>
        (* compile-catch, rep.jl 673-709 *)
        let t := compile names (b + 1) tag in
        let start := (b + 1 + length t + 2)%nat in
        let c := compile names (start + 2) body in
        let end_ := (start + 2 + length c + 1)%nat in
        [JMP start] ++ t ++ [CATCH; EJMP end_] ++ [PUSH_LABEL (b + 1); BINDERR] ++ c ++ [UNBIND]
    | Unwind body cleanup =>
        (* compile-unwind-pro, rep.jl 711-755 *)
        let p := compile names (b + 1) cleanup in
        let start := (b + 1 + length p + 2)%nat in
        let c := compile names (start + 2) body in
        let end_ := (start + 2 + length c + 3)%nat in
        [JMP start] ++ p ++ [POP; EJMP end_] ++ [PUSH_LABEL (b + 1); BINDERR] ++ c ++ [UNBIND; PUSH nil_; JMP (b + 1)]
    | Cond x body hs =>
        (* compile-condition-case, rep.jl 757-853.  The code of the handlers
           jumps to [end_], which comes after code that is compiled later: its
           address is found from the lengths, as the assembler does. *)
        let len := handlers_length names x hs in
        let start := (b + 1 + len)%nat in
        let c := compile names (start + 2) body in
        let end_ := (start + 2 + length c)%nat in
        [JMP start] ++ compile_handlers names x (b + 1) end_ hs ++ [PUSH_LABEL (b + 1); BINDERR] ++ c ++ [UNBIND]
    end
  with compile_list (names : list nat) (b : nat) (l : forms) : list insn :=
    match l with
    | FNil => []
    | FCons e l => let c := compile names b e in c ++ compile_list names (b + length c) l
    end
  with compile_handlers (names : list nat) (x : nat) (b end_ : nat) (hs : handlers) : list insn :=
    match hs with
    | HNil => []
    | HCons spec body hs =>
        let c := compile (x :: names) (b + 3) body in
        let next := (b + 3 + length c + 1)%nat in
        match hs with
        | HNil => [PUSH spec; ERRORPRO; EJMP (b + 3)] ++ c ++ [JMP end_]
        | HCons _ _ _ => [PUSH spec; ERRORPRO; JTP next] ++ c ++ [JMP end_] ++ compile_handlers names x next end_ hs
        end
    end
  with handlers_length (names : list nat) (x : nat) (hs : handlers) : nat :=
    match hs with
    | HNil => O
    | HCons spec body hs => (3 + length (compile (x :: names) 0 body) + 1 + handlers_length names x hs)%nat
    end.
End World.
