(* Model of binding arguments to parameters: bind_lambda_list_1 (src/lisp.c:1182-1372) for
   interpreted functions; compile-lambda-spec (lisp/rep/vm/compiler/basic.jl:282-334) with the
   instructions it emits (src/lispmach.h:2043-2119) for compiled functions; push-inline-args and
   pop-inline-args (lisp/rep/vm/compiler/inline.jl:43-121) for lambda expressions that are called where
   they stand.

   &optional and &rest are the same as #!optional and #!rest (with a warning).  Interrupts are not
   modelled.  Values are told apart by being false, true, a keyword, a list made for a rest
   parameter, or another object. *)
From Coq Require Import List Bool Arith.
Import ListNotations.

Inductive val := Nil | T | Kw (x : nat) | Obj (n : nat) | Lst (l : list val).
(* expressions giving defaults *)
Definition form := nat.

(* elements of a lambda list: the three markers, a parameter (x, or (x d)), anything else.  Then there
   can be a symbol in the last cdr. *)
Inductive elem := MOpt | MKey | MRest | Par (x : nat) (d : option form) | Bad.
Definition llist : Type := list elem * option nat.

(* results: the bindings in the order they are made; the parameter without argument; a lambda list
   that is not one; an error in a default; null pointers used as values *)
Inductive bres := Bound (l : list (nat * val)) | Missing (x : nat) | Invalid | Failed | Null | NoInline.

(* Evaluation of a default depends on what the former have done, so on which they were.  None: an error *)
Definition evals : Type := list form -> form -> option val.

(* rep_NULL, or a value *)
Definition slot := option val.
Definition is_key (x : nat) (v : val) : bool := match v with Kw y => Nat.eqb x y | _ => false end.

(* --- interpreted --- *)

(* VAR_VALUE and VAR_EVALP; a default that is not given is nil *)
Inductive item := Ready (v : val) | Eval (d : option form).
Inductive res1 := Vars (l : list (nat * item)) | RMissing (x : nat) | RInvalid.
Definition cons1 (b : nat * item) (r : res1) : res1 := match r with Vars l => Vars (b :: l) | r => r end.

(* enum arg_state *)
Definition st_required := 1.
Definition st_optional := 2.
Definition st_key := 3.
Definition st_rest := 4.

(* 1292-1301 *)
Fixpoint scan1 (x : nat) (args : list slot) : option (val * list slot) :=
  match args with
  | a :: ((b :: r) as t) =>
    match a, b with
    | Some k, Some v => if is_key x k then Some (v, None :: None :: r) else match scan1 x t with Some (w, t') => Some (w, a :: t') | None => None end
    | _, _ => match scan1 x t with Some (w, t') => Some (w, a :: t') | None => None end
    end
  | _ => None
  end.
(* 1305-1319 *)
Fixpoint collect (args : list slot) : list val :=
  match args with
  | [] => []
  | Some v :: r => v :: collect r
  | None :: r => collect r
  end.
(* 1201-1331 *)
Fixpoint pass1 (es : list elem) (tl : option nat) (state : nat) (args : list slot) : res1 :=
  match es with
  | [] =>
    match tl with
    | Some x => Vars [(x, Ready (Lst (collect args)))]
    | None => Vars []
    end
  | MOpt :: es => if st_optional <=? state then RInvalid else pass1 es tl st_optional args
  | MKey :: es => if st_key <=? state then RInvalid else pass1 es tl st_key args
  | MRest :: es => if st_rest <=? state then RInvalid else pass1 es tl st_rest args
  | Bad :: _ => RInvalid
  | Par x d :: es =>
    if state =? st_rest then Vars [(x, Ready (Lst (collect args)))]
    else if state =? st_key then
      match scan1 x args with
      | Some (v, args) => cons1 (x, Ready v) (pass1 es tl state args)
      | None => cons1 (x, Eval d) (pass1 es tl state args)
      end
    else match args with
    | Some v :: args => cons1 (x, Ready v) (pass1 es tl state args)
    | None :: _ => RInvalid (* not reached: only keywords make null pointers *)
    | [] => if state =? st_optional then cons1 (x, Eval d) (pass1 es tl state []) else RMissing x
    end
  end.
(* 1336-1353 *)
Fixpoint pass2 (ev : evals) (hist : list form) (l : list (nat * item)) : option (list (nat * val)) :=
  match l with
  | [] => Some []
  | (x, Ready v) :: l => match pass2 ev hist l with Some r => Some ((x, v) :: r) | None => None end
  | (x, Eval None) :: l => match pass2 ev hist l with Some r => Some ((x, Nil) :: r) | None => None end
  | (x, Eval (Some f)) :: l =>
    match ev hist f with
    | Some v => match pass2 ev (hist ++ [f]) l with Some r => Some ((x, v) :: r) | None => None end
    | None => None
    end
  end.
Definition interpreted (ev : evals) (ll : llist) (args : list val) : bres :=
  match pass1 (fst ll) (snd ll) st_required (map Some args) with
  | Vars l => match pass2 ev [] l with Some r => Bound r | None => Failed end
  | RMissing x => Missing x
  | RInvalid => Invalid
  end.
(* the last made binding of a name is seen *)
Definition visible (l : list (nat * val)) (x : nat) : option val :=
  option_map snd (find (fun p => Nat.eqb (fst p) x) (rev l)).

(* --- compiled --- *)

(* keyword-arg and keyword-arg* with the constant pushed before them; jt with the code of a default up to
   its label *)
Inductive insn := RequiredArg (x : nat) | OptionalArg | OptionalArg' | RestArg | KeywordArg (x : nat) | KeywordArg' (x : nat) | JtDefault (f : form).

(* state is a symbol there; the variables in the order they are consed, last first *)
Fixpoint compile (es : list elem) (tl : option nat) (state : nat) (vars : list nat) : list insn * list nat :=
  match es with
  | [] =>
    match tl with
    | Some x => ([RestArg], x :: vars)
    | None => ([], vars)
    end
  | MOpt :: es => compile es tl st_optional vars
  | MKey :: es => compile es tl st_key vars
  | MRest :: es => compile es tl st_rest vars
  | Bad :: es => ([], vars) (* not modelled: an error of the compiler *)
  | Par x d :: es =>
    let code :=
      if state =? st_required then [RequiredArg x]
      else if state =? st_optional then match d with Some f => [OptionalArg'; JtDefault f] | None => [OptionalArg] end
      else if state =? st_key then match d with Some f => [KeywordArg' x; JtDefault f] | None => [KeywordArg x] end
      else [RestArg] in
    let (c, v) := compile es tl state (x :: vars) in (code ++ c, v)
  end.

(* OP_KEYWORD_ARG: the value can be a null pointer *)
Fixpoint scan_all (x : nat) (args : list slot) : option (slot * list slot) :=
  match args with
  | a :: ((b :: r) as t) =>
    if match a with Some k => is_key x k | None => false end then Some (b, None :: None :: r)
    else match scan_all x t with Some (w, t') => Some (w, a :: t') | None => None end
  | _ => None
  end.
(* OP_KEYWORD_ARG_ *)
Fixpoint scan_pairs (x : nat) (args : list slot) : option (slot * list slot) :=
  match args with
  | a :: b :: r =>
    if match a with Some k => is_key x k | None => false end then Some (b, None :: None :: r)
    else match scan_pairs x r with Some (w, r') => Some (w, a :: b :: r') | None => None end
  | _ => None
  end.

(* args: argv from argptr on; stk: the stack, top first *)
Inductive vres := VOk (stk : list slot) | VMissing (x : nat) | VFailed.
Fixpoint exec (ev : evals) (hist : list form) (c : list insn) (args : list slot) (stk : list slot) : vres :=
  match c with
  | [] => VOk stk
  | RequiredArg x :: c => match args with a :: args => exec ev hist c args (a :: stk) | [] => VMissing x end
  | OptionalArg :: c => match args with a :: args => exec ev hist c args (a :: stk) | [] => exec ev hist c [] (Some Nil :: stk) end
  | OptionalArg' :: c => match args with a :: args => exec ev hist c args (Some T :: a :: stk) | [] => exec ev hist c [] (Some Nil :: stk) end
  | RestArg :: c => exec ev hist c [] (Some (Lst (collect args)) :: stk)
  | KeywordArg x :: c =>
    match scan_all x args with Some (v, args) => exec ev hist c args (v :: stk) | None => exec ev hist c args (Some Nil :: stk) end
  | KeywordArg' x :: c =>
    match scan_pairs x args with Some (v, args) => exec ev hist c args (Some T :: v :: stk) | None => exec ev hist c args (Some Nil :: stk) end
  | JtDefault f :: c =>
    match stk with
    | Some Nil :: stk => match ev hist f with Some v => exec ev (hist ++ [f]) c args (Some v :: stk) | None => VFailed end
    | _ :: stk => exec ev hist c args stk
    | [] => VFailed
    end
  end.
(* 286-293: each variable is bound to the top of the stack *)
Fixpoint bind_vars (vars : list nat) (stk : list slot) : option (list (nat * val)) :=
  match vars, stk with
  | [], _ => Some []
  | x :: vars, Some v :: stk => match bind_vars vars stk with Some l => Some ((x, v) :: l) | None => None end
  | _, _ => None
  end.
Definition compiled (ev : evals) (ll : llist) (args : list val) : bres :=
  let (c, vars) := compile (fst ll) (snd ll) st_required [] in
  match exec ev [] c (map Some args) [] with
  | VOk stk => match bind_vars vars stk with Some l => Bound l | None => Null end
  | VMissing x => Missing x
  | VFailed => Failed
  end.

(* --- inlined --- *)

(* bind-stack: a symbol, or one with the number of arguments to make a list of *)
Inductive bitem := BSym (x : nat) | BList (x : nat) (n : nat).
(* 58-98: args-left, the bind-stack, and the defaults pushed after the arguments (None: nil) *)
Inductive ires := IOk (nleft : nat) (b : list bitem) (defaults : list (option form)) | IMissing (x : nat) | IKeys.
Definition st_done := 5.
Fixpoint push_inline (es : list elem) (tl : option nat) (state nleft : nat) (b : list bitem) (ds : list (option form)) : ires :=
  match es with
  | [] =>
    match tl with
    | Some x => IOk 0 (BList x nleft :: b) ds
    | None => IOk nleft b ds
    end
  | MOpt :: es => push_inline es tl st_optional nleft b ds
  | MRest :: es => push_inline es tl st_rest nleft b ds
  | MKey :: es => IKeys
  | Bad :: _ => IKeys (* not modelled *)
  | Par x d :: es =>
    if state =? st_required then
      match nleft with O => IMissing x | S nleft => push_inline es tl state nleft (BSym x :: b) ds end
    else if state =? st_optional then
      match nleft with
      | O => push_inline es tl state 0 (BSym x :: b) (ds ++ [d])
      | S nleft => push_inline es tl state nleft (BSym x :: b) ds
      end
    else if state =? st_rest then push_inline es tl st_done 0 (BList x nleft :: b) ds
    else push_inline es tl state nleft b ds
  end.
(* the stack, top first, after the defaults *)
Fixpoint push_defaults (ev : evals) (hist : list form) (ds : list (option form)) (stk : list val) : option (list val) :=
  match ds with
  | [] => Some stk
  | None :: ds => push_defaults ev hist ds (Nil :: stk)
  | Some f :: ds => match ev hist f with Some v => push_defaults ev (hist ++ [f]) ds (v :: stk) | None => None end
  end.
(* 100-121.  push nil; n times cons *)
Fixpoint pop_inline (b : list bitem) (stk : list val) : option (list (nat * val)) :=
  match b with
  | [] => Some []
  | BSym x :: b => match stk with v :: stk => match pop_inline b stk with Some l => Some ((x, v) :: l) | None => None end | [] => None end
  | BList x n :: b => match pop_inline b (skipn n stk) with Some l => Some ((x, Lst (rev (firstn n stk))) :: l) | None => None end
  end.
Definition inlined (ev : evals) (ll : llist) (args : list val) : bres :=
  match push_inline (fst ll) (snd ll) st_required (length args) [] [] with
  | IOk nleft b ds =>
    match push_defaults ev [] ds (rev args) with
    | Some stk => match pop_inline b stk with Some l => Bound l | None => Null end
    | None => Failed
    end
  | IMissing x => Missing x
  | IKeys => NoInline
  end.
