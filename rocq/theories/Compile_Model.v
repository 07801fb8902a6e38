(** The byte-code compiler for the core of the language, the virtual machine
    that runs its code, and the interpreter it has to agree with.

    lisp/rep/vm/compiler/basic.jl 60-453, bindings.jl 53-293, inline.jl
    39-228, lap.jl 41-106, rep.jl 321-672 and 855-1045, utils.jl 292-313;
    src/lispmach.h 480-2290; src/lisp.c 1130-1460, 1620-1745, 1816-1945,
    2036-2068, src/lispcmds.c 108-122, 1173-1215, src/symbols.c 860-975,
    1126-1190; lisp/rep/lang/interpreter.jl 120-275, 358-378.

    Simplifications, for the whole file:
    - programs are given after macro expansion of everything that has no
      compiler handler; constant folding and the source transforms other than
      setq (compiler/src.jl) are left out, as are defconst, immutable and
      imported bindings, declarations and warnings;
    - all variables are lexical or global: no special variables, so
      [lexically-pure] stays t (bindings.jl 100-101, 116-120) and frames hold
      lexical bindings only; no catch, unwind-protect, condition-case,
      let-fluids, apply, mapc; an error ends the program;
    - parameter lists have required, optional (without default) and rest
      parameters, no keywords;
    - conses are immutable and functions have no identity ([eq] on them is
      left out); max-lisp-depth, garbage collection, interrupts, threads and
      call/cc are not modelled;
    - the peephole optimiser and the assembler come after this
      (Peephole_Model, Asm_Model): the machine runs the instruction list that
      [allocate-bindings] leaves;
    - elimination of tail calls by the machine (lispmach.h 749-808) saves
      space only and is left out. *)
From Coq Require Import List Arith Bool ZArith Lia.
Import ListNotations.
Open Scope Z_scope.

Notation var := nat (only parsing).

(** Constants: data that may be quoted *)
Inductive const :=
| KNil | KT | KNum (z : Z) | KSym (x : nat) | KPair (a d : const).

(** Run-time values; [C] is what functions are *)
Inductive val (C : Type) :=
| VNil | VT | VUndef | VNum (z : Z) | VSym (x : nat)
| VPair (a d : val C) | VFun (c : C).
Arguments VNil {C}. Arguments VT {C}. Arguments VUndef {C}. Arguments VNum {C}.
Arguments VSym {C}. Arguments VPair {C}. Arguments VFun {C}.

Fixpoint kval {C} (k : const) : val C :=
  match k with
  | KNil => VNil | KT => VT | KNum z => VNum z | KSym x => VSym x
  | KPair a d => VPair (kval a) (kval d)
  end.

(** data without functions in it *)
Fixpoint first_order {C} (v : val C) : option const :=
  match v with
  | VNil => Some KNil | VT => Some KT | VUndef => None
  | VNum z => Some (KNum z) | VSym x => Some (KSym x)
  | VPair a d =>
      match first_order a, first_order d with
      | Some a, Some d => Some (KPair a d)
      | _, _ => None
      end
  | VFun _ => None
  end.

Definition nilp {C} (v : val C) : bool := match v with VNil => true | _ => false end.
Definition boolv {C} (b : bool) : val C := if b then VT else VNil.

(** Errors: the symbol that is signalled and the culprit, not the rest of the
    data *)
Inductive err :=
| Void (x : var)          (* void-value *)
| Unset (x : var)         (* void-value, from an assignment *)
| Bad (o : nat)           (* bad-arg, from the instruction *)
| Missing                 (* missing-arg *)
| NotFun.                 (* invalid-function *)

(** Instructions that compute: rep.jl 1080-1262.  [OP k n]: any of the others,
    of [n] arguments; its meaning on data without functions is a parameter of
    the model, and given a function it fails. *)
Inductive op := OCar | OCdr | OCons | ONot | OConsp | OP (k n : nat).
Definition arity (o : op) : nat :=
  match o with OCar | OCdr | ONot | OConsp => 1 | OCons => 2 | OP _ n => n end.

(** what [OP k n] does *)
Definition prims := nat -> list const -> option const.

Fixpoint all_first {C} (vs : list (val C)) : option (list const) :=
  match vs with
  | [] => Some []
  | v :: vs =>
      match first_order v, all_first vs with
      | Some k, Some ks => Some (k :: ks)
      | _, _ => None
      end
  end.

(** OP_CAR, OP_CDR, OP_CONS, OP_NOT, OP_CONSP, lispmach.h 1178-1200,
    1294-1300, 1500-1512, and the functions of the same names *)
Definition apply_op {C} (P : prims) (o : op) (vs : list (val C)) : val C + err :=
  match o, vs with
  | OCar, [VPair a _] => inl a
  | OCar, [_] => inl VNil
  | OCdr, [VPair _ d] => inl d
  | OCdr, [_] => inl VNil
  | OCons, [a; d] => inl (VPair a d)
  | ONot, [v] => inl (boolv (nilp v))
  | OConsp, [VPair _ _] => inl VT
  | OConsp, [_] => inl VNil
  | OP k _, vs =>
      match all_first vs with
      | Some ks => match P k ks with Some r => inl (kval r) | None => inr (Bad k) end
      | None => inr (Bad k)
      end
  | _, _ => inr (Bad 0)
  end.

(** eql against a constant (lispcmds.c, Feql): numbers by value; conses and
    strings only when they are the same object, which is never the case here *)
Definition eqlv {C} (v : val C) (k : const) : bool :=
  match v, k with
  | VNil, KNil | VT, KT => true
  | VNum a, KNum b => Z.eqb a b
  | VSym a, KSym b => Nat.eqb a b
  | _, _ => false
  end.

(** Fmemql, lispcmds.c: the rest of the list from the first match *)
Fixpoint memqlv {C} (v : val C) (ks : list const) : val C :=
  match ks with
  | [] => VNil
  | k :: ks' => if eqlv v k then kval (fold_right KPair KNil ks) else memqlv v ks'
  end.

(** * Programs *)

Record params := { req : list var; opt : list var; rest : option var }.

(** get-lambda-vars, utils.jl 319-328 *)
Definition lambda_vars (p : params) : list var :=
  req p ++ opt p ++ match rest p with Some x => [x] | None => [] end.

Inductive exp :=
| EConst (k : const)                     (* quote, numbers, nil, t, keywords *)
| EVar (x : var)
| ESet (x : var) (e : exp)               (* (setq x e) *)
| EDefine (x : var) (e : exp)            (* (%define x e) *)
| EDefun (x : var) (p : params) (b : list exp)  (* (defun x p b...) *)
| EPrim (o : op) (args : list exp)       (* a function that is one instruction *)
| EBin (o : op) (args : list exp)        (* + * - / logior logxor logand max min *)
| EList (args : list exp)                (* (list args...) *)
| ECall (f : exp) (args : list exp)      (* (f args...), f not a lambda *)
| ELam (p : params) (b : list exp)
| EInline (p : params) (b args : list exp)      (* ((lambda p b...) args...) *)
| EFuncall (f : exp) (args : list exp)   (* (funcall f args...) *)
| EProgn (b : list exp)
| EProg1 (e : exp) (b : list exp)
| ECond (cls : list (exp * list exp))
| ECase (key : exp) (cls : list (option (list const) * list exp))
                                         (* None: the clause of [t] *)
| EWhile (c : exp) (b : list exp)
| ELets (bs : list (var * list exp)) (b : list exp)     (* let* *)
| ELetrec (bs : list (var * list exp)) (b : list exp).

(** * The interpreter *)

(** A closure of interpreted code: what Fmake_closure keeps, the lambda
    expression and the environment; a binding is a cell of the store *)
Record sclo := { sp : params; sb : list exp; senv : list (var * nat) }.
Notation sval := (val sclo).

Record sst := { cells : list sval; globs : list (var * sval) }.

Inductive res :=
| RVal (v : sval) (s : sst)
| RErr (e : err) (s : sst)
| ROut.

Fixpoint assoc {A} (x : nat) (l : list (nat * A)) : option A :=
  match l with
  | [] => None
  | (y, a) :: l => if Nat.eqb x y then Some a else assoc x l
  end.

Fixpoint set_nth {A} (n : nat) (v : A) (l : list A) : list A :=
  match n, l with
  | O, _ :: l => v :: l
  | S n, x :: l => x :: set_nth n v l
  | _, [] => []
  end.

Fixpoint set_assoc {A} (x : nat) (a : A) (l : list (nat * A)) : list (nat * A) :=
  match l with
  | [] => [(x, a)]
  | (y, b) :: l => if Nat.eqb x y then (y, a) :: l else (y, b) :: set_assoc x a l
  end.

(** Fsymbol_value, symbols.c 876-895: the environment, then the structure *)
Definition lookup (x : var) (ev : list (var * nat)) (s : sst) : res :=
  match assoc x ev with
  | Some l => match nth_error (cells s) l with Some v => RVal v s | None => ROut end
  | None => match assoc x (globs s) with Some v => RVal v s | None => RErr (Void x) s end
  end.

(** do_set with Fstructure_set, symbols.c 930-975, structures.c 838-856 *)
Definition assign (x : var) (v : sval) (ev : list (var * nat)) (s : sst) : res :=
  match assoc x ev with
  | Some l => RVal v {| cells := set_nth l v (cells s); globs := globs s |}
  | None =>
      match assoc x (globs s) with
      | Some _ => RVal v {| cells := cells s; globs := set_assoc x v (globs s) |}
      | None => RErr (Unset x) s
      end
  end.

Fixpoint listv {C} (vs : list (val C)) : val C :=
  match vs with [] => VNil | v :: vs => VPair v (listv vs) end.

(** bind_lambda_list_1, lisp.c 1183-1370: the value of each parameter, in
    order; None: missing-arg *)
Fixpoint params_opt {C} (os : list var) (r : option var) (vs : list (val C))
  : list (var * val C) :=
  match os with
  | [] => match r with Some x => [(x, listv vs)] | None => [] end
  | x :: os =>
      match vs with
      | [] => (x, VNil) :: params_opt os r []
      | v :: vs => (x, v) :: params_opt os r vs
      end
  end.
Fixpoint params_req {C} (xs : list var) (p : params) (vs : list (val C))
  : option (list (var * val C)) :=
  match xs, vs with
  | [], _ => Some (params_opt (opt p) (rest p) vs)
  | x :: xs, v :: vs =>
      match params_req xs p vs with Some l => Some ((x, v) :: l) | None => None end
  | _ :: _, [] => None
  end.
Definition bind_params {C} (p : params) (vs : list (val C)) := params_req (req p) p vs.

(** rep_bind_symbol, symbols.c: a new cell, in front of the environment *)
Fixpoint bind_all (bs : list (var * sval)) (ev : list (var * nat)) (s : sst)
  : list (var * nat) * sst :=
  match bs with
  | [] => (ev, s)
  | (x, v) :: bs =>
      bind_all bs ((x, length (cells s)) :: ev)
        {| cells := cells s ++ [v]; globs := globs s |}
  end.

(** all but the first [n] arguments are ignored, missing ones are nil: subrs
    of fixed arity, lisp.c 1668-1712 *)
Fixpoint first_args {C} (n : nat) (vs : list (val C)) : list (val C) :=
  match n, vs with
  | O, _ => []
  | S n, [] => VNil :: first_args n []
  | S n, v :: vs => v :: first_args n vs
  end.

(** +, -, ...: folded from the left, numbers.c 1361-1382 *)
Fixpoint fold_op {C} (P : prims) (o : op) (v : val C) (vs : list (val C))
  : val C + err :=
  match vs with
  | [] => inl v
  | w :: vs => match apply_op P o [v; w] with inl v => fold_op P o v vs | inr e => inr e end
  end.

Definition of_sum (r : sval + err) (s : sst) : res :=
  match r with inl v => RVal v s | inr e => RErr e s end.

Section Lists.
(** [ev e env st] evaluates a form *)
Variable ev : exp -> list (var * nat) -> sst -> res.

(** eval_list, lisp.c 1135-1167 *)
Definition evals := fix go (es : list exp) (en : list (var * nat)) (s : sst)
  (k : list sval -> sst -> res) : res :=
  match es with
  | [] => k [] s
  | e :: es =>
      match ev e en s with
      | RVal v s => go es en s (fun vs s => k (v :: vs) s)
      | r => r
      end
  end.

(** Fprogn, lisp.c 2036-2068 *)
Definition evbody := fix go (es : list exp) (en : list (var * nat)) (s : sst) : res :=
  match es with
  | [] => RVal VNil s
  | [e] => ev e en s
  | e :: es => match ev e en s with RVal _ s => go es en s | r => r end
  end.

(** Fcond, lispcmds.c 1173-1215 *)
Definition evcond := fix go (cls : list (exp * list exp)) (en : list (var * nat))
  (s : sst) : res :=
  match cls with
  | [] => RVal VNil s
  | (c, b) :: cls =>
      match ev c en s with
      | RVal v s =>
          if nilp v then go cls en s
          else match b with [] => RVal v s | _ => evbody b en s end
      | r => r
      end
  end.

(** case, interpreter.jl 204-228: the key is evaluated once; the clauses become
    those of a cond whose tests are (eql key 'item) or (memql key '(items...)) *)
Definition evcase := fix go (v : sval) (cls : list (option (list const) * list exp))
  (en : list (var * nat)) (s : sst) : res :=
  match cls with
  | [] => RVal VNil s
  | (ks, b) :: cls =>
      let test :=
        match ks with
        | None => VT
        | Some [k] => boolv (eqlv v k)
        | Some ks => memqlv v ks
        end in
      if nilp test then go v cls en s
      else match b with [] => RVal test s | _ => evbody b en s end
  end.

(** let*, interpreter.jl 152-161: a nest of lets *)
Definition evlets := fix go (bs : list (var * list exp)) (en : list (var * nat))
  (s : sst) (k : list (var * nat) -> sst -> res) : res :=
  match bs with
  | [] => k en s
  | (x, b) :: bs =>
      match evbody b en s with
      | RVal v s =>
          let '(en, s) := bind_all [(x, v)] en s in go bs en s k
      | r => r
      end
  end.

(** letrec, interpreter.jl 163-176: assignments after binding to nil *)
Definition evsets := fix go (bs : list (var * list exp)) (en : list (var * nat))
  (s : sst) (k : sst -> res) : res :=
  match bs with
  | [] => k s
  | (x, b) :: bs =>
      match evbody b en s with
      | RVal v s =>
          match assign x v en s with RVal _ s => go bs en s k | r => r end
      | r => r
      end
  end.
End Lists.

(** eval, apply and eval_lambda, lisp.c 1404-1455, 1620-1745, 1816-1945.
    [n] bounds the depth of function calls and loop iterations. *)
Fixpoint eval (P : prims) (n : nat) {struct n} : exp -> list (var * nat) -> sst -> res :=
  fix ev (e : exp) (en : list (var * nat)) (s : sst) {struct e} : res :=
  let apply (f : sval) (vs : list sval) (s : sst) : res :=
    match f with
    | VFun c =>
        match bind_params (sp c) vs with
        | None => RErr Missing s
        | Some bs =>
            match n with
            | O => ROut
            | S n =>
                let '(en, s) := bind_all bs (senv c) s in
                evbody (eval P n) (sb c) en s
            end
        end
    | _ => RErr NotFun s
    end in
  match e with
  | EConst k => RVal (kval k) s
  | EVar x => lookup x en s
  | ESet x e => match ev e en s with RVal v s => assign x v en s | r => r end
  | EDefine x e =>
      match ev e en s with
      | RVal v s => RVal VUndef {| cells := cells s; globs := set_assoc x v (globs s) |}
      | r => r
      end
  | EDefun x p b =>
      RVal VUndef {| cells := cells s;
                     globs := set_assoc x (VFun {| sp := p; sb := b; senv := en |}) (globs s) |}
  | EPrim o args =>
      evals ev args en s (fun vs s => of_sum (apply_op P o (first_args (arity o) vs)) s)
  | EBin o args =>
      evals ev args en s (fun vs s =>
        match vs with [] => RErr Missing s | v :: vs => of_sum (fold_op P o v vs) s end)
  | EList args => evals ev args en s (fun vs s => RVal (listv vs) s)
  | ECall f args | EFuncall f args =>
      match ev f en s with
      | RVal fv s => evals ev args en s (fun vs s => apply fv vs s)
      | r => r
      end
  | ELam p b => RVal (VFun {| sp := p; sb := b; senv := en |}) s
  | EInline p b args =>
      evals ev args en s (fun vs s =>
        match bind_params p vs with
        | None => RErr Missing s
        | Some bs => let '(en, s) := bind_all bs en s in evbody ev b en s
        end)
  | EProgn b => evbody ev b en s
  | EProg1 e b =>
      match ev e en s with
      | RVal v s => match evbody ev b en s with RVal _ s => RVal v s | r => r end
      | r => r
      end
  | ECond cls => evcond ev cls en s
  | ECase k cls =>
      match ev k en s with RVal v s => evcase ev v cls en s | r => r end
  | EWhile c b =>
      match ev c en s with
      | RVal v s =>
          if nilp v then RVal VNil s
          else match evbody ev b en s with
               | RVal _ s =>
                   match n with O => ROut | S n => eval P n (EWhile c b) en s end
               | r => r
               end
      | r => r
      end
  | ELets bs b => evlets ev bs en s (fun en s => evbody ev b en s)
  | ELetrec bs b =>
      let '(en, s) := bind_all (map (fun b => (fst b, VNil)) bs) en s in
      evsets ev bs en s (fun s => evbody ev b en s)
  end.

(** * The compiler *)

Inductive jk := Jmp | Jn | Jt | Jpn | Jpt | Jnp | Jtp.

(** Instructions that [allocate-bindings] leaves alone *)
Inductive ins :=
| Push (k : const) | Dup | Swap | Pop | PopAll
| Op (o : op) | Eql | Memql
| Call (n : nat) | Enclose | Return
| InitBind | Unbind | UnbindAll | UnbindAll0
| Refg (x : var) | Setg (x : var) | Define
| RequiredArg | OptionalArg | RestArg.

(** Elements of the intermediate code, lap.jl 46-54.  A binding of the compile
    time environment is a variable and the cell that carries its tags. *)
Inductive item :=
| ILbl (l : nat)
| IJ (k : jk) (l : nat)
| II (i : ins)
| ILexBind (x : var) (env : list (var * nat))
| ILexRef (x : var) (env : list (var * nat))
| ILexSet (x : var) (env : list (var * nat))
| IBytecode (a : asm) (env : list (var * nat))
(** make-assembly, basic.jl 70-76: code, max-stack, max-b-stack *)
with asm := Asm (c : list item) (ms mb : Z).

Definition asm_code (a : asm) := match a with Asm c _ _ => c end.

(** tags of bindings, bindings.jl *)
Inductive tag :=
| Referenced | NotTailCallOnly | Modified | Exposed | AcrossFuncall | Enclosed.
Definition tag_eqb (a b : tag) : bool :=
  match a, b with
  | Referenced, Referenced | NotTailCallOnly, NotTailCallOnly
  | Modified, Modified | Exposed, Exposed
  | AcrossFuncall, AcrossFuncall | Enclosed, Enclosed => true
  | _, _ => false
  end.

(** The fluids of the compiler: intermediate-code (last instruction first),
    gensym's counter, the next cell, current-stack, max-stack,
    current-b-stack, max-b-stack, lex-bindings, the tags *)
Record cst := {
  code : list item; nlab : nat; ncell : nat;
  cur : Z; mx : Z; bcur : Z; bmx : Z;
  lexb : list (var * nat);
  tags : list (nat * tag) }.

(** None: compiler-error *)
Definition M := cst -> option cst.
Definition seq (f g : M) : M :=
  fun s => match f s with Some s => g s | None => None end.
Definition skip : M := fun s => Some s.
Definition compile_error : M := fun _ => None.
Notation "f ;; g" := (seq f g) (at level 60, right associativity).

Definition set_code c (s : cst) : cst :=
  {| code := c; nlab := nlab s; ncell := ncell s; cur := cur s; mx := mx s;
     bcur := bcur s; bmx := bmx s; lexb := lexb s; tags := tags s |}.
Definition set_stack c m (s : cst) : cst :=
  {| code := code s; nlab := nlab s; ncell := ncell s; cur := c; mx := m;
     bcur := bcur s; bmx := bmx s; lexb := lexb s; tags := tags s |}.
Definition set_bstack c m (s : cst) : cst :=
  {| code := code s; nlab := nlab s; ncell := ncell s; cur := cur s; mx := mx s;
     bcur := c; bmx := m; lexb := lexb s; tags := tags s |}.
Definition set_lexb l (s : cst) : cst :=
  {| code := code s; nlab := nlab s; ncell := ncell s; cur := cur s; mx := mx s;
     bcur := bcur s; bmx := bmx s; lexb := l; tags := tags s |}.
Definition set_tags t (s : cst) : cst :=
  {| code := code s; nlab := nlab s; ncell := ncell s; cur := cur s; mx := mx s;
     bcur := bcur s; bmx := bmx s; lexb := lexb s; tags := t |}.
Definition set_counters l c (s : cst) : cst :=
  {| code := code s; nlab := l; ncell := c; cur := cur s; mx := mx s;
     bcur := bcur s; bmx := bmx s; lexb := lexb s; tags := tags s |}.

(** emit-insn and fix-label, lap.jl 50-54, 65 *)
Definition emit (i : item) : M := fun s => Some (set_code (i :: code s) s).
Definition emiti (i : ins) : M := emit (II i).

(** increment-stack, decrement-stack, utils.jl 292-305 *)
Definition inc (n : Z) : M := fun s =>
  let c := cur s + n in Some (set_stack c (Z.max (mx s) c) s).
Definition dec (n : Z) : M := fun s => Some (set_stack (cur s - n) (mx s) s).
(** increment-b-stack, decrement-b-stack, utils.jl 307-313 *)
Definition binc : M := fun s =>
  let c := bcur s + 1 in Some (set_bstack c (Z.max (bmx s) c) s).
Definition bdec : M := fun s => Some (set_bstack (bcur s - 1) (bmx s) s).

(** make-label, lap.jl 57 *)
Definition with_label (f : nat -> M) : M := fun s =>
  f (nlab s) (set_counters (S (nlab s)) (ncell s) s).

(** cell-tagged-p, tag-cell, bindings.jl 73-76 *)
Definition tagged (t : tag) (c : nat) (ts : list (nat * tag)) : bool :=
  existsb (fun p => Nat.eqb (fst p) c && tag_eqb (snd p) t) ts.
Definition tag_cell (t : tag) (c : nat) : M := fun s =>
  Some (if tagged t c (tags s) then s else set_tags ((c, t) :: tags s) s).
(** tag-binding, binding-tagged-p, bindings.jl 78-94 *)
Definition tag_binding (x : var) (t : tag) : M := fun s =>
  match assoc x (lexb s) with Some c => tag_cell t c s | None => Some s end.
Definition binding_tagged (x : var) (t : tag) (s : cst) : bool :=
  match assoc x (lexb s) with Some c => tagged t c (tags s) | None => false end.
Fixpoint tag_cells (t : tag) (l : list (var * nat)) : M :=
  match l with [] => skip | (_, c) :: l => tag_cell t c ;; tag_cells t l end.

(** call-with-frame, bindings.jl 98-112 *)
Definition with_frame (f : M) : M := fun s =>
  match f s with
  | Some s' => Some (set_lexb (skipn (length (lexb s') - length (lexb s)) (lexb s')) s')
  | None => None
  end.
(** note-binding, bindings.jl 115-124 *)
Definition note_binding (x : var) : M := fun s =>
  Some (set_counters (nlab s) (S (ncell s)) (set_lexb ((x, ncell s) :: lexb s) s)).
(** note-binding-modified, bindings.jl 134-139 *)
Definition note_modified (x : var) : M := fun s =>
  match assoc x (lexb s) with
  | Some c =>
      (tag_cell Modified c ;;
       fun s => if tagged AcrossFuncall c (tags s) then tag_cell Exposed c s else Some s) s
  | None => Some s
  end.
(** note-binding-referenced, bindings.jl 147-150 *)
Definition note_referenced (x : var) (tail : bool) : M :=
  tag_binding x Referenced ;; if tail then skip else tag_binding x NotTailCallOnly.
(** note-function-call-made, note-closure-made, bindings.jl 156-166 *)
Definition note_call : M := fun s => tag_cells AcrossFuncall (lexb s) s.
Definition note_closure : M := fun s => tag_cells Enclosed (lexb s) s.

(** emit-binding, emit-varset, emit-varref, bindings.jl 168-205 *)
Definition emit_binding (x : var) : M := fun s => emit (ILexBind x (lexb s)) s.
Definition emit_varset (x : var) : M := fun s =>
  match assoc x (lexb s) with
  | Some _ => emit (ILexSet x (lexb s)) s
  | None => emiti (Setg x) s
  end.
Definition emit_varref (x : var) (tail : bool) : M := fun s =>
  match assoc x (lexb s) with
  | Some _ => (emit (ILexRef x (lexb s)) ;; note_referenced x tail) s
  | None => emiti (Refg x) s
  end.

(** compile-constant, basic.jl 127-129 *)
Definition compile_constant (k : const) : M := emiti (Push k) ;; inc 1.

(** lambda records, basic.jl 78-88 *)
Record lrec := {
  lname : option var; largs : params; ldepth : nat;
  lsp : Z; lbp : Z; llabel : nat; linlined : bool }.

(** find-lambda, basic.jl 97-101 *)
Fixpoint find_lambda (x : var) (ls : list lrec) : option lrec :=
  match ls with
  | [] => None
  | l :: ls =>
      match lname l with
      | Some y => if Nat.eqb x y then Some l else find_lambda x ls
      | None => find_lambda x ls
      end
  end.
Definition depth_of (ls : list lrec) : option nat :=
  match ls with [] => None | l :: _ => Some (ldepth l) end.

(** call-with-lambda-record, basic.jl 103-112; [inl] is set by
    set-lambda-inlined before the body is compiled *)
Definition with_lambda (name : option var) (p : params) (delta : nat) (inl : bool)
  (ls : list lrec) (f : lrec -> M) : M :=
  with_label (fun l s =>
    f {| lname := name; largs := p;
         ldepth := match depth_of ls with Some d => d + delta | None => 0%nat end;
         lsp := cur s; lbp := bcur s; llabel := l; linlined := inl |} s).

(** inlinable-call-p, basic.jl 131-139 *)
Definition inlinable (f : var) (rf : bool) (ls : list lrec) (s : cst) : option lrec :=
  match find_lambda f ls with
  | Some l =>
      if (linlined l || (rf && negb (binding_tagged f Modified s)))
         && match depth_of ls with Some d => Nat.eqb (ldepth l) d | None => false end
      then Some l else None
  | None => None
  end.

(** the scan of the lambda list in push-inline-args, inline.jl 56-98, given
    the number of arguments pushed: what is left over, the variables to be
    bound from the top of the stack, and how often nil is pushed for missing
    optional parameters *)
Fixpoint scan_opt (os : list var) (n : nat) (bs : list (var * option nat)) (pushed : nat)
  : nat * list (var * option nat) * nat :=
  match os with
  | [] => (n, bs, pushed)
  | x :: os =>
      match n with
      | O => scan_opt os O ((x, None) :: bs) (S pushed)
      | S n => scan_opt os n ((x, None) :: bs) pushed
      end
  end.
Fixpoint scan_req (xs : list var) (n : nat) (bs : list (var * option nat))
  : option (nat * list (var * option nat)) :=
  match xs with
  | [] => Some (n, bs)
  | x :: xs =>
      match n with
      | O => None                       (* required arg missing *)
      | S n => scan_req xs n ((x, None) :: bs)
      end
  end.
Definition scan (p : params) (n : nat) : option (nat * list (var * option nat) * nat) :=
  match scan_req (req p) n [] with
  | None => None
  | Some (n, bs) =>
      let '(n, bs, pushed) := scan_opt (opt p) n bs 0 in
      match rest p with
      | Some x => Some (O, (x, Some n) :: bs, pushed)
      | None => Some (n, bs, pushed)
      end
  end.
Fixpoint times (n : nat) (f : M) : M :=
  match n with O => skip | S n => f ;; times n f end.

(** pop-inline-args, inline.jl 102-121 *)
Fixpoint pop_inline (bs : list (var * option nat)) (lft : nat) (setter : var -> M) : M :=
  match bs with
  | [] => times lft (emiti Pop ;; dec 1)
  | (x, None) :: bs => setter x ;; dec 1 ;; pop_inline bs lft setter
  | (x, Some k) :: bs =>
      compile_constant KNil ;; times k (emiti (Op OCons) ;; dec 1) ;;
      setter x ;; dec 1 ;; pop_inline bs lft setter
  end.

(** pop-between, unbind-between, inline.jl 184-202 *)
Definition pop_between (top bottom : Z) : M :=
  if (bottom <=? top) && (0 <=? bottom) then
    if top =? bottom then skip
    else if bottom =? 0 then emiti PopAll
    else times (Z.to_nat (top - bottom)) (emiti Pop)
  else compile_error.
Definition unbind_between (top bottom : Z) : M :=
  if bottom =? -1 then emiti UnbindAll0
  else if bottom =? 0 then (if top <=? bottom then skip else emiti UnbindAll)
  else times (Z.to_nat (top - bottom)) (emiti Unbind).

(** compile-lambda-spec, basic.jl 282-333: the bindings are made when all
    arguments are on the stack, last parameter first *)
Fixpoint bind_vars (xs : list var) : M :=
  match xs with
  | [] => skip
  | x :: xs => note_binding x ;; emit_binding x ;; dec 1 ;; bind_vars xs
  end.
Definition lambda_spec (p : params) : M :=
  times (length (req p)) (emiti RequiredArg ;; inc 1) ;;
  times (length (opt p)) (emiti OptionalArg ;; inc 1) ;;
  match rest p with Some _ => emiti RestArg ;; inc 1 | None => skip end ;;
  bind_vars (rev (lambda_vars p)).

Section Bodies.
(** [c ls rf e] compiles a form *)
Variable c : list lrec -> bool -> exp -> M.

(** compile-body, basic.jl 236-250, without a name *)
Definition cbody (ls : list lrec) (rf : bool) := fix go (b : list exp) : M :=
  match b with
  | [] => compile_constant KNil
  | [e] => c ls rf e
  | e :: b => c ls false e ;; emiti Pop ;; dec 1 ;; go b
  end.

Definition cargs (ls : list lrec) := fix go (b : list exp) : M :=
  match b with [] => skip | e :: b => c ls false e ;; go b end.

(** compile-lambda-to-asm, compile-lambda-constant, basic.jl 337-350, 417-446 *)
Definition clambda (ls : list lrec) (p : params) (b : list exp) (name : option var) : M :=
  fun s =>
  let s0 := {| code := []; nlab := nlab s; ncell := ncell s; cur := 0; mx := 0;
               bcur := 0; bmx := 0; lexb := lexb s; tags := tags s |} in
  match
    with_lambda name p 1 false ls (fun lr =>
      with_frame (lambda_spec p ;; emit (ILbl (llabel lr)) ;;
                  cbody (lr :: ls) true b ;; emiti Return)) s0
  with
  | None => None
  | Some s1 =>
      (emit (IBytecode (Asm (rev (code s1)) (mx s1) (bmx s1)) (lexb s)) ;;
       emiti Enclose ;; inc 1 ;; note_closure)
      (set_tags (tags s1) (set_counters (nlab s1) (ncell s1) s))
  end.

(** compile-body with a name: a lambda expression in last place is compiled
    under that name (basic.jl 241-243) *)
Definition cbody_named (ls : list lrec) (name : var) := fix go (b : list exp) : M :=
  match b with
  | [] => compile_constant KNil
  | [ELam p lb] => clambda ls p lb (Some name)
  | [e] => c ls false e
  | e :: b => c ls false e ;; emiti Pop ;; dec 1 ;; go b
  end.

(** compile-lambda-inline, inline.jl 128-182, once the [n] arguments are on
    the stack.  [cb] compiles the body. *)
Definition cinline (cb : list lrec -> M) (ls : list lrec) (p : params) (n : nat)
  (name : option var) : M :=
  match scan p n with
  | None => compile_error
  | Some (lft, bs, pushed) =>
      times pushed (emiti (Push KNil) ;; inc 1) ;;
      with_frame
        (match bs with
         | [] =>
             times lft (emiti Pop ;; dec 1) ;;
             with_lambda name p 0 true ls (fun lr =>
               emit (ILbl (llabel lr)) ;; cb (lr :: ls))
         | _ =>
             emiti InitBind ;; binc ;;
             pop_inline bs lft (fun x => note_binding x ;; emit_binding x) ;;
             with_lambda name p 0 true ls (fun lr =>
               emit (ILbl (llabel lr)) ;; cb (lr :: ls)) ;;
             emiti Unbind ;; bdec
         end)
  end.

(** compile-tail-call, inline.jl 204-228, once the [n] arguments are on the
    stack *)
Definition ctail (lr : lrec) (n : nat) : M :=
  match scan (largs lr) n with
  | None => compile_error
  | Some (lft, bs, pushed) =>
      times pushed (emiti (Push KNil) ;; inc 1) ;;
      with_frame
        ((fun s =>
            if existsb (fun x => binding_tagged x Enclosed s) (lambda_vars (largs lr))
            then (unbind_between (bcur s) (lbp lr - 1) ;; emiti InitBind ;;
                  pop_inline bs lft emit_binding) s
            else (pop_inline bs lft emit_varset ;;
                  unbind_between (bcur s) (lbp lr)) s) ;;
         (fun s => pop_between (cur s) (lsp lr) s) ;;
         emit (IJ Jmp (llabel lr)))
  end.

(** compile-binary-op, rep.jl 1033-1045 *)
Definition cbin (ls : list lrec) (o : op) := fix go (es : list exp) : M :=
  match es with
  | [] => skip
  | e :: es => c ls false e ;; emiti (Op o) ;; dec 1 ;; go es
  end.

(** compile-1-args etc., rep.jl 993-1029: the first [n] arguments, nil for
    missing ones *)
Definition cfirst (ls : list lrec) := fix go (n : nat) (es : list exp) {struct es} : M :=
  match es with
  | [] => times n (compile_constant KNil)
  | e :: es => match n with O => skip | S n => c ls false e ;; go n es end
  end.

(** compile-cond, rep.jl 550-624.  [true]: a trailing nil is needed. *)
Definition cconst (e : exp) : option bool :=
  match e with EConst KNil => Some false | EConst _ => Some true | _ => None end.
Definition ccond (ls : list lrec) (rf : bool) (el : nat) :=
  fix go (cls : list (exp * list exp)) : M :=
  match cls with
  | [] => emiti (Push KNil)
  | (e, b) :: cls =>
      with_label (fun nl =>
      match cconst e with
      | Some true =>
          match b with
          | [] => match e with
                  | EConst KT => emiti (Push KT)
                  | _ => c ls rf e ;; dec 1
                  end
          | _ => cbody ls rf b ;; dec 1
          end
      | Some false => go cls
      | None =>
          c ls (rf && match b, cls with [], [] => true | _, _ => false end) e ;; dec 1 ;;
          match b, cls with
          | _ :: _, _ :: _ =>
              emit (IJ Jn nl) ;; cbody ls rf b ;; dec 1 ;;
              emit (IJ Jmp el) ;; emit (ILbl nl) ;; go cls
          | _ :: _, [] => emit (IJ Jnp el) ;; cbody ls rf b ;; dec 1
          | [], _ :: _ => emit (IJ Jtp el) ;; go cls
          | [], [] => skip
          end
      end)
  end.

(** the loop of compile-case, rep.jl 636-666; [d]: had-default *)
Definition ccase (ls : list lrec) (rf : bool) (el : nat) :=
  fix go (d : bool) (cls : list (option (list const) * list exp)) : M :=
  match cls with
  | [] => if d then skip else emiti (Push KNil)
  | (ks, b) :: cls =>
      with_label (fun nl =>
      match ks with
      | Some [] => compile_error         (* badly formed clause *)
      | Some [k] =>
          emiti Dup ;; inc 1 ;; compile_constant k ;; emiti Eql ;; dec 1 ;;
          emit (IJ Jn nl) ;; dec 1
      | Some (k :: ks) =>
          emiti Dup ;; inc 1 ;;
          compile_constant (fold_right KPair KNil (k :: ks)) ;; emiti Memql ;; dec 1 ;;
          emit (IJ Jn nl) ;; dec 1
      | None => skip
      end ;;
      cbody ls rf b ;; dec 1 ;; emit (IJ Jmp el) ;; emit (ILbl nl) ;;
      go (d || match ks with None => true | _ => false end) cls)
  end.

(** the bindings of compile-let*, rep.jl 426-440 *)
Definition clets (ls : list lrec) := fix go (bs : list (var * list exp)) : M :=
  match bs with
  | [] => skip
  | (x, b) :: bs =>
      cbody ls false b ;; note_binding x ;; emit_binding x ;; dec 1 ;; go bs
  end.

(** compile-letrec, rep.jl 447-468: bind to nil, then assign *)
Definition cnils := fix go (bs : list (var * list exp)) : M :=
  match bs with
  | [] => skip
  | (x, _) :: bs =>
      compile_constant KNil ;; note_binding x ;; emit_binding x ;; dec 1 ;; go bs
  end.
Definition csets (ls : list lrec) := fix go (bs : list (var * list exp)) : M :=
  match bs with
  | [] => skip
  | (x, b) :: bs => cbody_named ls x b ;; emit_varset x ;; dec 1 ;; go bs
  end.
End Bodies.

(** reload-lex-bindings, lap.jl 90-99: back to the bindings of the saved
    state, found by the name of the first of them; its tags are put back one
    by one *)
Fixpoint reload_lexb (l : list (var * nat)) (saved : list (var * list tag))
  : list (var * nat) :=
  match l with
  | [] => []
  | (x, c) :: l' =>
      match saved with
      | (y, _) :: _ => if Nat.eqb x y then l else reload_lexb l' saved
      | [] => reload_lexb l' saved
      end
  end.
Definition tags_of (c : nat) (ts : list (nat * tag)) : list tag :=
  map snd (filter (fun p => Nat.eqb (fst p) c) ts).
Fixpoint reload_tags (l : list (var * nat)) (saved : list (var * list tag))
  (ts : list (nat * tag)) : list (nat * tag) :=
  match l with
  | [] => ts
  | (_, c) :: l =>
      let ts := filter (fun p => negb (Nat.eqb (fst p) c)) ts in
      match saved with
      | [] => reload_tags l [] ts
      | (_, tg) :: saved => reload_tags l saved (map (pair c) tg ++ ts)
      end
  end.
(** push-state and reload-state, lap.jl 71-84, 101-106; [s0] is the state when
    push-state was called *)
Definition reload (s0 s : cst) : cst :=
  let saved := map (fun b => (fst b, tags_of (snd b) (tags s0))) (lexb s0) in
  let l := reload_lexb (lexb s) saved in
  {| code := code s0; nlab := nlab s; ncell := ncell s; cur := cur s0; mx := mx s0;
     bcur := bcur s0; bmx := bmx s0; lexb := l;
     tags := reload_tags l saved (tags s) |}.

(** the test of compile-letrec, rep.jl 470-497: one binding, to a lambda
    expression, only ever called in tail position, and a body that is one call
    of it *)
Definition letrec_loop (bs : list (var * list exp)) (b : list exp) (s : cst)
  : option (var * params * list exp * list exp) :=
  match bs, b with
  | [(x, [ELam p lb])], [ECall (EVar y) args]
  | [(x, [ELam p lb])], [EProgn [ECall (EVar y) args]] =>
      if Nat.eqb x y && negb (binding_tagged x NotTailCallOnly s)
      then Some (x, p, lb, args) else None
  | _, _ => None
  end.

Definition head_var (f : exp) : option var := match f with EVar x => Some x | _ => None end.

(** compile-form-1, basic.jl 142-232, and the handlers it calls.  [d]: how
    many more lambdas may be inlined (max-inline-depth, inline.jl 40, 133-137,
    counts only those that are open); [inl]: inline-env, the functions defined
    with defsubst. *)
Fixpoint comp (inl : list (var * (params * list exp))) (d : nat) {struct d}
  : list lrec -> bool -> exp -> M :=
  fix c (ls : list lrec) (rf : bool) (e : exp) {struct e} : M :=
  let inline (p : params) (b : list exp) (name : option var) (ls : list lrec)
             (rf : bool) (n : nat) : M :=
    match d with
    | O => compile_error
    | S d => cinline (fun ls => cbody (comp inl d) ls rf b) ls p n name
    end in
  let iargs (args : list exp) : M :=        (* the arguments of an inlined call *)
    match d with
    | O => compile_error
    | S d => cargs (comp inl d) ls args
    end in
  match e with
  | EConst k => compile_constant k
  | EVar x => emit_varref x false ;; inc 1
  | ESet x e =>                                           (* rep.jl 395-413 *)
      c ls false e ;; emiti Dup ;; inc 1 ;; emit_varset x ;; note_modified x ;; dec 1
  | EDefine x e =>                                        (* 343-347 *)
      compile_constant (KSym x) ;; c ls false e ;; emiti Define ;; dec 1
  | EDefun x p b =>                                       (* 532-537 *)
      compile_constant (KSym x) ;; clambda c ls p b (Some x) ;; emiti Define ;; dec 1
  | EPrim o args =>
      cfirst c ls (arity o) args ;; emiti (Op o) ;;
      match arity o with O => inc 1 | S n => dec (Z.of_nat n) end
  | EBin o args =>
      match args with
      | e1 :: es =>
          match es with
          | [] => compile_error
          | _ => c ls false e1 ;; cbin c ls o es
          end
      | [] => compile_error
      end
  | EList args =>                                         (* 855-865 *)
      cargs c ls args ;; compile_constant KNil ;;
      times (length args) (emiti (Op OCons) ;; dec 1)
  | ECall f args =>                                       (* basic.jl 186-229 *)
      fun s =>
      let call : M :=
        c ls false f ;; cargs c ls args ;; emiti (Call (length args)) ;;
        note_call ;; dec (Z.of_nat (length args)) in
      match head_var f with
      | Some x =>
          match inlinable x rf ls s with
          | Some lr =>
              (note_referenced x true ;; cargs c ls args ;;
               ctail lr (length args) ;; inc 1) s
          | None =>
              match match find_lambda x ls with None => assoc x inl | Some _ => None end with
              | Some (p, b) => (iargs args ;; inline p b (Some x) ls rf (length args)) s
              | None => call s
              end
          end
      | None => call s
      end
  | ELam p b => clambda c ls p b None                     (* rep.jl 325-327 *)
  | EInline p b args =>                                   (* basic.jl 189-193 *)
      iargs args ;; inline p b None ls rf (length args)
  | EFuncall f args =>                                    (* rep.jl 883-905 *)
      match f with
      | ELam p b =>
          cargs c ls args ;; inline p b None ls rf (length args) ;;
          match length args with O => inc 1 | S n => dec (Z.of_nat n) end
      | _ =>
          c ls false f ;; cargs c ls args ;; emiti (Call (length args)) ;;
          note_call ;; dec (Z.of_nat (length args))
      end
  | EProgn b => cbody c ls rf b                           (* 384-386 *)
  | EProg1 e b =>                                         (* 388-392 *)
      c ls false e ;; cbody c ls false b ;; emiti Pop ;; dec 1
  | ECond cls =>
      with_label (fun el => ccond c ls rf el cls ;; inc 1 ;; emit (ILbl el))
  | ECase k cls =>
      with_label (fun el =>
        c ls false k ;; ccase c ls rf el false cls ;; inc 1 ;; emit (ILbl el) ;;
        emiti Swap ;; emiti Pop)
  | EWhile e b =>                                         (* 329-340 *)
      with_label (fun top => with_label (fun test =>
        emit (IJ Jmp test) ;; emit (ILbl top) ;; cbody c ls false b ;;
        emiti Pop ;; dec 1 ;; emit (ILbl test) ;; c ls false e ;; emit (IJ Jpt top)))
  | ELets bs b =>                                         (* 418-441 *)
      with_frame (emiti InitBind ;; binc ;; clets c ls bs ;;
                  cbody c ls rf b ;; emiti Unbind ;; bdec)
  | ELetrec bs b =>                                       (* 447-508 *)
      with_frame (fun s0 =>
        match (emiti InitBind ;; binc ;; cnils bs ;; csets c ls bs) s0 with
        | None => None
        | Some s =>
            match letrec_loop bs b s with
            | Some (x, p, lb, args) =>
                (iargs args ;; inline p lb (Some x) ls rf (length args)) (reload s0 s)
            | None => (cbody c ls rf b ;; emiti Unbind ;; bdec) s
            end
        end)
  end.

Definition max_inline : nat := 63.

Definition cst0 : cst :=
  {| code := []; nlab := 0; ncell := 0; cur := 0; mx := 0; bcur := 0; bmx := 0;
     lexb := []; tags := [] |}.
Definition no_params : params := {| req := []; opt := []; rest := None |}.

(** compile-form, compile-form-to-asm, basic.jl 270-279, 382-388: the
    pseudo-assembly code and the tags the bindings end up with *)
Definition form_at (d : nat) (inl : list (var * (params * list exp))) (e : exp)
  : option (asm * list (nat * tag)) :=
  match
    with_lambda None no_params 1 false [] (fun lr =>
      emit (ILbl (llabel lr)) ;; comp inl d [lr] true e ;; emiti Return) cst0
  with
  | Some s => Some (Asm (rev (code s)) (mx s) (bmx s), tags s)
  | None => None
  end.
Definition compile_form (inl : list (var * (params * list exp))) (e : exp)
  : option (asm * list (nat * tag)) :=
  form_at max_inline inl e.

(** * Allocation of bindings *)

(** identify-captured-bindings, bindings.jl 242-251: the cells tagged
    captured *)
Definition refs (env : list (var * nat)) (c : list item) : list nat :=
  flat_map (fun i =>
    match i with
    | ILexRef x _ | ILexSet x _ =>
        match assoc x env with Some c => [c] | None => [] end
    | _ => []
    end) c.
Fixpoint captured_item (i : item) : list nat :=
  match i with
  | IBytecode (Asm c _ _) env => refs env c ++ flat_map captured_item c
  | _ => []
  end.
Definition captured (c : list item) : list nat := flat_map captured_item c.

(** The machine's instructions *)
Inductive mitem :=
| MLbl (l : nat)
| MJ (k : jk) (l : nat)
| MI (i : ins)
| MBind | MRefn (n : nat) | MSetn (n : nat)
| MSlotRef (n : nat) | MSlotSet (n : nat)
| MPushF (f : cobj)
(** a byte-code subr: code and the third element, which packs the sizes of
    the stack, the binding stack and the slots *)
with cobj := CObj (c : list mitem) (req : Z).

(** assemble-assembly-to-form, -subr, basic.jl 362-380 *)
Definition pack (ms mb sl : Z) : Z := ms + Z.shiftl mb 10 + Z.shiftl sl 20.

Section Alloc.
(** heap-binding-p, bindings.jl 210-215 *)
Variable heap : nat -> bool.

(** heap-address, bindings.jl 218-226 *)
Fixpoint heap_address (x : var) (env : list (var * nat)) : option nat :=
  match env with
  | [] => None
  | (y, c) :: env =>
      if heap c then
        if Nat.eqb x y then Some O
        else match heap_address x env with Some n => Some (S n) | None => None end
      else heap_address x env
  end.
(** slot-address, bindings.jl 229-240; [base] bindings belong to the enclosing
    function *)
Fixpoint slots_above (env : list (var * nat)) (own : nat) : nat :=
  match own, env with
  | S own, (_, c) :: env =>
      if heap c then slots_above env own else S (slots_above env own)
  | _, _ => O
  end.
Fixpoint slot_address_from (x : var) (env : list (var * nat)) (own : nat) : option nat :=
  match own, env with
  | S own, (y, _) :: env =>
      if Nat.eqb x y then Some (slots_above env own) else slot_address_from x env own
  | _, _ => None
  end.
Definition slot_address (x : var) (env base : list (var * nat)) : option nat :=
  slot_address_from x env (length env - length base).

(** allocate-bindings-1, bindings.jl 256-293: one instruction, and how many
    slots it needs.  None: the error `No heap address', `No slot address' *)
Definition alloc_lex (i : item) (base : list (var * nat)) : option (mitem * Z) :=
  match i with
  | ILexBind x env =>
      match assoc x env with
      | Some c =>
          if heap c then Some (MBind, 0)
          else match slot_address x env base with
               | Some n => Some (MSlotSet n, Z.of_nat n + 1) | None => None end
      | None => None
      end
  | ILexSet x env =>
      match assoc x env with
      | Some c =>
          if heap c then
            match heap_address x env with Some n => Some (MSetn n, 0) | None => None end
          else match slot_address x env base with
               | Some n => Some (MSlotSet n, Z.of_nat n + 1) | None => None end
      | None => None
      end
  | ILexRef x env =>
      match assoc x env with
      | Some c =>
          if heap c then
            match heap_address x env with Some n => Some (MRefn n, 0) | None => None end
          else match slot_address x env base with
               | Some n => Some (MSlotRef n, Z.of_nat n + 1) | None => None end
      | None => None
      end
  | ILbl l => Some (MLbl l, 0)
  | IJ k l => Some (MJ k l, 0)
  | II i => Some (MI i, 0)
  | IBytecode _ _ => None
  end.

Definition alloc_list (f : item -> option (mitem * Z)) :=
  fix go (c : list item) : option (list mitem * Z) :=
  match c with
  | [] => Some ([], 0)
  | i :: c =>
      match f i, go c with
      | Some (m, n), Some (ms, k) => Some (m :: ms, Z.max n k)
      | _, _ => None
      end
  end.
Fixpoint alloc_item (base : list (var * nat)) (i : item) : option (mitem * Z) :=
  match i with
  | IBytecode (Asm c ms mb) env =>
      match alloc_list (alloc_item env) c with
      | Some (mc, sl) => Some (MPushF (CObj mc (pack ms mb sl)), 0)
      | None => None
      end
  | i => alloc_lex i base
  end.
Definition alloc_asm (base : list (var * nat)) (a : asm) : option cobj :=
  match a with
  | Asm c ms mb =>
      match alloc_list (alloc_item base) c with
      | Some (mc, sl) => Some (CObj mc (pack ms mb sl))
      | None => None
      end
  end.
End Alloc.

(** heap-binding-p once identify-captured-bindings has run; [unsafe]: the
    declaration unsafe-for-call/cc *)
Definition heap_binding (unsafe : bool) (ts : list (nat * tag)) (cap : list nat)
  (c : nat) : bool :=
  existsb (Nat.eqb c) cap || (negb unsafe && tagged Exposed c ts).

(** compile-form to the end: what run-byte-code is given *)
Definition compile (unsafe : bool) (inl : list (var * (params * list exp))) (e : exp)
  : option cobj :=
  match compile_form inl e with
  | Some (a, ts) =>
      alloc_asm (heap_binding unsafe ts (captured (asm_code a))) [] a
  | None => None
  end.

(** * The machine *)

(** A closure of compiled code: the byte-code subr and the environment, a list
    of cells *)
Record tclo := { tcode : cobj; tenv : list nat }.
Notation tval := (val tclo).

(** One invocation of vm: the rest of the code, the whole of it, the stack (top
    first), rep_env, the number of lexical bindings in each frame of the
    binding stack, the slots (None: zero), the arguments not yet taken, and the
    sizes of the stacks *)
Record act := {
  rst : list mitem; prog : list mitem;
  stk : list tval; env : list nat; frs : list nat; slots : list (option tval);
  argv : list tval; lim : Z; blim : Z }.

(** The machine: the running invocation, the suspended ones, the heap cells,
    the globals, and rep_throw_value where it has been set without anybody
    noticing *)
Record mst := {
  top : act; susp : list act;
  hcells : list tval; tglobs : list (var * tval); pend : option err }.

Inductive out :=
| Ret (v : tval) (h : list tval) (g : list (var * tval))
| Err (e : err) (h : list tval) (g : list (var * tval))
| Stuck.                      (* undefined in the C program *)

Inductive mres := Next (s : mst) | Done (o : out).

Fixpoint mfind (l : nat) (c : list mitem) : option (list mitem) :=
  match c with
  | [] => None
  | MLbl l' :: c => if Nat.eqb l l' then Some c else mfind l c
  | _ :: c => mfind l c
  end.

(** inline_apply_bytecode and the beginning of vm, lispmach.h 484-494,
    498-600 *)
Definition start_act (f : cobj) (ev : list nat) (args : list tval) : act :=
  match f with
  | CObj c req =>
      {| rst := c; prog := c; stk := []; env := ev; frs := [O];
         slots := repeat None (Z.to_nat (Z.shiftr req 20));
         argv := args; lim := Z.land req 1023; blim := Z.land (Z.shiftr req 10) 1023 |}
  end.

Definition set_top (a : act) (s : mst) : mst :=
  {| top := a; susp := susp s; hcells := hcells s; tglobs := tglobs s; pend := pend s |}.

(** the sizes the stacks were allocated with, lispmach.h 520-523; the ASSERTs of
    CHECK_NEXT, 191-195, are not compiled in *)
Definition fits (a : act) : bool :=
  (Z.of_nat (length (stk a)) <=? lim a) && (Z.of_nat (length (frs a)) <=? blim a + 1).
Definition go (r : list mitem) (k : list tval) (s : mst) : mres :=
  let a := top s in
  let a := {| rst := r; prog := prog a; stk := k; env := env a; frs := frs a;
              slots := slots a; argv := argv a; lim := lim a; blim := blim a |} in
  if fits a then Next (set_top a s) else Done Stuck.

(** error: with no handler, lispmach.h 2218-2270, up to the first caller *)
Definition fail (e : err) (s : mst) : mres := Done (Err e (hcells s) (tglobs s)).

(** the [n] topmost elements, as arguments in order, and the rest *)
Definition popn (n : nat) (k : list tval) : option (list tval * list tval) :=
  if Nat.leb n (length k) then Some (rev (firstn n k), skipn n k) else None.

Definition with_env ev fr (a : act) : act :=
  {| rst := rst a; prog := prog a; stk := stk a; env := ev; frs := fr;
     slots := slots a; argv := argv a; lim := lim a; blim := blim a |}.
Definition with_slots sl (a : act) : act :=
  {| rst := rst a; prog := prog a; stk := stk a; env := env a; frs := frs a;
     slots := sl; argv := argv a; lim := lim a; blim := blim a |}.
Definition with_argv ar (a : act) : act :=
  {| rst := rst a; prog := prog a; stk := stk a; env := env a; frs := frs a;
     slots := slots a; argv := ar; lim := lim a; blim := blim a |}.
Definition with_heap h (s : mst) : mst :=
  {| top := top s; susp := susp s; hcells := h; tglobs := tglobs s; pend := pend s |}.
Definition with_globs g p (s : mst) : mst :=
  {| top := top s; susp := susp s; hcells := hcells s; tglobs := g; pend := p |}.

(** eql of two values one of which is a constant of the program *)
Definition eql2 (x y : tval) : bool :=
  match first_order y with Some k => eqlv x k | None => false end.
(** memql, on a list that is a constant of the program *)
Fixpoint memql2 (x y : tval) : option tval :=
  match y with
  | VNil => Some VNil
  | VPair a d => if eql2 x a then Some y else memql2 x d
  | _ => None
  end.

(** One instruction; the lines of lispmach.h are given with each *)
Definition exec (P : prims) (i : ins) (r : list mitem) (s : mst) : mres :=
  let a := top s in
  match i with
  | Push k => go r (kval k :: stk a) s                                (* 854-858 *)
  | Dup => match stk a with x :: k => go r (x :: x :: k) s | [] => Done Stuck end (* 1150 *)
  | Swap => match stk a with x :: y :: k => go r (y :: x :: k) s | _ => Done Stuck end (* 1156 *)
  | Pop => match stk a with _ :: k => go r k s | [] => Done Stuck end (* 1163 *)
  | PopAll => go r [] s                                               (* 1979-1983 *)
  | Op o =>
      match popn (arity o) (stk a) with
      | Some (vs, k) =>
          match apply_op P o vs with
          | inl v => go r (v :: k) s
          | inr e => fail e s
          end
      | None => Done Stuck
      end
  | Eql =>
      match stk a with y :: x :: k => go r (boolv (eql2 x y) :: k) s | _ => Done Stuck end
  | Memql =>
      match stk a with
      | y :: x :: k =>
          match memql2 x y with
          | Some v => go r (v :: k) s
          | None => Done Stuck
          end
      | _ => Done Stuck
      end
  | Call n =>                                                         (* 612-850 *)
      match popn n (stk a) with
      | Some (vs, f :: k) =>
          match f with
          | VFun c =>
              match go r k s with
              | Next s' =>
                  let b := start_act (tcode c) (tenv c) vs in
                  Next {| top := b; susp := top s' :: susp s'; hcells := hcells s';
                          tglobs := tglobs s'; pend := pend s' |}
              | d => d
              end
          | _ => fail NotFun s
          end
      | _ => Done Stuck
      end
  | Enclose => Done Stuck       (* see MPushF *)
  | Return =>                                                         (* 1567-1570 *)
      match stk a, susp s with
      | v :: _, [] =>
          match pend s with
          | None => Done (Ret v (hcells s) (tglobs s))
          | Some e => Done (Err e (hcells s) (tglobs s))
          end
      | v :: _, b :: ss =>
          let s' := {| top := b; susp := ss; hcells := hcells s; tglobs := tglobs s;
                       pend := pend s |} in
          go (rst b) (v :: stk b) s'
      | [], _ => Done Stuck
      end
  | InitBind => go r (stk a) (set_top (with_env (env a) (O :: frs a) a) s)   (* 1140 *)
  | Unbind =>                                                         (* 1145-1148 *)
      match frs a with
      | n :: fs => go r (stk a) (set_top (with_env (skipn n (env a)) fs a) s)
      | [] => Done Stuck
      end
  | UnbindAll =>                                                      (* 1572-1577 *)
      match rev (frs a) with
      | n :: fs =>
          go r (stk a) (set_top (with_env (skipn (list_sum fs) (env a)) [n] a) s)
      | [] => Done Stuck
      end
  | UnbindAll0 =>                                                     (* 1964-1969 *)
      go r (stk a) (set_top (with_env (skipn (list_sum (frs a)) (env a)) [] a) s)
  | Refg x =>                                                         (* 935-964 *)
      match assoc x (tglobs s) with
      | Some v => go r (v :: stk a) s
      | None => fail (Void x) s
      end
  | Setg x =>                                                         (* 966-972 *)
      match stk a with
      | v :: k =>
          match assoc x (tglobs s) with
          | Some _ => go r k (with_globs (set_assoc x v (tglobs s)) (pend s) s)
          | None => go r k (with_globs (tglobs s) (Some (Unset x)) s)
          end
      | [] => Done Stuck
      end
  | Define =>                                                         (* 2033-2037 *)
      match stk a with
      | v :: VSym x :: k =>
          go r (v :: k) (with_globs (set_assoc x v (tglobs s)) (pend s) s)
      | _ => Done Stuck
      end
  | RequiredArg =>                                                    (* 2043-2051 *)
      match argv a with
      | v :: vs => go r (v :: stk a) (set_top (with_argv vs a) s)
      | [] => fail Missing s
      end
  | OptionalArg =>                                                    (* 2053-2056 *)
      match argv a with
      | v :: vs => go r (v :: stk a) (set_top (with_argv vs a) s)
      | [] => go r (VNil :: stk a) s
      end
  | RestArg => go r (listv (argv a) :: stk a) (set_top (with_argv [] a) s) (* 2058-2068 *)
  end.

(** Jumps, lispmach.h 2119-2183 *)
Definition jump (k : jk) (l : nat) (r : list mitem) (s : mst) : mres :=
  let a := top s in
  let take (k : list tval) :=
    match mfind l (prog a) with Some r => go r k s | None => Done Stuck end in
  match k with
  | Jmp => take (stk a)
  | _ =>
      match stk a with
      | [] => Done Stuck
      | x :: k' =>
          match k with
          | Jn => if nilp x then take k' else go r k' s
          | Jt => if nilp x then go r k' s else take k'
          | Jpn => if nilp x then take k' else go r (stk a) s
          | Jpt => if nilp x then go r (stk a) s else take k'
          | Jnp => if nilp x then take (stk a) else go r k' s
          | _ => if nilp x then go r k' s else take (stk a)
          end
      end
  end.

Definition step (P : prims) (s : mst) : mres :=
  let a := top s in
  match rst a with
  | [] => Done Stuck
  | i :: r =>
      match i with
      | MLbl _ => go r (stk a) s
      | MJ k l => jump k l r s
      | MI i => exec P i r s
      | MBind =>                                                      (* 861-866 *)
          match stk a, frs a with
          | v :: k, n :: fs =>
              go r k (with_heap (hcells s ++ [v])
                        (set_top (with_env (length (hcells s) :: env a) (S n :: fs) a) s))
          | _, _ => Done Stuck
          end
      | MRefn n =>                                                    (* 877-926 *)
          match nth_error (env a) n with
          | Some l =>
              match nth_error (hcells s) l with
              | Some v => go r (v :: stk a) s
              | None => Done Stuck
              end
          | None => Done Stuck
          end
      | MSetn n =>                                                    (* 928-933 *)
          match stk a, nth_error (env a) n with
          | v :: k, Some l => go r k (with_heap (set_nth l v (hcells s)) s)
          | _, _ => Done Stuck
          end
      | MSlotRef n =>                                                 (* 974-1047 *)
          match nth_error (slots a) n with
          | Some (Some v) => go r (v :: stk a) s
          | _ => Done Stuck
          end
      | MSlotSet n =>                                                 (* 1049-1103 *)
          match stk a with
          | v :: k =>
              if Nat.ltb n (length (slots a))
              then go r k (set_top (with_slots (set_nth n (Some v) (slots a)) a) s)
              else Done Stuck
          | [] => Done Stuck
          end
      | MPushF f =>
          (* [push f] and the [enclose] that always follows it
             (basic.jl 441-444; 1135-1138): a closure over rep_env *)
          match r with
          | MI Enclose :: r => go r (VFun {| tcode := f; tenv := env a |} :: stk a) s
          | _ => Done Stuck
          end
      end
  end.

Fixpoint run (P : prims) (n : nat) (s : mst) : mst + out :=
  match n with
  | O => inl s
  | S n => match step P s with Next s => run P n s | Done o => inr o end
  end.

(** run-byte-code, lispmach.c 75-98 *)
Definition start (f : cobj) (g : list (var * tval)) : mst :=
  {| top := start_act f [] []; susp := []; hcells := []; tglobs := g; pend := None |}.
