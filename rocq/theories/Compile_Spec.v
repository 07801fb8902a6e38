(** What it means for compiled code to agree with the interpreter, and for
    which programs that is claimed.  Nothing here refers to how the compiler
    works, except [small_asm], which looks at the sizes it declares. *)
From Coq Require Import List Arith Bool ZArith.
From Verif Require Import Compile_Model.
Import ListNotations.
Open Scope Z_scope.

(** The value the interpreter gives and the value compiled code gives look the
    same: the same data, functions in the same places *)
Inductive same : sval -> tval -> Prop :=
| same_nil : same VNil VNil
| same_t : same VT VT
| same_undef : same VUndef VUndef
| same_num z : same (VNum z) (VNum z)
| same_sym x : same (VSym x) (VSym x)
| same_pair a a' d d' : same a a' -> same d d' -> same (VPair a d) (VPair a' d')
| same_fun c t : same (VFun c) (VFun t).

Definition same_globs (g : list (var * sval)) (g' : list (var * tval)) : Prop :=
  Forall2 (fun a b => fst a = fst b /\ same (snd a) (snd b)) g g'.

(** Global variables that hold data *)
Definition data_globs {C} (gs : list (var * const)) : list (var * val C) :=
  map (fun b => (fst b, kval (snd b))) gs.

Definition initial (gs : list (var * const)) : sst :=
  {| cells := []; globs := data_globs gs |}.

Fixpoint distinct (xs : list var) : bool :=
  match xs with
  | [] => true
  | x :: xs => negb (existsb (Nat.eqb x) xs) && distinct xs
  end.

Definition is_lambda (e : exp) : bool := match e with ELam _ _ => true | _ => false end.
Definition calls (own : option var) (e : exp) : bool :=
  match own, e with Some x, EVar y => Nat.eqb x y | _, _ => false end.

(** a letrec that is a loop: (letrec ((x (lambda ...))) (x ...)) *)
Definition loop_shape (bs : list (var * list exp)) (b : list exp) : bool :=
  match bs, b with
  | [(x, [ELam _ _])], [ECall (EVar y) _]
  | [(x, [ELam _ _])], [EProgn [ECall (EVar y) _]] => Nat.eqb x y
  | _, _ => false
  end.

(** Plain programs: no function calls itself by name in tail position, no loop
    is written as a letrec, parameters of a function have different names,
    functions that are called where they are written get no more arguments than
    they have parameters, instructions get no more arguments than they take,
    definitions are only made for effect, and every clause of a case does
    something.  [own]: the name of the function the form is in; [eff]: the value
    is not used; [tail]: the value is returned by that function. *)
Section Plain.
Variable pl : option var -> bool -> bool -> exp -> bool.

Definition pbody (own : option var) (tail : bool) := fix go (b : list exp) : bool :=
  match b with
  | [] => true
  | [e] => pl own false tail e
  | e :: b => pl own true false e && go b
  end.
Definition pargs (own : option var) := fix go (b : list exp) : bool :=
  match b with [] => true | e :: b => pl own false false e && go b end.
Definition pcond (own : option var) (tail : bool) :=
  fix go (cls : list (exp * list exp)) : bool :=
  match cls with
  | [] => true
  | (e, b) :: cls =>
      pl own false (tail && match b, cls with [], [] => true | _, _ => false end) e
      && pbody own tail b && go cls
  end.
Definition pcase (own : option var) (tail : bool) :=
  fix go (cls : list (option (list const) * list exp)) : bool :=
  match cls with
  | [] => true
  | (_, b) :: cls =>
      match b with [] => false | _ => true end && pbody own tail b && go cls
  end.
Definition plets (own : option var) := fix go (bs : list (var * list exp)) : bool :=
  match bs with
  | [] => true
  | (_, b) :: bs => pbody own false b && go bs
  end.
(** the value of a letrec binding: a function there has the name of the
    variable *)
Definition pnamed (own : option var) (x : var) := fix go (b : list exp) : bool :=
  match b with
  | [] => true
  | [ELam p lb] => distinct (lambda_vars p) && pbody (Some x) true lb
  | [e] => pl own false false e
  | e :: b => pl own true false e && go b
  end.
Definition precs (own : option var) := fix go (bs : list (var * list exp)) : bool :=
  match bs with
  | [] => true
  | (x, b) :: bs => pnamed own x b && go bs
  end.
End Plain.

Fixpoint plain (own : option var) (eff tail : bool) (e : exp) {struct e} : bool :=
  match e with
  | EConst _ | EVar _ => true
  | ESet _ e => plain own false false e
  | EDefine _ e => eff && plain own false false e
  | EDefun x p b => eff && distinct (lambda_vars p) && pbody plain (Some x) true b
  | EPrim o args => (length args <=? arity o)%nat && pargs plain own args
  | EBin o args =>
      (length args =? 2)%nat && (arity o =? 2)%nat && pargs plain own args
  | EList args => pargs plain own args
  | ECall f args =>
      negb (tail && calls own f)
      && plain own false false f && pargs plain own args
  | ELam p b => distinct (lambda_vars p) && pbody plain None true b
  | EInline p b args =>
      distinct (lambda_vars p)
      && match rest p with
         | Some _ => true
         | None => (length args <=? length (req p) + length (opt p))%nat
         end
      && pargs plain own args && pbody plain own tail b
  | EFuncall f args =>
      negb (is_lambda f) && plain own false false f && pargs plain own args
  | EProgn b => pbody plain own tail b
  | EProg1 e b => plain own false false e && pbody plain own false b
  | ECond cls => pcond plain own tail cls
  | ECase k cls => plain own false false k && pcase plain own tail cls
  | EWhile e b => plain own false false e && pbody plain own false b
  | ELets bs b => plets plain own bs && pbody plain own tail b
  | ELetrec bs b => negb (loop_shape bs b) && precs plain own bs && pbody plain own tail b
  end.

(** every function of the program declares stacks that the ten bits they are
    given can hold *)
Fixpoint small_item (i : item) : bool :=
  match i with
  | IBytecode (Asm c ms mb) _ => (ms <? 1024) && (mb <? 1024) && forallb small_item c
  | _ => true
  end.
Definition small_asm (a : asm) : bool :=
  match a with Asm c ms mb => (ms <? 1024) && (mb <? 1024) && forallb small_item c end.
Definition small (dsub : list (var * (params * list exp))) (e : exp) : bool :=
  match compile_form dsub e with Some (a, _) => small_asm a | None => false end.

(** An assignment to a variable that has no binding: what the two do is
    different (C51_void_setq_refuted) *)
Definition is_unset (e : err) : bool := match e with Unset _ => true | _ => false end.

(** What the machine does, against what the interpreter does with fuel [n].
    [eff]: the value does not matter *)
Definition agrees (eff : bool) (P : prims) (f : cobj) (gs : list (var * const)) (n : nat)
  (r : res) : Prop :=
  match r with
  | RVal v s =>
      exists m v' h g, run P m (start f (data_globs gs)) = inr (Ret v' h g)
                       /\ (eff = false -> same v v') /\ same_globs (globs s) g
  | RErr e s =>
      is_unset e = true \/
      exists m h g, run P m (start f (data_globs gs)) = inr (Err e h g)
                    /\ same_globs (globs s) g
  | ROut => exists s, run P n (start f (data_globs gs)) = inl s
  end.

(** Programs the compiler has to accept: functions called where they are
    written get the arguments they require and are not nested more than [d]
    deep, and clauses of case list at least one key *)
Fixpoint shape (d : nat) (e : exp) {struct e} : bool :=
  match e with
  | EConst _ | EVar _ => true
  | ESet _ e | EDefine _ e => shape d e
  | EDefun _ _ b | ELam _ b | EProgn b => forallb (shape d) b
  | EPrim _ b | EBin _ b | EList b => forallb (shape d) b
  | ECall f b | EFuncall f b | EProg1 f b | EWhile f b => shape d f && forallb (shape d) b
  | EInline p b args =>
      match d with
      | O => false
      | S d => (length (req p) <=? length args)%nat
               && forallb (shape d) b && forallb (shape d) args
      end
  | ECond cls => forallb (fun cl => shape d (fst cl) && forallb (shape d) (snd cl)) cls
  | ECase k cls =>
      shape d k
      && forallb (fun cl => match fst cl with Some [] => false | _ => true end
                            && forallb (shape d) (snd cl)) cls
  | ELets bs b | ELetrec bs b =>
      forallb (fun c => forallb (shape d) (snd c)) bs && forallb (shape d) b
  end.
