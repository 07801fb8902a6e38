(** The peephole optimiser of the byte-code compiler and the part of the
    virtual machine its rewrites are about.

    lisp/rep/vm/peephole.jl 30-547, lisp/rep/vm/bytecodes.jl 57-92,
    lisp/rep/vm/bytecode-defs.jl 47-275, src/lispmach.h 854-2236.

    Simplifications, for the whole file:
    - numbers are exact integers (no floats, no rationals), conses are values
      (their identity and their mutation are part of the opaque state [W]);
    - instructions no rewrite looks at (calls, catch, throw, spec-bind,
      errorpro, rplaca, ...) are [Other k]: an arbitrary function of the
      operand stack, the lexical bindings, the slots and the rest of the
      world;
    - the pair [push-label X; binderr], which the compiler always emits
      together (compiler/rep.jl 701-702, 742-743, 840-841), is one instruction
      [J Binderr X]; no rewrite matches either half of it;
    - a closure that captured a binding can change it only through [Other];
    - polling for interrupts, garbage collection and thread switches at jumps
      (lispmach.h 2185-2197) is not modelled. *)
From Coq Require Import List Arith Bool ZArith Lia.
Import ListNotations.

(** Lisp values.  [Str i n] is a string object: [i] is its identity, [n] its
    contents. *)
Inductive val :=
| Nil | Tee | ScmF | ScmT
| Num (z : Z)
| Str (i n : nat)
| Pair (a d : val)
| Atom (n : nat).

Definition nilp (v : val) : bool := match v with Nil => true | _ => false end.
Definition boolv (b : bool) : val := if b then Tee else Nil.

(** OP_CAR, OP_CDR, lispmach.h 1182-1198 *)
Definition carv (v : val) : val := match v with Pair a _ => a | _ => Nil end.
Definition cdrv (v : val) : val := match v with Pair _ d => d | _ => Nil end.
(** OP_CAAR, OP_CADR, OP_CDAR, OP_CDDR, lispmach.h 1784-1818 *)
Definition caarv (v : val) : val :=
  match v with Pair (Pair x _) _ => x | _ => Nil end.
Definition cadrv (v : val) : val :=
  match v with Pair _ (Pair x _) => x | _ => Nil end.
Definition cdarv (v : val) : val :=
  match v with Pair (Pair _ x) _ => x | _ => Nil end.
Definition cddrv (v : val) : val :=
  match v with Pair _ (Pair _ x) => x | _ => Nil end.

(** OP_ADD, OP_SUB, OP_INC, OP_DEC, lispmach.h 1228-1276, 1423-1451; numbers.c
    Fplus1, Fsub1, rep_number_add, rep_number_sub: an error unless both are
    numbers.  Integers are of any size (fixnum overflow gives a bignum). *)
Definition addv (x y : val) : option val :=
  match x, y with Num a, Num b => Some (Num (a + b)%Z) | _, _ => None end.
Definition subv (x y : val) : option val :=
  match x, y with Num a, Num b => Some (Num (a - b)%Z) | _, _ => None end.
Definition incv (x : val) : option val :=
  match x with Num a => Some (Num (a + 1)%Z) | _ => None end.
Definition decv (x : val) : option val :=
  match x with Num a => Some (Num (a - 1)%Z) | _ => None end.

(** rep_value_cmp = 0 (values.c 162-174 and the types' own comparisons):
    strings by contents *)
Fixpoint equalv (x y : val) : bool :=
  match x, y with
  | Nil, Nil | Tee, Tee | ScmF, ScmF | ScmT, ScmT => true
  | Num a, Num b => Z.eqb a b
  | Str _ n, Str _ m => Nat.eqb n m
  | Pair a d, Pair a' d' => equalv a a' && equalv d d'
  | Atom n, Atom m => Nat.eqb n m
  | _, _ => false
  end.

(** OP_NUM_EQ, lispmach.h 2002-2020: numbers by value, a number and something
    else never equal, other values by [equal] *)
Definition numeqv (x y : val) : val := boolv (equalv x y).

(** OP_ZEROP, OP_NOT_ZERO_P, lispmach.h 1457-1480; Fzerop, numbers.c
    2047-2077: nil for what is not a number *)
Definition zeropv (x : val) : val :=
  match x with Num a => boolv (Z.eqb a 0) | _ => Nil end.
Definition notzeropv (x : val) : val :=
  match x with Num a => boolv (negb (Z.eqb a 0)) | _ => Tee end.

(** OP_NOT, lispmach.h 1294-1300 *)
Definition notv (x : val) : val := boolv (nilp x).

(** OP_TEST_SCM, OP_TEST_SCM_F, OP_SCM_TEST, lispmach.h 1338-1341, 2022-2031 *)
Definition testscm (x : val) : val := if nilp x then ScmF else ScmT.
Definition testscmf (x : val) : val := if nilp x then ScmF else x.
Definition scmtest (x : val) : val :=
  match x with ScmF => Nil | _ => Tee end.

(** Jumps (and [push-label; binderr]) *)
Inductive jk := Jmp | Ejmp | Jn | Jt | Jpn | Jpt | Jnp | Jtp | Binderr.

(** The instructions.  [UnT k], [BiT k]: the remaining one and two argument
    instructions of byte-varref-free-insns (null, atom, consp, ..., eq, equal,
    eql), which cannot fail; [Un k], [Bi k]: the remaining ones of
    byte-side-effect-free-insns (neg, length, ..., nth, aref, mul, ...),
    which can. *)
Inductive insn :=
| Push (v : val) | Dup | Swap | Pop
| Refn (n : nat) | Setn (n : nat) | Bind
| SlotRef (n : nat) | SlotSet (n : nat)
| Refg (n : nat) | Setg (n : nat)
| InitBind | Unbind | Unbindall | Return
| Car | Cdr | Caar | Cadr | Cdar | Cddr | Cons
| Add | Sub | Inc | Dec | NumEq | Zerop | NotZerop | Not
| TestScm | TestScmF | ScmTest
| UnT (k : nat) | BiT (k : nat) | Un (k : nat) | Bi (k : nat)
| Other (k : nat).

(** An element of the instruction list: a label, a jump with its operand, or
    another instruction.  For the machine the operand is a label; for the
    optimiser it is the address of the cons cell that holds the label. *)
Inductive item := Lbl (l : nat) | J (k : jk) (c : nat) | I (i : insn).

Definition code := list item.

(** * The machine *)

(** What the model leaves open: globals, the opaque instructions, undoing of
    special bindings *)
Inductive ores (W : Type) :=
| ONext (stk env slots : list val) (w : W) (us : list nat)
| ORaise (v : val) (env slots : list val) (w : W).
Arguments ONext {W}.
Arguments ORaise {W}.

Record sem := {
  W : Type;
  getg : W -> nat -> option val;          (* OP_REFG 935-964 *)
  setg : W -> nat -> val -> W;            (* OP_SETG 966-972: a failure leaves
                                             a throw pending, in [W] *)
  undo : nat -> W -> W;                   (* unbinding one special binding *)
  unT : nat -> W -> val -> val;
  biT : nat -> W -> val -> val -> val;
  un : nat -> W -> val -> option val;
  bi : nat -> W -> val -> val -> option val;
  other : nat -> list val -> list val -> list val -> W -> ores W
}.

(** A frame of the binding stack: lexical count and special bindings
    (subrs.h rep_NEW_FRAME ...), or an error handler: code address and stack
    height (OP_BINDERR, lispmach.h 1556-1565) *)
Inductive frame := Fr (n : nat) (us : list nat) | Hd (l h : nat).

Record st (S : sem) := {
  stk : list val;        (* top first *)
  env : list val;        (* rep_env *)
  frs : list frame;      (* bindstack, top first *)
  slots : list val;      (* slotp *)
  wd : W S
}.
Arguments stk {S}. Arguments env {S}. Arguments frs {S}.
Arguments slots {S}. Arguments wd {S}.

Inductive out (S : sem) :=
| Ret (v : val) (w : W S)
| Err (v : val) (w : W S)
| Stuck.                 (* undefined in the C program *)
Arguments Ret {S}. Arguments Err {S}. Arguments Stuck {S}.

(** Where control goes after an instruction *)
Inductive exit (S : sem) :=
| Fall (s : st S)
| Goto (l : nat) (s : st S)
| Done (o : out S).
Arguments Fall {S}. Arguments Goto {S}. Arguments Done {S}.

Section Machine.
Variable S : sem.
(** [lax]: a failing instruction of byte-side-effect-free-insns is treated as
    undefined instead of raising its error (used to state what the optimiser
    does keep) *)
Variable lax : bool.

Definition with_stk (s : st S) k : st S :=
  {| stk := k; env := env s; frs := frs s; slots := slots s; wd := wd s |}.

Fixpoint undos (us : list nat) (w : W S) : W S :=
  match us with [] => w | u :: us => undos us (undo S u w) end.

(** error:, lispmach.h 2218-2262 *)
Fixpoint unwind (v : val) (fs : list frame) (ev : list val) (k sl : list val)
  (w : W S) : exit S :=
  match fs with
  | [] => Done (Err v w)
  | Fr n us :: fs => unwind v fs (skipn n ev) k sl (undos us w)
  | Hd l h :: fs =>
      Goto l {| stk := v :: skipn (length k - h) k; env := ev; frs := fs;
                slots := sl; wd := w |}
  end.
Definition raise (v : val) (s : st S) : exit S :=
  unwind v (frs s) (env s) (stk s) (slots s) (wd s).

Definition fail (v : val) (s : st S) : exit S :=
  if lax then Done Stuck else raise v s.

Definition bad_arg := Atom 0.
Definition void_value := Atom 1.

Fixpoint set_nth (n : nat) (v : val) (l : list val) : list val :=
  match n, l with
  | O, _ :: l => v :: l
  | Datatypes.S n, x :: l => x :: set_nth n v l
  | _, [] => []
  end.

(** unbind of one frame (lispmach.h inline_unbind; symbols.c rep_unbind) *)
Definition unbind1 (f : frame) (ev : list val) (w : W S) : list val * W S :=
  match f with
  | Fr n us => (skipn n ev, undos us w)
  | Hd _ _ => (ev, w)
  end.

(** OP_RETURN, lispmach.h 1567-1570: every frame is unbound *)
Fixpoint unbind_all (fs : list frame) (ev : list val) (w : W S) : W S :=
  match fs with
  | [] => w
  | f :: fs => let '(ev, w) := unbind1 f ev w in unbind_all fs ev w
  end.

(** OP_UNBINDALL, lispmach.h 1572-1577: every frame but the first *)
Fixpoint unbind_but (fs : list frame) (ev : list val) (w : W S)
  : option (list frame * list val * W S) :=
  match fs with
  | [] => None
  | [f] => Some ([f], ev, w)
  | f :: fs => let '(ev, w) := unbind1 f ev w in unbind_but fs ev w
  end.

Definition op0 (v : option val) (s : st S) : exit S :=
  match v with Some v => Fall (with_stk s (v :: stk s)) | None => Done Stuck end.
Definition op1 (f : val -> val) (s : st S) : exit S :=
  match stk s with x :: k => Fall (with_stk s (f x :: k)) | [] => Done Stuck end.
Definition op2 (f : val -> val -> val) (s : st S) : exit S :=
  match stk s with
  | y :: x :: k => Fall (with_stk s (f x y :: k))
  | _ => Done Stuck
  end.
(** a failing instruction leaves NULL where its result would be (CALL_1 and
    CALL_2, lispmach.h); nothing reads it *)
Definition op1e (f : val -> option val) (s : st S) : exit S :=
  match stk s with
  | x :: k => match f x with Some v => Fall (with_stk s (v :: k))
              | None => fail bad_arg (with_stk s (Nil :: k)) end
  | [] => Done Stuck
  end.
Definition op2e (f : val -> val -> option val) (s : st S) : exit S :=
  match stk s with
  | y :: x :: k => match f x y with Some v => Fall (with_stk s (v :: k))
              | None => fail bad_arg (with_stk s (Nil :: k)) end
  | _ => Done Stuck
  end.

(** One instruction; the lines of lispmach.h are given with each *)
Definition exec (i : insn) (s : st S) : exit S :=
  match i with
  | Push v => op0 (Some v) s                                 (* 854-858 *)
  | Dup => match stk s with x :: k => Fall (with_stk s (x :: x :: k)) | [] => Done Stuck end  (* 1150 *)
  | Swap => match stk s with x :: y :: k => Fall (with_stk s (y :: x :: k)) | _ => Done Stuck end (* 1156 *)
  | Pop => match stk s with _ :: k => Fall (with_stk s k) | [] => Done Stuck end  (* 1163 *)
  | Refn n => op0 (nth_error (env s) n) s                    (* 877-926 *)
  | Setn n =>                                                (* 928-933 *)
      match stk s with
      | x :: k =>
          if n <? length (env s) then
            Fall {| stk := k; env := set_nth n x (env s); frs := frs s;
                    slots := slots s; wd := wd s |}
          else Done Stuck
      | [] => Done Stuck
      end
  | Bind =>                                                  (* 861-866 *)
      match stk s, frs s with
      | x :: k, Fr n us :: fs =>
          Fall {| stk := k; env := x :: env s; frs := Fr (Datatypes.S n) us :: fs;
                  slots := slots s; wd := wd s |}
      | _, _ => Done Stuck
      end
  | SlotRef n => op0 (nth_error (slots s) n) s               (* 974-1038 *)
  | SlotSet n =>                                             (* 1040-1095 *)
      match stk s with
      | x :: k =>
          if n <? length (slots s) then
            Fall {| stk := k; env := env s; frs := frs s;
                    slots := set_nth n x (slots s); wd := wd s |}
          else Done Stuck
      | [] => Done Stuck
      end
  | Refg n =>                                                (* 935-964 *)
      match getg S (wd s) n with
      | Some v => Fall (with_stk s (v :: stk s))
      | None => fail void_value s
      end
  | Setg n =>                                                (* 966-972 *)
      match stk s with
      | x :: k => Fall {| stk := k; env := env s; frs := frs s; slots := slots s;
                          wd := setg S (wd s) n x |}
      | [] => Done Stuck
      end
  | InitBind =>                                              (* 1140-1143 *)
      match frs s with
      | [] => Done Stuck
      | fs => Fall {| stk := stk s; env := env s; frs := Fr 0 [] :: fs;
                      slots := slots s; wd := wd s |}
      end
  | Unbind =>                                                (* 1145-1148 *)
      match frs s with
      | [] => Done Stuck
      | f :: fs =>
          let '(ev, w) := unbind1 f (env s) (wd s) in
          Fall {| stk := stk s; env := ev; frs := fs; slots := slots s; wd := w |}
      end
  | Unbindall =>                                             (* 1572-1577 *)
      match unbind_but (frs s) (env s) (wd s) with
      | Some (fs, ev, w) =>
          Fall {| stk := stk s; env := ev; frs := fs; slots := slots s; wd := w |}
      | None => Done Stuck
      end
  | Return =>                                                (* 1567-1570 *)
      match stk s with
      | x :: _ => Done (Ret x (unbind_all (frs s) (env s) (wd s)))
      | [] => Done Stuck
      end
  | Car => op1 carv s | Cdr => op1 cdrv s                    (* 1182-1198 *)
  | Caar => op1 caarv s | Cadr => op1 cadrv s
  | Cdar => op1 cdarv s | Cddr => op1 cddrv s                (* 1784-1818 *)
  | Cons => op2 Pair s                                       (* 1178-1180 *)
  | Add => op2e addv s | Sub => op2e subv s                  (* 1228-1276 *)
  | Inc => op1e incv s | Dec => op1e decv s                  (* 1423-1451 *)
  | NumEq => op2 numeqv s                                    (* 2002-2020 *)
  | Zerop => op1 zeropv s | NotZerop => op1 notzeropv s      (* 1457-1480 *)
  | Not => op1 notv s                                        (* 1294-1300 *)
  | TestScm => op1 testscm s | TestScmF => op1 testscmf s
  | ScmTest => op1 scmtest s
  | UnT k => op1 (unT S k (wd s)) s
  | BiT k => op2 (biT S k (wd s)) s
  | Un k => op1e (un S k (wd s)) s
  | Bi k => op2e (bi S k (wd s)) s
  | Other k =>
      match other S k (stk s) (env s) (slots s) (wd s), frs s with
      | ONext k' ev sl w us, Fr n us0 :: fs =>
          Fall {| stk := k'; env := ev; frs := Fr n (us ++ us0) :: fs;
                  slots := sl; wd := w |}
      | ONext k' ev sl w [], fs =>
          Fall {| stk := k'; env := ev; frs := fs; slots := sl; wd := w |}
      | ONext _ _ _ _ _, _ => Done Stuck
      | ORaise v ev sl w, fs => unwind v fs ev (stk s) sl w
      end
  end.

(** Jumps, lispmach.h 2119-2200 *)
Definition jump (k : jk) (l : nat) (s : st S) : exit S :=
  match k with
  | Jmp => Goto l s
  | Binderr =>
      Fall {| stk := stk s; env := env s; frs := Hd l (length (stk s)) :: frs s;
              slots := slots s; wd := wd s |}
  | _ =>
    match stk s with
    | [] => Done Stuck
    | x :: r =>
        let popped := with_stk s r in
        match k with
        | Ejmp => if nilp x then Goto l popped else raise x popped
        | Jn => if nilp x then Goto l popped else Fall popped
        | Jt => if nilp x then Fall popped else Goto l popped
        | Jpn => if nilp x then Goto l popped else Fall s
        | Jpt => if nilp x then Fall s else Goto l popped
        | Jnp => if nilp x then Goto l s else Fall popped
        | _ => if nilp x then Fall popped else Goto l s
        end
    end
  end.

Definition step (i : item) (s : st S) : exit S :=
  match i with
  | Lbl _ => Fall s
  | J k l => jump k l s
  | I i => exec i s
  end.

(** The code after a label *)
Fixpoint find (l : nat) (c : code) : option code :=
  match c with
  | [] => None
  | Lbl l' :: c => if Nat.eqb l l' then Some c else find l c
  | _ :: c => find l c
  end.

(** The dispatch loop; [None]: out of fuel *)
Fixpoint run (fuel : nat) (c r : code) (s : st S) : option (out S) :=
  match fuel with
  | O => None
  | Datatypes.S fuel =>
      match r with
      | [] => Some Stuck
      | i :: r =>
          match step i s with
          | Fall s => run fuel c r s
          | Goto l s =>
              match find l c with
              | Some r => run fuel c r s
              | None => Some Stuck
              end
          | Done o => Some o
          end
      end
  end.

End Machine.

(** * The optimiser *)

(** The cons cells that hold the operands of jumps: address to label.  Only
    the rewrites at lines 390, 487 and 490 change such a cell; the one at line
    426 makes two instructions share one. *)
Definition heap := nat -> nat.
Definition set_cell (h : heap) (c l : nat) : heap :=
  fun c' => if Nat.eqb c' c then l else h c'.

(** The program the instruction list stands for *)
Definition resolve1 (h : heap) (i : item) : item :=
  match i with J k c => J k (h c) | _ => i end.
Definition resolve (h : heap) (c : code) : code := map (resolve1 h) c.

(** bytecodes.jl 58-66 *)
Definition varref_free (i : insn) : bool :=
  match i with
  | Dup | Push _ | Cons | Car | Cdr | Zerop | NotZerop | Caar | Cadr | Cdar
  | ScmTest | TestScm | TestScmF | UnT _ | BiT _ => true
  | _ => false
  end.
(** bytecodes.jl 69-76 *)
Definition side_effect_free (i : insn) : bool :=
  match i with
  | Refn _ | Refg _ | SlotRef _ | Add | Sub | Not | Inc | Dec
  | Un _ | Bi _ => true
  | _ => varref_free i
  end.
(** bytecode-defs.jl 245-275, for those instructions *)
Inductive delta := Plus | Same | Minus.
Definition stack_delta (i : insn) : delta :=
  match i with
  | Refn _ | Refg _ | SlotRef _ | Push _ | Dup => Plus
  | Add | Sub | Cons | BiT _ | Bi _ => Minus
  | _ => Same
  end.
(** bytecodes.jl 79-92 *)
Definition cond_jmp (k : jk) : bool :=
  match k with Jpn | Jpt | Jn | Jt | Jnp | Jtp => true | _ => false end.
Definition jmp_insn (k : jk) : bool :=
  match k with Binderr => false | _ => true end.
Definition varref (i : insn) : bool :=
  match i with Refn _ | Refg _ | SlotRef _ => true | _ => false end.
Definition varset_or_bind (i : insn) : bool :=
  match i with Setn _ | Setg _ | SlotSet _ | Bind => true | _ => false end.

(** [equal] of two instructions *)
Definition insn_equal (i j : insn) : bool :=
  match i, j with
  | Push v, Push v' => equalv v v'
  | Refn n, Refn m | Refg n, Refg m | SlotRef n, SlotRef m => Nat.eqb n m
  | _, _ => false
  end.

(** setn X; refn X and the like (lines 147-154, 163-171) *)
Definition set_then_ref (a b : insn) : bool :=
  match a, b with
  | Setn n, Refn m => Nat.eqb n m
  | Bind, Refn m => Nat.eqb m 0
  | SlotSet n, SlotRef m => Nat.eqb n m
  | _, _ => false
  end.

(** What one iteration of the inner loop does to the list.  [pre] is the part
    of the list before the window, last element first; [rest] begins with
    insn0. *)
Inductive rres :=
| NoMatch
| OptError
| Upd (h : heap) (pre rest : code) (changed : bool).

Section Rules.
Variable h : heap.
Variable pre rest : code.

(** the whole list, (cdr code-string) *)
Definition full := rev pre ++ rest.
Definition upd (rest' : code) := Upd h pre rest' true.

(** lines 124-140 *)
Definition r1 : rres :=
  match rest with
  | I i :: I Pop :: r =>
      if side_effect_free i then
        match stack_delta i with
        | Plus => upd r
        | Same => upd (I Pop :: r)
        | Minus => upd (I Pop :: I Pop :: r)
        end
      else NoMatch
  | _ => NoMatch
  end.

(** lines 142-159 *)
Definition r2 : rres :=
  match rest with
  | I a :: I b :: I c :: r =>
      if set_then_ref b c && (match a with Dup | Push _ => true | _ => false end)
      then upd (I a :: I b :: I a :: r) else NoMatch
  | _ => NoMatch
  end.

(** lines 161-178 *)
Definition r3 : rres :=
  match rest with
  | I a :: I b :: r =>
      if set_then_ref a b then upd (I Dup :: I a :: r) else NoMatch
  | _ => NoMatch
  end.

(** lines 180-188 *)
Definition r4 : rres :=
  match rest with
  | I Dup :: I b :: I Pop :: r =>
      if varset_or_bind b then upd (I b :: r) else NoMatch
  | _ => NoMatch
  end.

(** lines 190-196 *)
Definition r5 : rres :=
  match rest with
  | I a :: I b :: r =>
      if varref a && insn_equal a b then upd (I a :: I Dup :: r) else NoMatch
  | _ => NoMatch
  end.

(** lines 198-209 *)
Definition r6 : rres :=
  match rest with
  | I (Refn n) :: I (Setn m) :: r
  | I (Refg n) :: I (Setg m) :: r
  | I (SlotRef n) :: I (SlotSet m) :: r =>
      if Nat.eqb n m then upd r else NoMatch
  | _ => NoMatch
  end.

(** lines 211-219 *)
Definition r7 : rres :=
  match rest with
  | I Car :: I Car :: r => upd (I Caar :: r)
  | I Car :: I Cdr :: r => upd (I Cdar :: r)
  | I Cdr :: I Car :: r => upd (I Cadr :: r)
  | I Cdr :: I Cdr :: r => upd (I Cddr :: r)
  | _ => NoMatch
  end.

(** lines 221-228 *)
Definition r8 : rres :=
  match rest with
  | I TestScm :: I ScmTest :: r | I TestScmF :: I ScmTest :: r => upd r
  | _ => NoMatch
  end.

(** lines 230-243 *)
Definition r9 : rres :=
  match rest with
  | I (Push (Num z)) :: I Sub :: r =>
      if Z.eqb z 1 then upd (I Dec :: r)
      else if Z.eqb z (-1) then upd (I Inc :: r) else NoMatch
  | I (Push (Num z)) :: I Add :: r =>
      if Z.eqb z 1 then upd (I Inc :: r)
      else if Z.eqb z (-1) then upd (I Dec :: r) else NoMatch
  | _ => NoMatch
  end.

(** lines 245-248 *)
Definition r10 : rres :=
  match rest with
  | I (Push (Num z)) :: I Add :: r | I (Push (Num z)) :: I Sub :: r =>
      if Z.eqb z 0 then upd r else NoMatch
  | _ => NoMatch
  end.

(** lines 250-254 *)
Definition r11 : rres :=
  match rest with
  | I (Push (Num z)) :: I NumEq :: r =>
      if Z.eqb z 0 then upd (I Zerop :: r) else NoMatch
  | _ => NoMatch
  end.

(** lines 256-260 *)
Definition r12 : rres :=
  match rest with
  | I Zerop :: I Not :: r => upd (I NotZerop :: r)
  | _ => NoMatch
  end.

(** lines 262-265 *)
Definition r13 : rres :=
  match rest with
  | J Jmp c :: Lbl x :: r => if Nat.eqb (h c) x then upd (Lbl x :: r) else NoMatch
  | _ => NoMatch
  end.

(** lines 267-271 *)
Definition r14 : rres :=
  match rest with
  | J Jn c :: Lbl x :: r | J Jt c :: Lbl x :: r =>
      if Nat.eqb (h c) x then upd (I Pop :: Lbl x :: r) else NoMatch
  | _ => NoMatch
  end.

(** lines 273-277 *)
Definition r15 : rres :=
  match rest with
  | J Jpt c :: I Pop :: r => upd (J Jt c :: r)
  | J Jpn c :: I Pop :: r => upd (J Jn c :: r)
  | _ => NoMatch
  end.

(** lines 279-284 *)
Definition r16 : rres :=
  match rest with
  | I Not :: J Jn c :: r => upd (J Jt c :: r)
  | I Not :: J Jt c :: r => upd (J Jn c :: r)
  | _ => NoMatch
  end.

(** lines 286-290 *)
Definition r17 : rres :=
  match rest with
  | J Jt c :: I (Push Nil) :: r => upd (J Jpt c :: r)
  | _ => NoMatch
  end.

(** lines 292-298 *)
Definition r18 : rres :=
  match rest with
  | J Jn c :: J Jmp d :: Lbl x :: r =>
      if Nat.eqb (h c) x then upd (J Jt d :: Lbl x :: r) else NoMatch
  | J Jt c :: J Jmp d :: Lbl x :: r =>
      if Nat.eqb (h c) x then upd (J Jn d :: Lbl x :: r) else NoMatch
  | _ => NoMatch
  end.

(** lines 300-337 *)
Definition r19 : rres :=
  match rest with
  | I (Push v) :: J k c :: r =>
      if cond_jmp k then
        let is_nil := nilp v in
        match k, is_nil with
        | Jn, true | Jt, false | Jpn, true | Jpt, false => upd (J Jmp c :: r)
        | Jt, true | Jn, false | Jnp, false | Jtp, true => upd r
        | Jnp, true | Jtp, false => upd (I (Push v) :: J Jmp c :: r)
        | Jpn, false | Jpt, true => upd (I (Push v) :: r)
        | _, _ => OptError
        end
      else NoMatch
  | _ => NoMatch
  end.

(** lines 339-349 *)
Definition r20 : rres :=
  match rest with
  | I a :: I Unbind :: r =>
      if varref_free a then upd (I Unbind :: I a :: r) else NoMatch
  | _ => NoMatch
  end.

(** lines 351-356 *)
Definition r21 : rres :=
  match rest with
  | I Bind :: I Unbind :: r => upd (I Pop :: I Unbind :: r)
  | _ => NoMatch
  end.

(** lines 358-361 *)
Definition r22 : rres :=
  match rest with
  | I InitBind :: I Unbind :: r => upd r
  | _ => NoMatch
  end.

(** lines 363-367 *)
Definition r23 : rres :=
  match rest with
  | I InitBind :: I Return :: r => upd (I Return :: r)
  | I InitBind :: I Unbindall :: r => upd (I Unbindall :: r)
  | _ => NoMatch
  end.

(** lines 369-372 *)
Definition r24 : rres :=
  match rest with
  | I Unbind :: I Return :: r => upd (I Return :: r)
  | _ => NoMatch
  end.

(** lines 374-384; the loop over the [dup]s *)
Fixpoint dups_then (a : insn) (r : code) : option code :=
  match r with
  | I Dup :: r =>
      match dups_then a r with Some r => Some (I Dup :: r) | None => None end
  | I b :: r => if insn_equal a b then Some (I Dup :: r) else None
  | _ => None
  end.
Definition r25 : rres :=
  match rest with
  | I a :: I Dup :: r =>
      if varref a then
        match dups_then a (I Dup :: r) with
        | Some r => upd (I a :: r)
        | None => Upd h pre rest false
        end
      else NoMatch
  | _ => NoMatch
  end.

Definition cells (c : code) : list nat :=
  flat_map (fun i => match i with J _ c => [c] | _ => [] end) c.

(** lines 386-396; at the end of the list insn1 is nil, which is a symbol too *)
Definition r26 : rres :=
  match rest with
  | [Lbl x] => Upd h pre rest true
  | Lbl x :: Lbl y :: r =>
      Upd (fun c => if Nat.eqb (h c) y && existsb (Nat.eqb c) (cells full)
                    then x else h c) pre (Lbl x :: r) true
  | _ => NoMatch
  end.

(** lines 398-408 *)
Definition r27 : rres :=
  match rest with
  | Lbl x :: r =>
      if existsb (fun c => Nat.eqb (h c) x) (cells full) then NoMatch else upd r
  | _ => NoMatch
  end.

(** lines 410-420 *)
Fixpoint to_label (r : code) : code :=
  match r with
  | [] => []
  | Lbl _ :: _ => r
  | _ :: r => to_label r
  end.
Definition is_label (i : item) : bool := match i with Lbl _ => true | _ => false end.
Definition r28 : rres :=
  match rest with
  | J Jmp _ as i :: i1 :: r | J Ejmp _ as i :: i1 :: r | I Return as i :: i1 :: r =>
      if is_label i1 then NoMatch else upd (i :: to_label (i1 :: r))
  | _ => NoMatch
  end.

(** lines 422-431: the operand cell of the second jump becomes that of the
    first too *)
Definition r29 : rres :=
  match rest with
  | J k c :: r =>
      if jmp_insn k then
        match find (h c) full with
        | None => OptError
        | Some (J Jmp d :: _) =>
            if Nat.eqb (h c) (h d) then NoMatch else upd (J k d :: r)
        | _ => NoMatch
        end
      else NoMatch
  | _ => NoMatch
  end.

(** lines 433-442 *)
Definition r30 : rres :=
  match rest with
  | J Jmp c :: r =>
      match find (h c) full with
      | None => OptError
      | Some (I Return :: _) => upd (I Return :: r)
      | _ => NoMatch
      end
  | _ => NoMatch
  end.

(** lines 453-482: the new instruction, and whether it goes to a new label
    after the second jump *)
Definition thread (k k' : jk) : jk * bool :=
  match k with
  | Jtp =>
      match k' with
      | Jpt | Jt => (Jt, false)
      | Jpn => (Jpt, true)
      | Jn | Jnp => (Jt, true)
      | _ => (Jtp, false)
      end
  | _ =>
      match k' with
      | Jpt => (Jnp, true)
      | Jpn | Jn => (Jn, false)
      | Jt | Jtp => (Jn, true)
      | _ => (Jnp, false)
      end
  end.

(** a new element after the one that follows label [x] *)
Fixpoint insert_after (x z : nat) (c : code) : code :=
  match c with
  | [] => []
  | i :: r =>
      if (match i with Lbl y => Nat.eqb x y | _ => false end) then
        i :: match r with [] => [] | j :: r => j :: Lbl z :: r end
      else i :: insert_after x z r
  end.

(** gensym: a label that does not occur *)
Fixpoint max_list (l : list nat) : nat :=
  match l with [] => 0 | n :: l => Nat.max n (max_list l) end.
Definition labels (c : code) : list nat :=
  flat_map (fun i => match i with Lbl l => [l] | _ => [] end) c.
Definition gensym : nat :=
  Datatypes.S (max_list (labels full ++ map h (cells full))).

(** lines 444-492.  The label may be before the window; if it is just before
    it, insn0 is the second jump too, and no new label is needed. *)
Definition r31 : rres :=
  match rest with
  | J Jnp c as i :: r | J Jtp c as i :: r =>
      let k := match i with J k _ => k | _ => Jnp end in
      match find (h c) full with
      | None => OptError
      | Some (J k' d :: _) =>
          if cond_jmp k' then
            let '(nk, new) := thread k k' in
            if new then
              let z := gensym in
              let h' := set_cell h c z in
              match find (h c) (rev pre) with
              | Some (_ :: _) =>
                  Upd h' (rev (insert_after (h c) z (rev pre))) (J nk c :: r) true
              | _ => Upd h' pre (J nk c :: insert_after (h c) z r) true
              end
            else Upd (set_cell h c (h d)) pre (J nk c :: r) true
          else NoMatch
      | _ => NoMatch
      end
  | _ => NoMatch
  end.

(** lines 494-507 *)
Definition r32 : rres :=
  match rest with
  | J k c :: J Jmp d :: Lbl x :: r =>
      if Nat.eqb (h c) x then
        match k with
        | Jpt => upd (J Jnp d :: Lbl x :: r)
        | Jpn => upd (J Jtp d :: Lbl x :: r)
        | Jtp => upd (J Jpn d :: Lbl x :: r)
        | Jnp => upd (J Jpt d :: Lbl x :: r)
        | _ => NoMatch
        end
      else NoMatch
  | _ => NoMatch
  end.

(** the [cond], with the number of the clause *)
Fixpoint first (n : nat) (l : list rres) : nat * rres :=
  match l with
  | [] => (0, NoMatch)
  | NoMatch :: l => first (Datatypes.S n) l
  | u :: _ => (n, u)
  end.
Definition rules : nat * rres :=
  first 1 [r1; r2; r3; r4; r5; r6; r7; r8; r9; r10; r11; r12; r13; r14; r15;
           r16; r17; r18; r19; r20; r21; r22; r23; r24; r25; r26; r27; r28;
           r29; r30; r31; r32].

(** the last pass, lines 519-547 *)
Definition last1 : rres :=
  match rest with
  | I (Push v) :: I b :: I (Push v') :: r =>
      if varset_or_bind b && equalv v v' then
        upd (I (Push v) :: I Dup :: I b :: r) else NoMatch
  | _ => NoMatch
  end.
Fixpoint dup_all (a : insn) (r : code) : code :=
  match r with
  | I b :: r' =>
      match b with
      | Dup => I Dup :: dup_all a r'
      | _ => if insn_equal a b then I Dup :: dup_all a r' else r
      end
  | _ => r
  end.
Definition last2 : rres :=
  match rest with
  | I a :: r =>
      if (match a with Push _ => true | _ => varref a end)
      then Upd h pre (I a :: dup_all a r) false else NoMatch
  | _ => NoMatch
  end.
Definition last_rules : nat * rres := first 33 [last1; last2].

End Rules.

(** The loops, lines 112-122 and 509-547.  [shift] moves the window by one. *)
Inductive res := OutOfFuel | Failed | Result (h : heap) (c : code).

Definition shift (pre rest : code) : code * code :=
  match rest with [] => (pre, []) | i :: r => (i :: pre, r) end.

Fixpoint loop (fuel : nat) (h : heap) (pre rest : code) (keep_going : bool) : res :=
  match fuel with
  | O => OutOfFuel
  | Datatypes.S fuel =>
      match rest with
      | [] => if keep_going then loop fuel h [] (rev pre) false
              else Result h (rev pre)
      | _ =>
          match snd (rules h pre rest) with
          | NoMatch =>
              let '(p, r) := shift pre rest in loop fuel h p r keep_going
          | OptError => Failed
          | Upd h' pre' rest' b =>
              let '(p, r) := shift pre' rest' in
              loop fuel h' p r (keep_going || b)
          end
      end
  end.

Fixpoint last_loop (fuel : nat) (h : heap) (pre rest : code) : res :=
  match fuel with
  | O => OutOfFuel
  | Datatypes.S fuel =>
      match rest with
      | [] => Result h (rev pre)
      | _ =>
          match snd (last_rules h pre rest) with
          | Upd h' pre' rest' _ =>
              let '(p, r) := shift pre' rest' in last_loop fuel h' p r
          | _ => let '(p, r) := shift pre rest in last_loop fuel h p r
          end
      end
  end.

(** peephole-optimizer *)
Definition optimize (fuel : nat) (h : heap) (c : code) : res :=
  match loop fuel h [] c false with
  | Result h c => last_loop fuel h [] c
  | r => r
  end.
