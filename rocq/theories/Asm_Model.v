(** Model of /repo/lisp/rep/vm/assembler.jl, of the decoding of instructions
    in /repo/src/lispmach.h and in /repo/lisp/rep/vm/disassembler.jl, and of
    the stack word (compiler/basic.jl 363-380, lispmach.h 504-511).

    Instructions are given by their opcode (bytecode-defs.jl 46-230 maps names
    to opcodes one to one); integers by [Z]. *)
From Coq Require Import List ZArith Bool.
Import ListNotations.
Open Scope Z_scope.

(** * Objects *)

(** Operands of [push], [refg], [setg].  Strings carry an address.  Other
    objects (symbols, byte code) are compared by address. *)
Inductive obj :=
| ONil | OT
| OFix (z : Z)
| OStr (addr : nat) (s : list Z)
| OAtom (n : nat).

Fixpoint eql_list (s t : list Z) : bool :=
  match s, t with
  | [], [] => true
  | a :: s, b :: t => (a =? b) && eql_list s t
  | _, _ => false
  end.

(** the value of a C int: 32 bits, two's complement *)
Definition wrap32 (z : Z) : Z := (z + 2 ^ 31) mod 2 ^ 32 - 2 ^ 31.

(** rep_value_cmp = 0 (values.c 161-173): string_cmp 325-337 and number_cmp
    (numbers.c 817-854), whose difference of two fixnums is returned as an
    int *)
Definition equalo (x y : obj) : bool :=
  match x, y with
  | ONil, ONil | OT, OT => true
  | OFix a, OFix b => wrap32 (a - b) =? 0
  | OStr _ s, OStr _ t => eql_list s t
  | OAtom n, OAtom m => Nat.eqb n m
  | _, _ => false
  end.

(** * Source *)

(** An element of INSNS, assembler.jl 47-56 and 186-203: a label,
    (push X), (push-label L), (refg X) or (setg X), a jump, or another
    instruction with or without argument *)
Inductive src :=
| Label (l : nat)
| Push (v : obj)
| PushLabel (l : nat)
| WithConst (op : Z) (v : obj)
| Jump (op : Z) (l : nat)
| Insn (op : Z) (arg : option Z).

(** * Assembler *)

(** Variables of [assemble], lines 59-63, and the label records 38-43; a
    label that is not in the table has neither address nor forward
    references *)
Record ast := {
  code : list (Z * Z);          (* (byte, address), last first *)
  pc : Z;
  address : nat -> option Z;
  forwards : nat -> list Z;
  consts : list (obj * Z);
  next_id : Z
}.

Definition init (start : Z) : ast :=
  {| code := []; pc := start; address := fun _ => None; forwards := fun _ => [];
     consts := []; next_id := 0 |}.

(** lines 71-75; [assoc] compares with [equal] *)
Fixpoint assoc (v : obj) (l : list (obj * Z)) : option Z :=
  match l with
  | [] => None
  | (w, i) :: l => if equalo v w then Some i else assoc v l
  end.
Definition get_const_id (v : obj) (s : ast) : Z * ast :=
  match assoc v (consts s) with
  | Some i => (i, s)
  | None =>
      (next_id s,
       {| code := code s; pc := pc s; address := address s; forwards := forwards s;
          consts := (v, next_id s) :: consts s; next_id := next_id s + 1 |})
  end.

(** lines 77-78 *)
Definition emit_byte_at (b a : Z) (s : ast) : ast :=
  {| code := (b, a) :: code s; pc := pc s; address := address s;
     forwards := forwards s; consts := consts s; next_id := next_id s |}.

Definition set_pc (a : Z) (s : ast) : ast :=
  {| code := code s; pc := a; address := address s; forwards := forwards s;
     consts := consts s; next_id := next_id s |}.

(** lines 80-82 *)
Definition emit_byte (b : Z) (s : ast) : ast :=
  set_pc (pc s + 1) (emit_byte_at b (pc s) s).

(** lines 84-90 *)
Definition emit_address_at (addr p : Z) (s : ast) : ast :=
  emit_byte_at (Z.land addr 255) (p + 1) (emit_byte_at (Z.shiftr addr 8) p s).
Definition emit_address (addr : Z) (s : ast) : ast :=
  set_pc (pc s + 2) (emit_address_at addr (pc s) s).

Definition set_forwards (l : nat) (fs : list Z) (s : ast) : ast :=
  {| code := code s; pc := pc s; address := address s;
     forwards := fun k => if Nat.eqb k l then fs else forwards s k;
     consts := consts s; next_id := next_id s |}.
Definition set_address (l : nat) (a : Z) (s : ast) : ast :=
  {| code := code s; pc := pc s;
     address := fun k => if Nat.eqb k l then Some a else address s k;
     forwards := forwards s; consts := consts s; next_id := next_id s |}.

(** lines 92-96 *)
Definition emit_label_addr (l : nat) (s : ast) : ast :=
  match address s l with
  | Some a => emit_address a s
  | None => set_pc (pc s + 2) (set_forwards l (pc s :: forwards s l) s)
  end.

(** lines 98-130; [last-with-args] is #x3f.  [None]: an error.  An
    instruction with embedded argument and without ARG fails at (<= arg ...) *)
Definition two_byte (op : Z) : bool := op =? 0x9f.
Definition three_byte (op : Z) : bool :=
  (op =? 0xa0) || (op =? 0xa1) || (0xf8 <=? op).
Definition emit_insn (op : Z) (arg : option Z) (s : ast) : option ast :=
  if 0x3f <=? op then
    let s := emit_byte op s in
    match arg with
    | None => Some s
    | Some arg =>
        if two_byte op then
          if arg <? 256 then Some (emit_byte arg s) else None
        else if three_byte op then
          if arg <? 65536
          then Some (emit_byte (Z.land arg 255) (emit_byte (Z.shiftr arg 8) s))
          else None
        else None
    end
  else
    match arg with
    | None => None
    | Some arg =>
        if arg <=? 5 then Some (emit_byte (op + arg) s)
        else if arg <=? 255 then Some (emit_byte arg (emit_byte (op + 6) s))
        else if arg <=? 65535 then
          Some (emit_byte (Z.land arg 255)
                 (emit_byte (Z.shiftr arg 8) (emit_byte (op + 7) s)))
        else None
    end.

(** lines 132-134 *)
Definition emit_jmp (op : Z) (l : nat) (s : ast) : ast :=
  emit_label_addr l (emit_byte op s).

(** lines 136-166 *)
Definition emit_push (v : obj) (s : ast) : option ast :=
  let const :=
    let '(i, s) := get_const_id v s in emit_insn 0x10 (Some i) s in
  match v with
  | OFix z =>
      if (z <=? 65535) && (-65535 <=? z) then
        if z =? 0 then emit_insn 0x9a None s
        else if z =? 1 then emit_insn 0x9b None s
        else if z =? 2 then emit_insn 0x9c None s
        else if z =? -1 then emit_insn 0x9d None s
        else if z =? -2 then emit_insn 0x9e None s
        else if (z <=? 127) && (-128 <=? z) then
          emit_insn 0x9f (Some (Z.land z 255)) s
        else if (z <? 0) && (-65535 <=? z) then emit_insn 0xa0 (Some (- z)) s
        else emit_insn 0xa1 (Some z) s
      else const
  | ONil => emit_insn 0x49 None s
  | OT => emit_insn 0x4a None s
  | _ => const
  end.

(** lines 168-171 *)
Definition emit_push_label (l : nat) (s : ast) : ast :=
  emit_label_addr l (emit_byte 0xa1 s).

(** lines 173-183 *)
Fixpoint backpatch (p : Z) (refs : list Z) (s : ast) : ast :=
  match refs with
  | [] => s
  | r :: refs =>
      backpatch p refs
        (emit_byte_at (Z.land p 255) (r + 1) (emit_byte_at (Z.shiftr p 8) r s))
  end.
Definition emit_label (l : nat) (s : ast) : option ast :=
  match address s l with
  | Some _ => None
  | None =>
      let s := set_address l (pc s) s in
      Some (set_forwards l [] (backpatch (pc s) (forwards s l) s))
  end.

(** lines 185-203 *)
Definition emit (i : src) (s : ast) : option ast :=
  match i with
  | Label l => emit_label l s
  | Push v => emit_push v s
  | PushLabel l => Some (emit_push_label l s)
  | WithConst op v => let '(k, s) := get_const_id v s in emit_insn op (Some k) s
  | Jump op l => Some (emit_jmp op l s)
  | Insn op arg => emit_insn op arg s
  end.
Fixpoint emit_all (p : list src) (s : ast) : option ast :=
  match p with
  | [] => Some s
  | i :: p => match emit i s with Some s => emit_all p s | None => None end
  end.

(** lines 205-215; make-string fills with spaces, aset stores the low eight
    bits (lispcmds.c 859-896, 924-943), make-vector fills with nil *)
Fixpoint set_nth {A} (n : nat) (v : A) (l : list A) : list A :=
  match n, l with
  | O, _ :: l => v :: l
  | S n, x :: l => x :: set_nth n v l
  | _, [] => []
  end.
Fixpoint stores {A} (ws : list (A * Z)) (l : list A) : list A :=
  match ws with
  | [] => l
  | (v, a) :: ws => stores ws (set_nth (Z.to_nat a) v l)
  end.
Definition assemble (p : list src) (start : Z) : option (list Z * list obj) :=
  match emit_all p (init start) with
  | None => None
  | Some s =>
      Some (stores (map (fun w => (fst w mod 256, snd w)) (code s))
                   (repeat 32 (Z.to_nat (pc s))),
            stores (consts s) (repeat ONil (Z.to_nat (next_id s))))
  end.

(** * The machine's decoder *)

(** What an instruction does, as far as decoding settles it *)
Inductive dins :=
| DPush (v : obj)
| DConst (op : Z) (v : obj)          (* refg, setg *)
| DArg (op : Z) (n : Z)              (* slot-ref call setn slot-set refn *)
| DJump (op : Z) (addr : Z)
| DOp (op : Z).

Definition fetch (b : list Z) (a : Z) : option Z :=
  if a <? 0 then None else nth_error b (Z.to_nat a).

(** FETCH2, lispmach.h 217-218; also the address in do_jmp, 2183 *)
Definition fetch2 (b : list Z) (a : Z) : option Z :=
  match fetch b a, fetch b (a + 1) with
  | Some x, Some y => Some (Z.shiftl x 8 + y)
  | _, _ => None
  end.

(** BEGIN_INSN_WITH_ARG 260-267 (and, for refn, slot-ref, slot-set, the
    separate instructions at 877-1104); OP_PUSH 855-859, OP_NIL, OP_T, the
    OP_PUSHI instructions 1738-1782, the jumps 2119-2200.  Returns the
    instruction and the address of the next one. *)
Definition decode (b : list Z) (cs : list obj) (p : Z) : option (dins * Z) :=
  match fetch b p with
  | None => None
  | Some c =>
      if c <? 0x40 then
        let op := c - c mod 8 in
        match (if c mod 8 =? 6 then
                 match fetch b (p + 1) with Some n => Some (n, p + 2) | None => None end
               else if c mod 8 =? 7 then
                 match fetch2 b (p + 1) with Some n => Some (n, p + 3) | None => None end
               else Some (c mod 8, p + 1)) with
        | None => None
        | Some (n, p) =>
            if op =? 0x10 then
              match nth_error cs (Z.to_nat n) with Some v => Some (DPush v, p) | None => None end
            else if (op =? 0x18) || (op =? 0x20) then
              match nth_error cs (Z.to_nat n) with Some v => Some (DConst op v, p) | None => None end
            else Some (DArg op n, p)
        end
      else if c =? 0x49 then Some (DPush ONil, p + 1)
      else if c =? 0x4a then Some (DPush OT, p + 1)
      else if c =? 0x9a then Some (DPush (OFix 0), p + 1)
      else if c =? 0x9b then Some (DPush (OFix 1), p + 1)
      else if c =? 0x9c then Some (DPush (OFix 2), p + 1)
      else if c =? 0x9d then Some (DPush (OFix (-1)), p + 1)
      else if c =? 0x9e then Some (DPush (OFix (-2)), p + 1)
      else if c =? 0x9f then
        match fetch b (p + 1) with
        | Some n => Some (DPush (OFix (if n <? 128 then n else n - 256)), p + 2)
        | None => None
        end
      else if c =? 0xa0 then
        match fetch2 b (p + 1) with Some n => Some (DPush (OFix (- n)), p + 3) | None => None end
      else if c =? 0xa1 then
        match fetch2 b (p + 1) with Some n => Some (DPush (OFix n), p + 3) | None => None end
      else if 0xf8 <=? c then
        match fetch2 b (p + 1) with Some n => Some (DJump c n, p + 3) | None => None end
      else Some (DOp c, p + 1)
  end.

(** * The disassembler's idea of where the next instruction is *)

(** disassembler.jl 92-155 *)
Definition disasm_next (b : list Z) (i : Z) : option Z :=
  match fetch b i with
  | None => None
  | Some c =>
      if c <? 0x3f then
        if Z.land c 7 <? 6 then Some (i + 1)
        else if Z.land c 7 =? 6 then Some (i + 2)
        else Some (i + 3)
      else if 0xf7 <? c then Some (i + 3)
      else if c =? 0x9f then Some (i + 2)
      else if (c =? 0xa0) || (c =? 0xa1) then Some (i + 3)
      else Some (i + 1)
  end.

(** * The stack word *)

(** compiler/basic.jl 368-370, 376-378 *)
Definition stack_word (v b s : Z) : Z := v + Z.shiftl b 10 + Z.shiftl s 20.
(** lispmach.h 507-510, lispmach.c 100-102 *)
Definition stack_sizes (w : Z) : Z * Z * Z :=
  (Z.land w 0x3ff, Z.land (Z.shiftr w 10) 0x3ff, Z.shiftr w 20).
