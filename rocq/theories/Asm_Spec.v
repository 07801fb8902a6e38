(** What assembling a program means. *)
From Coq Require Import List ZArith Bool.
From Verif Require Import Asm_Model.
Import ListNotations.
Open Scope Z_scope.

(** The instructions of an assembly program when label [l] has address
    [env l] *)
Definition plain (op : Z) : dins :=
  if op =? 0x49 then DPush ONil
  else if op =? 0x4a then DPush OT
  else if op =? 0x9a then DPush (OFix 0)
  else if op =? 0x9b then DPush (OFix 1)
  else if op =? 0x9c then DPush (OFix 2)
  else if op =? 0x9d then DPush (OFix (-1))
  else if op =? 0x9e then DPush (OFix (-2))
  else DOp op.
Definition means (env : nat -> Z) (i : src) : list dins :=
  match i with
  | Label _ => []
  | Push v => [DPush v]
  | PushLabel l => [DPush (OFix (env l))]
  | WithConst op v => [DConst op v]
  | Jump op l => [DJump op (env l)]
  | Insn op None => [plain op]
  | Insn op (Some n) => [DArg op n]
  end.
Definition listing (env : nat -> Z) (p : list src) : list dins :=
  flat_map (means env) p.

(** Reading the bytes from [a] to the end gives these instructions at these
    addresses *)
Inductive disassembles (b : list Z) (cs : list obj) : Z -> list (Z * dins) -> Prop :=
| dis_end : disassembles b cs (Z.of_nat (length b)) []
| dis_next a i a' ds :
    decode b cs a = Some (i, a') -> disassembles b cs a' ds ->
    disassembles b cs a ((a, i) :: ds).

(** Address of the instruction number [k], or of the end *)
Definition address_of (b : list Z) (ds : list (Z * dins)) (k : nat) : Z :=
  nth k (map fst ds) (Z.of_nat (length b)).

(** The bytes and constants are the program: reading them gives its
    instructions in order, and a label stands for the address of the
    instruction that follows it *)
Definition faithful (p : list src) (start : Z) (bytes : list Z) (cs : list obj) : Prop :=
  exists env ds,
    disassembles bytes cs start ds /\
    map snd ds = listing env p /\
    forall p1 l p2, p = p1 ++ Label l :: p2 ->
       env l = address_of bytes ds (length (listing env p1)).

(** Programs the assembler is for: opcodes of the right kind, no negative
    arguments, jumps to labels of the program *)
Definition good_insn (i : src) : Prop :=
  match i with
  | WithConst op _ => op = 0x18 \/ op = 0x20
  | Jump op _ => 0xf8 <= op <= 0xff
  | Insn op None => 0x40 <= op < 0xf8 /\ op <> 0x9f /\ op <> 0xa0 /\ op <> 0xa1
  | Insn op (Some n) =>
      (op = 0x00 \/ op = 0x08 \/ op = 0x28 \/ op = 0x30 \/ op = 0x38) /\ 0 <= n
  | _ => True
  end.
Definition target (i : src) : list nat :=
  match i with PushLabel l | Jump _ l => [l] | _ => [] end.
Definition label (i : src) : list nat := match i with Label l => [l] | _ => [] end.
Definition constant (i : src) : list obj :=
  match i with
  | Push (OFix z) => if Z.abs z <=? 65535 then [] else [OFix z]
  | Push ONil | Push OT => []
  | Push v => [v]
  | WithConst _ v => [v]
  | _ => []
  end.

Definition good (p : list src) : Prop :=
  Forall good_insn p /\
  incl (flat_map target p) (flat_map label p).

(** strings with the same characters, integers that are a multiple of 2^32
    apart: constants that [equal] takes for the same *)
Definition alike (v w : obj) : Prop :=
  match v, w with
  | OFix a, OFix b => (a - b) mod 2 ^ 32 = 0
  | OStr _ s, OStr _ t => s = t
  | _, _ => False
  end.
(** constants that are alike are the same object *)
Definition distinct_constants (p : list src) : Prop :=
  forall v w, In v (flat_map constant p) -> In w (flat_map constant p) ->
  alike v w -> v = w.

(** The limits of the format *)
Definition in_limits (p : list src) : Prop :=
  NoDup (flat_map label p) /\
  Z.of_nat (length (flat_map constant p)) <= 65536 /\
  Forall (fun i => match i with Insn op (Some n) => n <= 65535 | _ => True end) p.
