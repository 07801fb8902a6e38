(* What the manual says about data objects and records: a machine without
   vectors, ids and addresses. *)
From Coq Require Import List Arith Bool.
Import ListNotations.
From Verif Require Import Records_Model.

(* Objects are numbered as they are made. *)
Inductive sval := SNil | SSym (s : sym) | SObj (n : nat).
Inductive sobj :=
| STy (fields : list sym)                              (* a record type *)
| SRec (ty : nat) (contents : list (sym * sval))       (* a record of that type; a field not listed is nil *)
| SDat (id : sym) (v : sval).                          (* a data object *)
Definition sstate := list sobj.

Definition seqb (a b : sval) : bool :=
  match a, b with
  | SNil, SNil => true
  | SSym x, SSym y => Nat.eqb x y
  | SObj x, SObj y => Nat.eqb x y
  | _, _ => false
  end.

Definition sget (w : sstate) (v : sval) : option sobj :=
  match v with SObj n => nth_error w n | _ => None end.
Definition sput (w : sstate) (n : nat) (o : sobj) : sstate := firstn n w ++ o :: skipn (S n) w.

Definition contents_of (c : list (sym * sval)) (f : sym) : sval :=
  match find (fun p => Nat.eqb (fst p) f) c with Some p => snd p | None => SNil end.
Definition member (f : sym) (l : list sym) : bool := existsb (Nat.eqb f) l.

(* the variable of a parameter, if it has one *)
Definition param_name (i : item) : list sym :=
  match i with Marker _ => [] | Plain s => [s] | Default s => [s] end.
Definition params (l : lambda_list) : list sym :=
  flat_map param_name (items l) ++ match tail l with Some s => [s] | None => [] end.

Definition soperand (regs : list sval) (o : operand) : sval :=
  match o with ONil => SNil | OSym s => SSym s | OReg n => nth n regs SNil end.

(* the record of type rt, with its type's fields *)
Definition record_of (w : sstate) (rt r : sval) : option (nat * list (sym * sval)) :=
  match r with
  | SObj n => match nth_error w n with
              | Some (SRec ty c) => if seqb (SObj ty) rt then Some (n, c) else None
              | _ => None
              end
  | _ => None
  end.
Definition fields_of (w : sstate) (rt : sval) : option (list sym) :=
  match sget w rt with Some (STy f) => Some f | _ => None end.

Definition sbool (b : bool) : sval := if b then SSym T else SNil.

Definition sstep (w : sstate) (regs : list sval) (o : op) : option (sval * sstate) :=
  let v := soperand regs in
  let new x := Some (SObj (length w), w ++ [x]) in
  match o with
  | NewType _ fields => new (STy fields)
  (* the named fields get the arguments in order, as far as there are any *)
  | Construct rt fields args =>
      match fields_of w (v rt), v rt with
      | Some fs, SObj ty =>
          if forallb (fun f => member f fs) fields
          then new (SRec ty (rev (combine fields (map v args))))
          else None
      | _, _ => None
      end
  (* the fields that are parameters get the values of these *)
  | MacroConstruct rt l vals =>
      match fields_of w (v rt), v rt with
      | Some fs, SObj ty => new (SRec ty (rev (combine (params l) (map v vals))))
      | _, _ => None
      end
  | Get rt field r =>
      match fields_of w (v rt), record_of w (v rt) (v r) with
      | Some fs, Some (_, c) => if member field fs then Some (contents_of c field, w) else None
      | _, _ => None
      end
  | Set_ rt field r x =>
      match fields_of w (v rt), record_of w (v rt) (v r), v rt with
      | Some fs, Some (n, c), SObj ty =>
          if member field fs then Some (v x, sput w n (SRec ty ((field, v x) :: c))) else None
      | _, _, _ => None
      end
  | Is rt r =>
      Some (sbool match record_of w (v rt) (v r) with Some _ => true | None => false end, w)
  | NewDatum x id => new (SDat id (v x))
  | DatumRef d id =>
      match sget w (v d) with
      | Some (SDat i x) => if Nat.eqb i id then Some (x, w) else None
      | _ => None
      end
  | DatumSet d id x =>
      match v d, sget w (v d) with
      | SObj n, Some (SDat i _) => if Nat.eqb i id then Some (v x, sput w n (SDat id (v x))) else None
      | _, _ => None
      end
  | HasType d id =>
      Some (sbool match sget w (v d) with Some (SDat i _) => Nat.eqb i id | _ => false end, w)
  end.

Fixpoint sfirst (v : sval) (l : list sval) (k : nat) : nat :=
  match l with
  | [] => k
  | x :: r => if seqb x v then k else sfirst v r (S k)
  end.
Definition ssee (regs : list sval) (v : sval) : seen :=
  match v with
  | SNil => SeenNil
  | SSym s => SeenSym s
  | SObj _ => SeenObj (sfirst v regs 0)
  end.
Fixpoint srun (w : sstate) (regs : list sval) (p : list op) : list seen :=
  match p with
  | [] => []
  | o :: p =>
      match sstep w regs o with
      | Some (v, w) => ssee regs v :: srun w (regs ++ [v]) p
      | None => SeenError :: srun w (regs ++ [SNil]) p
      end
  end.

(* The programs for which this holds. A predicate is asked with a record type
   (asked with a symbol or nil it would look at data objects of that
   id, and nil is a data object of its own). The parameters of the
   constructor are none of the three names that its body uses, each has a
   value. types says which results are record types, and their names. *)
Definition type_operand (types : list (option sym)) (o : operand) : option sym :=
  match o with OReg n => nth n types None | _ => None end.
Definition fit (types : list (option sym)) (o : op) : Prop :=
  match o with
  | NewType name _ => name <> VECTOR /\ name <> MAKE_RECORD_DATUM
  | Is rt _ => type_operand types rt <> None
  | MacroConstruct rt l vals =>
      length vals = length (params l) /\
      ~ In VECTOR (params l) /\ ~ In MAKE_RECORD_DATUM (params l) /\
      match type_operand types rt with Some name => ~ In name (params l) | None => False end
  | _ => True
  end.
Fixpoint fits (types : list (option sym)) (p : list op) : Prop :=
  match p with
  | [] => True
  | o :: p =>
      fit types o /\
      fits (types ++ [match o with NewType name _ => Some name | _ => None end]) p
  end.
