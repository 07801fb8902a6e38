(** What the foreign function interface should do, independently of how
    src/ffi.c does it: C types as trees, their layout by the C ABI, what a C
    program sees in memory, which Lisp values fit which types. *)

From Coq Require Import ZArith List Bool.
From Verif Require Import Ffi_Model.
Import ListNotations.
Open Scope Z_scope.

(** ** Tables that programs can make *)

Inductive later : table -> table -> Prop :=
| later_same tab : later tab tab
| later_struct tab tab1 tab2 ids i :
    later tab tab1 -> ffi_struct ids tab1 = Some (tab2, i) -> later tab tab2
| later_type tab tab1 tab2 b p ci co i :
    later tab tab1 -> ffi_type b p ci co tab1 = Some (tab2, i) -> later tab tab2.
Definition made (tab : table) : Prop := later init_table tab.

(** ** C types *)

Inductive ctype :=
| CPrim (p : prim)
| CStruct (cts : list ctype).

(** The type id stands for a C type: no aliases and no empty structures. *)
Inductive means (tab : table) : nat -> ctype -> Prop :=
| means_prim id t p :
    nth_error tab id = Some t -> f_kind t = KPrim p -> means tab id (CPrim p)
| means_struct id t ids cts :
    nth_error tab id = Some t -> f_kind t = KStruct ids -> ids <> [] ->
    means_all tab ids cts -> means tab id (CStruct cts)
with means_all (tab : table) : list nat -> list ctype -> Prop :=
| means_nil : means_all tab [] []
| means_cons id ids ct cts :
    means tab id ct -> means_all tab ids cts ->
    means_all tab (id :: ids) (ct :: cts).

(** Aliases allowed, empty structures not. *)
Inductive solid (tab : table) : nat -> Prop :=
| solid_prim id t p :
    nth_error tab id = Some t -> f_kind t = KPrim p -> solid tab id
| solid_struct id t ids :
    nth_error tab id = Some t -> f_kind t = KStruct ids -> ids <> [] ->
    (forall i, In i ids -> solid tab i) -> solid tab id
| solid_alias id t b p ci co :
    nth_error tab id = Some t -> f_kind t = KAlias b p ci co ->
    solid tab b -> solid tab id.

(** ** The layout of the C ABI *)

(** The next multiple of a. *)
Definition up (x a : Z) : Z := ((x + a - 1) / a) * a.

Definition prim_bytes (p : prim) : Z :=
  match p with
  | PVoid | PU8 | PS8 => 1
  | PU16 | PS16 => 2
  | PU32 | PS32 | PFloat => 4
  | PU64 | PS64 | PDouble | PPointer => 8
  | PLongdouble => 16
  end.

Fixpoint calign (ct : ctype) : Z :=
  match ct with
  | CPrim p => prim_bytes p
  | CStruct cts => fold_right (fun c a => Z.max (calign c) a) 1 cts
  end.
(** Each field at the next multiple of its alignment, the whole rounded up. *)
Fixpoint csize (ct : ctype) : Z :=
  match ct with
  | CPrim p => prim_bytes p
  | CStruct cts =>
      up ((fix go (off : Z) (l : list ctype) : Z :=
             match l with
             | [] => off
             | c :: r => go (up off (calign c) + csize c) r
             end) 0 cts)
         (calign (CStruct cts))
  end.
(** The sum of the sizes of what is inside. *)
Fixpoint content (ct : ctype) : Z :=
  match ct with
  | CPrim PVoid => 0
  | CPrim p => prim_bytes p
  | CStruct cts => fold_right (fun c a => content c + a) 0 cts
  end.
(** The C layout has no padding. *)
Definition padless (ct : ctype) : Prop := csize ct = content ct.

(** ** Values *)

(** The numbers of each type.  For the unsigned 64-bit type only those below
    2^63. *)
Definition range (p : prim) (z : Z) : Prop :=
  match p with
  | PU8 => 0 <= z < 2 ^ 8
  | PS8 => - 2 ^ 7 <= z < 2 ^ 7
  | PU16 => 0 <= z < 2 ^ 16
  | PS16 => - 2 ^ 15 <= z < 2 ^ 15
  | PU32 => 0 <= z < 2 ^ 32
  | PS32 => - 2 ^ 31 <= z < 2 ^ 31
  | PU64 => 0 <= z < 2 ^ 63
  | PS64 => - 2 ^ 63 <= z < 2 ^ 63
  | PPointer => 0 <= z < 2 ^ 64
  | _ => False
  end.

Fixpoint lisp_list (l : list value) (tail : value) : value :=
  match l with
  | [] => tail
  | v :: r => VCons v (lisp_list r tail)
  end.

(** [fits ct v w]: v may be written as a ct, and w is what should be read
    back: structures come back as vectors, strings as addresses. *)
Inductive fits : ctype -> value -> value -> Prop :=
| fits_void v : fits (CPrim PVoid) v VUndef
| fits_int p z : range p z -> fits (CPrim p) (VInt z) (VInt z)
| fits_str a : 0 <= a < 2 ^ 64 -> fits (CPrim PPointer) (VStr a) (VInt a)
| fits_flt b : 0 <= b < 2 ^ 64 -> fits (CPrim PDouble) (VFlt b) (VFlt b)
| fits_vec cts l rest ws :
    fits_all cts l ws -> fits (CStruct cts) (VVec (l ++ rest)) (VVec ws)
| fits_list cts l tail ws :
    fits_all cts l ws -> fits (CStruct cts) (lisp_list l tail) (VVec ws)
with fits_all : list ctype -> list value -> list value -> Prop :=
| fits_nil : fits_all [] [] []
| fits_cons ct cts v vs w ws :
    fits ct v w -> fits_all cts vs ws ->
    fits_all (ct :: cts) (v :: vs) (w :: ws).

(** ** What a C program sees *)

(** The n bytes at p are those of z, lowest first, in two's complement. *)
Definition bytes_at (m : mem) (p n z : Z) : Prop :=
  forall k, 0 <= k < n -> m (p + k) = (z / 256 ^ k) mod 256.

Inductive csees (m : mem) : ctype -> Z -> value -> Prop :=
| sees_void p : csees m (CPrim PVoid) p VUndef
| sees_int pr p z : bytes_at m p (prim_bytes pr) z -> csees m (CPrim pr) p (VInt z)
| sees_flt p b : bytes_at m p 8 b -> csees m (CPrim PDouble) p (VFlt b)
| sees_struct cts p vs :
    csees_from m cts p 0 vs -> csees m (CStruct cts) p (VVec vs)
with csees_from (m : mem) : list ctype -> Z -> Z -> list value -> Prop :=
| sees_none p off : csees_from m [] p off []
| sees_field c cts p off v vs :
    csees m c (p + up off (calign c)) v ->
    csees_from m cts p (up off (calign c) + csize c) vs ->
    csees_from m (c :: cts) p off (v :: vs).

(** ** Results *)

Definition untouched (m m' : mem) (from size : Z) : Prop :=
  forall a, a < from \/ from + size <= a -> m' a = m a.

(** Arguments seen one by one at their addresses. *)
Inductive args_seen (m : mem) : list ctype -> list Z -> list value -> Prop :=
| seen_nil : args_seen m [] [] []
| seen_cons ct cts a at_ w ws :
    csees m ct a w -> args_seen m cts at_ ws ->
    args_seen m (ct :: cts) (a :: at_) (w :: ws).
