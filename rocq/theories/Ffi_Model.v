(** The foreign function interface: the table of types, the writing of Lisp
    values to C memory and their reading back.  src/ffi.c.

    Machine: LP64, little-endian, GMP present; libffi's ALIGN is the one of
    older headers (the fallback in ffi.c 79-81 lacks a closing parenthesis and
    does not compile). *)

From Coq Require Import ZArith List Bool.
Import ListNotations.
Open Scope Z_scope.

(** ** Types *)

(** ffi.c 964-1006: the primitive types installed by rep_dl_init.  The 32-bit
    float and the long double are in the table but their conversions are not
    modelled. *)
Inductive prim :=
| PVoid | PU8 | PS8 | PU16 | PS16 | PU32 | PS32 | PU64 | PS64
| PFloat | PDouble | PLongdouble | PPointer.

(** libffi's ffi_type_void has size 1 and alignment 1; the others are those of
    the C types on this machine. *)
Definition prim_size (p : prim) : Z :=
  match p with
  | PVoid | PU8 | PS8 => 1
  | PU16 | PS16 => 2
  | PU32 | PS32 | PFloat => 4
  | PU64 | PS64 | PDouble | PPointer => 8
  | PLongdouble => 16
  end.

(** ffi.c 101-125: a type is primitive, a structure of element ids, or an alias
    of a base id with conversions.  [None] is nil: an argument not given to
    ffi-type is nil, which is not rep_NULL.  A conversion is named by a number;
    the argument [call] below says what calling it does.  The predicate is
    stored by the code and never used. *)
Inductive kind :=
| KPrim (p : prim)
| KStruct (ids : list nat)
| KAlias (base : nat) (pred conv_in conv_out : option Z).

(** An entry of ffi_types with the ffi_type object it points to: the object's
    identity, size and alignment.  A structure has an object of its own, named
    here by the place the structure would take in the table; an alias shares
    that of its base (ffi.c 606). *)
Record ftype := FT { f_kind : kind; f_obj : nat; f_size : Z; f_align : Z }.
Definition table := list ftype.

(** ffi.c 994-1006 rep_dl_init *)
Definition prims : list prim :=
  [PVoid; PU8; PS8; PU16; PS16; PU32; PS32; PU64; PS64;
   PFloat; PDouble; PLongdouble; PPointer].
Definition prim_entry (k : nat * prim) : ftype :=
  FT (KPrim (snd k)) (fst k) (prim_size (snd k)) (prim_size (snd k)).
Definition init_table : table :=
  map prim_entry (combine (seq 0 (length prims)) prims).

(** The macro ALIGN (v, a), of libffi's header; also ffi.c 79-81. *)
Definition align (v a : Z) : Z := Z.land (v + a - 1) (Z.lnot (a - 1)).

Definition opt_eqb (a b : option Z) : bool :=
  match a, b with
  | Some x, Some y => x =? y
  | None, None => true
  | _, _ => false
  end.
Fixpoint ids_eqb (a b : list nat) : bool :=
  match a, b with
  | [], [] => true
  | x :: a', y :: b' => Nat.eqb x y && ids_eqb a' b'
  | _, _ => false
  end.

(** ffi.c 155-204 ffi_types_equal_p.  The primitive case is only reached with
    different objects, which are never equal in kind. *)
Definition types_equal (a b : ftype) : bool :=
  match f_kind a, f_kind b with
  | KPrim _, KPrim _ => Nat.eqb (f_obj a) (f_obj b)
  | KStruct x, KStruct y => Nat.eqb (f_obj a) (f_obj b) || ids_eqb x y
  | KAlias x p i o, KAlias y q j u =>
      Nat.eqb (f_obj a) (f_obj b)
      || (Nat.eqb x y && opt_eqb p q && opt_eqb i j && opt_eqb o u)
  | _, _ => false
  end.

Fixpoint find_type (t : ftype) (tab : table) (i : nat) : option nat :=
  match tab with
  | [] => None
  | e :: rest => if types_equal t e then Some i else find_type t rest (S i)
  end.

(** ffi.c 226-255 ffi_alloc_type; the array grows as needed. *)
Definition alloc_type (t : ftype) (tab : table) : table * nat :=
  match find_type t tab 0 with
  | Some i => (tab, i)
  | None => (tab ++ [t], length tab)
  end.

(** ffi.c 582-592: the size and alignment of a structure. *)
Definition layout_step (acc : Z * Z) (e : ftype) : Z * Z :=
  (align (fst acc) (f_align e) + f_size e, Z.max (snd acc) (f_align e)).

Fixpoint lookup_all (tab : table) (ids : list nat) : option (list ftype) :=
  match ids with
  | [] => Some []
  | i :: rest =>
      match nth_error tab i, lookup_all tab rest with
      | Some e, Some es => Some (e :: es)
      | _, _ => None
      end
  end.

(** ffi.c 537-595 ffi-struct; None is the error for an id that is not in the
    table.  (The field s->type.type is left unset by the code; it matters to
    ffi_call only, which is not modelled.) *)
Definition ffi_struct (ids : list nat) (tab : table) : option (table * nat) :=
  match lookup_all tab ids with
  | None => None
  | Some es =>
      let '(size, al) := fold_left layout_step es (0, 0) in
      Some (alloc_type (FT (KStruct ids) (length tab) size al) tab)
  end.

(** ffi.c 597-613 ffi-type *)
Definition ffi_type (base : nat) (pred conv_in conv_out : option Z) (tab : table)
  : option (table * nat) :=
  match nth_error tab base with
  | None => None
  | Some e =>
      Some (alloc_type (FT (KAlias base pred conv_in conv_out)
                           (f_obj e) (f_size e) (f_align e)) tab)
  end.

(** ** Memory and values *)

Definition mem := Z -> Z.
Definition upd (m : mem) (a b : Z) : mem := fun x => if x =? a then b else m x.

(** The assignment through a pointer to an n-byte integer, lowest byte first. *)
Fixpoint store (m : mem) (p : Z) (n : nat) (z : Z) : mem :=
  match n with
  | O => m
  | S k => store (upd m p (z mod 256)) (p + 1) k (z / 256)
  end.
Fixpoint load (m : mem) (p : Z) (n : nat) : Z :=
  match n with
  | O => 0
  | S k => m p + 256 * load m (p + 1) k
  end.
(** Reading through a pointer to a signed type. *)
Definition load_signed (m : mem) (p : Z) (n : nat) : Z :=
  let u := load m p n in
  if u <? 2 ^ (8 * Z.of_nat n - 1) then u else u - 2 ^ (8 * Z.of_nat n).

(** Lisp values: integers (fixnum or bignum), floats by the bits of their
    double, strings by the address of their bytes, lists, vectors, the
    undefined value, others. *)
Inductive value :=
| VInt (z : Z)
| VFlt (bits : Z)
| VStr (addr : Z)
| VNil
| VCons (a d : value)
| VVec (l : list value)
| VUndef
| VOther.

Definition fixnump (z : Z) : bool := (- 2 ^ 61 <=? z) && (z <=? 2 ^ 61 - 1).

(** A 64-bit word read as a long. *)
Definition to_long (z : Z) : Z :=
  let u := z mod 2 ^ 64 in if u <? 2 ^ 63 then u else u - 2 ^ 64.

(** GMP's mpz_get_si: the low word for positive numbers; for negative ones
    -1 - ((low word of the magnitude - 1) without its top bit). *)
Definition mpz_get_si (z : Z) : Z :=
  if 0 <? z then to_long z
  else if z <? 0 then - 1 - ((- z - 1) mod 2 ^ 63)
  else 0.

(** numbers.c 602-632 rep_get_long_int, also rep_get_longlong_int 727-731 as
    long long is no wider than long.  None: floats, not modelled. *)
Definition get_long_int (v : value) : option Z :=
  match v with
  | VInt z => Some (if fixnump z then z else mpz_get_si z)
  | VFlt _ => None
  | VCons (VInt a) (VInt d) =>
      if fixnump a && fixnump d
      then Some (Z.lor a (to_long (Z.shiftl d 24))) else Some 0
  | _ => Some 0
  end.

(** numbers.c 569-600 rep_get_long_uint; mpz_get_ui is the low word of the
    magnitude. *)
Definition get_long_uint (v : value) : option Z :=
  match v with
  | VInt z => Some (if fixnump z then z mod 2 ^ 64 else Z.abs z mod 2 ^ 64)
  | VFlt _ => None
  | VCons (VInt a) (VInt d) =>
      if fixnump a && fixnump d
      then Some (Z.lor a (to_long (Z.shiftl d 24)) mod 2 ^ 64) else Some 0
  | _ => Some 0
  end.

(** ** Marshalling *)

(** What rep_ffi_marshal does: the memory with the pointer after the value; an
    error signalled, with the memory so far; or something outside the model
    (a read beyond the end of a vector, a float conversion). *)
Inductive mres :=
| MOk (m : mem) (p : Z)
| MErr (m : mem)
| MWild (m : mem).

Definition put_int (o : option Z) (n : nat) (m : mem) (p : Z) : mres :=
  match o with
  | Some z => MOk (store m p n z) (p + Z.of_nat n)
  | None => MWild m
  end.

(** ffi.c 302-362, the primitive types *)
Definition marshal_prim (pr : prim) (v : value) (m : mem) (p : Z) : mres :=
  match pr with
  | PVoid => MOk m p
  | PU8 | PS8 => put_int (get_long_int v) 1 m p
  | PU16 | PS16 => put_int (get_long_int v) 2 m p
  | PU32 | PS32 => put_int (get_long_int v) 4 m p
  | PU64 | PS64 => put_int (get_long_int v) 8 m p
  | PPointer =>
      match v with
      | VStr a => put_int (Some a) 8 m p
      | _ => put_int (get_long_uint v) 8 m p
      end
  | PDouble =>
      match v with
      | VFlt b => put_int (Some b) 8 m p
      | _ => MWild m
      end
  | PFloat | PLongdouble => MWild m
  end.

(** ffi.c 371-396, the loop over the elements of a structure: a vector is
    indexed without looking at its length, a list is walked. *)
Fixpoint marshal_elts (rec : nat -> value -> mem -> Z -> mres)
  (ids : list nat) (i : nat) (v : value) (m : mem) (p : Z) : mres :=
  match ids with
  | [] => MOk m p
  | id :: rest =>
      match v with
      | VVec l =>
          match nth_error l i with
          | None => MWild m
          | Some e =>
              match rec id e m p with
              | MOk m' p' => marshal_elts rec rest (S i) v m' p'
              | r => r
              end
          end
      | VCons a d =>
          match rec id a m p with
          | MOk m' p' => marshal_elts rec rest (S i) d m' p'
          | r => r
          end
      | _ => MErr m
      end
  end.

(** Calling a conversion.  The conversion is any function of its argument; it
    is taken not to touch the memory.  None is an error, as is calling nil. *)
Definition conv (call : Z -> value -> option value) (f : option Z) (v : value)
  : option value :=
  match f with
  | Some f => call f v
  | None => None
  end.

(** ffi.c 292-416 rep_ffi_marshal.  Ids of elements and bases are smaller than
    the id of the type, so [fuel] = the id + 1 suffices. *)
Fixpoint marshal_n (call : Z -> value -> option value) (tab : table)
  (fuel : nat) (id : nat) (v : value) (m : mem) (p : Z) : mres :=
  match fuel with
  | O => MWild m
  | S k =>
      match nth_error tab id with
      | None => MWild m
      | Some t =>
          match f_kind t with
          | KPrim pr => marshal_prim pr v m p
          | KStruct ids => marshal_elts (marshal_n call tab k) ids 0 v m p
          | KAlias base _ cin _ =>
              match conv call cin v with
              | None => MErr m
              | Some v' => marshal_n call tab k base v' m p
              end
          end
      end
  end.
Definition marshal call tab id v m p := marshal_n call tab (S id) id v m p.

(** What rep_ffi_demarshal does; the memory is in the result since reading an
    alias writes to it. *)
Inductive dres :=
| DOk (v : value) (m : mem) (p : Z)
| DErr (m : mem)
| DWild (m : mem).

(** ffi.c 427-488, the primitive types.  rep_make_long_int and
    rep_make_long_uint (numbers.c 535-566) keep the number;
    rep_make_longlong_int takes a signed argument. *)
Definition demarshal_prim (pr : prim) (m : mem) (p : Z) : dres :=
  match pr with
  | PVoid => DOk VUndef m p
  | PU8 => DOk (VInt (load m p 1)) m (p + 1)
  | PS8 => DOk (VInt (load_signed m p 1)) m (p + 1)
  | PU16 => DOk (VInt (load m p 2)) m (p + 2)
  | PS16 => DOk (VInt (load_signed m p 2)) m (p + 2)
  | PU32 => DOk (VInt (load m p 4)) m (p + 4)
  | PS32 => DOk (VInt (load_signed m p 4)) m (p + 4)
  | PU64 => DOk (VInt (to_long (load m p 8))) m (p + 8)
  | PS64 => DOk (VInt (load_signed m p 8)) m (p + 8)
  | PPointer => DOk (VInt (load m p 8)) m (p + 8)
  | PDouble => DOk (VFlt (load m p 8)) m (p + 8)
  | PFloat | PLongdouble => DWild m
  end.

(** ffi.c 495-511, the loop over the elements. *)
Fixpoint demarshal_elts (rec : nat -> mem -> Z -> dres)
  (ids : list nat) (acc : list value) (m : mem) (p : Z) : dres :=
  match ids with
  | [] => DOk (VVec (rev acc)) m p
  | id :: rest =>
      match rec id m p with
      | DOk v m' p' => demarshal_elts rec rest (v :: acc) m' p'
      | r => r
      end
  end.

(** ffi.c 418-535 rep_ffi_demarshal.  [junk] is what the place for the value
    held before: nothing initialises it (ffi.c 834, values.c 595-608).  Reading
    an alias calls rep_ffi_marshal on it. *)
Fixpoint demarshal_n (call : Z -> value -> option value) (junk : value) (tab : table)
  (fuel : nat) (id : nat) (m : mem) (p : Z) : dres :=
  match fuel with
  | O => DWild m
  | S k =>
      match nth_error tab id with
      | None => DWild m
      | Some t =>
          match f_kind t with
          | KPrim pr => demarshal_prim pr m p
          | KStruct ids => demarshal_elts (demarshal_n call junk tab k) ids [] m p
          | KAlias base _ _ cout =>
              match marshal_n call tab k base junk m p with
              | MWild m' => DWild m'
              | MErr m' => DErr m'
              | MOk m' p' =>
                  match conv call cout junk with
                  | None => DErr m'
                  | Some v => DOk v m' p'
                  end
              end
          end
      end
  end.
Definition demarshal call junk tab id m p := demarshal_n call junk tab (S id) id m p.

(** ** The operations on memory *)

(** ffi.c 758-773 ffi-new: the number of bytes asked for. *)
Definition ffi_new_bytes (tab : table) (id : nat) (count : Z) : option Z :=
  match nth_error tab id with
  | None => None
  | Some t => Some (f_size t * count)
  end.

(** ffi.c 786-807 ffi-address-of; addresses do not wrap around. *)
Fixpoint address_loop (t : ftype) (p : Z) (i : nat) : Z :=
  match i with
  | O => p
  | S k => address_loop t (align p (f_align t) + f_size t) k
  end.
Definition ffi_address_of (tab : table) (id : nat) (p : Z) (i : nat) : option Z :=
  match nth_error tab id with
  | None => None
  | Some t => Some (address_loop t p i)
  end.

(** ffi.c 809-827 ffi-set! *)
Definition ffi_set call (tab : table) (id : nat) (p : Z) (v : value) (m : mem) : mres :=
  match nth_error tab id with
  | None => MErr m
  | Some t => marshal call tab id v m (align p (f_align t))
  end.

(** ffi.c 829-848 ffi-get *)
Definition ffi_get call junk (tab : table) (id : nat) (p : Z) (m : mem) : dres :=
  match nth_error tab id with
  | None => DErr m
  | Some t => demarshal call junk tab id m (align p (f_align t))
  end.

(** ** Interfaces *)

(** ffi.c 627-688 ffi-interface: the room for the arguments. *)
Definition args_step (acc : Z) (e : ftype) : Z :=
  (if 1 <? f_align e then align acc (f_align e) else acc) + f_size e.
Definition args_size (es : list ftype) : Z := fold_left args_step es 0.

(** ffi.c 706-742 ffi-apply, up to the call: the buffer of doubles for the
    arguments, and the addresses handed to ffi_call. *)
Definition buffer_bytes (size : Z) : Z := 8 * (Z.shiftr size 3 + 1).
Inductive ares :=
| AOk (m : mem) (at_ : list Z)
| AErr (m : mem)
| AWild (m : mem).
Fixpoint marshal_args call (tab : table) (ids : list nat) (args : value)
  (m : mem) (p : Z) (at_ : list Z) : ares :=
  match ids with
  | [] => AOk m (rev at_)
  | id :: rest =>
      match args with
      | VCons a d =>
          match marshal call tab id a m p with
          | MOk m' p' => marshal_args call tab rest d m' p' (p :: at_)
          | MErr m' => AErr m'
          | MWild m' => AWild m'
          end
      | _ => AErr m
      end
  end.
