(** Model of rep_value_cmp and the type comparison functions of
    /repo/src/values.c, symbols.c and numbers.c (Lisp [equal]), and of the hash
    functions of /repo/src/tables.c, on finite (non-circular) values. *)
From Coq Require Import ZArith QArith List Bool.
From Verif Require Import Numbers_Model.
Import ListNotations.
Open Scope Z_scope.

(** A Lisp value.  Strings are byte lists.  A symbol is identified by an
    address and has a name.  [VVec true] is a bytecode object (rep_Compiled),
    [VVec false] a vector.  [VObj ty id] is an object of any of the types
    compared by address (rep_ptr_cmp), [ty] its type code.  Floats are not
    modelled. *)
Inductive val :=
| VNum (n : num)
| VStr (s : list Z)
| VSym (addr : Z) (name : list Z)
| VCons (a d : val)
| VVec (compiled : bool) (l : list val)
| VObj (ty id : Z).

(** memcmp on the common length: negative, zero or positive. *)
Fixpoint memcmp (s1 s2 : list Z) : Z :=
  match s1, s2 with
  | a :: s1', b :: s2' => if a =? b then memcmp s1' s2' else if a <? b then -1 else 1
  | _, _ => 0
  end.

(** values.c 325-337 string_cmp; the long difference of lengths is returned as
    a C int. *)
Definition string_cmp (s1 s2 : list Z) : Z :=
  let tem := memcmp s1 s2 in
  if tem =? 0 then wrap32 (Z.of_nat (length s1) - Z.of_nat (length s2)) else tem.

(** values.c 161-173 rep_value_cmp, dispatching to cons_cmp (545-556),
    vector_cmp (632-644), string_cmp, symbol_cmp (symbols.c 128-140),
    number_cmp (numbers.c 817-854), rep_ptr_cmp (412-419).  The address test
    [v1 == v2] is left out for conses, vectors and strings: on finite values
    the comparison below also returns 0 for identical objects. *)
Fixpoint cmp (x y : val) {struct x} : Z :=
  match x, y with
  | VNum a, VNum b => value_cmp a b
  | VStr s, VStr t => string_cmp s t
  | VSym p s, VSym q t => if p =? q then 0 else string_cmp s t
  | VCons a d, VCons a' d' => let rc := cmp a a' in if rc =? 0 then cmp d d' else rc
  | VVec c l, VVec c' l' =>
    if Bool.eqb c c' && Nat.eqb (length l) (length l') then
      (fix loop (l l' : list val) : Z :=
         match l, l' with
         | v :: r, v' :: r' => let rc := cmp v v' in if rc =? 0 then loop r r' else rc
         | _, _ => 0
         end) l l'
    else 1
  | VObj ty i, VObj ty' i' => if (ty =? ty') && (i =? i') then 0 else 1
  | _, _ => 1
  end.

(** lispcmds.c 1540-1552 Fequal *)
Definition equal (x y : val) : bool := cmp x y =? 0.

(** tables.c 61 TRUNC on an unsigned 64-bit word: the low 61 bits *)
Definition trunc (h : Z) : Z := h mod 2 ^ 61.

(** A byte of a string as a (signed) C char *)
Definition schar (b : Z) : Z := if b <? 128 then b else b - 256.

(** tables.c 136-143 hash_string: up to the first NUL byte *)
Fixpoint hash_bytes (s : list Z) (value : Z) : Z :=
  match s with
  | [] => value
  | b :: s' => if b =? 0 then value else hash_bytes s' ((value * 33 + schar b) mod 2 ^ 64)
  end.
Definition hash_string (s : list Z) : Z := wrap int_bits (trunc (hash_bytes s 0)).

Section Hash.
  (** (unsigned long) mpq_get_d (q): conversion of a rational through double,
      numbers.c 586-587; some function of the number. *)
  Variable rat_to_ulong : Q -> Z.

  (** numbers.c 569-600 rep_get_long_uint; mpz_get_ui gives the low word of the
      absolute value. *)
  Definition get_long_uint (n : num) : Z :=
    match n with
    | Fix z => z mod 2 ^ 64
    | Big z => Z.abs z mod 2 ^ 64
    | Rat q => rat_to_ulong q mod 2 ^ 64
    end.

  (** tables.c 203: MIN (n, rep_VECT_LEN (x)); the length is unsigned, so a
      negative [n] converts to a huge number and the whole vector is used. *)
  Definition vec_count (n : Z) (l : list val) : nat :=
    if n <? 0 then length l else Nat.min (Z.to_nat n) (length l).

  (** tables.c 181-228 Fequal_hash; [n] is the C int depth argument (a nil
      argument means 32).  rep_Cons is 0.  In the cons case the sum goes
      through rep_MAKE_INT without TRUNC. *)
  Fixpoint equal_hash (n : Z) (x : val) {struct x} : Z :=
    match x with
    | VCons a d =>
      if 0 <? n then
        let left := equal_hash (Z.quot n 2) a in
        let right := equal_hash (Z.quot n 2) d in
        wrap int_bits (left * 2 + right)
      else 0
    | VVec _ l =>
      (* the loop runs from index min(n,len)-1 down to 0 *)
      wrap int_bits (trunc
        ((fix loop (k : nat) (l : list val) {struct l} : Z :=
            match k, l with
            | S k', v :: l' => (loop k' l' * 33 + equal_hash (Z.quot n 2) v) mod 2 ^ 64
            | _, _ => 0
            end) (vec_count n l) l))
    | VStr s => hash_string s
    | VSym _ name => hash_string name
    | VNum n => wrap int_bits (trunc (get_long_uint n))
    | VObj ty _ => wrap int_bits (ty * 255)
    end.
End Hash.
