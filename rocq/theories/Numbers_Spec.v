(** What the numeric functions are meant to return, stated on Z and Q only. *)
From Coq Require Import ZArith QArith Qreduction List.
From Verif Require Import Numbers_Model.
Import ListNotations.
Open Scope Z_scope.

(** The rational number a numeric value stands for. *)
Definition qval (n : num) : Q :=
  match n with Fix z => inject_Z z | Big z => inject_Z z | Rat q => q end.

(** [is_int n z]: the value is the exact integer z. *)
Definition is_int (n : num) (z : Z) : Prop := n = Fix z \/ n = Big z.

(** The fixnum range of a 64-bit build, written out. *)
Definition in_fixnum_range (z : Z) : Prop :=
  -2305843009213693952 <= z <= 2305843009213693951.

(** Values that can exist in the program: a fixnum is in range and a rational
    is in lowest terms. Bignums may be any integer. *)
Definition valid (n : num) : Prop :=
  match n with
  | Fix z => in_fixnum_range z
  | Big _ => True
  | Rat q => Qred q = q
  end.

(** Canonical values: no bignum in the fixnum range, no integral rational. *)
Definition canonical (n : num) : Prop :=
  match n with
  | Fix z => in_fixnum_range z
  | Big z => ~ in_fixnum_range z
  | Rat q => Qred q = q /\ Qden q <> 1%positive
  end.

(** The call returned a valid number equal to [q]. *)
Definition returns (r : res) (q : Q) : Prop :=
  exists n, r = Ok n /\ valid n /\ Qeq (qval n) q.

(** The call returned the exact integer [z]. *)
Definition returns_int (r : res) (z : Z) : Prop :=
  exists n, r = Ok n /\ valid n /\ is_int n z.

(** ... in canonical representation. *)
Definition returns_canonical (r : res) (q : Q) : Prop :=
  exists n, r = Ok n /\ canonical n /\ Qeq (qval n) q.

(** Pairwise relation between neighbours in an argument list. *)
Fixpoint chain (R : Q -> Q -> Prop) (a : Q) (l : list Q) : Prop :=
  match l with [] => True | b :: l' => R a b /\ chain R b l' end.

(** Sums and products of argument lists. *)
Definition qsum (l : list Q) : Q := fold_left Qplus l 0%Q.
Definition qprod (l : list Q) : Q := fold_left Qmult l 1%Q.
Definition zprod (l : list Z) : Z := fold_left Z.mul l 1.

(** The product of two fixnums fits in 64 bits (no condition when one of the
    operands is not a fixnum). *)
Definition mul_safe (x y : num) : Prop :=
  match x, y with
  | Fix a, Fix b => -9223372036854775808 <= a * b < 9223372036854775808
  | _, _ => True
  end.

(** The difference of two fixnums fits in 32 bits. *)
Definition cmp_safe (x y : num) : Prop :=
  match x, y with
  | Fix a, Fix b => -2147483648 <= a - b < 2147483648
  | _, _ => True
  end.

(** ... for all neighbours in an argument list. *)
Fixpoint all_safe (a : num) (l : list num) : Prop :=
  match l with [] => True | b :: l' => cmp_safe a b /\ all_safe b l' end.

(** Not the division of the least fixnum by the fixnum -1. *)
Definition div_safe (x y : num) : Prop :=
  ~ (x = Fix (-2305843009213693952) /\ y = Fix (-1)).

(** Shifts of fixnums: the exact left shift fits in 64 bits, and a right shift
    is by fewer than 64 places. *)
Definition ash_safe (x : num) (s : Z) : Prop :=
  match x with
  | Fix a => -64 < s /\ (0 < s < 62 -> -9223372036854775808 <= a * 2 ^ s < 9223372036854775808)
  | _ => True
  end.

(** Negative fixnums in radix 8 and 16 are excluded. *)
Definition print_safe (n : num) (radix : Z) : Prop :=
  match n with
  | Fix z => (radix = 8 \/ radix = 16) -> 0 <= z
  | _ => True
  end.
