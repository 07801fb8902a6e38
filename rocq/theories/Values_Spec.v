(** Structural equality of values, stated without the comparison functions. *)
From Coq Require Import ZArith QArith List.
From Verif Require Import Numbers_Model Numbers_Spec Values_Model.
Import ListNotations.
Open Scope Z_scope.

(** Same shape, same numbers (by value), same strings, symbols of one name. *)
Inductive same_value : val -> val -> Prop :=
| sv_num a b : Qeq (qval a) (qval b) -> same_value (VNum a) (VNum b)
| sv_str s : same_value (VStr s) (VStr s)
| sv_sym p q s : same_value (VSym p s) (VSym q s)
| sv_cons a d a' d' : same_value a a' -> same_value d d' -> same_value (VCons a d) (VCons a' d')
| sv_vec c l l' : Forall2 same_value l l' -> same_value (VVec c l) (VVec c l')
| sv_obj ty i : same_value (VObj ty i) (VObj ty i).

(** [ok P B x]: every number in x satisfies P, strings and names are shorter
    than 2^31, and one symbol address has one name ([B]). *)
Inductive ok (P : num -> Prop) (B : Z -> list Z -> Prop) : val -> Prop :=
| ok_num n : P n -> ok P B (VNum n)
| ok_str s : Z.of_nat (length s) < 2147483648 -> ok P B (VStr s)
| ok_sym p s : B p s -> Z.of_nat (length s) < 2147483648 -> ok P B (VSym p s)
| ok_cons a d : ok P B a -> ok P B d -> ok P B (VCons a d)
| ok_vec c l : Forall (ok P B) l -> ok P B (VVec c l)
| ok_obj ty i : ok P B (VObj ty i).

(** A symbol address has one name. *)
Definition names_fn (B : Z -> list Z -> Prop) : Prop := forall p s t, B p s -> B p t -> s = t.

(** Numbers for which [equal] is exact: a fixnum below 2^30 in size, or a
    number that is not a fixnum. *)
Definition small (n : num) : Prop :=
  match n with Fix z => -1073741824 <= z <= 1073741823 | Big _ => True | Rat q => Qred q = q end.
