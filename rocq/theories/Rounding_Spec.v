(** Rounding as in mathematics. *)
From Coq Require Import ZArith QArith List.
From Verif Require Import Numbers_Model Numbers_Spec.
Import ListNotations.
Open Scope Z_scope.

Definition is_floor (q : Q) (z : Z) : Prop := (inject_Z z <= q /\ q < inject_Z (z + 1))%Q.
Definition is_ceiling (q : Q) (z : Z) : Prop := (inject_Z (z - 1) < q /\ q <= inject_Z z)%Q.
Definition is_truncation (q : Q) (z : Z) : Prop :=
  ((0 <= q)%Q -> is_floor q z) /\ ((q <= 0)%Q -> is_ceiling q z).
(** Less than one half away; or one half and even *)
Definition is_nearest (q : Q) (z : Z) : Prop :=
  (inject_Z z - (1 # 2) < q /\ q < inject_Z z + (1 # 2))%Q \/
  ((q == inject_Z z - (1 # 2) \/ q == inject_Z z + (1 # 2))%Q /\ Z.Even z).

(** Numerator and denominator of at most so much *)
Definition small (q : Q) (n d : Z) : Prop := Z.abs (Qnum q) <= n /\ Zpos (Qden q) <= d.
(** The absolute value of a number *)
Definition below (q : Q) (b : Z) : Prop := Z.abs (Qnum q) < b * Zpos (Qden q).

(** Fixnums whose double has 32 bits *)
Definition abs_safe (x : num) : Prop :=
  match x with Fix a => -1073741824 < a < 1073741824 | _ => True end.

(** The call returned the integer z, as there is only one of it *)
Definition gives (r : res) (z : Z) : Prop := exists n, r = Ok n /\ canonical n /\ is_int n z.
