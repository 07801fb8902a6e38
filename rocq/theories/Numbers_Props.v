(** C13 integer arithmetic, C14 comparison, C15 division, C16 printing and
    parsing, C17 canonical representation. *)
From Coq Require Import ZArith QArith Qreduction List Bool Lia.
From Verif Require Import Numbers_Model Numbers_Spec Numbers_Proofs.
Import ListNotations.
Open Scope Z_scope.

(** ** C13 *)

Theorem C13_add : forall x y, valid x -> valid y ->
  returns_canonical (number_add x y) (qval x + qval y)%Q.
Proof. exact add_correct. Qed.
Print Assumptions C13_add.

Example C13_add_ex : number_add (Fix 2305843009213693951) (Fix 1) = Ok (Big 2305843009213693952).
Proof. vm_compute. reflexivity. Qed.
Example C13_add_ex2 : number_add (Rat (1 # 2)) (Rat (1 # 2)) = Ok (Fix 1).
Proof. vm_compute. reflexivity. Qed.

Theorem C13_sub : forall x y, valid x -> valid y ->
  returns_canonical (number_sub x y) (qval x - qval y)%Q.
Proof. exact sub_correct. Qed.
Print Assumptions C13_sub.

Example C13_sub_ex : number_sub (Fix (-2305843009213693952)) (Fix 1) = Ok (Big (-2305843009213693953)).
Proof. vm_compute. reflexivity. Qed.

Theorem C13_plus_list : forall l, Forall canonical l ->
  returns_canonical (Fplus l) (qsum (map qval l)).
Proof. exact Fplus_correct. Qed.
Print Assumptions C13_plus_list.

Example C13_plus_list_ex :
  Fplus [Fix 2305843009213693951; Fix 1; Rat (1 # 3); Big (-2305843009213693953)]
  = Ok (Rat (-2 # 3)).
Proof. vm_compute. reflexivity. Qed.

Theorem C13_minus_list : forall a l, valid a -> Forall valid l -> l <> [] ->
  returns_canonical (Fminus a l) (qval a - qsum (map qval l)).
Proof. exact Fminus_correct. Qed.
Print Assumptions C13_minus_list.

Example C13_minus_list_ex :
  Fminus (Fix 5) [Fix 2305843009213693951; Fix 6] = Ok (Fix (-2305843009213693952)).
Proof. vm_compute. reflexivity. Qed.

Theorem C13_neg : forall x, valid x -> returns (number_neg x) (- qval x)%Q.
Proof. exact neg_correct. Qed.
Print Assumptions C13_neg.

Example C13_neg_ex : number_neg (Fix (-2305843009213693952)) = Ok (Big 2305843009213693952).
Proof. vm_compute. reflexivity. Qed.

Theorem C13_inc_dec : forall x, valid x ->
  returns_canonical (plus1 x) (qval x + 1)%Q /\ returns_canonical (sub1 x) (qval x - 1)%Q.
Proof. intros x H. split; [apply plus1_correct, H|apply sub1_correct, H]. Qed.
Print Assumptions C13_inc_dec.

Example C13_inc_dec_ex : plus1 (Fix 2305843009213693951) = Ok (Big 2305843009213693952) /\
  sub1 (Big 2305843009213693952) = Ok (Fix 2305843009213693951).
Proof. vm_compute. auto. Qed.

(** Full statement: the product of any two exact numbers is exact.  It fails
    for fixnums whose product needs more than 64 bits. *)
Theorem C13_mul_refuted : exists x y, valid x /\ valid y /\
  ~ returns (number_mul x y) (qval x * qval y)%Q.
Proof.
  exists (Fix 4294967296), (Fix 4294967296).
  split; [simpl; unfold in_fixnum_range; lia|]. split; [simpl; unfold in_fixnum_range; lia|].
  intros (n & E & _ & V). vm_compute in E. inversion E; subst. vm_compute in V. discriminate.
Qed.
Print Assumptions C13_mul_refuted.

(** What holds: exact whenever an operand is not a fixnum or the product fits;
    missing: the other fixnum products, all of which are wrong (next theorem). *)
Theorem C13_mul_partial : forall x y, valid x -> valid y -> mul_safe x y ->
  returns_canonical (number_mul x y) (qval x * qval y)%Q.
Proof. exact mul_correct. Qed.
Print Assumptions C13_mul_partial.

Example C13_mul_partial_ex : number_mul (Fix 4294967296) (Fix 1073741824) = Ok (Big 4611686018427387904)
  /\ mul_safe (Fix 4294967296) (Fix 1073741824).
Proof. split; [vm_compute; reflexivity|simpl; lia]. Qed.

Theorem C13_mul_overflow_always_wrong : forall a b,
  in_fixnum_range a -> in_fixnum_range b -> ~ mul_safe (Fix a) (Fix b) ->
  exists n, number_mul (Fix a) (Fix b) = Ok n /\ ~ Qeq (qval n) (inject_Z (a * b)).
Proof. exact mul_wrong. Qed.
Print Assumptions C13_mul_overflow_always_wrong.

Example C13_mul_overflow_ex : number_mul (Fix 3000000000) (Fix 4000000000) = Ok (Big (-6446744073709551616)).
Proof. vm_compute. reflexivity. Qed.

Theorem C13_product_list_partial : forall l zl, Forall canonical l -> Forall2 is_int l zl ->
  (forall p r, zl = p ++ r -> -9223372036854775808 <= zprod p < 9223372036854775808) ->
  returns_canonical (Fproduct l) (inject_Z (zprod zl)).
Proof. exact Fproduct_correct. Qed.
Print Assumptions C13_product_list_partial.

Example C13_product_list_ex : Fproduct [Fix 6; Fix (-7); Fix 1000000; Fix 0] = Ok (Fix 0) /\
  Fproduct [Fix 6; Fix (-7); Fix 1000000] = Ok (Fix (-42000000)).
Proof. vm_compute. auto. Qed.

Theorem C13_bitwise : forall x y a b, valid x -> valid y -> is_int x a -> is_int y b ->
  returns_int (number_logior x y) (Z.lor a b) /\
  returns_int (number_logxor x y) (Z.lxor a b) /\
  returns_int (number_logand x y) (Z.land a b) /\
  returns_int (number_lognot x) (Z.lnot a).
Proof.
  intros x y a b Vx Vy Hx Hy.
  split; [apply logior_correct; auto|]. split; [apply logxor_correct; auto|].
  split; [apply logand_correct; auto|apply lognot_correct; auto].
Qed.
Print Assumptions C13_bitwise.

Example C13_bitwise_ex : number_logxor (Big (2 ^ 70 + 5)) (Fix (-1)) = Ok (Big (- 2 ^ 70 - 6)).
Proof. vm_compute. reflexivity. Qed.

Theorem C13_ash_refuted : exists x a s, valid x /\ is_int x a /\ -64 < s < 62 /\
  ~ returns (ash x s) (inject_Z (Z.shiftl a s)).
Proof.
  exists (Fix 8), 8, 61. split; [simpl; unfold in_fixnum_range; lia|].
  split; [left; reflexivity|]. split; [lia|].
  intros (n & E & _ & V). vm_compute in E. inversion E; subst. vm_compute in V. discriminate.
Qed.
Print Assumptions C13_ash_refuted.

(** Missing: left shifts of fixnums by less than 62 whose result needs more than
    64 bits (wrong) and right shifts of fixnums by 64 or more (undefined in C). *)
Theorem C13_ash_partial : forall x a s, valid x -> is_int x a -> ash_safe x s ->
  returns_canonical (ash x s) (inject_Z (Z.shiftl a s)).
Proof. exact ash_correct. Qed.
Print Assumptions C13_ash_partial.

Example C13_ash_partial_ex : ash (Fix (-5)) (-1) = Ok (Fix (-3)) /\ ash (Fix 1) 100 = Ok (Big (2 ^ 100))
  /\ ash_safe (Fix 1) 100 /\ ash_safe (Fix (-5)) (-1).
Proof. split; [vm_compute; reflexivity|]. split; [vm_compute; reflexivity|]. simpl. lia. Qed.

Theorem C13_expt : forall x a e, is_int x a ->
  (0 <= e -> returns_int (expt x e) (a ^ e)) /\
  (e < 0 -> a <> 0 -> returns_canonical (expt x e) (1 / inject_Z (a ^ (- e)))).
Proof.
  intros x a e Hx. split; intros; [apply expt_correct; auto|apply expt_neg_correct; auto].
Qed.
Print Assumptions C13_expt.

Example C13_expt_ex : expt (Fix (-3)) 41 = Ok (Big (-36472996377170786403)) /\
  expt (Fix (-2)) (-3) = Ok (Rat (-1 # 8)).
Proof. vm_compute. auto. Qed.

(** Bytecode arithmetic is the same function. *)
Theorem C13_vm_agrees : forall x y, valid x -> valid y ->
  vm_add x y = number_add x y /\ vm_sub x y = number_sub x y /\ vm_neg x = number_neg x /\
  vm_inc x = plus1 x /\ vm_dec x = sub1 x.
Proof.
  intros x y Vx Vy. repeat split; auto using vm_add_eq, vm_sub_eq, vm_neg_eq, vm_inc_eq, vm_dec_eq.
Qed.
Print Assumptions C13_vm_agrees.

Example C13_vm_agrees_ex : vm_add (Fix 2305843009213693951) (Fix 1) = Ok (Big 2305843009213693952).
Proof. vm_compute. reflexivity. Qed.

(** ** C14 *)

(** Full statement: = < > <= >= hold exactly when each neighbouring pair of
    arguments is so related.  It fails for fixnums far apart. *)
Theorem C14_comparison_refuted : exists a b, in_fixnum_range a /\ in_fixnum_range b /\
  a <> b /\ num_eq (Fix a) (Fix b) [] = true /\ eql (Fix a) (Fix b) = true /\ equal (Fix a) (Fix b) = true.
Proof.
  exists 4294967296, 0. unfold in_fixnum_range. repeat split; try lia; vm_compute; reflexivity.
Qed.
Print Assumptions C14_comparison_refuted.

Theorem C14_order_refuted : exists a b, in_fixnum_range a /\ in_fixnum_range b /\
  a < b /\ ltthan (Fix a) (Fix b) [] = false /\ gtthan (Fix a) (Fix b) [] = true /\
  vm_lt (Fix a) (Fix b) = true /\ vm_gt (Fix a) (Fix b) = false.
Proof.
  exists 0, 3000000000. unfold in_fixnum_range. repeat split; try lia; vm_compute; reflexivity.
Qed.
Print Assumptions C14_order_refuted.

(** The order is not even transitive: 0 < 2^31-1 < 2^32-2 but not 0 < 2^32-2. *)
Theorem C14_transitivity_refuted : exists a b c,
  in_fixnum_range a /\ in_fixnum_range b /\ in_fixnum_range c /\
  ltthan (Fix a) (Fix b) [] = true /\ ltthan (Fix b) (Fix c) [] = true /\
  ltthan (Fix a) (Fix c) [] = false.
Proof.
  exists 0, 2147483647, 4294967294. unfold in_fixnum_range. repeat split; try lia; vm_compute; reflexivity.
Qed.
Print Assumptions C14_transitivity_refuted.

(** Missing: neighbouring fixnums whose difference needs more than 32 bits. *)
Theorem C14_comparison_partial : forall x y l,
  valid x -> Forall valid (y :: l) -> all_safe x (y :: l) ->
  let c R := chain R (qval x) (map qval (y :: l)) in
  (num_eq x y l = true <-> c Qeq) /\
  (gtthan x y l = true <-> c (fun a b => b < a)%Q) /\
  (gethan x y l = true <-> c (fun a b => b <= a)%Q) /\
  (ltthan x y l = true <-> c Qlt) /\
  (lethan x y l = true <-> c Qle).
Proof. exact comparison_chains. Qed.
Print Assumptions C14_comparison_partial.

Example C14_comparison_ex :
  ltthan (Big (- 2 ^ 70)) (Fix (-4)) [Rat (1 # 3); Rat (1 # 2); Fix 7; Big (2 ^ 62)] = true /\
  all_safe (Big (- 2 ^ 70)) [Fix (-4); Rat (1 # 3); Rat (1 # 2); Fix 7; Big (2 ^ 62)] /\
  lethan (Fix 3) (Fix 3) [Fix 2] = false.
Proof. split; [vm_compute; reflexivity|]. split; [simpl; tauto|vm_compute; reflexivity]. Qed.

Theorem C14_equality_partial : forall x y, valid x -> valid y -> cmp_safe x y ->
  (eql x y = true <-> Qeq (qval x) (qval y)) /\ (equal x y = true <-> Qeq (qval x) (qval y)).
Proof. exact eql_correct_q. Qed.
Print Assumptions C14_equality_partial.

Example C14_equality_ex : eql (Big 5) (Fix 5) = true /\ equal (Big 5) (Fix 6) = false.
Proof. vm_compute. auto. Qed.

(** The bytecode instructions order all exact numbers. *)
Theorem C14_vm_comparison : forall x y, valid x -> valid y ->
  (vm_gt x y = true <-> (qval y < qval x)%Q) /\
  (vm_ge x y = true <-> (qval y <= qval x)%Q) /\
  (vm_lt x y = true <-> (qval x < qval y)%Q) /\
  (vm_le x y = true <-> (qval x <= qval y)%Q) /\
  (vm_num_eq x y = true <-> (qval x == qval y)%Q).
Proof. exact vm_cmp_q. Qed.
Print Assumptions C14_vm_comparison.

Example C14_vm_comparison_ex : vm_lt (Fix 0) (Fix 3000000000) = true /\ vm_ge (Rat (7 # 2)) (Fix 4) = false.
Proof. vm_compute. auto. Qed.

Theorem C14_max_min_partial : forall x y a b,
  valid x -> valid y -> is_int x a -> is_int y b -> cmp_safe x y ->
  is_int (number_max x y) (Z.max a b) /\ is_int (number_min x y) (Z.min a b).
Proof. exact max_min_correct. Qed.
Print Assumptions C14_max_min_partial.

Example C14_max_ex : number_max (Fix (-4)) (Big (2 ^ 62)) = Big (2 ^ 62) /\ number_min (Fix 3) (Fix 9) = Fix 3.
Proof. vm_compute. auto. Qed.

Theorem C14_max_refuted : exists a b, in_fixnum_range a /\ in_fixnum_range b /\
  number_max (Fix a) (Fix b) = Fix (Z.min a b) /\ a <> b.
Proof.
  exists 0, 3000000000. unfold in_fixnum_range. repeat split; try lia; vm_compute; reflexivity.
Qed.
Print Assumptions C14_max_refuted.

(** /= of three arguments does not say that neighbours differ. *)
Theorem C14_noteq_refuted : exists x y z, valid x /\ valid y /\ valid z /\
  num_noteq x y [z] = true /\ ~ chain (fun a b => ~ Qeq a b) (qval x) [qval y; qval z].
Proof.
  exists (Fix 1), (Fix 1), (Fix 2). unfold valid, in_fixnum_range. repeat split; try lia.
  simpl. intros [H _]. apply H. reflexivity.
Qed.
Print Assumptions C14_noteq_refuted.

(** ** C15 *)

Theorem C15_remainder : forall x y a b, valid x -> valid y -> is_int x a -> is_int y b ->
  b <> 0 -> returns_int (remainder x y) (Z.rem a b).
Proof. exact remainder_correct. Qed.
Print Assumptions C15_remainder.

Theorem C15_modulo : forall x y a b, valid x -> valid y -> is_int x a -> is_int y b ->
  b <> 0 -> returns_int (modulo x y) (a mod b).
Proof. exact modulo_correct. Qed.
Print Assumptions C15_modulo.

(** Missing: (quotient least-fixnum -1), see the next theorem. *)
Theorem C15_quotient_partial : forall x y a b, valid x -> valid y -> is_int x a -> is_int y b ->
  b <> 0 -> div_safe x y -> returns_int (quotient x y) (Z.quot a b).
Proof. exact quotient_correct. Qed.
Print Assumptions C15_quotient_partial.

(** Hence the division law in user's terms. *)
Theorem C15_division_law_partial : forall x y a b, valid x -> valid y -> is_int x a -> is_int y b ->
  b <> 0 -> div_safe x y ->
  exists q r m, returns_int (quotient x y) q /\ returns_int (remainder x y) r /\
    returns_int (modulo x y) m /\
    a = b * q + r /\ Z.abs r < Z.abs b /\ 0 <= a * r /\
    (exists k, a = b * k + m) /\ Z.abs m < Z.abs b /\ 0 <= b * m.
Proof.
  intros x y a b Vx Vy Hx Hy Hb Hs. exists (Z.quot a b), (Z.rem a b), (a mod b).
  split; [apply quotient_correct; auto|]. split; [apply remainder_correct; auto|].
  split; [apply modulo_correct; auto|].
  split; [apply Z.quot_rem'|]. split; [apply Z.rem_bound_abs; auto|].
  split; [pose proof (Z.rem_sign_mul a b Hb); lia|].
  split; [exists (a / b); apply Z.div_mod; auto|].
  destruct (Z_lt_le_dec b 0) as [L|L].
  - pose proof (Z.mod_neg_bound a b L). split; [lia|nia].
  - pose proof (Z.mod_pos_bound a b). split; [lia|nia].
Qed.
Print Assumptions C15_division_law_partial.

Example C15_ex : quotient (Fix (-7)) (Fix 2) = Ok (Fix (-3)) /\ remainder (Fix (-7)) (Fix 2) = Ok (Fix (-1)) /\
  modulo (Fix (-7)) (Fix 2) = Ok (Fix 1) /\ modulo (Big (2 ^ 80)) (Fix (-7)) = Ok (Fix (-3)).
Proof. vm_compute. auto. Qed.

Theorem C15_quotient_refuted : exists x y a b, valid x /\ valid y /\ is_int x a /\ is_int y b /\ b <> 0 /\
  ~ returns_int (quotient x y) (Z.quot a b).
Proof.
  exists (Fix (-2305843009213693952)), (Fix (-1)), (-2305843009213693952), (-1).
  unfold valid, in_fixnum_range, is_int. repeat split; try lia; auto.
  intros (n & E & _ & [I|I]); vm_compute in E; subst n; discriminate.
Qed.
Print Assumptions C15_quotient_refuted.

(** Exact division of all exact numbers; missing: least fixnum by -1. *)
Theorem C15_divide_partial : forall x y, valid x -> valid y -> ~ Qeq (qval y) 0 -> div_safe x y ->
  returns_canonical (number_div x y) (qval x / qval y)%Q.
Proof. exact div_correct. Qed.
Print Assumptions C15_divide_partial.

Example C15_divide_ex : number_div (Fix 6) (Fix (-4)) = Ok (Rat (-3 # 2)) /\
  number_div (Rat (3 # 2)) (Rat (1 # 2)) = Ok (Fix 3).
Proof. vm_compute. auto. Qed.

Theorem C15_divide_refuted : exists x y, valid x /\ valid y /\ ~ Qeq (qval y) 0 /\
  ~ returns (number_div x y) (qval x / qval y)%Q.
Proof.
  exists (Fix (-2305843009213693952)), (Fix (-1)).
  unfold valid, in_fixnum_range. repeat split; try lia; [intro H; vm_compute in H; discriminate|].
  intros (n & E & _ & V). vm_compute in E. inversion E; subst. vm_compute in V. discriminate.
Qed.
Print Assumptions C15_divide_refuted.

Theorem C15_divide_list_partial : forall l s, valid s -> Forall valid l -> l <> [] ->
  Forall (fun y => ~ Qeq (qval y) 0) l -> Forall (fun y => y <> Fix (-1)) l ->
  returns_canonical (Fdivide s l) (fold_left Qdiv (map qval l) (qval s)).
Proof.
  intros [|a l] s; try congruence. intros.
  apply (foldv_div (a :: l) s (qval s)); auto. reflexivity.
Qed.
Print Assumptions C15_divide_list_partial.

Example C15_divide_list_ex : Fdivide (Fix 60) [Fix 4; Fix 5; Fix 2] = Ok (Rat (3 # 2)).
Proof. vm_compute. reflexivity. Qed.

(** Division by zero is an error of the binary operations ... *)
Theorem C15_div_zero : forall x y, Qeq (qval y) 0 ->
  number_div x y = DivZero /\ remainder x y = DivZero /\ modulo x y = DivZero /\
  (forall a b, is_int x a -> is_int y b -> quotient x y = DivZero).
Proof. exact div_zero_signals. Qed.
Print Assumptions C15_div_zero.

Example C15_div_zero_ex : number_div (Rat (1 # 2)) (Fix 0) = DivZero.
Proof. reflexivity. Qed.

(** ... but kills the process when another argument follows. *)
Theorem C15_div_zero_list_refuted : exists x l, Forall valid (x :: l) /\ Fdivide x l = Crash.
Proof.
  exists (Fix 1), [Fix 0; Fix 2]. split; [|reflexivity].
  repeat constructor; unfold valid, in_fixnum_range; lia.
Qed.
Print Assumptions C15_div_zero_list_refuted.

(** gcd; missing: two fixnums whose gcd is 2^61 (refuted below). *)
Theorem C15_gcd_partial : forall x y a b, valid x -> valid y -> is_int x a -> is_int y b ->
  (x = Fix a -> y = Fix b -> Z.gcd a b <> 2305843009213693952) ->
  returns_int (integer_gcd x y) (Z.gcd a b).
Proof. exact gcd_correct. Qed.
Print Assumptions C15_gcd_partial.

Example C15_gcd_ex : integer_gcd (Fix (-12)) (Fix 18) = Ok (Fix 6) /\ integer_gcd (Big (2 ^ 70)) (Fix 96) = Ok (Big 32).
Proof. vm_compute. auto. Qed.

Theorem C15_gcd_refuted : exists x, valid x /\ integer_gcd x (Fix 0) = Ok x /\ (qval x < 0)%Q.
Proof.
  exists (Fix (-2305843009213693952)). unfold valid, in_fixnum_range.
  repeat split; try lia; vm_compute; reflexivity.
Qed.
Print Assumptions C15_gcd_refuted.

(** ** C16 *)

(** Missing: negative fixnums in radix 8 and 16, and the radices other than
    2, 8, 10 and 16 (both refuted below). *)
Theorem C16_print_parse_partial : forall n z radix,
  valid n -> is_int n z -> (radix = 2 \/ radix = 8 \/ radix = 10 \/ radix = 16) ->
  print_safe n radix ->
  returns_canonical (string_to_number (print_integer n radix) radix) (inject_Z z).
Proof. exact print_parse. Qed.
Print Assumptions C16_print_parse_partial.

Example C16_ex : print_integer (Fix (-1234567890123456789)) 10 =
  [45;49;50;51;52;53;54;55;56;57;48;49;50;51;52;53;54;55;56;57] /\
  string_to_number (print_integer (Big (- 2 ^ 61)) 10) 10 = Ok (Fix (-2305843009213693952)).
Proof. vm_compute. auto. Qed.

(** Every negative fixnum printed in radix 8 or 16 reads back as itself plus 2^64. *)
Theorem C16_negative_hex_refuted : forall z radix,
  in_fixnum_range z -> z < 0 -> radix = 8 \/ radix = 16 ->
  returns_canonical (string_to_number (print_integer (Fix z) radix) radix) (inject_Z (z + 18446744073709551616)).
Proof. exact print_parse_neg_wrong. Qed.
Print Assumptions C16_negative_hex_refuted.

Example C16_negative_hex_ex : string_to_number (print_integer (Fix (-1)) 16) 16 = Ok (Big 18446744073709551615).
Proof. vm_compute. reflexivity. Qed.

Theorem C16_radix_refuted : forall z, in_fixnum_range z ->
  string_to_number (print_integer (Fix z) 36) 36 = Crash.
Proof. exact radix_crash. Qed.
Print Assumptions C16_radix_refuted.

Example C16_radix_ex : print_integer (Fix 35) 36 = [122] /\ string_to_number [122] 36 = Crash.
Proof. vm_compute. auto. Qed.

(** Any digit string in a supported radix denotes its positional value, in
    canonical representation. *)
Theorem C16_parse_value : forall radix ds sgn,
  (radix = 2 \/ radix = 8 \/ radix = 10 \/ radix = 16) -> (sgn = 1 \/ sgn = -1) ->
  ds <> [] -> Forall (fun d => 0 <= d < radix) ds ->
  returns_canonical
    (string_to_number ((if sgn =? 1 then [] else [45]) ++ map digit_char ds) radix)
    (inject_Z (sgn * fold_left (fun v d => v * radix + d) ds 0)).
Proof. exact parse_value. Qed.
Print Assumptions C16_parse_value.

Example C16_parse_value_ex : string_to_number [45; 102; 70] 16 = Ok (Fix (-255)).
Proof. vm_compute. reflexivity. Qed.

(** ** C17 *)

(** Sums, differences, exact products and quotients are canonical: shown by
    [returns_canonical] in the C13 and C15 theorems.  Equal canonical numbers
    are represented alike: *)
Theorem C17_canonical_unique : forall x y, canonical x -> canonical y ->
  Qeq (qval x) (qval y) -> x = y.
Proof. exact canonical_unique. Qed.
Print Assumptions C17_canonical_unique.

Example C17_canonical_ex : canonical (Big (2 ^ 61)) /\ canonical (Rat (3 # 2)) /\ canonical (Fix 3).
Proof. repeat split; try (simpl; unfold in_fixnum_range; lia); discriminate. Qed.

(** Missing from "every arithmetic result is canonical": results that come back
    as small bignums. *)
Theorem C17_canonical_refuted : exists x y z,
  canonical x /\ canonical y /\ canonical z /\
  number_neg x = Ok (Big (-2305843009213693952)) /\
  number_logand x y = Ok (Big 0) /\
  integer_gcd x y = Ok (Big 1) /\
  expt z 3 = Ok (Big 8).
Proof.
  exists (Big 2305843009213693952), (Fix 1), (Fix 2).
  repeat split; try (simpl; unfold in_fixnum_range; lia); vm_compute; reflexivity.
Qed.
Print Assumptions C17_canonical_refuted.

Theorem C17_neg_partial : forall x, canonical x -> x <> Big 2305843009213693952 ->
  returns_canonical (number_neg x) (- qval x)%Q.
Proof. exact neg_canonical. Qed.
Print Assumptions C17_neg_partial.

Example C17_neg_ex : number_neg (Big (2 ^ 61 + 1)) = Ok (Big (- 2 ^ 61 - 1)).
Proof. vm_compute. reflexivity. Qed.

(** Consequence for users of eq: adding and subtracting returns to the same
    (eq) object for integers in fixnum range. *)
Theorem C17_add_sub_fixnum : forall a y, in_fixnum_range a -> valid y ->
  exists s, number_add (Fix a) y = Ok s /\ number_sub s y = Ok (Fix a).
Proof. exact add_sub_fixnum. Qed.
Print Assumptions C17_add_sub_fixnum.

Example C17_add_sub_ex : number_add (Fix 5) (Rat (1 # 3)) = Ok (Rat (16 # 3)) /\
  number_sub (Rat (16 # 3)) (Rat (1 # 3)) = Ok (Fix 5).
Proof. vm_compute. auto. Qed.
