(** C81: rounding, parts of rationals, abs, lcm and parity (src/numbers.c,
    lisp/rep/lang/math.jl). *)
From Coq Require Import ZArith QArith List Bool Lia.
From Verif Require Import Numbers_Model Numbers_Spec Numbers_Proofs Rounding_Model Rounding_Spec Rounding_Proofs.
Import ListNotations.
Open Scope Z_scope.

(** Integers are returned as they are *)
Theorem C81_integers : forall x z, is_int x z ->
  floor x = Ok x /\ ceiling x = Ok x /\ truncate x = Ok x /\ round x = Ok x.
Proof. intros x z [-> | ->]; repeat split. Qed.
Print Assumptions C81_integers.

(** Rationals between 0 and 2^53 have the right floor, and those down to -2^52
    whose numerator is no greater.  Missing: other negative and greater ones. *)
Theorem C81_floor_partial : forall q, below q (2 ^ 53) -> (0 <= Qnum q \/ small q (2 ^ 52) (2 ^ 1000)) ->
  exists z, is_floor q z /\ gives (floor (Rat q)) z.
Proof. intros q B C. exists (Qnum q / Zpos (Qden q)). split; [apply floor_div; reflexivity|exact (floor_ok q B C)]. Qed.
Print Assumptions C81_floor_partial.

Theorem C81_ceiling_partial : forall q, below q (2 ^ 53) -> (Qnum q <= 0 \/ small q (2 ^ 52) (2 ^ 1000)) ->
  exists z, is_ceiling q z /\ gives (ceiling (Rat q)) z.
Proof. intros q B C. exists (- (- Qnum q / Zpos (Qden q))). split; [apply ceiling_div; reflexivity|exact (ceiling_ok q B C)]. Qed.
Print Assumptions C81_ceiling_partial.

Theorem C81_truncate_partial : forall q, below q (2 ^ 53) ->
  exists z, is_truncation q z /\ gives (truncate (Rat q)) z.
Proof. intros q B. exists (Z.quot (Qnum q) (Zpos (Qden q))). split; [apply trunc_spec|exact (truncate_ok q B)]. Qed.
Print Assumptions C81_truncate_partial.

(** Missing: numerators and denominators above 2^50 *)
Theorem C81_round_partial : forall q, small q (2 ^ 50) (2 ^ 50) ->
  exists z, is_nearest q z /\ gives (round (Rat q)) z.
Proof. exact round_ok. Qed.
Print Assumptions C81_round_partial.

(** What is meant is one number *)
Theorem C81_unique : forall q a b,
  (is_floor q a -> is_floor q b -> a = b) /\ (is_ceiling q a -> is_ceiling q b -> a = b) /\
  (is_truncation q a -> is_truncation q b -> a = b) /\ (is_nearest q a -> is_nearest q b -> a = b).
Proof.
  intros q a b. split; [|split; [|split]].
  - rewrite !floor_div. congruence.
  - rewrite !ceiling_div. congruence.
  - intros [A1 A2] [B1 B2]. destruct (Qlt_le_dec q 0) as [N|N].
    + apply Qlt_le_weak in N. specialize (A2 N). specialize (B2 N). rewrite ceiling_div in A2, B2. congruence.
    + specialize (A1 N). specialize (B1 N). rewrite floor_div in A1, B1. congruence.
  - unfold is_nearest, Qlt, Qeq, Qminus, Qplus, Qopp, inject_Z. cbn [Qnum Qden]. change (Zpos (1 * 2)) with 2. set (n := Qnum q). set (d := Zpos (Qden q)).
    assert (D : 0 < d) by reflexivity. clearbody n d.
    assert (LT : forall x y, x * d < y * d -> x < y) by (intros x y L; nia). assert (EQ : forall x y, x * d = y * d -> x = y) by (intros x y L; nia).
    intros [[A1 A2]|[A [s S]]] [[B1 B2]|[B [t T]]].
    + assert (X := LT _ _ (Z.lt_trans _ _ _ A1 B2)). assert (Y := LT _ _ (Z.lt_trans _ _ _ B1 A2)). lia.
    + exfalso. destruct B as [B|B]; rewrite B in A1, A2; apply LT in A1, A2; lia.
    + exfalso. destruct A as [A|A]; rewrite A in B1, B2; apply LT in B1, B2; lia.
    + destruct A as [A|A], B as [B|B]; rewrite A in B; apply EQ in B; lia.
Qed.
Print Assumptions C81_unique.

Example C81_rounding_ex :
  floor (Rat (-7 # 2)) = Ok (Fix (-4)) /\ ceiling (Rat (-7 # 2)) = Ok (Fix (-3)) /\ truncate (Rat (-7 # 2)) = Ok (Fix (-3)) /\
  round (Rat (-7 # 2)) = Ok (Fix (-4)) /\ round (Rat (5 # 2)) = Ok (Fix 2) /\ round (Rat (2 # 3)) = Ok (Fix 1) /\
  small (-7 # 2) (2 ^ 50) (2 ^ 50) /\ below (-7 # 2) (2 ^ 53).
Proof. repeat split; try (vm_compute; reflexivity); vm_compute; discriminate. Qed.

(** The floor of -(2^60+1)/2^60 is -2; floor gives -1 *)
Theorem C81_floor_refuted : exists q, valid (Rat q) /\ below q 2 /\
  exists n, floor (Rat q) = Ok n /\ forall z, is_int n z -> ~ is_floor q z.
Proof.
  exists (-1152921504606846977 # 1152921504606846976). split; [vm_compute; reflexivity|]. split; [vm_compute; reflexivity|].
  exists (Fix (-1)). split; [vm_compute; reflexivity|]. intros z [E|E] F; [|discriminate]. injection E as <-. apply floor_div in F. vm_compute in F. discriminate.
Qed.
Print Assumptions C81_floor_refuted.

(** Above 2^63 the conversion to a long has no result that C defines *)
Theorem C81_floor_great_refuted : exists q, valid (Rat q) /\ floor (Rat q) = Undef /\ round (Rat q) = Undef.
Proof. exists (1180591620717411303425 # 3). repeat split; vm_compute; reflexivity. Qed.
Print Assumptions C81_floor_great_refuted.

(** 2^52+1+1/3 is rounded to 2^52+2 *)
Theorem C81_round_refuted : exists q, valid (Rat q) /\ below q (2 ^ 53) /\
  exists n, round (Rat q) = Ok n /\ forall z, is_int n z -> ~ is_nearest q z.
Proof.
  exists (13510798882111492 # 3). split; [vm_compute; reflexivity|]. split; [vm_compute; reflexivity|].
  exists (Fix 4503599627370498). split; [vm_compute; reflexivity|]. intros z [E|E] F; [|discriminate]. injection E as <-.
  destruct F as [[F _]|[[F|F] _]]; vm_compute in F; discriminate.
Qed.
Print Assumptions C81_round_refuted.

(** The numerator and denominator of a rational are its parts in lowest terms *)
Theorem C81_parts : forall q, valid (Rat q) -> exists n d a b,
  numerator (Rat q) = Exact n /\ denominator (Rat q) = Exact d /\ canonical n /\ canonical d /\
  is_int n a /\ is_int d b /\ 0 < b /\ Z.gcd a b = 1 /\ (q == inject_Z a / inject_Z b)%Q.
Proof.
  intros q V. exists (maybe_demote (Big (Qnum q))), (maybe_demote (Big (Zpos (Qden q)))), (Qnum q), (Zpos (Qden q)).
  split; [reflexivity|]. split; [reflexivity|]. split; [apply demote_big|]. split; [apply demote_big|]. split; [apply demote_big|]. split; [apply demote_big|].
  split; [reflexivity|]. split.
  - cbn in V. destruct q as [n d]. unfold Qred in V. cbn [Qnum Qden]. destruct (Z.ggcd n (Zpos d)) as [g [nn dd]] eqn:G.
    assert (G1 := Z.ggcd_gcd n (Zpos d)). assert (G2 := Z.ggcd_correct_divisors n (Zpos d)). rewrite G in G1, G2. cbn in G1, G2. destruct G2 as [E1 E2].
    cbn in V. injection V as V1 V2. assert (P := Z.gcd_nonneg n (Zpos d)).
    assert (DD : 0 < dd). { destruct dd as [|p|p]; lia. }
    assert (dd = Zpos d). { rewrite <- V2. symmetry. apply Z2Pos.id. exact DD. }
    subst g. clear V1 V2 G. rewrite H in E2. set (k := Z.gcd n (Zpos d)) in *. clearbody k. nia.
  - destruct q as [n d]. cbn [Qnum Qden]. unfold Qeq, Qdiv, Qmult, Qinv, inject_Z. cbn. lia.
Qed.
Print Assumptions C81_parts.

Example C81_parts_ex : numerator (Rat (-6 # 35)) = Exact (Fix (-6)) /\ denominator (Rat (-6 # 35)) = Exact (Fix 35).
Proof. split; reflexivity. Qed.

(** An integer is a rational too, but numerator takes a fixnum for the address
    of a cell *)
Theorem C81_numerator_fixnum_refuted : exists x, valid x /\ is_int x 3 /\ numerator x = Dies /\ denominator x = Dies.
Proof. exists (Fix 3). repeat split; try (vm_compute; discriminate). left. reflexivity. Qed.
Print Assumptions C81_numerator_fixnum_refuted.
(** The numerator of 2^70 is 1, and its denominator a fraction *)
Theorem C81_numerator_bignum_refuted : exists x, canonical x /\ is_int x (2 ^ 70) /\ numerator x = Exact (Fix 1) /\ denominator x = Float.
Proof.
  exists (Big (2 ^ 70)). split; [intros [_ A]; vm_compute in A; apply A; reflexivity|]. split; [right; reflexivity|]. split; vm_compute; reflexivity.
Qed.
Print Assumptions C81_numerator_bignum_refuted.

(** abs; missing: fixnums from 2^30 on *)
Theorem C81_abs_partial : forall x a, valid x -> is_int x a -> abs_safe x -> returns_int (abs x) (Z.abs a).
Proof. intros x a V I S. destruct (abs_int x a V I S) as (y & E & V' & I' & _). exists y. auto. Qed.
Print Assumptions C81_abs_partial.
Theorem C81_abs_rational : forall q, valid (Rat q) -> exists n, abs (Rat q) = Ok n /\ (qval n == q \/ qval n == - q)%Q /\ (0 <= qval n)%Q.
Proof. exact abs_rat. Qed.
Print Assumptions C81_abs_rational.
Example C81_abs_ex : abs (Fix (-5)) = Ok (Fix 5) /\ abs_safe (Fix (-5)) /\ abs (Big (- 2 ^ 80)) = Ok (Big (2 ^ 80)).
Proof. repeat split; vm_compute; reflexivity. Qed.
Theorem C81_abs_refuted : exists x, valid x /\ abs x = Ok x /\ (qval x < 0)%Q.
Proof. exists (Fix (-2147483648)). repeat split; vm_compute; (reflexivity || discriminate). Qed.
Print Assumptions C81_abs_refuted.

(** lcm of two integers, not both 0; missing: fixnums from 2^30 on, and any
    other number of arguments *)
Theorem C81_lcm_partial : forall x y a b, valid x -> valid y -> is_int x a -> is_int y b -> abs_safe x -> abs_safe y ->
  a <> 0 \/ b <> 0 -> returns_int (lcm [x; y]) (Z.lcm a b).
Proof. exact lcm_two. Qed.
Print Assumptions C81_lcm_partial.
Example C81_lcm_ex : lcm [Fix (-4); Fix 6] = Ok (Fix 12) /\ lcm [Fix 0; Fix 6] = Ok (Fix 0) /\ lcm [Big (2 ^ 70); Fix 96] = Ok (Big (3 * 2 ^ 70)).
Proof. repeat split; vm_compute; reflexivity. Qed.
(** (lcm 5) is 1, (lcm 2 3 4) is 24, (lcm 0 0) an error *)
Theorem C81_lcm_one_refuted : exists a, 1 < a /\ lcm [Fix a] = Ok (Fix 1).
Proof. exists 5. split; [lia|vm_compute; reflexivity]. Qed.
Print Assumptions C81_lcm_one_refuted.
Theorem C81_lcm_three_refuted : exists a b c n, lcm [Fix a; Fix b; Fix c] = Ok (Fix n) /\ n <> Z.lcm a (Z.lcm b c).
Proof. exists 2, 3, 4, 24. split; [vm_compute; reflexivity|vm_compute; discriminate]. Qed.
Print Assumptions C81_lcm_three_refuted.
Theorem C81_lcm_zero_refuted : exists x y, valid x /\ valid y /\ lcm [x; y] = DivZero.
Proof. exists (Fix 0), (Fix 0). repeat split; vm_compute; (reflexivity || discriminate). Qed.
Print Assumptions C81_lcm_zero_refuted.

(** Every integer is even or odd, and which *)
Theorem C81_parity : forall x a, valid x -> is_int x a -> evenp x = Some (Z.even a) /\ oddp x = Some (Z.odd a).
Proof.
  intros x a V I. assert (E := evenp_ok x a V I). split; [exact E|]. unfold oddp. rewrite E, <- Z.negb_even. reflexivity.
Qed.
Print Assumptions C81_parity.
