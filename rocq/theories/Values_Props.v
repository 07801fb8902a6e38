(** Equality of values and the hash functions: the theorems. *)
From Coq Require Import ZArith QArith List Bool Lia ZifyBool.
From Verif Require Import Numbers_Model Numbers_Spec Numbers_Proofs Values_Model Values_Spec Values_Proofs.
Import ListNotations.
Open Scope Z_scope.

(** The cases of the examples: (list 1 "ab" 'x) with two interned copies, and
    the symbols' names. *)
Definition ex_names (p : Z) (s : list Z) : Prop := s = [120].
Definition ex_list (p : Z) : val :=
  VCons (VNum (Fix 1)) (VCons (VStr [97; 98]) (VVec false [VSym p [120]; VNum (Big (2 ^ 70))])).

Theorem C31_equal_reflexive : forall x, equal x x = true.
Proof. intros x. unfold equal. rewrite cmp_refl. reflexivity. Qed.
Print Assumptions C31_equal_reflexive.

Theorem C31_equal_symmetric : forall x y, equal x y = equal y x.
Proof.
  intros x y. unfold equal. pose proof (cmp_sym x y). pose proof (cmp_sym y x).
  destruct (cmp x y =? 0) eqn:E1, (cmp y x =? 0) eqn:E2; auto; lia.
Qed.
Print Assumptions C31_equal_symmetric.
Example C31_equal_symmetric_case : equal (ex_list 1) (ex_list 2) = true /\ ex_list 1 <> ex_list 2.
Proof. split; [reflexivity|discriminate]. Qed.

(** Full claim: transitive on all values.  Missing: non-canonical numbers
    (refuted below) and strings of 2 GB or more (refuted below). *)
Theorem C31_equal_transitive_partial : forall B x y z, names_fn B ->
  ok canonical B x -> ok canonical B y -> ok canonical B z ->
  equal x y = true -> equal y z = true -> equal x z = true.
Proof.
  intros B x y z HB Ox Oy Oz H1 H2. unfold equal in *.
  rewrite (cmp_trans canonical B HB num_trans_canonical x y z); auto; lia.
Qed.
Print Assumptions C31_equal_transitive_partial.
Example C31_equal_transitive_case :
  names_fn ex_names /\ (forall p, ok canonical ex_names (ex_list p)) /\
  equal (ex_list 1) (ex_list 2) = true /\ equal (ex_list 2) (ex_list 3) = true.
Proof.
  split; [|split; [|split; reflexivity]].
  - unfold names_fn, ex_names. congruence.
  - intros p. repeat constructor; vm_compute; intuition discriminate.
Qed.

(** (equal 0 2^32) and (equal 2^32 (expt 2 32)) are true, (equal 0 (expt 2 32))
    is false; all three are ordinary results of the number functions. *)
Theorem C31_equal_transitive_refuted : exists x y z,
  equal x y = true /\ equal y z = true /\ equal x z = false.
Proof. exists (VNum (Fix 0)), (VNum (Fix (2 ^ 32))), (VNum (Big (2 ^ 32))). vm_compute. auto. Qed.
Print Assumptions C31_equal_transitive_refuted.

(** Equal values have the same shape and contents, and conversely.  Full claim:
    for all values.  Missing: fixnums of 2^30 or more in size. *)
Theorem C31_equal_exact_partial : forall B x y, names_fn B ->
  ok (fun n => canonical n /\ small n) B x -> ok (fun n => canonical n /\ small n) B y ->
  (equal x y = true <-> same_value x y).
Proof.
  intros B x y HB Ox Oy. unfold equal. split; intros H.
  - apply (cmp_exact (fun n => canonical n /\ small n) B HB); auto; [|lia].
    intros a b [_ Ha] [_ Hb] Hc. apply num_exact_small; auto.
  - assert (cmp x y = 0); [|lia].
    apply (same_value_cmp B); auto; eapply ok_mono; [|intros ? ? X; exact X|eassumption| |intros ? ? X; exact X|eassumption];
      simpl; tauto.
Qed.
Print Assumptions C31_equal_exact_partial.
Example C31_equal_exact_case : forall p, ok (fun n => canonical n /\ small n) ex_names (ex_list p).
Proof. intros p. repeat constructor; vm_compute; intuition discriminate. Qed.

(** The empty string is [equal] to a string of 2^32 bytes. *)
Theorem C31_equal_string_refuted : exists s t, s <> t /\ equal (VStr s) (VStr t) = true.
Proof.
  exists [], (repeat 0 (Z.to_nat (2 ^ 32))). split.
  - intros E. apply (f_equal (fun l => Z.of_nat (length l))) in E.
    rewrite repeat_length, Z2Nat.id in E by (vm_compute; discriminate). discriminate E.
  - unfold equal. cbn [cmp]. rewrite string_cmp_empty_huge. reflexivity.
Qed.
Print Assumptions C31_equal_string_refuted.

(** Values with the same structure have the same hash at every depth. *)
Theorem C03_same_value_hash : forall rat x y n, same_value x y ->
  ok canonical (fun _ _ => True) x -> ok canonical (fun _ _ => True) y ->
  equal_hash rat n x = equal_hash rat n y.
Proof. intros. apply same_value_hash; auto. Qed.
Print Assumptions C03_same_value_hash.

(** Full claim: (equal x y) implies equal hashes.  Missing: fixnums of 2^30 or
    more in size, and non-canonical numbers (both refuted below). *)
Theorem C03_equal_hash_partial : forall rat B x y n, names_fn B ->
  ok (fun n => canonical n /\ small n) B x -> ok (fun n => canonical n /\ small n) B y ->
  equal x y = true -> equal_hash rat n x = equal_hash rat n y.
Proof.
  intros rat B x y n HB Ox Oy H. apply C03_same_value_hash.
  - apply (C31_equal_exact_partial B); auto.
  - eapply ok_mono; [| |exact Ox]; simpl; tauto.
  - eapply ok_mono; [| |exact Oy]; simpl; tauto.
Qed.
Print Assumptions C03_equal_hash_partial.
Example C03_equal_hash_case : equal (ex_list 1) (ex_list 2) = true /\
  equal_hash (fun _ => 0) 32 (ex_list 1) = 6720 /\
  equal_hash (fun _ => 0) 32 (VCons (VNum (Fix 1)) (VNum (Fix 5))) <>
  equal_hash (fun _ => 0) 32 (VCons (VNum (Fix 5)) (VNum (Fix 1))).
Proof. repeat split; vm_compute; congruence. Qed.

(** Two fixnums, and a fixnum and the integer result of (expt -2 3), that are
    [equal] with different hashes. *)
Theorem C03_equal_hash_refuted : exists a b c d,
  (equal (VNum a) (VNum b) = true /\ canonical a /\ canonical b /\
   forall rat n, equal_hash rat n (VNum a) <> equal_hash rat n (VNum b)) /\
  (equal (VNum c) (VNum d) = true /\ qval c = qval d /\
   forall rat n, equal_hash rat n (VNum c) <> equal_hash rat n (VNum d)).
Proof.
  exists (Fix 0), (Fix (2 ^ 32)), (Fix (-8)), (Big (-8)).
  repeat split; try (vm_compute; congruence); intros rat n; vm_compute; discriminate.
Qed.
Print Assumptions C03_equal_hash_refuted.

(** The hash is a fixnum, so it is a legal result of the hash function of a
    table. *)
Theorem C03_hash_is_fixnum : forall rat n x, in_fixnum_range (equal_hash rat n x).
Proof.
  intros rat n x. pose proof (equal_hash_range rat x n) as H.
  change (2 ^ 61) with 2305843009213693952 in H. unfold in_fixnum_range. lia.
Qed.
Print Assumptions C03_hash_is_fixnum.

(** The documentation says positive; on conses it can be negative. *)
Theorem C03_hash_positive_refuted : exists x, forall rat, equal_hash rat 32 x < 0.
Proof. exists (VCons (VNum (Fix (2 ^ 60 - 1))) (VNum (Fix 10))). intros rat. vm_compute. reflexivity. Qed.
Print Assumptions C03_hash_positive_refuted.
