From Coq Require Import ZArith QArith List Bool Lia ZifyBool.
From Verif Require Import Numbers_Model Numbers_Spec Numbers_Proofs Values_Model Values_Spec.
Import ListNotations.
Open Scope Z_scope.

(** Induction on values through vectors. *)
Section Ind.
  Variable P : val -> Prop.
  Hypothesis Hnum : forall n, P (VNum n).
  Hypothesis Hstr : forall s, P (VStr s).
  Hypothesis Hsym : forall p s, P (VSym p s).
  Hypothesis Hcons : forall a d, P a -> P d -> P (VCons a d).
  Hypothesis Hvec : forall c l, Forall P l -> P (VVec c l).
  Hypothesis Hobj : forall t i, P (VObj t i).
  Fixpoint val_ind' (x : val) : P x :=
    match x with
    | VNum n => Hnum n
    | VStr s => Hstr s
    | VSym p s => Hsym p s
    | VCons a d => Hcons a d (val_ind' a) (val_ind' d)
    | VVec c l => Hvec c l ((fix go l : Forall P l :=
        match l with [] => Forall_nil P | v :: r => Forall_cons v (val_ind' v) (go r) end) l)
    | VObj t i => Hobj t i
    end.
End Ind.

Definition cmp_list : list val -> list val -> Z :=
  fix loop (l l' : list val) : Z :=
    match l, l' with
    | v :: r, v' :: r' => let rc := cmp v v' in if rc =? 0 then loop r r' else rc
    | _, _ => 0
    end.

Lemma cmp_vec : forall c l c' l', cmp (VVec c l) (VVec c' l') =
  if Bool.eqb c c' && Nat.eqb (length l) (length l') then cmp_list l l' else 1.
Proof. reflexivity. Qed.

Lemma cmp_list_0 : forall l l', length l = length l' ->
  (cmp_list l l' = 0 <-> Forall2 (fun a b => cmp a b = 0) l l').
Proof.
  induction l as [|v l IH]; intros [|v' l'] H; simpl in *; try discriminate.
  - split; auto.
  - destruct (cmp v v' =? 0) eqn:E.
    + rewrite IH by lia. split.
      * intros F. constructor; [lia|auto].
      * intros F. inversion F; auto.
    + split; [lia|]. intros F. inversion F; subst. lia.
Qed.

Lemma Forall2_len : forall {A B} (R : A -> B -> Prop) l l', Forall2 R l l' -> length l = length l'.
Proof. induction 1; simpl; auto. Qed.

Lemma cmp_vec_0 : forall c l c' l', cmp (VVec c l) (VVec c' l') = 0 <->
  c = c' /\ Forall2 (fun a b => cmp a b = 0) l l'.
Proof.
  intros c l c' l'. rewrite cmp_vec.
  destruct (Bool.eqb c c') eqn:E1; simpl.
  - apply Bool.eqb_prop in E1. destruct (Nat.eqb (length l) (length l')) eqn:E2.
    + apply Nat.eqb_eq in E2. rewrite cmp_list_0 by auto. tauto.
    + apply Nat.eqb_neq in E2. split; [discriminate|]. intros [_ F]. apply Forall2_len in F. congruence.
  - split; [discriminate|]. intros [-> _]. rewrite Bool.eqb_reflx in E1. discriminate.
Qed.

Lemma cmp_cons_0 : forall a d a' d', cmp (VCons a d) (VCons a' d') = 0 <-> cmp a a' = 0 /\ cmp d d' = 0.
Proof. intros. cbn [cmp]. cbv zeta. destruct (cmp a a' =? 0) eqn:E; lia. Qed.

(** Strings *)
Lemma memcmp_refl : forall s, memcmp s s = 0.
Proof. induction s as [|a s IH]; simpl; auto. rewrite Z.eqb_refl. exact IH. Qed.

Lemma memcmp_0_sym : forall s t, memcmp s t = 0 -> memcmp t s = 0.
Proof.
  induction s as [|a s IH]; intros [|b t] H; simpl in *; auto.
  destruct (a =? b) eqn:E.
  - rewrite Z.eqb_sym, E. auto.
  - destruct (a <? b); discriminate.
Qed.

Lemma memcmp_0_eq : forall s t, memcmp s t = 0 -> length s = length t -> s = t.
Proof.
  induction s as [|a s IH]; intros [|b t] H L; simpl in *; try discriminate; auto.
  destruct (a =? b) eqn:E.
  - f_equal; [lia|]. apply IH; auto.
  - destruct (a <? b); discriminate.
Qed.

Lemma wrap_0_iff : forall bits z, 0 < bits -> (wrap bits z = 0 <-> z mod 2 ^ bits = 0).
Proof.
  intros bits z Hb. unfold wrap.
  assert (P : 0 < 2 ^ (bits - 1)) by (apply Z.pow_pos_nonneg; lia).
  assert (E : 2 ^ bits = 2 * 2 ^ (bits - 1)).
  { replace bits with (Z.succ (bits - 1)) at 1 by lia. rewrite Z.pow_succ_r by lia. reflexivity. }
  split; intros H.
  - assert (X : (z + 2 ^ (bits - 1)) mod 2 ^ bits = 2 ^ (bits - 1)) by lia.
    apply Z.mod_divide; [lia|]. exists ((z + 2 ^ (bits - 1)) / 2 ^ bits).
    pose proof (Z.div_mod (z + 2 ^ (bits - 1)) (2 ^ bits)). lia.
  - rewrite Z.add_mod, H, Z.add_0_l by lia. rewrite Z.mod_mod by lia.
    rewrite Z.mod_small by lia. lia.
Qed.

Lemma string_cmp_refl : forall s, string_cmp s s = 0.
Proof. intros s. unfold string_cmp. rewrite memcmp_refl, Z.sub_diag. reflexivity. Qed.

Lemma string_cmp_sym : forall s t, string_cmp s t = 0 -> string_cmp t s = 0.
Proof.
  unfold string_cmp. intros s t H. cbv zeta in *. destruct (memcmp s t =? 0) eqn:E; [|lia].
  rewrite (memcmp_0_sym s t) by lia. cbn [Z.eqb].
  apply wrap_0_iff in H; [|lia]. apply wrap_0_iff; [lia|].
  replace (Z.of_nat (length t) - Z.of_nat (length s)) with (- (Z.of_nat (length s) - Z.of_nat (length t))) by lia.
  apply Z_mod_zero_opp_full. exact H.
Qed.

Lemma string_cmp_exact : forall s t,
  Z.of_nat (length s) < 2147483648 -> Z.of_nat (length t) < 2147483648 ->
  string_cmp s t = 0 -> s = t.
Proof.
  unfold string_cmp. intros s t Hs Ht H. cbv zeta in *. destruct (memcmp s t =? 0) eqn:E; [|lia].
  rewrite wrap32_id in H by lia. apply memcmp_0_eq; lia.
Qed.

(** Numbers *)
Lemma compare_refl : forall a, compare_numbers a a = 0.
Proof.
  intros [z|z|q]; unfold compare_numbers; cbn.
  - rewrite Z.sub_diag. reflexivity.
  - rewrite Z.compare_refl. reflexivity.
  - destruct (Qcompare_spec q q) as [H|H|H]; auto; exfalso; apply (Qlt_irrefl _ H).
Qed.

Lemma value_cmp_refl : forall a, value_cmp a a = 0.
Proof.
  intros a. unfold value_cmp. destruct (same_fixnum a a); auto. apply compare_refl.
Qed.

Lemma sign_of_0 : forall c, sign_of c = 0 <-> c = Eq.
Proof. intros []; simpl; split; congruence. Qed.

Lemma value_cmp_sym : forall a b, value_cmp a b = 0 -> value_cmp b a = 0.
Proof.
  assert (Zc : forall a b, sign_of (a ?= b) = 0 -> sign_of (b ?= a) = 0).
  { intros a b H. apply sign_of_0 in H. apply Z.compare_eq in H. subst. rewrite Z.compare_refl. reflexivity. }
  assert (Qc : forall a b, sign_of (a ?= b)%Q = 0 -> sign_of (b ?= a)%Q = 0).
  { intros a b H. apply sign_of_0 in H. apply Qeq_alt in H. apply sign_of_0. apply Qeq_alt. symmetry. exact H. }
  intros [a|a|p] [b|b|q]; unfold value_cmp; cbn [same_fixnum];
    try (unfold compare_numbers; cbn; auto; fail).
  destruct (a =? b) eqn:E; [rewrite Z.eqb_sym, E; auto|]. rewrite Z.eqb_sym, E.
  unfold compare_numbers; cbn [promote num_type Nat.ltb Nat.leb].
  intros H. apply wrap_0_iff in H; [|lia]. apply wrap_0_iff; [lia|].
  assert (M : forall z, wrap64 z mod 2 ^ 32 = z mod 2 ^ 32).
  { clear. intros z. unfold wrap64, wrap. rewrite Zminus_mod.
    change (2 ^ (64 - 1)) with (2147483648 * 2 ^ 32). rewrite Z.mod_mul by (vm_compute; discriminate).
    rewrite Z.sub_0_r, Z.mod_mod by (vm_compute; discriminate).
    change (2 ^ 64) with (2 ^ 32 * 2 ^ 32).
    rewrite <- Znumtheory.Zmod_div_mod; [|reflexivity|reflexivity|exists (2 ^ 32); reflexivity].
    rewrite Z.mod_add by (vm_compute; discriminate). reflexivity. }
  rewrite M in *. replace (b - a) with (- (a - b)) by lia. apply Z_mod_zero_opp_full. exact H.
Qed.

(** equal is reflexive and symmetric on all values *)
Lemma cmp_refl : forall x, cmp x x = 0.
Proof.
  induction x using val_ind'.
  - apply value_cmp_refl.
  - apply string_cmp_refl.
  - cbn [cmp]. rewrite Z.eqb_refl. reflexivity.
  - apply cmp_cons_0. auto.
  - apply cmp_vec_0. split; auto. induction H; constructor; auto.
  - cbn [cmp]. rewrite !Z.eqb_refl. reflexivity.
Qed.

Lemma cmp_sym : forall x y, cmp x y = 0 -> cmp y x = 0.
Proof.
  induction x using val_ind'; intros y Hc; destruct y; try discriminate Hc.
  - apply value_cmp_sym, Hc.
  - apply string_cmp_sym, Hc.
  - cbn [cmp] in *. rewrite Z.eqb_sym. destruct (p =? addr); auto using string_cmp_sym.
  - apply cmp_cons_0 in Hc. apply cmp_cons_0. destruct Hc; auto.
  - apply cmp_vec_0 in Hc. apply cmp_vec_0. destruct Hc as [-> F]. split; auto.
    revert l0 F. induction H; intros l0 F; inversion F; subst; constructor; auto.
  - cbn [cmp] in *. rewrite (Z.eqb_sym ty), (Z.eqb_sym id). destruct ((t =? ty) && (i =? id)); auto.
Qed.

(** Transitivity, and exactness, where the number comparison has them. *)
Section Trans.
  Variable P : num -> Prop.
  Variable B : Z -> list Z -> Prop.
  Hypothesis HB : names_fn B.

  Definition num_trans : Prop := forall a b c, P a -> P b -> P c ->
    value_cmp a b = 0 -> value_cmp b c = 0 -> value_cmp a c = 0.
  Definition num_exact : Prop := forall a b, P a -> P b -> value_cmp a b = 0 -> Qeq (qval a) (qval b).

  Lemma ok_vec_inv : forall c l, ok P B (VVec c l) -> Forall (ok P B) l.
  Proof. intros c l H. inversion H; auto. Qed.

  Lemma sym_exact : forall p s q t, ok P B (VSym p s) -> ok P B (VSym q t) ->
    cmp (VSym p s) (VSym q t) = 0 -> s = t.
  Proof.
    intros p s q t H1 H2 H. inversion H1; inversion H2; subst. cbn [cmp] in H.
    destruct (p =? q) eqn:E.
    - assert (p = q) by lia. subst. eapply HB; eauto.
    - apply string_cmp_exact; auto.
  Qed.

  Lemma sym_cmp_name : forall p q s, cmp (VSym p s) (VSym q s) = 0.
  Proof. intros. cbn [cmp]. destruct (p =? q); auto using string_cmp_refl. Qed.

  Lemma cmp_trans : num_trans -> forall x y z, ok P B x -> ok P B y -> ok P B z ->
    cmp x y = 0 -> cmp y z = 0 -> cmp x z = 0.
  Proof.
    intros NT. induction x using val_ind'; intros y z Ox Oy Oz H1 H2;
      destruct y; try discriminate H1; destruct z; try discriminate H2.
    - inversion Ox; inversion Oy; inversion Oz; subst. cbn [cmp] in *. eapply NT; [| | |exact H1|exact H2]; assumption.
    - inversion Ox; inversion Oy; inversion Oz; subst.
      assert (s = s0) by (apply string_cmp_exact; auto).
      assert (s0 = s1) by (apply string_cmp_exact; auto). subst. apply cmp_refl.
    - assert (s = name) by (eapply sym_exact; [exact Ox|exact Oy|exact H1]).
      assert (name = name0) by (eapply sym_exact; [exact Oy|exact Oz|exact H2]). subst.
      apply sym_cmp_name.
    - inversion Ox; inversion Oy; inversion Oz; subst.
      apply cmp_cons_0 in H1. apply cmp_cons_0 in H2. apply cmp_cons_0.
      destruct H1 as [X1 X2], H2 as [Y1 Y2].
      split; [apply (IHx1 y1 z1)|apply (IHx2 y2 z2)]; assumption.
    - apply ok_vec_inv in Ox. apply ok_vec_inv in Oy. apply ok_vec_inv in Oz.
      apply cmp_vec_0 in H1. apply cmp_vec_0 in H2. apply cmp_vec_0.
      destruct H1 as [-> F1], H2 as [-> F2]. split; auto.
      revert l0 l1 Ox Oy Oz F1 F2.
      induction H; intros l0 l1 O1 O2 O3 F1 F2; inversion F1; subst; inversion F2; subst; constructor.
      + inversion O1; inversion O2; inversion O3; subst. eapply H; [| | |eassumption|]; eauto.
      + inversion O1; inversion O2; inversion O3; subst. eapply IHForall; [| | |eassumption|]; eauto.
    - cbn [cmp] in *. destruct ((t =? ty) && (i =? id)) eqn:E1; [|discriminate].
      destruct ((ty =? ty0) && (id =? id0)) eqn:E2; [|discriminate].
      assert (X : (t =? ty0) && (i =? id0) = true) by lia. rewrite X. reflexivity.
  Qed.

  Lemma cmp_exact : num_exact -> forall x y, ok P B x -> ok P B y -> cmp x y = 0 -> same_value x y.
  Proof.
    intros NE. induction x using val_ind'; intros y Ox Oy H1; destruct y; try discriminate H1.
    - inversion Ox; inversion Oy; subst. constructor. auto.
    - inversion Ox; inversion Oy; subst.
      assert (s = s0) by (apply string_cmp_exact; auto). subst. constructor.
    - assert (s = name) by (eapply sym_exact; [exact Ox|exact Oy|exact H1]). subst. constructor.
    - inversion Ox; inversion Oy; subst. apply cmp_cons_0 in H1. destruct H1. constructor; auto.
    - apply ok_vec_inv in Ox. apply ok_vec_inv in Oy.
      apply cmp_vec_0 in H1. destruct H1 as [-> F]. constructor.
      revert l0 Ox Oy F. induction H; intros l0 O1 O2 F; inversion F; subst; constructor.
      + inversion O1; inversion O2; subst; auto.
      + inversion O1; inversion O2; subst; auto.
    - cbn [cmp] in H1. destruct ((t =? ty) && (i =? id)) eqn:E1; [|discriminate].
      assert (t = ty) by lia. assert (i = id) by lia. subst. constructor.
  Qed.
End Trans.

Lemma wrap64_mod32 : forall z, wrap64 z mod 2 ^ 32 = z mod 2 ^ 32.
Proof.
  intros z. unfold wrap64, wrap. rewrite Zminus_mod.
  change (2 ^ (64 - 1)) with (2147483648 * 2 ^ 32). rewrite Z.mod_mul by (vm_compute; discriminate).
  rewrite Z.sub_0_r, Z.mod_mod by (vm_compute; discriminate).
  change (2 ^ 64) with (2 ^ 32 * 2 ^ 32).
  rewrite <- Znumtheory.Zmod_div_mod; [|reflexivity|reflexivity|exists (2 ^ 32); reflexivity].
  rewrite Z.mod_add by (vm_compute; discriminate). reflexivity.
Qed.

(** On fixnums the comparison is equality modulo 2^32. *)
Lemma value_cmp_fix : forall a b, value_cmp (Fix a) (Fix b) = 0 <-> (a - b) mod 2 ^ 32 = 0.
Proof.
  intros a b. unfold value_cmp; cbn [same_fixnum]. destruct (a =? b) eqn:E.
  - assert (a = b) by lia. subst. rewrite Z.sub_diag. split; auto.
  - unfold compare_numbers; cbn [promote num_type Nat.ltb Nat.leb].
    unfold wrap32. rewrite wrap_0_iff by lia. rewrite wrap64_mod32. tauto.
Qed.

Lemma value_cmp_nonfix : forall a b, valid a -> valid b ->
  (forall x y, a = Fix x -> b = Fix y -> False) ->
  (value_cmp a b = 0 <-> Qeq (qval a) (qval b)).
Proof.
  intros a b Va Vb N.
  assert (S : cmp_safe a b) by (destruct a, b; simpl; auto; exfalso; eapply N; reflexivity).
  rewrite <- q_eq. rewrite <- (value_cmp_q a b Va Vb S). lia.
Qed.

Lemma num_trans_canonical : num_trans canonical.
Proof.
  intros a b c Ca Cb Cc H1 H2.
  assert (X : forall x y, canonical x -> canonical y -> value_cmp x y = 0 ->
    (exists i j, x = Fix i /\ y = Fix j) \/ x = y).
  { intros x y Cx Cy H. destruct x as [i|i|p], y as [j|j|q];
      [left; eauto|right|right|right|right|right|right|right|right];
      (apply canonical_unique; auto; apply value_cmp_nonfix; auto using canonical_valid; intros; discriminate). }
  destruct (X a b Ca Cb H1) as [(i & j & -> & ->)| ->]; [|exact H2].
  destruct (X (Fix j) c Cb Cc H2) as [(i' & j' & E & ->)| <-]; [|exact H1].
  inversion E; subst i'. rewrite value_cmp_fix in *.
  replace (i - j') with ((i - j) + (j - j')) by lia.
  rewrite Z.add_mod, H1, H2 by (vm_compute; discriminate). reflexivity.
Qed.

Lemma num_exact_small : num_exact small.
Proof.
  intros a b Sa Sb H.
  assert (V : forall n, small n -> valid n).
  { intros [z|z|q]; simpl; auto. unfold in_fixnum_range. lia. }
  destruct a as [x|x|p], b as [y|y|q];
    try (apply value_cmp_nonfix; auto; intros; discriminate).
  apply value_cmp_fix in H. simpl in Sa, Sb.
  apply Z.mod_divide in H; [|vm_compute; discriminate]. destruct H as [k Hk].
  change (2 ^ 32) with 4294967296 in Hk. assert (k = 0) by lia.
  assert (x = y) by lia. subst. reflexivity.
Qed.

(** ** Hashes *)
Section Hash.
  Variable rat : Q -> Z.
  Notation equal_hash := (equal_hash rat).

  Definition hash_list (n : Z) : nat -> list val -> Z :=
    fix loop (k : nat) (l : list val) {struct l} : Z :=
      match k, l with
      | S k', v :: l' => (loop k' l' * 33 + equal_hash (Z.quot n 2) v) mod 2 ^ 64
      | _, _ => 0
      end.

  Lemma equal_hash_vec : forall n c l, equal_hash n (VVec c l) = wrap int_bits (trunc (hash_list n (vec_count n l) l)).
  Proof. reflexivity. Qed.

  Lemma same_value_hash : forall x y, same_value x y -> ok canonical (fun _ _ => True) x ->
    ok canonical (fun _ _ => True) y -> forall n, equal_hash n x = equal_hash n y.
  Proof.
    induction x using val_ind'; intros y S Ox Oy m; inversion S; subst; cbn [Values_Model.equal_hash]; auto.
    - inversion Ox; inversion Oy; subst. assert (n = b) by (apply canonical_unique; auto). subst. reflexivity.
    - inversion Ox; inversion Oy; subst. destruct (0 <? m); auto.
      rewrite (IHx1 a' H1) by auto. rewrite (IHx2 d' H3) by auto. reflexivity.
    - inversion Ox as [| | | |? ? Hl|]; inversion Oy as [| | | |? ? Hl'|]; subst.
      fold (hash_list m (vec_count m l) l). fold (hash_list m (vec_count m l') l'). do 2 f_equal.
      assert (EC : vec_count m l = vec_count m l') by (unfold vec_count; rewrite (Forall2_len _ _ _ H3); reflexivity).
      rewrite EC. clear EC. revert H3 Hl Hl'. generalize (vec_count m l') as k. intros k H3 Hl Hl'.
      clear S Ox Oy. revert k l' H3 Hl Hl'.
      induction H; intros k l' F O1 O2; inversion F; subst; [reflexivity|].
      inversion O1; inversion O2; subst.
      destruct k as [|k]; [reflexivity|]. cbn [hash_list].
      fold (hash_list m k l). fold (hash_list m k l'0). rewrite (H y) by auto.
      rewrite (IHForall k l'0) by auto. reflexivity.
  Qed.

  Lemma equal_hash_range : forall x n, - 2 ^ 61 <= equal_hash n x < 2 ^ 61.
  Proof.
    assert (W : forall z, - 2 ^ 61 <= wrap int_bits z < 2 ^ 61).
    { intros z. apply (wrap_range int_bits z). reflexivity. }
    assert (Z0 : - 2 ^ 61 <= 0 < 2 ^ 61) by (split; [vm_compute; discriminate|reflexivity]).
    intros [m|s|p s|a d|c l|t i] n; cbn [Values_Model.equal_hash]; try apply W.
    destruct (0 <? n); [apply W|exact Z0].
  Qed.
End Hash.

Lemma ok_mono : forall (P P' : num -> Prop) (B B' : Z -> list Z -> Prop),
  (forall n, P n -> P' n) -> (forall p s, B p s -> B' p s) ->
  forall x, ok P B x -> ok P' B' x.
Proof.
  intros P P' B B' HP HB. induction x using val_ind'; intros O; inversion O; subst; constructor; auto.
  apply ok_vec_inv in O. revert O. clear - H. induction H; intros F; inversion F; subst; constructor; auto.
Qed.

Lemma same_value_cmp : forall (B : Z -> list Z -> Prop) x y, ok canonical B x -> ok canonical B y ->
  same_value x y -> cmp x y = 0.
Proof.
  intros B. induction x using val_ind'; intros y Ox Oy S; inversion S; subst.
  - inversion Ox; inversion Oy; subst. assert (n = b) by (apply canonical_unique; auto). subst. apply cmp_refl.
  - apply cmp_refl.
  - apply sym_cmp_name.
  - inversion Ox; inversion Oy; subst. apply cmp_cons_0. auto.
  - apply ok_vec_inv in Ox. apply ok_vec_inv in Oy. apply cmp_vec_0. split; auto.
    clear S. revert l' Ox Oy H3. induction H; intros l' O1 O2 F; inversion F; subst; constructor.
    + inversion O1; inversion O2; subst; auto.
    + inversion O1; inversion O2; subst; auto.
  - apply cmp_refl.
Qed.

Lemma string_cmp_empty_huge : string_cmp [] (repeat 0 (Z.to_nat (2 ^ 32))) = 0.
Proof.
  unfold string_cmp. cbn [memcmp]. cbv zeta. rewrite Z.eqb_refl.
  rewrite repeat_length, Z2Nat.id by (vm_compute; discriminate). reflexivity.
Qed.
