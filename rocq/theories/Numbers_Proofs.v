From Coq Require Import ZArith QArith Qreduction List Bool Lia ZifyBool Znumtheory.
From Verif Require Import Numbers_Model Numbers_Spec.
Import ListNotations.
Open Scope Z_scope.

(** ** Machine words *)

Lemma wrap_id : forall bits z,
  0 < bits -> - 2 ^ (bits - 1) <= z < 2 ^ (bits - 1) -> wrap bits z = z.
Proof.
  intros bits z Hb H. unfold wrap.
  assert (E : 2 ^ bits = 2 * 2 ^ (bits - 1)).
  { replace bits with (Z.succ (bits - 1)) at 1 by lia. rewrite Z.pow_succ_r by lia. reflexivity. }
  rewrite Z.mod_small by lia. lia.
Qed.

Lemma wrap_range : forall bits z,
  0 < bits -> - 2 ^ (bits - 1) <= wrap bits z < 2 ^ (bits - 1).
Proof.
  intros bits z Hb. unfold wrap.
  assert (E : 2 ^ bits = 2 * 2 ^ (bits - 1)).
  { replace bits with (Z.succ (bits - 1)) at 1 by lia. rewrite Z.pow_succ_r by lia. reflexivity. }
  assert (0 < 2 ^ (bits - 1)) by (apply Z.pow_pos_nonneg; lia).
  pose proof (Z.mod_pos_bound (z + 2 ^ (bits - 1)) (2 ^ bits)). lia.
Qed.

Lemma wrap64_id : forall z, -9223372036854775808 <= z < 9223372036854775808 -> wrap64 z = z.
Proof. intros z H. apply wrap_id; [lia|]. exact H. Qed.
Lemma wrap32_id : forall z, -2147483648 <= z < 2147483648 -> wrap32 z = z.
Proof. intros z H. apply wrap_id; [lia|]. exact H. Qed.
Lemma wrap62_id : forall z, in_fixnum_range z -> wrap int_bits z = z.
Proof.
  intros z H. apply wrap_id; [reflexivity|]. unfold in_fixnum_range in H.
  change (2 ^ (int_bits - 1)) with 2305843009213693952. lia.
Qed.

Lemma make_int_id : forall z, in_fixnum_range z -> make_int z = Fix z.
Proof. intros z H. unfold make_int. rewrite wrap62_id; auto. Qed.

Definition in_rangeb (z : Z) : bool := (min_int <=? z) && (z <=? max_int).

Lemma in_rangeb_spec : forall z, in_rangeb z = true <-> in_fixnum_range z.
Proof.
  intros z. unfold in_rangeb, in_fixnum_range.
  change min_int with (-2305843009213693952). change max_int with 2305843009213693951. lia.
Qed.

Lemma make_long_int_canonical : forall z,
  canonical (make_long_int z) /\ is_int (make_long_int z) z.
Proof.
  intros z. unfold make_long_int. fold (in_rangeb z).
  destruct (in_rangeb z) eqn:E.
  - apply in_rangeb_spec in E. rewrite make_int_id by auto. split; [exact E|left; reflexivity].
  - split; [|right; reflexivity]. simpl. rewrite <- in_rangeb_spec. congruence.
Qed.

Lemma demote_big : forall z,
  canonical (maybe_demote (Big z)) /\ is_int (maybe_demote (Big z)) z.
Proof.
  intros z. unfold maybe_demote.
  rewrite andb_comm. fold (in_rangeb z).
  destruct (in_rangeb z) eqn:E.
  - apply in_rangeb_spec in E. rewrite make_int_id by auto. split; [exact E|left; reflexivity].
  - split; [|right; reflexivity]. simpl. rewrite <- in_rangeb_spec. congruence.
Qed.

Lemma is_int_qval : forall n z, is_int n z -> qval n = inject_Z z.
Proof. intros n z [->| ->]; reflexivity. Qed.

Lemma Qred_idem : forall q, Qred (Qred q) = Qred q.
Proof. intros q. apply Qred_complete. apply Qred_correct. Qed.

Lemma demote_rat : forall q,
  canonical (maybe_demote (Rat (Qred q))) /\ Qeq (qval (maybe_demote (Rat (Qred q)))) q.
Proof.
  intros q. destruct (Qden (Qred q) =? 1)%positive eqn:E.
  - apply Pos.eqb_eq in E.
    assert (X : maybe_demote (Rat (Qred q)) = maybe_demote (Big (Qnum (Qred q)))).
    { unfold maybe_demote. rewrite E. reflexivity. }
    rewrite X. destruct (demote_big (Qnum (Qred q))) as [C I].
    split; [exact C|]. rewrite (is_int_qval _ _ I).
    rewrite <- (Qred_correct q) at 2. unfold Qeq, inject_Z; simpl. rewrite E. reflexivity.
  - assert (X : maybe_demote (Rat (Qred q)) = Rat (Qred q)).
    { unfold maybe_demote. rewrite E. reflexivity. }
    rewrite X. split; [|cbn [qval]; apply Qred_correct].
    simpl. split; [apply Qred_idem|]. apply Pos.eqb_neq in E. exact E.
Qed.

Lemma canonical_valid : forall n, canonical n -> valid n.
Proof. intros [z|z|q]; simpl; tauto. Qed.

Lemma returns_canonical_returns : forall r q, returns_canonical r q -> returns r q.
Proof. intros r q (n & E & C & V). exists n. auto using canonical_valid. Qed.

(** ** Promotion *)

(** The three shapes promote can produce, with values preserved. *)
Lemma promote_cases : forall x y,
  valid x -> valid y ->
  (exists a b, x = Fix a /\ y = Fix b /\ promote x y = (Fix a, Fix b)) \/
  (exists a b, is_int x a /\ is_int y b /\ promote x y = (Big a, Big b)) \/
  (exists p q, (exists r, x = Rat r \/ y = Rat r) /\
     promote x y = (Rat p, Rat q) /\ p = qval x /\ q = qval y).
Proof.
  intros x y Hx Hy.
  destruct x as [a|a|p], y as [b|b|q]; cbn.
  - left. eauto.
  - right; left. exists a, b. unfold is_int; auto.
  - right; right. do 2 eexists. split; [eauto|]. auto.
  - right; left. exists a, b. unfold is_int; auto.
  - right; left. exists a, b. unfold is_int; auto.
  - right; right. do 2 eexists. split; [eauto|]. auto.
  - right; right. do 2 eexists. split; [eauto|]. auto.
  - right; right. do 2 eexists. split; [eauto|]. auto.
  - right; right. do 2 eexists. split; [eauto|]. auto.
Qed.

(** Integers promote to two fixnums or two bignums. *)
Lemma promote_int : forall x y a b,
  is_int x a -> is_int y b ->
  (x = Fix a /\ y = Fix b /\ promote x y = (Fix a, Fix b)) \/
  promote x y = (Big a, Big b).
Proof.
  intros x y a b [->| ->] [->| ->]; cbn; auto.
Qed.

Lemma valid_fix : forall a, valid (Fix a) -> in_fixnum_range a.
Proof. auto. Qed.

Local Ltac cases3 x y Hx Hy :=
  destruct (promote_cases x y Hx Hy)
    as [(a & b & Ex & Ey & E)|[(a & b & Ex & Ey & E)|(p & q & _ & E & Ex & Ey)]];
  rewrite E.

Lemma inject_plus : forall a b, Qeq (inject_Z (a + b)) (inject_Z a + inject_Z b).
Proof. intros. rewrite inject_Z_plus. reflexivity. Qed.
Lemma inject_mult : forall a b, Qeq (inject_Z (a * b)) (inject_Z a * inject_Z b).
Proof. intros. rewrite inject_Z_mult. reflexivity. Qed.
Lemma inject_minus : forall a b, Qeq (inject_Z (a - b)) (inject_Z a - inject_Z b).
Proof. intros. unfold Z.sub, Qminus. rewrite inject_Z_plus, inject_Z_opp. reflexivity. Qed.

Lemma ret_long : forall z q,
  Qeq (inject_Z z) q -> returns_canonical (Ok (make_long_int z)) q.
Proof.
  intros z q H. destruct (make_long_int_canonical z) as [C I].
  exists (make_long_int z). rewrite (is_int_qval _ _ I). auto.
Qed.
Lemma ret_big : forall z q,
  Qeq (inject_Z z) q -> returns_canonical (Ok (maybe_demote (Big z))) q.
Proof.
  intros z q H. destruct (demote_big z) as [C I].
  exists (maybe_demote (Big z)). rewrite (is_int_qval _ _ I). auto.
Qed.
Lemma ret_rat : forall p q,
  Qeq p q -> returns_canonical (Ok (maybe_demote (Rat (Qred p)))) q.
Proof.
  intros p q H. destruct (demote_rat p) as [C I].
  exists (maybe_demote (Rat (Qred p))). rewrite I. auto.
Qed.

Lemma add_correct : forall x y, valid x -> valid y ->
  returns_canonical (number_add x y) (qval x + qval y)%Q.
Proof.
  intros x y Hx Hy. unfold number_add. cases3 x y Hx Hy.
  - subst. simpl in Hx, Hy. unfold in_fixnum_range in *.
    rewrite wrap64_id by lia. apply ret_long, inject_plus.
  - rewrite (is_int_qval _ _ Ex), (is_int_qval _ _ Ey). apply ret_big, inject_plus.
  - subst. apply ret_rat. reflexivity.
Qed.

Lemma sub_correct : forall x y, valid x -> valid y ->
  returns_canonical (number_sub x y) (qval x - qval y)%Q.
Proof.
  intros x y Hx Hy. unfold number_sub. cases3 x y Hx Hy.
  - subst. simpl in Hx, Hy. unfold in_fixnum_range in *.
    rewrite wrap64_id by lia. apply ret_long, inject_minus.
  - rewrite (is_int_qval _ _ Ex), (is_int_qval _ _ Ey). apply ret_big, inject_minus.
  - subst. apply ret_rat. reflexivity.
Qed.

Lemma mul_correct : forall x y, valid x -> valid y -> mul_safe x y ->
  returns_canonical (number_mul x y) (qval x * qval y)%Q.
Proof.
  intros x y Hx Hy Hs. unfold number_mul. cases3 x y Hx Hy.
  - subst. simpl in Hs. unfold make_longlong_int. rewrite !wrap64_id by (rewrite ?wrap64_id; lia).
    apply ret_long, inject_mult.
  - rewrite (is_int_qval _ _ Ex), (is_int_qval _ _ Ey). apply ret_big, inject_mult.
  - subst. apply ret_rat. reflexivity.
Qed.

Lemma mul_wrong : forall a b,
  in_fixnum_range a -> in_fixnum_range b ->
  ~ (-9223372036854775808 <= a * b < 9223372036854775808) ->
  exists n, number_mul (Fix a) (Fix b) = Ok n /\ ~ Qeq (qval n) (inject_Z (a * b)).
Proof.
  intros a b Ha Hb Hn. unfold number_mul; cbn [promote num_type Nat.ltb Nat.leb].
  eexists. split; [reflexivity|].
  unfold make_longlong_int.
  destruct (make_long_int_canonical (wrap64 (wrap64 (a * b)))) as [_ I].
  rewrite (is_int_qval _ _ I). unfold Qeq, inject_Z; simpl.
  pose proof (wrap_range 64 (wrap64 (a * b)) ltac:(lia)) as R.
  change (2 ^ (64 - 1)) with 9223372036854775808 in R.
  fold wrap64 in R. lia.
Qed.

Lemma neg_correct : forall x, valid x -> returns (number_neg x) (- qval x)%Q.
Proof.
  intros [a|a|q] Hx; cbn [number_neg].
  - simpl in Hx. unfold in_fixnum_range in Hx. rewrite wrap64_id by lia.
    apply returns_canonical_returns, ret_long. simpl. rewrite inject_Z_opp. reflexivity.
  - exists (Big (- a)). split; [reflexivity|]. split; [exact I|]. simpl. rewrite inject_Z_opp. reflexivity.
  - eexists. split; [reflexivity|]. split; [apply Qred_idem|]. cbn [qval]. apply Qred_correct.
Qed.

(** neg keeps canonical form except for the bignum 2^61. *)
Lemma neg_canonical : forall x, canonical x -> x <> Big 2305843009213693952 ->
  returns_canonical (number_neg x) (- qval x)%Q.
Proof.
  intros x Hc Hn. pose proof (canonical_valid _ Hc) as Hv.
  destruct x as [a|a|q]; cbn [number_neg].
  - simpl in Hv. unfold in_fixnum_range in Hv. rewrite wrap64_id by lia.
    apply ret_long. simpl. rewrite inject_Z_opp. reflexivity.
  - exists (Big (- a)). split; [reflexivity|]. split.
    + simpl in *. unfold in_fixnum_range in *.
      assert (a <> 2305843009213693952) by congruence. lia.
    + simpl. rewrite inject_Z_opp. reflexivity.
  - simpl in Hc. destruct Hc as [R D]. eexists. split; [reflexivity|]. split.
    + cbn [canonical]. split; [apply Qred_idem|].
      rewrite Qred_opp. cbn. fold (Qred q). rewrite R. exact D.
    + cbn [qval]. apply Qred_correct.
Qed.

Lemma plus1_correct : forall x, valid x -> returns_canonical (plus1 x) (qval x + 1)%Q.
Proof.
  intros [a|a|q] Hx; cbn [plus1].
  - simpl in Hx. unfold in_fixnum_range in Hx. rewrite wrap64_id by lia. apply ret_long, inject_plus.
  - apply ret_big, inject_plus.
  - apply ret_rat. reflexivity.
Qed.
Lemma sub1_correct : forall x, valid x -> returns_canonical (sub1 x) (qval x - 1)%Q.
Proof.
  intros [a|a|q] Hx; cbn [sub1].
  - simpl in Hx. unfold in_fixnum_range in Hx. rewrite wrap64_id by lia. apply ret_long, inject_minus.
  - apply ret_big, inject_minus.
  - apply ret_rat. reflexivity.
Qed.

(** ** The open-coded bytecode versions agree with the functions *)

Lemma make_long_in : forall s, (min_int <=? s) && (s <=? max_int) = true ->
  make_long_int s = make_int s.
Proof. intros s H. unfold make_long_int. rewrite H. reflexivity. Qed.

Lemma vm_add_eq : forall x y, vm_add x y = number_add x y.
Proof.
  intros [a|a|p] [b|b|q]; try reflexivity. cbn [vm_add].
  destruct ((min_int <=? wrap64 (a + b)) && (wrap64 (a + b) <=? max_int)) eqn:E; [|reflexivity].
  unfold number_add; cbn [promote num_type Nat.ltb Nat.leb]. rewrite make_long_in; auto.
Qed.
Lemma vm_sub_eq : forall x y, vm_sub x y = number_sub x y.
Proof.
  intros [a|a|p] [b|b|q]; try reflexivity. cbn [vm_sub].
  destruct ((min_int <=? wrap64 (a - b)) && (wrap64 (a - b) <=? max_int)) eqn:E; [|reflexivity].
  unfold number_sub; cbn [promote num_type Nat.ltb Nat.leb]. rewrite make_long_in; auto.
Qed.
Lemma vm_neg_eq : forall x, vm_neg x = number_neg x.
Proof.
  intros [a|a|p]; try reflexivity. cbn [vm_neg number_neg].
  destruct ((min_int <=? wrap64 (- a)) && (wrap64 (- a) <=? max_int)) eqn:E; [|reflexivity].
  rewrite make_long_in; auto.
Qed.
Lemma vm_inc_eq : forall x, valid x -> vm_inc x = plus1 x.
Proof.
  intros [a|a|p] Hx; try reflexivity. cbn [vm_inc plus1].
  simpl in Hx. unfold in_fixnum_range in Hx. rewrite wrap64_id by lia.
  destruct (a + 1 <=? max_int) eqn:E; [|reflexivity].
  rewrite make_long_in; auto. change min_int with (-2305843009213693952). lia.
Qed.
Lemma vm_dec_eq : forall x, valid x -> vm_dec x = sub1 x.
Proof.
  intros [a|a|p] Hx; try reflexivity. cbn [vm_dec sub1].
  simpl in Hx. unfold in_fixnum_range in Hx. rewrite wrap64_id by lia.
  destruct (min_int <=? a - 1) eqn:E; [|reflexivity].
  rewrite make_long_in; auto. change max_int with (2305843009213693951). lia.
Qed.

(** ** Sums of argument lists *)

Lemma foldv_add : forall l s q,
  valid s -> Qeq (qval s) q -> Forall valid l -> l <> [] ->
  returns_canonical (number_foldv number_add s l) (fold_left Qplus (map qval l) q).
Proof.
  induction l as [|a l IH]; intros s q Hs Hq Hl Hne; [congruence|].
  cbn [number_foldv map fold_left].
  inversion Hl as [|? ? Ha Hl']; subst.
  destruct (add_correct s a Hs Ha) as (n & E & C & V). rewrite E.
  assert (V' : Qeq (qval n) (q + qval a)) by (rewrite V, Hq; reflexivity).
  destruct l as [|b l].
  - cbn. exists n. auto.
  - apply IH; auto using canonical_valid. discriminate.
Qed.

Lemma Fplus_correct : forall l, Forall canonical l ->
  returns_canonical (Fplus l) (qsum (map qval l)).
Proof.
  intros [|a l] H; cbn [Fplus].
  - exists (Fix 0). split; [reflexivity|]. split; [simpl; unfold in_fixnum_range; lia|reflexivity].
  - inversion H as [|? ? Ha Hl]; subst.
    destruct l as [|b l].
    + exists a. split; [reflexivity|]. split; [auto|].
      unfold qsum; cbn. rewrite Qplus_0_l. reflexivity.
    + unfold qsum. cbn [map fold_left].
      assert (G := foldv_add (b :: l) a (0 + qval a)).
      apply G.
      * apply canonical_valid; auto.
      * symmetry. apply Qplus_0_l.
      * eapply Forall_impl; [|exact Hl]. apply canonical_valid.
      * discriminate.
Qed.

Lemma foldv_sub : forall l s q,
  valid s -> Qeq (qval s) q -> Forall valid l -> l <> [] ->
  returns_canonical (number_foldv number_sub s l) (fold_left Qminus (map qval l) q).
Proof.
  induction l as [|a l IH]; intros s q Hs Hq Hl Hne; [congruence|].
  cbn [number_foldv map fold_left].
  inversion Hl as [|? ? Ha Hl']; subst.
  destruct (sub_correct s a Hs Ha) as (n & E & C & V). rewrite E.
  assert (V' : Qeq (qval n) (q - qval a)) by (rewrite V, Hq; reflexivity).
  destruct l as [|b l].
  - cbn. exists n. auto.
  - apply IH; auto using canonical_valid. discriminate.
Qed.

Lemma fold_plus_shift : forall l a, Qeq (fold_left Qplus l a) (a + fold_left Qplus l 0)%Q.
Proof.
  induction l as [|b l IH]; intros a; cbn [fold_left].
  - rewrite Qplus_0_r. reflexivity.
  - rewrite (IH (a + b)%Q), (IH (0 + b)%Q). ring.
Qed.

Lemma fold_minus : forall l a, Qeq (fold_left Qminus l a) (a - fold_left Qplus l 0)%Q.
Proof.
  induction l as [|b l IH]; intros a; cbn [fold_left].
  - ring.
  - rewrite (IH (a - b)%Q), (fold_plus_shift l (0 + b)%Q). ring.
Qed.

Lemma Fminus_correct : forall a l, valid a -> Forall valid l -> l <> [] ->
  returns_canonical (Fminus a l) (qval a - qsum (map qval l)).
Proof.
  intros a l Va Vl Hne. destruct l as [|b l]; [congruence|].
  change (Fminus a (b :: l)) with (number_foldv number_sub a (b :: l)).
  destruct (foldv_sub (b :: l) a (qval a) Va ltac:(reflexivity) Vl Hne) as (n & E & C & V).
  exists n. split; [exact E|]. split; [exact C|]. rewrite V. apply fold_minus.
Qed.

Lemma fold_mul_shift : forall l a, fold_left Z.mul l a = a * fold_left Z.mul l 1.
Proof.
  induction l as [|b l IH]; intros a; cbn [fold_left]; [lia|].
  rewrite (IH (a * b)), (IH (1 * b)). lia.
Qed.

Lemma canonical_int : forall n z, canonical n -> Qeq (qval n) (inject_Z z) -> is_int n z.
Proof.
  intros [a|a|q] z C H; cbn [qval] in H.
  - left. unfold Qeq, inject_Z in H; simpl in H. f_equal. lia.
  - right. unfold Qeq, inject_Z in H; simpl in H. f_equal. lia.
  - exfalso. destruct C as [R D]. apply D. rewrite <- R.
    rewrite (Qred_complete _ _ H). unfold Qred, inject_Z.
    pose proof (Z.ggcd_gcd z 1) as G. pose proof (Z.ggcd_correct_divisors z 1) as K.
    cbn [Qnum Qden]. destruct (Z.ggcd z 1) as [g [u v]]. simpl in *.
    rewrite Z.gcd_1_r in G. subst g. destruct K as [_ K].
    replace v with 1 by lia. reflexivity.
Qed.

Lemma foldv_mul : forall l zl s z,
  canonical s -> is_int s z -> Forall valid l -> Forall2 is_int l zl -> l <> [] ->
  (forall p r, zl = p ++ r -> -9223372036854775808 <= z * zprod p < 9223372036854775808) ->
  returns_canonical (number_foldv number_mul s l) (inject_Z (z * zprod zl)).
Proof.
  induction l as [|a l IH]; intros zl s z Cs Is Hl H2 Hne Hp; [congruence|].
  inversion H2 as [|? w ? zl' Ia H2']; subst. inversion Hl as [|? ? Va Hl']; subst.
  cbn [number_foldv].
  assert (Safe : mul_safe s a).
  { specialize (Hp [w] zl' eq_refl). unfold zprod in Hp; cbn [fold_left] in Hp.
    destruct Is as [->| ->], Ia as [->| ->]; simpl; auto. lia. }
  destruct (mul_correct s a (canonical_valid _ Cs) Va Safe) as (n & E & C & V). rewrite E.
  rewrite (is_int_qval _ _ Is), (is_int_qval _ _ Ia), <- inject_Z_mult in V.
  assert (In : is_int n (z * w)) by (apply canonical_int; auto).
  destruct l as [|b l].
  - inversion H2'; subst. exists n. split; [reflexivity|]. split; [exact C|].
    rewrite V. unfold zprod; cbn [fold_left]. replace (1 * w) with w by lia. reflexivity.
  - assert (R : z * zprod (w :: zl') = z * w * zprod zl').
    { unfold zprod. cbn [fold_left]. rewrite fold_mul_shift. lia. }
    rewrite R. apply IH; auto; [discriminate|].
    intros p r Hpr. specialize (Hp (w :: p) r). rewrite Hpr in Hp. specialize (Hp eq_refl).
    unfold zprod in *. cbn [fold_left] in Hp. rewrite (fold_mul_shift p (1 * w)) in Hp. lia.
Qed.

Lemma Fproduct_correct : forall l zl, Forall canonical l -> Forall2 is_int l zl ->
  (forall p r, zl = p ++ r -> -9223372036854775808 <= zprod p < 9223372036854775808) ->
  returns_canonical (Fproduct l) (inject_Z (zprod zl)).
Proof.
  intros [|a l] zl H H2 Hp; cbn [Fproduct].
  - inversion H2; subst. exists (Fix 1). split; [reflexivity|].
    split; [simpl; unfold in_fixnum_range; lia|reflexivity].
  - inversion H as [|? ? Ha Hl]; subst. inversion H2 as [|? z ? zl' Ia H2']; subst.
    assert (R : zprod (z :: zl') = z * zprod zl').
    { unfold zprod. cbn [fold_left]. rewrite fold_mul_shift. lia. }
    destruct l as [|b l].
    + inversion H2'; subst. exists a. split; [reflexivity|]. split; [auto|].
      rewrite (is_int_qval _ _ Ia), R. unfold zprod; cbn [fold_left]. rewrite Z.mul_1_r. reflexivity.
    + rewrite R. apply foldv_mul; auto; [|discriminate|].
      * eapply Forall_impl; [|exact Hl]. apply canonical_valid.
      * intros p r Hpr. specialize (Hp (z :: p) r). rewrite Hpr in Hp. specialize (Hp eq_refl).
        unfold zprod in *. cbn [fold_left] in Hp. rewrite (fold_mul_shift p (1 * z)) in Hp. lia.
Qed.

(** ** Bitwise operations *)

Lemma bits_range : forall z, in_fixnum_range z <->
  (forall i, 61 <= i -> Z.testbit z i = (z <? 0)).
Proof.
  intros z. unfold in_fixnum_range. split.
  - intros H i Hi. destruct (z <? 0) eqn:E.
    + assert (Hneg : z < 0) by lia.
      apply Z.bits_above_log2_neg; [lia|].
      assert (Z.log2 (Z.pred (- z)) < 61); [|lia].
      destruct (Z.eq_dec (Z.pred (- z)) 0) as [->|N]; [simpl; lia|].
      apply Z.log2_lt_pow2; [lia|]. change (2^61) with 2305843009213693952. lia.
    + destruct (Z.eq_dec z 0) as [->|N]; [apply Z.bits_0|].
      apply Z.bits_above_log2; [lia|].
      assert (Z.log2 z < 61); [|lia].
      apply Z.log2_lt_pow2; [lia|]. change (2^61) with 2305843009213693952. lia.
  - intros H. destruct (z <? 0) eqn:E.
    + assert (Hneg : z < 0) by lia. split; [|lia].
      destruct (Z_lt_le_dec z (-2305843009213693952)) as [L|L]; [|lia]. exfalso.
      assert (P : 0 < Z.pred (- z)) by lia.
      pose proof (Z.bit_log2 _ P) as B.
      assert (61 <= Z.log2 (Z.pred (- z))).
      { apply Z.log2_le_pow2; [lia|]. change (2^61) with 2305843009213693952. lia. }
      specialize (H _ H0).
      pose proof (Z.lnot_spec z (Z.log2 (Z.pred (- z))) (Z.log2_nonneg _)) as T.
      replace (Z.lnot z) with (Z.pred (- z)) in T by (unfold Z.lnot; lia).
      rewrite B, H in T. discriminate.
    + assert (0 <= z) by lia. split; [lia|].
      destruct (Z_lt_le_dec 2305843009213693951 z) as [L|L]; [|lia]. exfalso.
      assert (P : 0 < z) by lia.
      pose proof (Z.bit_log2 _ P) as B.
      assert (61 <= Z.log2 z).
      { apply Z.log2_le_pow2; [lia|]. change (2^61) with 2305843009213693952. lia. }
      specialize (H _ H1). congruence.
Qed.

Lemma lnot_range : forall z, in_fixnum_range z -> in_fixnum_range (Z.lnot z).
Proof. intros z. unfold in_fixnum_range, Z.lnot. lia. Qed.

Lemma land_neg : forall a b, (Z.land a b <? 0) = (a <? 0) && (b <? 0).
Proof.
  intros a b. pose proof (Z.land_neg a b).
  destruct (Z.land a b <? 0) eqn:E1, (a <? 0) eqn:E2, (b <? 0) eqn:E3; simpl; auto; lia.
Qed.
Lemma lor_neg : forall a b, (Z.lor a b <? 0) = (a <? 0) || (b <? 0).
Proof.
  intros a b. pose proof (Z.lor_neg a b).
  destruct (Z.lor a b <? 0) eqn:E1, (a <? 0) eqn:E2, (b <? 0) eqn:E3; simpl; auto; lia.
Qed.
Lemma lxor_neg : forall a b, (Z.lxor a b <? 0) = xorb (a <? 0) (b <? 0).
Proof.
  intros a b. pose proof (Z.lxor_nonneg a b).
  destruct (Z.lxor a b <? 0) eqn:E1, (a <? 0) eqn:E2, (b <? 0) eqn:E3; simpl; auto; lia.
Qed.

Lemma land_range : forall a b, in_fixnum_range a -> in_fixnum_range b -> in_fixnum_range (Z.land a b).
Proof.
  intros a b Ha Hb. apply bits_range. intros i Hi.
  rewrite Z.land_spec, land_neg.
  rewrite (proj1 (bits_range a) Ha i Hi), (proj1 (bits_range b) Hb i Hi). reflexivity.
Qed.
Lemma lor_range : forall a b, in_fixnum_range a -> in_fixnum_range b -> in_fixnum_range (Z.lor a b).
Proof.
  intros a b Ha Hb. apply bits_range. intros i Hi.
  rewrite Z.lor_spec, lor_neg.
  rewrite (proj1 (bits_range a) Ha i Hi), (proj1 (bits_range b) Hb i Hi). reflexivity.
Qed.
Lemma lxor_range : forall a b, in_fixnum_range a -> in_fixnum_range b -> in_fixnum_range (Z.lxor a b).
Proof.
  intros a b Ha Hb. apply bits_range. intros i Hi.
  rewrite Z.lxor_spec, lxor_neg.
  rewrite (proj1 (bits_range a) Ha i Hi), (proj1 (bits_range b) Hb i Hi). reflexivity.
Qed.

Lemma ret_fix : forall z, in_fixnum_range z -> returns_int (Ok (make_int z)) z.
Proof.
  intros z H. exists (Fix z). rewrite make_int_id by auto.
  split; [reflexivity|]. split; [exact H|left; reflexivity].
Qed.
Lemma ret_Big : forall z, returns_int (Ok (Big z)) z.
Proof. intros z. exists (Big z). split; [reflexivity|]. split; [exact I|right; reflexivity]. Qed.

Lemma lognot_correct : forall x a, valid x -> is_int x a ->
  returns_int (number_lognot x) (Z.lnot a).
Proof.
  intros x a Hv [->| ->]; cbn [number_lognot].
  - apply ret_fix, lnot_range, Hv.
  - apply ret_Big.
Qed.

Local Ltac cases2 x y Hx Hy :=
  destruct (promote_int x y _ _ Hx Hy) as [(Ex & Ey & E)|E]; rewrite E; subst.

Lemma logior_correct : forall x y a b, valid x -> valid y -> is_int x a -> is_int y b ->
  returns_int (number_logior x y) (Z.lor a b).
Proof.
  intros x y a b Vx Vy Hx Hy. unfold number_logior. cases2 x y Hx Hy.
  - apply ret_fix, lor_range; auto.
  - apply ret_Big.
Qed.
Lemma logand_correct : forall x y a b, valid x -> valid y -> is_int x a -> is_int y b ->
  returns_int (number_logand x y) (Z.land a b).
Proof.
  intros x y a b Vx Vy Hx Hy. unfold number_logand. cases2 x y Hx Hy.
  - apply ret_fix, land_range; auto.
  - apply ret_Big.
Qed.
Lemma xor_formula : forall a b, Z.land (Z.lnot (Z.land a b)) (Z.lor a b) = Z.lxor a b.
Proof.
  intros a b. apply Z.bits_inj'. intros i Hi.
  rewrite Z.land_spec, Z.lnot_spec, Z.land_spec, Z.lor_spec, Z.lxor_spec by lia.
  destruct (Z.testbit a i), (Z.testbit b i); reflexivity.
Qed.
Lemma logxor_correct : forall x y a b, valid x -> valid y -> is_int x a -> is_int y b ->
  returns_int (number_logxor x y) (Z.lxor a b).
Proof.
  intros x y a b Vx Vy Hx Hy. unfold number_logxor. cases2 x y Hx Hy.
  - apply ret_fix, lxor_range; auto.
  - rewrite xor_formula. apply ret_Big.
Qed.

(** ** gcd *)

Lemma euclid_correct : forall fuel m n,
  0 <= m -> 0 <= n -> (m = 0 \/ 2 * Z.log2 m + 2 < Z.of_nat fuel) -> (0 < fuel)%nat ->
  euclid fuel m n = Some (Z.gcd m n).
Proof.
  (* two consecutive steps at least halve m *)
  assert (G : forall k fuel m n, (Z.to_nat m <= k)%nat ->
    0 <= m -> 0 <= n -> (m = 0 \/ 2 * Z.log2 m + 2 < Z.of_nat fuel) -> (0 < fuel)%nat ->
    euclid fuel m n = Some (Z.gcd m n)).
  { induction k as [k IH] using lt_wf_ind. intros fuel m n Hk Hm Hn Hf Hp.
    destruct fuel as [|f]; [lia|]. cbn [euclid].
    destruct (m =? 0) eqn:E0.
    - assert (m = 0) by lia. subst m. rewrite Z.gcd_0_l, Z.abs_eq by lia. reflexivity.
    - assert (Hm' : 0 < m) by lia. assert (m <> 0) by lia.
      destruct Hf as [Hf|Hf]; [lia|].
      rewrite Z.rem_mod_nonneg by lia.
      set (r := n mod m). assert (Hr : 0 <= r < m) by (apply Z.mod_pos_bound; lia).
      pose proof (Z.log2_nonneg m) as Hl.
      assert (GC : Z.gcd r m = Z.gcd m n).
      { unfold r. rewrite Z.gcd_mod by lia. reflexivity. }
      destruct f as [|f]; [lia|]. cbn [euclid].
      destruct (r =? 0) eqn:Er.
      + assert (r = 0) by lia. rewrite <- GC, H0, Z.gcd_0_l, Z.abs_eq by lia. reflexivity.
      + rewrite Z.rem_mod_nonneg by lia.
        set (s := m mod r). assert (Hs : 0 <= s < r) by (apply Z.mod_pos_bound; lia).
        assert (Half : 2 * s < m).
        { pose proof (Z.div_mod m r). assert (1 <= m / r) by (apply Z.div_le_lower_bound; lia).
          fold s in H0. nia. }
        assert (IH' : euclid f s r = Some (Z.gcd s r)).
        { apply (IH (Z.to_nat s)); try lia.
          destruct (Z.eq_dec s 0) as [S0|S0]; [left; exact S0|right].
          assert (Z.log2 s < Z.log2 m).
          { assert (Z.log2 (2 * s) <= Z.log2 m) by (apply Z.log2_le_mono; lia).
            rewrite Z.log2_double in H0 by lia. lia. }
          lia. }
        rewrite IH'. f_equal. rewrite <- GC. unfold s.
        rewrite Z.gcd_mod by lia. reflexivity. }
  intros fuel m n. apply (G (Z.to_nat m)). lia.
Qed.

Lemma gcd_correct : forall x y a b, valid x -> valid y -> is_int x a -> is_int y b ->
  (x = Fix a -> y = Fix b -> Z.gcd a b <> 2305843009213693952) ->
  returns_int (integer_gcd x y) (Z.gcd a b).
Proof.
  intros x y a b Vx Vy Hx Hy Hg. unfold integer_gcd. cases2 x y Hx Hy.
  - specialize (Hg eq_refl eq_refl). simpl in Vx, Vy. unfold in_fixnum_range in *.
    rewrite !wrap64_id by lia. rewrite euclid_correct; try lia.
    rewrite Z.gcd_abs_l, Z.gcd_abs_r. apply ret_fix.
      assert (0 <= Z.gcd a b) by apply Z.gcd_nonneg.
      assert (Z.gcd a b <= 2305843009213693952).
      { destruct (Z.eq_dec a 0) as [->|Na].
        - rewrite Z.gcd_0_l. lia.
        - pose proof (Z.gcd_divide_l a b) as D. apply Z.divide_abs_r in D.
          apply Z.divide_pos_le in D; lia. }
      unfold in_fixnum_range. lia.
  - apply ret_Big.
Qed.

(** ** ash *)

Lemma ash_correct : forall x a s, valid x -> is_int x a -> ash_safe x s ->
  returns_canonical (ash x s) (inject_Z (Z.shiftl a s)).
Proof.
  intros x a s Hv Hx Hs.
  assert (B : returns_canonical (Ok (ash_big a s)) (inject_Z (Z.shiftl a s))).
  { unfold ash_big. apply ret_big. destruct (0 <? s) eqn:E.
    - rewrite Z.shiftl_mul_pow2 by lia. reflexivity.
    - unfold Z.shiftr. rewrite Z.opp_involutive. reflexivity. }
  destruct Hx as [->| ->]; cbn [ash]; [|exact B].
  simpl in Hs. destruct Hs as [Hs1 Hs2].
  destruct (int_bits <=? s) eqn:E1; [exact B|].
  assert (L : s < 62) by (unfold int_bits in E1; lia).
  destruct (0 <? s) eqn:E2.
  - unfold make_longlong_int. rewrite Z.shiftl_mul_pow2 by lia.
    rewrite !wrap64_id; try rewrite wrap64_id; try (apply Hs2; lia).
    apply ret_long. reflexivity.
  - destruct (64 <=? - s) eqn:E3; [lia|].
    assert (R : Z.shiftr a (- s) = Z.shiftl a s) by (unfold Z.shiftr; rewrite Z.opp_involutive; reflexivity).
    unfold make_longlong_int. rewrite wrap64_id.
    + apply ret_long. rewrite R. reflexivity.
    + simpl in Hv. unfold in_fixnum_range in Hv. rewrite Z.shiftr_div_pow2 by lia.
      assert (0 < 2 ^ (- s)) by (apply Z.pow_pos_nonneg; lia).
      split.
      * apply Z.div_le_lower_bound; nia.
      * apply Z.div_lt_upper_bound; nia.
Qed.

(** ** Comparison *)

Lemma sign_of_sgn : forall a b, sign_of (a ?= b) = Z.sgn (a - b).
Proof.
  intros a b. destruct (Z.compare_spec a b); simpl; lia.
Qed.

Lemma compare_numbers_sgn : forall x y a b,
  valid x -> valid y -> is_int x a -> is_int y b -> cmp_safe x y ->
  Z.sgn (compare_numbers x y) = Z.sgn (a - b).
Proof.
  intros x y a b Vx Vy Hx Hy Hs. unfold compare_numbers. cases2 x y Hx Hy.
  - simpl in Hs, Vx, Vy. unfold in_fixnum_range in *.
    rewrite (wrap64_id (a - b)), wrap32_id by lia. reflexivity.
  - rewrite sign_of_sgn. destruct (a - b); reflexivity.
Qed.

Lemma value_cmp_sgn : forall x y a b,
  valid x -> valid y -> is_int x a -> is_int y b -> cmp_safe x y ->
  Z.sgn (value_cmp x y) = Z.sgn (a - b).
Proof.
  intros x y a b Vx Vy Hx Hy Hs. unfold value_cmp.
  destruct (same_fixnum x y) eqn:E; [|apply compare_numbers_sgn; auto].
  destruct x as [a'|a'|p], y as [b'|b'|q]; try discriminate. cbn in E.
  destruct Hx as [Hx|Hx]; [|discriminate]. destruct Hy as [Hy|Hy]; [|discriminate].
  inversion Hx; inversion Hy; subst. assert (a = b) by lia. subst.
  rewrite Z.sub_diag. reflexivity.
Qed.

Lemma compare_numbers_q : forall x y,
  valid x -> valid y -> cmp_safe x y ->
  Z.sgn (compare_numbers x y) = sign_of (qval x ?= qval y)%Q.
Proof.
  intros x y Vx Vy Hs.
  assert (S : forall c, Z.sgn (sign_of c) = sign_of c) by (intros []; reflexivity).
  assert (J : forall a b, (inject_Z a ?= inject_Z b)%Q = (a ?= b)).
  { intros a b. unfold Qcompare, inject_Z; simpl. rewrite !Z.mul_1_r. reflexivity. }
  unfold compare_numbers. cases3 x y Vx Vy.
  - subst. simpl in Hs, Vx, Vy. unfold in_fixnum_range in *. cbn [qval]. rewrite J.
    rewrite (wrap64_id (a - b)), wrap32_id by lia. symmetry. apply sign_of_sgn.
  - rewrite (is_int_qval _ _ Ex), (is_int_qval _ _ Ey), J. apply S.
  - subst. apply S.
Qed.

Lemma value_cmp_q : forall x y,
  valid x -> valid y -> cmp_safe x y ->
  Z.sgn (value_cmp x y) = sign_of (qval x ?= qval y)%Q.
Proof.
  intros x y Vx Vy Hs. unfold value_cmp.
  destruct (same_fixnum x y) eqn:E; [|apply compare_numbers_q; auto].
  destruct x as [a|a|p], y as [b|b|q]; try discriminate. cbn in E.
  assert (a = b) by lia. subst. cbn [qval].
  assert (X : (inject_Z b ?= inject_Z b)%Q = Eq) by (apply Qeq_alt; reflexivity).
  rewrite X. reflexivity.
Qed.

Lemma apply1_correct : forall op x y,
  (forall s, op s = op (Z.sgn s)) ->
  valid x -> valid y -> cmp_safe x y ->
  apply1 op x y = op (sign_of (qval x ?= qval y)%Q).
Proof.
  intros op x y Hop Vx Vy Hs. unfold apply1.
  assert (C1 := compare_numbers_q x y Vx Vy Hs).
  assert (C2 := value_cmp_q x y Vx Vy Hs).
  destruct x as [a'|a'|p], y as [b'|b'|q]; rewrite Hop; rewrite ?C1, ?C2; reflexivity.
Qed.

Lemma apply_chain : forall op (R : Q -> Q -> Prop),
  (forall s, op s = op (Z.sgn s)) ->
  (forall a b, op (sign_of (a ?= b)%Q) = true <-> R a b) ->
  forall l x, valid x -> Forall valid l -> all_safe x l ->
  (apply_comparison op x l = true <-> chain R (qval x) (map qval l)).
Proof.
  intros op R Hop HR. induction l as [|y l IH]; intros x Vx Hv Hs.
  - simpl. tauto.
  - inversion Hv as [|? ? Vy Hv']; subst.
    cbn [apply_comparison chain map]. destruct Hs as [S1 S2].
    rewrite (apply1_correct op x y Hop Vx Vy S1).
    specialize (IH y Vy Hv' S2). specialize (HR (qval x) (qval y)).
    destruct (op (sign_of (qval x ?= qval y)%Q)); [tauto|]. split; [discriminate|]. intros [X _].
    apply HR in X. discriminate.
Qed.

Lemma op_eq_sgn : forall s, (s =? 0) = (Z.sgn s =? 0). Proof. intros; lia. Qed.
Lemma op_gt_sgn : forall s, (0 <? s) = (0 <? Z.sgn s). Proof. intros; lia. Qed.
Lemma op_ge_sgn : forall s, (0 <=? s) = (0 <=? Z.sgn s). Proof. intros; lia. Qed.
Lemma op_lt_sgn : forall s, (s <? 0) = (Z.sgn s <? 0). Proof. intros; lia. Qed.
Lemma op_le_sgn : forall s, (s <=? 0) = (Z.sgn s <=? 0). Proof. intros; lia. Qed.

Lemma q_eq : forall a b, (sign_of (a ?= b)%Q =? 0) = true <-> Qeq a b.
Proof. intros. rewrite Qeq_alt. destruct (a ?= b)%Q; simpl; intuition (congruence || discriminate). Qed.
Lemma q_gt : forall a b, (0 <? sign_of (a ?= b)%Q) = true <-> (a > b)%Q.
Proof. intros. rewrite Qgt_alt. destruct (a ?= b)%Q; simpl; intuition (congruence || discriminate). Qed.
Lemma q_ge : forall a b, (0 <=? sign_of (a ?= b)%Q) = true <-> (a >= b)%Q.
Proof. intros. rewrite Qge_alt. destruct (a ?= b)%Q; simpl; intuition (congruence || discriminate). Qed.
Lemma q_lt : forall a b, (sign_of (a ?= b)%Q <? 0) = true <-> (a < b)%Q.
Proof. intros. rewrite Qlt_alt. destruct (a ?= b)%Q; simpl; intuition (congruence || discriminate). Qed.
Lemma q_le : forall a b, (sign_of (a ?= b)%Q <=? 0) = true <-> (a <= b)%Q.
Proof. intros. rewrite Qle_alt. destruct (a ?= b)%Q; simpl; intuition (congruence || discriminate). Qed.

Lemma comparison_chains : forall x y l,
  valid x -> Forall valid (y :: l) -> all_safe x (y :: l) ->
  let c R := chain R (qval x) (map qval (y :: l)) in
  (num_eq x y l = true <-> c Qeq) /\
  (gtthan x y l = true <-> c (fun a b => b < a)%Q) /\
  (gethan x y l = true <-> c (fun a b => b <= a)%Q) /\
  (ltthan x y l = true <-> c Qlt) /\
  (lethan x y l = true <-> c Qle).
Proof.
  intros x y l Vx Vl Hs c. unfold c.
  split; [apply (apply_chain _ Qeq op_eq_sgn q_eq); auto|].
  split; [apply (apply_chain _ _ op_gt_sgn q_gt); auto|].
  split; [apply (apply_chain _ _ op_ge_sgn q_ge); auto|].
  split; [apply (apply_chain _ _ op_lt_sgn q_lt); auto|].
  apply (apply_chain _ _ op_le_sgn q_le); auto.
Qed.

Lemma eql_correct_q : forall x y, valid x -> valid y -> cmp_safe x y ->
  (eql x y = true <-> Qeq (qval x) (qval y)) /\ (equal x y = true <-> Qeq (qval x) (qval y)).
Proof.
  intros x y Vx Vy Hs. unfold eql, equal.
  rewrite <- q_eq.
  rewrite (op_eq_sgn (compare_numbers x y)), (op_eq_sgn (value_cmp x y)).
  rewrite compare_numbers_q, value_cmp_q by auto. tauto.
Qed.

Lemma vm_cmp_q : forall x y, valid x -> valid y ->
  (vm_gt x y = true <-> (qval y < qval x)%Q) /\
  (vm_ge x y = true <-> (qval y <= qval x)%Q) /\
  (vm_lt x y = true <-> (qval x < qval y)%Q) /\
  (vm_le x y = true <-> (qval x <= qval y)%Q) /\
  (vm_num_eq x y = true <-> (qval x == qval y)%Q).
Proof.
  intros x y Vx Vy.
  destruct x as [a|a|p], y as [b|b|q];
  try (match goal with |- context[vm_gt ?u ?v] =>
    assert (C := compare_numbers_q u v Vx Vy I);
    pose proof (q_gt (qval u) (qval v)) as G1; pose proof (q_ge (qval u) (qval v)) as G2;
    pose proof (q_lt (qval u) (qval v)) as G3; pose proof (q_le (qval u) (qval v)) as G4;
    pose proof (q_eq (qval u) (qval v)) as G5;
    rewrite <- C in G1, G2, G3, G4, G5;
    unfold vm_gt, vm_ge, vm_lt, vm_le, vm_num_eq;
    rewrite op_gt_sgn, op_ge_sgn, op_lt_sgn, op_le_sgn, op_eq_sgn; tauto end).
  cbn. unfold Qlt, Qle, Qeq, inject_Z; simpl. lia.
Qed.

Lemma eql_correct : forall x y a b,
  valid x -> valid y -> is_int x a -> is_int y b -> cmp_safe x y ->
  (eql x y = true <-> a = b) /\ (equal x y = true <-> a = b).
Proof.
  intros x y a b Vx Vy Hx Hy Hs. unfold eql, equal.
  assert (C1 := compare_numbers_sgn x y a b Vx Vy Hx Hy Hs).
  assert (C2 := value_cmp_sgn x y a b Vx Vy Hx Hy Hs). lia.
Qed.

Lemma vm_cmp_correct : forall x y a b,
  valid x -> valid y -> is_int x a -> is_int y b ->
  vm_gt x y = (b <? a) /\ vm_ge x y = (b <=? a) /\ vm_lt x y = (a <? b) /\
  vm_le x y = (a <=? b) /\ vm_num_eq x y = (a =? b).
Proof.
  intros x y a b Vx Vy Hx Hy.
  destruct (promote_int x y _ _ Hx Hy) as [(Ex & Ey & E)|E]; subst.
  - cbn. repeat split; reflexivity.
  - assert (C : compare_numbers x y = Z.sgn (a - b)).
    { unfold compare_numbers. rewrite E. apply sign_of_sgn. }
    assert (N : forall z w, x = Fix z -> y = Fix w -> False).
    { intros z w -> ->. cbn in E. discriminate. }
    unfold vm_gt, vm_ge, vm_lt, vm_le, vm_num_eq.
    destruct x as [z|z|p], y as [w|w|q]; try (exfalso; eapply N; reflexivity); rewrite C;
      repeat split; lia.
Qed.

(** ** Division *)

Lemma zerop_int : forall y b, is_int y b -> zerop y = (b =? 0).
Proof. intros y b [->| ->]; reflexivity. Qed.

Lemma quot_fix_range : forall a b, in_fixnum_range a -> in_fixnum_range b -> b <> 0 ->
  ~ (a = -2305843009213693952 /\ b = -1) -> in_fixnum_range (Z.quot a b).
Proof.
  intros a b Ha Hb Hb0 Hn. unfold in_fixnum_range in *.
  pose proof (Z.quot_rem' a b). pose proof (Z.rem_bound_abs a b Hb0).
  destruct (Z.eq_dec b (-1)) as [->|N1].
  - rewrite <- (Z.opp_involutive (-1)). rewrite Z.quot_opp_r by lia.
    change (- -1) with 1. rewrite Z.quot_1_r. lia.
  - destruct (Z.eq_dec b 1) as [->|N2]; [rewrite Z.quot_1_r; lia|].
    assert (2 <= Z.abs b) by lia.
    assert (Z.abs (Z.quot a b) <= Z.abs a / 2).
    { rewrite <- Z.quot_abs by lia. rewrite Z.quot_div_nonneg by lia.
      apply Z.div_le_compat_l; lia. }
    assert (Z.abs a / 2 <= 2305843009213693952 / 2) by (apply Z.div_le_mono; lia).
    change (2305843009213693952 / 2) with 1152921504606846976 in *. lia.
Qed.

Lemma rem_fix_range : forall a b, in_fixnum_range a -> b <> 0 ->
  in_fixnum_range (Z.rem a b).
Proof.
  intros a b Ha Hb. unfold in_fixnum_range in *.
  pose proof (Z.rem_le (Z.abs a) (Z.abs b) ltac:(lia) ltac:(lia)).
  rewrite Z.rem_abs in H by lia.
  destruct (Z_lt_le_dec a 0).
  - pose proof (Z.rem_nonpos a b Hb). lia.
  - pose proof (Z.rem_nonneg a b Hb). lia.
Qed.

Lemma ret_int_big : forall z, returns_int (Ok (maybe_demote (Big z))) z.
Proof.
  intros z. destruct (demote_big z) as [C I]. exists (maybe_demote (Big z)).
  auto using canonical_valid.
Qed.

Lemma quotient_correct : forall x y a b, valid x -> valid y -> is_int x a -> is_int y b ->
  b <> 0 -> div_safe x y -> returns_int (quotient x y) (Z.quot a b).
Proof.
  intros x y a b Vx Vy Hx Hy Hb Hs.
  assert (E : quotient x y =
    if zerop y then DivZero
    else match promote x y with
         | (Fix a, Fix b) => Ok (make_int (Z.quot a b))
         | (Big a, Big b) => Ok (maybe_demote (Big (Z.quot a b)))
         | _ => Undef
         end) by (destruct Hx as [->| ->], Hy as [->| ->]; reflexivity).
  rewrite E, (zerop_int y b Hy). destruct (b =? 0) eqn:Z0; [lia|].
  destruct (promote_int x y _ _ Hx Hy) as [(Ex & Ey & E')|E']; rewrite E'; subst.
  - apply ret_fix, quot_fix_range; auto. intros [-> ->]. apply Hs; auto.
  - apply ret_int_big.
Qed.

Lemma remainder_correct : forall x y a b, valid x -> valid y -> is_int x a -> is_int y b ->
  b <> 0 -> returns_int (remainder x y) (Z.rem a b).
Proof.
  intros x y a b Vx Vy Hx Hy Hb. unfold remainder.
  rewrite (zerop_int y b Hy). destruct (b =? 0) eqn:Z0; [lia|].
  cases2 x y Hx Hy.
  - apply ret_fix, rem_fix_range; auto.
  - apply ret_int_big.
Qed.

Lemma fix_sign_mod : forall a b, b <> 0 -> fix_sign (Z.rem a b) b = a mod b.
Proof.
  intros a b Hb. unfold fix_sign.
  pose proof (Z.quot_rem' a b) as Q.
  pose proof (Z.rem_bound_abs a b Hb) as B.
  destruct (b <? 0) eqn:Eb.
  - assert (b < 0) by lia.
    destruct (0 <? Z.rem a b) eqn:Er.
    + apply (Z.mod_unique_neg a b (Z.quot a b - 1)); lia.
    + apply (Z.mod_unique_neg a b (Z.quot a b)); lia.
  - assert (0 < b) by lia.
    destruct (Z.rem a b <? 0) eqn:Er.
    + apply (Z.mod_unique_pos a b (Z.quot a b - 1)); lia.
    + apply (Z.mod_unique_pos a b (Z.quot a b)); lia.
Qed.

Lemma mod_fix_range : forall a b, in_fixnum_range b -> b <> 0 -> in_fixnum_range (a mod b).
Proof.
  intros a b Hb H0. unfold in_fixnum_range in *.
  destruct (Z_lt_le_dec b 0).
  - pose proof (Z.mod_neg_bound a b). lia.
  - pose proof (Z.mod_pos_bound a b). lia.
Qed.

Lemma modulo_correct : forall x y a b, valid x -> valid y -> is_int x a -> is_int y b ->
  b <> 0 -> returns_int (modulo x y) (a mod b).
Proof.
  intros x y a b Vx Vy Hx Hy Hb. unfold modulo.
  rewrite (zerop_int y b Hy). destruct (b =? 0) eqn:Z0; [lia|].
  cases2 x y Hx Hy.
  - rewrite fix_sign_mod by auto. apply ret_fix, mod_fix_range; auto.
  - rewrite fix_sign_mod by auto. apply ret_int_big.
Qed.

Lemma inject_nz : forall b, b <> 0 -> ~ Qeq (inject_Z b) 0.
Proof. intros b H E. unfold Qeq, inject_Z in E; simpl in E. lia. Qed.

Lemma exact_div : forall a b, b <> 0 -> Z.rem a b = 0 ->
  Qeq (inject_Z (Z.quot a b)) (inject_Z a / inject_Z b).
Proof.
  intros a b Hb H0. pose proof (Z.quot_rem' a b) as E. rewrite H0, Z.add_0_r in E.
  rewrite E at 2. rewrite inject_Z_mult. field. apply inject_nz; auto.
Qed.

Lemma nonint_den : forall a b q, b <> 0 -> Z.rem a b <> 0 -> q = Qred q ->
  Qeq q (inject_Z a / inject_Z b) -> Qden q <> 1%positive.
Proof.
  intros a b q Hb H0 Hr He Hd.
  assert (I : Qeq (q * inject_Z b) (inject_Z a)).
  { rewrite He. field. apply inject_nz; auto. }
  unfold Qeq, inject_Z in I. simpl in I. rewrite Hd in I. simpl in I.
  rewrite !Z.mul_1_r in I. apply H0. rewrite <- I. apply Z.rem_mul. auto.
Qed.

Lemma canonical_rat : forall a b q, b <> 0 -> Z.rem a b <> 0 -> Qred q = q ->
  Qeq q (inject_Z a / inject_Z b) ->
  returns_canonical (Ok (Rat q)) (inject_Z a / inject_Z b).
Proof.
  intros a b q Hb H0 Hr He. exists (Rat q). split; [reflexivity|]. split; [|exact He].
  cbn [canonical]. split; [exact Hr|]. exact (nonint_den a b q Hb H0 (eq_sym Hr) He).
Qed.

Lemma zerop_q : forall y, zerop y = false -> ~ Qeq (qval y) 0.
Proof.
  intros [b|b|q] H; simpl in *; [apply inject_nz; lia|apply inject_nz; lia|].
  unfold Qeq; simpl. lia.
Qed.

Lemma div_correct : forall x y, valid x -> valid y -> ~ Qeq (qval y) 0 -> div_safe x y ->
  returns_canonical (number_div x y) (qval x / qval y)%Q.
Proof.
  intros x y Vx Vy Hz Hs. unfold number_div.
  assert (Z0 : zerop y = false).
  { destruct (zerop y) eqn:E; [|reflexivity]. exfalso. apply Hz.
    destruct y as [b|b|q]; simpl in *; unfold Qeq, inject_Z; simpl; lia. }
  rewrite Z0. cases3 x y Vx Vy.
  - subst. simpl in Z0, Vx, Vy. assert (Hb : b <> 0) by lia.
    destruct (Z.rem a b =? 0) eqn:R.
    + assert (R0 : Z.rem a b = 0) by lia.
      assert (Rg : in_fixnum_range (Z.quot a b)).
      { apply quot_fix_range; auto. intros [-> ->]. apply Hs; auto. }
      rewrite make_int_id by auto. exists (Fix (Z.quot a b)).
      split; [reflexivity|]. split; [exact Rg|]. simpl. apply exact_div; auto.
    + assert (R0 : Z.rem a b <> 0) by lia. cbn [qval].
      apply canonical_rat; auto.
      * destruct (b <? 0); [apply Qred_idem|unfold ratio; apply Qred_idem].
      * unfold ratio. destruct (b <? 0) eqn:Eb; rewrite ?Qred_correct.
        -- rewrite Z.abs_neq by lia. rewrite inject_Z_opp. field. apply inject_nz; auto.
        -- rewrite Z.abs_eq by lia. reflexivity.
  - rewrite (is_int_qval _ _ Ex), (is_int_qval _ _ Ey).
    rewrite (zerop_int y b Ey) in Z0. assert (Hb : b <> 0) by lia.
    destruct (Z.rem a b =? 0) eqn:R.
    + apply ret_big. apply exact_div; [auto|lia].
    + apply canonical_rat; auto; [lia|unfold ratio; apply Qred_idem|].
      unfold ratio. apply Qred_correct.
  - subst. apply ret_rat. reflexivity.
Qed.

Lemma foldv_div : forall l s q,
  valid s -> Qeq (qval s) q -> Forall valid l -> l <> [] ->
  Forall (fun y => ~ Qeq (qval y) 0) l -> Forall (fun y => y <> Fix (-1)) l ->
  returns_canonical (number_foldv number_div s l) (fold_left Qdiv (map qval l) q).
Proof.
  induction l as [|a l IH]; intros s q Hs Hq Hl Hne Hz Hm; [congruence|].
  cbn [number_foldv map fold_left].
  inversion Hl as [|? ? Ha Hl']; subst. inversion Hz as [|? ? Za Hz']; subst.
  inversion Hm as [|? ? Ma Hm']; subst.
  destruct (div_correct s a Hs Ha Za) as (n & E & C & V).
  { intros [_ X]. auto. }
  rewrite E.
  assert (V' : Qeq (qval n) (q / qval a)) by (rewrite V, Hq; reflexivity).
  destruct l as [|b l].
  - cbn. exists n. auto.
  - apply IH; auto using canonical_valid. discriminate.
Qed.

Lemma expt_correct : forall x a e, is_int x a -> 0 <= e -> returns_int (expt x e) (a ^ e).
Proof.
  intros x a e [->| ->] He; cbn [expt]; (destruct (e <? 0) eqn:E; [lia|]); apply ret_Big.
Qed.

Lemma expt_neg_correct : forall x a e, is_int x a -> a <> 0 -> e < 0 ->
  returns_canonical (expt x e) (1 / inject_Z (a ^ (- e))).
Proof.
  intros x a e Hx Ha He.
  assert (P : a ^ (- e) <> 0) by (apply Z.pow_nonzero; lia).
  assert (G : returns_canonical (number_div (make_int 1) (Big (a ^ (- e)))) (1 / inject_Z (a ^ (- e)))).
  { apply (div_correct (Fix 1) (Big (a ^ (- e)))).
    - simpl; unfold in_fixnum_range; lia.
    - exact I.
    - apply inject_nz. exact P.
    - intros [_ X]. discriminate. }
  destruct Hx as [->| ->]; cbn [expt]; (destruct (e <? 0) eqn:E; [|lia]); exact G.
Qed.

Lemma div_zero_signals : forall x y, Qeq (qval y) 0 ->
  number_div x y = DivZero /\ remainder x y = DivZero /\ modulo x y = DivZero /\
  (forall a b, is_int x a -> is_int y b -> quotient x y = DivZero).
Proof.
  intros x y H.
  assert (Z0 : zerop y = true).
  { destruct y as [b|b|q]; simpl in *; unfold Qeq, inject_Z in H; simpl in H; lia. }
  unfold number_div, remainder, modulo. rewrite Z0. repeat split; auto.
  intros a b Hx Hy. unfold quotient. rewrite Z0.
  destruct Hx as [->| ->], Hy as [->| ->]; reflexivity.
Qed.

(** ** Printing and parsing *)

Definition num_of_digits (radix : Z) (acc : Z) (l : list Z) : Z :=
  fold_left (fun v c => v * radix + char_digit c) l acc.

Lemma char_digit_char : forall d, 0 <= d < 36 -> char_digit (digit_char d) = d.
Proof.
  intros d H. unfold char_digit, digit_char, toupper, digit_map.
  destruct (d <? 10) eqn:E.
  - assert (X : (97 <=? 48 + d) && (48 + d <=? 122) = false) by lia. rewrite X.
    assert (Y : (48 + d - 48 <? 0) || (44 <=? 48 + d - 48) = false) by lia. rewrite Y.
    assert (W : (0 <=? 48 + d - 48) && (48 + d - 48 <=? 9) = true) by lia. rewrite W. lia.
  - assert (X : (97 <=? 87 + d) && (87 + d <=? 122) = true) by lia. rewrite X.
    assert (Y : (87 + d - 32 - 48 <? 0) || (44 <=? 87 + d - 32 - 48) = false) by lia. rewrite Y.
    assert (W : (0 <=? 87 + d - 32 - 48) && (87 + d - 32 - 48 <=? 9) = false) by lia. rewrite W.
    assert (W2 : (17 <=? 87 + d - 32 - 48) && (87 + d - 32 - 48 <=? 43) = true) by lia. rewrite W2. lia.
Qed.

Definition is_digit (radix c : Z) : Prop := exists d, 0 <= d < radix /\ c = digit_char d.

Lemma digits_acc_spec : forall fuel radix n acc,
  2 <= radix <= 36 -> 0 <= n -> n < 2 ^ Z.of_nat fuel -> (0 < fuel)%nat ->
  exists l, digits_acc fuel radix n acc = l ++ acc /\ l <> [] /\
    Forall (is_digit radix) l /\
    num_of_digits radix 0 l = n.
Proof.
  induction fuel as [|f IH]; intros radix n acc Hr Hn Hf Hp; [lia|].
  cbn [digits_acc].
  assert (M : 0 <= n mod radix < radix) by (apply Z.mod_pos_bound; lia).
  assert (D : n = radix * (n / radix) + n mod radix) by (apply Z.div_mod; lia).
  destruct (n / radix =? 0) eqn:E.
  - exists [digit_char (n mod radix)]. split; [reflexivity|]. split; [discriminate|].
    split; [repeat constructor; exists (n mod radix); auto|].
    unfold num_of_digits; cbn [fold_left]. rewrite char_digit_char by lia. lia.
  - assert (0 <= n / radix) by (apply Z.div_pos; lia).
    assert (Hlt : n / radix < 2 ^ Z.of_nat f).
    { apply Z.div_lt_upper_bound; [lia|].
      replace (Z.of_nat (S f)) with (Z.succ (Z.of_nat f)) in Hf by lia.
      rewrite Z.pow_succ_r in Hf by lia. nia. }
    assert (0 < f)%nat.
    { destruct f; [|lia]. simpl in Hlt. lia. }
    destruct (IH radix (n / radix) (digit_char (n mod radix) :: acc) Hr H Hlt H0)
      as (l & E1 & E2 & E3 & E4).
    exists (l ++ [digit_char (n mod radix)]). split; [rewrite E1, <- app_assoc; reflexivity|].
    split; [destruct l; discriminate|].
    split; [apply Forall_app; split; [exact E3|repeat constructor; exists (n mod radix); auto]|].
    unfold num_of_digits in *. rewrite fold_left_app. cbn [fold_left]. rewrite E4.
    rewrite char_digit_char by lia. lia.
Qed.

Lemma digits_spec : forall radix n, 2 <= radix <= 36 -> 0 <= n ->
  digits radix n <> [] /\ Forall (is_digit radix) (digits radix n) /\
  num_of_digits radix 0 (digits radix n) = n.
Proof.
  intros radix n Hr Hn. unfold digits.
  destruct (digits_acc_spec (S (Z.to_nat (Z.log2 n))) radix n [] Hr Hn) as (l & E & A & B & C).
  - replace (Z.of_nat (S (Z.to_nat (Z.log2 n)))) with (Z.succ (Z.log2 n))
      by (pose proof (Z.log2_nonneg n); lia).
    destruct (Z.eq_dec n 0) as [->|N]; [reflexivity|].
    apply Z.log2_spec. lia.
  - lia.
  - rewrite E, app_nil_r. auto.
Qed.

Lemma mpz_set_str_digits : forall radix l v, 2 <= radix <= 36 -> Forall (is_digit radix) l ->
  mpz_set_str radix l v = Some (num_of_digits radix v l).
Proof.
  intros radix l. induction l as [|c l IH]; intros v Hr H; [reflexivity|].
  inversion H as [|? ? (d & Hd & ->) H']; subst. cbn [mpz_set_str].
  rewrite char_digit_char by lia.
  assert (X : (d <? 0) || (radix <=? d) = false) by lia. rewrite X.
  rewrite IH by auto. unfold num_of_digits. cbn [fold_left]. rewrite char_digit_char by lia. reflexivity.
Qed.

Lemma num_of_digits_bound : forall radix l v, 2 <= radix <= 36 -> Forall (is_digit radix) l -> 0 <= v ->
  0 <= num_of_digits radix v l < (v + 1) * radix ^ Z.of_nat (length l).
Proof.
  intros radix l. induction l as [|c l IH]; intros v Hr H Hv.
  - simpl. lia.
  - inversion H as [|? ? (d & Hd & ->) H']; subst.
    unfold num_of_digits in *. cbn [fold_left length]. rewrite char_digit_char by lia.
    specialize (IH (v * radix + d) Hr H' ltac:(nia)).
    replace (Z.of_nat (S (length l))) with (Z.succ (Z.of_nat (length l))) by lia.
    rewrite Z.pow_succ_r by lia.
    assert (0 < radix ^ Z.of_nat (length l)) by (apply Z.pow_pos_nonneg; lia). nia.
Qed.

Lemma parse_fix_digits : forall radix l v,
  2 <= radix <= 16 -> Forall (is_digit radix) l -> 0 <= v ->
  (v + 1) * radix ^ Z.of_nat (length l) <= 2 ^ 62 ->
  parse_fix radix l v = Some (num_of_digits radix v l).
Proof.
  intros radix l. induction l as [|c l IH]; intros v Hr H Hv Hb; [reflexivity|].
  inversion H as [|? ? (d & Hd & ->) H']; subst. cbn [parse_fix].
  assert (Hstep : (v * radix + d + 1) * radix ^ Z.of_nat (length l) <= 2 ^ 62).
  { cbn [length] in Hb. replace (Z.of_nat (S (length l))) with (Z.succ (Z.of_nat (length l))) in Hb by lia.
    rewrite Z.pow_succ_r in Hb by lia.
    assert (0 < radix ^ Z.of_nat (length l)) by (apply Z.pow_pos_nonneg; lia). nia. }
  assert (Hw : wrap64 (v * radix + d) = v * radix + d).
  { apply wrap64_id. assert (0 < radix ^ Z.of_nat (length l)) by (apply Z.pow_pos_nonneg; lia).
    change (2 ^ 62) with 4611686018427387904 in Hstep. nia. }
  destruct (radix =? 10) eqn:E10.
  - assert (radix = 10) by lia. subst radix.
    assert (DC : digit_char d = 48 + d) by (unfold digit_char; destruct (d <? 10) eqn:?; lia).
    assert (X : (digit_char d <? 48) || (57 <? digit_char d) = false) by lia. rewrite X.
    replace (digit_char d - 48) with d by lia. rewrite Hw.
    rewrite IH by (auto; lia).
    unfold num_of_digits. cbn [fold_left]. rewrite char_digit_char by lia. reflexivity.
  - rewrite char_digit_char by lia.
    assert (X : (d <? 0) || (radix <=? d) = false) by lia. rewrite X. rewrite Hw.
    rewrite IH by (auto; nia).
    unfold num_of_digits. cbn [fold_left]. rewrite char_digit_char by lia. reflexivity.
Qed.

(** The size test keeps short literals within 61 bits. *)
Lemma bit_bound_ok : forall radix len bits, 0 <= len ->
  bit_bound radix len = Some bits -> bits < int_bits ->
  2 <= radix <= 16 /\ radix ^ len <= 2 ^ 61.
Proof.
  intros radix len bits Hlen H Hb. unfold bit_bound in H. unfold int_bits in Hb.
  destruct (radix =? 2) eqn:E2; [|destruct (radix =? 8) eqn:E8; [|destruct (radix =? 10) eqn:E10;
    [|destruct (radix =? 16) eqn:E16; [|discriminate]]]]; inversion H; subst; clear H.
  - assert (radix = 2) by lia; subst. split; [lia|]. apply Z.pow_le_mono_r; lia.
  - assert (radix = 8) by lia; subst. split; [lia|].
    change 8 with (2 ^ 3). rewrite <- Z.pow_mul_r by lia. apply Z.pow_le_mono_r; lia.
  - assert (radix = 10) by lia; subst. split; [lia|].
    assert (len <= 18). { assert (len * 27 < 62 * 8) by (apply Z.nle_gt; intro G; apply Z.div_le_mono with (c:=8) in G; [rewrite Z.div_mul in G; lia|lia]). lia. }
    apply Z.le_trans with (10 ^ 18); [apply Z.pow_le_mono_r; lia|]. vm_compute. discriminate.
  - assert (radix = 16) by lia; subst. split; [lia|].
    change 16 with (2 ^ 4). rewrite <- Z.pow_mul_r by lia. apply Z.pow_le_mono_r; lia.
Qed.

Lemma parse_digits : forall radix l sgn,
  (radix = 2 \/ radix = 8 \/ radix = 10 \/ radix = 16) -> (sgn = 1 \/ sgn = -1) ->
  l <> [] -> Forall (is_digit radix) l ->
  returns_canonical (parse_number l radix sgn) (inject_Z (sgn * num_of_digits radix 0 l)).
Proof.
  intros radix l sgn Hr Hs Hne H. unfold parse_number.
  destruct l as [|c l']; [congruence|]. set (l := c :: l') in *.
  destruct (bit_bound radix (Z.of_nat (length l))) as [bits|] eqn:B.
  2:{ exfalso. unfold bit_bound in B. destruct Hr as [->|[->|[->| ->]]]; discriminate. }
  destruct (bits <? int_bits) eqn:E.
  - destruct (bit_bound_ok radix (Z.of_nat (length l)) bits ltac:(lia) B ltac:(lia)) as [R1 R2].
    rewrite parse_fix_digits; auto; [|lia|].
    2:{ rewrite Z.mul_1_l. eapply Z.le_trans; [exact R2|]. vm_compute. discriminate. }
    pose proof (num_of_digits_bound radix l 0 ltac:(lia) H ltac:(lia)) as Bd.
    change (2 ^ 61) with 2305843009213693952 in R2.
    set (v := num_of_digits radix 0 l) in *.
    assert (Rg : forall w, w = v \/ w = - v -> in_fixnum_range w) by (unfold in_fixnum_range; intros; lia).
    destruct Hs as [->| ->]; cbn [Z.ltb Z.compare].
    + rewrite make_int_id by (apply Rg; lia). exists (Fix v). repeat split; try (apply (Rg v); lia).
      simpl. replace (1 * v) with v by lia. destruct v; reflexivity.
    + rewrite wrap64_id by lia. rewrite make_int_id by (apply Rg; lia).
      exists (Fix (v * -1)). repeat split; try (apply (Rg (v * -1)); lia).
      cbn [qval]. replace (v * -1) with (-1 * v) by lia. reflexivity.
  - assert (R : 2 <= radix <= 36) by (clear - Hr; lia).
    rewrite mpz_set_str_digits by auto. apply ret_big.
    destruct Hs as [->| ->]; cbn [Z.ltb Z.compare];
      set (v := num_of_digits radix 0 l); [replace (1 * v) with v by lia|replace (-1 * v) with (- v) by lia]; reflexivity.
Qed.

Lemma digit_not_sign : forall radix c, 2 <= radix <= 36 -> is_digit radix c -> c <> 45 /\ c <> 43.
Proof.
  intros radix c Hr (d & Hd & ->). unfold digit_char. destruct (d <? 10) eqn:?; lia.
Qed.

Lemma string_to_number_pos : forall radix l, 2 <= radix <= 36 -> Forall (is_digit radix) l ->
  l <> [] -> string_to_number l radix = parse_number l radix 1.
Proof.
  intros radix l Hr H Hne. destruct l as [|c l]; [congruence|].
  inversion H as [|? ? Hc _]; subst. destruct (digit_not_sign radix c Hr Hc) as [N1 N2].
  unfold string_to_number.
  destruct c as [|p|p]; try reflexivity.
  repeat (destruct p as [p|p|]; try reflexivity; try congruence).
Qed.

Lemma signed_roundtrip : forall radix z,
  (radix = 2 \/ radix = 8 \/ radix = 10 \/ radix = 16) ->
  returns_canonical (string_to_number (signed_digits radix z) radix) (inject_Z z).
Proof.
  intros radix z Hr. assert (R : 2 <= radix <= 36) by lia.
  unfold signed_digits. destruct (z <? 0) eqn:E.
  - destruct (digits_spec radix (- z) R ltac:(lia)) as (A & B & C).
    cbn [string_to_number].
    assert (P := parse_digits radix (digits radix (- z)) (-1) Hr ltac:(auto) A B).
    rewrite C in P. replace (-1 * - z) with z in P by lia. exact P.
  - destruct (digits_spec radix z R ltac:(lia)) as (A & B & C).
    rewrite string_to_number_pos by auto.
    assert (P := parse_digits radix (digits radix z) 1 Hr ltac:(auto) A B).
    rewrite C in P. rewrite Z.mul_1_l in P. exact P.
Qed.

Lemma print_parse : forall n z radix,
  valid n -> is_int n z -> (radix = 2 \/ radix = 8 \/ radix = 10 \/ radix = 16) ->
  print_safe n radix ->
  returns_canonical (string_to_number (print_integer n radix) radix) (inject_Z z).
Proof.
  intros n z radix V [->| ->] Hr Hs; cbn [print_integer]; [|apply signed_roundtrip; auto].
  simpl in Hs, V. unfold in_fixnum_range in V.
  destruct Hr as [->|[->|[->| ->]]]; cbn [Z.eqb Pos.eqb]; try (apply signed_roundtrip; auto).
  - assert (0 <= z) by (apply Hs; auto).
    rewrite Z.mod_small by (change (2^64) with 18446744073709551616; lia).
    replace (digits 8 z) with (signed_digits 8 z).
    + apply signed_roundtrip; auto.
    + unfold signed_digits. destruct (z <? 0) eqn:?; [lia|reflexivity].
  - assert (0 <= z) by (apply Hs; auto).
    rewrite Z.mod_small by (change (2^64) with 18446744073709551616; lia).
    replace (digits 16 z) with (signed_digits 16 z).
    + apply signed_roundtrip; auto.
    + unfold signed_digits. destruct (z <? 0) eqn:?; [lia|reflexivity].
Qed.

(** Negative fixnums in radix 16 and 8 always come back as another number. *)
Lemma print_parse_neg_wrong : forall z radix,
  in_fixnum_range z -> z < 0 -> radix = 8 \/ radix = 16 ->
  returns_canonical (string_to_number (print_integer (Fix z) radix) radix) (inject_Z (z + 18446744073709551616)).
Proof.
  intros z radix V Hz Hr. unfold in_fixnum_range in V.
  assert (M : z mod 2 ^ 64 = z + 18446744073709551616).
  { symmetry. apply Z.mod_unique with (-1); change (2 ^ 64) with 18446744073709551616; lia. }
  assert (S : forall r, digits r (z + 18446744073709551616) = signed_digits r (z + 18446744073709551616)).
  { intros r. unfold signed_digits. destruct (z + 18446744073709551616 <? 0) eqn:?; [lia|reflexivity]. }
  destruct Hr as [->| ->]; cbn [print_integer Z.eqb Pos.eqb]; rewrite M, S; apply signed_roundtrip; auto.
Qed.

(** max and min *)
Lemma max_min_correct : forall x y a b,
  valid x -> valid y -> is_int x a -> is_int y b -> cmp_safe x y ->
  is_int (number_max x y) (Z.max a b) /\ is_int (number_min x y) (Z.min a b).
Proof.
  intros x y a b Vx Vy Hx Hy Hs.
  assert (C1 := compare_numbers_sgn x y a b Vx Vy Hx Hy Hs).
  assert (C2 := value_cmp_sgn x y a b Vx Vy Hx Hy Hs).
  assert (M : forall c, Z.sgn c = Z.sgn (a - b) ->
     is_int (if 0 <=? c then x else y) (Z.max a b) /\ is_int (if c <=? 0 then x else y) (Z.min a b)).
  { intros c Hc. split.
    - destruct (0 <=? c) eqn:E; [rewrite Z.max_l by lia|rewrite Z.max_r by lia]; auto.
    - destruct (c <=? 0) eqn:E; [rewrite Z.min_l by lia|rewrite Z.min_r by lia]; auto. }
  pose proof (M _ C1) as M1. pose proof (M _ C2) as M2.
  unfold number_max, number_min.
  destruct x as [a'|a'|p], y as [b'|b'|q]; tauto.
Qed.

Lemma radix_crash : forall z, in_fixnum_range z ->
  string_to_number (print_integer (Fix z) 36) 36 = Crash.
Proof.
  intros z _. cbn [print_integer Z.eqb Pos.eqb].
  assert (P : forall l sgn, l <> [] -> parse_number l 36 sgn = Crash).
  { intros [|c l] sgn H; [congruence|reflexivity]. }
  unfold signed_digits. destruct (z <? 0) eqn:E.
  - destruct (digits_spec 36 (- z) ltac:(lia) ltac:(lia)) as (A & B & C).
    cbn [string_to_number]. apply P, A.
  - destruct (digits_spec 36 z ltac:(lia) ltac:(lia)) as (A & B & C).
    rewrite string_to_number_pos by (auto; lia). apply P, A.
Qed.

Lemma num_of_digit_chars : forall radix ds v, 2 <= radix <= 36 -> Forall (fun d => 0 <= d < radix) ds ->
  num_of_digits radix v (map digit_char ds) = fold_left (fun v d => v * radix + d) ds v.
Proof.
  intros radix ds. induction ds as [|d ds IH]; intros v Hr H; [reflexivity|].
  inversion H; subst. unfold num_of_digits in *. cbn [map fold_left].
  rewrite char_digit_char by lia. apply IH; auto.
Qed.

Lemma parse_value : forall radix ds sgn,
  (radix = 2 \/ radix = 8 \/ radix = 10 \/ radix = 16) -> (sgn = 1 \/ sgn = -1) ->
  ds <> [] -> Forall (fun d => 0 <= d < radix) ds ->
  returns_canonical
    (string_to_number ((if sgn =? 1 then [] else [45]) ++ map digit_char ds) radix)
    (inject_Z (sgn * fold_left (fun v d => v * radix + d) ds 0)).
Proof.
  intros radix ds sgn Hr Hs Hne H. assert (R : 2 <= radix <= 36) by (clear - Hr; lia).
  assert (D : Forall (is_digit radix) (map digit_char ds)).
  { clear - H. induction H; simpl; constructor; auto. exists x. auto. }
  assert (N : map digit_char ds <> []) by (destruct ds; [congruence|discriminate]).
  rewrite <- num_of_digit_chars by auto.
  assert (P := parse_digits radix (map digit_char ds) sgn Hr Hs N D).
  destruct Hs as [->| ->]; cbn [Z.eqb Pos.eqb app].
  - rewrite string_to_number_pos by auto. exact P.
  - cbn [string_to_number]. exact P.
Qed.

Lemma canonical_unique : forall x y, canonical x -> canonical y ->
  Qeq (qval x) (qval y) -> x = y.
Proof.
  assert (R : forall x q, canonical x -> canonical (Rat q) -> Qeq (qval x) q -> x = Rat q).
  { intros [a|a|p] q Cx Cq E; cbn [qval] in E.
    - exfalso. symmetry in E. destruct (canonical_int (Rat q) a Cq E); discriminate.
    - exfalso. symmetry in E. destruct (canonical_int (Rat q) a Cq E); discriminate.
    - f_equal. destruct Cx as [Rp _], Cq as [Rq _]. rewrite <- Rp, <- Rq. apply Qred_complete, E. }
  intros x y Cx Cy E. destruct y as [b|b|q].
  - destruct (canonical_int x b Cx E) as [->| ->]; [reflexivity|]. simpl in *. tauto.
  - destruct (canonical_int x b Cx E) as [->| ->]; [|reflexivity]. simpl in *. tauto.
  - apply R; auto.
Qed.

Lemma add_sub_fixnum : forall a y, in_fixnum_range a -> valid y ->
  exists s, number_add (Fix a) y = Ok s /\ number_sub s y = Ok (Fix a).
Proof.
  intros a y Ha Vy.
  destruct (add_correct (Fix a) y Ha Vy) as (s & E & C & V).
  destruct (sub_correct s y (canonical_valid _ C) Vy) as (d & E2 & C2 & V2).
  exists s. split; [exact E|]. rewrite E2. f_equal. apply canonical_unique; auto.
  rewrite V2, V. ring.
Qed.
