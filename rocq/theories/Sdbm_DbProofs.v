From Coq Require Import ZArith List Bool Lia ZifyBool.
From Verif Require Import Sdbm_Model Sdbm_Spec Sdbm_Proofs.
Import ListNotations.
Open Scope Z_scope.

Local Opaque Z.mul Z.add Z.sub Z.pow Z.div Z.modulo.

(** * Bits and numbers *)

Lemma pow2_pos : forall i, 0 < 2 ^ Z.of_nat i.
Proof. intros. apply Z.pow_pos_nonneg; lia. Qed.
Lemma pow2_S : forall i, 2 ^ Z.of_nat (S i) = 2 * 2 ^ Z.of_nat i.
Proof. intros. rewrite Nat2Z.inj_succ, Z.pow_succ_r; lia. Qed.

Lemma land_pow2 : forall h i, 0 <= i -> (Z.land h (2 ^ i) =? 0) = negb (Z.testbit h i).
Proof.
  intros h b Hb. destruct (Z.testbit h b) eqn:T; cbn [negb].
  - apply Z.eqb_neq. intros E.
    assert (Q : Z.testbit (Z.land h (2 ^ b)) b = false) by (rewrite E; apply Z.bits_0).
    rewrite Z.land_spec, T, Z.pow2_bits_true in Q by lia. discriminate.
  - apply Z.eqb_eq. apply Z.bits_inj'. intros n Hn. rewrite Z.land_spec, Z.bits_0.
    destruct (Z.eq_dec n b) as [->|Q]; [now rewrite T|].
    rewrite Z.pow2_bits_false by lia. apply andb_false_r.
Qed.

Lemma land_mask : forall h i, Z.land h (2 ^ Z.of_nat i - 1) = h mod 2 ^ Z.of_nat i.
Proof. intros. rewrite <- Z.land_ones by lia. f_equal. rewrite Z.ones_equiv. lia. Qed.

Lemma mod_S : forall h i,
  h mod 2 ^ Z.of_nat (S i) = h mod 2 ^ Z.of_nat i + (if Z.testbit h (Z.of_nat i) then 2 ^ Z.of_nat i else 0).
Proof.
  intros h i. rewrite pow2_S. pose proof (pow2_pos i) as P.
  rewrite (Z.mul_comm 2). rewrite Z.rem_mul_r by lia.
  replace ((h / 2 ^ Z.of_nat i) mod 2) with (Z.b2z (Z.testbit h (Z.of_nat i))).
  2:{ rewrite Z.testbit_spec' by lia. reflexivity. }
  destruct (Z.testbit h (Z.of_nat i)); cbn [Z.b2z]; lia.
Qed.

Lemma lor_new : forall h i, Z.lor (h mod 2 ^ Z.of_nat i) (2 ^ Z.of_nat i) = h mod 2 ^ Z.of_nat i + 2 ^ Z.of_nat i.
Proof.
  intros h i. pose proof (pow2_pos i) as P. pose proof (Z.mod_pos_bound h (2 ^ Z.of_nat i) P) as B.
  symmetry. rewrite <- Z.lxor_lor. 1: apply Z.add_nocarry_lxor.
  all: apply Z.bits_inj'; intros n Hn; rewrite Z.land_spec, Z.bits_0;
    destruct (Z.eq_dec n (Z.of_nat i)) as [->|Q];
    [rewrite Z.mod_pow2_bits_high by lia; reflexivity
    |rewrite Z.pow2_bits_false by lia; apply andb_false_r].
Qed.

Lemma lor_mask : forall i, Z.lor (2 ^ Z.of_nat i - 1) (2 ^ Z.of_nat i) = 2 ^ Z.of_nat (S i) - 1.
Proof.
  intros i. pose proof (pow2_pos i) as P.
  pose proof (lor_new (2 ^ Z.of_nat i - 1) i) as L.
  rewrite Z.mod_small in L by lia. rewrite L, pow2_S. lia.
Qed.

Lemma testbit_mod_eq : forall h h' i j, h mod 2 ^ Z.of_nat i = h' mod 2 ^ Z.of_nat i -> (j < i)%nat ->
  Z.testbit h (Z.of_nat j) = Z.testbit h' (Z.of_nat j).
Proof.
  intros h h' i j E L.
  rewrite <- (Z.mod_pow2_bits_low h (Z.of_nat i)) by lia.
  rewrite <- (Z.mod_pow2_bits_low h' (Z.of_nat i)) by lia. now rewrite E.
Qed.

Lemma mod_mod_le : forall h i j, (j <= i)%nat -> (h mod 2 ^ Z.of_nat i) mod 2 ^ Z.of_nat j = h mod 2 ^ Z.of_nat j.
Proof.
  intros h i j L. apply Z.bits_inj'. intros n Hn.
  destruct (Z_lt_ge_dec n (Z.of_nat j)) as [Q|Q].
  - rewrite !Z.mod_pow2_bits_low by lia. reflexivity.
  - rewrite !Z.mod_pow2_bits_high by lia. reflexivity.
Qed.

(** * The trie *)

Fixpoint node (h : Z) (i : nat) : Z :=
  match i with
  | O => 0
  | S j => 2 * node h j + (if Z.testbit h (Z.of_nat j) then 2 else 1)
  end.

Lemma node_range : forall h i, 2 ^ Z.of_nat i - 1 <= node h i <= 2 * 2 ^ Z.of_nat i - 2.
Proof.
  induction i as [|i IH]; cbn [node].
  - change (2 ^ Z.of_nat 0) with 1. lia.
  - rewrite pow2_S. destruct (Z.testbit h (Z.of_nat i)); lia.
Qed.

Lemma node_mod : forall h h' i, h mod 2 ^ Z.of_nat i = h' mod 2 ^ Z.of_nat i -> node h i = node h' i.
Proof.
  intros h h'. induction i as [|i IH]; intros E; cbn [node]; auto.
  rewrite (testbit_mod_eq h h' (S i) i E) by lia. rewrite IH; auto.
  rewrite <- (mod_mod_le h (S i) i), <- (mod_mod_le h' (S i) i) by lia. now rewrite E.
Qed.
Lemma node_inj : forall h h' i, node h i = node h' i -> h mod 2 ^ Z.of_nat i = h' mod 2 ^ Z.of_nat i.
Proof.
  intros h h'. induction i as [|i IH]; intros E; cbn [node] in E.
  - change (2 ^ Z.of_nat 0) with 1. now rewrite !Z.mod_1_r.
  - rewrite !mod_S. assert (A : node h i = node h' i /\ Z.testbit h (Z.of_nat i) = Z.testbit h' (Z.of_nat i)).
    { destruct (Z.testbit h (Z.of_nat i)), (Z.testbit h' (Z.of_nat i)); split; try reflexivity; lia. }
    destruct A as [A B]. rewrite (IH A), B. reflexivity.
Qed.
Lemma node_depth : forall h h' i j, node h i = node h' j -> i = j.
Proof.
  intros h h' i j E. pose proof (node_range h i). pose proof (node_range h' j).
  destruct (Nat.lt_trichotomy i j) as [L|[L|L]]; auto; exfalso.
  - assert (2 ^ Z.of_nat (S i) <= 2 ^ Z.of_nat j) by (apply Z.pow_le_mono_r; lia).
    rewrite pow2_S in *. lia.
  - assert (2 ^ Z.of_nat (S j) <= 2 ^ Z.of_nat i) by (apply Z.pow_le_mono_r; lia).
    rewrite pow2_S in *. lia.
Qed.

Definition leaf (bt : Z -> bool) (h : Z) (i : nat) : Prop :=
  (forall j, (j < i)%nat -> bt (node h j) = true) /\ bt (node h i) = false.

Lemma leaf_fun : forall bt h i j, leaf bt h i -> leaf bt h j -> i = j.
Proof.
  intros bt h i j [A B] [C D].
  destruct (Nat.lt_trichotomy i j) as [L|[L|L]]; auto; exfalso.
  - rewrite C in B by lia. discriminate.
  - rewrite A in D by lia. discriminate.
Qed.

(* hashes that agree on the first i bits reach the same leaf at depth i *)
Lemma leaf_same : forall bt h h' i, leaf bt h i -> h mod 2 ^ Z.of_nat i = h' mod 2 ^ Z.of_nat i -> leaf bt h' i.
Proof.
  intros bt h h' i [A B] E. split.
  - intros j L. rewrite <- (A j L). f_equal. symmetry. apply node_mod.
    rewrite <- (mod_mod_le h i j), <- (mod_mod_le h' i j) by lia. now rewrite E.
  - rewrite <- B. f_equal. symmetry. now apply node_mod.
Qed.

(* distinct leaves have distinct page numbers *)
Lemma leaf_page : forall bt h h' i j, leaf bt h i -> leaf bt h' j ->
  h mod 2 ^ Z.of_nat i = h' mod 2 ^ Z.of_nat j -> i = j.
Proof.
  assert (W : forall bt h h' i j, (i <= j)%nat -> leaf bt h i -> leaf bt h' j ->
    h mod 2 ^ Z.of_nat i = h' mod 2 ^ Z.of_nat j -> i = j).
  { intros bt h h' i j L A B E. apply (leaf_fun bt h'); [|exact B].
    apply (leaf_same bt h); [exact A|].
    rewrite <- (mod_mod_le h' j i L). rewrite <- E. rewrite Z.mod_mod; auto.
    pose proof (pow2_pos i). lia. }
  intros bt h h' i j A B E. destruct (le_lt_dec i j) as [L|L].
  - eapply W; eauto.
  - symmetry. eapply (W bt h' h); eauto; lia.
Qed.

(** * The directory *)

Definition dirbit (blk : dirblk) (n : Z) : bool :=
  negb (Z.land (blk ((n / 8) mod 4096)) (2 ^ (n mod 8)) =? 0).
Definition bits (dk : disk) (n : Z) : bool := (n <? 32768) && dirbit (dblk dk 0) n.

Lemma dirbit_set : forall blk n m, 0 <= n < 32768 -> 0 <= m < 32768 ->
  dirbit (upd blk ((n / 8) mod 4096) (Z.lor (blk ((n / 8) mod 4096)) (2 ^ (n mod 8)))) m =
  (dirbit blk m || (m =? n))%bool.
Proof.
  intros blk n m Hn Hm. unfold dirbit.
  pose proof (Z.mod_pos_bound n 8 ltac:(lia)). pose proof (Z.mod_pos_bound m 8 ltac:(lia)).
  rewrite !land_pow2 by lia. rewrite !negb_involutive.
  unfold upd. destruct (Z.eqb_spec ((m / 8) mod 4096) ((n / 8) mod 4096)) as [E|E].
  - rewrite Z.lor_spec. rewrite E. f_equal.
    rewrite Z.pow2_bits_eqb by lia.
    rewrite !Z.mod_small in E; try (split; [apply Z.div_pos; lia|apply Z.div_lt_upper_bound; lia]).
    pose proof (Z.div_mod n 8 ltac:(lia)). pose proof (Z.div_mod m 8 ltac:(lia)). lia.
  - replace (m =? n) with false; [now rewrite orb_false_r|].
    symmetry. apply Z.eqb_neq. intros ->. apply E. reflexivity.
Qed.

Definition cont (dk : disk) (b : Z) : page := if b <? plen dk then pblk dk b else zeropage.

Definition pgno (h : Z) (i : nat) : Z := h mod 2 ^ Z.of_nat i.
Lemma pgno_range : forall h i, 0 <= pgno h i < 2 ^ Z.of_nat i.
Proof. intros. apply Z.mod_pos_bound, pow2_pos. Qed.

Definition home (dk : disk) (k : bstring) (b : Z) : Prop :=
  k <> [] /\ exists i, leaf (bits dk) (sdbm_hash k) i /\ pgno (sdbm_hash k) i = b.

Record winv (dk : disk) (m : dmap) : Prop := {
  w_dlen : 0 <= dlen dk <= 1;
  w_plen : 0 <= plen dk;
  w_zero : dlen dk = 0 -> forall x, dblk dk 0 x = 0;
  w_zero2 : plen dk = 0 -> dlen dk = 0;
  w_closed : forall n, 0 <= n -> bits dk (2 * n + 1) = true \/ bits dk (2 * n + 2) = true -> bits dk n = true;
  w_leaf : forall h i, leaf (bits dk) h i -> pgno h i < plen dk \/ plen dk = 0;
  w_rep : forall b, 0 <= b < plen dk -> exists ps, rep (pblk dk b) ps /\ NoDup (map fst ps);
  w_hole : forall b, plen dk <= b -> pblk dk b = zeropage;
  w_map : forall k i, leaf (bits dk) (sdbm_hash k) i -> getpair (cont dk (pgno (sdbm_hash k) i)) k = m k
}.

Definition homed (dk : disk) : Prop :=
  forall b, 0 <= b < plen dk -> exists ps, rep (pblk dk b) ps /\ NoDup (map fst ps) /\
    forall k v, In (k, v) ps -> home dk k b.

Record cinv (d : db) : Prop := {
  c_max : maxbno d = dlen (dsk d) * 32768;
  c_dir : (dirbno d = 0 /\ forall x, dirbuf d x = dblk (dsk d) 0 x) \/
          (dirbno d = -1 /\ dlen (dsk d) = 1);
  c_pag : forall h i, leaf (bits (dsk d)) h i -> pagbno d = pgno h i -> pagbuf d = cont (dsk d) (pagbno d);
  c_pag0 : plen (dsk d) = 0 -> pagbuf d = zeropage;
  c_pos : (0 <= pagbno d < plen (dsk d) -> ppos d = pagbno d + 1) /\
          (plen (dsk d) <= pagbno d -> plen (dsk d) <= ppos d);
  c_walk : 0 <= blkptr d /\ 0 <= keyptr d /\ 0 <= ppos d /\ -1 <= pagbno d
}.

Lemma bits_dlen0 : forall dk m n, winv dk m -> dlen dk = 0 -> bits dk n = false.
Proof.
  intros dk m n W E. unfold bits, dirbit. rewrite (w_zero _ _ W E), Z.land_0_l.
  cbn. apply andb_false_r.
Qed.

Lemma dirbit_ext : forall a b n, (forall x, a x = b x) -> dirbit a n = dirbit b n.
Proof. intros a b n H. unfold dirbit. now rewrite H. Qed.

Lemma node_nonneg : forall h i, 0 <= node h i.
Proof. intros. pose proof (node_range h i). pose proof (pow2_pos i). lia. Qed.

Lemma div_small_dir : forall n, 0 <= n < 32768 -> n / 8 / 4096 = 0.
Proof. intros. rewrite Z.div_div by lia. apply Z.div_small. lia. Qed.

Lemma getdbit_ok : forall d n, cinv d -> dlen (dsk d) <= 1 -> 0 <= n < maxbno d ->
  exists buf, getdbit d n = (set_dir d 0 buf, bits (dsk d) n) /\ cinv (set_dir d 0 buf).
Proof.
  intros d n C L Hn. destruct (c_dir _ C) as [[D1 D2]|[D1 D2]]; pose proof (c_max _ C) as M.
  - exists (dirbuf d). unfold getdbit, BYTESIZ, DBLKSIZ. rewrite div_small_dir by lia.
    unfold load_dir. rewrite D1. change (0 =? 0) with true.
    assert (S : d = set_dir d 0 (dirbuf d)) by (destruct d; cbn in *; now subst).
    split.
    + rewrite <- S. f_equal. unfold bits. replace (n <? 32768) with true by lia. cbn [andb].
      unfold dirbit. now rewrite D2.
    + now rewrite <- S.
  - exists (dblk (dsk d) 0). unfold getdbit, BYTESIZ, DBLKSIZ. rewrite div_small_dir by lia.
    unfold load_dir. rewrite D1. change (0 =? -1) with false. rewrite D2.
    change (0 <? 1) with true. cbn [set_dir dirbuf]. split.
    + f_equal. unfold bits. replace (n <? 32768) with true by lia. reflexivity.
    + destruct C. constructor; cbn; auto.
Qed.

Lemma hbit_set_eq : forall h i, (i <= 30)%nat -> hbit_set h i = Z.testbit h (Z.of_nat i).
Proof.
  intros h i L. unfold hbit_set.
  assert (P : 2 ^ Z.of_nat i <= 2 ^ 30) by (apply Z.pow_le_mono_r; lia).
  pose proof (pow2_pos i). unfold wrap. change (2 ^ (32 - 1)) with (2 ^ 31) in *.
  change (2 ^ 30) with 1073741824 in *. change (2 ^ 31) with 2147483648. change (2 ^ 32) with 4294967296.
  rewrite Z.mod_small by lia.
  replace (2 ^ Z.of_nat i + 2147483648 - 2147483648) with (2 ^ Z.of_nat i) by lia.
  rewrite land_pow2 by lia. apply negb_involutive.
Qed.

Lemma walk_ok : forall fuel d h i, 0 <= dlen (dsk d) <= 1 ->
  (dlen (dsk d) = 0 -> forall x, dblk (dsk d) 0 x = 0) -> cinv d -> (i <= 16)%nat -> (17 - i <= fuel)%nat ->
  (forall j, (j < i)%nat -> bits (dsk d) (node h j) = true) ->
  exists b buf i', walk_loop fuel d h (node h i) i = Some (set_dir d b buf, node h i', i') /\
    leaf (bits (dsk d)) h i' /\ cinv (set_dir d b buf) /\ (i' <= 16)%nat.
Proof.
  induction fuel as [|fuel IH]; intros d h i DL W C L F P; [lia|].
  cbn [walk_loop]. pose proof (c_max _ C) as M.
  pose proof (node_nonneg h i) as NN.
  assert (Sd : set_dir d (dirbno d) (dirbuf d) = d) by (destruct d; reflexivity).
  destruct (node h i <? maxbno d) eqn:Q.
  - destruct (getdbit_ok d (node h i) C ltac:(lia) ltac:(lia)) as (buf & G & C'). rewrite G.
    destruct (bits (dsk d) (node h i)) eqn:B.
    + assert (Hi : (i <= 15)%nat).
      { assert (node h i < 32768) by (unfold bits in B; lia).
        pose proof (node_range h i). destruct (le_lt_dec i 15); auto.
        assert (2 ^ 16 <= 2 ^ Z.of_nat i) by (apply Z.pow_le_mono_r; lia).
        change (2 ^ 16) with 65536 in *. lia. }
      rewrite hbit_set_eq by lia.
      change (2 * node h i + (if Z.testbit h (Z.of_nat i) then 2 else 1)) with (node h (S i)).
      destruct (IH (set_dir d 0 buf) h (S i)) as (b & buf' & i' & E & Lf & C2 & L2); auto; try lia.
      * cbn. intros j Hj. destruct (Nat.eq_dec j i) as [->|N]; auto. apply P. lia.
      * exists b, buf', i'. auto.
    + exists 0, buf, i. split; [reflexivity|]. split; [split; auto|auto].
  - exists (dirbno d), (dirbuf d), i. rewrite Sd. split; [reflexivity|].
    split; [|auto]. split; [exact P|].
    unfold bits. destruct (Z.eq_dec (dlen (dsk d)) 0) as [E|E].
    + unfold dirbit. rewrite (W E), Z.land_0_l. cbn. apply andb_false_r.
    + replace (node h i <? 32768) with false by lia. reflexivity.
Qed.

Lemma mask_eq : forall i, mask i = 2 ^ Z.of_nat i - 1. Proof. reflexivity. Qed.

Lemma getpage_ok : forall d h m, winv (dsk d) m -> cinv d ->
  exists d' i, getpage d h = Some (d', true) /\ leaf (bits (dsk d)) h i /\
    dsk d' = dsk d /\ rdonly d' = rdonly d /\ trace d' = trace d /\
    curbit d' = node h i /\ hmask d' = 2 ^ Z.of_nat i - 1 /\
    pagbno d' = pgno h i /\ pagbuf d' = cont (dsk d) (pgno h i) /\ cinv d'.
Proof.
  intros d h m W C. unfold getpage.
  destruct (walk_ok 32 d h 0 (w_dlen _ _ W) (w_zero _ _ W) C ltac:(lia) ltac:(lia)) as (b & buf & i & E & Lf & C1 & L); [intros; lia|].
  cbn [node] in E. rewrite E.
  set (d1 := set_cur (set_dir d b buf) (node h i) (mask i)).
  assert (C1' : cinv d1) by (destruct C1; constructor; assumption).
  assert (D1 : dsk d1 = dsk d) by reflexivity.
  replace (Z.land h (hmask d1)) with (pgno h i).
  2:{ cbn. rewrite mask_eq. unfold pgno. symmetry. apply land_mask. }
  pose proof (pgno_range h i) as PR. pose proof (w_plen _ _ W) as PL.
  destruct (Z.eqb_spec (pgno h i) (pagbno d1)) as [Q|Q].
  - exists d1, i. repeat split; try reflexivity; auto; try apply Lf; try apply C1'.
    rewrite (c_pag _ C1' h i) by (rewrite ?D1; auto). rewrite D1. now rewrite Q.
  - unfold read_pag. cbn [set_ppos ppos dsk]. rewrite D1.
    destruct (pgno h i <? plen (dsk d)) eqn:R.
    + cbn [set_pagbuf set_ppos pagbuf]. destruct (w_rep _ _ W (pgno h i) ltac:(lia)) as (ps & Rp & _).
      rewrite (chkpage_rep _ _ Rp).
      eexists _, i. repeat split; try reflexivity; try apply Lf.
      * cbn. unfold cont. now rewrite R.
      * exact (c_max _ C1').
      * exact (c_dir _ C1').
      * intros h' i' L' E'. cbn in *. unfold cont. rewrite R. reflexivity.
      * cbn. intros. lia.
      * cbn. intros. lia.
      * cbn. apply (c_walk _ C1').
      * cbn. apply (c_walk _ C1').
      * cbn. lia.
      * cbn. lia.
    + destruct (w_leaf _ _ W h i Lf) as [A|A]; [lia|].
      assert (i = 0)%nat.
      { destruct i as [|i]; auto. destruct Lf as [Lf1 _]. specialize (Lf1 0%nat ltac:(lia)).
        rewrite (bits_dlen0 _ _ _ W (w_zero2 _ _ W A)) in Lf1. discriminate. }
      subst i. assert (Pz : pagbuf d = zeropage) by (apply (c_pag0 _ C); auto).
      cbn. rewrite Pz. rewrite (chkpage_rep _ _ rep_zero).
      eexists _, 0%nat. repeat split; try reflexivity; try apply Lf.
      * cbn. unfold cont. now rewrite R.
      * exact (c_max _ C1').
      * exact (c_dir _ C1').
      * intros h' i' L' E'. cbn in *. unfold cont. rewrite R. exact Pz.
      * cbn. auto.
      * cbn. intros. lia.
      * cbn. intros. lia.
      * cbn. apply (c_walk _ C1').
      * cbn. apply (c_walk _ C1').
      * cbn. lia.
      * cbn. lia.
Qed.

Lemma prep_cinv0 : forall dk ro, 0 <= dlen dk <= 1 -> 0 <= plen dk ->
  (dlen dk = 0 -> forall x, dblk dk 0 x = 0) -> cinv (sdbm_prep dk ro).
Proof.
  intros dk ro DL PL Z0. constructor; cbn; unfold DBLKSIZ, BYTESIZ.
  - lia.
  - destruct (Z.eqb_spec (dlen dk) 0) as [E|E].
    + left. split; auto. intros x. now rewrite (Z0 E).
    + right. lia.
  - intros h i L E. pose proof (pgno_range h i). lia.
  - auto.
  - lia.
  - lia.
Qed.
Lemma prep_cinv : forall dk m ro, winv dk m -> cinv (sdbm_prep dk ro).
Proof. intros dk m ro W. apply prep_cinv0; apply W. Qed.

Lemma fetch_ok : forall d k m, winv (dsk d) m -> cinv d -> m [] = None ->
  exists d', sdbm_fetch d k = Some (d', m k) /\ dsk d' = dsk d /\ cinv d' /\ rdonly d' = rdonly d.
Proof.
  intros d k m W C N. unfold sdbm_fetch, bad. destruct k as [|c k].
  - cbn. rewrite N. exists d. auto.
  - replace (dsize (c :: k) <=? 0) with false.
    2:{ rewrite dsize_cons. pose proof (dsize_nonneg k). lia. }
    destruct (getpage_ok d (sdbm_hash (c :: k)) m W C)
      as (d' & i & G & Lf & E1 & E2 & E3 & E4 & E5 & E6 & E7 & C').
    rewrite G. exists d'. repeat split; auto; try apply C'.
    rewrite E7, (w_map _ _ W) by auto. reflexivity.
Qed.

(** * Writing a page back *)

Lemma assoc_app1 : forall k' k v ps, assoc k ps = None ->
  assoc k' (ps ++ [(k, v)]) = if bstr_eq k' k then Some v else assoc k' ps.
Proof.
  intros k' k v. induction ps as [|[k1 v1] ps IH]; intros N; cbn [app assoc] in *.
  - destruct (bstr_eq k' k); auto.
  - destruct (bstr_eq k k1) as [E|E]; [discriminate|]. rewrite IH by auto.
    destruct (bstr_eq k' k1) as [E1|E1]; auto. subst k'. destruct (bstr_eq k1 k); congruence.
Qed.
Lemma assoc_none_notin : forall k ps, assoc k ps = None <-> ~ In k (map fst ps).
Proof.
  intros k. induction ps as [|[k1 v1] ps IH]; cbn [assoc map In fst].
  - tauto.
  - destruct (bstr_eq k k1) as [E|E].
    + split; [discriminate|]. intros H. exfalso. apply H. auto.
    + rewrite IH. split; intros H; [intros [Q|Q]; congruence|]. tauto.
Qed.
Lemma remove1_notin : forall k ps, ~ In k (map fst ps) -> remove1 k ps = ps.
Proof.
  intros k. induction ps as [|[k1 v1] ps IH]; cbn [remove1 map In fst]; intros H; auto.
  destruct (bstr_eq k k1) as [E|E]; [exfalso; apply H; auto|]. rewrite IH; tauto.
Qed.
Lemma assoc_remove1 : forall k' k ps, NoDup (map fst ps) ->
  assoc k' (remove1 k ps) = if bstr_eq k' k then None else assoc k' ps.
Proof.
  intros k' k. induction ps as [|[k1 v1] ps IH]; cbn [remove1 map fst]; intros N.
  - cbn [assoc]. destruct (bstr_eq k' k); auto.
  - inversion_clear N as [|? ? N1 N2]. destruct (bstr_eq k k1) as [E|E].
    + subst k1. cbn [assoc]. destruct (bstr_eq k' k) as [Q|Q]; auto.
      subst k'. now apply assoc_none_notin.
    + cbn [assoc]. rewrite IH by auto. destruct (bstr_eq k' k1) as [Q|Q]; auto.
      subst k'. destruct (bstr_eq k1 k); congruence.
Qed.
Lemma In_remove1 : forall k x ps, In x (remove1 k ps) -> In x ps.
Proof.
  intros k x. induction ps as [|[k1 v1] ps IH]; cbn [remove1]; intros H; auto.
  destruct (bstr_eq k k1); [now right|]. destruct H as [H|H]; [now left|right; auto].
Qed.
Lemma NoDup_remove1 : forall k ps, NoDup (map fst ps) -> NoDup (map fst (remove1 k ps)).
Proof.
  intros k. induction ps as [|[k1 v1] ps IH]; cbn [remove1 map fst]; intros N; auto.
  inversion_clear N as [|? ? N1 N2]. destruct (bstr_eq k k1); auto. cbn [map fst].
  constructor; auto. intros H. apply N1. apply in_map_iff in H. destruct H as ([a b] & E & H).
  apply In_remove1 in H. apply in_map_iff. eauto.
Qed.
Lemma assoc_In : forall k v ps, NoDup (map fst ps) -> In (k, v) ps -> assoc k ps = Some v.
Proof.
  intros k v. induction ps as [|[k1 v1] ps IH]; cbn [assoc map fst In]; intros N H; [tauto|].
  inversion_clear N as [|? ? N1 N2]. destruct (bstr_eq k k1) as [E|E].
  - destruct H as [H|H]; [congruence|]. exfalso. apply N1. subst k1. apply in_map_iff. exists (k, v). auto.
  - destruct H as [H|H]; [congruence|]. auto.
Qed.
Lemma In_assoc : forall k v ps, assoc k ps = Some v -> In (k, v) ps.
Proof.
  intros k v. induction ps as [|[k1 v1] ps IH]; cbn [assoc In]; intros H; [discriminate|].
  destruct (bstr_eq k k1) as [E|E]; [left; congruence|right; auto].
Qed.
Lemma assoc_filter : forall f k ps, (forall v, f (k, v) = true) ->
  assoc k (filter f ps) = assoc k ps.
Proof.
  intros f k ps F. induction ps as [|[k1 v1] ps IH]; cbn [filter assoc]; auto.
  destruct (bstr_eq k k1) as [E|E].
  - subst k1. rewrite F. cbn [assoc]. destruct (bstr_eq k k); congruence.
  - destruct (f (k1, v1)); cbn [assoc]; auto. destruct (bstr_eq k k1); congruence.
Qed.
Lemma NoDup_filter_fst : forall f (ps : pairs), NoDup (map fst ps) -> NoDup (map fst (filter f ps)).
Proof.
  intros f. induction ps as [|[k1 v1] ps IH]; cbn [filter map fst]; intros N; auto.
  inversion_clear N as [|? ? N1 N2]. destruct (f (k1, v1)); auto. cbn [map fst]. constructor; auto.
  intros H. apply N1. apply in_map_iff in H. destruct H as (a & E & H).
  apply filter_In in H. apply in_map_iff. exists a. tauto.
Qed.

Lemma leaf_ext : forall bt bt' h i, (forall n, 0 <= n -> bt n = bt' n) -> leaf bt h i -> leaf bt' h i.
Proof.
  intros bt bt' h i E [A B]. split.
  - intros j L. rewrite <- E by apply node_nonneg. auto.
  - rewrite <- E by apply node_nonneg. auto.
Qed.

Lemma cont_pblk : forall dk m b, winv dk m -> cont dk b = pblk dk b.
Proof.
  intros dk m b W. unfold cont. destruct (b <? plen dk) eqn:Q; auto.
  symmetry. apply (w_hole _ _ W). lia.
Qed.

Record wrote (dk dk' : disk) (b : Z) (q : page) : Prop := {
  wr_plen : plen dk' = Z.max (plen dk) (b + 1);
  wr_pblk : forall x, pblk dk' x = if x =? b then q else pblk dk x;
  wr_dlen : dlen dk' = dlen dk;
  wr_dblk : forall x, dblk dk' 0 x = dblk dk 0 x
}.

Lemma wrote_bits : forall dk dk' b q n, wrote dk dk' b q -> bits dk' n = bits dk n.
Proof. intros dk dk' b q n H. unfold bits. f_equal. apply dirbit_ext. apply (wr_dblk _ _ _ _ H). Qed.

Lemma wrote_leaf : forall dk dk' b q h i, wrote dk dk' b q -> leaf (bits dk') h i <-> leaf (bits dk) h i.
Proof.
  intros dk dk' b q h i H. split; apply leaf_ext; intros; [|symmetry]; eapply wrote_bits; eauto.
Qed.

Lemma write_ok : forall dk dk' m m' h i q ps,
  winv dk m -> leaf (bits dk) h i -> wrote dk dk' (pgno h i) q ->
  rep q ps -> NoDup (map fst ps) ->
  (forall k, pgno (sdbm_hash k) i = pgno h i -> m' k = assoc k ps) ->
  (forall k, pgno (sdbm_hash k) i <> pgno h i -> m' k = m k) ->
  winv dk' m'.
Proof.
  intros dk dk' m m' h i q ps W Lf Wr R N M1 M2.
  pose proof (pgno_range h i) as PR. pose proof (w_plen _ _ W) as PL.
  pose proof (wr_plen _ _ _ _ Wr) as P1. pose proof (wr_pblk _ _ _ _ Wr) as P2.
  pose proof (wr_dlen _ _ _ _ Wr) as P3. pose proof (wr_dblk _ _ _ _ Wr) as P4.
  assert (Hole : forall b, plen dk' <= b -> pblk dk' b = zeropage).
  { intros b Hb. rewrite P2. replace (b =? pgno h i) with false by lia. apply (w_hole _ _ W). lia. }
  constructor.
  - rewrite P3. apply (w_dlen _ _ W).
  - lia.
  - intros E x. rewrite P4. apply (w_zero _ _ W). lia.
  - lia.
  - intros n Hn H. rewrite !(wrote_bits _ _ _ _ _ Wr) in *. now apply (w_closed _ _ W).
  - intros h' j L'. apply (wrote_leaf _ _ _ _ _ _ Wr) in L'.
    destruct (w_leaf _ _ W h' j L') as [A|A]; [lia|].
    pose proof (w_zero2 _ _ W A) as Z0.
    assert (J : forall h0 j0, leaf (bits dk) h0 j0 -> j0 = 0%nat).
    { intros h0 [|j0] [L0 _]; auto. specialize (L0 0%nat ltac:(lia)).
      rewrite (bits_dlen0 _ _ _ W Z0) in L0. discriminate. }
    rewrite (J _ _ L'), (J _ _ Lf) in *. left. unfold pgno in *.
    change (2 ^ Z.of_nat 0) with 1 in *. rewrite Z.mod_1_r in *. lia.
  - intros b Hb. rewrite P2. destruct (Z.eqb_spec b (pgno h i)) as [->|E]; [eauto|].
    destruct (Z_lt_ge_dec b (plen dk)) as [L|L]; [apply (w_rep _ _ W); lia|].
    rewrite (w_hole _ _ W) by lia. exists []. split; [apply rep_zero|constructor].
  - exact Hole.
  - intros k j L'. apply (wrote_leaf _ _ _ _ _ _ Wr) in L'.
    replace (cont dk' (pgno (sdbm_hash k) j)) with (pblk dk' (pgno (sdbm_hash k) j)).
    2:{ unfold cont. destruct (pgno (sdbm_hash k) j <? plen dk') eqn:Q; auto. apply Hole. lia. }
    rewrite P2. destruct (Z.eqb_spec (pgno (sdbm_hash k) j) (pgno h i)) as [E|E].
    + assert (j = i) by (eapply leaf_page; eauto). subst j.
      rewrite (getpair_rep _ _ _ R). symmetry. now apply M1.
    + rewrite <- (cont_pblk _ _ _ W). rewrite (w_map _ _ W) by auto. symmetry. apply M2.
      intros E'. apply E. assert (L2 : leaf (bits dk) (sdbm_hash k) i).
      { apply (leaf_same _ h); auto. }
      rewrite (leaf_fun _ _ _ _ L' L2). exact E'.
Qed.

Lemma homed_write : forall dk dk' m h i q ps,
  winv dk m -> homed dk -> leaf (bits dk) h i -> wrote dk dk' (pgno h i) q ->
  rep q ps -> NoDup (map fst ps) ->
  (forall k v, In (k, v) ps -> k <> [] /\ pgno (sdbm_hash k) i = pgno h i) ->
  homed dk'.
Proof.
  intros dk dk' m h i q ps W H Lf Wr R N K b Hb.
  pose proof (wr_plen _ _ _ _ Wr) as P1. rewrite (wr_pblk _ _ _ _ Wr).
  assert (HH : forall k b, home dk k b -> home dk' k b).
  { intros k b0 [A (j & B & C)]. split; auto. exists j. split; auto. now apply (wrote_leaf _ _ _ _ _ _ Wr). }
  destruct (Z.eqb_spec b (pgno h i)) as [->|E].
  - exists ps. split; [exact R|]. split; [exact N|]. intros k v I.
    destruct (K k v I) as [K1 K2]. split; auto. exists i. split; auto. apply (wrote_leaf _ _ _ _ _ _ Wr). now apply (leaf_same _ h).
  - destruct (Z_lt_ge_dec b (plen dk)) as [L|L].
    + destruct (H b ltac:(lia)) as (ps' & A & B & C). exists ps'. split; auto. split; auto. intros k v I. apply HH; eauto.
    + rewrite (w_hole _ _ W) by lia. exists []. split; [apply rep_zero|]. split; [constructor|]. cbn. tauto.
Qed.

(** * Splitting a leaf *)

Record splitted (dk dk' : disk) (n b newp : Z) (left new : page) : Prop := {
  sp_plen : plen dk' = Z.max (plen dk) (newp + 1);
  sp_pblk : forall x, pblk dk' x = if x =? newp then new else if x =? b then left else pblk dk x;
  sp_dlen : dlen dk' = 1;
  sp_bits : forall x, 0 <= x -> bits dk' x = (bits dk x || (x =? n))%bool
}.

Lemma goes_bit : forall i kv, goes (2 ^ Z.of_nat i) kv = Z.testbit (sdbm_hash (fst kv)) (Z.of_nat i).
Proof. intros. unfold goes. rewrite land_pow2 by lia. apply negb_involutive. Qed.

Lemma pgno_S : forall h i, pgno h (S i) = pgno h i + (if Z.testbit h (Z.of_nat i) then 2 ^ Z.of_nat i else 0).
Proof. intros. apply mod_S. Qed.

Section SplitFacts.
  Variables (dk dk' : disk) (m : dmap) (h : Z) (i : nat) (left new : page) (ps : pairs).
  Hypothesis W : winv dk m.
  Hypothesis Lf : leaf (bits dk) h i.
  Hypothesis Sp : splitted dk dk' (node h i) (pgno h i) (pgno h i + 2 ^ Z.of_nat i) left new.

  Lemma split_leafA : forall h', pgno h' i = pgno h i -> leaf (bits dk') h' (S i).
  Proof.
    intros h' E. assert (L' : leaf (bits dk) h' i) by (apply (leaf_same _ h); auto).
    assert (NE : node h' i = node h i) by now apply node_mod.
    split.
    - intros j Hj. rewrite (sp_bits _ _ _ _ _ _ _ Sp) by apply node_nonneg.
      destruct (Nat.eq_dec j i) as [->|N].
      + rewrite NE, Z.eqb_refl. apply orb_true_r.
      + destruct L' as [A _]. rewrite A by lia. reflexivity.
    - rewrite (sp_bits _ _ _ _ _ _ _ Sp) by apply node_nonneg.
      apply orb_false_iff. split.
      + destruct (bits dk (node h' (S i))) eqn:B; auto. cbn [node] in B.
        destruct L' as [_ L']. rewrite (w_closed _ _ W (node h' i)) in L'; [discriminate|apply node_nonneg|].
        destruct (Z.testbit h' (Z.of_nat i)); auto.
      + apply Z.eqb_neq. intros Q. apply node_depth in Q. lia.
  Qed.

  Lemma split_leafB : forall h' j, pgno h' i <> pgno h i -> leaf (bits dk') h' j <-> leaf (bits dk) h' j.
  Proof.
    intros h' j E.
    assert (Q : forall x, bits dk' (node h' x) = bits dk (node h' x)).
    { intros x. rewrite (sp_bits _ _ _ _ _ _ _ Sp) by apply node_nonneg.
      replace (node h' x =? node h i) with false; [apply orb_false_r|].
      symmetry. apply Z.eqb_neq. intros Q. pose proof (node_depth _ _ _ _ Q). subst x.
      apply E. now apply node_inj. }
    unfold leaf. rewrite Q. split; intros [A B]; split; auto; intros x Hx;
      [rewrite <- Q|rewrite Q]; auto.
  Qed.

  Lemma split_far : forall h' j, pgno h' i <> pgno h i -> leaf (bits dk) h' j ->
    pgno h' j <> pgno h i /\ pgno h' j <> pgno h i + 2 ^ Z.of_nat i.
  Proof.
    intros h' j E L. split.
    - intros Q. assert (j = i) by (eapply leaf_page; eauto). subst. congruence.
    - intros Q. pose proof (pgno_range h i). pose proof (pgno_range h' j).
      assert (Lt : (i < j)%nat).
      { destruct (le_lt_dec j i) as [J|J]; auto. exfalso.
        assert (2 ^ Z.of_nat j <= 2 ^ Z.of_nat i) by (apply Z.pow_le_mono_r; lia). lia. }
      apply E. unfold pgno in *. rewrite <- (mod_mod_le h' j i) by lia. rewrite Q.
      pose proof (pow2_pos i).
      replace (h mod 2 ^ Z.of_nat i + 2 ^ Z.of_nat i) with (h mod 2 ^ Z.of_nat i + 1 * 2 ^ Z.of_nat i) by lia.
      rewrite Z.mod_add by lia. apply Z.mod_mod. lia.
  Qed.

  Hypothesis B0 : pgno h i < plen dk.
  Hypothesis R0 : rep (pblk dk (pgno h i)) ps.
  Hypothesis N0 : NoDup (map fst ps).
  Hypothesis RL : rep left (filter (fun kv => negb (goes (2 ^ Z.of_nat i) kv)) ps).
  Hypothesis RR : rep new (filter (goes (2 ^ Z.of_nat i)) ps).

  Lemma split_winv : winv dk' m.
  Proof.
    pose proof (pgno_range h i) as PR. pose proof (w_plen _ _ W) as PL.
    pose proof (sp_plen _ _ _ _ _ _ _ Sp) as P1. pose proof (sp_pblk _ _ _ _ _ _ _ Sp) as P2.
    pose proof (sp_dlen _ _ _ _ _ _ _ Sp) as P3. pose proof (sp_bits _ _ _ _ _ _ _ Sp) as P4.
    assert (Hole : forall b, plen dk' <= b -> pblk dk' b = zeropage).
    { intros b Hb. rewrite P2. replace (b =? pgno h i + 2 ^ Z.of_nat i) with false by lia.
      replace (b =? pgno h i) with false by lia. apply (w_hole _ _ W). lia. }
    constructor.
    - lia.
    - lia.
    - lia.
    - lia.
    - intros n Hn H. rewrite P4 by lia. rewrite !P4 in H by lia.
      assert (H' : (bits dk (2 * n + 1) = true \/ bits dk (2 * n + 2) = true) \/
                   (2 * n + 1 = node h i \/ 2 * n + 2 = node h i)).
      { rewrite !orb_true_iff, !Z.eqb_eq in H. tauto. }
      destruct H' as [H'|H'].
      + rewrite (w_closed _ _ W n Hn H'). reflexivity.
      + destruct Lf as [A _]. destruct i as [|j].
        * cbn [node] in H'. lia.
        * rewrite <- (A j ltac:(lia)). cbn [node] in H'.
          assert (n = node h j) by (destruct (Z.testbit h (Z.of_nat j)); lia). subst n.
          rewrite (A j ltac:(lia)). reflexivity.
    - intros h' j L'. left. destruct (Z.eq_dec (pgno h' i) (pgno h i)) as [E|E].
      + rewrite (leaf_fun _ _ _ _ L' (split_leafA h' E)). rewrite pgno_S, E.
        destruct (Z.testbit h' (Z.of_nat i)); lia.
      + apply split_leafB in L'; auto. destruct (w_leaf _ _ W h' j L'); lia.
    - intros b Hb. rewrite P2. destruct (b =? pgno h i + 2 ^ Z.of_nat i).
      { eexists. split; [exact RR|]. now apply NoDup_filter_fst. }
      destruct (b =? pgno h i).
      { eexists. split; [exact RL|]. now apply NoDup_filter_fst. }
      destruct (Z_lt_ge_dec b (plen dk)) as [L|L]; [apply (w_rep _ _ W); lia|].
      rewrite (w_hole _ _ W) by lia. exists []. split; [apply rep_zero|constructor].
    - exact Hole.
    - intros k j L'. set (hk := sdbm_hash k) in *.
      replace (cont dk' (pgno hk j)) with (pblk dk' (pgno hk j)).
      2:{ unfold cont. destruct (pgno hk j <? plen dk') eqn:Q; auto. apply Hole. lia. }
      rewrite P2. destruct (Z.eq_dec (pgno hk i) (pgno h i)) as [E|E].
      + assert (Lk : leaf (bits dk) hk i) by (apply (leaf_same _ h); auto).
        pose proof (w_map _ _ W k i Lk) as Mk. fold hk in Mk. rewrite E in Mk.
        rewrite (cont_pblk _ _ _ W), (getpair_rep _ _ _ R0) in Mk.
        rewrite (leaf_fun _ _ _ _ L' (split_leafA hk E)). rewrite pgno_S, E.
        destruct (Z.testbit hk (Z.of_nat i)) eqn:T.
        * rewrite Z.eqb_refl. rewrite (getpair_rep _ _ _ RR). rewrite <- Mk. apply assoc_filter.
          intros v. now rewrite goes_bit.
        * replace (pgno h i + 0 =? pgno h i + 2 ^ Z.of_nat i) with false by lia.
          replace (pgno h i + 0 =? pgno h i) with true by lia.
          rewrite (getpair_rep _ _ _ RL). rewrite <- Mk. apply assoc_filter.
          intros v. rewrite goes_bit. cbn [fst]. fold hk. now rewrite T.
      + apply split_leafB in L'; auto. destruct (split_far _ _ E L') as [F1 F2].
        replace (pgno hk j =? pgno h i + 2 ^ Z.of_nat i) with false by lia.
        replace (pgno hk j =? pgno h i) with false by lia.
        rewrite <- (cont_pblk _ _ _ W). now apply (w_map _ _ W).
  Qed.

  Hypothesis HM : homed dk.
  Hypothesis HP : forall k v, In (k, v) ps -> home dk k (pgno h i).

  Lemma split_homed : homed dk'.
  Proof.
    intros b Hb. pose proof (sp_plen _ _ _ _ _ _ _ Sp) as P1.
    rewrite (sp_pblk _ _ _ _ _ _ _ Sp).
    assert (PI : forall k v, In (k, v) ps -> k <> [] /\ pgno (sdbm_hash k) i = pgno h i).
    { intros k v I. destruct (HP k v I) as [A (j & B & C)]. split; auto.
      assert (j = i) by (eapply leaf_page; eauto). now subst j. }
    destruct (Z.eqb_spec b (pgno h i + 2 ^ Z.of_nat i)) as [E1|E1].
    - eexists. split; [exact RR|]. split; [now apply NoDup_filter_fst|].
      intros k v I. apply filter_In in I. destruct I as [I G]. rewrite goes_bit in G. cbn [fst] in G.
      destruct (PI k v I) as [K1 K2]. split; auto. exists (S i). split; [now apply split_leafA|].
      rewrite pgno_S, G, K2. auto.
    - destruct (Z.eqb_spec b (pgno h i)) as [E2|E2].
      + eexists. split; [exact RL|]. split; [now apply NoDup_filter_fst|].
        intros k v I. apply filter_In in I. destruct I as [I G]. rewrite goes_bit in G. cbn [fst] in G.
        destruct (PI k v I) as [K1 K2]. split; auto. exists (S i). split; [now apply split_leafA|].
        rewrite pgno_S, K2. destruct (Z.testbit (sdbm_hash k) (Z.of_nat i)); [discriminate|lia].
      + destruct (Z_lt_ge_dec b (plen dk)) as [L|L].
        * destruct (HM b ltac:(lia)) as (ps' & A & B & C). exists ps'. split; [exact A|]. split; [exact B|].
          intros k v I. destruct (C k v I) as [K1 (j & K2 & K3)]. split; auto. exists j. split; auto.
          apply split_leafB; auto. intros E. apply E2.
          assert (Lk : leaf (bits dk) (sdbm_hash k) i) by (apply (leaf_same _ h); auto).
          rewrite (leaf_fun _ _ _ _ K2 Lk) in K3. congruence.
        * rewrite (w_hole _ _ W) by lia. exists []. split; [apply rep_zero|]. split; [constructor|]. cbn. tauto.
  Qed.
End SplitFacts.

(** * makroom *)

Definition dirok (d : db) : Prop :=
  maxbno d = dlen (dsk d) * 32768 /\
  ((dirbno d = 0 /\ forall x, dirbuf d x = dblk (dsk d) 0 x) \/ (dirbno d = -1 /\ dlen (dsk d) = 1)).

Lemma dirdiv : forall n, 0 <= n -> 32768 <= n -> 1 <= n / 8 / 4096.
Proof. intros. rewrite Z.div_div by lia. apply Z.div_le_lower_bound; lia. Qed.

Lemma load_dir_ok : forall d, dirok d -> load_dir d 0 = set_dir d 0 (dirbuf (load_dir d 0)) /\
  forall x, dirbuf (load_dir d 0) x = dblk (dsk d) 0 x.
Proof.
  intros d [M [[A B]|[A B]]]; unfold load_dir; rewrite A.
  - change (0 =? 0) with true. split; auto. destruct d; cbn in *; now subst.
  - change (0 =? -1) with false. rewrite B. change (0 <? 1) with true. auto.
Qed.

Lemma setdbit_dlen : forall d n, dlen (dsk (setdbit d n)) = Z.max (dlen (dsk d)) (n / 8 / 4096 + 1).
Proof.
  intros. unfold setdbit, load_dir, BYTESIZ, DBLKSIZ.
  destruct (n / 8 / 4096 =? dirbno d); destruct (maxbno _ <=? n); reflexivity.
Qed.

Lemma setdbit_ok : forall d n, dirok d -> 0 <= n -> 0 <= dlen (dsk d) <= 1 ->
  dlen (dsk (setdbit d n)) <= 1 ->
  let d' := setdbit d n in
  n < 32768 /\ dirok d' /\ dlen (dsk d') = 1 /\ plen (dsk d') = plen (dsk d) /\
  pblk (dsk d') = pblk (dsk d) /\
  (forall x, 0 <= x -> bits (dsk d') x = (bits (dsk d) x || (x =? n))%bool) /\
  pagbno d' = pagbno d /\ pagbuf d' = pagbuf d /\ curbit d' = curbit d /\ hmask d' = hmask d /\
  blkptr d' = blkptr d /\ keyptr d' = keyptr d /\ rdonly d' = rdonly d.
Proof.
  intros d n D Hn Dl L d'. unfold d'. rewrite setdbit_dlen in L.
  assert (Ln : n < 32768).
  { destruct (Z_lt_ge_dec n 32768); auto. pose proof (dirdiv n Hn ltac:(lia)). lia. }
  unfold setdbit, BYTESIZ, DBLKSIZ. rewrite div_small_dir by lia.
  destruct (load_dir_ok d D) as [E1 E2]. rewrite E1. cbn [dirbuf set_dir].
  set (b0 := dirbuf (load_dir d 0)) in *. cbn [dirbno set_dir].
  set (buf := upd b0 _ _). destruct D as [M D].
  assert (BB : forall x, 0 <= x ->
     (x <? 32768) && dirbit buf x = (bits (dsk d) x || (x =? n))%bool).
  { intros x Hx. unfold bits. destruct (x <? 32768) eqn:Q; cbn [andb].
    - unfold buf. rewrite dirbit_set by lia. f_equal. now apply dirbit_ext.
    - lia. }
  assert (Hmax : (maxbno (set_dir (set_dir d 0 b0) 0 buf) <=? n) = (dlen (dsk d) =? 0)).
  { cbn. rewrite M. lia. }
  rewrite Hmax. split; [exact Ln|].
  destruct (dlen (dsk d) =? 0) eqn:Z0.
  - cbn. unfold bits; cbn. change (0 =? 0) with true. cbv iota.
    split; [|split; [lia|]].
    + split; cbn; [lia|]. left. split; auto.
    + repeat split; auto.
  - cbn. unfold bits; cbn. change (0 =? 0) with true. cbv iota.
    split; [|split; [lia|]].
    + split; cbn; [lia|]. left. split; auto.
    + repeat split; auto.
Qed.

Definition vd (d : db) : disk := apply_wr (dsk d) (WPag (pagbno d) (pagbuf d)).

Record mk (d : db) (m : dmap) (h : Z) (i : nat) : Prop := {
  mk_w : winv (vd d) m;
  mk_h : homed (vd d);
  mk_leaf : leaf (bits (dsk d)) h i;
  mk_bno : pagbno d = pgno h i;
  mk_dir : dirok d;
  mk_walk : 0 <= blkptr d /\ 0 <= keyptr d
}.

Definition split_body (d : db) (hash : Z) : db :=
  let '(pag, new) := splpage (pagbuf d) (hmask d + 1) in
  let d := set_pagbuf d pag in
  let newp := Z.lor (Z.land hash (hmask d)) (hmask d + 1) in
  let right := negb (Z.land hash (hmask d + 1) =? 0) in
  let d :=
    if right
    then set_pagbuf (set_pagbno (write_pag d (pagbno d) (pagbuf d)) newp) new
    else write_pag d newp new in
  setdbit d (curbit d).

Definition cur_next (d : db) (hash : Z) : db :=
  let right := negb (Z.land hash (hmask d + 1) =? 0) in
  set_cur d (2 * curbit d + (if right then 2 else 1)) (Z.lor (hmask d) (hmask d + 1)).

Lemma setdbit_hmask : forall d n, hmask (setdbit d n) = hmask d.
Proof.
  intros. unfold setdbit, load_dir, BYTESIZ, DBLKSIZ.
  destruct (n / 8 / 4096 =? dirbno d); destruct (maxbno _ <=? n); reflexivity.
Qed.
Lemma split_body_hmask : forall d h, hmask (split_body d h) = hmask d.
Proof.
  intros. unfold split_body. destruct (splpage _ _). rewrite setdbit_hmask.
  destruct (negb _); reflexivity.
Qed.

Lemma makroom_S : forall n d h need,
  makroom_loop (S n) d h need =
  let d1 := split_body d h in
  if fitpair (pagbuf d1) need then (d1, true)
  else let d2 := cur_next d1 h in
       makroom_loop n (write_pag d2 (pagbno d2) (pagbuf d2)) h need.
Proof.
  intros n d h need. cbn zeta. unfold cur_next. rewrite split_body_hmask.
  cbn [makroom_loop]. unfold split_body. destruct (splpage (pagbuf d) (hmask d + 1)) as [pag new].
  cbn zeta. cbn [set_pagbuf hmask].
  match goal with |- (if fitpair (pagbuf ?a) need then _ else _) = _ => set (d1 := a) end.
  assert (Hh : hmask d1 = hmask d).
  { unfold d1. rewrite setdbit_hmask. destruct (negb _); reflexivity. }
  rewrite Hh. reflexivity.
Qed.

Lemma homed_ext : forall dk dk', plen dk' = plen dk -> (forall x, pblk dk' x = pblk dk x) ->
  (forall x, 0 <= x -> bits dk' x = bits dk x) -> homed dk -> homed dk'.
Proof.
  intros dk dk' A B C H b Hb. destruct (H b ltac:(lia)) as (ps & D & E & F).
  exists ps. rewrite B. split; [exact D|]. split; [exact E|].
  intros k v I. destruct (F k v I) as [G (j & J & K)]. split; auto. exists j. split; auto.
  eapply leaf_ext; [|exact J]. intros. symmetry. auto.
Qed.

Lemma apply_pag_bits : forall dk b q x, bits (apply_wr dk (WPag b q)) x = bits dk x.
Proof. reflexivity. Qed.

Lemma split_step : forall d m h i, mk d m h i -> curbit d = node h i -> hmask d = 2 ^ Z.of_nat i - 1 ->
  let d1 := split_body d h in
  dlen (dsk d1) <= 1 ->
  mk d1 m h (S i) /\ curbit (cur_next d1 h) = node h (S i) /\
  hmask (cur_next d1 h) = 2 ^ Z.of_nat (S i) - 1 /\ rdonly d1 = rdonly d.
Proof.
  intros d m h i K Cb Hm d1. unfold d1. clear d1. unfold split_body. rewrite Hm.
  replace (2 ^ Z.of_nat i - 1 + 1) with (2 ^ Z.of_nat i) by lia.
  pose proof (mk_w _ _ _ _ K) as W. pose proof (mk_h _ _ _ _ K) as HM.
  pose proof (mk_leaf _ _ _ _ K) as Lf. pose proof (mk_bno _ _ _ _ K) as Bn.
  pose proof (mk_dir _ _ _ _ K) as Dr. pose proof (mk_walk _ _ _ _ K) as Wk.
  pose proof (w_dlen _ _ W) as DL. change (dlen (vd d)) with (dlen (dsk d)) in DL.
  pose proof (pgno_range h i) as PR. pose proof (w_plen _ _ W) as PL.
  assert (PV : plen (vd d) = Z.max (plen (dsk d)) (pgno h i + 1)) by (unfold vd; cbn; now rewrite Bn).
  destruct (HM (pgno h i) ltac:(lia)) as (ps & R & N & HP).
  assert (Pb : pblk (vd d) (pgno h i) = pagbuf d).
  { unfold vd; cbn. rewrite Bn. now rewrite Z.eqb_refl. }
  rewrite Pb in R.
  destruct (splpage_rep _ _ (2 ^ Z.of_nat i) R) as [RL RR].
  destruct (splpage (pagbuf d) (2 ^ Z.of_nat i)) as [left new] eqn:SE. cbn [fst snd] in RL, RR.
  cbn zeta. cbn [set_pagbuf hmask]. rewrite Hm.
  replace (2 ^ Z.of_nat i - 1 + 1) with (2 ^ Z.of_nat i) by lia.
  rewrite land_mask. fold (pgno h i).
  replace (Z.lor (pgno h i) (2 ^ Z.of_nat i)) with (pgno h i + 2 ^ Z.of_nat i) by (unfold pgno; now rewrite lor_new).
  rewrite land_pow2 by lia. rewrite negb_involutive.
  set (d0 := if Z.testbit h (Z.of_nat i) then _ else _).
  assert (D0 : dirok d0 /\ dlen (dsk d0) = dlen (dsk d) /\ curbit d0 = curbit d /\ hmask d0 = hmask d /\
     blkptr d0 = blkptr d /\ keyptr d0 = keyptr d /\ pagbno d0 = pgno h (S i) /\ rdonly d0 = rdonly d /\
     (forall x, bits (dsk d0) x = bits (dsk d) x)).
  { unfold d0. rewrite pgno_S. destruct (Z.testbit h (Z.of_nat i)); cbn; repeat split; try assumption; try (rewrite ?Bn; lia); try apply Dr. }
  destruct D0 as (E1 & E2 & E3 & E4 & E5 & E6 & E7 & E9 & E8).
  rewrite E3, Cb. intros L.
  destruct (setdbit_ok d0 (node h i) E1 (node_nonneg h i) ltac:(lia) L)
    as (F1 & F2 & F3 & F4 & F5 & F6 & F7 & F8 & F9 & F10 & F11 & F12 & F13).
  set (d1 := setdbit d0 (node h i)) in *.
  assert (Sp : splitted (vd d) (vd d1) (node h i) (pgno h i) (pgno h i + 2 ^ Z.of_nat i) left new).
  { constructor.
    - change (plen (vd d1)) with (Z.max (plen (dsk d1)) (pagbno d1 + 1)). rewrite F4, F7, E7, PV. rewrite pgno_S.
      unfold d0. destruct (Z.testbit h (Z.of_nat i)); cbn; rewrite ?Bn; lia.
    - intros x. change (pblk (vd d1) x) with (if x =? pagbno d1 then pagbuf d1 else pblk (dsk d1) x).
      change (pblk (vd d) x) with (if x =? pagbno d then pagbuf d else pblk (dsk d) x).
      rewrite F5, F7, F8, E7. rewrite pgno_S.
      unfold d0. destruct (Z.testbit h (Z.of_nat i)); cbn; rewrite ?Bn.
      + destruct (Z.eqb_spec x (pgno h i + 2 ^ Z.of_nat i)); auto.
        destruct (Z.eqb_spec x (pgno h i)); auto.
      + destruct (Z.eqb_spec x (pgno h i + 2 ^ Z.of_nat i)).
        * replace (x =? pgno h i + 0) with false by lia. auto.
        * destruct (Z.eqb_spec x (pgno h i)).
          -- replace (x =? pgno h i + 0) with true by lia. auto.
          -- replace (x =? pgno h i + 0) with false by lia. auto.
    - exact F3.
    - intros x Hx. unfold vd. rewrite !apply_pag_bits. rewrite F6 by auto. now rewrite E8. }
  assert (R' : rep (pblk (vd d) (pgno h i)) ps) by (rewrite Pb; exact R).
  split; [constructor|].
  - eapply split_winv; eauto. lia.
  - eapply split_homed; eauto.
  - assert (X : leaf (bits (vd d1)) h (S i)) by (eapply split_leafA; eauto).
    exact X.
  - rewrite F7. exact E7.
  - exact F2.
  - lia.
  - unfold cur_next. cbn [set_cur curbit hmask]. rewrite F9, F10, E3, E4, Cb, Hm.
    replace (2 ^ Z.of_nat i - 1 + 1) with (2 ^ Z.of_nat i) by lia.
    rewrite land_pow2 by lia. rewrite negb_involutive. cbn [node].
    split; [reflexivity|]. split; [apply lor_mask|congruence].
Qed.

Lemma dlen_split_body : forall d h, dlen (dsk d) <= dlen (dsk (split_body d h)).
Proof.
  intros. unfold split_body. destruct (splpage _ _). rewrite setdbit_dlen.
  destruct (negb _); cbn; lia.
Qed.
Lemma dlen_makroom : forall n d h need, dlen (dsk d) <= dlen (dsk (fst (makroom_loop n d h need))).
Proof.
  induction n as [|n IH]; intros d h need; [cbn; lia|].
  rewrite makroom_S. cbn zeta. pose proof (dlen_split_body d h).
  destruct (fitpair _ _); [exact H|].
  etransitivity; [|apply IH]. exact H.
Qed.

Lemma vd_written : forall d, vd (write_pag d (pagbno d) (pagbuf d)) =
  apply_wr (vd d) (WPag (pagbno d) (pagbuf d)).
Proof. reflexivity. Qed.

(* the pages and bits are all that matters *)
Lemma winv_ext : forall dk dk' m, plen dk' = plen dk -> (forall x, pblk dk' x = pblk dk x) ->
  dlen dk' = dlen dk -> (forall x, dblk dk' 0 x = dblk dk 0 x) -> winv dk m -> winv dk' m.
Proof.
  intros dk dk' m A B C D W.
  assert (BB : forall n, bits dk' n = bits dk n).
  { intros n. unfold bits. f_equal. now apply dirbit_ext. }
  assert (LL : forall h i, leaf (bits dk') h i -> leaf (bits dk) h i).
  { intros h i. apply leaf_ext. auto. }
  destruct W. constructor; rewrite ?A, ?C; auto.
  - intros E x. rewrite D. auto.
  - intros n Hn. rewrite !BB. auto.
  - intros b Hb. rewrite B. auto.
  - intros b Hb. rewrite B. auto.
  - intros k i L. unfold cont. rewrite A, B. apply LL in L. exact (w_map0 k i L).
Qed.

Lemma mk_write : forall d m h i, mk d m h i -> mk (write_pag d (pagbno d) (pagbuf d)) m h i.
Proof.
  intros d m h i K. pose proof (mk_w _ _ _ _ K) as W. destruct K as [K1 K2 K3 K4 K5 K6].
  constructor; auto.
  - rewrite vd_written. eapply winv_ext; [| | | |exact W]; cbn; auto; try lia.
    intros x. destruct (x =? pagbno d); auto.
  - rewrite vd_written. eapply homed_ext; [| | |exact K2]; cbn; auto; try lia.
    intros x. destruct (x =? pagbno d); auto.
Qed.

Lemma makroom_ok : forall n d m h i need, mk d m h i -> curbit d = node h i ->
  hmask d = 2 ^ Z.of_nat i - 1 ->
  forall d' ok, makroom_loop n d h need = (d', ok) -> dlen (dsk d') <= 1 ->
  rdonly d' = rdonly d /\
  if ok then exists i', mk d' m h i' /\ fitpair (pagbuf d') need = true
  else mk d' m h (i + n) /\
       ((0 < n)%nat -> fitpair (pagbuf d') need = false /\
                       pblk (dsk d') (pagbno d') = pagbuf d' /\ pagbno d' < plen (dsk d') /\
                       ppos d' = pagbno d' + 1).
Proof.
  induction n as [|n IH]; intros d m h i need K Cb Hm d' ok E L.
  - cbn [makroom_loop] in E. injection E as <- <-. split; auto. split; [now rewrite Nat.add_0_r|lia].
  - rewrite makroom_S in E. cbn zeta in E.
    assert (L1 : dlen (dsk (split_body d h)) <= 1).
    { destruct (fitpair (pagbuf (split_body d h)) need).
      - injection E as <- <-. exact L.
      - etransitivity; [|exact L].
        match type of E with makroom_loop n ?x h need = _ => pose proof (dlen_makroom n x h need) as Q end.
        rewrite E in Q. exact Q. }
    destruct (split_step d m h i K Cb Hm L1) as (K1 & Cb1 & Hm1 & Rd1).
    set (d1 := split_body d h) in *.
    destruct (fitpair (pagbuf d1) need) eqn:F.
    + injection E as <- <-. split; auto. exists (S i). auto.
    + set (d2 := cur_next d1 h) in *.
      assert (K2 : mk d2 m h (S i)) by (destruct K1; constructor; assumption).
      pose proof (mk_write _ _ _ _ K2) as K3.
      destruct (IH _ m h (S i) need K3 Cb1 Hm1 d' ok E L) as [Rd IH'].
      split; [cbn in Rd; congruence|].
      destruct ok; [exact IH'|].
      destruct IH' as [K4 IH']. rewrite Nat.add_succ_r. split; [exact K4|]. intros _.
      destruct n as [|n].
      * cbn [makroom_loop] in E. injection E as <-. cbn.
        rewrite Z.eqb_refl. repeat split; auto; try lia.
      * apply IH'. lia.
Qed.

(** * The operations *)

Record Inv (d : db) (m : dmap) : Prop := {
  i_w : winv (dsk d) m;
  i_h : homed (dsk d);
  i_c : cinv d;
  i_nil : m [] = None
}.

Lemma Inv_prep : forall dk m ro, winv dk m -> homed dk -> m [] = None -> Inv (sdbm_prep dk ro) m.
Proof. intros. constructor; auto. eapply prep_cinv; eauto. Qed.

Lemma winv_zero : winv zerodisk empty.
Proof.
  constructor; cbn; try lia; auto.
  - intros n Hn [H|H]; unfold bits, dirbit in H; cbn in H; rewrite andb_false_r in H; discriminate.
  - intros k i _. unfold cont. cbn. replace (pgno (sdbm_hash k) i <? 0) with false
      by (pose proof (pgno_range (sdbm_hash k) i); lia).
    rewrite (getpair_rep _ _ _ rep_zero). reflexivity.
Qed.
Lemma Inv_zero : forall ro, Inv (sdbm_prep zerodisk ro) empty.
Proof.
  intros. apply Inv_prep; [apply winv_zero| |reflexivity]. intros b Hb. cbn in Hb. lia.
Qed.

Lemma mk_page : forall d m h i, mk d m h i ->
  exists ps, rep (pagbuf d) ps /\ NoDup (map fst ps) /\
    (forall k v, In (k, v) ps -> k <> [] /\ pgno (sdbm_hash k) i = pgno h i) /\
    (forall k, pgno (sdbm_hash k) i = pgno h i -> m k = assoc k ps).
Proof.
  intros d m h i K. pose proof (mk_bno _ _ _ _ K) as Bn. pose proof (pgno_range h i) as PR.
  pose proof (mk_w _ _ _ _ K) as W.
  destruct (mk_h _ _ _ _ K (pgno h i)) as (ps & A & B & C); [unfold vd; cbn; lia|].
  assert (Pb : pblk (vd d) (pgno h i) = pagbuf d).
  { unfold vd; cbn. rewrite Bn. now rewrite Z.eqb_refl. }
  rewrite Pb in A. exists ps. split; [exact A|]. split; [exact B|].
  pose proof (mk_leaf _ _ _ _ K) as Lf.
  split.
  - intros k v I. destruct (C k v I) as [K1 (j & K2 & K3)]. split; auto.
    assert (j = i) by (eapply leaf_page; eauto). now subst.
  - intros k E. assert (Lk : leaf (bits (vd d)) (sdbm_hash k) i) by (apply (leaf_same _ h); auto).
    rewrite <- (w_map _ _ W k i Lk). rewrite (cont_pblk _ _ _ W), E, Pb. now apply getpair_rep.
Qed.

Lemma mk_modify : forall d m m' h i q ps, mk d m h i -> rep q ps -> NoDup (map fst ps) ->
  (forall k v, In (k, v) ps -> k <> [] /\ pgno (sdbm_hash k) i = pgno h i) ->
  (forall k, pgno (sdbm_hash k) i = pgno h i -> m' k = assoc k ps) ->
  (forall k, pgno (sdbm_hash k) i <> pgno h i -> m' k = m k) ->
  mk (set_pagbuf d q) m' h i.
Proof.
  intros d m m' h i q ps K R N H M1 M2.
  pose proof (mk_w _ _ _ _ K) as W. pose proof (mk_bno _ _ _ _ K) as Bn.
  assert (Wr : wrote (vd d) (vd (set_pagbuf d q)) (pgno h i) q).
  { constructor; unfold vd; cbn; rewrite ?Bn; auto; try lia.
    intros x. destruct (x =? pgno h i); auto. }
  assert (Lf : leaf (bits (vd d)) h i) by exact (mk_leaf _ _ _ _ K).
  destruct K as [K1 K2 K3 K4 K5 K6]. constructor; auto.
  - eapply write_ok; eauto.
  - eapply homed_write; eauto.
Qed.

Lemma mk_getpage : forall d m h i, winv (dsk d) m -> homed (dsk d) -> cinv d ->
  leaf (bits (dsk d)) h i -> pagbno d = pgno h i -> pagbuf d = cont (dsk d) (pgno h i) ->
  mk d m h i.
Proof.
  intros d m h i W H C Lf Bn Pb. pose proof (pgno_range h i) as PR.
  assert (P : exists ps, rep (pagbuf d) ps /\ NoDup (map fst ps) /\
     (forall k v, In (k, v) ps -> k <> [] /\ pgno (sdbm_hash k) i = pgno h i)).
  { rewrite Pb. unfold cont. destruct (pgno h i <? plen (dsk d)) eqn:Q.
    - destruct (H (pgno h i) ltac:(lia)) as (ps & A & B & D). exists ps. split; auto. split; auto.
      intros k v I. destruct (D k v I) as [K1 (j & K2 & K3)]. split; auto.
      assert (j = i) by (eapply leaf_page; eauto). now subst.
    - exists []. split; [apply rep_zero|]. split; [constructor|]. cbn. tauto. }
  destruct P as (ps & R & N & K).
  assert (Wr : wrote (dsk d) (vd d) (pgno h i) (pagbuf d)).
  { constructor; unfold vd; cbn; rewrite ?Bn; auto. }
  constructor; auto.
  - eapply write_ok; eauto. intros k E.
    assert (Lk : leaf (bits (dsk d)) (sdbm_hash k) i) by (apply (leaf_same _ h); auto).
    rewrite <- (w_map _ _ W k i Lk). rewrite E, <- Pb. now apply getpair_rep.
  - eapply homed_write; eauto.
  - split; [apply (c_max _ C)|apply (c_dir _ C)].
  - pose proof (c_walk _ C). lia.
Qed.

(* once the page of interest is on the disk the database is consistent *)
Lemma mk_done : forall d m h i, mk d m h i -> m [] = None ->
  Inv (write_pag d (pagbno d) (pagbuf d)) m.
Proof.
  intros d m h i K Nl. pose proof (mk_bno _ _ _ _ K) as Bn. pose proof (pgno_range h i) as PR.
  destruct K as [K1 K2 K3 K4 [K5 K5'] K6].
  constructor; auto. constructor; cbn; auto.
  - intros h' i' L' E. unfold cont. cbn.
    replace (pagbno d <? Z.max (plen (dsk d)) (pagbno d + 1)) with true by lia. now rewrite Z.eqb_refl.
  - lia.
  - lia.
  - lia.
Qed.

Lemma rep_In_pgno : forall (ps : pairs) k v h i,
  (forall k v, In (k, v) ps -> k <> [] /\ pgno (sdbm_hash k) i = pgno h i) ->
  k <> [] -> pgno (sdbm_hash k) i = pgno h i ->
  forall k' v', In (k', v') (ps ++ [(k, v)]) -> k' <> [] /\ pgno (sdbm_hash k') i = pgno h i.
Proof.
  intros ps k v h i H A B k' v' I. apply in_app_iff in I. destruct I as [I|[I|[]]]; eauto.
  injection I as -> ->. auto.
Qed.

Lemma NoDup_snoc : forall (ps : pairs) k v, NoDup (map fst ps) -> assoc k ps = None ->
  NoDup (map fst (ps ++ [(k, v)])).
Proof.
  intros ps k v N A. apply assoc_none_notin in A. rewrite map_app. cbn [map fst].
  induction (map fst ps) as [|x l IH]; cbn [app].
  - constructor; [cbn; tauto|constructor].
  - inversion_clear N as [|? ? N1 N2]. constructor.
    + intros I. apply in_app_iff in I. destruct I as [I|[I|[]]]; [tauto|]. subst. apply A. now left.
    + apply IH; auto. intros I. apply A. now right.
Qed.

Lemma bad_nil : forall k, bad k = match k with [] => true | _ => false end.
Proof.
  intros [|c k]; unfold bad; [reflexivity|]. rewrite dsize_cons. pose proof (dsize_nonneg k). lia.
Qed.

(* deleting a key from the page of interest *)
Lemma mk_del : forall d m i k, mk d m (sdbm_hash k) i ->
  match delpair (pagbuf d) k with
  | Some p => m k <> None /\ mk (set_pagbuf d p) (ddel m k) (sdbm_hash k) i
  | None => m k = None
  end.
Proof.
  intros d m i k K. destruct (mk_page _ _ _ _ K) as (ps & R & N & H & M).
  pose proof (delpair_rep _ _ k R) as D. rewrite (M k eq_refl).
  destruct (delpair (pagbuf d) k) as [p|]; auto. destruct D as (D1 & D2 & _). split; auto.
  eapply mk_modify; eauto.
  - now apply NoDup_remove1.
  - intros k' v' I. apply In_remove1 in I. eauto.
  - intros k' E. rewrite assoc_remove1 by auto. unfold ddel. destruct (bstr_eq k' k); auto.
  - intros k' E. unfold ddel. destruct (bstr_eq k' k); congruence.
Qed.

Lemma delete_ok : forall d m k, Inv d m ->
  exists d' r, sdbm_delete d k = Some (d', r) /\ rdonly d' = rdonly d /\
    exists m', spec_step (rdonly d) m (RDelete k) (ACode r) (rdonly d) m' /\ Inv d' m'.
Proof.
  intros d m k I. unfold sdbm_delete. rewrite bad_nil.
  destruct k as [|c k].
  { exists d, (-1). split; [reflexivity|]. split; [reflexivity|]. exists m. split; auto.
    constructor. right. apply (i_nil _ _ I). }
  cbv iota. destruct (rdonly d) eqn:Ro.
  { exists d, (-1). split; [reflexivity|]. split; [exact Ro|]. exists m. split; auto. constructor. auto. }
  set (kk := c :: k).
  destruct (getpage_ok d (sdbm_hash kk) m (i_w _ _ I) (i_c _ _ I))
    as (d1 & i & G & Lf & E1 & E2 & E3 & E4 & E5 & E6 & E7 & C1).
  rewrite G. assert (K : mk d1 m (sdbm_hash kk) i).
  { apply mk_getpage; rewrite ?E1; auto; try apply I. }
  pose proof (mk_del _ _ _ _ K) as D. destruct (delpair (pagbuf d1) kk) as [p|].
  - destruct D as [D1 D2]. eexists _, 0. split; [reflexivity|].
    split; [cbn; congruence|]. exists (ddel m kk). split; [now constructor|].
    apply (mk_done _ _ _ _ D2). unfold ddel. destruct (bstr_eq [] kk); auto. apply (i_nil _ _ I).
  - exists d1, (-1). split; [reflexivity|]. split; [congruence|]. exists m. split; [constructor; auto|].
    constructor; rewrite ?E1; auto; apply I.
Qed.

Lemma page_size_snoc : forall ps k v, page_size (ps ++ [(k, v)]) =
  2 * (2 * (len ps + 1) + 1) + sizes ps + dsize k + dsize v.
Proof. intros. rewrite page_size_eq, len_app, sizes_app, sizes1, len1, psize_pair. lia. Qed.

Lemma need_wrap : forall k v : datum, Z.of_nat (length k) < 2 ^ 31 -> Z.of_nat (length v) < 2 ^ 31 ->
  let need := wrap 32 (dsize k + dsize v) in
  ((need <? 0) || (PAIRMAX <? need))%bool = (1008 <? dsize k + dsize v) /\
  (dsize k + dsize v <= 1008 -> need = dsize k + dsize v).
Proof.
  intros k v Hk Hv. cbv zeta. unfold wrap, PAIRMAX. fold (dsize k) in Hk. fold (dsize v) in Hv.
  pose proof (dsize_nonneg k). pose proof (dsize_nonneg v).
  change (2 ^ (32 - 1)) with 2147483648 in *. change (2 ^ 32) with 4294967296. change (2 ^ 31) with 2147483648 in *.
  set (s := dsize k + dsize v) in *.
  destruct (Z_lt_ge_dec s 2147483648) as [Q|Q].
  - rewrite Z.mod_small by lia. split; lia.
  - assert (E : (s + 2147483648) mod 4294967296 = s + 2147483648 - 4294967296).
    { symmetry. apply (Z.mod_unique _ _ 1); lia. }
    rewrite E. split; lia.
Qed.

Lemma makroom_rdonly : forall n x h w, rdonly (fst (makroom_loop n x h w)) = rdonly x.
Proof.
  induction n as [|n IH]; intros x h w; [reflexivity|]. rewrite makroom_S. cbn zeta.
  assert (Q : rdonly (split_body x h) = rdonly x).
  { unfold split_body. destruct (splpage _ _). unfold setdbit, load_dir.
    repeat match goal with |- context[if ?c then _ else _] => destruct c end; reflexivity. }
  destruct (fitpair _ _); [exact Q|]. rewrite IH. exact Q.
Qed.
Lemma SPLTMAX_10 : SPLTMAX = 10%nat.
Proof. reflexivity. Qed.
Lemma makroom_eq : forall d h w, makroom d h w = makroom_loop SPLTMAX d h w.
Proof. reflexivity. Qed.
Lemma room_eq : forall d h w r,
  (if fitpair (pagbuf d) w then (d, true) else makroom d h w) = r ->
  (if fitpair (pagbuf d) w then (d, true) else makroom_loop SPLTMAX d h w) = r.
Proof. intros d h w r. rewrite makroom_eq. auto. Qed.

Lemma room_ok : forall n d2 m h i w d3 ok, (0 < n)%nat ->
  (if fitpair (pagbuf d2) w then (d2, true) else makroom_loop n d2 h w) = (d3, ok) ->
  mk d2 m h i -> curbit d2 = node h i -> hmask d2 = 2 ^ Z.of_nat i - 1 ->
  dlen (dsk d2) <= dlen (dsk d3) /\ rdonly d3 = rdonly d2 /\
  (dlen (dsk d3) <= 1 ->
     if ok then exists i', mk d3 m h i' /\ fitpair (pagbuf d3) w = true
     else mk d3 m h (i + n) /\ fitpair (pagbuf d3) w = false /\
          pblk (dsk d3) (pagbno d3) = pagbuf d3 /\ pagbno d3 < plen (dsk d3) /\ ppos d3 = pagbno d3 + 1).
Proof.
  intros n d2 m h i w d3 ok N0 D3 K2 Cb Hm. destruct (fitpair (pagbuf d2) w) eqn:F.
  - injection D3 as <- <-. split; [lia|]. split; auto. intros _. exists i. auto.
  - split.
    + pose proof (dlen_makroom n d2 h w) as Q. rewrite D3 in Q. exact Q.
    + split.
      * pose proof (makroom_rdonly n d2 h w) as Q. rewrite D3 in Q. exact Q.
      * intros L. destruct (makroom_ok n d2 m h i w K2 Cb Hm d3 ok D3 L) as [Q1 Q2].
        destruct ok; auto. destruct Q2 as [Q2 Q3]. split; [exact Q2|]. apply Q3. exact N0.
Qed.

Lemma store_ok : forall d m k v b, Inv d m -> Z.of_nat (length k) < 2 ^ 31 -> Z.of_nat (length v) < 2 ^ 31 ->
  exists d' r, sdbm_store d k v b = Some (d', r) /\ rdonly d' = rdonly d /\
    dlen (dsk d) <= dlen (dsk d') /\
    (dlen (dsk d') <= 1 ->
     exists m', spec_step (rdonly d) m (RStore k v b) (ACode r) (rdonly d) m' /\ Inv d' m').
Proof.
  intros d m k v b I Hk Hv. unfold sdbm_store.
  assert (Nk : bad k = true /\ k = [] \/ bad k = false /\ k <> []).
  { rewrite bad_nil. destruct k; [left|right]; split; auto; discriminate. }
  destruct Nk as [[Bk ->]|[Bk Nk]]; rewrite Bk; clear Bk.
  { exists d, (-1). split; [reflexivity|]. split; [reflexivity|]. split; [lia|]. intros _.
    exists m. split; auto. constructor. auto. }
  destruct (rdonly d) eqn:Ro.
  { exists d, (-1). split; [reflexivity|]. split; [exact Ro|]. split; [lia|]. intros _.
    exists m. split; auto. constructor. auto. }
  destruct (need_wrap k v Hk Hv) as [Nw1 Nw2]. cbv zeta in *. rewrite Nw1.
  destruct (1008 <? dsize k + dsize v) eqn:Big.
  { exists d, (-1). split; [reflexivity|]. split; [exact Ro|]. split; [lia|]. intros _.
    exists m. split; auto. constructor. unfold dsize in *. right; right; lia. }
  rewrite (Nw2 ltac:(lia)).
  destruct (getpage_ok d (sdbm_hash k) m (i_w _ _ I) (i_c _ _ I))
    as (d1 & i & G & Lf & E1 & E2 & E3 & E4 & E5 & E6 & E7 & C1).
  rewrite G. assert (K : mk d1 m (sdbm_hash k) i).
  { apply mk_getpage; rewrite ?E1; auto; try apply I. }
  assert (Dup : duppair (pagbuf d1) k = is_some (m k)).
  { destruct (mk_page _ _ _ _ K) as (ps & R & N & H & M). rewrite (M k eq_refl). now apply duppair_rep. }
  rewrite Dup. destruct (negb b && is_some (m k)) eqn:DD.
  { exists d1, 1. split; [reflexivity|]. split; [congruence|]. split; [rewrite E1; lia|]. intros _.
    exists m. apply andb_true_iff in DD. destruct DD as [DD1 DD2]. destruct b; [discriminate|].
    split.
    - constructor; auto. destruct (m k); [congruence|discriminate].
    - constructor; rewrite ?E1; auto; apply I. }
  (* the page without the key *)
  set (d2 := if b then match delpair (pagbuf d1) k with Some p => set_pagbuf d1 p | None => d1 end else d1).
  assert (D2 : dsk d2 = dsk d1 /\ rdonly d2 = rdonly d1 /\ curbit d2 = curbit d1 /\ hmask d2 = hmask d1).
  { unfold d2. destruct b; auto. destruct (delpair _ _); auto. }
  destruct D2 as (D2a & D2b & D2c & D2d).
  assert (Pm : b = true \/ m k = None).
  { destruct b; auto. right. cbn [negb andb] in DD. destruct (m k); [discriminate|reflexivity]. }
  assert (K2 : mk d2 (ddel m k) (sdbm_hash k) i).
  { assert (Same : m k = None -> mk d1 (ddel m k) (sdbm_hash k) i).
    { intros Mn. destruct (mk_page _ _ _ _ K) as (ps & R & N & H & M).
      assert (S1 : d1 = set_pagbuf d1 (pagbuf d1)) by (destruct d1; reflexivity). rewrite S1.
      eapply mk_modify; eauto.
      - intros k' E. unfold ddel. destruct (bstr_eq k' k) as [->|]; auto. rewrite <- Mn. auto.
      - intros k' E. unfold ddel. destruct (bstr_eq k' k); congruence. }
    unfold d2. destruct b.
    - pose proof (mk_del _ _ _ _ K) as D. destruct (delpair (pagbuf d1) k); [tauto|auto].
    - destruct Pm; [discriminate|auto]. }
  assert (Nil2 : ddel m k [] = None).
  { unfold ddel. destruct (bstr_eq [] k); auto. apply (i_nil _ _ I). }
  destruct (if fitpair (pagbuf d2) (dsize k + dsize v) then (d2, true)
            else makroom d2 (sdbm_hash k) (dsize k + dsize v)) as [d3 ok] eqn:D3.
  apply room_eq in D3.
  assert (MR := fun h => room_ok SPLTMAX d2 (ddel m k) (sdbm_hash k) i (dsize k + dsize v) d3 ok h D3 K2
                   ltac:(congruence) ltac:(congruence)).
  destruct (MR ltac:(unfold SPLTMAX; lia)) as (Mono & R3 & MR').
  rewrite D2a, E1 in Mono. rewrite D2b, E2, Ro in R3.
  clear MR D3. rename MR' into MR.
  destruct ok.
  - eexists _, 0. split; [reflexivity|]. split; [exact R3|]. split; [exact Mono|]. intros L.
    destruct (MR L) as (i' & K3 & F).
    exists (dset m k v). split.
    { constructor; auto. unfold dsize in *. lia. }
    destruct (mk_page _ _ _ _ K3) as (ps & R & N & H & M).
    assert (Ak : assoc k ps = None).
    { rewrite <- (M k eq_refl). unfold ddel. destruct (bstr_eq k k); congruence. }
    rewrite (fitpair_rep _ _ _ R) in F.
    destruct (putpair_rep _ _ k v R ltac:(lia)) as [R' _].
    assert (K4 : mk (set_pagbuf d3 (putpair (pagbuf d3) k v)) (dset m k v) (sdbm_hash k) i').
    { eapply mk_modify; eauto.
      - now apply NoDup_snoc.
      - eapply rep_In_pgno; eauto.
      - intros k' E. rewrite assoc_app1 by auto. unfold dset. destruct (bstr_eq k' k) as [Q|Q]; auto.
        rewrite <- (M k' E). unfold ddel. destruct (bstr_eq k' k); congruence.
      - intros k' E. unfold dset, ddel. destruct (bstr_eq k' k); congruence. }
    apply (mk_done _ _ _ _ K4). unfold dset. destruct (bstr_eq [] k); [congruence|]. apply (i_nil _ _ I).
  - eexists _, (-1). split; [reflexivity|]. split; [exact R3|]. split; [exact Mono|]. intros L.
    destruct (MR L) as (K3 & F & B1 & B2 & B3). rewrite SPLTMAX_10 in K3.
    exists (ddel m k). split.
    + apply SStoreFail; auto. destruct (mk_page _ _ _ _ K3) as (ps & R & N & H & M).
      exists ps. split; [exact N|]. split.
      * intros k' v' In'. destruct (H k' v' In') as [H1 H2].
        pose proof (M k' H2) as M'. rewrite (assoc_In _ _ _ N In') in M'.
        unfold ddel in M'. destruct (bstr_eq k' k) as [Q|Q]; [discriminate|].
        split; auto. split; auto. unfold pgno in H2.
        change 1024 with (2 ^ Z.of_nat 10).
        rewrite <- (mod_mod_le (sdbm_hash k') (i + 10) 10) by lia.
        rewrite <- (mod_mod_le (sdbm_hash k) (i + 10) 10) by lia. now rewrite H2.
      * rewrite page_size_snoc. rewrite (fitpair_rep _ _ _ R) in F. lia.
    + pose proof (mk_bno _ _ _ _ K3) as Bn. pose proof (pgno_range (sdbm_hash k) (i + 10)) as PR.
      destruct K3 as [X1 X2 X3 X4 [X5 X5'] X6]. clear - X1 X2 X3 X4 X5 X5' X6 B1 B2 B3 Bn PR Nil2 F. constructor; auto.
      * eapply winv_ext; [| | | |exact X1]; cbn; auto; try lia.
        intros x. destruct (Z.eqb_spec x (pagbno d3)) as [->|]; auto.
      * eapply homed_ext; [| | |exact X2]; cbn; auto; try lia.
        intros x. destruct (Z.eqb_spec x (pagbno d3)) as [->|]; auto.
      * constructor; cbn; auto.
        -- intros h' i' L' E. unfold cont. replace (pagbno d3 <? plen (dsk d3)) with true by lia. auto.
        -- lia.
        -- lia.
        -- lia.
Qed.
