From Coq Require Import ZArith List Bool Lia ZifyBool.
From Verif Require Import Sdbm_Model Sdbm_Spec.
Import ListNotations.
Open Scope Z_scope.

Local Opaque Z.mul Z.add Z.sub Z.pow.

(** * Bytes and shorts *)

Lemma upd_same : forall p a v, upd p a v a = v.
Proof. intros. unfold upd. now rewrite Z.eqb_refl. Qed.
Lemma upd_other : forall p a v x, x <> a -> upd p a v x = p x.
Proof. intros. unfold upd. destruct (Z.eqb_spec x a); congruence. Qed.

Lemma wrap16_id : forall v, 0 <= v < 32768 -> wrap 16 (v mod 256 + 256 * ((v / 256) mod 256)) = v.
Proof.
  intros v Hv. unfold wrap. change (2 ^ (16 - 1)) with 32768. change (2 ^ 16) with 65536.
  rewrite (Z.mod_small (v / 256) 256).
  2:{ split; [apply Z.div_pos; lia|]. apply Z.div_lt_upper_bound; lia. }
  replace (v mod 256 + 256 * (v / 256)) with v.
  2:{ pose proof (Z.div_mod v 256 ltac:(lia)). lia. }
  rewrite Z.mod_small; lia.
Qed.

Lemma ino_set_same : forall p i v, 0 <= v < 32768 -> ino (set_ino p i v) i = v.
Proof.
  intros. unfold ino, set_ino. rewrite upd_same.
  rewrite (upd_other _ (2*i+1)) by lia. rewrite upd_same. now apply wrap16_id.
Qed.
Lemma set_ino_byte : forall p i v x, x <> 2 * i -> x <> 2 * i + 1 -> set_ino p i v x = p x.
Proof. intros. unfold set_ino. rewrite !upd_other; auto. Qed.
Lemma ino_ext : forall p p' i, p (2*i) = p' (2*i) -> p (2*i+1) = p' (2*i+1) -> ino p i = ino p' i.
Proof. intros p p' i A B. unfold ino. now rewrite A, B. Qed.
Lemma ino_set_other : forall p i v j, i <> j -> ino (set_ino p i v) j = ino p j.
Proof. intros. apply ino_ext; apply set_ino_byte; lia. Qed.

Lemma dsize_nonneg : forall k, 0 <= dsize k.
Proof. intros. unfold dsize. lia. Qed.
Lemma dsize_cons : forall b k, dsize (b :: k) = 1 + dsize k.
Proof. intros. unfold dsize. cbn [length]. lia. Qed.

Definition at_ (p : page) (a : Z) (l : list Z) : Prop :=
  forall j b, nth_error l j = Some b -> p (a + Z.of_nat j) = b.

Lemma memcpy_out : forall l p a x, (x < a \/ a + dsize l <= x) -> memcpy p a l x = p x.
Proof.
  induction l as [|b l IH]; intros p a x H; cbn [memcpy]; auto.
  rewrite dsize_cons in H. pose proof (dsize_nonneg l).
  rewrite IH by lia. apply upd_other. lia.
Qed.
Lemma memcpy_at : forall l p a, at_ (memcpy p a l) a l.
Proof.
  induction l as [|b l IH]; intros p a j c H.
  - destruct j; discriminate.
  - destruct j; cbn [nth_error] in H; cbn [memcpy].
    + injection H as <-. rewrite memcpy_out by lia.
      replace (a + Z.of_nat 0) with a by lia. apply upd_same.
    + specialize (IH (upd p a b) (a + 1) j c H).
      replace (a + Z.of_nat (S j)) with (a + 1 + Z.of_nat j) by lia. exact IH.
Qed.
Lemma memcpy_ino : forall l p a i, (2*i+1 < a \/ a + dsize l <= 2*i) -> ino (memcpy p a l) i = ino p i.
Proof. intros. apply ino_ext; apply memcpy_out; lia. Qed.

Lemma at_ext : forall p p' a l, (forall x, a <= x < a + dsize l -> p' x = p x) ->
  at_ p a l -> at_ p' a l.
Proof.
  intros p p' a l H A j b E. rewrite H; [now apply A|].
  assert (j < length l)%nat by (apply nth_error_Some; congruence). unfold dsize. lia.
Qed.

Lemma bytes_gen : forall (l : list Z) (p : page) a s, (forall j b, nth_error l j = Some b -> p (a + Z.of_nat (s + j)) = b) ->
  map (fun j => p (a + Z.of_nat j)) (seq s (length l)) = l.
Proof.
  induction l as [|b l IH]; intros p a s H; cbn [length seq map]; auto.
  f_equal.
  - specialize (H 0%nat b eq_refl). rewrite Nat.add_0_r in H. exact H.
  - apply IH. intros j c E. specialize (H (S j) c E). rewrite Nat.add_succ_r in H. exact H.
Qed.
Lemma bytes_at : forall l p a, at_ p a l -> bytes p a (dsize l) = l.
Proof.
  intros l p a H. unfold bytes, dsize. rewrite Nat2Z.id. apply bytes_gen. exact H.
Qed.

Lemma eqbytes_true : forall a b, eqbytes a b = true <-> a = b.
Proof.
  induction a as [|x a IH]; destruct b as [|y b]; cbn [eqbytes]; split; intros H; try discriminate; auto.
  - apply andb_true_iff in H. destruct H as [A B]. apply Z.eqb_eq in A. apply IH in B. congruence.
  - injection H as -> ->. rewrite Z.eqb_refl. apply IH. reflexivity.
Qed.

(** * The layout of a page *)

Definition psize (kv : bstring * bstring) : Z := dsize (fst kv) + dsize (snd kv).
Fixpoint sizes (ps : pairs) : Z :=
  match ps with [] => 0 | kv :: r => psize kv + sizes r end.
Definition len (ps : pairs) : Z := Z.of_nat (length ps).

Fixpoint rep_from (p : page) (i off : Z) (ps : pairs) : Prop :=
  match ps with
  | [] => True
  | (k, v) :: r =>
    ino p i = off - dsize k /\ ino p (i + 1) = off - dsize k - dsize v /\
    at_ p (off - dsize k) k /\ at_ p (off - dsize k - dsize v) v /\
    rep_from p (i + 2) (off - dsize k - dsize v) r
  end.

Definition rep (p : page) (ps : pairs) : Prop :=
  ino p 0 = 2 * len ps /\ rep_from p 1 1024 ps /\ 2 * (2 * len ps + 1) + sizes ps <= 1024.

Lemma len_nonneg : forall ps, 0 <= len ps. Proof. unfold len. lia. Qed.
Lemma len_cons : forall a ps, len (a :: ps) = 1 + len ps.
Proof. intros. unfold len. cbn [length]. lia. Qed.
Lemma len_app : forall a b, len (a ++ b) = len a + len b.
Proof. intros. unfold len. rewrite app_length. lia. Qed.
Lemma psize_nonneg : forall a, 0 <= psize a.
Proof. intros [k v]. unfold psize. pose proof (dsize_nonneg k). pose proof (dsize_nonneg v). cbn [fst snd]. lia. Qed.
Lemma sizes_nonneg : forall ps, 0 <= sizes ps.
Proof. induction ps as [|a ps IH]; cbn [sizes]. lia. pose proof (psize_nonneg a). lia. Qed.
Lemma sizes_app : forall a b, sizes (a ++ b) = sizes a + sizes b.
Proof. induction a as [|x a IH]; intros b; cbn [sizes app]. lia. rewrite IH. lia. Qed.
Lemma psize_pair : forall k v, psize (k, v) = dsize k + dsize v.
Proof. reflexivity. Qed.

Lemma page_size_eq : forall ps, page_size ps = 2 * (2 * len ps + 1) + sizes ps.
Proof.
  unfold page_size. induction ps as [|[k v] ps IH]; cbn [map fold_right sizes].
  - reflexivity.
  - rewrite len_cons. rewrite psize_pair. unfold pair_size at 1. cbn [fst snd].
    fold (dsize k). fold (dsize v). lia.
Qed.

Lemma rep_from_app : forall a p i off b,
  rep_from p i off (a ++ b) <->
  rep_from p i off a /\ rep_from p (i + 2 * len a) (off - sizes a) b.
Proof.
  induction a as [|[k v] a IH]; intros p i off b; cbn [app rep_from sizes].
  - replace (i + 2 * len []) with i by (unfold len; cbn [length]; lia).
    replace (off - 0) with off by lia. tauto.
  - rewrite IH, len_cons, psize_pair.
    replace (i + 2 + 2 * len a) with (i + 2 * (1 + len a)) by lia.
    replace (off - dsize k - dsize v - sizes a) with (off - (dsize k + dsize v + sizes a)) by lia.
    tauto.
Qed.

Lemma rep_from_frame : forall ps p p' i off,
  (forall x, (2 * i <= x < 2 * i + 4 * len ps \/ off - sizes ps <= x < off) -> p' x = p x) ->
  rep_from p i off ps -> rep_from p' i off ps.
Proof.
  induction ps as [|[k v] ps IH]; intros p p' i off F H; cbn [rep_from] in *; auto.
  destruct H as (A & B & C & D & E).
  rewrite len_cons in F. cbn [sizes] in F. rewrite psize_pair in F.
  pose proof (sizes_nonneg ps). pose proof (len_nonneg ps).
  pose proof (dsize_nonneg k). pose proof (dsize_nonneg v).
  repeat split.
  - rewrite <- A. apply ino_ext; apply F; lia.
  - rewrite <- B. apply ino_ext; apply F; lia.
  - eapply at_ext; [|exact C]. intros; apply F; lia.
  - eapply at_ext; [|exact D]. intros; apply F; lia.
  - eapply IH; [|exact E]. intros x Hx. apply F. lia.
Qed.

Lemma rep_from_last : forall ps p i off, ps <> [] -> rep_from p i off ps ->
  ino p (i + 2 * len ps - 1) = off - sizes ps.
Proof.
  induction ps as [|[k v] ps IH]; intros p i off N H; [congruence|].
  cbn [rep_from] in H. destruct H as (A & B & C & D & E).
  rewrite len_cons. cbn [sizes]. rewrite psize_pair.
  destruct ps as [|kv ps].
  - cbn [sizes]. replace (i + 2 * (1 + len []) - 1) with (i + 1) by (unfold len; cbn [length]; lia).
    lia.
  - specialize (IH p (i + 2) (off - dsize k - dsize v) ltac:(congruence) E).
    replace (i + 2 * (1 + len (kv :: ps)) - 1) with (i + 2 + 2 * len (kv :: ps) - 1) by lia.
    rewrite IH. lia.
Qed.

Lemma rep_zero : rep zeropage [].
Proof. unfold rep. repeat split; cbn; unfold len; cbn; try lia. Qed.

Lemma rep_top : forall p ps, rep p ps -> top p = 1024 - sizes ps.
Proof.
  intros p ps (A & B & C). unfold top. rewrite A.
  destruct ps as [|kv ps].
  - replace (0 <? 2 * len []) with false by reflexivity. unfold PBLKSIZ. cbn [sizes]. lia.
  - rewrite len_cons. pose proof (len_nonneg ps).
    replace (0 <? 2 * (1 + len ps)) with true by lia.
    pose proof (rep_from_last (kv :: ps) p 1 1024 ltac:(congruence) B) as L.
    rewrite len_cons in L. rewrite <- L. f_equal. lia.
Qed.

Lemma fitpair_rep : forall p ps need, rep p ps ->
  fitpair p need = (need + 4 + 2 * (2 * len ps + 1) + sizes ps <=? 1024).
Proof.
  intros p ps need R. unfold fitpair. rewrite (rep_top _ _ R).
  destruct R as (A & B & C). rewrite A. lia.
Qed.

Lemma sizes1 : forall kv, sizes [kv] = psize kv.
Proof. intros. cbn [sizes]. lia. Qed.
Lemma len1 : forall kv, len [kv] = 1. Proof. reflexivity. Qed.

Lemma putpair_rep : forall p ps k v, rep p ps ->
  2 * (2 * (len ps + 1) + 1) + sizes ps + dsize k + dsize v <= 1024 ->
  rep (putpair p k v) (ps ++ [(k, v)]) /\
  (forall x, ~ (0 <= x < 1024) -> putpair p k v x = p x).
Proof.
  intros p ps k v R F. pose proof (rep_top _ _ R) as T. destruct R as (A & B & C).
  unfold putpair. rewrite T, A.
  pose proof (len_nonneg ps) as L0. pose proof (sizes_nonneg ps) as S0.
  pose proof (dsize_nonneg k) as K0. pose proof (dsize_nonneg v) as V0.
  set (o1 := 1024 - sizes ps - dsize k). set (o2 := o1 - dsize v).
  set (p1 := memcpy p o1 k). set (p2 := set_ino p1 (2 * len ps + 1) o1).
  set (p3 := memcpy p2 o2 v). set (p4 := set_ino p3 (2 * len ps + 2) o2).
  assert (I0 : ino p4 0 = 2 * len ps).
  { unfold p4. rewrite ino_set_other by lia. unfold p3. rewrite memcpy_ino by lia.
    unfold p2. rewrite ino_set_other by lia. unfold p1. rewrite memcpy_ino by lia. exact A. }
  rewrite I0.
  assert (FR : forall x, x <> 0 -> x <> 1 -> (x < 4 * len ps + 2 \/ 4 * len ps + 6 <= x) ->
               (x < o2 \/ 1024 - sizes ps <= x) ->
               set_ino p4 0 (2 * len ps + 2) x = p x).
  { intros x X0 X1 X2 X3. rewrite set_ino_byte by lia. unfold p4. rewrite set_ino_byte by lia.
    unfold p3. rewrite memcpy_out by (unfold o2, o1 in *; lia). unfold p2. rewrite set_ino_byte by lia.
    unfold p1. apply memcpy_out. unfold o2, o1 in *; lia. }
  split.
  - unfold rep. rewrite len_app, sizes_app, sizes1, len1, psize_pair.
    split; [|split].
    + rewrite ino_set_same; lia.
    + apply rep_from_app. split.
      * eapply rep_from_frame; [|exact B]. intros x Hx. apply FR; unfold o2, o1; try lia.
      * cbn [rep_from]. repeat split.
        -- rewrite ino_set_other by lia. unfold p4. rewrite ino_set_other by lia.
           unfold p3. rewrite memcpy_ino by (unfold o2, o1; lia).
           unfold p2. replace (1 + 2 * len ps) with (2 * len ps + 1) by lia.
           apply ino_set_same. unfold o1. lia.
        -- rewrite ino_set_other by lia. unfold p4.
           replace (1 + 2 * len ps + 1) with (2 * len ps + 2) by lia.
           rewrite ino_set_same; unfold o2, o1; lia.
        -- fold o1. eapply at_ext; [|apply (memcpy_at k p o1)].
           intros x Hx. rewrite set_ino_byte by (unfold o1 in *; lia).
           unfold p4. rewrite set_ino_byte by (unfold o1 in *; lia).
           unfold p3. rewrite memcpy_out by (unfold o2, o1 in *; lia).
           unfold p2. rewrite set_ino_byte by (unfold o1 in *; lia). reflexivity.
        -- fold o1. fold o2. eapply at_ext; [|apply (memcpy_at v p2 o2)].
           intros x Hx. rewrite set_ino_byte by (unfold o2, o1 in *; lia).
           unfold p4. rewrite set_ino_byte by (unfold o2, o1 in *; lia). reflexivity.
    + lia.
  - intros x Hx. apply FR; unfold o2, o1; lia.
Qed.

(** * Searching *)

Fixpoint findk (k : bstring) (ps : pairs) : option nat :=
  match ps with
  | [] => None
  | (k', _) :: r => if bstr_eq k k' then Some 0%nat
                    else match findk k r with Some j => Some (S j) | None => None end
  end.

Lemma key_test : forall p k k' off i, ino p i = off - dsize k' -> at_ p (off - dsize k') k' ->
  (dsize k =? off - ino p i) && eqbytes k (bytes p (ino p i) (dsize k)) =
  if bstr_eq k k' then true else false.
Proof.
  intros p k k' off i A B. rewrite A. destruct (bstr_eq k k') as [E|E].
  - subst k'. rewrite (bytes_at k) by exact B. apply andb_true_iff. split; [lia|].
    now apply eqbytes_true.
  - apply andb_false_iff. destruct (Z.eq_dec (dsize k) (dsize k')) as [S|S]; [right|left; lia].
    rewrite S. rewrite (bytes_at k') by exact B.
    destruct (eqbytes k k') eqn:Q; auto. apply eqbytes_true in Q. congruence.
Qed.

Lemma seepair_loop_rep : forall ps fuel p n k off i, rep_from p i off ps ->
  n = i - 1 + 2 * len ps -> 2 * len ps <= Z.of_nat fuel ->
  seepair_loop fuel p n k off i =
  match findk k ps with Some j => i + 2 * Z.of_nat j | None => 0 end.
Proof.
  induction ps as [|[k' v'] ps IH]; intros fuel p n k off i R N F.
  - cbn [findk]. destruct fuel; cbn [seepair_loop]; auto.
    replace (i <? n) with false; auto. subst n. unfold len; cbn [length]. lia.
  - cbn [rep_from] in R. destruct R as (A & B & C & D & E). rewrite len_cons in *.
    pose proof (len_nonneg ps). destruct fuel as [|fuel]; [lia|]. cbn [seepair_loop findk].
    replace (i <? n) with true by lia. rewrite (key_test p k k') by assumption.
    destruct (bstr_eq k k') as [Q|Q]; [lia|].
    rewrite B. rewrite (IH fuel) by (try assumption; lia).
    destruct (findk k ps); lia.
Qed.

Lemma seepair_rep : forall p ps k, rep p ps ->
  seepair p (ino p 0) k = match findk k ps with Some j => 1 + 2 * Z.of_nat j | None => 0 end.
Proof.
  intros p ps k (A & B & C). unfold seepair. rewrite A.
  apply seepair_loop_rep; [exact B| lia | pose proof (len_nonneg ps); lia].
Qed.

Lemma findk_some : forall k ps j, findk k ps = Some j ->
  exists a v b, ps = a ++ (k, v) :: b /\ length a = j /\ findk k a = None /\
    assoc k ps = Some v /\ remove1 k ps = a ++ b.
Proof.
  induction ps as [|[k' v'] ps IH]; intros j H; cbn [findk] in H; [discriminate|].
  destruct (bstr_eq k k') as [Q|Q].
  - injection H as <-. subst k'. exists [], v', ps. cbn [app length findk assoc remove1].
    destruct (bstr_eq k k); [|congruence]. auto.
  - destruct (findk k ps) as [j'|] eqn:Fk; [|discriminate]. injection H as <-.
    destruct (IH j' eq_refl) as (a & v & b & E1 & E2 & E3 & E4 & E5).
    exists ((k', v') :: a), v, b. subst ps. cbn [app length findk assoc remove1].
    destruct (bstr_eq k k'); [congruence|]. rewrite E3, E4, E5. auto.
Qed.
Lemma findk_none : forall k ps, findk k ps = None -> assoc k ps = None /\ remove1 k ps = ps.
Proof.
  induction ps as [|[k' v'] ps IH]; intros H; cbn [findk assoc remove1] in *; auto.
  destruct (bstr_eq k k') as [Q|Q]; [discriminate|].
  destruct (findk k ps); [discriminate|]. destruct (IH eq_refl) as [A B]. rewrite A, B. auto.
Qed.

Lemma rep_mid : forall p a k v b, rep p (a ++ (k, v) :: b) ->
  rep_from p 1 1024 a /\
  ino p (1 + 2 * len a) = 1024 - sizes a - dsize k /\
  ino p (2 + 2 * len a) = 1024 - sizes a - dsize k - dsize v /\
  at_ p (1024 - sizes a - dsize k) k /\ at_ p (1024 - sizes a - dsize k - dsize v) v /\
  rep_from p (3 + 2 * len a) (1024 - sizes a - dsize k - dsize v) b.
Proof.
  intros p a k v b (A & B & C). apply rep_from_app in B. destruct B as [B1 B2].
  cbn [rep_from] in B2. destruct B2 as (D1 & D2 & D3 & D4 & D5).
  replace (1 + 2 * len a + 1) with (2 + 2 * len a) in D2 by lia.
  replace (1 + 2 * len a + 2) with (3 + 2 * len a) in D5 by lia. auto 10.
Qed.

Lemma len_zero : forall ps, (2 * len ps =? 0) = match ps with [] => true | _ => false end.
Proof. destruct ps; [reflexivity|]. rewrite len_cons. pose proof (len_nonneg ps). lia. Qed.

Lemma getpair_rep : forall p ps k, rep p ps -> getpair p k = assoc k ps.
Proof.
  intros p ps k R. unfold getpair. rewrite (seepair_rep _ _ _ R).
  pose proof R as (A & B & C). rewrite A at 1. rewrite len_zero.
  destruct ps as [|kv ps']; [reflexivity|]. set (ps := kv :: ps') in *.
  destruct (findk k ps) as [j|] eqn:F.
  - destruct (findk_some _ _ _ F) as (a & v & b & E1 & E2 & E3 & E4 & E5).
    rewrite E4. clear A B C. rewrite E1 in R.
    destruct (rep_mid _ _ _ _ _ R) as (M1 & M2 & M3 & M4 & M5 & M6).
    assert (Ha : Z.of_nat j = len a) by (unfold len; lia).
    replace (1 + 2 * Z.of_nat j =? 0) with false by lia.
    rewrite Ha. replace (1 + 2 * len a + 1) with (2 + 2 * len a) by lia.
    rewrite M2, M3. f_equal.
    replace (1024 - sizes a - dsize k - (1024 - sizes a - dsize k - dsize v)) with (dsize v) by lia.
    now apply bytes_at.
  - destruct (findk_none _ _ F) as [F1 _]. rewrite F1. reflexivity.
Qed.

Lemma duppair_rep : forall p ps k, rep p ps ->
  duppair p k = match assoc k ps with Some _ => true | None => false end.
Proof.
  intros p ps k R. unfold duppair. rewrite (seepair_rep _ _ _ R).
  destruct (findk k ps) as [j|] eqn:F.
  - destruct (findk_some _ _ _ F) as (a & v & b & E1 & E2 & E3 & E4 & E5). rewrite E4.
    pose proof R as (A & B & C). rewrite A, E1, len_app, len_cons.
    pose proof (len_nonneg a). pose proof (len_nonneg b).
    apply andb_true_iff. split; lia.
  - destruct (findk_none _ _ F) as [F1 _]. rewrite F1. apply andb_false_r.
Qed.

Lemma getnkey_rep : forall p ps j, rep p ps -> 1 <= j ->
  getnkey p j = option_map fst (nth_error ps (Z.to_nat (j - 1))).
Proof.
  intros p ps j R Hj. unfold getnkey. pose proof R as (A & B & C). rewrite A.
  destruct (nth_error ps (Z.to_nat (j - 1))) as [[k v]|] eqn:N.
  - apply nth_error_split in N. destruct N as (a & b & E1 & E2).
    assert (Ha : j - 1 = len a) by (unfold len; lia).
    rewrite E1 in R. destruct (rep_mid _ _ _ _ _ R) as (M1 & M2 & M3 & M4 & M5 & M6).
    assert (Hlen : len ps = len a + 1 + len b) by (rewrite E1, len_app, len_cons; lia).
    pose proof (len_nonneg a). pose proof (len_nonneg b).
    replace ((2 * len ps =? 0) || (2 * len ps <? j * 2 - 1)) with false by lia.
    cbn [option_map fst]. f_equal.
    replace (j * 2 - 1) with (1 + 2 * len a) by lia. rewrite M2.
    replace (if 1 <? 1 + 2 * len a then ino p (1 + 2 * len a - 1) else PBLKSIZ) with (1024 - sizes a).
    2:{ destruct a as [|kv a].
        - replace (1 <? 1 + 2 * len []) with false by reflexivity. unfold PBLKSIZ. cbn [sizes]. lia.
        - rewrite len_cons. pose proof (len_nonneg a).
          replace (1 <? 1 + 2 * (1 + len a)) with true by lia.
          pose proof (rep_from_last (kv :: a) p 1 1024 ltac:(congruence) M1) as L.
          rewrite len_cons in L. rewrite <- L. reflexivity. }
    replace (1024 - sizes a - (1024 - sizes a - dsize k)) with (dsize k) by lia.
    now apply bytes_at.
  - apply nth_error_None in N. cbn [option_map].
    replace ((2 * len ps =? 0) || (2 * len ps <? j * 2 - 1)) with true; auto.
    unfold len. lia.
Qed.

(** * Deleting *)

Lemma movb_spec : forall m p dst src, src <= dst -> forall x,
  movb m p dst src x = if (dst - Z.of_nat m <=? x) && (x <? dst) then p (x - (dst - src)) else p x.
Proof.
  induction m as [|m IH]; intros p dst src H x; cbn [movb].
  - replace ((dst - Z.of_nat 0 <=? x) && (x <? dst)) with false by lia. reflexivity.
  - rewrite IH by lia.
    destruct ((dst - 1 - Z.of_nat m <=? x) && (x <? dst - 1)) eqn:Q.
    + replace ((dst - Z.of_nat (S m) <=? x) && (x <? dst)) with true by lia.
      rewrite upd_other by lia. f_equal. lia.
    + destruct (Z.eq_dec x (dst - 1)) as [->|E].
      * replace ((dst - Z.of_nat (S m) <=? dst - 1) && (dst - 1 <? dst)) with true by lia.
        rewrite upd_same. f_equal. lia.
      * replace ((dst - Z.of_nat (S m) <=? x) && (x <? dst)) with false by lia.
        now apply upd_other.
Qed.

Lemma adjust_spec : forall fuel p i n zoo,
  n - 1 - i <= Z.of_nat fuel ->
  (forall j, i <= j < n - 1 -> 0 <= ino p (j + 2) + zoo < 32768) ->
  (forall j, i <= j < n - 1 -> ino (adjust fuel p i n zoo) j = ino p (j + 2) + zoo) /\
  (forall x, (x < 2 * i \/ 2 * (n - 1) <= x) -> adjust fuel p i n zoo x = p x).
Proof.
  induction fuel as [|f IH]; intros p i n zoo F V; cbn [adjust].
  - split; [intros; lia|auto].
  - destruct (i <? n - 1) eqn:Q.
    + set (p' := set_ino p i (ino p (i + 2) + zoo)).
      destruct (IH p' (i + 1) n zoo) as [I1 I2]; [lia| |].
      * intros j Hj. unfold p'. rewrite ino_set_other by lia. apply V. lia.
      * split.
        -- intros j Hj. destruct (Z.eq_dec j i) as [->|N].
           ++ assert (E : ino (adjust f p' (i + 1) n zoo) i = ino p' i).
              { apply ino_ext; apply I2; lia. }
              rewrite E. unfold p'. apply ino_set_same. apply V. lia.
           ++ rewrite I1 by lia. unfold p'. rewrite ino_set_other by lia. reflexivity.
        -- intros x Hx. rewrite I2 by lia. unfold p'. apply set_ino_byte; lia.
    + split; [intros; lia|auto].
Qed.

Lemma rep_from_shift : forall ps p p' i off zoo,
  (forall x, off - sizes ps <= x < off -> p' (x + zoo) = p x) ->
  (forall j, i <= j < i + 2 * len ps -> ino p' j = ino p (j + 2) + zoo) ->
  rep_from p (i + 2) off ps -> rep_from p' i (off + zoo) ps.
Proof.
  induction ps as [|[k v] ps IH]; intros p p' i off zoo F I H; cbn [rep_from] in *; auto.
  destruct H as (A & B & C & D & E). rewrite len_cons in I. cbn [sizes] in F. rewrite psize_pair in F.
  pose proof (sizes_nonneg ps). pose proof (len_nonneg ps).
  pose proof (dsize_nonneg k). pose proof (dsize_nonneg v).
  repeat split.
  - rewrite I by lia. rewrite A. lia.
  - rewrite I by lia. replace (i + 1 + 2) with (i + 2 + 1) by lia. rewrite B. lia.
  - intros j b Hb. specialize (C j b Hb).
    assert (j < length k)%nat by (apply nth_error_Some; congruence).
    replace (off + zoo - dsize k + Z.of_nat j) with (off - dsize k + Z.of_nat j + zoo) by lia.
    rewrite F; [exact C|]. unfold dsize in *. lia.
  - intros j b Hb. specialize (D j b Hb).
    assert (j < length v)%nat by (apply nth_error_Some; congruence).
    replace (off + zoo - dsize k - dsize v + Z.of_nat j)
      with (off - dsize k - dsize v + Z.of_nat j + zoo) by lia.
    rewrite F; [exact D|]. unfold dsize in *. lia.
  - replace (off + zoo - dsize k - dsize v) with (off - dsize k - dsize v + zoo) by lia.
    apply (IH p); [| |exact E].
    + intros x Hx. apply F. lia.
    + intros j Hj. apply I. lia.
Qed.

(* every offset of a stored sequence lies in the page *)
Lemma rep_from_range : forall ps p i off j, rep_from p i off ps -> i <= j < i + 2 * len ps ->
  off - sizes ps <= ino p j <= off.
Proof.
  induction ps as [|[k v] ps IH]; intros p i off j R Hj.
  - unfold len in Hj; cbn [length] in Hj; lia.
  - cbn [rep_from] in R. destruct R as (A & B & C & D & E). rewrite len_cons in Hj.
    cbn [sizes]. rewrite psize_pair. pose proof (sizes_nonneg ps).
    pose proof (dsize_nonneg k). pose proof (dsize_nonneg v).
    destruct (Z.eq_dec j i) as [->|N1]; [lia|].
    destruct (Z.eq_dec j (i + 1)) as [->|N2]; [lia|].
    specialize (IH p (i + 2) _ j E ltac:(lia)). lia.
Qed.

Lemma delpair_rep : forall p ps k, rep p ps ->
  match delpair p k with
  | Some p' => assoc k ps <> None /\ rep p' (remove1 k ps) /\
               (forall x, ~ (0 <= x < 1024) -> p' x = p x)
  | None => assoc k ps = None
  end.
Proof.
  intros p ps k R. unfold delpair. cbv zeta. rewrite (seepair_rep _ _ _ R).
  pose proof R as (A & B & C).
  replace (ino p 0 =? 0) with (match ps with [] => true | _ => false end) by (rewrite A; now rewrite len_zero).
  destruct ps as [|kv ps']; [reflexivity|]. set (ps := kv :: ps') in *.
  destruct (findk k ps) as [jn|] eqn:F.
  2:{ destruct (findk_none _ _ F) as [F1 _]. exact F1. }
  destruct (findk_some _ _ _ F) as (a & v & b & E1 & E2 & E3 & E4 & E5).
  replace (1 + 2 * Z.of_nat jn =? 0) with false by lia.
  assert (Ha : Z.of_nat jn = len a) by (unfold len; lia).
  rewrite Ha, E5, E4. split; [congruence|].
  clear F E2 E3 E4 E5 Ha. rewrite E1 in *. clear E1 ps.
  destruct (rep_mid _ _ _ _ _ R) as (M1 & M2 & M3 & M4 & M5 & M6).
  rewrite len_app, len_cons in A, C. rewrite sizes_app in C. cbn [sizes] in C. rewrite psize_pair in C.
  pose proof (len_nonneg a) as La. pose proof (len_nonneg b) as Lb.
  pose proof (sizes_nonneg a) as Sa. pose proof (sizes_nonneg b) as Sb.
  pose proof (dsize_nonneg k) as K0. pose proof (dsize_nonneg v) as V0.
  destruct b as [|kvb b'].
  - assert (Hl : len [] = 0) by reflexivity. rewrite Hl in *. cbn [sizes] in *.
    replace (1 + 2 * len a <? ino p 0 - 1) with false by lia.
    rewrite app_nil_r. rewrite A. split.
    + split; [|split].
      * rewrite ino_set_same; lia.
      * eapply rep_from_frame; [|exact M1]. intros x Hx. apply set_ino_byte; lia.
      * lia.
    + intros x Hx. apply set_ino_byte; lia.
  - set (b := kvb :: b') in *.
    assert (Lb1 : 1 <= len b).
    { unfold b. rewrite len_cons. pose proof (len_nonneg b'). lia. }
    replace (1 + 2 * len a <? ino p 0 - 1) with true by lia.
    assert (Dst : (if 1 + 2 * len a =? 1 then PBLKSIZ else ino p (1 + 2 * len a - 1)) = 1024 - sizes a).
    { destruct a as [|kva a'].
      - replace (1 + 2 * len [] =? 1) with true by reflexivity. unfold PBLKSIZ. cbn [sizes]. lia.
      - rewrite len_cons. pose proof (len_nonneg a').
        replace (1 + 2 * (1 + len a') =? 1) with false by lia.
        pose proof (rep_from_last (kva :: a') p 1 1024 ltac:(congruence) M1) as L.
        rewrite len_cons in L. exact L. }
    rewrite Dst. replace (1 + 2 * len a + 1) with (2 + 2 * len a) by lia. rewrite M3.
    assert (Bot : ino p (ino p 0) = 1024 - sizes a - dsize k - dsize v - sizes b).
    { pose proof (rep_from_last b p (3 + 2 * len a) _ ltac:(unfold b; congruence) M6) as L.
      rewrite <- L. f_equal. lia. }
    rewrite Bot. rewrite A.
    set (dst := 1024 - sizes a). set (zoo := dst - (dst - dsize k - dsize v)).
    assert (Hz : zoo = dsize k + dsize v) by (unfold zoo; lia).
    set (m := Z.to_nat (dst - dsize k - dsize v - (dst - dsize k - dsize v - sizes b))).
    assert (Hm : Z.of_nat m = sizes b) by (unfold m; lia).
    set (p1 := movb m p dst (dst - dsize k - dsize v)).
    set (n := 2 * (len a + (1 + len b))).
    assert (P1 : forall x, p1 x = if (dst - sizes b <=? x) && (x <? dst) then p (x - zoo) else p x).
    { intros x. unfold p1. rewrite movb_spec by lia. rewrite Hm. reflexivity. }
    assert (P1i : forall j, 0 <= j -> j <= n -> ino p1 j = ino p j).
    { intros j J0 J1. apply ino_ext; rewrite P1;
      match goal with |- context[if ?c then _ else _] => replace c with false end; auto; unfold dst, n in *; lia. }
    destruct (adjust_spec (Z.to_nat n) p1 (1 + 2 * len a) n zoo) as [J1 J2]; [unfold n; lia| |].
    { intros j Hj. rewrite P1i by (unfold n in *; lia).
      pose proof (rep_from_range b p (3 + 2 * len a) _ (j + 2) M6 ltac:(unfold n in *; lia)).
      fold dst in H. unfold dst in *. lia. }
    set (p2 := adjust (Z.to_nat n) p1 (1 + 2 * len a) n zoo) in *.
    assert (I2 : ino p2 0 = n).
    { transitivity (ino p 0); [|exact A]. transitivity (ino p1 0); [apply ino_ext; apply J2; lia| apply P1i; unfold n; lia]. }
    rewrite I2.
    split.
    + split; [|split].
      * rewrite ino_set_same; rewrite ?len_app; unfold n; lia.
      * apply rep_from_app. split.
        -- eapply rep_from_frame; [|exact M1]. intros x Hx.
           rewrite set_ino_byte by (unfold dst in *; lia).
           rewrite J2 by (unfold n, dst in *; lia). rewrite P1.
           replace ((dst - sizes b <=? x) && (x <? dst)) with false; auto. unfold dst in *; lia.
        -- replace (1024 - sizes a) with (dst - dsize k - dsize v + zoo) by (unfold dst in *; lia).
           apply (rep_from_shift b p).
           ++ intros x Hx. rewrite set_ino_byte by (unfold dst in *; lia).
              rewrite J2 by (unfold n, dst in *; lia). rewrite P1.
              replace ((dst - sizes b <=? x + zoo) && (x + zoo <? dst)) with true by lia.
              f_equal. lia.
           ++ intros j Hj. rewrite ino_set_other by lia. rewrite J1 by (unfold n; lia).
              rewrite P1i by (unfold n; lia). reflexivity.
           ++ replace (1 + 2 * len a + 2) with (3 + 2 * len a) by lia. exact M6.
      * rewrite len_app, sizes_app. lia.
    + intros x Hx. rewrite set_ino_byte by lia. rewrite J2 by (unfold n; lia). rewrite P1.
      replace ((dst - sizes b <=? x) && (x <? dst)) with false; auto. unfold dst in *; lia.
Qed.

(** * Splitting and checking *)

Definition goes (sbit : Z) (kv : bstring * bstring) : bool :=
  negb (Z.land (sdbm_hash (fst kv)) sbit =? 0).

Lemma spl_loop_rep : forall ps fuel cur sbit pag new off i n a b,
  rep_from cur i off ps -> n = 2 * len ps -> 2 * len ps <= Z.of_nat fuel ->
  rep pag a -> rep new b ->
  4 * (len a + len b + len ps) + 2 + sizes a + sizes b + sizes ps <= 1024 ->
  let '(pag', new') := spl_loop fuel cur sbit pag new off i n in
  rep pag' (a ++ filter (fun kv => negb (goes sbit kv)) ps) /\ rep new' (b ++ filter (goes sbit) ps).
Proof.
  induction ps as [|[k v] ps IH]; intros fuel cur sbit pag new off i n a b R N F Ra Rb S.
  - cbn [filter]. rewrite !app_nil_r.
    replace (spl_loop fuel cur sbit pag new off i n) with (pag, new); auto.
    destruct fuel; cbn [spl_loop]; auto. subst n. reflexivity.
  - cbn [rep_from] in R. destruct R as (A & B & C & D & E). rewrite len_cons in *.
    cbn [sizes] in S. rewrite psize_pair in S.
    pose proof (len_nonneg ps). pose proof (len_nonneg a). pose proof (len_nonneg b).
    pose proof (sizes_nonneg ps). pose proof (sizes_nonneg a). pose proof (sizes_nonneg b).
    pose proof (dsize_nonneg k). pose proof (dsize_nonneg v).
    destruct fuel as [|fuel]; [lia|]. cbn [spl_loop].
    replace (0 <? n) with true by lia. cbv zeta.
    rewrite A, B.
    replace (off - (off - dsize k)) with (dsize k) by lia. rewrite (bytes_at k) by exact C.
    replace (off - dsize k - (off - dsize k - dsize v)) with (dsize v) by lia.
    rewrite (bytes_at v) by exact D.
    cbn [filter]. change (goes sbit (k, v)) with (negb (Z.land (sdbm_hash k) sbit =? 0)).
    destruct (Z.land (sdbm_hash k) sbit =? 0) eqn:G; cbn [negb].
    + destruct (putpair_rep pag a k v Ra ltac:(lia)) as [P _].
      specialize (IH fuel cur sbit (putpair pag k v) new (off - dsize k - dsize v) (i + 2) (n - 2)
                     (a ++ [(k, v)]) b E ltac:(lia) ltac:(lia) P Rb).
      rewrite len_app, sizes_app, sizes1, len1, psize_pair in IH. specialize (IH ltac:(lia)).
      rewrite <- app_assoc in IH. exact IH.
    + destruct (putpair_rep new b k v Rb ltac:(lia)) as [P _].
      specialize (IH fuel cur sbit pag (putpair new k v) (off - dsize k - dsize v) (i + 2) (n - 2)
                     a (b ++ [(k, v)]) E ltac:(lia) ltac:(lia) Ra P).
      rewrite len_app, sizes_app, sizes1, len1, psize_pair in IH. specialize (IH ltac:(lia)).
      rewrite <- app_assoc in IH. exact IH.
Qed.

Lemma splpage_rep : forall p ps sbit, rep p ps ->
  rep (fst (splpage p sbit)) (filter (fun kv => negb (goes sbit kv)) ps) /\
  rep (snd (splpage p sbit)) (filter (goes sbit) ps).
Proof.
  intros p ps sbit (A & B & C). unfold splpage. rewrite A.
  pose proof (len_nonneg ps).
  pose proof (spl_loop_rep ps (Z.to_nat (2 * len ps)) p sbit zeropage zeropage PBLKSIZ 1 (2 * len ps) [] []
    B eq_refl ltac:(lia) rep_zero rep_zero) as H0.
  specialize (H0 ltac:(cbn [sizes]; change (len []) with 0; lia)).
  destruct (spl_loop _ _ _ _ _ _ _ _) as [p1 p2]. exact H0.
Qed.

Lemma chk_loop_rep : forall ps fuel p off i n, rep_from p i off ps -> n = 2 * len ps ->
  chk_loop fuel p off i n = true.
Proof.
  induction ps as [|[k v] ps IH]; intros fuel p off i n R N; destruct fuel as [|fuel]; cbn [chk_loop]; auto.
  - subst n. reflexivity.
  - cbn [rep_from] in R. destruct R as (A & B & C & D & E). rewrite len_cons in N.
    pose proof (dsize_nonneg k). pose proof (dsize_nonneg v).
    rewrite A, B. destruct (0 <? n); auto.
    replace ((off <? off - dsize k) || (off <? off - dsize k - dsize v)
             || (off - dsize k <? off - dsize k - dsize v)) with false by lia.
    apply IH; [exact E|lia].
Qed.
Lemma chkpage_rep : forall p ps, rep p ps -> chkpage p = true.
Proof.
  intros p ps (A & B & C). unfold chkpage. rewrite A.
  pose proof (len_nonneg ps). pose proof (sizes_nonneg ps). change (PBLKSIZ / 2) with 512.
  replace ((2 * len ps <? 0) || (512 <? 2 * len ps)) with false by lia.
  apply (chk_loop_rep ps); auto.
Qed.

(** * Histories of one page *)

Lemma pstep_rep : forall p ps o, rep p ps -> rep (pstep p o) (pop_spec ps o).
Proof.
  intros p ps [k v|k] R; cbn [pstep pop_spec].
  - rewrite (fitpair_rep _ _ _ R). rewrite page_size_eq, len_app, sizes_app, sizes1, len1, psize_pair.
    match goal with |- rep (if ?c then _ else _) (if ?c' then _ else _) => replace c' with c by lia; destruct c eqn:Q end; auto.
    apply putpair_rep; [exact R|lia].
  - pose proof (delpair_rep p ps k R) as D. destruct (delpair p k) as [p'|].
    + tauto.
    + assert (E : remove1 k ps = ps).
      { clear R. induction ps as [|[k' v'] ps IH]; cbn [remove1 assoc] in *; auto.
        destruct (bstr_eq k k'); [discriminate|]. now rewrite IH. }
      now rewrite E.
Qed.
Lemma prun_rep : forall os p ps, rep p ps -> rep (fold_left pstep os p) (fold_left pop_spec os ps).
Proof.
  induction os as [|o os IH]; intros p ps R; cbn [fold_left]; auto. apply IH. now apply pstep_rep.
Qed.

Lemma pstep_frame : forall p ps o x, rep p ps -> ~ (0 <= x < 1024) -> pstep p o x = p x.
Proof.
  intros p ps [k v|k] x R Hx; cbn [pstep].
  - rewrite (fitpair_rep _ _ _ R). match goal with |- (if ?c then _ else _) _ = _ => destruct c eqn:Q end; auto.
    apply (proj2 (putpair_rep p ps k v R ltac:(lia)) x Hx).
  - pose proof (delpair_rep p ps k R) as D. destruct (delpair p k) as [p'|]; auto. now apply D.
Qed.
Lemma prun_frame : forall os p ps x, rep p ps -> ~ (0 <= x < 1024) -> fold_left pstep os p x = p x.
Proof.
  induction os as [|o os IH]; intros p ps x R Hx; cbn [fold_left]; auto.
  rewrite (IH _ (pop_spec ps o)) by (auto; now apply pstep_rep). eapply pstep_frame; eauto.
Qed.

Lemma page_history : forall os,
  let p := fold_left pstep os zeropage in
  let ps := page_spec os in
  page_size ps <= 1024 /\
  (forall k, getpair p k = assoc k ps) /\
  (forall k, duppair p k = match assoc k ps with Some _ => true | None => false end) /\
  (forall i, getnkey p (Z.of_nat i + 1) = option_map fst (nth_error ps i)) /\
  (forall k v, fitpair p (dsize k + dsize v) = (page_size (ps ++ [(k, v)]) <=? 1024)) /\
  (forall k, delpair p k = None <-> assoc k ps = None) /\
  chkpage p = true /\
  (forall x, ~ (0 <= x < 1024) -> p x = zeropage x).
Proof.
  intros os p ps. assert (R : rep p ps) by (apply prun_rep, rep_zero).
  repeat split.
  - rewrite page_size_eq. apply R.
  - intros k. now apply getpair_rep.
  - intros k. now apply duppair_rep.
  - intros i. rewrite (getnkey_rep p ps) by (auto; lia).
    replace (Z.to_nat (Z.of_nat i + 1 - 1)) with i by lia. reflexivity.
  - intros k v. rewrite (fitpair_rep _ _ _ R). rewrite page_size_eq, len_app, sizes_app, sizes1, len1, psize_pair. lia.
  - intros H. pose proof (delpair_rep p ps k R) as D. rewrite H in D. exact D.
  - intros H. pose proof (delpair_rep p ps k R) as D. destruct (delpair p k); tauto.
  - eapply chkpage_rep; eauto.
  - intros x Hx. now apply (prun_frame os zeropage [] x rep_zero).
Qed.

Lemma page_split : forall os b,
  let p := fold_left pstep os zeropage in
  let ps := page_spec os in
  let left := fst (splpage p (2 ^ b)) in
  let right := snd (splpage p (2 ^ b)) in
  let goes kv := Z.testbit (sdbm_hash (fst kv)) b in
  0 <= b ->
  (forall k, getpair left k = assoc k (filter (fun kv => negb (goes kv)) ps)) /\
  (forall k, getpair right k = assoc k (filter goes ps)) /\
  (forall i, getnkey left (Z.of_nat i + 1) = option_map fst (nth_error (filter (fun kv => negb (goes kv)) ps) i)) /\
  (forall i, getnkey right (Z.of_nat i + 1) = option_map fst (nth_error (filter goes ps) i)) /\
  chkpage left = true /\ chkpage right = true.
Proof.
  intros os b p ps left right g Hb. assert (R : rep p ps) by (apply prun_rep, rep_zero).
  destruct (splpage_rep p ps (2 ^ b) R) as [A B]. fold left in A. fold right in B.
  assert (G : forall kv, goes (2 ^ b) kv = g kv).
  { intros kv. unfold goes, g. set (h := sdbm_hash (fst kv)).
    destruct (Z.testbit h b) eqn:T.
    - destruct (Z.eqb_spec (Z.land h (2 ^ b)) 0) as [E|E]; auto.
      assert (Z.testbit (Z.land h (2 ^ b)) b = false) by (rewrite E; apply Z.bits_0).
      rewrite Z.land_spec, T, Z.pow2_bits_true in H by lia. discriminate.
    - destruct (Z.eqb_spec (Z.land h (2 ^ b)) 0) as [E|E]; auto.
      exfalso. apply E. apply Z.bits_inj'. intros n Hn. rewrite Z.land_spec, Z.bits_0.
      destruct (Z.eq_dec n b) as [->|Q]; [now rewrite T|].
      rewrite Z.pow2_bits_false by lia. apply andb_false_r. }
  rewrite (filter_ext (goes (2 ^ b)) g G) in B.
  rewrite (filter_ext (fun kv => negb (goes (2 ^ b) kv)) (fun kv => negb (g kv))) in A.
  2:{ intros kv. now rewrite G. }
  repeat split; intros;
    try (now apply getpair_rep); try (eapply chkpage_rep; eauto; fail).
  - rewrite (getnkey_rep left _ _ A) by lia.
    replace (Z.to_nat (Z.of_nat i + 1 - 1)) with i by lia. reflexivity.
  - rewrite (getnkey_rep right _ _ B) by lia.
    replace (Z.to_nat (Z.of_nat i + 1 - 1)) with i by lia. reflexivity.
Qed.
