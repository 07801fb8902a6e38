(** Proofs about position *)

From Coq Require Import ZArith List Bool Lia.
From Verif Require Import Position_Model Position_Spec.
Import ListNotations.

Lemma some_inj : forall (A : Type) (a b : A), Some a = Some b -> b = a.
Proof. congruence. Qed.

Section Walk.
Variable h : heap.

Lemma nth_cell_cons : forall k l c, nth_cell h l k = Some c -> exists x, h c = Some x.
Proof.
  induction k as [|k IH]; intros l c H; cbn in H.
  - destruct (h l) as [x|] eqn:E; [|discriminate]. injection H as <-. exists x. exact E.
  - destruct (h l) as [(b, r)|]; [|discriminate]. exact (IH r c H).
Qed.
Lemma nth_cell_add : forall a l c m, nth_cell h l a = Some c -> nth_cell h l (a + m) = nth_cell h c m.
Proof.
  induction a as [|a IH]; intros l c m H; cbn in H.
  - destruct (h l) eqn:E; [|discriminate]. injection H as <-. reflexivity.
  - cbn. destruct (h l) as [(b, r)|]; [|discriminate]. apply IH, H.
Qed.
Lemma nth_cell_none : forall l m, h l = None -> nth_cell h l m = None.
Proof. intros l [|m] H; cbn; rewrite H; reflexivity. Qed.
Lemma nth_cell_next : forall l b r m, h l = Some (b, r) -> nth_cell h l (S m) = nth_cell h r m.
Proof. intros l b r m H. cbn. rewrite H. reflexivity. Qed.

Variable start : nat.
(** After j rounds *)
Definition round (j slow l : nat) : Prop :=
  (forall m, nth_cell h start (2 * j + m) = nth_cell h l m) /\ (forall m, nth_cell h start (j + m) = nth_cell h slow m).

Lemma round_next : forall j slow l b l1 b1 l2 b2 s1, round j slow l ->
  h l = Some (b, l1) -> h l1 = Some (b1, l2) -> h slow = Some (b2, s1) -> round (S j) s1 l2.
Proof.
  intros j slow l b l1 b1 l2 b2 s1 (A & B) H1 H2 H3. split; intros m.
  - replace (2 * S j + m) with (2 * j + S (S m)) by lia. rewrite A.
    rewrite (nth_cell_next _ _ _ _ H1). apply (nth_cell_next _ _ _ _ H2).
  - replace (S j + m) with (j + S m) by lia. rewrite B. apply (nth_cell_next _ _ _ _ H3).
Qed.

Definition right (r : option nat) : Prop :=
  match r with
  | Some i => at_place h start i /\ forall k, k < i -> ~ at_place h start k
  | None => forall k, ~ at_place h start k
  end.

Lemma not_here : forall j l b r, nth_cell h start j = Some l -> h l = Some (b, r) -> b = false -> ~ at_place h start j.
Proof. intros j l b r N H -> (c & x & E & T). congruence. Qed.

Lemma loop_right : forall fuel j slow l r, round j slow l -> (forall k, k < 2 * j -> ~ at_place h start k) ->
  position_loop fuel h slow l (2 * j) = Some r -> right r.
Proof.
  induction fuel as [|fuel IH]; intros j slow l r R No H; [discriminate|].
  pose proof R as (A & B). cbn [position_loop] in H.
  destruct (h l) as [([|], l1)|] eqn:H1.
  - apply some_inj in H; subst r. split; [|exact No]. exists l, l1. split; [|exact H1].
    rewrite <- (Nat.add_0_r (2 * j)), A. cbn. rewrite H1. reflexivity.
  - assert (N0 : ~ at_place h start (2 * j)).
    { apply (not_here _ l false l1); auto. rewrite <- (Nat.add_0_r (2 * j)), A. cbn. rewrite H1. reflexivity. }
    assert (A1 : forall m, nth_cell h start (S (2 * j) + m) = nth_cell h l1 m).
    { intros m. replace (S (2 * j) + m) with (2 * j + S m) by lia. rewrite A. apply (nth_cell_next _ _ _ _ H1). }
    assert (No1 : forall k, k < S (2 * j) -> ~ at_place h start k).
    { intros k K. destruct (Nat.eq_dec k (2 * j)) as [->|]; [exact N0|]. apply No. lia. }
    destruct (h l1) as [([|], l2)|] eqn:H2.
    + apply some_inj in H; subst r. split; [|exact No1]. exists l1, l2. split; [|exact H2].
      rewrite <- (Nat.add_0_r (S (2 * j))), A1. cbn. rewrite H2. reflexivity.
    + assert (N1 : ~ at_place h start (S (2 * j))).
      { apply (not_here _ l1 false l2); auto. rewrite <- (Nat.add_0_r (S (2 * j))), A1. cbn. rewrite H2. reflexivity. }
      assert (No2 : forall k, k < 2 * S j -> ~ at_place h start k).
      { intros k K. destruct (Nat.eq_dec k (S (2 * j))) as [->|]; [exact N1|]. apply No1. lia. }
      destruct (Nat.eqb l1 slow) eqn:E.
      * apply some_inj in H; subst r. apply Nat.eqb_eq in E. subst l1. cbn.
        intros k. induction k as [k IHk] using lt_wf_ind. destruct (Nat.lt_ge_cases k (2 * S j)) as [K|K]; [apply No2, K|].
        intros (c & x & P & T).
        apply (IHk (k - S j)); [lia|]. exists c, x. split; [|exact T]. rewrite <- P.
        replace (k - S j) with (j + (k - S (2 * j))) by lia. rewrite B.
        replace k with (S (2 * j) + (k - S (2 * j))) at 2 by lia. rewrite A1. reflexivity.
      * destruct (h slow) as [(b2, s1)|] eqn:H3.
        -- replace (S (S (2 * j))) with (2 * S j) in H by lia.
           apply (IH (S j) s1 l2 r); auto. eapply round_next; eauto.
        -- apply some_inj in H; subst r. cbn. intros k (c & x & P & T).
           destruct (Nat.lt_ge_cases k j) as [K|K]; [apply (No k); [lia|exists c, x; auto]|].
           replace k with (j + (k - j)) in P by lia. rewrite B, (nth_cell_none _ _ H3) in P. discriminate.
    + apply some_inj in H; subst r. cbn. intros k (c & x & P & T).
      destruct (Nat.lt_ge_cases k (S (2 * j))) as [K|K]; [apply (No1 k K); exists c, x; auto|].
      replace k with (S (2 * j) + (k - S (2 * j))) in P by lia. rewrite A1, (nth_cell_none _ _ H2) in P. discriminate.
  - apply some_inj in H; subst r. cbn. intros k (c & x & P & T).
    destruct (Nat.lt_ge_cases k (2 * j)) as [K|K]; [apply (No k K); exists c, x; auto|].
    replace k with (2 * j + (k - 2 * j)) in P by lia. rewrite A, (nth_cell_none _ _ H1) in P. discriminate.
Qed.

(** As long as it has not ended, the two never stand on the same cell *)
Lemma loop_runs : forall fuel j slow l, round j slow l -> position_loop fuel h slow l (2 * j) = None ->
  forall j', j <= j' < j + fuel -> exists c d, nth_cell h start (S (2 * j')) = Some c /\ nth_cell h start j' = Some d /\ c <> d.
Proof.
  induction fuel as [|fuel IH]; intros j slow l R H j' J; [lia|].
  pose proof R as (A & B). cbn [position_loop] in H.
  destruct (h l) as [([|], l1)|] eqn:H1; try discriminate.
  destruct (h l1) as [([|], l2)|] eqn:H2; try discriminate.
  destruct (Nat.eqb l1 slow) eqn:E; [discriminate|]. apply Nat.eqb_neq in E.
  destruct (h slow) as [(b2, s1)|] eqn:H3; [|discriminate].
  destruct (Nat.eq_dec j' j) as [->|Nj].
  - exists l1, slow. split; [|split; [|exact E]].
    + replace (S (2 * j)) with (2 * j + 1) by lia. rewrite A. rewrite (nth_cell_next _ _ _ _ H1). cbn. rewrite H2. reflexivity.
    + rewrite <- (Nat.add_0_r j), B. cbn. rewrite H3. reflexivity.
  - replace (S (S (2 * j))) with (2 * S j) in H by lia.
    apply (IH (S j) s1 l2); [eapply round_next; eauto|exact H|lia].
Qed.

Lemma periodic : forall a c, (forall m, nth_cell h start (a + m) = nth_cell h start (a + c + m)) ->
  forall q x, a <= x -> nth_cell h start x = nth_cell h start (x + q * c).
Proof.
  intros a c P. induction q as [|q IH]; intros x X; [f_equal; lia|].
  rewrite (IH x X). replace (x + q * c) with (a + (x + q * c - a)) by lia. rewrite P. f_equal. lia.
Qed.

Lemma loop_ends : forall n, (forall c, n <= c -> h c = None) -> position (S (n * S n)) h start <> None.
Proof.
  intros n Fin H. unfold position in H.
  assert (R : round 0 start start) by (split; intros m; reflexivity).
  pose proof (loop_runs (S (n * S n)) 0 start start R H) as Runs.
  set (f := fun k => match nth_cell h start k with Some c => c | None => 0 end).
  assert (Is : forall k, k <= n -> nth_cell h start k = Some (f k) /\ f k < n).
  { intros k K. destruct (Runs k ltac:(lia)) as (c & d & _ & D & _). unfold f. rewrite D. split; [reflexivity|].
    destruct (nth_cell_cons _ _ _ D) as (x & X). destruct (Nat.lt_ge_cases d n) as [L|L]; [exact L|]. rewrite (Fin d L) in X. discriminate. }
  assert (Diff : forall a b, a < b <= n -> f a <> f b).
  { intros a b K E. destruct (Is a ltac:(lia)) as (Ca & La). destruct (Is b ltac:(lia)) as (Cb & Lb).
    set (c := b - a).
    assert (P : forall m, nth_cell h start (a + m) = nth_cell h start (a + c + m)).
    { intros m. rewrite (nth_cell_add _ _ _ _ Ca). replace (a + c + m) with (b + m) by (unfold c; lia).
      rewrite (nth_cell_add _ _ _ _ Cb). rewrite E. reflexivity. }
    assert (C1 : 1 <= c <= n) by (unfold c; lia).
    assert (J : exists j, S j = S a * c /\ a <= j /\ j < S (n * S n)).
    { exists (S a * c - 1). assert (S a * c >= S a * 1) by (apply Nat.mul_le_mono_l; lia).
      assert (S a * c <= S a * n) by (apply Nat.mul_le_mono_l; lia).
      assert (S a * n <= S n * n) by (apply Nat.mul_le_mono_r; lia). lia. }
    destruct J as (j & Ej & Ja & Jn).
    destruct (Runs j ltac:(lia)) as (x & d & X & D & Nx).
    pose proof (periodic a c P (S a) j Ja) as Q. replace (j + S a * c) with (S (2 * j)) in Q by lia.
    rewrite X, D in Q. injection Q as Q. congruence. }
  assert (ND : NoDup (map f (seq 0 (S n)))).
  { apply (NoDup_nth _ (f 0)). rewrite map_length, seq_length. intros i j I J E.
    rewrite !(map_nth f) in E. rewrite !seq_nth in E by assumption. cbn [Nat.add] in E.
    destruct (Nat.lt_trichotomy i j) as [L|[L|L]]; [|exact L|].
    - exfalso. apply (Diff i j); [lia|exact E].
    - exfalso. apply (Diff j i); [lia|]. symmetry. exact E. }
  assert (I : incl (map f (seq 0 (S n))) (seq 0 n)).
  { intros x X. apply in_map_iff in X as (k & <- & K). apply in_seq in K. apply in_seq.
    destruct (Is k ltac:(lia)) as (_ & L). lia. }
  pose proof (NoDup_incl_length ND I) as L. rewrite map_length, !seq_length in L. lia.
Qed.
End Walk.

Lemma fuel_more : forall f h slow l i r, position_loop f h slow l i = Some r -> forall g, f <= g -> position_loop g h slow l i = Some r.
Proof.
  induction f as [|f IH]; intros h slow l i r H g G; [discriminate|].
  destruct g as [|g]; [lia|]. cbn [position_loop] in *.
  destruct (h l) as [([|], l1)|]; try exact H.
  destruct (h l1) as [([|], l2)|]; try exact H.
  destruct (Nat.eqb l1 slow); [exact H|]. destruct (h slow) as [(b, s)|]; [|exact H]. apply IH; [exact H|lia].
Qed.

(** ** The others *)

Lemma option_index_spec : forall lst x i, match option_index lst x i with
  | Some k => i <= k /\ nth_error (map chosen lst) (k - i) = Some x /\ ~ In x (firstn (k - i) (map chosen lst))
  | None => ~ In x (map chosen lst)
  end.
Proof.
  induction lst as [|c lst IH]; intros x i; cbn [option_index map]; [intros []|].
  destruct (Z.eqb (chosen c) x) eqn:E.
  - apply Z.eqb_eq in E. rewrite Nat.sub_diag. cbn. subst x. auto.
  - apply Z.eqb_neq in E. specialize (IH x (S i)). destruct (option_index lst x (S i)) as [k|].
    + destruct IH as (A & B & C). split; [lia|]. replace (k - i) with (S (k - S i)) by lia. cbn [nth_error firstn].
      split; [exact B|]. intros [X|X]; [congruence|exact (C X)].
    + intros [X|X]; [congruence|exact (IH X)].
Qed.

Lemma newline_at_spec : forall t, match newline_at t with
  | Some k => t = firstn k t ++ 10%Z :: skipn (S k) t /\ ~ In 10%Z (firstn k t)
  | None => ~ In 10%Z t
  end.
Proof.
  induction t as [|c t IH]; cbn [newline_at]; [intros []|].
  destruct (Z.eqb c 10) eqn:E.
  - apply Z.eqb_eq in E. subst c. cbn. auto.
  - apply Z.eqb_neq in E. destruct (newline_at t) as [k|]; cbn [option_map].
    + destruct IH as (A & B). split; [cbn [firstn skipn app]; f_equal; exact A|].
      cbn [firstn]. intros [X|X]; [congruence|exact (B X)].
    + intros [X|X]; [congruence|exact (IH X)].
Qed.
Lemma spaced_id : forall t, ~ In 10%Z t -> spaced t = t.
Proof.
  induction t as [|c t IH]; intros H; [reflexivity|]. cbn. destruct (Z.eqb c 10) eqn:E.
  - apply Z.eqb_eq in E. exfalso. apply H. left. exact E.
  - f_equal. apply IH. intros X. apply H. right. exact X.
Qed.
Lemma newlines_run : forall fuel t out, length t < fuel -> newlines_loop fuel t out = Some (concat (rev out) ++ spaced t).
Proof.
  induction fuel as [|fuel IH]; intros t out L; [lia|]. cbn [newlines_loop].
  pose proof (newline_at_spec t) as N. destruct (newline_at t) as [k|].
  - destruct N as (A & B). assert (Ls : length (skipn (S k) t) < length t).
    { rewrite A at 2. rewrite app_length. cbn. lia. }
    rewrite IH by lia. f_equal. rewrite A at 3. unfold spaced at 2. rewrite map_app. cbn [map].
    fold (spaced (firstn k t)). fold (spaced (skipn (S k) t)). rewrite (spaced_id _ B).
    cbn [rev]. rewrite !concat_app. cbn [concat]. rewrite !app_nil_r, <- !app_assoc. reflexivity.
  - f_equal. rewrite spaced_id by exact N. cbn [rev]. rewrite concat_app. cbn [concat]. rewrite app_nil_r. reflexivity.
Qed.
