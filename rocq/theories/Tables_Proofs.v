From Coq Require Import ZArith List Bool Arith Lia Permutation ZifyBool.
From Verif Require Import Tables_Model Tables_Spec.
Import ListNotations.

Lemma update_length : forall A (f : A -> A) l i, length (update i f l) = length l.
Proof. induction l as [|a l IH]; intros [|i]; simpl; auto. Qed.

Lemma nth_update : forall A (f : A -> A) d l i j, i < length l ->
  nth j (update i f l) d = if j =? i then f (nth i l d) else nth j l d.
Proof.
  induction l as [|a l IH]; intros [|i] [|j] H; simpl in *; auto; try lia.
  apply IH; lia.
Qed.

Lemma FOP_perm : forall A (R : A -> A -> Prop), (forall a b, R a b -> R b a) ->
  forall l l', Permutation l l' -> ForallOrdPairs R l -> ForallOrdPairs R l'.
Proof.
  intros A R HR l l' P. induction P; intros H; auto.
  - inversion H; subst. constructor; auto.
    eapply Permutation_Forall; eauto.
  - inversion H as [|? ? F1 H1]; subst. inversion H1 as [|? ? F2 H2]; subst.
    inversion F1; subst. constructor; [constructor; auto|constructor; auto].
Qed.

Section Proofs.
  Context {K V : Type}.
  Variable hash_fun : K -> Z.
  Variable same : K -> K -> bool.
  Hypothesis Eq : equivalence same.
  Hypothesis Compat : compatible same hash_fun.

  Notation node := (node K V).
  Notation table := (table K V).
  Notation hk := (hash_key hash_fun).
  Notation all t := (concat (buckets t)).

  Definition distinct (a b : node) : Prop := same (n_key a) (n_key b) = false.

  Lemma same_refl : forall a, same a a = true. Proof. apply Eq. Qed.
  Lemma same_sym : forall a b, same a b = same b a.
  Proof.
    intros a b. destruct (same a b) eqn:E1, (same b a) eqn:E2; auto.
    - apply Eq in E1. congruence.
    - apply Eq in E2. congruence.
  Qed.
  Lemma same_trans : forall a b c, same a b = true -> same b c = true -> same a c = true.
  Proof. apply Eq. Qed.
  Lemma same_trans_f : forall a b c, same a b = true -> same a c = same b c.
  Proof.
    intros a b c H. destruct (same b c) eqn:E.
    - eapply same_trans; eauto.
    - destruct (same a c) eqn:E2; auto. rewrite <- E. symmetry.
      eapply same_trans; [|exact E2]. rewrite same_sym. exact H.
  Qed.
  Lemma distinct_sym : forall a b, distinct a b -> distinct b a.
  Proof. unfold distinct. intros a b H. rewrite same_sym. exact H. Qed.

  Lemma hk_same : forall a b, same a b = true -> hk a = hk b.
  Proof. intros a b H. unfold hash_key. rewrite (Compat _ _ H). reflexivity. Qed.

  (** The bucket array: nodes carry the hash of their key and sit in their bin. *)
  Definition placed (bins : list (list node)) : Prop :=
    forall i n, In n (nth i bins []) ->
      n_hash n = hk (n_key n) /\ hash_key_to_bin (length bins) (n_hash n) = i.

  Record inv (t : table) : Prop := {
    inv_placed : placed (buckets t);
    inv_distinct : ForallOrdPairs distinct (all t);
    inv_count : total_nodes t = length (all t);
  }.

  Lemma bin_lt : forall size h, 0 < size -> hash_key_to_bin size h < size.
  Proof.
    intros size h H. unfold hash_key_to_bin.
    pose proof (Z.mod_pos_bound h (Z.of_nat size)). lia.
  Qed.

  Lemma in_concat_nth : forall (bins : list (list node)) n,
    In n (concat bins) <-> exists i, In n (nth i bins []).
  Proof.
    intros bins n. rewrite in_concat. split.
    - intros (x & Hx & Hn). destruct (In_nth _ _ [] Hx) as (i & _ & E). exists i. rewrite E. auto.
    - intros (i & Hi). destruct (lt_dec i (length bins)) as [L|L].
      + exists (nth i bins []). split; [apply nth_In; auto|auto].
      + rewrite nth_overflow in Hi by lia. destruct Hi.
  Qed.

  Lemma chain_find_spec : forall hv k (l : list node),
    match chain_find same hv k l with
    | Some n => In n l /\ matches same hv k n = true
    | None => forall n, In n l -> matches same hv k n = false
    end.
  Proof.
    intros hv k l. induction l as [|a l IH]; simpl; [tauto|].
    destruct (matches same hv k a) eqn:E; [auto|].
    destruct (chain_find same hv k l).
    - destruct IH; auto.
    - intros n [->|H]; auto.
  Qed.

  Lemma lookup_some : forall (t : table) k n, inv t -> lookup hash_fun same t k = Some n ->
    In n (all t) /\ same k (n_key n) = true /\ n_hash n = hk k.
  Proof.
    intros t k n I H. unfold lookup in H. destruct (total_buckets t =? 0); [discriminate|].
    pose proof (chain_find_spec (hk k) k (nth (hash_key_to_bin (total_buckets t) (hk k)) (buckets t) [])) as S.
    cbv zeta in H. rewrite H in S. destruct S as [S1 S2]. unfold matches in S2.
    split; [apply in_concat_nth; eauto|]. split; lia.
  Qed.

  Lemma lookup_none : forall (t : table) k n, inv t -> lookup hash_fun same t k = None ->
    In n (all t) -> same k (n_key n) = false.
  Proof.
    intros t k n I H Hn. apply in_concat_nth in Hn. destruct Hn as (i & Hi).
    destruct (inv_placed t I i n Hi) as [P1 P2].
    unfold lookup in H. destruct (total_buckets t =? 0) eqn:Z0.
    - unfold total_buckets in Z0. destruct (buckets t); [|discriminate]. destruct i; destruct Hi.
    - pose proof (chain_find_spec (hk k) k (nth (hash_key_to_bin (total_buckets t) (hk k)) (buckets t) [])) as S.
      cbv zeta in H. rewrite H in S. destruct (same k (n_key n)) eqn:E; auto. exfalso.
      assert (M : matches same (hk k) k n = false).
      { apply S. rewrite (hk_same _ _ E), <- P1. unfold total_buckets. rewrite P2. exact Hi. }
      unfold matches in M. rewrite E, P1, (hk_same _ _ E), Z.eqb_refl in M. discriminate.
  Qed.

  (** Abstraction: the map a bag of nodes denotes. *)
  Definition denotes (l : list node) (m : K -> option V) : Prop :=
    forall k v, m k = Some v <-> exists n, In n l /\ same k (n_key n) = true /\ n_value n = v.

  Lemma unique_node : forall l (a b : node), ForallOrdPairs distinct l -> In a l -> In b l ->
    same (n_key a) (n_key b) = true -> a = b.
  Proof.
    intros l a b F Ha Hb S. destruct (ForallOrdPairs_In F a b Ha Hb) as [E|[E|E]]; auto; exfalso.
    - unfold distinct in E. congruence.
    - unfold distinct in E. rewrite same_sym in E. congruence.
  Qed.

  Lemma ref_denotes : forall (t : table), inv t -> denotes (all t) (table_ref hash_fun same t).
  Proof.
    intros t I k v. unfold table_ref. destruct (lookup hash_fun same t k) as [n|] eqn:L; simpl.
    - destruct (lookup_some t k n I L) as (A & B & C). split.
      + intros H. inversion H; subst. eauto.
      + intros (n' & A' & B' & <-). f_equal. f_equal.
        eapply unique_node; eauto using inv_distinct.
        eapply same_trans; [rewrite same_sym; exact B|exact B'].
    - split; [discriminate|]. intros (n & A & B & _). rewrite (lookup_none t k n I L A) in B. discriminate.
  Qed.

  Lemma bound_ref : forall (t : table) k, table_bound_p hash_fun same t k = true <-> table_ref hash_fun same t k <> None.
  Proof.
    intros t k. unfold table_bound_p, table_ref. destruct (lookup hash_fun same t k); simpl; split; congruence.
  Qed.

  Lemma denotes_perm : forall l l' m, Permutation l l' -> denotes l m -> denotes l' m.
  Proof.
    intros l l' m P D k v. rewrite (D k v). split; intros (n & A & B); exists n; split; auto.
    - eapply Permutation_in; eauto.
    - eapply Permutation_in; [symmetry|]; eauto.
  Qed.

  Lemma denotes_fun : forall l m m', denotes l m -> denotes l m' -> forall k, m k = m' k.
  Proof.
    intros l m m' D D' k. destruct (m k) as [v|] eqn:E.
    - apply D in E. apply D' in E. auto.
    - destruct (m' k) as [v|] eqn:E'; auto. apply D' in E'. apply D in E'. congruence.
  Qed.

  (** Insertion *)
  Lemma update_concat : forall i (n : node) bins, i < length bins ->
    Permutation (concat (update i (cons n) bins)) (n :: concat bins).
  Proof.
    intros i n bins. revert i. induction bins as [|a bins IH]; intros [|i] H; simpl in *; try lia; auto.
    rewrite (IH i) by lia. rewrite Permutation_middle. reflexivity.
  Qed.

  Lemma insert_perm : forall bins (n : node), 0 < length bins ->
    Permutation (concat (insert_node bins n)) (n :: concat bins).
  Proof. intros bins n H. apply update_concat, bin_lt, H. Qed.

  Lemma insert_placed : forall bins (n : node), 0 < length bins -> placed bins ->
    n_hash n = hk (n_key n) -> placed (insert_node bins n).
  Proof.
    intros bins n L P H i x Hx. unfold insert_node in *. rewrite update_length.
    rewrite nth_update in Hx by (apply bin_lt; auto).
    destruct (i =? hash_key_to_bin (length bins) (n_hash n)) eqn:E.
    - apply Nat.eqb_eq in E. subst i. destruct Hx as [<-|Hx]; auto.
    - auto.
  Qed.

  Lemma insert_length : forall bins (n : node), length (insert_node bins n) = length bins.
  Proof. intros. apply update_length. Qed.

  Lemma fold_insert : forall (l : list node) bins, 0 < length bins -> placed bins ->
    (forall n, In n l -> n_hash n = hk (n_key n)) ->
    let bins' := fold_left insert_node l bins in
    placed bins' /\ length bins' = length bins /\ Permutation (concat bins') (l ++ concat bins).
  Proof.
    induction l as [|n l IH]; intros bins L P H; simpl.
    - auto.
    - destruct (IH (insert_node bins n)) as (A & B & C).
      + rewrite insert_length; auto.
      + apply insert_placed; auto. apply H; left; auto.
      + intros; apply H; right; auto.
      + split; [exact A|]. split; [rewrite B; apply insert_length|].
        rewrite C. rewrite insert_perm by auto. symmetry. apply Permutation_middle.
  Qed.

  Lemma rehash_spec : forall old size, 0 < size ->
    (forall n, In n (concat old) -> n_hash n = hk (n_key n)) ->
    placed (rehash old size) /\ length (rehash old size) = size /\
    Permutation (concat (rehash old size)) (concat old).
  Proof.
    intros old size L H. unfold rehash.
    assert (G : forall old bins, 0 < length bins -> placed bins ->
      (forall n, In n (concat old) -> n_hash n = hk (n_key n)) ->
      let bins' := fold_left (fun bins chain => fold_left insert_node chain bins) old bins in
      placed bins' /\ length bins' = length bins /\ Permutation (concat bins') (concat old ++ concat bins)).
    { clear. induction old as [|c old IH]; intros bins L P H; simpl; [auto|].
      destruct (fold_insert c bins L P) as (A & B & C).
      { intros; apply H; simpl; apply in_or_app; auto. }
      destruct (IH (fold_left insert_node c bins)) as (A' & B' & C').
      - rewrite B; auto.
      - auto.
      - intros; apply H; simpl; apply in_or_app; auto.
      - split; [exact A'|]. split; [rewrite B'; exact B|].
        rewrite C', C, app_assoc, <- app_assoc. rewrite !app_assoc.
        apply Permutation_app_tail, Permutation_app_comm. }
    destruct (G old (repeat [] size)) as (A & B & C).
    - rewrite repeat_length; auto.
    - intros i n Hn. exfalso.
      assert (E : nth i (repeat (@nil node) size) [] = []) by apply nth_repeat.
      rewrite E in Hn. destruct Hn.
    - exact H.
    - split; [exact A|]. split; [rewrite B; apply repeat_length|].
      rewrite C. assert (E : concat (repeat (@nil node) size) = []) by (clear; induction size; auto).
      rewrite E, app_nil_r. reflexivity.
  Qed.

  Lemma grown_pos : forall n, 0 < grown_size n.
  Proof. intros n. unfold grown_size. destruct (n =? 0) eqn:E; [lia|]. apply Nat.eqb_neq in E. lia. Qed.

  (** Replacing or removing the matching node of one chain. *)
  Lemma chain_set_split : forall hv k v (l : list node) n,
    chain_find same hv k l = Some n ->
    exists l1 l2, l = l1 ++ n :: l2 /\ chain_set same hv k v l = l1 ++ mk_node (n_key n) v (n_hash n) :: l2.
  Proof.
    intros hv k v l n. induction l as [|a l IH]; simpl; intros H; [discriminate|].
    destruct (matches same hv k a) eqn:E.
    - inversion H; subst. exists [], l. auto.
    - destruct (IH H) as (l1 & l2 & E1 & E2). exists (a :: l1), l2. rewrite E1 at 1. rewrite E2. auto.
  Qed.
  Lemma chain_remove_split : forall hv k (l : list node) n,
    chain_find same hv k l = Some n ->
    exists l1 l2, l = l1 ++ n :: l2 /\ chain_remove same hv k l = l1 ++ l2.
  Proof.
    intros hv k l n. induction l as [|a l IH]; simpl; intros H; [discriminate|].
    destruct (matches same hv k a) eqn:E.
    - inversion H; subst. exists [], l. auto.
    - destruct (IH H) as (l1 & l2 & E1 & E2). exists (a :: l1), l2. rewrite E1 at 1. rewrite E2. auto.
  Qed.

  Lemma concat_update_split : forall i f (bins : list (list node)), i < length bins ->
    exists p s, concat bins = p ++ nth i bins [] ++ s /\ concat (update i f bins) = p ++ f (nth i bins []) ++ s.
  Proof.
    intros i f bins. revert i. induction bins as [|a bins IH]; intros [|i] H; simpl in *; try lia.
    - exists [], (concat bins). auto.
    - destruct (IH i) as (p & s & E1 & E2); [lia|].
      exists (a ++ p), s. rewrite E1 at 1. rewrite E2. rewrite !app_assoc. auto.
  Qed.

  Lemma lookup_bin : forall (t : table) k n, lookup hash_fun same t k = Some n ->
    0 < total_buckets t /\
    chain_find same (hk k) k (nth (hash_key_to_bin (total_buckets t) (hk k)) (buckets t) []) = Some n.
  Proof.
    intros t k n H. unfold lookup in H. destruct (total_buckets t =? 0) eqn:E; [discriminate|].
    apply Nat.eqb_neq in E. split; [lia|exact H].
  Qed.

  Lemma update_placed : forall bins i f, i < length bins -> placed bins ->
    (forall x, In x (f (nth i bins [])) -> exists y, In y (nth i bins []) /\ n_hash x = n_hash y /\ n_key x = n_key y) ->
    placed (update i f bins).
  Proof.
    intros bins i f L P H j x Hx. rewrite update_length. rewrite nth_update in Hx by auto.
    destruct (j =? i) eqn:E; [|auto]. apply Nat.eqb_eq in E. subst j.
    destruct (H x Hx) as (y & Hy & E1 & E2). destruct (P i y Hy) as [A B].
    rewrite E1, E2. auto.
  Qed.

  (** ** table-set *)
  Lemma set_inv : forall (t : table) k v, inv t ->
    let t' := table_set hash_fun same t k v in
    inv t' /\
    forall k', table_ref hash_fun same t' k' =
      if same k' k then Some v else table_ref hash_fun same t k'.
  Proof.
    intros t k v I t'.
    assert (G : inv t' /\ denotes (all t') (fun k' => if same k' k then Some v else table_ref hash_fun same t k')).
    2:{ destruct G as [G1 G2]. split; [exact G1|]. intros k'.
        exact (denotes_fun _ _ _ (ref_denotes t' G1) G2 k'). }
    unfold t', table_set. destruct (lookup hash_fun same t k) as [n|] eqn:L.
    - destruct (lookup_bin t k n L) as [L0 L1]. destruct (lookup_some t k n I L) as (S1 & S2 & S3).
      set (i := hash_key_to_bin (total_buckets t) (hk k)) in *.
      assert (Li : i < length (buckets t)) by (apply bin_lt; exact L0).
      destruct (chain_set_split (hk k) k v _ n L1) as (l1 & l2 & E1 & E2).
      destruct (concat_update_split i (chain_set same (hk k) k v) (buckets t) Li) as (p & s & C1 & C2).
      rewrite E1 in C1. rewrite E2 in C2.
      set (n' := mk_node (n_key n) v (n_hash n)) in *.
      assert (P1 : Permutation (all t) (n :: p ++ l1 ++ l2 ++ s)).
      { rewrite C1. rewrite <- !app_assoc. simpl. rewrite <- Permutation_middle, <- Permutation_middle. reflexivity. }
      assert (P2 : Permutation (concat (update i (chain_set same (hk k) k v) (buckets t))) (n' :: p ++ l1 ++ l2 ++ s)).
      { rewrite C2. rewrite <- !app_assoc. simpl. rewrite <- Permutation_middle, <- Permutation_middle. reflexivity. }
      assert (D1 := FOP_perm _ _ distinct_sym _ _ P1 (inv_distinct t I)).
      split.
      + split; simpl.
        * apply update_placed; auto using inv_placed. intros x Hx. fold i in Hx. rewrite E2 in Hx.
          rewrite E1. apply in_app_iff in Hx. destruct Hx as [Hx|[<-|Hx]].
          -- exists x. rewrite in_app_iff. auto.
          -- exists n. rewrite in_app_iff. simpl. auto.
          -- exists x. rewrite in_app_iff. simpl. auto.
        * eapply (FOP_perm _ _ distinct_sym); [symmetry; exact P2|].
          inversion D1; subst. constructor; auto.
        * rewrite (inv_count t I), (Permutation_length P1), (Permutation_length P2). reflexivity.
      + simpl. eapply denotes_perm; [symmetry; exact P2|].
        intros k' w. inversion D1 as [|? ? F1 F2]; subst. rewrite Forall_forall in F1.
        destruct (same k' k) eqn:E.
        * split.
          -- intros H; inversion H; subst. exists n'. simpl. split; [auto|]. split; [|auto].
             exact (same_trans _ _ _ E S2).
          -- intros (x & Hx & Sx & <-). destruct Hx as [<-|Hx]; [reflexivity|]. exfalso.
             specialize (F1 x Hx). unfold distinct in F1.
             assert (same (n_key n) (n_key x) = true); [|congruence].
             eapply same_trans; [|exact Sx]. rewrite same_sym. exact (same_trans _ _ _ E S2).
        * assert (N : same k' (n_key n) = false).
          { destruct (same k' (n_key n)) eqn:E'; auto. rewrite <- E. symmetry.
            eapply same_trans; [exact E'|]. rewrite same_sym. exact S2. }
          rewrite (denotes_perm _ _ _ P1 (ref_denotes t I) k' w). simpl.
          split; intros (x & [<-|Hx] & Sx & Vx); try (simpl in Sx; congruence); exists x; auto.
    - set (bins := if 2 * total_buckets t <=? S (total_nodes t)
                   then rehash (buckets t) (grown_size (total_buckets t)) else buckets t).
      assert (HH : forall n, In n (all t) -> n_hash n = hk (n_key n)).
      { intros n Hn. apply in_concat_nth in Hn. destruct Hn as (i & Hi). apply (inv_placed t I i n Hi). }
      assert (B : placed bins /\ 0 < length bins /\ Permutation (concat bins) (all t)).
      { unfold bins. destruct (2 * total_buckets t <=? S (total_nodes t)) eqn:E.
        - destruct (rehash_spec (buckets t) (grown_size (total_buckets t)) (grown_pos _) HH) as (A & B & C).
          split; [exact A|]. split; [rewrite B; apply grown_pos|exact C].
        - split; [apply inv_placed; auto|]. split; [|reflexivity].
          apply Nat.leb_gt in E. unfold total_buckets in E. lia. }
      destruct B as (B1 & B2 & B3).
      set (n := mk_node k v (hk k)).
      assert (P : Permutation (concat (insert_node bins n)) (n :: all t)).
      { rewrite insert_perm by auto. constructor. exact B3. }
      split.
      + split; simpl; fold bins n.
        * apply insert_placed; auto.
        * eapply (FOP_perm _ _ distinct_sym); [symmetry; exact P|]. constructor; [|apply inv_distinct; auto].
          rewrite Forall_forall. intros x Hx. unfold distinct. simpl.
          apply (lookup_none t k x I L Hx).
        * rewrite (Permutation_length P). simpl. rewrite (inv_count t I). reflexivity.
      + simpl; fold bins n. eapply denotes_perm; [symmetry; exact P|].
        intros k' w. destruct (same k' k) eqn:E.
        * split.
          -- intros H; inversion H; subst. exists n. simpl. auto.
          -- intros (x & [<-|Hx] & Sx & Vx); [simpl in Vx; congruence|]. exfalso.
             pose proof (lookup_none t k x I L Hx) as N.
             assert (same k (n_key x) = true); [|congruence].
             eapply same_trans; [rewrite same_sym; exact E|exact Sx].
        * rewrite (ref_denotes t I k' w). simpl.
          split; intros (x & Hx & Sx & Vx).
          -- exists x; auto.
          -- destruct Hx as [<-|Hx]; [simpl in Sx; congruence|]. exists x; auto.
  Qed.

  (** ** table-unset *)
  Lemma unset_inv : forall (t : table) k, inv t ->
    let t' := table_unset hash_fun same t k in
    inv t' /\
    forall k', table_ref hash_fun same t' k' =
      if same k' k then None else table_ref hash_fun same t k'.
  Proof.
    intros t k I t'.
    assert (G : inv t' /\ denotes (all t') (fun k' => if same k' k then None else table_ref hash_fun same t k')).
    2:{ destruct G as [G1 G2]. split; [exact G1|]. intros k'.
        exact (denotes_fun _ _ _ (ref_denotes t' G1) G2 k'). }
    unfold t', table_unset. destruct (lookup hash_fun same t k) as [n|] eqn:L.
    - destruct (lookup_bin t k n L) as [L0 L1]. destruct (lookup_some t k n I L) as (S1 & S2 & S3).
      rewrite S3.
      set (i := hash_key_to_bin (total_buckets t) (hk k)) in *.
      assert (Li : i < length (buckets t)) by (apply bin_lt; exact L0).
      destruct (chain_remove_split (hk k) k _ n L1) as (l1 & l2 & E1 & E2).
      destruct (concat_update_split i (chain_remove same (hk k) k) (buckets t) Li) as (p & s & C1 & C2).
      rewrite E1 in C1. rewrite E2 in C2.
      assert (P1 : Permutation (all t) (n :: p ++ l1 ++ l2 ++ s)).
      { rewrite C1. rewrite <- !app_assoc. simpl. rewrite <- Permutation_middle, <- Permutation_middle. reflexivity. }
      assert (P2 : concat (update i (chain_remove same (hk k) k) (buckets t)) = p ++ l1 ++ l2 ++ s).
      { rewrite C2. rewrite <- !app_assoc. reflexivity. }
      assert (D1 := FOP_perm _ _ distinct_sym _ _ P1 (inv_distinct t I)).
      inversion D1 as [|? ? F1 F2]; subst.
      split.
      + split; simpl.
        * apply update_placed; auto using inv_placed. intros x Hx. fold i in Hx. rewrite E2 in Hx.
          exists x. rewrite E1. rewrite in_app_iff in *. simpl. tauto.
        * rewrite P2. exact F2.
        * rewrite P2, (inv_count t I), (Permutation_length P1). simpl. lia.
      + simpl. rewrite P2. intros k' w. rewrite Forall_forall in F1.
        destruct (same k' k) eqn:E.
        * split; [discriminate|]. intros (x & Hx & Sx & _). exfalso.
          specialize (F1 x Hx). unfold distinct in F1.
          assert (same (n_key n) (n_key x) = true); [|congruence].
          eapply same_trans; [|exact Sx]. rewrite same_sym. exact (same_trans _ _ _ E S2).
        * rewrite (denotes_perm _ _ _ P1 (ref_denotes t I) k' w). simpl.
          assert (N : same k' (n_key n) = false).
          { destruct (same k' (n_key n)) eqn:E'; auto. rewrite <- E. symmetry.
            eapply same_trans; [exact E'|]. rewrite same_sym. exact S2. }
          split; intros (x & Hx & Sx & Vx).
          -- destruct Hx as [<-|Hx]; [congruence|]. exists x; auto.
          -- exists x; auto.
    - split; [exact I|]. intros k' w. rewrite <- (ref_denotes t I k' w).
      destruct (same k' k) eqn:E; [|tauto].
      destruct (table_ref hash_fun same t k') as [u|] eqn:R; [|tauto].
      apply (ref_denotes t I) in R. destruct R as (x & Hx & Sx & Vx).
      exfalso. pose proof (lookup_none t k x I L Hx) as N.
      assert (same k (n_key x) = true); [|congruence].
      eapply same_trans; [rewrite same_sym; exact E|exact Sx].
  Qed.

  Lemma make_inv : inv (make_table (K:=K) (V:=V)).
  Proof.
    split; simpl; [|constructor|reflexivity].
    intros i n H. destruct i; destruct H.
  Qed.

  (** ** Histories *)
  Notation apply_op := (apply_op hash_fun same).
  Notation run := (run hash_fun same).

  Lemma run_inv : forall ops : list (op K V), inv (run ops) /\
    forall k, table_ref hash_fun same (run ops) k = after same ops k.
  Proof.
    intros ops. unfold Tables_Spec.run, after. induction ops as [|o ops IH] using rev_ind.
    - split; [apply make_inv|reflexivity].
    - rewrite fold_left_app, rev_app_distr. simpl. destruct IH as [I R].
      destruct o as [k v|k]; simpl.
      + destruct (set_inv _ k v I) as [A B]. split; [exact A|]. intros k'. rewrite B, R. reflexivity.
      + destruct (unset_inv _ k I) as [A B]. split; [exact A|]. intros k'. rewrite B, R. reflexivity.
  Qed.

  (** ** Walking *)

  Lemma walk_chain_total : forall S (f : S -> K -> V -> S) (l : list node) s,
    walk_chain (fun s k v => (f s k v, true)) s l = fold_left (fun s n => f s (n_key n) (n_value n)) l s.
  Proof. induction l as [|n l IH]; intros s; simpl; auto. Qed.

  Lemma walk_pairs : forall S (f : S -> K -> V -> S) (t : table) s,
    table_walk (fun s k v => (f s k v, true)) s t = fold_left (fun s p => f s (fst p) (snd p)) (pairs t) s.
  Proof.
    intros S f t. unfold table_walk, pairs. induction (buckets t) as [|c bins IH]; intros s; simpl; auto.
    rewrite map_app, fold_left_app, IH. f_equal. rewrite walk_chain_total.
    clear. revert s. induction c as [|n c IH]; intros s; simpl; auto.
  Qed.

  Lemma pairs_lists : forall (t : table), inv t -> lists_bindings same (table_ref hash_fun same t) (pairs t).
  Proof.
    intros t I. pose proof (ref_denotes t I) as D. unfold pairs. split; [|split].
    - intros k v H. apply in_map_iff in H. destruct H as (n & E & Hn). inversion E; subst.
      apply D. exists n. split; auto. split; auto. apply same_refl.
    - intros k v H. apply D in H. destruct H as (n & A & B & C). exists (n_key n). split; auto.
      apply in_map_iff. exists n. rewrite C. auto.
    - generalize (inv_distinct t I). generalize (concat (buckets t)). clear.
      intros l F. induction F as [|n l F1 F2 IH]; simpl; constructor; auto.
      rewrite Forall_forall in *. intros x Hx. apply in_map_iff in Hx. destruct Hx as (m & <- & Hm).
      apply (F1 m Hm).
  Qed.

  Lemma size_pairs : forall (t : table), inv t -> table_size t = length (pairs t).
  Proof. intros t I. unfold table_size, pairs. rewrite map_length. apply inv_count, I. Qed.

  Lemma after_gc_ref : forall keys (t : table), inv t ->
    inv (after_gc hash_fun same t keys) /\
    forall k, table_ref hash_fun same (after_gc hash_fun same t keys) k =
      if existsb (same k) keys then None else table_ref hash_fun same t k.
  Proof.
    unfold after_gc. induction keys as [|a keys IH]; intros t I; simpl; [auto|].
    destruct (unset_inv t a I) as [A B]. destruct (IH _ A) as [A' B']. split; [exact A'|].
    intros k. rewrite B', B. destruct (same k a), (existsb (same k) keys); reflexivity.
  Qed.

  (** The load never exceeds two nodes per bucket, so chains stay short on average. *)
  Lemma load : forall ops : list (op K V), total_nodes (run ops) <= 2 * total_buckets (run ops).
  Proof.
    intros ops. unfold Tables_Spec.run.
    assert (G : forall (ops : list (op K V)) (t : table), total_nodes t <= 2 * total_buckets t ->
      total_nodes (fold_left apply_op ops t) <= 2 * total_buckets (fold_left apply_op ops t)).
    { clear. induction ops as [|o ops IH]; intros t H; simpl; auto. apply IH.
      destruct o as [k v|k]; simpl.
      - unfold table_set. destruct (lookup hash_fun same t k); unfold total_buckets; simpl.
        + rewrite update_length. exact H.
        + unfold insert_node. rewrite update_length. unfold total_buckets in *.
          destruct (length (buckets t) + (length (buckets t) + 0) <=? S (total_nodes t)) eqn:E.
          * assert (X : forall old bins, length (fold_left (fun bins chain => fold_left (@insert_node K V) chain bins) old bins) = length bins).
            { clear. induction old as [|c old IH]; intros bins; simpl; auto. rewrite IH.
              revert bins. induction c as [|n c IHc]; intros bins; simpl; auto.
              rewrite IHc. apply update_length. }
            unfold rehash. rewrite X, repeat_length. unfold grown_size.
            destruct (length (buckets t) =? 0) eqn:E0; [apply Nat.eqb_eq in E0; lia|].
            apply Nat.eqb_neq in E0. lia.
          * apply Nat.leb_gt in E. lia.
      - unfold table_unset. destruct (lookup hash_fun same t k); unfold total_buckets in *; simpl; auto.
        rewrite update_length. lia. }
    apply G. simpl. lia.
  Qed.
End Proofs.
