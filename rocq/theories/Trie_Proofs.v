From Coq Require Import List Arith Bool Lia.
Import ListNotations.
From Verif Require Import Trie_Model Trie_Spec.

Implicit Types h : heap.

Definition walk (h : heap) (a : nat) (ks : list key) : option nat := trie_ref h (Some a) ks.

Lemma key_eqb_eq a b : key_eqb a b = true <-> a = b.
Proof.
  destruct a, b; cbn; split; intro H; try congruence; try discriminate; auto.
  - apply Nat.eqb_eq in H; congruence.
  - injection H as H; subst. apply Nat.eqb_refl.
Qed.

Lemma key_dec (a b : key) : {a = b} + {a <> b}.
Proof. destruct (key_eqb a b) eqn:E; [left; apply key_eqb_eq; auto|right; rewrite <- key_eqb_eq; congruence]. Qed.

Lemma assq_in k l v : assq k l = Some v -> In (k, v) l.
Proof.
  induction l as [|[x y] r IH]; cbn; [discriminate|]. destruct (key_eqb x k) eqn:E.
  - apply key_eqb_eq in E. intro H; injection H as H; subst; auto.
  - auto.
Qed.

Lemma assq_none k l : assq k l = None <-> ~ In k (map fst l).
Proof.
  induction l as [|[x y] r IH]; cbn; [tauto|]. destruct (key_eqb x k) eqn:E.
  - apply key_eqb_eq in E. split; [discriminate|intro H; exfalso; apply H; auto].
  - rewrite IH. assert (x <> k) by (rewrite <- key_eqb_eq; congruence). tauto.
Qed.

Lemma walk_none h ks : trie_ref h None ks = None.
Proof. destruct ks; reflexivity. Qed.

Lemma walk_cons h a k ks :
  walk h a (k :: ks) = match assq k (nth a h []) with Some s => walk h s ks | None => None end.
Proof. reflexivity. Qed.

Lemma trie_ref_app h xs : forall t ys, trie_ref h t (xs ++ ys) = trie_ref h (trie_ref h t xs) ys.
Proof.
  induction xs as [|x xs IH]; intros t ys; cbn; auto.
  destruct (node_ref h t x); auto. rewrite walk_none; auto.
Qed.

Lemma walk_app h a xs ys :
  walk h a (xs ++ ys) = match walk h a xs with Some b => walk h b ys | None => None end.
Proof. unfold walk. rewrite trie_ref_app. destruct (trie_ref h (Some a) xs); auto. apply walk_none. Qed.

Record inv (h : heap) (roots : list nat) : Prop := {
  i_up : forall a k c, In (k, c) (nth a h []) -> a < c < length h;
  i_keys : forall a, NoDup (map fst (nth a h []));
  i_roots : forall i r, nth_error roots i = Some r -> r < length h;
  i_inj : forall i j r r' ks ks' b, nth_error roots i = Some r -> nth_error roots j = Some r' ->
            walk h r ks = Some b -> walk h r' ks' = Some b -> i = j /\ ks = ks'
}.

Lemma walk_lt h roots ks : forall a b, inv h roots -> a < length h -> walk h a ks = Some b -> b < length h.
Proof.
  induction ks as [|k ks IH]; intros a b I L H.
  - cbn in H. injection H as H; subst; auto.
  - rewrite walk_cons in H. destruct (assq k (nth a h [])) as [s|] eqn:E; [|discriminate].
    apply (IH s b I); auto. apply assq_in in E. apply (i_up _ _ I) in E. lia.
Qed.

Lemma upd_nth h a n x : a < length h -> nth x (upd h a n) [] = if Nat.eqb x a then n else nth x h [].
Proof.
  revert a x; induction h as [|y h IH]; intros [|a] x H; cbn in H; try lia.
  - destruct x; reflexivity.
  - destruct x; cbn; auto. apply IH. lia.
Qed.

Lemma upd_length h a n : length (upd h a n) = length h.
Proof. revert a; induction h; intros [|a0]; cbn; auto. Qed.

(* One new node *)
Record ext (h h' : heap) (a : nat) (k : key) : Prop := {
  e_nth : forall x, nth x h' [] = if Nat.eqb x a then (k, length h) :: nth a h [] else nth x h [];
  e_len : length h' = S (length h);
  e_lt : a < length h;
  e_free : assq k (nth a h []) = None
}.

Lemma insert_1_ext h a k : a < length h -> assq k (nth a h []) = None ->
  exists h', trie_insert_1 h (Some a) k = Some (length h, h') /\ ext h h' a k.
Proof.
  intros L F. unfold trie_insert_1. cbn [node_ref]. rewrite F. cbn [make_node node_set].
  assert (N : forall x, nth x (h ++ [[]]) [] = nth x h []).
  { intro x. destruct (Nat.lt_ge_cases x (length h)) as [Q|Q].
    - apply app_nth1; auto.
    - rewrite app_nth2 by auto. rewrite (nth_overflow h) by auto. destruct (x - length h) as [|[|]]; reflexivity. }
  rewrite !N, F. eexists. split; [reflexivity|]. constructor; auto.
  - intro x. rewrite upd_nth by (rewrite app_length; cbn; lia). rewrite !N. auto.
  - rewrite upd_length, app_length. cbn. lia.
Qed.

Lemma ext_keep h h' a k : ext h h' a k -> forall ks x b, walk h x ks = Some b -> walk h' x ks = Some b.
Proof.
  intros E. induction ks as [|q ks IH]; intros x b H; auto.
  rewrite walk_cons in *. destruct (assq q (nth x h [])) as [s|] eqn:A; [|discriminate].
  rewrite (e_nth _ _ _ _ E). destruct (Nat.eqb_spec x a).
  - subst. cbn [assq]. destruct (key_eqb k q) eqn:K.
    + apply key_eqb_eq in K. subst. rewrite (e_free _ _ _ _ E) in A. discriminate.
    + rewrite A. auto.
  - rewrite A; auto.
Qed.

Lemma ext_new h h' a k : ext h h' a k -> forall x ks, walk h x ks = Some a -> walk h' x (ks ++ [k]) = Some (length h).
Proof.
  intros E x ks H. rewrite walk_app, (ext_keep _ _ _ _ E _ _ _ H), walk_cons, (e_nth _ _ _ _ E), Nat.eqb_refl.
  cbn [assq]. assert (key_eqb k k = true) as -> by (apply key_eqb_eq; auto). reflexivity.
Qed.

Lemma ext_inv h h' a k : (forall a k c, In (k, c) (nth a h []) -> a < c < length h) -> ext h h' a k ->
  forall ks x b, x < length h -> walk h' x ks = Some b ->
  walk h x ks = Some b \/ exists q, ks = q ++ [k] /\ walk h x q = Some a /\ b = length h.
Proof.
  intros U E. induction ks as [|q ks IH]; intros x b L H; [left; exact H|].
  rewrite walk_cons, (e_nth _ _ _ _ E) in H. rewrite walk_cons.
  assert (G : forall s, assq q (nth x h []) = Some s -> walk h' s ks = Some b ->
    match assq q (nth x h []) with Some s => walk h s ks | None => None end = Some b \/
    exists p, q :: ks = p ++ [k] /\ walk h x p = Some a /\ b = length h).
  { intros s A W. rewrite A. apply IH in W.
    - destruct W as [W|(p & P1 & P2 & P3)]; auto. right. exists (q :: p). subst. repeat split.
      rewrite walk_cons, A. auto.
    - apply assq_in in A. apply U in A. lia. }
  destruct (Nat.eqb_spec x a).
  - subst x. cbn [assq] in H. destruct (key_eqb k q) eqn:K.
    + apply key_eqb_eq in K. subst q. right. destruct ks as [|q' ks].
      * cbn in H. injection H as H; subst. exists []. repeat split.
      * rewrite walk_cons, (e_nth _ _ _ _ E) in H.
        destruct (Nat.eqb_spec (length h) a); [pose proof (e_lt _ _ _ _ E); lia|].
        rewrite nth_overflow in H by auto. discriminate.
    + destruct (assq q (nth a h [])) as [s|] eqn:A; [|discriminate]. eapply G; eauto.
  - destruct (assq q (nth x h [])) as [s|] eqn:A; [|discriminate]. eapply G; eauto.
Qed.

Lemma insert_1_ok h roots i r p a k :
  inv h roots -> nth_error roots i = Some r -> walk h r p = Some a ->
  exists s h', trie_insert_1 h (Some a) k = Some (s, h') /\ inv h' roots /\
    (forall x ks b, walk h x ks = Some b -> walk h' x ks = Some b) /\
    walk h' r (p ++ [k]) = Some s /\
    (forall j r' ks c, nth_error roots j = Some r' -> walk h' r' ks = Some c ->
       walk h r' ks = Some c \/ j = i /\ ks = p ++ [k]).
Proof.
  intros I R W. pose proof (walk_lt _ _ _ _ _ I (i_roots _ _ I _ _ R) W) as L.
  destruct (assq k (nth a h [])) as [s|] eqn:A.
  - exists s, h. unfold trie_insert_1. cbn [node_ref]. rewrite A. split; auto. split; auto. split; auto. split; auto.
    rewrite walk_app, W, walk_cons, A. reflexivity.
  - destruct (insert_1_ext h a k L A) as [h' [E X]]. exists (length h), h'. split; auto.
    pose proof (ext_inv _ _ _ _ (i_up _ _ I) X) as XI.
    assert (NEW : forall j r' ks c, nth_error roots j = Some r' -> walk h' r' ks = Some c ->
       walk h r' ks = Some c \/ j = i /\ ks = p ++ [k] /\ c = length h).
    { intros j r' ks c J K. destruct (XI _ _ _ (i_roots _ _ I _ _ J) K) as [K'|(q & Q1 & Q2 & Q3)]; auto.
      right. destruct (i_inj _ _ I _ _ _ _ _ _ _ J R Q2 W). subst; auto. }
    split; [|split; [|split]].
    + constructor.
      * intros x q c H. rewrite (e_nth _ _ _ _ X) in H. rewrite (e_len _ _ _ _ X).
        destruct (Nat.eqb_spec x a).
        -- subst. destruct H as [H|H]; [injection H as H1 H2; lia|]. apply (i_up _ _ I) in H. lia.
        -- apply (i_up _ _ I) in H. lia.
      * intro x. rewrite (e_nth _ _ _ _ X). destruct (Nat.eqb_spec x a); [|apply I].
        cbn. constructor; [|apply I]. apply assq_none. auto.
      * intros j r' J. rewrite (e_len _ _ _ _ X). apply (i_roots _ _ I) in J. lia.
      * intros j j' r1 r2 ks ks' b J J' K K'.
        pose proof (NEW _ _ _ _ J K) as N1. pose proof (NEW _ _ _ _ J' K') as N2.
        destruct N1 as [N1|(-> & -> & ->)], N2 as [N2|(-> & -> & N2)].
        -- apply (i_inj _ _ I _ _ _ _ _ _ _ J J' N1 N2).
        -- subst. pose proof (walk_lt _ _ _ _ _ I (i_roots _ _ I _ _ J) N1). lia.
        -- pose proof (walk_lt _ _ _ _ _ I (i_roots _ _ I _ _ J') N2). lia.
        -- auto.
    + intros x ks b. apply (ext_keep _ _ _ _ X).
    + apply (ext_new _ _ _ _ X); auto.
    + intros j r' ks c J K. destruct (NEW _ _ _ _ J K) as [N|(N1 & N2 & _)]; auto.
Qed.

Lemma insert_ok ks : forall h roots i r p a,
  inv h roots -> nth_error roots i = Some r -> walk h r p = Some a ->
  exists s h', trie_insert h (Some a) ks = Some (Some s, h') /\ inv h' roots /\
    (forall x ks b, walk h x ks = Some b -> walk h' x ks = Some b) /\
    walk h' r (p ++ ks) = Some s /\
    (forall j r' ks' c, nth_error roots j = Some r' -> walk h' r' ks' = Some c ->
       walk h r' ks' = Some c \/ j = i /\ exists n, ks' = p ++ firstn n ks).
Proof.
  induction ks as [|k ks IH]; intros h roots i r p a I R W.
  - exists a, h. rewrite app_nil_r. cbn. split; auto.
  - destruct (insert_1_ok h roots i r p a k I R W) as (s1 & h1 & E1 & I1 & K1 & W1 & N1).
    destruct (IH h1 roots i r (p ++ [k]) s1 I1 R W1) as (s & h' & E & I' & K & W' & N).
    exists s, h'. cbn. rewrite E1. split; auto. split; auto. split; [auto|].
    rewrite <- app_assoc in W'. split; auto.
    intros j r' ks' c J Q. destruct (N _ _ _ _ J Q) as [Q'|(-> & n & Q')].
    + destruct (N1 _ _ _ _ J Q') as [Q''|(-> & Q'')]; auto.
      right. split; auto. exists 1. cbn. auto.
    + right. split; auto. exists (S n). cbn. rewrite Q', <- app_assoc. auto.
Qed.

Lemma keys_app a b : keys (a ++ b) = keys a ++ keys b.
Proof. apply map_app. Qed.

Lemma keys_inj a b : keys a = keys b -> a = b.
Proof.
  revert b; induction a as [|x a IH]; intros [|y b] H; cbn in H; try discriminate; auto.
  injection H as H1 H2. subst. f_equal; auto.
Qed.

Lemma keys_no_eow w : ~ In Eow (keys w).
Proof. unfold keys. rewrite in_map_iff. intros [x [H _]]. discriminate. Qed.

Lemma keys_firstn n w : firstn n (keys w) = keys (firstn n w).
Proof. apply firstn_map. Qed.

Lemma keys_eow_inj v w : keys v ++ [Eow] = keys w ++ [Eow] -> v = w.
Proof. intro H. apply app_inj_tail in H. destruct H. apply keys_inj; auto. Qed.

Lemma keys_eow v w : keys v ++ [Eow] <> keys w.
Proof. intro H. apply (keys_no_eow w). rewrite <- H. apply in_or_app; right; left; auto. Qed.

Lemma starts_app p w : starts p w = true <-> exists v, w = p ++ v.
Proof.
  revert w; induction p as [|x p IH]; intros w; cbn.
  - split; eauto.
  - destruct w as [|y w].
    + split; [discriminate|]. intros [v H]; discriminate.
    + rewrite andb_true_iff, Nat.eqb_eq, IH. split.
      * intros [-> [v ->]]. exists v; auto.
      * intros [v H]. injection H as H1 H2. subst. split; eauto.
Qed.

(* The sets *)
Definition holds (h : heap) (r : nat) (l : list word) : Prop :=
  (forall w, walk h r (keys w ++ [Eow]) <> None <-> In w l) /\
  (forall w, walk h r (keys w) <> None <-> w = [] \/ exists v, In v l /\ starts w v = true).

Record rel (h : heap) (roots : list nat) (s : sets) : Prop := {
  r_inv : inv h roots;
  r_len : length roots = length s;
  r_holds : forall k r, nth_error roots k = Some r -> holds h r (nth k s [])
}.

Definition vrel (h : heap) (roots : list nat) (t : tree) (v : option view) : Prop :=
  match t, v with
  | None, None => True
  | Some a, Some (View k p) => exists r, nth_error roots k = Some r /\ walk h r (keys p) = Some a
  | _, _ => False
  end.

Lemma put_nth s k w j : k < length s -> nth j (put s k w) [] = if Nat.eqb j k then w :: nth k s [] else nth j s [].
Proof.
  unfold put. revert k j; induction s as [|y s IH]; intros [|k] j H; cbn in H; try lia.
  - destruct j; reflexivity.
  - destruct j; cbn; auto. apply IH. lia.
Qed.

Lemma put_length s k w : k < length s -> length (put s k w) = length s.
Proof.
  intro H. unfold put. rewrite app_length, firstn_length. cbn [length]. rewrite skipn_length. lia.
Qed.

Lemma insert_string_ok h roots s k p a w :
  rel h roots s -> vrel h roots (Some a) (Some (View k p)) ->
  exists h', trie_insert_string h (Some a) w = Some h' /\ rel h' roots (put s k (p ++ w)) /\
    (forall x ks b, walk h x ks = Some b -> walk h' x ks = Some b).
Proof.
  intros R (r & V & W). destruct R as [I L H].
  assert (KL : k < length s) by (rewrite <- L; apply nth_error_Some; congruence).
  destruct (insert_ok (keys w) h roots k r (keys p) a I V W) as (b & h1 & E1 & I1 & K1 & W1 & N1).
  destruct (insert_1_ok h1 roots k r (keys p ++ keys w) b Eow I1 V W1) as (e & h2 & E2 & I2 & K2 & W2 & N2).
  exists h2. unfold trie_insert_string. rewrite E1, E2. split; auto.
  assert (KK : forall x ks b, walk h x ks = Some b -> walk h2 x ks = Some b) by auto.
  assert (NN : forall x ks, walk h x ks <> None -> walk h2 x ks <> None).
  { intros x ks Q. destruct (walk h x ks) as [c|] eqn:C; [|congruence]. rewrite (KK _ _ _ C). discriminate. }
  split; auto. constructor; auto.
  - rewrite put_length; auto.
  - intros j r' J. rewrite put_nth by auto. destruct (H _ _ J) as [H1 H2].
    destruct (Nat.eqb_spec j k).
    + subst j. rewrite V in J. injection J as J; subst r'. split.
      * intro v. split.
        -- intro Q. destruct (walk h2 r (keys v ++ [Eow])) as [c|] eqn:C; [|congruence].
           destruct (N2 _ _ _ _ V C) as [C'|[_ C']].
           ++ destruct (N1 _ _ _ _ V C') as [C''|(_ & n & C'')].
              ** right. apply H1. congruence.
              ** exfalso. rewrite keys_firstn, <- keys_app in C''. eapply keys_eow; eauto.
           ++ left. rewrite <- keys_app in C'. symmetry. apply keys_eow_inj; auto.
        -- intros [<-|Q].
           ++ rewrite keys_app. rewrite W2. discriminate.
           ++ apply NN, H1; auto.
      * intro v. split.
        -- intro Q. destruct (walk h2 r (keys v)) as [c|] eqn:C; [|congruence].
           destruct (N2 _ _ _ _ V C) as [C'|[_ C']].
           ++ destruct (N1 _ _ _ _ V C') as [C''|(_ & n & C'')].
              ** assert (Z : walk h r (keys v) <> None) by congruence. apply H2 in Z.
                 destruct Z as [Z|(u & Z1 & Z2)]; [left; auto|]. right. exists u; split; auto. right; auto.
              ** rewrite keys_firstn, <- keys_app in C''. apply keys_inj in C''. subst v.
                 right. exists (p ++ w). split; [left; auto|]. apply starts_app.
                 exists (skipn n w). rewrite <- app_assoc, firstn_skipn. auto.
           ++ exfalso. rewrite <- keys_app in C'. eapply keys_eow. symmetry; eauto.
        -- intros [->|(u & Q1 & Q2)].
           ++ discriminate.
           ++ destruct Q1 as [Q1|Q1].
              ** subst u. apply starts_app in Q2. destruct Q2 as [y Q2]. intro Z.
                 rewrite walk_app in W2. rewrite <- keys_app, Q2, keys_app, walk_app, Z in W2. discriminate.
              ** apply NN, H2. right. eauto.
    + split; intro v.
      * rewrite <- H1. split; [|apply NN]. intro Q.
        destruct (walk h2 r' (keys v ++ [Eow])) as [c|] eqn:C; [|congruence].
        destruct (N2 _ _ _ _ J C) as [C'|[? _]]; [|congruence].
        destruct (N1 _ _ _ _ J C') as [C''|[? _]]; congruence.
      * rewrite <- H2. split; [|apply NN]. intro Q.
        destruct (walk h2 r' (keys v)) as [c|] eqn:C; [|congruence].
        destruct (N2 _ _ _ _ J C) as [C'|[? _]]; [|congruence].
        destruct (N1 _ _ _ _ J C') as [C''|[? _]]; congruence.
Qed.

(* foreach *)
Lemma nodup_app {A} (l l' : list A) : NoDup l -> NoDup l' -> (forall x, In x l -> ~ In x l') -> NoDup (l ++ l').
Proof.
  induction 1 as [|x l N D IH]; intros D' X; cbn; auto. constructor.
  - rewrite in_app_iff. intros [Q|Q]; [tauto|]. apply (X x); [left; auto|auto].
  - apply IH; auto. intros y Y. apply X. right; auto.
Qed.

Definition below (h : heap) (l : node) (v : word) : Prop :=
  match v with
  | [] => assq Eow l <> None
  | c :: v => exists s, assq (Chr c) l = Some s /\ walk h s (keys v ++ [Eow]) <> None
  end.

Lemma below_walk h a v : below h (nth a h []) v <-> walk h a (keys v ++ [Eow]) <> None.
Proof.
  destruct v as [|c v]; cbn [below keys map app]; rewrite walk_cons.
  - destruct (assq Eow (nth a h [])); cbn; split; congruence.
  - fold (keys v). destruct (assq (Chr c) (nth a h [])) as [s|]; split.
    + intros [s' [A B]]. injection A as A; subst; auto.
    + eauto.
    + intros [s' [A B]]; discriminate.
    + congruence.
Qed.

Lemma iter_ok h roots : inv h roots -> forall fuel a toks, a < length h -> length h < fuel + a ->
  exists l, iter fuel h a toks = Some l /\ NoDup l /\
    forall w, In w l <-> exists v, w = rev toks ++ v /\ walk h a (keys v ++ [Eow]) <> None.
Proof.
  intro I. induction fuel as [|fuel IH]; intros a toks L F; [lia|].
  cbn [iter].
  assert (G : forall n, NoDup (map fst n) -> (forall k c, In (k, c) n -> a < c < length h) ->
    exists l, each (iter fuel h) toks n = Some l /\ NoDup l /\
      forall w, In w l <-> exists v, w = rev toks ++ v /\ below h n v).
  { induction n as [|[k c] n IHn]; intros D U.
    - exists []. repeat split; auto; [constructor| |].
      + intros [].
      + intros (v & _ & B). destruct v; cbn in B; [congruence|]. destruct B as [s [B _]]; discriminate.
    - cbn in D. apply NoDup_cons_iff in D. destruct D as [D1 D2].
      destruct (IHn D2 (fun k c H => U k c (or_intror H))) as (b & E & NB & IB).
      cbn [each]. rewrite E.
      destruct k as [x|].
      + destruct (IH c (x :: toks)) as (l & EL & NL & IL); [apply (U (Chr x) c); left; auto| |].
        { pose proof (U (Chr x) c (or_introl eq_refl)). lia. }
        rewrite EL. exists (l ++ b). split; auto. split.
        * apply nodup_app; auto. intros w W W'. apply IL in W. apply IB in W'.
          destruct W as (v & -> & _). destruct W' as (v' & W' & B). cbn [rev] in W'. rewrite <- app_assoc in W'.
          apply app_inv_head in W'. subst v'. cbn [app below] in B. destruct B as [s [B _]].
          apply D1. apply assq_in in B. apply (in_map fst) in B. auto.
        * intro w. rewrite in_app_iff, IL, IB. split.
          -- intros [(v & -> & W)|(v & -> & W)].
             ++ exists (x :: v). cbn [rev]. rewrite <- app_assoc. split; auto.
                cbn. rewrite Nat.eqb_refl. exists c; split; auto.
             ++ exists v. split; auto. destruct v as [|y v]; cbn in *; auto.
                destruct W as [s [A W]]. exists s. split; auto.
                destruct (Nat.eqb_spec x y); auto. subst. exfalso. apply D1. apply assq_in in A.
                apply (in_map fst) in A. auto.
          -- intros (v & -> & W). destruct v as [|y v]; cbn in W.
             ++ right. exists []. auto.
             ++ destruct W as [s [A W]]. destruct (Nat.eqb_spec x y).
                ** subst. injection A as A; subst. left. exists v. cbn [rev]. rewrite <- app_assoc. auto.
                ** right. exists (y :: v). split; auto. cbn. eauto.
      + exists ([rev toks] ++ b). split; auto. split.
        * apply nodup_app; auto; [constructor; [intros []|constructor]|].
          intros w [<-|[]] W. apply IB in W. destruct W as (v & W & B).
          rewrite <- (app_nil_r (rev toks)) in W at 1. apply app_inv_head in W. subst v.
          cbn in B. destruct (assq Eow n) as [s|] eqn:A; [|congruence]. apply D1.
          apply assq_in in A. apply (in_map fst) in A. auto.
        * intro w. rewrite in_app_iff, IB. split.
          -- intros [[<-|[]]|(v & -> & W)].
             ++ exists []. rewrite app_nil_r. split; auto. cbn. discriminate.
             ++ exists v. split; auto. destruct v; cbn in *; auto. discriminate.
          -- intros (v & -> & W). destruct v as [|y v]; cbn in W.
             ++ left. left. rewrite app_nil_r; auto.
             ++ right. exists (y :: v). split; auto. }
  destruct (G (nth a h []) (i_keys _ _ I a) (fun k c H => i_up _ _ I a k c H)) as (l & E & N & W).
  exists l. split; auto. split; auto. intro w. rewrite W.
  split; intros (v & A & B); exists v; split; auto; apply below_walk; auto.
Qed.

(* Programs *)
Lemma vrel_keep h h' roots more t v :
  (forall x ks b, walk h x ks = Some b -> walk h' x ks = Some b) -> vrel h roots t v -> vrel h' (roots ++ more) t v.
Proof.
  intros K. destruct t, v as [[k p]|]; cbn; auto. intros (r & A & B). exists r. split; auto.
  rewrite nth_error_app1; auto. apply nth_error_Some. congruence.
Qed.

Lemma reg_rel h roots regs sregs n : Forall2 (vrel h roots) regs sregs -> vrel h roots (reg regs n) (sreg sregs n).
Proof.
  intro F. unfold reg, sreg. revert n. induction F; intros [|n]; cbn; auto.
Qed.

Lemma make_rel h roots s :
  rel h roots s -> rel (h ++ [[]]) (roots ++ [length h]) (s ++ [[]]) /\
  (forall x ks b, walk h x ks = Some b -> walk (h ++ [[]]) x ks = Some b).
Proof.
  intros [I L H].
  assert (N : forall x, nth x (h ++ [[]]) [] = nth x h []).
  { intro x. destruct (Nat.lt_ge_cases x (length h)) as [Q|Q].
    - apply app_nth1; auto.
    - rewrite app_nth2 by auto. rewrite (nth_overflow h) by auto. destruct (x - length h) as [|[|]]; reflexivity. }
  assert (W : forall ks x, walk (h ++ [[]]) x ks = walk h x ks).
  { induction ks as [|k ks IH]; intro x; auto. rewrite !walk_cons, N. destruct (assq k (nth x h [])); auto. }
  assert (WN : forall ks b, walk h (length h) ks = Some b -> ks = [] /\ b = length h).
  { intros [|k ks] b Q; [cbn in Q; injection Q as Q; auto|]. rewrite walk_cons, nth_overflow in Q by auto. discriminate. }
  assert (RO : forall i r, nth_error (roots ++ [length h]) i = Some r ->
    nth_error roots i = Some r \/ i = length roots /\ r = length h).
  { intros i r Q. destruct (Nat.lt_ge_cases i (length roots)).
    - rewrite nth_error_app1 in Q; auto.
    - rewrite nth_error_app2 in Q by auto. destruct (i - length roots) as [|[|]] eqn:E; cbn in Q; try discriminate.
      injection Q as Q. right. split; auto. lia. }
  split; [|intros; rewrite W; auto].
  constructor.
  - constructor.
    + intros a k c Q. rewrite N in Q. apply (i_up _ _ I) in Q. rewrite app_length. cbn. lia.
    + intro a. rewrite N. apply I.
    + intros i r Q. rewrite app_length. cbn. apply RO in Q. destruct Q as [Q|[_ Q]]; [|lia].
      apply (i_roots _ _ I) in Q. lia.
    + intros i j r r' ks ks' b A B C D. rewrite !W in *.
      apply RO in A. apply RO in B. destruct A as [A|[-> ->]], B as [B|[-> ->]].
      * apply (i_inj _ _ I _ _ _ _ _ _ _ A B C D).
      * apply WN in D. destruct D as [-> ->].
        pose proof (walk_lt _ _ _ _ _ I (i_roots _ _ I _ _ A) C). lia.
      * apply WN in C. destruct C as [-> ->].
        pose proof (walk_lt _ _ _ _ _ I (i_roots _ _ I _ _ B) D). lia.
      * apply WN in C. apply WN in D. destruct C, D. subst; auto.
  - rewrite !app_length. cbn. lia.
  - intros k r Q. apply RO in Q. destruct Q as [Q|[-> ->]].
    + rewrite app_nth1 by (rewrite <- L; apply nth_error_Some; congruence).
      destruct (H _ _ Q) as [H1 H2]. split; intro w; rewrite W; auto.
    + rewrite L, app_nth2, Nat.sub_diag by auto. cbn [nth].
      assert (Z : forall k ks, walk h (length h) (k :: ks) = None).
      { intros k ks. rewrite walk_cons, nth_overflow by auto. auto. }
      split; intro w; rewrite W; destruct w as [|c w]; cbn [keys map app]; rewrite ?Z; cbn.
      * split; [congruence|intros []].
      * split; [congruence|intros []].
      * split; [auto|discriminate].
      * split; [congruence|]. intros [Q|(v & [] & _)]. discriminate.
Qed.

Lemma run_ok p : forall h roots s regs sregs,
  rel h roots s -> Forall2 (vrel h roots) regs sregs -> Forall2 right (run h regs p) (srun s sregs p).
Proof.
  induction p as [|o p IH]; intros h roots s regs sregs R F; cbn [run srun]; [constructor|].
  assert (SAME : forall a b t v, right a b -> vrel h roots t v ->
    Forall2 right (a :: run h (regs ++ [t]) p) (b :: srun s (sregs ++ [v]) p)).
  { intros a b t v A V. constructor; auto. eapply IH; eauto. apply Forall2_app; auto. }
  destruct o as [|t w|t w|t w|t]; cbn [step sstep].
  - destruct (make_rel _ _ _ R) as [R' K]. cbn [make_node]. constructor; [reflexivity|].
    apply (IH _ (roots ++ [length h]) _ _ _ R'). apply Forall2_app.
    + clear - F K. induction F; constructor; auto. eapply vrel_keep; eauto.
    + constructor; [|constructor]. exists (length h). rewrite <- (r_len _ _ _ R). split; [|reflexivity].
      rewrite nth_error_app2, Nat.sub_diag by auto. auto.
  - pose proof (reg_rel _ _ _ _ t F) as V. destruct (reg regs t) as [a|], (sreg sregs t) as [[k q]|]; try contradiction.
    + destruct (insert_string_ok _ _ _ _ _ _ w R V) as (h' & E & R' & K). rewrite E.
      constructor; [exact I|]. apply (IH _ _ _ _ _ R'). apply Forall2_app.
      * clear - F K. rewrite <- (app_nil_r roots). induction F; constructor; auto. eapply vrel_keep; eauto.
      * constructor; constructor.
    + destruct (trie_insert_string h None w) eqn:E; [|apply SAME; cbn; auto].
      exfalso. destruct w; discriminate.
  - pose proof (reg_rel _ _ _ _ t F) as V. destruct (reg regs t) as [a|], (sreg sregs t) as [[k q]|]; try contradiction.
    + destruct V as (r & A & B). destruct (r_holds _ _ _ R _ _ A) as [_ H].
      assert (W : trie_string_ref h (Some a) w = walk h r (keys (q ++ w))).
      { rewrite keys_app, walk_app, B. reflexivity. }
      rewrite W.
      assert (P : match w with [] => true | _ => existsb (starts (q ++ w)) (nth k s []) end = true <-> walk h r (keys (q ++ w)) <> None).
      { destruct w as [|c w].
        - rewrite app_nil_r, B. split; [discriminate|auto].
        - rewrite H, existsb_exists. split; [eauto|]. intros [Z|Z]; [destruct q; discriminate|auto]. }
      destruct (walk h r (keys (q ++ w))) as [b|] eqn:E.
      * assert (match w with [] => true | _ => existsb (starts (q ++ w)) (nth k s []) end = true) as -> by (apply P; discriminate).
        apply SAME; [reflexivity|]. exists r; auto.
      * destruct (match w with [] => true | _ => existsb (starts (q ++ w)) (nth k s []) end).
        { exfalso. destruct P as [P _]. apply P; auto. }
        apply SAME; cbn; auto.
    + unfold trie_string_ref. rewrite walk_none. apply SAME; cbn; auto.
  - apply SAME; [|exact I]. pose proof (reg_rel _ _ _ _ t F) as V. unfold trie_contains_string.
    destruct (reg regs t) as [a|], (sreg sregs t) as [[k q]|]; try contradiction.
    + destruct V as (r & A & B). destruct (r_holds _ _ _ R _ _ A) as [H _]. specialize (H (q ++ w)).
      assert (W : node_ref h (trie_string_ref h (Some a) w) Eow = walk h r (keys (q ++ w) ++ [Eow])).
      { rewrite keys_app, <- app_assoc, walk_app, B, walk_app. unfold trie_string_ref. fold (walk h a (keys w)).
        destruct (walk h a (keys w)) as [b|]; cbn; auto. destruct (assq Eow (nth b h [])); auto. }
      rewrite W. cbn. destruct (in_dec word_dec (q ++ w) (nth k s [])) as [Z|Z], (walk h r (keys (q ++ w) ++ [Eow])); auto.
      * apply H in Z. congruence.
      * exfalso. apply Z, H. discriminate.
    + unfold trie_string_ref. rewrite walk_none. reflexivity.
  - apply SAME; [|exact I]. pose proof (reg_rel _ _ _ _ t F) as V. unfold trie_foreach.
    destruct (reg regs t) as [a|], (sreg sregs t) as [[k q]|]; try contradiction.
    + destruct V as (r & A & B). destruct (r_holds _ _ _ R _ _ A) as [H _].
      pose proof (r_inv _ _ _ R) as I.
      pose proof (walk_lt _ _ _ _ _ I (i_roots _ _ I _ _ A) B) as L.
      destruct (iter_ok h roots I (S (length h)) a [] L) as (l & E & N & W); [lia|].
      rewrite E. cbn. split; auto. intro w. rewrite W, <- H, keys_app, <- app_assoc, walk_app, B. cbn [rev app].
      split; [intros (v & -> & Z); auto|eauto].
    + cbn. split; [constructor|]. tauto.
Qed.
