(** expand-last-match. *)
From Coq Require Import List ZArith Bool Lia ZifyBool.
From Verif Require Import Regexp_Model Regexp_Spec Find_Model Find_Spec.
Import ListNotations.
Open Scope Z_scope.

Lemma strncpy_length m a n : length (strncpy m a n) = n.
Proof.
  revert a. induction n as [ | n IH]; intros a; cbn [strncpy]; [reflexivity | ].
  destruct (m a =? 0); [apply repeat_length | cbn [length]; now rewrite IH].
Qed.

Lemma next_item_tail c src : (length (snd (next_item c src)) <= length src)%nat.
Proof.
  unfold next_item. assert (length (tl src) <= length src)%nat by (destruct src; cbn; lia).
  destruct (c =? 38); [cbn; lia | ]. destruct (_ && _ && _); [cbn; lia | ]. destruct (_ && _); cbn; lia.
Qed.

Section Any.
  Variable m : Z -> Z.
  Variable sp ep : list (option Z).
  Hypothesis ordered : forall n a b, nth n sp None = Some a -> nth n ep None = Some b -> a <= b.

  (** regsub writes what regsublen counts *)
  Lemma regsub_len f : forall src dst len, (length src < f)%nat -> Z.of_nat (length dst) = len ->
    exists dst' d l, regsub f m sp ep src dst = Ok (dst', d) /\ regsublen f sp ep src len = Ok l /\
      Z.of_nat (length dst') <= l /\ len <= l /\ (d = false -> Z.of_nat (length dst') = l).
  Proof.
    induction f as [ | f IH]; intros src dst len F L; [lia | ]. cbn [regsub regsublen].
    destruct src as [ | c src]; [exists dst, false, len; repeat split; auto; lia | ]. cbn [length] in F.
    destruct (c =? 0); [exists dst, false, len; repeat split; auto; lia | ].
    pose proof (next_item_tail c src) as T. destruct (next_item c src) as [[x | no] src'] eqn:E; cbn [snd] in T.
    - destruct (IH src' (dst ++ [x]) (len + 1)) as (dst' & d & l & H1 & H2 & H3 & H4 & H5); [lia | rewrite app_length; cbn; lia | ].
      exists dst', d, l. repeat split; auto; lia.
    - destruct (nth no sp None) as [a | ] eqn:Ea; [destruct (nth no ep None) as [b | ] eqn:Eb | ].
      + pose proof (ordered no a b Ea Eb) as O. set (copy := strncpy m a (Z.to_nat (b - a))).
        assert (LC : Z.of_nat (length copy) = b - a) by (unfold copy; rewrite strncpy_length; lia).
        destruct (IH src' (dst ++ copy) (len + (b - a))) as (dst' & d & l & H1 & H2 & H3 & H4 & H5); [lia | rewrite app_length; lia | ].
        destruct (negb (b =? a) && (last copy 1 =? 0)).
        * exists (dst ++ copy), true, l. rewrite app_length. repeat split; auto; try lia; discriminate.
        * exists dst', d, l. repeat split; auto; lia.
      + destruct (IH src' dst (len + 0)) as (dst' & d & l & H1 & H2 & H3 & H4 & H5); [lia | lia | ].
        exists dst', d, l. repeat split; auto; lia.
      + destruct (IH src' dst (len + 0)) as (dst' & d & l & H1 & H2 & H3 & H4 & H5); [lia | lia | ].
        exists dst', d, l. repeat split; auto; lia.
  Qed.
End Any.

Lemma expand_ok beyond junk t sp ep template :
  (forall n a b, nth n sp None = Some a -> nth n ep None = Some b -> a <= b) ->
  exists dst d, regsub (S (length template)) (memory t beyond) sp ep template [] = Ok (dst, d) /\
    expand_last_match beyond junk (Some (mkmd t sp ep)) template = if d then Err else Ok dst.
Proof.
  intros O. destruct (regsub_len (memory t beyond) sp ep O (S (length template)) template [] 0) as (dst & d & l & H1 & H2 & H3 & H4 & H5); [lia | reflexivity | ].
  exists dst, d. split; [exact H1 | ]. unfold expand_last_match. cbn [mstr msp mep]. rewrite H2. cbn [bind]. rewrite H1. cbn [bind].
  replace (l <? Z.of_nat (length dst)) with false by lia. destruct d; [reflexivity | ]. rewrite <- H5 by reflexivity.
  replace (Z.to_nat (Z.of_nat (length dst)) - length dst)%nat with 0%nat by lia. cbn [seq map]. now rewrite app_nil_r.
Qed.

(** * Templates *)
Lemma nth_slice n k : forall t : list Z, (k + S n <= length t)%nat -> firstn (S n) (skipn k t) = nth k t 0 :: firstn n (skipn (S k) t).
Proof.
  induction k as [ | k IH]; intros t L; destruct t as [ | x t]; cbn [length] in L; try lia; [reflexivity | ].
  change (skipn (S k) (x :: t)) with (skipn k t). change (skipn (S (S k)) (x :: t)) with (skipn (S k) t). cbn [nth]. apply IH. lia.
Qed.
Section Tokens.
  Variable t : list Z.
  Variable beyond : Z -> Z.
  Hypothesis chars : Forall char t.
  Notation len := (Z.of_nat (length t)).
  Notation m := (memory t beyond).

  Lemma strncpy_slice n : forall a, 0 <= a -> a + Z.of_nat n <= len ->
    strncpy m a n = slice t a (a + Z.of_nat n) /\ (last (strncpy m a n) 1 =? 0) = false.
  Proof.
    induction n as [ | n IH]; intros a A L.
    - unfold slice. replace (Z.to_nat (a + Z.of_nat 0 - a)) with 0%nat by lia. split; reflexivity.
    - cbn [strncpy].
      assert (M : m a = nth (Z.to_nat a) t 0) by (unfold memory; replace ((0 <=? a) && (a <? len)) with true by lia; reflexivity).
      assert (C : char (m a)).
      { rewrite M. eapply Forall_forall; [exact chars | ]. apply nth_In. lia. }
      unfold char in C. replace (m a =? 0) with false by lia. destruct (IH (a + 1) ltac:(lia) ltac:(lia)) as [E1 E2]. split.
      + rewrite E1, M. unfold slice. replace (Z.to_nat (a + Z.of_nat (S n) - a)) with (S n) by lia.
        replace (Z.to_nat (a + 1 + Z.of_nat n - (a + 1))) with n by lia. replace (Z.to_nat (a + 1)) with (S (Z.to_nat a)) by lia.
        symmetry. apply nth_slice. lia.
      + cbn [last]. destruct (strncpy m (a + 1) n) as [ | x l]; [lia | exact E2].
  Qed.

  Variable sp ep : list (option Z).
  Hypothesis within : forall n a b, nth n sp None = Some a -> nth n ep None = Some b -> 0 <= a <= b /\ b <= len.

  Lemma regsub_sub f no src dst : forall c rest, c <> 0 -> next_item c rest = (Sub no, src) ->
    regsub (S f) m sp ep (c :: rest) dst =
    regsub f m sp ep src (dst ++ match recorded sp ep no with Some (a, b) => slice t a b | None => [] end).
  Proof.
    intros c rest C E. cbn [regsub]. replace (c =? 0) with false by lia. rewrite E. unfold recorded.
    destruct (nth no sp None) as [a | ] eqn:Ea; [destruct (nth no ep None) as [b | ] eqn:Eb | ]; try (rewrite app_nil_r; reflexivity).
    destruct (within no a b Ea Eb) as [W1 W2]. destruct (strncpy_slice (Z.to_nat (b - a)) a ltac:(lia) ltac:(lia)) as [E1 E2].
    rewrite E2, andb_false_r, E1. replace (a + Z.of_nat (Z.to_nat (b - a))) with b by lia. reflexivity.
  Qed.

  Lemma regsub_tokens toks : Forall good_token toks -> forall f dst, (length (flat_map show_token toks) < f)%nat ->
    regsub f m sp ep (flat_map show_token toks) dst = Ok (dst ++ flat_map (token_value t (recorded sp ep)) toks, false).
  Proof.
    induction 1 as [ | x toks G F IH]; intros f dst L; cbn [flat_map] in *.
    - destruct f as [ | f]; [lia | ]. cbn [regsub]. now rewrite app_nil_r.
    - rewrite app_length in L. destruct f as [ | f]; [lia | ]. destruct x as [c | n | | ]; cbn [show_token app token_value length] in *.
      + destruct G as ((C1 & C2) & C3 & C4). cbn [regsub]. replace (c =? 0) with false by lia.
        unfold next_item. replace (c =? 38) with false by lia. replace (c =? 92) with false by lia. cbn [andb].
        rewrite IH by lia. now rewrite <- app_assoc.
      + cbn in G. erewrite regsub_sub; [ | lia | ].
        2: { unfold next_item. cbn [hd tl]. replace (92 =? 38) with false by reflexivity. replace ((92 =? 92) && (48 <=? 48 + Z.of_nat n) && (48 + Z.of_nat n <=? 57)) with true by lia. reflexivity. }
        replace (Z.to_nat (48 + Z.of_nat n - 48)) with n by lia. rewrite IH by lia. now rewrite <- app_assoc.
      + cbn [regsub next_item hd tl]. change (92 =? 0) with false. cbn iota. unfold next_item. cbn [hd tl]. cbn. rewrite IH by lia. now rewrite <- app_assoc.
      + erewrite regsub_sub; [ | lia | reflexivity]. rewrite IH by lia. now rewrite <- app_assoc.
  Qed.

  Lemma expand_tokens junk toks : Forall good_token toks ->
    expand_last_match beyond junk (Some (mkmd t sp ep)) (flat_map show_token toks) = Ok (flat_map (token_value t (recorded sp ep)) toks).
  Proof.
    intros G. destruct (expand_ok beyond junk t sp ep (flat_map show_token toks)) as (dst & d & H1 & H2).
    - intros n a b Ea Eb. destruct (within n a b Ea Eb). lia.
    - rewrite H2. rewrite regsub_tokens in H1 by (auto; lia). cbn [app] in H1. injection H1 as <- <-. reflexivity.
  Qed.
End Tokens.
