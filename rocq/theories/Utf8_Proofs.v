(** Proofs about the UTF-8 functions. *)
From Coq Require Import List ZArith Bool Lia ZifyBool.
From Verif Require Import Utf8_Model Utf8_Spec.
Import ListNotations.
Open Scope Z_scope.

Lemma text_app a b : text (a ++ b) = text a ++ text b.
Proof. apply flat_map_app. Qed.

Lemma mem_at pre b post beyond : mem (pre ++ b :: post) beyond (length pre) = b.
Proof.
  unfold mem. rewrite app_length. cbn [length].
  destruct (Nat.ltb_spec (length pre) (length pre + S (length post))); [ | lia].
  rewrite app_nth2, Nat.sub_diag by lia. reflexivity.
Qed.
Lemma mem_end s beyond : mem s beyond (length s) = 0.
Proof. unfold mem. rewrite Nat.ltb_irrefl, Nat.eqb_refl. reflexivity. Qed.

Lemma skip_1 b : 0 <= b < 192 -> skip b = 1%nat.
Proof.
  intros H. unfold skip, skip_data. rewrite app_nth1 by (rewrite repeat_length; lia).
  assert (R : forall n k, nth k (repeat 1%nat n) 1%nat = 1%nat).
  { induction n; intros [ | k]; cbn; auto. }
  apply R.
Qed.
Lemma nth_repeat_lt {A} (x d : A) n k : (k < n)%nat -> nth k (repeat x n) d = x.
Proof. revert k. induction n; intros [ | k] H; cbn; try lia; auto. apply IHn. lia. Qed.
Lemma skip_2 b : 192 <= b < 224 -> skip b = 2%nat.
Proof.
  intros H. unfold skip, skip_data. rewrite app_nth2 by (rewrite repeat_length; lia). rewrite repeat_length.
  rewrite app_nth1 by (rewrite repeat_length; lia). apply nth_repeat_lt. lia.
Qed.
Lemma skip_3 b : 224 <= b < 240 -> skip b = 3%nat.
Proof.
  intros H. unfold skip, skip_data. rewrite app_nth2 by (rewrite repeat_length; lia). rewrite repeat_length.
  rewrite app_nth2 by (rewrite repeat_length; lia). rewrite repeat_length.
  rewrite app_nth1 by (rewrite repeat_length; lia). apply nth_repeat_lt. lia.
Qed.
Lemma skip_4 b : 240 <= b < 248 -> skip b = 4%nat.
Proof.
  intros H. unfold skip, skip_data. rewrite app_nth2 by (rewrite repeat_length; lia). rewrite repeat_length.
  rewrite app_nth2 by (rewrite repeat_length; lia). rewrite repeat_length.
  rewrite app_nth2 by (rewrite repeat_length; lia). rewrite repeat_length.
  rewrite app_nth1 by (rewrite repeat_length; lia). apply nth_repeat_lt. lia.
Qed.

(** The first byte of a character tells its length, and is not zero unless
    the character is *)
Lemma encode_first c : scalar c -> exists b r, encode c = b :: r /\ skip b = length (encode c) /\ (c <> 0 -> b <> 0).
Proof.
  intros S. unfold scalar in S. unfold encode.
  destruct (Z.ltb_spec c 0x80).
  { do 2 eexists. split; [reflexivity | ]. rewrite skip_1 by lia. split; [reflexivity | auto]. }
  destruct (Z.ltb_spec c 0x800).
  { assert (0 <= c / 64 < 32) by (split; [apply Z.div_pos; lia | apply Z.div_lt_upper_bound; lia]).
    do 2 eexists. split; [reflexivity | ]. rewrite skip_2 by lia. split; [reflexivity | lia]. }
  destruct (Z.ltb_spec c 0x10000).
  { assert (0 <= c / 4096 < 16) by (split; [apply Z.div_pos; lia | apply Z.div_lt_upper_bound; lia]).
    do 2 eexists. split; [reflexivity | ]. rewrite skip_3 by lia. split; [reflexivity | lia]. }
  assert (0 <= c / 262144 < 8) by (split; [apply Z.div_pos; lia | apply Z.div_lt_upper_bound; lia]).
  do 2 eexists. split; [reflexivity | ]. rewrite skip_4 by lia. split; [reflexivity | lia].
Qed.

Lemma next_char_text pre c post beyond :
  scalar c ->
  next_char (mem (text pre ++ encode c ++ post) beyond) (length (text pre)) = length (text (pre ++ [c])).
Proof.
  intros S. destruct (encode_first c S) as (b & r & E & K & _). unfold next_char.
  rewrite text_app, app_length. cbn [text flat_map]. rewrite app_nil_r. rewrite <- K, E. cbn [app].
  rewrite mem_at. reflexivity.
Qed.

Lemma text_cons c cs : text (c :: cs) = encode c ++ text cs. Proof. reflexivity. Qed.

Lemma encode_length c : (1 <= length (encode c))%nat.
Proof. unfold encode. destruct (c <? 128), (c <? 2048), (c <? 65536); cbn; lia. Qed.
Lemma text_length cs : (length cs <= length (text cs))%nat.
Proof.
  induction cs as [ | c cs IH]; [cbn; lia | ]. rewrite text_cons, app_length. pose proof (encode_length c). cbn [length]. lia.
Qed.

Lemma strlen_text cs beyond : forall pre fuel n,
  Forall (fun c => scalar c /\ c <> 0) cs -> (length cs < fuel)%nat ->
  strlen (mem (text (pre ++ cs)) beyond) fuel (length (text pre)) n = Some (n + Z.of_nat (length cs)).
Proof.
  induction cs as [ | c cs IH]; intros pre fuel n F L; (destruct fuel as [ | fuel]; [lia | ]); cbn [strlen].
  - rewrite app_nil_r, mem_end. cbn [Z.eqb length]. f_equal. lia.
  - inversion F as [ | ? ? [S N] F']; subst. destruct (encode_first c S) as (b & r & E & K & NZ).
    rewrite text_app, text_cons, E. cbn [app]. rewrite mem_at.
    destruct (Z.eqb_spec b 0); [exfalso; apply NZ; auto | ].
    change (b :: r ++ text cs) with ((b :: r) ++ text cs). rewrite <- E.
    rewrite next_char_text by exact S.
    replace (text pre ++ encode c ++ text cs) with (text ((pre ++ [c]) ++ cs))
      by (rewrite !text_app; cbn; rewrite app_nil_r, <- app_assoc; reflexivity).
    rewrite IH by (auto; cbn in L; lia). f_equal. cbn [length]. lia.
Qed.

Lemma offset_text beyond n : forall pre cs,
  Forall scalar cs -> (n <= length cs)%nat ->
  offset_to_pointer (mem (text (pre ++ cs)) beyond) (length (text pre)) n = length (text (pre ++ firstn n cs)).
Proof.
  induction n as [ | n IH]; intros pre cs F L; cbn [offset_to_pointer firstn].
  - rewrite app_nil_r. reflexivity.
  - destruct cs as [ | c cs]; [cbn in L; lia | ]. inversion F; subst. cbn [firstn].
    assert (E : text (pre ++ c :: cs) = text ((pre ++ [c]) ++ cs)) by (rewrite <- app_assoc; reflexivity).
    rewrite text_app, text_cons, next_char_text by assumption.
    rewrite <- text_cons, <- text_app, E. rewrite IH by (auto; cbn in L; lia).
    rewrite <- app_assoc. reflexivity.
Qed.

Lemma dupn_at beyond pre b post :
  dupn (mem (pre ++ b ++ post) beyond) (length pre) (length b) = b.
Proof.
  unfold dupn. revert pre. induction b as [ | x b IH]; intros pre; [reflexivity | ].
  cbn [length seq map]. rewrite Nat.add_0_r. cbn [app]. rewrite mem_at. f_equal.
  rewrite <- seq_shift, map_map. specialize (IH (pre ++ [x])). rewrite app_length in IH. cbn [length] in IH.
  rewrite <- app_assoc in IH. cbn [app] in IH. rewrite <- IH at 2. apply map_ext. intros i. f_equal. lia.
Qed.

Lemma wrap32_small n : (Z.of_nat n < 2 ^ 31) -> wrap32 (Z.of_nat n) = Z.of_nat n.
Proof. intros H. unfold wrap32. rewrite Z.mod_small; lia. Qed.

Section Text.
  Variables (cs : list Z) (beyond : nat -> Z) (fuel : nat).
  Hypothesis Valid : Forall (fun c => scalar c /\ c <> 0) cs.
  Hypothesis Fuel : (length (text cs) < fuel)%nat.

  Lemma Scalars : Forall scalar cs.
  Proof. eapply Forall_impl; [ | exact Valid]. cbn. tauto. Qed.

  Lemma length_text : string_length fuel (text cs) beyond = Some (Z.of_nat (length cs)).
  Proof.
    unfold string_length. apply (strlen_text cs beyond [] fuel 0 Valid). pose proof (text_length cs). lia.
  Qed.

  Hypothesis Small : Z.of_nat (length (text cs)) < 2 ^ 31.

  Lemma strlen_small :
    strlen (mem (text cs) beyond) fuel 0 0 = Some (Z.of_nat (length cs)) /\
    wrap32 (Z.of_nat (length cs)) = Z.of_nat (length cs).
  Proof.
    split; [exact length_text | ]. apply wrap32_small. pose proof (text_length cs). lia.
  Qed.

  Lemma offset0 n : (n <= length cs)%nat ->
    offset_to_pointer (mem (text cs) beyond) 0 n = length (text (firstn n cs)).
  Proof. intros L. apply (offset_text beyond n [] cs Scalars L). Qed.

  Lemma substring_end s e :
    0 <= s <= e -> e <= Z.of_nat (length cs) ->
    substring fuel (text cs) beyond s (Some e) =
    Some (Value (text (slice cs (Z.to_nat s) (Z.to_nat e)))).
  Proof.
    intros HS HE. unfold substring. destruct strlen_small as [-> ->].
    destruct (Z.ltb_spec (Z.of_nat (length cs)) s); [lia | ]. destruct (Z.ltb_spec s 0); [lia | ]. cbn [orb].
    destruct (Z.ltb_spec (Z.of_nat (length cs)) e); [lia | ]. destruct (Z.ltb_spec e s); [lia | ]. cbn [orb].
    rewrite !offset0 by lia. do 2 f_equal.
    set (a := Z.to_nat s). set (b := Z.to_nat e). assert (AB : (a <= b)%nat) by lia.
    assert (E1 : firstn b cs = firstn a cs ++ slice cs a b).
    { unfold slice. rewrite <- (firstn_skipn a cs) at 1. rewrite firstn_app, firstn_firstn.
      f_equal; [f_equal; lia | ]. rewrite firstn_length. f_equal. lia. }
    rewrite E1, text_app, app_length.
    replace (length (text (firstn a cs)) + length (text (slice cs a b)) - length (text (firstn a cs)))%nat
      with (length (text (slice cs a b))) by lia.
    rewrite <- (firstn_skipn b cs) at 1. rewrite E1, <- app_assoc, !text_app. apply dupn_at.
  Qed.

  Lemma substring_rest s :
    0 <= s <= Z.of_nat (length cs) ->
    substring fuel (text cs) beyond s None = Some (Value (text (skipn (Z.to_nat s) cs))).
  Proof.
    intros HS. unfold substring. destruct strlen_small as [-> ->].
    destruct (Z.ltb_spec (Z.of_nat (length cs)) s); [lia | ]. destruct (Z.ltb_spec s 0); [lia | ]. cbn [orb].
    rewrite offset0 by lia. rewrite wrap32_small by exact Small. do 2 f_equal.
    set (a := Z.to_nat s).
    assert (E1 : text cs = text (firstn a cs) ++ text (skipn a cs)) by (rewrite <- text_app, firstn_skipn; reflexivity).
    replace (Z.to_nat (Z.of_nat (length (text cs)) - Z.of_nat (length (text (firstn a cs)))))
      with (length (text (skipn a cs))) by (rewrite E1, app_length; lia).
    rewrite E1 at 1. rewrite <- (app_nil_r (text (skipn a cs))) at 1. apply dupn_at.
  Qed.

  Lemma substring_error s e :
    ~ (0 <= s <= Z.of_nat (length cs)) \/ (exists e0, e = Some e0 /\ ~ (s <= e0 <= Z.of_nat (length cs))) ->
    exists n, substring fuel (text cs) beyond s e = Some (BadArg n).
  Proof.
    intros H. unfold substring. destruct strlen_small as [-> ->].
    destruct (Z.ltb_spec (Z.of_nat (length cs)) s); [cbn; eauto | ].
    destruct (Z.ltb_spec s 0); [cbn; eauto | ]. cbn [orb].
    destruct H as [H | (e0 & -> & H)]; [lia | ].
    destruct (Z.ltb_spec (Z.of_nat (length cs)) e0); [cbn; eauto | ].
    destruct (Z.ltb_spec e0 s); [cbn; eauto | lia].
  Qed.
End Text.

(** 2^31 characters and more *)
Lemma long_text n beyond fuel :
  Z.of_nat n = 2 ^ 31 -> (length (text (repeat 97%Z n)) < fuel)%nat ->
  substring fuel (text (repeat 97 n)) beyond 0 None = Some (BadArg 2).
Proof.
  intros N F. unfold substring.
  assert (V : Forall (fun c => scalar c /\ c <> 0) (repeat 97 n)).
  { apply Forall_forall. intros x X. apply repeat_spec in X. subst. unfold scalar. lia. }
  pose proof (length_text (repeat 97 n) beyond fuel V F) as E. unfold string_length in E. rewrite E.
  rewrite repeat_length, N. reflexivity.
Qed.
