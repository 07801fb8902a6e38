(** Proofs about arrays and their allocation. *)
From Coq Require Import ZArith List Bool Lia ZifyBool.
From Verif Require Import Strings_Model Strings_Spec.
Import ListNotations.
Open Scope Z_scope.

Lemma wrap32_id : forall z, - 2 ^ 31 <= z < 2 ^ 31 -> wrap32 z = z.
Proof. intros z H. unfold wrap32. rewrite Z.mod_small by lia. lia. Qed.
Lemma wrap32_range : forall z, - 2 ^ 31 <= wrap32 z < 2 ^ 31.
Proof. intros z. unfold wrap32. pose proof (Z.mod_pos_bound (z + 2 ^ 31) (2 ^ 32) ltac:(lia)). lia. Qed.
Lemma wrap32_cong : forall z k, wrap32 (z + k * 2 ^ 32) = wrap32 z.
Proof. intros z k. unfold wrap32. replace (z + k * 2 ^ 32 + 2 ^ 31) with (z + 2 ^ 31 + k * 2 ^ 32) by lia. rewrite Z.mod_add by lia. reflexivity. Qed.

Lemma set_nth_length {A} : forall (l : list A) n x, length (set_nth l n x) = length l.
Proof. induction l as [ | y l IH]; intros [ | n] x; cbn [set_nth length]; auto. Qed.
Lemma set_nth_same {A} : forall (l : list A) n x d, (n < length l)%nat -> nth n (set_nth l n x) d = x.
Proof. induction l as [ | y l IH]; intros [ | n] x d H; cbn [set_nth length nth] in *; try lia; auto. apply IH. lia. Qed.
Lemma set_nth_other {A} : forall (l : list A) n m x d, n <> m -> nth m (set_nth l n x) d = nth m l d.
Proof. induction l as [ | y l IH]; intros [ | n] [ | m] x d H; cbn [set_nth nth]; auto; try lia. Qed.
Lemma set_nth_in {A} : forall (l : list A) n x y, In y (set_nth l n x) -> y = x \/ In y l.
Proof.
  induction l as [ | z l IH]; intros [ | n] x y I; cbn [set_nth] in I; auto.
  - destruct I as [<- | I]; [auto | right; right; exact I].
  - destruct I as [<- | I]; [right; left; reflexivity | ]. destruct (IH n x y I); [auto | right; right; assumption].
Qed.
Lemma set_nth_map {A B} (f : A -> B) : forall l n x, map f (set_nth l n x) = set_nth (map f l) n (f x).
Proof. induction l as [ | y l IH]; intros [ | n] x; cbn [set_nth map]; auto. now rewrite IH. Qed.
Lemma zlen_nat {A} : forall (l : list A) i, 0 <= i < zlen l -> (Z.to_nat i < length l)%nat.
Proof. unfold zlen. intros. lia. Qed.
Lemma set_nth_forall {A} (P : A -> Prop) : forall l n x, Forall P l -> P x -> Forall P (set_nth l n x).
Proof. intros l n x F H. apply Forall_forall. intros y I. destruct (set_nth_in l n x y I) as [-> | J]; [exact H | ]. rewrite Forall_forall in F. auto. Qed.

Lemma get_set_str : forall h p q s, (p < length (strs h))%nat -> get_str (set_str h p s) q = if Nat.eqb p q then s else get_str h q.
Proof.
  intros h p q s L. unfold get_str, set_str. cbn [strs]. destruct (Nat.eqb_spec p q) as [<- | N]; [now apply set_nth_same | now apply set_nth_other].
Qed.
Lemma get_set_vec : forall h p q v, (p < length (vecs h))%nat -> get_vec (set_vec h p v) q = if Nat.eqb p q then v else get_vec h q.
Proof.
  intros h p q v L. unfold get_vec, set_vec. cbn [vecs]. destruct (Nat.eqb_spec p q) as [<- | N]; [now apply set_nth_same | now apply set_nth_other].
Qed.
Lemma get_str_live : forall h p, s_const (get_str h p) = false -> (p < length (strs h))%nat.
Proof. intros h p H. destruct (Nat.lt_ge_cases p (length (strs h))); [assumption | ]. unfold get_str in H. rewrite nth_overflow in H by assumption. discriminate. Qed.
Lemma get_vec_live : forall h p, v_const (get_vec h p) = false -> (p < length (vecs h))%nat.
Proof. intros h p H. destruct (Nat.lt_ge_cases p (length (vecs h))); [assumption | ]. unfold get_vec in H. rewrite nth_overflow in H by assumption. discriminate. Qed.
Lemma sound_vec : forall h p, sound h -> v_len (get_vec h p) = zlen (v_slots (get_vec h p)).
Proof.
  intros h p (_ & _ & V). unfold get_vec. destruct (Nat.lt_ge_cases p (length (vecs h))) as [L | L].
  - rewrite Forall_forall in V. apply V, nth_In, L.
  - rewrite nth_overflow by assumption. reflexivity.
Qed.
Lemma sound_str : forall h p, sound h -> Forall byte (s_bytes (get_str h p)) /\ zlen (s_bytes (get_str h p)) < 2 ^ 56.
Proof.
  intros h p (_ & V & _). unfold get_str. destruct (Nat.lt_ge_cases p (length (strs h))) as [L | L].
  - rewrite Forall_forall in V. apply V, nth_In, L.
  - rewrite nth_overflow by assumption. split; [constructor | reflexivity].
Qed.
Lemma sound_set_str : forall h p s, sound h -> s_const (get_str h p) = false -> Forall byte (s_bytes s) -> zlen (s_bytes s) < 2 ^ 56 -> sound (set_str h p s).
Proof.
  intros h p s ((l & E) & S & V) C B L. unfold sound, set_str. cbn [strs vecs]. split; [ | split; [apply set_nth_forall; auto | exact V]].
  unfold get_str in C. rewrite E in C |- *. destruct p as [ | p]; [cbn in C; discriminate | ]. eexists. reflexivity.
Qed.
Lemma sound_set_vec : forall h p v, sound h -> v_len v = zlen (v_slots v) -> sound (set_vec h p v).
Proof. intros h p v (E & S & V) L. split; [exact E | ]. split; [exact S | ]. cbn [vecs set_vec]. apply set_nth_forall; auto. Qed.

(** * aset and aref *)

Lemma aset_sound : forall h a i v w h', sound h -> aset h a i v = (Ret w, h') -> sound h'.
Proof.
  intros h a i v w h' S E. unfold aset in E. destruct i; try discriminate. destruct (z <? 0) eqn:Z0; [discriminate | ]. destruct a as [ | p | p | | ]; try discriminate.
  - destruct (s_const (get_str h p)) eqn:C; [discriminate | ]. destruct (z <? zlen (s_bytes (get_str h p))) eqn:L; [ | discriminate]. destruct v; try discriminate. injection E as _ <-.
    destruct (sound_str h p S) as [B Ln]. apply sound_set_str; auto; cbn [s_bytes].
    + apply set_nth_forall; [exact B | ]. unfold byte. pose proof (Z.mod_pos_bound z0 256 ltac:(lia)). lia.
    + unfold zlen in *. now rewrite set_nth_length.
  - destruct (v_const (get_vec h p)) eqn:C; [discriminate | ]. destruct (z <? v_len (get_vec h p)) eqn:L; [ | discriminate]. destruct (z <? zlen (v_slots (get_vec h p))) eqn:L'; [ | discriminate].
    injection E as _ <-. apply sound_set_vec; auto. cbn [v_len v_slots]. rewrite (sound_vec h p S). unfold zlen. now rewrite set_nth_length.
Qed.

Lemma aref_ok : forall h a i, sound h ->
  aref h a (VInt i) = if arrayp a && (0 <=? i) then match nth_error (elements h a) (Z.to_nat i) with Some x => Ret x | None => Sig end else Sig.
Proof.
  intros h a i S. unfold aref. destruct (Z.ltb_spec i 0) as [N | N].
  - replace (0 <=? i) with false by lia. now rewrite andb_false_r.
  - replace (0 <=? i) with true by lia. rewrite andb_true_r. destruct a as [ | p | p | | ]; cbn [arrayp]; auto; unfold elements.
    + destruct (Z.ltb_spec i (zlen (s_bytes (get_str h p)))) as [L | L].
      * assert (L' : (Z.to_nat i < length (s_bytes (get_str h p)))%nat) by (apply zlen_nat; lia).
        rewrite nth_error_map, (nth_error_nth' _ 0 L'). reflexivity.
      * rewrite (proj2 (nth_error_None _ _)); [reflexivity | ]. rewrite map_length. unfold zlen in L. lia.
    + rewrite (sound_vec h p S). destruct (Z.ltb_spec i (zlen (v_slots (get_vec h p)))) as [L | L].
      * assert (L' : (Z.to_nat i < length (v_slots (get_vec h p)))%nat) by (apply zlen_nat; lia).
        destruct (nth_error _ _) eqn:E; [reflexivity | ]. apply nth_error_None in E. lia.
      * rewrite (proj2 (nth_error_None _ _)); [reflexivity | ]. unfold zlen in L. lia.
Qed.

Lemma length_ok : forall h a, sound h -> arrayp a = true -> length_ h a = Ret (VInt (zlen (elements h a))).
Proof.
  intros h a S A. destruct a as [ | p | p | | ]; try discriminate; cbn [length_ elements].
  - unfold zlen. now rewrite map_length.
  - now rewrite (sound_vec h p S).
Qed.

(** aset succeeds exactly here *)
Lemma aset_ok : forall h a i v, sound h ->
  settable h a i v /\ (exists h', aset h a (VInt i) v = (Ret v, h') /\ sound h' /\
    elements h' a = set_nth (elements h a) (Z.to_nat i) (kept_value a v) /\
    (forall b, b <> a -> elements h' b = elements h b) /\ (forall b, constant h' b = constant h b) /\
    length (strs h') = length (strs h) /\ length (vecs h') = length (vecs h))
  \/ ~ settable h a i v /\ aset h a (VInt i) v = (Sig, h).
Proof.
  intros h a i v S.
  destruct (Z.ltb_spec i 0) as [N | N]; [right; unfold settable; split; [lia | ]; unfold aset; replace (i <? 0) with true by lia; reflexivity | ].
  assert (Z0 : (i <? 0) = false) by lia.
  destruct a as [ | p | p | | ]; try (right; split; [intros (A & _); discriminate | ]; unfold aset; rewrite Z0; reflexivity).
  - unfold settable, aset, constant. rewrite Z0. cbn [elements arrayp].
    assert (Ln : zlen (map VInt (s_bytes (get_str h p))) = zlen (s_bytes (get_str h p))) by (unfold zlen; now rewrite map_length). rewrite Ln.
    destruct (s_const (get_str h p)) eqn:C; [right; split; [intros (_ & D & _); discriminate | reflexivity] | ].
    destruct (Z.ltb_spec i (zlen (s_bytes (get_str h p)))) as [L | L]; [ | right; split; [lia | reflexivity]].
    destruct v as [c | | | | ]; try (right; split; [intros (_ & _ & _ & c & D); discriminate | reflexivity]).
    left. split; [repeat split; auto; eauto | ]. eexists. split; [reflexivity | ].
    pose proof (get_str_live h p C) as Lp. split; [ | split; [ | split; [ | split; [ | split]]]].
    + apply (aset_sound h (VStr p) (VInt i) (VInt c) (VInt c)); [exact S | ]. unfold aset. rewrite Z0, C. now destruct (Z.ltb_spec i (zlen (s_bytes (get_str h p)))); [ | lia].
    + unfold elements. rewrite get_set_str by exact Lp. rewrite Nat.eqb_refl. cbn [s_bytes kept_value]. now rewrite set_nth_map.
    + intros b Nb. destruct b as [ | q | q | | ]; auto. cbn [elements]. rewrite get_set_str by exact Lp.
      destruct (Nat.eqb_spec p q) as [<- | _]; [congruence | reflexivity].
    + intros b. destruct b as [ | q | q | | ]; auto. cbn [constant]. rewrite get_set_str by exact Lp.
      destruct (Nat.eqb_spec p q) as [<- | _]; [cbn; congruence | reflexivity].
    + cbn [strs set_str]. apply set_nth_length.
    + reflexivity.
  - unfold settable, aset, constant. rewrite Z0. cbn [elements arrayp].
    destruct (v_const (get_vec h p)) eqn:C; [right; split; [intros (_ & D & _); discriminate | reflexivity] | ].
    rewrite (sound_vec h p S).
    destruct (Z.ltb_spec i (zlen (v_slots (get_vec h p)))) as [L | L]; [ | right; split; [lia | reflexivity]].
    left. split; [repeat split; auto | ]. eexists. split; [reflexivity | ].
    pose proof (get_vec_live h p C) as Lp. split; [ | split; [ | split; [ | split; [ | split]]]].
    + apply sound_set_vec; [exact S | ]. cbn [v_len v_slots]. unfold zlen. now rewrite set_nth_length.
    + unfold elements. rewrite get_set_vec by exact Lp. rewrite Nat.eqb_refl. cbn [v_slots kept_value]. reflexivity.
    + intros b Nb. destruct b as [ | q | q | | ]; auto. cbn [elements]. rewrite get_set_vec by exact Lp.
      destruct (Nat.eqb_spec p q) as [<- | _]; [congruence | reflexivity].
    + intros b. destruct b as [ | q | q | | ]; auto. cbn [constant]. rewrite get_set_vec by exact Lp.
      destruct (Nat.eqb_spec p q) as [<- | _]; [cbn; congruence | reflexivity].
    + reflexivity.
    + cbn [vecs set_vec]. apply set_nth_length.
Qed.

Lemma nth_error_set {A} : forall (l : list A) n m x, nth_error (set_nth l n x) m = if (Nat.eqb n m && Nat.ltb m (length l))%bool then Some x else nth_error l m.
Proof.
  induction l as [ | y l IH]; intros n m x.
  - cbn [length]. assert (Nat.ltb m 0 = false) as -> by (apply Nat.ltb_ge; lia). rewrite andb_false_r. destruct n; reflexivity.
  - destruct n as [ | n], m as [ | m]; try reflexivity. cbn [set_nth nth_error]. rewrite IH. reflexivity.
Qed.

Lemma last_said_ok : forall hist h h' a i, sound h -> arrayp a = true -> 0 <= i ->
  do_all h hist = Some h' -> sound h' /\ element h' a i = last_said hist a i (element h a i).
Proof.
  induction hist as [ | [[b j] v] hist IH]; intros h h' a i S A Hi D; cbn [do_all last_said] in *.
  - injection D as <-. auto.
  - destruct (aset_ok h b j v S) as [(St & h1 & E & S1 & E1 & E2 & _) | (_ & E)]; rewrite E in D; [ | discriminate].
    destruct (IH h1 h' a i S1 A Hi D) as (S' & ->). split; [exact S' | ]. f_equal.
    destruct St as (Ab & _ & Rj & _). unfold element. rewrite !aref_ok by assumption. rewrite A. replace (0 <=? i) with true by lia. cbn [andb].
    destruct a as [ | p | p | | ]; try discriminate; destruct b as [ | q | q | | ]; try discriminate.
    + destruct (Nat.eqb_spec p q) as [<- | N].
      * cbn [andb]. rewrite E1, nth_error_set. unfold zlen in Rj.
        destruct (Z.eqb_spec i j) as [<- | Nij].
        -- rewrite Nat.eqb_refl. assert (Nat.ltb (Z.to_nat i) (length (elements h (VStr p))) = true) as -> by (apply Nat.ltb_lt; lia). reflexivity.
        -- assert (Nat.eqb (Z.to_nat j) (Z.to_nat i) = false) as -> by (apply Nat.eqb_neq; lia). reflexivity.
      * cbn [andb]. rewrite (E2 (VStr p)) by congruence. reflexivity.
    + rewrite (E2 (VStr p)) by congruence. reflexivity.
    + rewrite (E2 (VVec p)) by congruence. reflexivity.
    + destruct (Nat.eqb_spec p q) as [<- | N].
      * cbn [andb]. rewrite E1, nth_error_set. unfold zlen in Rj.
        destruct (Z.eqb_spec i j) as [<- | Nij].
        -- rewrite Nat.eqb_refl. assert (Nat.ltb (Z.to_nat i) (length (elements h (VVec p))) = true) as -> by (apply Nat.ltb_lt; lia). reflexivity.
        -- assert (Nat.eqb (Z.to_nat j) (Z.to_nat i) = false) as -> by (apply Nat.eqb_neq; lia). reflexivity.
      * cbn [andb]. rewrite (E2 (VVec p)) by congruence. reflexivity.
Qed.

(** * Allocation *)

Lemma new_str_ok : forall h b, sound h -> Forall byte b -> zlen b < 2 ^ 56 -> fresh_string h (new_str h b) b.
Proof.
  intros h b S B L. unfold new_str. replace (zlen b <=? 2 ^ 56 - 1) with true by lia.
  assert (G : forall q, get_str (mkheap (strs h ++ [mkstr b false]) (vecs h)) q = if Nat.ltb q (length (strs h)) then get_str h q else if Nat.eqb q (length (strs h)) then mkstr b false else get_str h q).
  { intros q. unfold get_str. cbn [strs]. destruct (Nat.ltb_spec q (length (strs h))); [now apply app_nth1 | ].
    rewrite app_nth2 by assumption. destruct (Nat.eqb_spec q (length (strs h))) as [-> | N]; [now rewrite Nat.sub_diag | ].
    rewrite !nth_overflow; auto. cbn [length]. lia. }
  exists (length (strs h)). unfold fresh, text, constant. cbn [fst snd live elements]. rewrite G, Nat.ltb_irrefl, Nat.eqb_refl. cbn [s_bytes s_const].
  repeat split; auto.
  - lia.
  - cbn [strs]. rewrite app_length. cbn [length]. lia.
  - intros p Hp. rewrite G. apply Nat.ltb_lt in Hp. now rewrite Hp.
  - destruct S as ((l & ->) & _). eexists. reflexivity.
  - cbn [strs]. apply Forall_app. split; [apply S | constructor; [ | constructor]]. cbn [s_bytes]. auto.
  - apply S.
Qed.

Lemma make_vector_int : forall n, 0 <= n < 2 ^ 23 -> rep_make_vector n = Made n n.
Proof.
  intros n H. unfold rep_make_vector. rewrite !wrap32_id by lia. replace (8 * (n - 1) + 24 <? 0) with false by lia. replace (8 * (n - 1) + 24 <? 16) with false by lia.
  f_equal.
  - rewrite Z.mod_small by lia. apply Z.div_mul. lia.
  - replace (8 * (n - 1) + 24 - 16) with (n * 8) by lia. apply Z.div_mul. lia.
Qed.

Lemma new_vec_ok : forall h l c k len, sound h -> zlen l < 2 ^ 23 -> (forall n, len = Some n -> n = zlen l) ->
  exists p, let r := new_vec h (zlen l) l c k len in
    fresh h r (VVec p) l /\ constant (snd r) (VVec p) = c /\ v_compiled (get_vec (snd r) p) = k.
Proof.
  intros h l c k len S L E. unfold new_vec. rewrite make_vector_int by (unfold zlen in *; lia). rewrite Z.ltb_irrefl.
  replace (Z.to_nat (zlen l) - length l)%nat with 0%nat by (unfold zlen; lia). cbn [repeat]. rewrite app_nil_r.
  set (x := mkvec _ l c k).
  assert (X : v_len x = zlen l) by (unfold x; cbn [v_len]; destruct len as [n | ]; [now apply E | reflexivity]).
  assert (G : forall q, get_vec (mkheap (strs h) (vecs h ++ [x])) q = if Nat.ltb q (length (vecs h)) then get_vec h q else if Nat.eqb q (length (vecs h)) then x else get_vec h q).
  { intros q. unfold get_vec. cbn [vecs]. destruct (Nat.ltb_spec q (length (vecs h))); [now apply app_nth1 | ].
    rewrite app_nth2 by assumption. destruct (Nat.eqb_spec q (length (vecs h))) as [-> | N]; [now rewrite Nat.sub_diag | ].
    rewrite !nth_overflow; auto. cbn [length]. lia. }
  exists (length (vecs h)). unfold fresh, constant. cbn [fst snd live elements]. rewrite G, Nat.ltb_irrefl, Nat.eqb_refl.
  repeat split; auto.
  - lia.
  - cbn [vecs]. rewrite app_length. cbn [length]. lia.
  - intros p Hp. rewrite G. apply Nat.ltb_lt in Hp. now rewrite Hp.
  - apply S.
  - apply S.
  - cbn [vecs]. apply Forall_app. split; [apply S | constructor; [exact X | constructor]].
Qed.

Lemma zlen_repeat {A} : forall (x : A) n, 0 <= n -> zlen (repeat x (Z.to_nat n)) = n.
Proof. intros. unfold zlen. rewrite repeat_length. lia. Qed.

Lemma make_vector_ok : forall h n init, sound h -> 0 <= n < 2 ^ 23 ->
  exists p, fresh h (make_vector h (VInt n) init) (VVec p) (repeat init (Z.to_nat n)) /\ constant (snd (make_vector h (VInt n) init)) (VVec p) = false.
Proof.
  intros h n init S H. unfold make_vector. replace (n <? 0) with false by lia. rewrite wrap32_id by lia.
  destruct (new_vec_ok h (repeat init (Z.to_nat n)) false false None S) as (p & F & C & _); [rewrite zlen_repeat by lia; lia | discriminate | ].
  rewrite zlen_repeat in F, C by lia. eauto.
Qed.
Lemma vector_ok : forall h l, sound h -> zlen l < 2 ^ 23 ->
  exists p, fresh h (vector h l) (VVec p) l /\ constant (snd (vector h l)) (VVec p) = false.
Proof.
  intros h l S H. unfold vector. rewrite wrap32_id by (unfold zlen in *; lia).
  destruct (new_vec_ok h l false false None S H) as (p & F & C & _); [discriminate | eauto].
Qed.
Lemma copy_ok : forall h a, sound h -> arrayp a = true -> (match a with VVec _ => zlen (elements h a) < 2 ^ 23 | _ => True end) ->
  exists v, fresh h (copy_sequence h a) v (elements h a) /\ (match a with VStr _ => constant (snd (copy_sequence h a)) v = false | _ => constant (snd (copy_sequence h a)) v = constant h a end).
Proof.
  intros h a S A L. destruct a as [ | p | p | | ]; try discriminate; cbn [copy_sequence elements] in *.
  - destruct (sound_str h p S) as [B Ls]. destruct (new_str_ok h _ S B Ls) as (q & F & _ & C). eauto.
  - rewrite (sound_vec h p S). rewrite wrap32_id by (unfold zlen in *; lia). rewrite Z.ltb_irrefl.
    replace (Z.to_nat (zlen (v_slots (get_vec h p)))) with (length (v_slots (get_vec h p))) by (unfold zlen; lia). rewrite firstn_all.
    destruct (new_vec_ok h (v_slots (get_vec h p)) (v_const (get_vec h p)) (v_compiled (get_vec h p)) (Some (zlen (v_slots (get_vec h p)))) S L) as (q & F & C & _);
      [intros n E; now injection E | ]. eauto.
Qed.
