(** Obarrays: chains of symbols stand for sets. *)
From Coq Require Import ZArith List Bool Lia Arith.
From Verif Require Import Numbers_Model Values_Model Symbols_Model Symbols_Spec.
Import ListNotations.
Open Scope Z_scope.

Lemma text_cstr : forall b, text b = cstr b.
Proof.
  induction b as [|c b IH]; [reflexivity|]. cbn [text cstr]. rewrite IH.
  destruct (Z.eq_dec c 0), (Z.eqb_spec c 0); congruence.
Qed.

Lemma streq_iff : forall a b, streq a b = true <-> a = b.
Proof.
  induction a as [|x a IH]; intros [|y b]; cbn [streq]; split; intros H; try congruence.
  - apply andb_prop in H. destruct H as [H1 H2]. apply Z.eqb_eq in H1. apply IH in H2. congruence.
  - injection H as -> ->. rewrite Z.eqb_refl. cbn. now apply IH.
Qed.

Lemma strcmp0_iff : forall a b, strcmp0 a b = true <-> text a = text b.
Proof. intros. unfold strcmp0. rewrite streq_iff, !text_cstr. reflexivity. Qed.

Lemma replace_upd : forall A (l : list A) n x, replace n x l = upd n x l.
Proof. induction l as [|y l IH]; intros [|n] x; cbn; auto. now rewrite IH. Qed.

Lemma upd_length : forall A n (x : A) l, length (upd n x l) = length l.
Proof. intros A n x l. revert n. induction l as [|y l IH]; intros [|n]; cbn; auto. Qed.

Lemma nth_upd_eq : forall A n (x d : A) l, (n < length l)%nat -> nth n (upd n x l) d = x.
Proof.
  intros A n x d l. revert n. induction l as [|y l IH]; intros [|n] H; cbn in *; try lia; auto.
  apply IH. lia.
Qed.
Lemma nth_upd_ne : forall A n m (x d : A) l, m <> n -> nth m (upd n x l) d = nth m l d.
Proof.
  intros A n m x d l. revert n m. induction l as [|y l IH]; intros [|n] [|m] H; cbn; auto; try congruence.
Qed.
Lemma nth_upd : forall A n m (x d : A) l,
  nth m (upd n x l) d = if ((m =? n) && (n <? length l))%nat then x else nth m l d.
Proof.
  intros. destruct (Nat.eqb_spec m n) as [->|N].
  - destruct (Nat.ltb_spec n (length l)); cbn.
    + now apply nth_upd_eq.
    + rewrite !nth_overflow; auto. rewrite upd_length. lia.
  - cbn. now apply nth_upd_ne.
Qed.
Lemma upd_out : forall A n (x : A) l, (length l <= n)%nat -> upd n x l = l.
Proof.
  intros A n x l. revert n. induction l as [|y l IH]; intros [|n] H; cbn in *; auto; try lia.
  rewrite IH by lia. reflexivity.
Qed.
Lemma map_upd : forall A B (f : A -> B) n x l, map f (upd n x l) = upd n (f x) (map f l).
Proof. intros A B f n x l. revert n. induction l as [|y l IH]; intros [|n]; cbn; auto. now rewrite IH. Qed.
Lemma upd_same : forall A n (d : A) l, upd n (nth n l d) l = l.
Proof. intros A n d l. revert n. induction l as [|y l IH]; intros [|n]; cbn; auto. now rewrite IH. Qed.

Lemma nth_app : forall A (l : list A) x d n,
  nth n (l ++ [x]) d = if (n =? length l)%nat then x else nth n l d.
Proof.
  intros. destruct (Nat.eqb_spec n (length l)) as [->|N].
  - rewrite app_nth2 by lia. now rewrite Nat.sub_diag.
  - destruct (Nat.lt_ge_cases n (length l)).
    + now apply app_nth1.
    + rewrite app_nth2 by lia. rewrite (nth_overflow l) by lia.
      destruct (n - length l)%nat eqn:E; [lia|]. destruct n0; reflexivity.
Qed.

Lemma hashid_text : forall a b v, text a = text b -> hashid a v = hashid b v.
Proof. intros a b v H. unfold hashid, hash. rewrite !text_cstr in H. now rewrite H. Qed.

Lemma hashid_lt : forall b v, (0 < v)%nat -> (hashid b v < v)%nat.
Proof.
  intros b v H. unfold hashid.
  pose proof (Z.mod_pos_bound (hash b) (Z.of_nat v) ltac:(lia)). lia.
Qed.

(** ** Chains *)

Inductive chain (st : state) : ref -> list nat -> Prop :=
  | chain_end : chain st End []
  | chain_sym : forall s l, (s < length (syms st))%nat ->
      chain st (snext (get_sym st s)) l -> chain st (Sym s) (s :: l).

Lemma chain_frame : forall st st' r l,
  chain st r l -> (length (syms st) <= length (syms st'))%nat ->
  (forall s, In s l -> snext (get_sym st' s) = snext (get_sym st s)) ->
  chain st' r l.
Proof.
  induction 1 as [|s l Hs Hc IH]; intros HL HF; constructor; [lia|].
  rewrite HF by (left; reflexivity). apply IH; auto. intros; apply HF; now right.
Qed.

Lemma chain_bound : forall st r l, chain st r l -> forall s, In s l -> (s < length (syms st))%nat.
Proof. induction 1; intros x Hx; cbn in Hx; [contradiction|]. destruct Hx; subst; auto. Qed.

Lemma nodup_bound : forall (l : list nat) n, NoDup l -> (forall s, In s l -> (s < n)%nat) ->
  (length l <= n)%nat.
Proof.
  intros l n Hn Hb. rewrite <- (seq_length n 0). apply NoDup_incl_length; auto.
  intros x Hx. apply in_seq. specialize (Hb x Hx). lia.
Qed.

Definition nm (st : state) (s : nat) : list Z := bytes st (sname (get_sym st s)).

Lemma find_chain_spec : forall st b r l n, chain st r l -> (length l < n)%nat ->
  find_chain n st b r =
  Ret (match find (fun s => strcmp0 b (nm st s)) l with Some s => VSym s | None => VNil end).
Proof.
  intros st b r l n H. revert n. induction H as [|s l Hs Hc IH]; intros [|n] Hn; cbn in Hn; try lia.
  - reflexivity.
  - cbn [find_chain find]. fold (nm st s). destruct (strcmp0 b (nm st s)); [reflexivity|].
    apply IH. lia.
Qed.

(** ** The invariant *)

Record inv (st : state) (w : world) (M : nat -> nat -> list nat) : Prop := {
  i_strs : wstrs w = strs st;
  i_cur : wcur w = cur st;
  i_sizes : wsizes w = map (@length ref) (obs st);
  i_len : length (wsyms w) = length (syms st);
  i_name : forall s, (s < length (syms st))%nat -> wname (wsym w s) = sname (get_sym st s);
  i_key : forall s, (s < length (syms st))%nat -> wkey (wsym w s) = skey (get_sym st s);
  i_holder : forall s o, (s < length (syms st))%nat ->
    wholder (wsym w s) = Some o <-> exists h, In s (M o h);
  i_null : forall s, (s < length (syms st))%nat ->
    snext (get_sym st s) = Null <-> wholder (wsym w s) = None;
  i_chain : forall o h, (h < length (buckets st o))%nat -> chain st (nth h (buckets st o) End) (M o h);
  i_empty : forall o h, (length (buckets st o) <= h)%nat -> M o h = [];
  i_hash : forall o h s, In s (M o h) -> hashid (nm st s) (length (buckets st o)) = h;
  i_nodup : forall o h, NoDup (M o h);
  i_unique : forall o h s s', In s (M o h) -> In s' (M o h) -> text (nm st s) = text (nm st s') -> s = s';
  i_strok : forall s, (s < length (syms st))%nat -> (sname (get_sym st s) < length (strs st))%nat;
  i_curok : (cur st < length (obs st))%nat;
  i_kwok : (1 < length (obs st))%nat /\ length (buckets st keyword_ob) <> 0%nat
}.

Lemma i_bound : forall st w M, inv st w M -> forall o h s, In s (M o h) ->
  (s < length (syms st))%nat /\ (h < length (buckets st o))%nat.
Proof.
  intros st w M I o h s H.
  destruct (Nat.lt_ge_cases h (length (buckets st o))) as [L|L].
  - split; auto. eapply chain_bound; [apply (i_chain _ _ _ I o h L)|exact H].
  - rewrite (i_empty _ _ _ I o h L) in H. contradiction.
Qed.

Lemma i_one : forall st w M, inv st w M -> forall o h o' h' s, In s (M o h) -> In s (M o' h') ->
  o = o' /\ h = h'.
Proof.
  intros st w M I o h o' h' s H H'.
  destruct (i_bound _ _ _ I _ _ _ H) as [B _].
  assert (E : wholder (wsym w s) = Some o) by (apply (i_holder _ _ _ I); eauto).
  assert (E' : wholder (wsym w s) = Some o') by (apply (i_holder _ _ _ I); eauto).
  rewrite E in E'. injection E' as <-. split; auto.
  rewrite <- (i_hash _ _ _ I _ _ _ H). rewrite <- (i_hash _ _ _ I _ _ _ H'). reflexivity.
Qed.

Lemma size_buckets : forall st w M, inv st w M -> forall o, nth o (wsizes w) 0%nat = length (buckets st o).
Proof.
  intros st w M I o. rewrite (i_sizes _ _ _ I). unfold buckets.
  change 0%nat with (length (@nil ref)). apply map_nth.
Qed.

Lemma which_eq : forall st w M, inv st w M -> forall ob, wwhich w ob = which st ob.
Proof. intros st w M I [o|]; cbn; auto. apply (i_cur _ _ _ I). Qed.

Lemma wstr_eq : forall st w M, inv st w M -> forall n, wstr w n = bytes st n.
Proof. intros st w M I n. unfold wstr, bytes. now rewrite (i_strs _ _ _ I). Qed.

Lemma wtext_eq : forall st w M, inv st w M -> forall s, (s < length (syms st))%nat ->
  wtext w s = text (nm st s).
Proof.
  intros st w M I s H. unfold wtext, nm. rewrite (wstr_eq _ _ _ I), (i_name _ _ _ I s H). reflexivity.
Qed.

Lemma interned_iff : forall st w M, inv st w M -> forall o b s,
  (length (buckets st o) <> 0)%nat ->
  interned w o (text b) s = true <->
  In s (M o (hashid b (length (buckets st o)))) /\ text (nm st s) = text b.
Proof.
  intros st w M I o b s HB. unfold interned. rewrite !andb_true_iff, Nat.ltb_lt, (i_len _ _ _ I).
  split.
  - intros [[L T] Hh].
    destruct (list_eq_dec Z.eq_dec (wtext w s) (text b)) as [E|]; [|discriminate].
    destruct (wholder (wsym w s)) as [o'|] eqn:EH; [|discriminate].
    apply Nat.eqb_eq in Hh. subst o'.
    apply (i_holder _ _ _ I) in EH; auto. destruct EH as [h Hin].
    rewrite (wtext_eq _ _ _ I) in E by auto. split; auto.
    pose proof (i_hash _ _ _ I _ _ _ Hin) as Hhash.
    rewrite (hashid_text _ _ _ E) in Hhash. now rewrite Hhash.
  - intros [Hin E]. destruct (i_bound _ _ _ I _ _ _ Hin) as [L _].
    repeat split; auto.
    + rewrite (wtext_eq _ _ _ I) by auto.
      destruct (list_eq_dec Z.eq_dec (text (nm st s)) (text b)); congruence.
    + assert (EH : wholder (wsym w s) = Some o) by (apply (i_holder _ _ _ I); eauto).
      rewrite EH. apply Nat.eqb_refl.
Qed.

Lemma wfind_iff : forall st w M, inv st w M -> forall o b,
  (length (buckets st o) <> 0)%nat ->
  wfind w o (text b) =
  find (fun s => strcmp0 b (nm st s)) (M o (hashid b (length (buckets st o)))).
Proof.
  intros st w M I o b HB. unfold wfind.
  set (h := hashid b (length (buckets st o))).
  destruct (find (interned w o (text b)) (seq 0 (length (wsyms w)))) as [s|] eqn:F.
  - apply find_some in F. destruct F as [_ F].
    apply (interned_iff _ _ _ I) in F; auto. destruct F as [Hin Ht].
    destruct (find (fun s0 => strcmp0 b (nm st s0)) (M o h)) as [s'|] eqn:F'.
    + apply find_some in F'. destruct F' as [Hin' Ht'].
      apply strcmp0_iff in Ht'. f_equal. eapply (i_unique _ _ _ I o h); eauto. congruence.
    + eapply find_none in F'; [|exact Hin]. cbn in F'.
      assert (strcmp0 b (nm st s) = true) by (apply strcmp0_iff; congruence). congruence.
  - destruct (find (fun s0 => strcmp0 b (nm st s0)) (M o h)) as [s'|] eqn:F'; [|reflexivity].
    apply find_some in F'. destruct F' as [Hin' Ht']. apply strcmp0_iff in Ht'.
    destruct (i_bound _ _ _ I _ _ _ Hin') as [L _].
    eapply find_none in F; [|apply in_seq; rewrite (i_len _ _ _ I); split; [lia|]; cbn; exact L].
    assert (interned w o (text b) s' = true) by (apply (interned_iff _ _ _ I); auto). congruence.
Qed.

Lemma wfind_none_empty : forall st w M, inv st w M -> forall o t,
  (length (buckets st o) = 0)%nat -> wfind w o t = None.
Proof.
  intros st w M I o t H0. unfold wfind.
  destruct (find (interned w o t) (seq 0 (length (wsyms w)))) as [s|] eqn:F; [|reflexivity].
  apply find_some in F. destruct F as [Hs F]. apply in_seq in Hs. rewrite (i_len _ _ _ I) in Hs.
  unfold interned in F. rewrite !andb_true_iff in F. destruct F as [_ F].
  destruct (wholder (wsym w s)) as [o'|] eqn:EH; [|discriminate].
  apply Nat.eqb_eq in F. subst o'. apply (i_holder _ _ _ I) in EH; [|lia].
  destruct EH as [h Hin]. rewrite (i_empty _ _ _ I o h) in Hin by lia. contradiction.
Qed.

Lemma chain_enough : forall st w M, inv st w M -> forall o h, (length (M o h) < enough st)%nat.
Proof.
  intros st w M I o h. unfold enough.
  assert (length (M o h) <= length (syms st))%nat.
  { apply nodup_bound; [apply (i_nodup _ _ _ I)|]. intros s Hs. apply (i_bound _ _ _ I _ _ _ Hs). }
  lia.
Qed.

Definition answer (r : option nat) : out := Ret (match r with Some s => VSym s | None => VNil end).

Lemma find_symbol_spec : forall st w M, inv st w M -> forall n ob,
  find_symbol st n ob = answer (wfind w (which st ob) (text (bytes st n))).
Proof.
  intros st w M I n ob. unfold find_symbol, answer.
  destruct (Nat.eqb_spec (length (buckets st (which st ob))) 0) as [E|E].
  - now rewrite (wfind_none_empty _ _ _ I) by auto.
  - rewrite (wfind_iff _ _ _ I) by auto.
    apply find_chain_spec; [|apply (chain_enough _ _ _ I)].
    apply (i_chain _ _ _ I). apply hashid_lt. lia.
Qed.

(** ** Steps that do not touch chains *)

Lemma get_set_next : forall st s r x, (s < length (syms st))%nat ->
  get_sym (set_next st s r) x =
  if (x =? s)%nat then MkSymbol (sname (get_sym st s)) r (skey (get_sym st s)) else get_sym st x.
Proof.
  intros st s r x H. unfold set_next, set_sym, get_sym at 1. cbn [syms]. rewrite nth_upd.
  apply Nat.ltb_lt in H. rewrite H, andb_true_r. reflexivity.
Qed.

Lemma inv_make_string : forall st w M b, inv st w M -> inv (snd (make_string st b)) (add_str w b) M.
Proof.
  intros st w M b I. unfold make_string, add_str. cbn [snd].
  assert (BY : forall s, (s < length (syms st))%nat ->
     nm (MkState (strs st ++ [b]) (syms st) (obs st) (cur st)) s = nm st s).
  { intros s Hs. unfold nm, bytes, get_sym. cbn [strs syms].
    pose proof (i_strok _ _ _ I s Hs) as H. unfold get_sym in H. now apply app_nth1. }
  constructor; try apply I; cbn [wstrs strs].
  - now rewrite (i_strs _ _ _ I).
  - intros o h Hh. eapply chain_frame; [apply (i_chain _ _ _ I o h Hh)|cbn; lia|reflexivity].
  - intros o h s Hs. destruct (i_bound _ _ _ I _ _ _ Hs) as [L _]. rewrite BY by auto.
    apply (i_hash _ _ _ I _ _ _ Hs).
  - intros o h s s' Hs Hs'. destruct (i_bound _ _ _ I _ _ _ Hs) as [L _].
    destruct (i_bound _ _ _ I _ _ _ Hs') as [L' _]. rewrite !BY by auto.
    apply (i_unique _ _ _ I o h); auto.
  - intros s Hs. rewrite app_length. cbn [length].
    pose proof (i_strok _ _ _ I s Hs) as H. unfold get_sym in *. cbn [syms] in *. lia.
Qed.

Lemma inv_aset : forall st w M n i c, inv st w M ->
  (forall s, ok_sym w s -> wname (wsym w s) <> n) ->
  inv (MkState (upd n (upd i c (bytes st n)) (strs st)) (syms st) (obs st) (cur st))
      (MkWorld (upd n (upd i c (bytes st n)) (wstrs w)) (wsyms w) (wsizes w) (wcur w)) M.
Proof.
  intros st w M n i c I HN.
  set (st' := MkState (upd n (upd i c (bytes st n)) (strs st)) (syms st) (obs st) (cur st)).
  assert (BY : forall s, (s < length (syms st))%nat -> nm st' s = nm st s).
  { intros s Hs. unfold nm, bytes, get_sym, st'. cbn [strs syms].
    apply nth_upd_ne. pose proof (HN s) as HNs. unfold ok_sym in HNs.
    rewrite (i_len _ _ _ I), (i_name _ _ _ I s Hs) in HNs. auto. }
  constructor; try apply I.
  - cbn [wstrs]. unfold st'. cbn [strs]. now rewrite (i_strs _ _ _ I).
  - intros o h Hh. eapply chain_frame; [apply (i_chain _ _ _ I o h Hh)|cbn; lia|reflexivity].
  - intros o h s Hs. destruct (i_bound _ _ _ I _ _ _ Hs) as [L _]. rewrite BY by auto.
    apply (i_hash _ _ _ I _ _ _ Hs).
  - intros o h s s' Hs Hs'. destruct (i_bound _ _ _ I _ _ _ Hs) as [L _].
    destruct (i_bound _ _ _ I _ _ _ Hs') as [L' _]. rewrite !BY by auto.
    apply (i_unique _ _ _ I o h); auto.
  - intros s Hs. unfold st'. cbn [strs]. rewrite upd_length. apply (i_strok _ _ _ I s Hs).
Qed.

Lemma inv_make_symbol : forall st w M n, inv st w M -> (n < length (strs st))%nat ->
  inv (snd (make_symbol st n)) (add_sym w (MkW n None false)) M.
Proof.
  intros st w M n I Hn. unfold make_symbol, add_sym. cbn [snd].
  set (st' := MkState (strs st) (syms st ++ [MkSymbol n Null false]) (obs st) (cur st)).
  set (w' := MkWorld (wstrs w) (wsyms w ++ [MkW n None false]) (wsizes w) (wcur w)).
  assert (G : forall s, get_sym st' s = if (s =? length (syms st))%nat then MkSymbol n Null false else get_sym st s)
    by (intros; apply nth_app).
  assert (W : forall s, wsym w' s = if (s =? length (syms st))%nat then MkW n None false else wsym w s).
  { intros s. unfold wsym, w'. cbn [wsyms]. rewrite nth_app, (i_len _ _ _ I). reflexivity. }
  assert (L : length (syms st') = S (length (syms st))) by (unfold st'; cbn [syms]; rewrite app_length; cbn; lia).
  assert (IN : forall o h s, In s (M o h) -> (s =? length (syms st))%nat = false).
  { intros o h s Hs. destruct (i_bound _ _ _ I _ _ _ Hs) as [B _]. apply Nat.eqb_neq. lia. }
  assert (BY : forall o h s, In s (M o h) -> nm st' s = nm st s).
  { intros o h s Hs. unfold nm. rewrite G, (IN o h s Hs). reflexivity. }
  constructor; try apply I.
  - unfold w'. cbn [wsyms]. rewrite app_length, (i_len _ _ _ I), L. cbn. lia.
  - intros s Hs. rewrite W, G. destruct (Nat.eqb_spec s (length (syms st))); [reflexivity|].
    apply (i_name _ _ _ I). lia.
  - intros s Hs. rewrite W, G. destruct (Nat.eqb_spec s (length (syms st))); [reflexivity|].
    apply (i_key _ _ _ I). lia.
  - intros s o Hs. rewrite W. destruct (Nat.eqb_spec s (length (syms st))) as [E|E].
    + cbn. split; [discriminate|]. intros [h Hin]. pose proof (IN _ _ _ Hin) as Q.
      apply Nat.eqb_neq in Q. contradiction.
    + apply (i_holder _ _ _ I). lia.
  - intros s Hs. rewrite W, G. destruct (Nat.eqb_spec s (length (syms st))) as [E|E].
    + cbn. tauto.
    + apply (i_null _ _ _ I). lia.
  - intros o h Hh. eapply chain_frame; [apply (i_chain _ _ _ I o h Hh)|lia|].
    intros s Hs. rewrite G, (IN o h s Hs). reflexivity.
  - intros o h s Hs. rewrite (BY o h) by auto. apply (i_hash _ _ _ I _ _ _ Hs).
  - intros o h s s' Hs Hs'. rewrite !(BY o h) by auto. apply (i_unique _ _ _ I o h); auto.
  - intros s Hs. rewrite G. destruct (Nat.eqb_spec s (length (syms st))); [exact Hn|].
    apply (i_strok _ _ _ I). lia.
Qed.

Lemma buckets_app : forall st k o,
  buckets (MkState (strs st) (syms st) (obs st ++ [repeat End k]) (cur st)) o =
  if (o =? length (obs st))%nat then repeat End k else buckets st o.
Proof. intros. unfold buckets. cbn [obs]. apply nth_app. Qed.

Lemma nth_repeat_End : forall k h, nth h (repeat End k) End = End.
Proof. induction k as [|k IH]; intros [|h]; cbn; auto. Qed.

Lemma M_out : forall st w M, inv st w M -> forall o h, (length (obs st) <= o)%nat -> M o h = [].
Proof.
  intros st w M I o h H. apply (i_empty _ _ _ I). unfold buckets. rewrite nth_overflow by lia. cbn. lia.
Qed.

Lemma inv_make_obarray : forall st w M size, inv st w M -> 0 <= size ->
  inv (snd (make_obarray st size))
      (MkWorld (wstrs w) (wsyms w) (wsizes w ++ [Z.to_nat size]) (wcur w)) M.
Proof.
  intros st w M size I Hs. unfold make_obarray.
  destruct (Z.ltb_spec size 0); [lia|]. cbn [snd].
  set (k := Z.to_nat size).
  constructor; try apply I.
  - cbn [wsizes obs]. rewrite map_app, (i_sizes _ _ _ I). cbn. now rewrite repeat_length.
  - intros o h. rewrite buckets_app. destruct (Nat.eqb_spec o (length (obs st))) as [->|N]; intros Hh.
    + rewrite nth_repeat_End, (M_out _ _ _ I) by lia. constructor.
    + eapply chain_frame; [apply (i_chain _ _ _ I o h Hh)|cbn; lia|reflexivity].
  - intros o h. rewrite buckets_app. destruct (Nat.eqb_spec o (length (obs st))) as [->|N]; intros Hh.
    + apply (M_out _ _ _ I). lia.
    + now apply (i_empty _ _ _ I).
  - intros o h s Hin. rewrite buckets_app.
    destruct (Nat.eqb_spec o (length (obs st))) as [->|N].
    + rewrite (M_out _ _ _ I) in Hin by lia. contradiction.
    + apply (i_hash _ _ _ I _ _ _ Hin).
  - cbn [cur obs]. rewrite app_length. pose proof (i_curok _ _ _ I). lia.
  - rewrite buckets_app. cbn [obs]. rewrite app_length. destruct (i_kwok _ _ _ I) as [A B].
    destruct (Nat.eqb_spec keyword_ob (length (obs st))) as [E|E]; [unfold keyword_ob in E; lia|].
    split; [lia|exact B].
Qed.

Lemma inv_set_obarray : forall st w M o, inv st w M -> (o < length (obs st))%nat ->
  inv (snd (set_obarray st o)) (MkWorld (wstrs w) (wsyms w) (wsizes w) o) M.
Proof.
  intros st w M o I Ho. cbn [set_obarray snd]. constructor; try apply I; auto.
  intros o' h Hh. eapply chain_frame; [apply (i_chain _ _ _ I o' h Hh)|cbn; lia|reflexivity].
Qed.

Lemma inv_set_key : forall st w M k, inv st w M -> (k < length (syms st))%nat ->
  inv (set_sym st k (MkSymbol (sname (get_sym st k)) (snext (get_sym st k)) true))
      (with_sym w k (MkW (wname (wsym w k)) (wholder (wsym w k)) true)) M.
Proof.
  intros st w M k I Hk. unfold with_sym. rewrite replace_upd.
  set (st' := set_sym st k (MkSymbol (sname (get_sym st k)) (snext (get_sym st k)) true)).
  assert (G : forall s, get_sym st' s = if (s =? k)%nat
      then MkSymbol (sname (get_sym st k)) (snext (get_sym st k)) true else get_sym st s).
  { intros s. unfold st', set_sym, get_sym at 1. cbn [syms]. rewrite nth_upd.
    assert (Hk' := Hk). apply Nat.ltb_lt in Hk'. now rewrite Hk', andb_true_r. }
  set (w' := MkWorld _ _ _ _).
  assert (W : forall s, wsym w' s = if (s =? k)%nat
      then MkW (wname (wsym w k)) (wholder (wsym w k)) true else wsym w s).
  { intros s. unfold wsym at 1, w'. cbn [wsyms]. rewrite nth_upd, (i_len _ _ _ I).
    assert (Hk' := Hk). apply Nat.ltb_lt in Hk'. now rewrite Hk', andb_true_r. }
  assert (L : length (syms st') = length (syms st)) by apply upd_length.
  assert (BY : forall s, nm st' s = nm st s).
  { intros s. unfold nm. rewrite G. destruct (Nat.eqb_spec s k) as [->|]; reflexivity. }
  assert (NX : forall s, snext (get_sym st' s) = snext (get_sym st s)).
  { intros s. rewrite G. destruct (Nat.eqb_spec s k) as [->|]; reflexivity. }
  constructor; try apply I; rewrite ?L.
  - unfold w'. cbn [wsyms]. rewrite upd_length. apply (i_len _ _ _ I).
  - intros s Hs. rewrite W, G. destruct (Nat.eqb_spec s k) as [->|]; cbn; apply (i_name _ _ _ I); auto.
  - intros s Hs. rewrite W, G. destruct (Nat.eqb_spec s k) as [->|]; cbn; auto. apply (i_key _ _ _ I); auto.
  - intros s o Hs. rewrite W. destruct (Nat.eqb_spec s k) as [->|]; cbn; apply (i_holder _ _ _ I); auto.
  - intros s Hs. rewrite NX, W. destruct (Nat.eqb_spec s k) as [->|]; cbn; apply (i_null _ _ _ I); auto.
  - intros o h Hh. eapply chain_frame; [apply (i_chain _ _ _ I o h Hh)|lia|]. auto.
  - intros o h s Hs. rewrite BY. apply (i_hash _ _ _ I _ _ _ Hs).
  - intros o h s s'. rewrite !BY. apply (i_unique _ _ _ I o h).
  - intros s Hs. rewrite G. destruct (Nat.eqb_spec s k) as [->|]; cbn; apply (i_strok _ _ _ I); auto.
Qed.

(** ** intern-symbol *)

Definition setM (M : nat -> nat -> list nat) (o h : nat) (l : list nat) : nat -> nat -> list nat :=
  fun o' h' => if ((o' =? o) && (h' =? h))%nat then l else M o' h'.

Lemma buckets_set_bucket : forall st o h r o',
  buckets (set_bucket st o h r) o' = if (o' =? o)%nat then upd h r (buckets st o) else buckets st o'.
Proof.
  intros st o h r o'. unfold set_bucket, buckets at 1. cbn [obs]. rewrite nth_upd.
  destruct (Nat.eqb_spec o' o) as [->|]; cbn [andb]; [|reflexivity].
  destruct (Nat.ltb_spec o (length (obs st))); [reflexivity|].
  unfold buckets. rewrite !nth_overflow by lia. now destruct h.
Qed.

Lemma length_buckets_set : forall st o h r o',
  length (buckets (set_bucket st o h r) o') = length (buckets st o').
Proof.
  intros. rewrite buckets_set_bucket. destruct (Nat.eqb_spec o' o) as [->|]; [apply upd_length|reflexivity].
Qed.

Lemma map_length_set : forall st o h r,
  map (@length ref) (obs (set_bucket st o h r)) = map (@length ref) (obs st).
Proof.
  intros. unfold set_bucket. cbn [obs]. rewrite map_upd, upd_length. unfold buckets.
  change (length (nth o (obs st) [])) with (length (nth o (obs st) (@nil ref))).
  rewrite <- (map_nth (@length ref)). apply upd_same.
Qed.

Lemma inv_link : forall st w M s o, inv st w M -> (s < length (syms st))%nat ->
  wholder (wsym w s) = None -> (0 < length (buckets st o))%nat ->
  wfind w o (text (nm st s)) = None ->
  let h := hashid (nm st s) (length (buckets st o)) in
  inv (set_bucket (set_next st s (nth h (buckets st o) End)) o h (Sym s))
      (with_sym w s (MkW (wname (wsym w s)) (Some o) (wkey (wsym w s))))
      (setM M o h (s :: M o h)).
Proof.
  intros st w M s o I Hs HN HR HF h.
  assert (Hh : (h < length (buckets st o))%nat) by (apply hashid_lt; auto).
  set (st1 := set_next st s (nth h (buckets st o) End)).
  set (st2 := set_bucket st1 o h (Sym s)).
  assert (B1 : forall o', buckets st1 o' = buckets st o') by reflexivity.
  assert (B2 : forall o', buckets st2 o' = if (o' =? o)%nat then upd h (Sym s) (buckets st o) else buckets st o').
  { intros o'. unfold st2. rewrite buckets_set_bucket. reflexivity. }
  assert (LB : forall o', length (buckets st2 o') = length (buckets st o')).
  { intros o'. unfold st2. rewrite length_buckets_set. reflexivity. }
  assert (G : forall x, get_sym st2 x = if (x =? s)%nat
    then MkSymbol (sname (get_sym st s)) (nth h (buckets st o) End) (skey (get_sym st s)) else get_sym st x).
  { intros x. change (get_sym st2 x) with (get_sym st1 x). now apply get_set_next. }
  unfold with_sym. rewrite replace_upd. set (w' := MkWorld _ _ _ _).
  assert (W : forall x, wsym w' x = if (x =? s)%nat
      then MkW (wname (wsym w s)) (Some o) (wkey (wsym w s)) else wsym w x).
  { intros x. unfold wsym at 1, w'. cbn [wsyms]. rewrite nth_upd, (i_len _ _ _ I).
    assert (Hs' := Hs). apply Nat.ltb_lt in Hs'. now rewrite Hs', andb_true_r. }
  assert (L : length (syms st2) = length (syms st)) by apply upd_length.
  assert (BY : forall x, nm st2 x = nm st x).
  { intros x. unfold nm. rewrite G. destruct (Nat.eqb_spec x s) as [->|]; reflexivity. }
  assert (NI : forall o' h', ~ In s (M o' h')).
  { intros o' h' Hin. assert (wholder (wsym w s) = Some o') by (apply (i_holder _ _ _ I); eauto). congruence. }
  assert (CH : forall r l, chain st r l -> ~ In s l -> chain st2 r l).
  { intros r l Hc Hni. eapply chain_frame; [exact Hc|lia|]. intros x Hx. rewrite G.
    destruct (Nat.eqb_spec x s) as [->|]; [contradiction|reflexivity]. }
  assert (SM : forall o' h', setM M o h (s :: M o h) o' h' = s :: M o' h' /\ o' = o /\ h' = h \/
                             setM M o h (s :: M o h) o' h' = M o' h' /\ ~ (o' = o /\ h' = h)).
  { intros o' h'. unfold setM. destruct (Nat.eqb_spec o' o), (Nat.eqb_spec h' h); cbn; subst; auto; right; split; auto; tauto. }
  constructor; rewrite ?L.
  - apply I.
  - apply I.
  - unfold w', st2. cbn [wsizes]. rewrite map_length_set. apply (i_sizes _ _ _ I).
  - unfold w'. cbn [wsyms]. rewrite upd_length. apply (i_len _ _ _ I).
  - intros x Hx. rewrite W, G. destruct (Nat.eqb_spec x s) as [->|]; cbn; apply (i_name _ _ _ I); auto.
  - intros x Hx. rewrite W, G. destruct (Nat.eqb_spec x s) as [->|]; cbn; apply (i_key _ _ _ I); auto.
  - intros x o' Hx. rewrite W. destruct (Nat.eqb_spec x s) as [->|N]; cbn.
    + split.
      * intros E. injection E as <-. exists h. unfold setM. rewrite !Nat.eqb_refl. now left.
      * intros [h' Hin]. destruct (SM o' h') as [[_ [-> _]]|[E _]]; [reflexivity|].
        rewrite E in Hin. exfalso. eapply NI; eauto.
    + rewrite (i_holder _ _ _ I) by auto. split; intros [h' Hin]; exists h'.
      * destruct (SM o' h') as [[E _]|[E _]]; rewrite E; [now right|exact Hin].
      * destruct (SM o' h') as [[E _]|[E _]]; rewrite E in Hin; auto.
        destruct Hin; [congruence|auto].
  - intros x Hx. rewrite W, G. destruct (Nat.eqb_spec x s) as [->|N]; cbn; [|apply (i_null _ _ _ I); auto].
    split; [|discriminate]. intros E.
    pose proof (i_chain _ _ _ I o h Hh) as C. rewrite E in C. inversion C.
  - intros o' h'. rewrite LB. intros Hh'. rewrite B2.
    destruct (SM o' h') as [[E [-> ->]]|[E N]]; rewrite E.
    + rewrite Nat.eqb_refl, nth_upd_eq by auto. constructor; [lia|].
      rewrite G, Nat.eqb_refl. cbn [snext]. apply CH; auto. now apply (i_chain _ _ _ I).
    + destruct (Nat.eqb_spec o' o) as [->|N'].
      * rewrite nth_upd_ne by (intros ->; tauto). apply CH; auto. now apply (i_chain _ _ _ I).
      * apply CH; auto. now apply (i_chain _ _ _ I).
  - intros o' h'. rewrite LB. intros Hh'. destruct (SM o' h') as [[E [-> ->]]|[E N]]; [lia|].
    rewrite E. now apply (i_empty _ _ _ I).
  - intros o' h' x Hin. rewrite LB, BY. destruct (SM o' h') as [[E [-> ->]]|[E N]]; rewrite E in Hin.
    + destruct Hin as [<-|Hin]; [reflexivity|]. now apply (i_hash _ _ _ I).
    + now apply (i_hash _ _ _ I).
  - intros o' h'. destruct (SM o' h') as [[E [-> ->]]|[E N]]; rewrite E; [|apply (i_nodup _ _ _ I)].
    constructor; [apply NI|apply (i_nodup _ _ _ I)].
  - assert (NT : forall x, In x (M o h) -> text (nm st x) <> text (nm st s)).
    { intros x Hx Ht. rewrite (wfind_iff _ _ _ I) in HF by lia.
      eapply find_none in HF; [|exact Hx]. cbn in HF.
      assert (strcmp0 (nm st s) (nm st x) = true) by (apply strcmp0_iff; congruence). congruence. }
    intros o' h' x x' Hx Hx'. rewrite !BY. intros Ht.
    destruct (SM o' h') as [[E [-> ->]]|[E N]]; rewrite E in Hx, Hx'.
    + destruct Hx as [<-|Hx], Hx' as [<-|Hx']; auto.
      * exfalso. eapply NT; [exact Hx'|congruence].
      * exfalso. eapply NT; [exact Hx|congruence].
      * eapply (i_unique _ _ _ I); eauto.
    + eapply (i_unique _ _ _ I); eauto.
  - intros x Hx. rewrite G. destruct (Nat.eqb_spec x s) as [->|]; cbn; apply (i_strok _ _ _ I); auto.
  - unfold st2, set_bucket. cbn [cur obs]. rewrite upd_length. apply (i_curok _ _ _ I).
  - rewrite LB. unfold st2, set_bucket. cbn [obs]. rewrite upd_length. apply (i_kwok _ _ _ I).
Qed.

Lemma intern_symbol_spec : forall st w M s ob, inv st w M -> (s < length (syms st))%nat ->
  (wholder (wsym w s) = None ->
     (0 < length (buckets st (which st ob)))%nat /\ wfind w (which st ob) (text (nm st s)) = None) ->
  fst (intern_symbol st s ob) = fst (step w (InternSymbol s ob)) /\
  exists M', inv (snd (intern_symbol st s ob)) (snd (step w (InternSymbol s ob))) M'.
Proof.
  intros st w M s ob I Hs HC. unfold intern_symbol. cbn [step].
  destruct (snext (get_sym st s)) eqn:EN.
  - apply (i_null _ _ _ I) in EN; auto. rewrite EN. destruct (HC EN) as [HR HF].
    destruct (Nat.eqb_spec (length (buckets st (which st ob))) 0); [lia|].
    split; [reflexivity|]. cbn [snd]. rewrite (which_eq _ _ _ I).
    eexists. apply inv_link; eauto.
  - destruct (wholder (wsym w s)) eqn:EH.
    + split; [reflexivity|]. eauto.
    + apply (i_null _ _ _ I) in EH; auto. congruence.
  - destruct (wholder (wsym w s)) eqn:EH.
    + split; [reflexivity|]. eauto.
    + apply (i_null _ _ _ I) in EH; auto. congruence.
Qed.

(** ** intern *)

Lemma add_link : forall w n o,
  with_sym (add_sym w (MkW n None false)) (length (wsyms w))
    (MkW (wname (wsym (add_sym w (MkW n None false)) (length (wsyms w)))) (Some o)
         (wkey (wsym (add_sym w (MkW n None false)) (length (wsyms w)))))
  = add_sym w (MkW n (Some o) false).
Proof.
  intros w n o. unfold with_sym, add_sym, wsym. cbn [wsyms wstrs wsizes wcur].
  rewrite nth_app, Nat.eqb_refl. cbn [wname wkey]. f_equal. rewrite replace_upd.
  induction (wsyms w) as [|x l IH]; cbn; [reflexivity|]. now rewrite IH.
Qed.

Lemma find_ext_in : forall A (f g : A -> bool) l, (forall x, In x l -> f x = g x) -> find f l = find g l.
Proof.
  induction l as [|x l IH]; intros H; [reflexivity|]. cbn. rewrite (H x) by (left; reflexivity).
  destruct (g x); [reflexivity|]. apply IH. intros; apply H; now right.
Qed.

Lemma intern_spec : forall st w M n ob, inv st w M -> (n < length (strs st))%nat ->
  (0 < length (buckets st (which st ob)))%nat ->
  fst (intern st n ob) = Ret (VSym (fst (wintern w n (which st ob)))) /\
  exists M', inv (snd (intern st n ob)) (snd (wintern w n (which st ob))) M'.
Proof.
  intros st w M n ob I Hn HR. unfold intern, wintern.
  rewrite (find_symbol_spec _ _ _ I). rewrite (wstr_eq _ _ _ I). unfold answer.
  destruct (wfind w (which st ob) (text (bytes st n))) as [s|] eqn:F.
  - cbn. eauto.
  - cbn [make_symbol].
    pose proof (inv_make_symbol st w M n I Hn) as I1. cbn [make_symbol snd] in I1.
    set (st1 := MkState (strs st) (syms st ++ [MkSymbol n Null false]) (obs st) (cur st)) in *.
    set (w1 := add_sym w (MkW n None false)) in *.
    assert (Hl : (length (syms st) < length (syms st1))%nat)
      by (unfold st1; cbn [syms]; rewrite app_length; cbn; lia).
    assert (Hsym : get_sym st1 (length (syms st)) = MkSymbol n Null false)
      by (unfold st1, get_sym; cbn [syms]; rewrite nth_app, Nat.eqb_refl; reflexivity).
    assert (Hnm : nm st1 (length (syms st)) = bytes st n) by (unfold nm; rewrite Hsym; reflexivity).
    destruct (intern_symbol_spec st1 w1 M (length (syms st)) ob I1 Hl) as [E1 [M' I2]].
    { intros _. split; [exact HR|]. rewrite Hnm.
      change (which st1 ob) with (which st ob).
      rewrite (wfind_iff _ _ _ I1) by (change (buckets st1 (which st ob)) with (buckets st (which st ob)); lia).
      rewrite (wfind_iff _ _ _ I) in F by lia.
      change (buckets st1 (which st ob)) with (buckets st (which st ob)).
      rewrite <- F. apply find_ext_in. intros x Hx.
      destruct (i_bound _ _ _ I _ _ _ Hx) as [B _].
      unfold nm, st1, get_sym. cbn [syms]. rewrite nth_app.
      destruct (Nat.eqb_spec x (length (syms st))); [lia|]. reflexivity. }
    assert (WH : wholder (wsym w1 (length (syms st))) = None).
    { unfold w1, add_sym, wsym. cbn [wsyms]. rewrite nth_app, <- (i_len _ _ _ I), Nat.eqb_refl. reflexivity. }
    cbn [step] in E1, I2. rewrite WH in E1, I2. cbn [fst snd] in E1, I2 |- *.
    rewrite (i_len _ _ _ I). split; [exact E1|]. exists M'.
    rewrite (which_eq _ _ _ I1) in I2. change (which st1 ob) with (which st ob) in I2.
    rewrite <- (i_len _ _ _ I) in I2 at 2 3 4. unfold w1 in I2. rewrite add_link in I2. exact I2.
Qed.

(** ** unintern *)

Definition removed (s : nat) (l : list nat) : list nat := filter (fun x => negb (x =? s)%nat) l.

Lemma relink_spec : forall l n st o h s acc r,
  (length l < n)%nat -> chain st r l -> NoDup l ->
  (h < length (buckets st o))%nat ->
  chain st (nth h (buckets st o) End) acc -> (forall x, In x l -> ~ In x acc) -> ~ In s acc ->
  exists st', relink n st o h s r = Some (Some st') /\
    strs st' = strs st /\ cur st' = cur st /\ length (syms st') = length (syms st) /\
    length (obs st') = length (obs st) /\
    (forall o', length (buckets st' o') = length (buckets st o')) /\
    (forall o' h', ~ (o' = o /\ h' = h) -> nth h' (buckets st' o') End = nth h' (buckets st o') End) /\
    chain st' (nth h (buckets st' o) End) (rev (removed s l) ++ acc) /\
    (forall x, sname (get_sym st' x) = sname (get_sym st x) /\ skey (get_sym st' x) = skey (get_sym st x)) /\
    (forall x, ~ In x l \/ x = s -> snext (get_sym st' x) = snext (get_sym st x)) /\
    (forall x, In x l -> x <> s -> snext (get_sym st' x) <> Null).
Proof.
  induction l as [|x l IH]; intros n st o h s acc r Hn HC HD Hh HA HX HS.
  - inversion HC; subst. destruct n as [|n]; [lia|]. cbn [relink removed filter rev app].
    exists st. repeat split; auto.
  - inversion HC as [|x' l' Hx HC']; subst. destruct n as [|n]; cbn in Hn; [lia|].
    cbn [relink]. inversion HD as [|? ? HNI HD']; subst.
    cbn [removed filter]. destruct (Nat.eqb_spec x s) as [->|N]; cbn [negb].
    + destruct (IH n st o h s acc (snext (get_sym st s))) as (st' & E & H1 & H2 & H3 & H4 & H5 & H6 & H7 & H8 & H9 & H10);
        auto; [lia|intros y Hy; apply HX; now right|].
      exists st'. split; [exact E|]. repeat (split; [assumption|]).
      split.
      * intros y [Hy| ->]; apply H9; [left; intros Hy'; apply Hy; now right|auto].
      * intros y [<-|Hy] Hys; [congruence|]. apply H10; auto.
    + set (r0 := nth h (buckets st o) End) in *.
      set (st1 := set_bucket (set_next st x r0) o h (Sym x)).
      assert (G : forall y, get_sym st1 y = if (y =? x)%nat
         then MkSymbol (sname (get_sym st x)) r0 (skey (get_sym st x)) else get_sym st y).
      { intros y. change (get_sym st1 y) with (get_sym (set_next st x r0) y). now apply get_set_next. }
      assert (LB : forall o', length (buckets st1 o') = length (buckets st o')).
      { intros. unfold st1. rewrite length_buckets_set. reflexivity. }
      assert (L1 : length (syms st1) = length (syms st)) by apply upd_length.
      assert (CH : forall r l, chain st r l -> ~ In x l -> chain st1 r l).
      { intros r' l' Hc Hni. eapply chain_frame; [exact Hc|lia|]. intros y Hy. rewrite G.
        destruct (Nat.eqb_spec y x) as [->|]; [contradiction|reflexivity]. }
      assert (B1 : nth h (buckets st1 o) End = Sym x).
      { unfold st1. rewrite buckets_set_bucket, Nat.eqb_refl. apply nth_upd_eq. exact Hh. }
      destruct (IH n st1 o h s (x :: acc) (snext (get_sym st x)))
        as (st' & E & H1 & H2 & H3 & H4 & H5 & H6 & H7 & H8 & H9 & H10).
      * lia.
      * apply CH; auto.
      * exact HD'.
      * now rewrite LB.
      * rewrite B1. constructor; [lia|]. rewrite G, Nat.eqb_refl. cbn [snext].
        apply CH; auto. apply HX. now left.
      * intros y Hy [<-|Hy']; [contradiction|]. eapply HX; [right; exact Hy|exact Hy'].
      * intros [->|Hin]; [congruence|contradiction].
      * exists st'. split; [exact E|]. split; [exact H1|]. split; [exact H2|]. split; [lia|].
        split; [rewrite H4; apply upd_length|].
        split; [intros o'; rewrite H5; apply LB|].
        split.
        { intros o' h' Hne. rewrite H6 by auto. unfold st1. rewrite buckets_set_bucket.
          destruct (Nat.eqb_spec o' o) as [->|]; [|reflexivity].
          apply nth_upd_ne. intros ->. tauto. }
        split; [cbn [rev]; rewrite <- app_assoc; exact H7|].
        split.
        { intros y. destruct (H8 y) as [-> ->]. rewrite G.
          destruct (Nat.eqb_spec y x) as [->|]; auto. }
        assert (SX : forall y, y <> x -> snext (get_sym st1 y) = snext (get_sym st y)).
        { intros y Hy. rewrite G. destruct (Nat.eqb_spec y x); [congruence|reflexivity]. }
        split.
        { intros y Hy. rewrite H9.
          - apply SX. destruct Hy as [Hy| ->]; [|congruence]. intros ->. apply Hy. now left.
          - destruct Hy as [Hy| ->]; auto. left. intros Hy'. apply Hy. now right. }
        { intros y [<-|Hy] Hys.
          - rewrite H9 by (left; exact HNI). rewrite G, Nat.eqb_refl. cbn [snext].
            intros E0. rewrite E0 in HA. inversion HA.
          - apply H10; auto. }
Qed.

Lemma removed_in : forall s l x, In x (removed s l) <-> In x l /\ x <> s.
Proof.
  intros s l x. unfold removed. rewrite filter_In, negb_true_iff, Nat.eqb_neq. reflexivity.
Qed.

Lemma unintern_spec : forall st w M s ob, inv st w M -> (s < length (syms st))%nat ->
  (0 < length (buckets st (which st ob)))%nat ->
  wholder (wsym w s) = None \/ wholder (wsym w s) = Some (which st ob) ->
  fst (unintern st s ob) = fst (step w (Unintern s ob)) /\
  exists M', inv (snd (unintern st s ob)) (snd (step w (Unintern s ob))) M'.
Proof.
  intros st w M s ob I Hs HR HH. unfold unintern. cbn [step]. fold (nm st s).
  set (o := which st ob) in *.
  destruct (Nat.eqb_spec (length (buckets st o)) 0); [lia|].
  set (h := hashid (nm st s) (length (buckets st o))).
  assert (Hh : (h < length (buckets st o))%nat) by (apply hashid_lt; auto).
  set (st0 := set_bucket st o h End).
  assert (B0 : nth h (buckets st0 o) End = End).
  { unfold st0. rewrite buckets_set_bucket, Nat.eqb_refl. now apply nth_upd_eq. }
  assert (LB0 : forall o', length (buckets st0 o') = length (buckets st o')).
  { intros. unfold st0. apply length_buckets_set. }
  destruct (relink_spec (M o h) (enough st) st0 o h s [] (nth h (buckets st o) End))
    as (st' & E & H1 & H2 & H3 & H4 & H5 & H6 & H7 & H8 & H9 & H10).
  - apply (chain_enough _ _ _ I).
  - eapply chain_frame; [apply (i_chain _ _ _ I o h Hh)|cbn; lia|reflexivity].
  - apply (i_nodup _ _ _ I).
  - now rewrite LB0.
  - rewrite B0. constructor.
  - intros x _ [].
  - intros [].
  - change (enough st0) with (enough st) in *. rewrite E. split; [reflexivity|]. cbn [snd].
    rewrite app_nil_r in H7.
    set (st2 := set_next st' s Null).
    assert (Ls : (s < length (syms st'))%nat) by (rewrite H3; exact Hs).
    assert (G : forall x, get_sym st2 x = if (x =? s)%nat
       then MkSymbol (sname (get_sym st' s)) Null (skey (get_sym st' s)) else get_sym st' x)
      by (intros x; now apply get_set_next).
    assert (L2 : length (syms st2) = length (syms st)).
    { unfold st2, set_next, set_sym. cbn [syms]. rewrite upd_length. exact H3. }
    unfold with_sym. rewrite replace_upd. set (w' := MkWorld _ _ _ _).
    assert (W : forall x, wsym w' x = if (x =? s)%nat
       then MkW (wname (wsym w s)) None (wkey (wsym w s)) else wsym w x).
    { intros x. unfold wsym at 1, w'. cbn [wsyms]. rewrite nth_upd, (i_len _ _ _ I).
      assert (Hs' := Hs). apply Nat.ltb_lt in Hs'. now rewrite Hs', andb_true_r. }
    assert (BY : forall x, nm st2 x = nm st x).
    { intros x. unfold nm. rewrite G.
      assert (BB : forall k, bytes st2 k = bytes st k).
      { intros k. unfold bytes. change (strs st2) with (strs st'). now rewrite H1. }
      rewrite BB. destruct (Nat.eqb_spec x s) as [->|]; cbn [sname];
        [destruct (H8 s) as [Q _]|destruct (H8 x) as [Q _]]; rewrite Q; reflexivity. }
    assert (B2 : forall o', buckets st2 o' = buckets st' o') by reflexivity.
    assert (LB : forall o', length (buckets st2 o') = length (buckets st o')).
    { intros. rewrite B2, H5. apply LB0. }
    assert (NI : forall o' h', ~ (o' = o /\ h' = h) -> ~ In s (M o' h')).
    { intros o' h' Hne Hin.
      assert (Q : wholder (wsym w s) = Some o') by (apply (i_holder _ _ _ I); eauto).
      destruct HH as [HH|HH]; [congruence|]. rewrite HH in Q. injection Q as Q.
      apply Hne. split; auto. rewrite <- (i_hash _ _ _ I _ _ _ Hin). now rewrite <- Q. }
    assert (SM : forall o' h',
       setM M o h (rev (removed s (M o h))) o' h' = rev (removed s (M o h)) /\ o' = o /\ h' = h \/
       setM M o h (rev (removed s (M o h))) o' h' = M o' h' /\ ~ (o' = o /\ h' = h)).
    { intros o' h'. unfold setM. destruct (Nat.eqb_spec o' o), (Nat.eqb_spec h' h); cbn; subst; auto;
        right; split; auto; tauto. }
    exists (setM M o h (rev (removed s (M o h)))).
    assert (IN : forall o' h' x, In x (setM M o h (rev (removed s (M o h))) o' h') <-> In x (M o' h') /\ x <> s).
    { intros o' h' x. destruct (SM o' h') as [[Q [-> ->]]|[Q N]]; rewrite Q.
      - rewrite <- in_rev. apply removed_in.
      - split; [|tauto]. intros Hin. split; auto. intros ->. eapply NI; eauto. }
    constructor; rewrite ?L2.
    + change (strs st2) with (strs st'). rewrite H1. apply (i_strs _ _ _ I).
    + change (cur st2) with (cur st'). rewrite H2. apply (i_cur _ _ _ I).
    + unfold w'. cbn [wsizes]. rewrite (i_sizes _ _ _ I). change (obs st2) with (obs st').
      apply nth_ext with (d := 0%nat) (d' := 0%nat).
      * rewrite !map_length, H4. unfold st0, set_bucket. cbn [obs]. now rewrite upd_length.
      * intros k _. change 0%nat with (length (@nil ref)). rewrite !map_nth.
        symmetry. apply (LB k).
    + unfold w'. cbn [wsyms]. rewrite upd_length. apply (i_len _ _ _ I).
    + intros x Hx. rewrite W, G. destruct (Nat.eqb_spec x s) as [->|]; cbn;
        [destruct (H8 s) as [-> _]|destruct (H8 x) as [-> _]]; apply (i_name _ _ _ I); auto.
    + intros x Hx. rewrite W, G. destruct (Nat.eqb_spec x s) as [->|]; cbn;
        [destruct (H8 s) as [_ ->]|destruct (H8 x) as [_ ->]]; apply (i_key _ _ _ I); auto.
    + intros x o' Hx. rewrite W. destruct (Nat.eqb_spec x s) as [->|N]; cbn.
      * split; [discriminate|]. intros [h' Hin]. apply IN in Hin. tauto.
      * rewrite (i_holder _ _ _ I) by auto. split; intros [h' Hin]; exists h'; rewrite IN in *; tauto.
    + intros x Hx. rewrite W, G. destruct (Nat.eqb_spec x s) as [->|N]; cbn; [tauto|].
      destruct (in_dec Nat.eq_dec x (M o h)) as [Hin|Hni].
      * split; intros Q; exfalso.
        -- eapply H10; eauto.
        -- assert (wholder (wsym w x) = Some o) by (apply (i_holder _ _ _ I); eauto). congruence.
      * rewrite H9 by (left; exact Hni). apply (i_null _ _ _ I); auto.
    + intros o' h'. rewrite LB, B2. intros Hh'.
      assert (CH : forall r l, chain st' r l -> ~ In s l -> chain st2 r l).
      { intros r l Hc Hni. eapply chain_frame; [exact Hc|unfold st2, set_next, set_sym; cbn [syms]; rewrite upd_length; lia|].
        intros y Hy. rewrite G. destruct (Nat.eqb_spec y s) as [->|]; [contradiction|reflexivity]. }
      destruct (SM o' h') as [[Q [-> ->]]|[Q N]]; rewrite Q.
      * apply CH; auto. rewrite <- in_rev, removed_in. tauto.
      * rewrite H6 by auto. apply CH; [|apply NI; auto].
        assert (BO : nth h' (buckets st0 o') End = nth h' (buckets st o') End).
        { unfold st0. rewrite buckets_set_bucket. destruct (Nat.eqb_spec o' o) as [->|]; [|reflexivity].
          apply nth_upd_ne. intros ->. tauto. }
        rewrite BO. eapply chain_frame; [apply (i_chain _ _ _ I o' h' Hh')|rewrite H3; cbn; lia|].
        intros y Hy. rewrite H9; [reflexivity|]. left. intros Hy'.
        destruct (i_one _ _ _ I _ _ _ _ _ Hy Hy') as [-> ->]. tauto.
    + intros o' h'. rewrite LB. intros Hh'. destruct (SM o' h') as [[Q [-> ->]]|[Q N]]; [lia|].
      rewrite Q. now apply (i_empty _ _ _ I).
    + intros o' h' x Hin. rewrite LB, BY. apply IN in Hin. apply (i_hash _ _ _ I). tauto.
    + intros o' h'. destruct (SM o' h') as [[Q [-> ->]]|[Q N]]; rewrite Q; [|apply (i_nodup _ _ _ I)].
      apply NoDup_rev. apply NoDup_filter. apply (i_nodup _ _ _ I).
    + intros o' h' x x' Hx Hx'. rewrite !BY. apply IN in Hx. apply IN in Hx'.
      apply (i_unique _ _ _ I o' h'); tauto.
    + intros x Hx. change (strs st2) with (strs st'). rewrite H1, G. change (strs st0) with (strs st).
      destruct (Nat.eqb_spec x s) as [->|]; cbn;
        [destruct (H8 s) as [-> _]|destruct (H8 x) as [-> _]]; apply (i_strok _ _ _ I); auto.
    + change (cur st2) with (cur st'). change (obs st2) with (obs st'). rewrite H2, H4.
      unfold st0, set_bucket. cbn [cur obs]. rewrite upd_length. apply (i_curok _ _ _ I).
    + rewrite LB. change (obs st2) with (obs st'). rewrite H4.
      unfold st0, set_bucket. cbn [obs]. rewrite upd_length. apply (i_kwok _ _ _ I).
Qed.

(** ** make-keyword, and all calls together *)

Lemma wintern_sym : forall st w M n o, inv st w M ->
  (fst (wintern w n o) < length (wsyms (snd (wintern w n o))))%nat.
Proof.
  intros st w M n o I. unfold wintern. destruct (wfind w o (text (wstr w n))) as [s|] eqn:F.
  - cbn. unfold wfind in F. apply find_some in F. destruct F as [F _]. apply in_seq in F. lia.
  - cbn [fst snd add_sym wsyms]. rewrite app_length. cbn. lia.
Qed.

Lemma agrees : forall st w M c, inv st w M -> careful w c ->
  fst (exec st c) = fst (step w c) /\ exists M', inv (snd (exec st c)) (snd (step w c)) M'.
Proof.
  intros st w M c I HC. destruct c; cbn [careful] in HC; cbn [exec].
  - cbn [step fst snd make_string]. rewrite (i_strs _ _ _ I). split; [reflexivity|].
    exists M. exact (inv_make_string st w M b I).
  - destruct HC as [Hn HN]. unfold aset. cbn [step]. rewrite (wstr_eq _ _ _ I), !replace_upd.
    destruct (i <? length (bytes st n))%nat; cbn [fst snd]; split; auto; [|eauto].
    exists M. now apply inv_aset.
  - unfold ok_str in HC. rewrite (i_strs _ _ _ I) in HC.
    cbn [step fst snd make_symbol]. rewrite (i_len _ _ _ I). split; [reflexivity|].
    exists M. exact (inv_make_symbol st w M n I HC).
  - unfold ok_sym in HC. rewrite (i_len _ _ _ I) in HC. cbn [step fst snd]. unfold symbol_name.
    rewrite (i_name _ _ _ I) by auto. split; [reflexivity|eauto].
  - cbn [step]. unfold make_obarray.
    destruct (Z.ltb_spec size 0); cbn [fst snd]; [split; eauto|].
    rewrite (i_sizes _ _ _ I), map_length. split; [reflexivity|]. exists M.
    pose proof (inv_make_obarray st w M size I ltac:(lia)) as Q. unfold make_obarray in Q.
    destruct (Z.ltb_spec size 0); [lia|]. cbn [snd] in Q. rewrite <- (i_sizes _ _ _ I). exact Q.
  - unfold ok_ob in HC. cbn [wwhich] in HC. rewrite (i_sizes _ _ _ I), map_length in HC.
    cbn [step fst snd set_obarray]. split; [reflexivity|]. exists M. now apply inv_set_obarray.
  - cbn [step fst snd]. rewrite (find_symbol_spec _ _ _ I), (wstr_eq _ _ _ I), (which_eq _ _ _ I).
    split; [reflexivity|eauto].
  - destruct HC as [Hs HC]. unfold ok_sym in Hs. rewrite (i_len _ _ _ I) in Hs.
    eapply intern_symbol_spec; eauto. intros HN. destruct (HC HN) as [A B].
    unfold has_room in A. rewrite (size_buckets _ _ _ I), (which_eq _ _ _ I) in A.
    rewrite (which_eq _ _ _ I), (wtext_eq _ _ _ I) in B by auto. auto.
  - destruct HC as [Hn HR]. unfold ok_str in Hn. rewrite (i_strs _ _ _ I) in Hn.
    unfold has_room in HR. rewrite (size_buckets _ _ _ I), (which_eq _ _ _ I) in HR.
    destruct (intern_spec st w M n ob I Hn HR) as [E [M' I']]. cbn [step].
    rewrite (which_eq _ _ _ I). destruct (wintern w n (which st ob)) as [s w'].
    cbn [fst snd] in *. eauto.
  - destruct HC as [Hs [HR HH]]. unfold ok_sym in Hs. rewrite (i_len _ _ _ I) in Hs.
    unfold has_room in HR. rewrite (size_buckets _ _ _ I), (which_eq _ _ _ I) in HR.
    rewrite (which_eq _ _ _ I) in HH. eapply unintern_spec; eauto.
  - unfold ok_sym in HC. rewrite (i_len _ _ _ I) in HC. unfold make_keyword. cbn [step].
    rewrite (i_key _ _ _ I) by auto. destruct (skey (get_sym st s)); [cbn; eauto|].
    cbn [make_string]. rewrite (i_name _ _ _ I), (wstr_eq _ _ _ I), (i_strs _ _ _ I) by auto.
    fold (nm st s).
    pose proof (inv_make_string st w M (35 :: 58 :: nm st s) I) as I1. cbn [make_string snd] in I1.
    set (st1 := MkState (strs st ++ [35 :: 58 :: nm st s]) (syms st) (obs st) (cur st)) in *.
    assert (Hn : (length (strs st) < length (strs st1))%nat)
      by (unfold st1; cbn [strs]; rewrite app_length; cbn; lia).
    destruct (i_kwok _ _ _ I1) as [K1 K2].
    destruct (intern_spec st1 _ M (length (strs st)) (Some keyword_ob) I1 Hn) as [E [M' I2]].
    { cbn [which]. lia. }
    cbn [which] in E, I2.
    pose proof (wintern_sym _ _ _ (length (strs st)) keyword_ob I1) as HK.
    destruct (wintern (add_str w (35 :: 58 :: nm st s)) (length (strs st)) keyword_ob) as [k w2].
    destruct (intern st1 (length (strs st)) (Some keyword_ob)) as [r st2].
    cbn [fst snd] in *. subst r. cbn [fst snd]. split; [reflexivity|]. exists M'.
    apply inv_set_key; auto. rewrite <- (i_len _ _ _ I2). exact HK.
Qed.

Lemma nth_start : forall o, buckets start o = match o with
  | O => repeat End 509 | 1%nat => repeat End 127 | _ => [] end.
Proof. intros [|[|[|o]]]; reflexivity. Qed.

Lemma inv_start : inv start wstart (fun _ _ => []).
Proof.
  constructor; try (intros; cbn in *; lia); try reflexivity; try (intros; contradiction).
  - intros o h _. rewrite nth_start. destruct o as [|[|o]].
    + rewrite nth_repeat_End. constructor.
    + rewrite nth_repeat_End. constructor.
    + destruct h; constructor.
  - intros. constructor.
Qed.

Lemma reached_inv : forall st w, reached st w -> exists M, inv st w M.
Proof.
  induction 1 as [|st w c H [M I] HC].
  - exists (fun _ _ => []). apply inv_start.
  - destruct (agrees st w M c I HC) as [_ Q]. exact Q.
Qed.

Lemma agrees_all : forall l st w M, inv st w M -> careful_all w l ->
  fst (exec_all st l) = fst (step_all w l).
Proof.
  induction l as [|c l IH]; intros st w M I HC; [reflexivity|].
  destruct HC as [HC HL]. destruct (agrees st w M c I HC) as [E [M' I']].
  cbn [exec_all step_all]. destruct (exec st c) as [r st1], (step w c) as [r' w1]. cbn [fst snd] in *.
  specialize (IH st1 w1 M' I' HL). destruct (exec_all st1 l), (step_all w1 l). cbn [fst] in *. congruence.
Qed.
