From Coq Require Import List ZArith Lia Bool ZifyBool.
From Verif Require Import Numbers_Model Stream_Model Stream_Spec.
Import ListNotations.
Open Scope Z_scope.

(** * Output streams *)
Lemma nth_set : forall A (l : list A) k x j, (k < length l)%nat ->
  nth_error (firstn k l ++ x :: skipn (S k) l) j = if Nat.eqb j k then Some x else nth_error l j.
Proof.
  induction l as [|y l IH]; intros k x j H; cbn [length] in H; [lia|].
  destruct k as [|k]; cbn [firstn skipn app].
  - destruct j; reflexivity.
  - destruct j as [|j]; [reflexivity|]. cbn [nth_error Nat.eqb].
    apply IH. lia.
Qed.
Lemma length_set : forall A (l : list A) k x, (k < length l)%nat ->
  length (firstn k l ++ x :: skipn (S k) l) = length l.
Proof. intros. rewrite app_length, firstn_length. cbn [length]. rewrite skipn_length. lia. Qed.
Lemma nth_lt : forall A (l : list A) k x, nth_error l k = Some x -> (k < length l)%nat.
Proof. intros A l k x H. apply nth_error_Some. congruence. Qed.
Lemma nth_last : forall A (l : list A) x, nth_error (l ++ [x]) (length l) = Some x.
Proof. intros. rewrite nth_error_app2 by lia. rewrite Nat.sub_diag. reflexivity. Qed.

(** What an operation on the stream [st] leaves alone *)
Definition framed (h : heap) (st : ostream) (h' : heap) (st' : ostream) : Prop :=
  (length h <= length h')%nat /\
  (forall a, (a < length h)%nat -> a <> sbuf st -> nth_error h' a = nth_error h a) /\
  (sbuf st' = sbuf st \/ (length h <= sbuf st')%nat).

Lemma framed_refl : forall h st, framed h st h st.
Proof. intros. split; [lia|]. split; auto. Qed.
Lemma framed_trans : forall h st h1 st1 h2 st2,
  framed h st h1 st1 -> framed h1 st1 h2 st2 -> framed h st h2 st2.
Proof.
  intros h st h1 st1 h2 st2 (A1 & A2 & A3) (B1 & B2 & B3). split; [lia|]. split.
  - intros a L N. rewrite B2; [apply A2; auto|lia|]. destruct A3 as [->|]; [auto|lia].
  - destruct B3 as [->|]; [exact A3|right; lia].
Qed.

Lemma grow_framed : forall h st s n, framed h st (h ++ [s]) (mko (length h) n).
Proof.
  intros. split; [rewrite app_length; lia|]. split.
  - intros a L _. apply nth_error_app1. exact L.
  - right. cbn [sbuf]. lia.
Qed.
Lemma upd_framed : forall h st s, (sbuf st < length h)%nat -> framed h st (upd h (sbuf st) s) st.
Proof.
  intros h st s L. unfold upd. split; [rewrite length_set by exact L; lia|]. split; [|left; reflexivity].
  intros a _ N. rewrite nth_set by exact L. destruct (Nat.eqb_spec a (sbuf st)); [contradiction|reflexivity].
Qed.

Lemma puts_ok : forall h st t buf, collected h st t ->
  exists h' st', puts h st buf = Ok (h', st') /\ collected h' st' (t ++ buf) /\ framed h st h' st'.
Proof.
  intros h st t buf (s & E & T & I). unfold puts. rewrite E. subst t.
  assert (L := nth_lt _ _ _ _ E). unfold slen in *.
  assert (LE : Z.of_nat (length (chars s ++ buf)) = Z.of_nat (length (chars s)) + Z.of_nat (length buf))
    by (rewrite app_length; lia).
  destruct (actual st <=? Z.of_nat (length (chars s)) + Z.of_nat (length buf) + 1) eqn:G.
  - set (n := if Z.of_nat (length (chars s)) + Z.of_nat (length buf) + 1 <? (if actual st <? 16 then 32 else actual st * 2) then _ else _).
    assert (Hn : Z.of_nat (length (chars s)) + Z.of_nat (length buf) < n)
      by (subst n; destruct (Z.ltb_spec (Z.of_nat (length (chars s)) + Z.of_nat (length buf) + 1) (if actual st <? 16 then 32 else actual st * 2)); lia).
    destruct (Z.ltb_spec (Z.of_nat (length (chars s)) + Z.of_nat (length buf)) (n + 1)); [|lia]. cbn [bind].
    eexists _, _. split; [reflexivity|]. split; [|apply grow_framed].
    eexists. cbn [sbuf]. split; [apply nth_last|]. cbn [chars room actual]. split; [reflexivity|].
    right. unfold slen. cbn [chars]. lia.
  - destruct I as [(Z0 & A)|(A & B)]; [lia|].
    destruct (Z.ltb_spec (Z.of_nat (length (chars s)) + Z.of_nat (length buf)) (room s)); [|lia]. cbn [bind].
    eexists _, _. split; [reflexivity|]. split; [|apply upd_framed, L].
    eexists. split; [unfold upd; rewrite nth_set by exact L; rewrite Nat.eqb_refl; reflexivity|].
    cbn [chars room]. split; [reflexivity|]. right. unfold slen. cbn [chars]. lia.
Qed.

Lemma putc_ok : forall h st t c, collected h st t ->
  exists h' st', putc h st c = Ok (h', st') /\ collected h' st' (t ++ [c mod 256]) /\ framed h st h' st'.
Proof.
  intros h st t c (s & E & T & I). unfold putc. rewrite E. subst t.
  assert (L := nth_lt _ _ _ _ E). unfold slen in *.
  assert (LE : Z.of_nat (length (chars s ++ [c mod 256])) = Z.of_nat (length (chars s)) + 1)
    by (rewrite app_length; cbn [length]; lia).
  assert (T0 : chars s = [] -> length (chars s) = 0%nat) by (intros ->; reflexivity).
  destruct (actual st <=? Z.of_nat (length (chars s)) + 1) eqn:G.
  - set (n := if actual st <? 16 then _ else _).
    assert (Hn : Z.of_nat (length (chars s)) + 1 < n).
    { subst n. destruct I as [(Z0 & A)|(A & B)]; [specialize (T0 Z0)|]; destruct (Z.ltb_spec (actual st) 16); lia. }
    destruct (Z.ltb_spec (n + 1) (Z.of_nat (length (chars s)))); [lia|].
    destruct (Z.ltb_spec (Z.of_nat (length (chars s)) + 1) (n + 1)); [|lia]. cbn [bind].
    eexists _, _. split; [reflexivity|]. split; [|apply grow_framed].
    eexists. cbn [sbuf]. split; [apply nth_last|]. cbn [chars room actual]. split; [reflexivity|].
    right. unfold slen. cbn [chars]. lia.
  - destruct I as [(Z0 & A)|(A & B)]; [lia|].
    destruct (Z.ltb_spec (Z.of_nat (length (chars s)) + 1) (room s)); [|lia]. cbn [bind].
    eexists _, _. split; [reflexivity|]. split; [|apply upd_framed, L].
    eexists. split; [unfold upd; rewrite nth_set by exact L; rewrite Nat.eqb_refl; reflexivity|].
    cbn [chars room]. split; [reflexivity|]. right. unfold slen. cbn [chars]. lia.
Qed.

Lemma write_ok : forall h st t s n u, collected h st t -> part s n = Some u ->
  (forall k, n = Some k -> - 2 ^ 31 <= k < 2 ^ 31) ->
  exists h' st', write_string h st s n = Ok (Z.of_nat (length u), h', st') /\
    collected h' st' (t ++ u) /\ framed h st h' st'.
Proof.
  intros h st t s n u C P B. unfold write_string. destruct n as [n|]; cbn [part] in P.
  - specialize (B n eq_refl).
    assert (T : to_int n = n).
    { unfold to_int. rewrite Z.mod_small; lia. }
    rewrite T. destruct ((0 <=? n) && (n <=? Z.of_nat (length s))) eqn:G; [|discriminate].
    injection P as P.
    destruct ((n <? 0) || (Z.of_nat (length s) <? n)) eqn:G2; [lia|].
    destruct (puts_ok h st t u C) as (h' & st' & E & C' & F). rewrite P, E. cbn [bind].
    exists h', st'. split; [|auto]. subst u. rewrite firstn_length.
    replace (Z.of_nat (Nat.min (Z.to_nat n) (length s))) with n by lia. reflexivity.
  - injection P as <-. destruct (puts_ok h st t s C) as (h' & st' & E & C' & F).
    rewrite E. cbn [bind]. exists h', st'. auto.
Qed.

Lemma get_ok : forall h st t, collected h st t ->
  exists a h' st', get_string h st = Ok (a, h', st') /\ contents h' a = Some t /\ (a < length h')%nat /\
    (a = sbuf st \/ (length h <= a)%nat) /\ a <> sbuf st' /\ (length h <= sbuf st')%nat /\
    collected h' st' [] /\ (length h <= length h')%nat /\
    (forall b, (b < length h)%nat -> nth_error h' b = nth_error h b).
Proof.
  intros h st t (s & E & T & I). unfold get_string. rewrite E. assert (L := nth_lt _ _ _ _ E).
  destruct (slen s =? actual st) eqn:G; unfold dupn.
  - eexists _, _, _. split; [reflexivity|]. cbn [sbuf].
    split; [unfold contents; rewrite nth_error_app1 by exact L; rewrite E; cbn [option_map]; congruence|].
    split; [rewrite app_length; lia|]. split; [auto|]. split; [lia|]. split; [lia|].
    split; [eexists; split; [apply nth_last|]; cbn [chars sbuf actual]; auto|].
    split; [rewrite app_length; lia|]. intros b B. apply nth_error_app1. exact B.
  - set (n := mkstr (chars s) _). eexists _, _, _. split; [reflexivity|]. cbn [sbuf].
    assert (Ln : length (h ++ [n]) = S (length h)) by (rewrite app_length; cbn [length]; lia).
    split; [unfold contents; rewrite nth_error_app1 by lia; rewrite nth_last; subst n; cbn [option_map chars]; congruence|].
    split; [rewrite app_length; lia|]. split; [auto|]. split; [lia|]. split; [lia|].
    split; [eexists; split; [apply nth_last|]; cbn [chars sbuf actual]; auto|].
    split; [rewrite app_length; lia|]. intros b B. rewrite nth_error_app1 by lia. apply nth_error_app1. exact B.
Qed.

Lemma make_ok : forall h, let '(h', st) := make_ostream h in
  collected h' st [] /\ framed h st h' st /\ sbuf st = length h /\ length h' = S (length h).
Proof.
  intros h. unfold make_ostream, dupn.
  split; [eexists; split; [apply nth_last|]; cbn [chars sbuf actual]; auto|].
  split; [|split; [reflexivity|rewrite app_length; cbn [length]; lia]].
  split; [rewrite app_length; lia|]. split; [|auto]. intros a L _. apply nth_error_app1. exact L.
Qed.

(** All the streams: each has collected its text in a string of its own *)
Definition inv (h : heap) (l : list ostream) (p : list (list Z)) : Prop :=
  length l = length p /\
  (forall k st t, nth_error l k = Some st -> nth_error p k = Some t -> collected h st t) /\
  (forall i j s t, nth_error l i = Some s -> nth_error l j = Some t -> sbuf s = sbuf t -> i = j).

Lemma inv_lt : forall h l p k st, inv h l p -> nth_error l k = Some st -> (sbuf st < length h)%nat.
Proof.
  intros h l p k st (A & B & _) E.
  destruct (nth_error p k) as [t|] eqn:P; [|apply nth_error_None in P; apply nth_lt in E; lia].
  destruct (B k st t E P) as (s & N & _). exact (nth_lt _ _ _ _ N).
Qed.

Lemma collected_keep : forall h h' st t, nth_error h' (sbuf st) = nth_error h (sbuf st) ->
  collected h st t -> collected h' st t.
Proof. intros h h' st t E (s & N & R). exists s. rewrite E. auto. Qed.

Lemma inv_set : forall h l p k st st' t h', inv h l p -> nth_error l k = Some st ->
  collected h' st' t -> framed h st h' st' -> inv h' (set_stream l k st') (set_nth p k t).
Proof.
  intros h l p k st st' t h' I E C (F1 & F2 & F3). assert (I' := I). destruct I as (A & B & U).
  assert (Lk := nth_lt _ _ _ _ E). assert (Lp : (k < length p)%nat) by lia.
  unfold set_stream, set_nth. split; [rewrite !length_set by assumption; exact A|]. split.
  - intros j s u Ej Ep. rewrite nth_set in Ej, Ep by assumption.
    destruct (Nat.eqb_spec j k) as [->|N]; [congruence|].
    apply collected_keep with h; [|eapply B; eassumption].
    apply F2; [exact (inv_lt _ _ _ _ _ I' Ej)|]. intro X. apply N. eapply U; eassumption.
  - intros i j s u Ei Ej X. rewrite nth_set in Ei, Ej by assumption.
    destruct (Nat.eqb_spec i k) as [->|Ni]; destruct (Nat.eqb_spec j k) as [->|Nj]; auto.
    + injection Ei as <-. exfalso. assert (Lj := inv_lt _ _ _ _ _ I' Ej).
      destruct F3 as [F3|F3]; [apply Nj; apply (U j k u st Ej E); congruence|lia].
    + injection Ej as <-. exfalso. assert (Lj := inv_lt _ _ _ _ _ I' Ei).
      destruct F3 as [F3|F3]; [apply Ni; apply (U i k s st Ei E); congruence|lia].
    + eapply U; eassumption.
Qed.

Definition unused (l : list ostream) (a : nat) : Prop := forall i s, nth_error l i = Some s -> sbuf s <> a.

(** What the program as a whole does *)
Definition good_run (h : heap) (l : list ostream) (ts : list (list Z)) (r : res (list nat * heap)) : Prop :=
  exists addrs h', r = Ok (addrs, h') /\ map (contents h') addrs = map Some ts /\ NoDup addrs /\
    (length h <= length h')%nat /\
    (forall a, (a < length h)%nat -> unused l a -> nth_error h' a = nth_error h a) /\
    (forall a, In a addrs -> (length h <= a)%nat \/ ~ unused l a).

Lemma unused_set : forall l k st st' h h' a, nth_error l k = Some st -> framed h st h' st' ->
  (a < length h)%nat -> unused l a -> unused (set_stream l k st') a.
Proof.
  intros l k st st' h h' a E (_ & _ & F3) L U i s Ei. unfold set_stream in Ei.
  rewrite nth_set in Ei by exact (nth_lt _ _ _ _ E).
  destruct (Nat.eqb_spec i k); [injection Ei as <-|exact (U i s Ei)].
  destruct F3 as [->|]; [exact (U k st E)|lia].
Qed.

Lemma good_step : forall h l ts k st h' st' r, nth_error l k = Some st -> framed h st h' st' ->
  good_run h' (set_stream l k st') ts r -> good_run h l ts r.
Proof.
  intros h l ts k st h' st' r E F (addrs & h2 & R & M & N & Le & K & In_). exists addrs, h2.
  destruct F as (F1 & F2 & F3). assert (F : framed h st h' st') by (split; auto).
  split; [exact R|]. split; [exact M|]. split; [exact N|]. split; [lia|]. split.
  - intros a L U. rewrite K; [apply F2; [exact L|]|lia|eapply unused_set; eassumption].
    intro X. exact (U k st E (eq_sym X)).
  - intros a Ia. destruct (Nat.le_gt_cases (length h) a) as [|L]; [auto|]. right. intro U.
    destruct (In_ a Ia) as [|X]; [lia|]. apply X. eapply unused_set; eassumption.
Qed.

Theorem run_ok : forall ops h l p ts, inv h l p -> int_lengths ops -> texts p ops = Some ts ->
  good_run h l ts (run h l ops).
Proof.
  induction ops as [|o ops IH]; intros h l p ts I B T.
  - injection T as <-. exists [], h. cbn. split; [reflexivity|]. split; [reflexivity|].
    split; [constructor|]. split; [lia|]. split; [auto|]. intros a [].
  - assert (B' : int_lengths ops) by (intros k s n X; apply (B k s n); right; exact X).
    assert (I' := I). destruct I' as (A & Co & U).
    assert (P : forall k t, nth_error p k = Some t -> exists st, nth_error l k = Some st /\ collected h st t).
    { intros k t Ep. destruct (nth_error l k) as [st|] eqn:El; [eauto|].
      apply nth_error_None in El. apply nth_lt in Ep. lia. }
    destruct o as [|k c|k s n|k]; cbn [run texts] in *.
    + assert (M := make_ok h). destruct (make_ostream h) as (h1 & st). destruct M as (C & F & Sb & Ln).
      assert (I1 : inv h1 (l ++ [st]) (p ++ [[]])).
      { split; [rewrite !app_length; cbn [length]; lia|]. split.
        - intros j s u Ej Ep. destruct (Nat.lt_ge_cases j (length l)) as [Lj|Lj].
          + rewrite nth_error_app1 in Ej, Ep by lia. apply collected_keep with h; [|eapply Co; eassumption].
            assert (X := inv_lt _ _ _ _ _ I Ej). apply F; lia.
          + rewrite nth_error_app2 in Ej, Ep by lia.
            destruct (j - length l)%nat as [|d] eqn:D.
            * replace (j - length p)%nat with O in Ep by lia. cbn in Ej, Ep. congruence.
            * destruct d; discriminate.
        - intros i j s u Ei Ej X.
          assert (Q : forall i s, nth_error (l ++ [st]) i = Some s ->
                    ((i < length l)%nat /\ nth_error l i = Some s) \/ (i = length l /\ s = st)).
          { intros i0 s0 E0. destruct (Nat.lt_ge_cases i0 (length l)) as [Lj|Lj].
            - rewrite nth_error_app1 in E0 by lia. auto.
            - rewrite nth_error_app2 in E0 by lia. destruct (i0 - length l)%nat as [|d] eqn:D.
              + cbn in E0. right. split; [lia|congruence].
              + destruct d; discriminate. }
          destruct (Q i s Ei) as [(Li & Ei')|(-> & ->)]; destruct (Q j u Ej) as [(Lj & Ej')|(-> & ->)]; auto.
          + eapply U; eassumption.
          + assert (Y := inv_lt _ _ _ _ _ I Ei'). lia.
          + assert (Y := inv_lt _ _ _ _ _ I Ej'). lia. }
      destruct (IH h1 (l ++ [st]) (p ++ [[]]) ts I1 B' T) as (addrs & h2 & R & M & N & Le & K & In_).
      assert (UU : forall a, (a < length h)%nat -> unused l a -> unused (l ++ [st]) a).
      { intros a La Ua i s Ei. destruct (Nat.lt_ge_cases i (length l)) as [Lj|Lj].
        - rewrite nth_error_app1 in Ei by lia. exact (Ua i s Ei).
        - rewrite nth_error_app2 in Ei by lia. destruct (i - length l)%nat as [|d] eqn:D.
          + cbn in Ei. injection Ei as <-. lia.
          + destruct d; discriminate. }
      exists addrs, h2. split; [exact R|]. split; [exact M|]. split; [exact N|]. split; [lia|]. split.
      * intros a La Ua. rewrite K; [apply F; lia|lia|apply UU; assumption].
      * intros a Ia. destruct (Nat.le_gt_cases (length h) a) as [|L]; [auto|]. right. intro Ua.
        destruct (In_ a Ia) as [|X]; [lia|]. apply X, UU; assumption.
    + destruct (nth_error p k) as [t|] eqn:Ep; [|discriminate]. destruct (P k t Ep) as (st & El & C).
      unfold with_stream. rewrite El. destruct (putc_ok h st t c C) as (h1 & st1 & E & C1 & F).
      rewrite E. cbn [bind]. eapply good_step; [exact El|exact F|].
      eapply IH; [eapply inv_set; eassumption|exact B'|exact T].
    + destruct (nth_error p k) as [t|] eqn:Ep; [|discriminate]. destruct (P k t Ep) as (st & El & C).
      destruct (part s n) as [u|] eqn:Pa; [|discriminate].
      unfold with_stream. rewrite El.
      destruct (write_ok h st t s n u C Pa) as (h1 & st1 & E & C1 & F).
      { intros m ->. apply (B k s m). left. reflexivity. }
      rewrite E. cbn [bind]. eapply good_step; [exact El|exact F|].
      eapply IH; [eapply inv_set; eassumption|exact B'|exact T].
    + destruct (nth_error p k) as [t|] eqn:Ep; [|discriminate]. destruct (P k t Ep) as (st & El & C).
      destruct (texts (set_nth p k []) ops) as [ts'|] eqn:T'; [|discriminate]. injection T as <-.
      unfold with_stream. rewrite El.
      destruct (get_ok h st t C) as (a & h1 & st1 & E & Ca & La & Wa & Na & Fs & C1 & L1 & K1).
      rewrite E. cbn [bind].
      assert (F : framed h st h1 st1) by (split; [exact L1|split; [auto|right; exact Fs]]).
      destruct (IH h1 _ _ ts' (inv_set _ _ _ _ _ _ _ _ I El C1 F) B' T') as (addrs & h2 & R & M & N & Le & K & In_).
      rewrite R. cbn [bind].
      assert (Ua : unused (set_stream l k st1) a).
      { intros i s Ei. unfold set_stream in Ei. rewrite nth_set in Ei by exact (nth_lt _ _ _ _ El).
        destruct (Nat.eqb_spec i k) as [->|Ni]; [injection Ei as <-; auto|].
        assert (Y := inv_lt _ _ _ _ _ I Ei).
        destruct Wa as [->|]; [|lia]. intro X. apply Ni. eapply U; eassumption. }
      exists (a :: addrs), h2. split; [reflexivity|]. split.
      { cbn [map]. f_equal; [|exact M]. unfold contents in *. rewrite K; assumption. }
      split. { constructor; [|exact N]. intro Ia. destruct (In_ a Ia) as [|X]; [lia|]. exact (X Ua). }
      split; [lia|]. split.
      * intros b Lb Ub. rewrite K; [apply K1; exact Lb|lia|eapply unused_set; eassumption].
      * intros b [<-|Ib].
        -- destruct Wa as [->|]; [|auto]. right. intro X. exact (X k st El eq_refl).
        -- destruct (Nat.le_gt_cases (length h) b) as [|Lb]; [auto|]. right. intro Ub.
           destruct (In_ b Ib) as [|X]; [lia|]. apply X. eapply unused_set; eassumption.
Qed.

(** * Input *)
Lemma skipn_cons : forall (l : list Z) n, (n < length l)%nat -> skipn n l = nth n l 0 :: skipn (S n) l.
Proof.
  induction l as [|x l IH]; intros n H; cbn [length] in H; [lia|].
  destruct n as [|n]; [reflexivity|]. cbn [skipn nth]. rewrite IH by lia. reflexivity.
Qed.

Lemma getc_some : forall st c r, ready st -> remaining st = c :: r ->
  exists st', getc st = (Some c, st') /\ after st 1 st' /\ ready st' /\ remaining st' = r.
Proof.
  intros [i s] c r (A & B) R. unfold remaining, ready, getc, after in *. cbn [ipos istr] in *.
  assert (L : (Z.to_nat i < length s)%nat).
  { destruct (Nat.lt_ge_cases (Z.to_nat i) (length s)) as [|L]; [assumption|].
    rewrite skipn_all2 in R by exact L. discriminate. }
  destruct ((0 <=? i) && (i <? Z.of_nat (length s))) eqn:G; [|lia].
  rewrite skipn_cons in R by exact L. injection R as R1 R2. rewrite R1.
  eexists. split; [reflexivity|]. cbn [ipos istr]. split; [split; [reflexivity|lia]|].
  split; [lia|]. replace (Z.to_nat (i + 1)) with (S (Z.to_nat i)) by lia. exact R2.
Qed.
Lemma getc_none : forall st, ready st -> remaining st = [] -> getc st = (None, st).
Proof.
  intros [i s] (A & B) R. unfold remaining, ready, getc in *. cbn [ipos istr] in *.
  assert (L : length (skipn (Z.to_nat i) s) = 0%nat) by (rewrite R; reflexivity).
  rewrite skipn_length in L.
  destruct ((0 <=? i) && (i <? Z.of_nat (length s))) eqn:G; [lia|reflexivity].
Qed.
Lemma after_remaining : forall st n st', ready st -> after st n st' -> remaining st' = skipn n (remaining st).
Proof.
  intros st n st' (A & _) (E & P). unfold remaining. rewrite E, P.
  replace (Z.to_nat (ipos st + Z.of_nat n)) with (n + Z.to_nat (ipos st))%nat by lia.
  generalize (Z.to_nat (ipos st)). intro k. generalize (istr st).
  induction k as [|k IH]; intros l; [rewrite Nat.add_0_r; reflexivity|].
  destruct l as [|x l]; [rewrite !skipn_nil; reflexivity|].
  rewrite Nat.add_succ_r. cbn [skipn]. apply IH.
Qed.
Lemma after_eq : forall st n a b, after st n a -> after st n b -> a = b.
Proof. intros st n [i s] [j t] (A & B) (C & D). cbn in *. congruence. Qed.
Lemma after_0 : forall st, after st 0 st.
Proof. intros. split; [reflexivity|lia]. Qed.
Lemma after_S : forall st a b n, after st 1 a -> after a n b -> after st (S n) b.
Proof. intros st a b n (A & B) (C & D). split; [congruence|lia]. Qed.

Lemma chars_ok : forall n st buf, ready st ->
  exists st', chars_loop n st buf = (buf ++ firstn n (remaining st), st') /\
    after st (length (firstn n (remaining st))) st'.
Proof.
  induction n as [|n IH]; intros st buf R; cbn [chars_loop firstn].
  - exists st. rewrite app_nil_r. split; [reflexivity|apply after_0].
  - destruct (remaining st) as [|c r] eqn:E.
    + rewrite (getc_none st R E). exists st. rewrite app_nil_r. split; [reflexivity|apply after_0].
    + destruct (getc_some st c r R E) as (st1 & G & A & R1 & E1). rewrite G.
      destruct (IH st1 (buf ++ [c]) R1) as (st2 & H & A2). rewrite H, E1 in *. exists st2.
      rewrite <- app_assoc. split; [reflexivity|]. cbn [length]. eapply after_S; eassumption.
Qed.

(** One pass of read-line: as fgets *)
Lemma string_chunk_ok : forall n st, ready st ->
  exists st', string_chunk n st = (fst (fgets n (remaining st)), st') /\
    after st (length (fst (fgets n (remaining st)))) st' /\ ready st' /\
    remaining st' = snd (fgets n (remaining st)).
Proof.
  induction n as [|n IH]; intros st R; cbn [string_chunk].
  - exists st. destruct (remaining st) eqn:E; cbn; repeat (split; [reflexivity || apply after_0 || exact R|]); auto.
  - destruct (remaining st) as [|c r] eqn:E.
    + rewrite (getc_none st R E). exists st. cbn. repeat (split; [reflexivity || apply after_0 || exact R|]); auto.
    + destruct (getc_some st c r R E) as (st1 & G & A & R1 & E1). rewrite G. cbn [fgets].
      destruct (c =? 10).
      * exists st1. cbn. auto.
      * destruct (IH st1 R1) as (st2 & H & A2 & R2 & E2). rewrite H, E1 in *.
        destruct (fgets n r) as (l & q). cbn [fst snd] in *.
        exists st2. split; [reflexivity|]. cbn [length]. split; [eapply after_S; eassumption|]. auto.
Qed.

(** fgets on a text with a known first line *)
Lemma fgets_ok : forall n x r, ~ In 10 x ->
  fgets n (x ++ 10 :: r) =
    if Nat.leb n (length x) then (firstn n x, skipn n x ++ 10 :: r) else (x ++ [10], r).
Proof.
  induction n as [|n IH]; intros x r N; [destruct x; reflexivity|].
  destruct x as [|c x]; [reflexivity|]. cbn [app fgets length Nat.leb firstn skipn].
  destruct (Z.eqb_spec c 10) as [->|]; [exfalso; apply N; left; reflexivity|].
  rewrite IH by (intro; apply N; right; assumption). destruct (Nat.leb n (length x)); reflexivity.
Qed.
Lemma fgets_end : forall n x, ~ In 10 x -> fgets n x = (firstn n x, skipn n x).
Proof.
  induction n as [|n IH]; intros x N; [destruct x; reflexivity|].
  destruct x as [|c x]; [reflexivity|]. cbn [fgets firstn skipn].
  destruct (Z.eqb_spec c 10) as [->|]; [exfalso; apply N; left; reflexivity|].
  rewrite IH by (intro; apply N; right; assumption). reflexivity.
Qed.

Lemma cstr_id : forall l, ~ In 0 l -> cstr l = l.
Proof.
  induction l as [|c l IH]; intros N; [reflexivity|]. cbn [cstr].
  destruct (Z.eqb_spec c 0) as [->|]; [exfalso; apply N; left; reflexivity|].
  rewrite IH; [reflexivity|]. intro; apply N; right; assumption.
Qed.

Lemma nth_in_last : forall (x : list Z) n, ~ In 10 x -> nth n x 0 =? 10 = false.
Proof.
  intros x n N. apply Z.eqb_neq. intro E. destruct (Nat.lt_ge_cases n (length x)) as [L|L].
  - apply N. rewrite <- E. apply nth_In. exact L.
  - rewrite nth_overflow in E by exact L. discriminate.
Qed.

Lemma firstn_notin : forall (x : list Z) n c, ~ In c x -> ~ In c (firstn n x) /\ ~ In c (skipn n x).
Proof.
  intros x n c N. rewrite <- (firstn_skipn n x) in N.
  split; intro; apply N; apply in_or_app; auto.
Qed.

(** A source that reads like fgets as long as [ok] holds of what is left *)
Section Lines.
  Context {T : Type}.
  Variable read : reader T.
  Variable left_ : T -> list Z.
  Variable ok : list Z -> Prop.  (* of a first line *)
  Hypothesis ok_skip : forall n l, ok l -> ok (skipn n l).
  Variable rel : T -> nat -> T -> Prop.
  Hypothesis rel_trans : forall a n b m c, rel a n b -> rel b m c -> rel a (n + m) c.
  Variable good : T -> Prop.
  Hypothesis reads : forall n st x r, good st -> first_line (left_ st) x r -> ok x ->
    exists st', read n st = (fst (fgets n (left_ st)), length (fst (fgets n (left_ st))), st') /\
      rel st (length (fst (fgets n (left_ st)))) st' /\ good st' /\ left_ st' = snd (fgets n (left_ st)).

  Lemma line_loop_ok : forall fuel bufsize full st x r,
    good st -> first_line (left_ st) x r -> ok x ->
    (length full + 2 <= bufsize)%nat -> (length x < fuel)%nat ->
    exists st', line_loop read fuel bufsize full st = Ok (or_nil (full ++ x), st') /\
      rel st (length x) st' /\ good st' /\ left_ st' = r.
  Proof.
    induction fuel as [|fuel IH]; intros bufsize full st x r G F K B L; [lia|].
    cbn [line_loop]. set (m := (bufsize - length full - 1)%nat). assert (Hm : (1 <= m)%nat) by lia.
    destruct (reads m st x r G F K) as (st1 & E & R1 & G1 & L1). rewrite E.
    assert (Step : forall y x', first_line (left_ st1) x' r -> x = y ++ x' -> length y = m ->
      skipn m x = x' -> rel st (length y) st1 ->
      exists st', line_loop read fuel (bufsize * 2) (full ++ y) st1 = Ok (or_nil (full ++ x), st') /\
        rel st (length x) st' /\ good st' /\ left_ st' = r).
    { intros y x' F' Ex Ly Sk Ry.
      assert (Kx : ok x') by (rewrite <- Sk; apply ok_skip; exact K).
      assert (Lx : length x = (m + length x')%nat) by (rewrite Ex, app_length; lia).
      destruct (IH (bufsize * 2)%nat (full ++ y) st1 x' r G1 F' Kx) as (st2 & H & R2 & G2 & L2).
      - rewrite app_length. lia.
      - lia.
      - exists st2. rewrite H, Ex, <- app_assoc. split; [reflexivity|]. split; [|auto].
        rewrite app_length. eapply rel_trans; eassumption. }
    inversion F as [y r' N E1 E2 E3|y N E1 E2 E3]; subst.
    - rewrite <- E1 in *. rewrite fgets_ok in * by exact N.
      destruct (Nat.leb m (length y)) eqn:Q; cbn [fst snd] in *.
      + apply Nat.leb_le in Q. assert (Lf : length (firstn m y) = m) by (rewrite firstn_length; lia).
        rewrite Lf in *. rewrite Nat.ltb_irrefl. cbn [orb].
        destruct (firstn_notin y m 10 N) as (N1 & N2). rewrite nth_in_last by exact N1.
        apply Step with (x' := skipn m y ++ [10]).
        * rewrite L1. constructor. exact N2.
        * rewrite app_assoc, firstn_skipn. reflexivity.
        * exact Lf.
        * rewrite skipn_app. replace (m - length y)%nat with O by lia. reflexivity.
        * rewrite Lf. exact R1.
      + replace (nth (length (y ++ [10]) - 1) (y ++ [10]) 0 =? 10) with true.
        2: { rewrite app_length. cbn [length]. rewrite app_nth2 by lia.
             replace (length y + 1 - 1 - length y)%nat with O by lia. reflexivity. }
        rewrite orb_true_r, firstn_all. exists st1.
        split; [destruct (full ++ y ++ [10]); reflexivity|]. auto.
    - rewrite fgets_end in * by exact N. cbn [fst snd] in *.
      destruct (Nat.lt_ge_cases (length (left_ st)) m) as [Q|Q].
      + rewrite (firstn_all2 (left_ st)) in * by lia. rewrite (skipn_all2 (left_ st)) in * by lia.
        destruct (Nat.ltb_spec (length (left_ st)) m); [|lia]. cbn [orb]. rewrite firstn_all.
        exists st1. split; [destruct (full ++ left_ st); reflexivity|]. auto.
      + assert (Lf : length (firstn m (left_ st)) = m) by (rewrite firstn_length; lia).
        rewrite Lf in *. rewrite Nat.ltb_irrefl. cbn [orb].
        destruct (firstn_notin (left_ st) m 10 N) as (N1 & N2). rewrite nth_in_last by exact N1.
        apply Step with (x' := skipn m (left_ st)).
        * rewrite L1. apply unended. exact N2.
        * rewrite firstn_skipn. reflexivity.
        * exact Lf.
        * reflexivity.
        * rewrite Lf. exact R1.
  Qed.
End Lines.

Lemma string_line : forall fuel st x r, ready st -> first_line (remaining st) x r -> (length x < fuel)%nat ->
  exists st', read_line string_reader fuel st = Ok (or_nil x, st') /\ after st (length x) st' /\ ready st' /\ remaining st' = r.
Proof.
  intros fuel st x r R F L. unfold read_line.
  refine (line_loop_ok string_reader remaining (fun _ => True) _ after _ ready _ fuel 500 [] st x r R F I _ L).
  - auto.
  - intros a n b m c (A & B) (C & D). split; [congruence|lia].
  - intros n s x' r' G _ _. destruct (string_chunk_ok n s G) as (s' & E & A).
    exists s'. unfold string_reader. rewrite E. auto.
  - cbn [length]. lia.
Qed.

Lemma in_fgets : forall n l x r c, first_line l x r -> In c (fst (fgets n l)) -> In c x.
Proof.
  intros n l x r c F H. destruct F as [y r' N|y N].
  - rewrite fgets_ok in H by exact N. destruct (Nat.leb n (length y)); cbn [fst] in H; [|exact H].
    apply in_or_app. left. rewrite <- (firstn_skipn n y). apply in_or_app. auto.
  - rewrite fgets_end in H by exact N. cbn [fst] in H. rewrite <- (firstn_skipn n y). apply in_or_app. auto.
Qed.

Lemma file_line : forall fuel l x r, first_line l x r -> ~ In 0 x -> (length x < fuel)%nat ->
  read_line file_reader fuel l = Ok (or_nil x, r).
Proof.
  intros fuel l x r F N L. unfold read_line.
  destruct (line_loop_ok file_reader (fun l => l) (fun x => ~ In 0 x)
    (fun n y H => proj2 (firstn_notin y n 0 H)) (fun _ _ _ => True) (fun _ _ _ _ _ _ _ => I)
    (fun _ => True)) with (fuel := fuel) (bufsize := 500%nat) (full := @nil Z) (st := l) (x := x) (r := r)
    as (l' & E & _ & _ & ->); auto.
  - intros n s x' r' _ F' K. unfold file_reader.
    assert (Q := in_fgets n s x' r' 0 F'). destruct (fgets n s) as (a & b). cbn [fst snd] in *.
    rewrite cstr_id by auto. exists b. auto.
  - cbn [length]. lia.
Qed.

(** copy-stream *)
Lemma copy_ok : forall fuel src h dst t buf len, ready src -> collected h dst t ->
  (length (remaining src) < fuel)%nat ->
  exists src' h' dst',
    copy_loop fuel src h dst buf len = Ok (len + Z.of_nat (length (remaining src)), src', h', dst') /\
    after src (length (remaining src)) src' /\ collected h' dst' (t ++ buf ++ remaining src) /\ framed h dst h' dst'.
Proof.
  induction fuel as [|fuel IH]; intros src h dst t buf len R C L; [lia|]. cbn [copy_loop].
  destruct (remaining src) as [|c r] eqn:E.
  - rewrite (getc_none src R E). cbn [length]. rewrite app_nil_r, Z.add_0_r.
    destruct buf as [|b buf].
    + exists src, h, dst. rewrite app_nil_r. split; [reflexivity|]. split; [apply after_0|]. split; [exact C|apply framed_refl].
    + destruct (puts_ok h dst t (b :: buf) C) as (h' & dst' & P & C' & F). rewrite P. cbn [bind].
      exists src, h', dst'. split; [reflexivity|]. split; [apply after_0|]. auto.
  - destruct (getc_some src c r R E) as (s1 & G & A & R1 & E1). rewrite G. cbn [length] in L.
    assert (X : exists buf1 h1 dst1 t1,
      (if Nat.eqb (length buf) BUFSIZ then let* (h, dst) := puts h dst buf in Ok ([], h, dst)
       else Ok (buf, h, dst)) = Ok (buf1, h1, dst1) /\ collected h1 dst1 t1 /\ t1 ++ buf1 = t ++ buf /\ framed h dst h1 dst1).
    { destruct (Nat.eqb (length buf) BUFSIZ).
      - destruct (puts_ok h dst t buf C) as (h' & dst' & P & C' & F). rewrite P. cbn [bind].
        exists [], h', dst', (t ++ buf). rewrite app_nil_r. auto.
      - exists buf, h, dst, t. split; [reflexivity|]. split; [exact C|]. split; [reflexivity|apply framed_refl]. }
    destruct X as (buf1 & h1 & dst1 & t1 & -> & C1 & T1 & F1). cbn [bind].
    destruct (IH s1 h1 dst1 t1 (buf1 ++ [c]) (len + 1) R1 C1 ltac:(rewrite E1; lia)) as (s2 & h2 & d2 & H & A2 & C2 & F2).
    rewrite E1 in *. exists s2, h2, d2. split.
    + rewrite H. cbn [length]. replace (len + 1 + Z.of_nat (length r)) with (len + Z.of_nat (S (length r))) by lia. reflexivity.
    + split; [eapply after_S; eassumption|]. split; [|eapply framed_trans; eassumption].
      replace (t ++ buf ++ c :: r) with (t1 ++ (buf1 ++ [c]) ++ r); [exact C2|].
      rewrite (app_assoc t buf), <- T1, <- !app_assoc. reflexivity.
Qed.
