From Coq Require Import ZArith List Bool Lia ZifyBool.
From Verif Require Import Sdbm_Model Sdbm_Spec Sdbm_Proofs Sdbm_DbProofs Sdbm_RunProofs Sdbm_CrashProofs.
Import ListNotations.
Open Scope Z_scope.

(** The theorems of Sdbm_Props.v. *)

Lemma reach : forall rs d l, Forall small rs ->
  dbrun (sdbm_prep zerodisk false) rs = Some (d, l) -> dlen (dsk d) <= 1 ->
  exists m, spec_run false empty rs l (rdonly d) m /\ Inv d m.
Proof. intros rs d l S E L. exact (dbrun_ok rs _ empty d l (Inv_zero false) S E L). Qed.

Lemma inv_fetch : forall d m k, Inv d m -> exists d1, sdbm_fetch d k = Some (d1, m k).
Proof.
  intros d m k I. destruct (fetch_ok d k m (i_w _ _ I) (i_c _ _ I) (i_nil _ _ I)) as (d1 & E & _). eauto.
Qed.

Lemma history : forall rs d l, Forall small rs ->
  dbrun (sdbm_prep zerodisk false) rs = Some (d, l) -> dlen (dsk d) <= 1 ->
  exists ro m, spec_run false empty rs l ro m /\
    forall k, exists d1, sdbm_fetch d k = Some (d1, m k).
Proof.
  intros rs d l S E L. destruct (reach rs d l S E L) as (m & R & I).
  exists (rdonly d), m. split; auto. intros k. now apply inv_fetch.
Qed.

Lemma defined : forall rs d l r, Forall small rs ->
  dbrun (sdbm_prep zerodisk false) rs = Some (d, l) -> dlen (dsk d) <= 1 -> small r ->
  exists d' a, dbstep d r = Some (d', a).
Proof.
  intros rs d l r S E L Sm. destruct (reach rs d l S E L) as (m & R & I).
  destruct (dbstep_ok d m r I Sm) as (d' & a & E' & _). eauto.
Qed.

Lemma full_walk : forall rs d l, Forall small rs ->
  dbrun (sdbm_prep zerodisk false) rs = Some (d, l) -> dlen (dsk d) <= 1 ->
  exists ks, NoDup ks /\
    (forall k, In k ks <-> exists d1 v, sdbm_fetch d k = Some (d1, Some v)) /\
    forall fuel, (length ks <= fuel)%nat -> exists d1, walk_keys fuel d = Some (d1, ks).
Proof.
  intros rs d l S E L. destruct (reach rs d l S E L) as (m & R & I).
  destruct (walk_ok_inv d m I) as (ks & A & B & C). exists ks. split; auto. split; auto.
  intros k. rewrite B. destruct (inv_fetch d m k I) as (d1 & F). rewrite F. split.
  - intros N. destruct (m k) as [v|]; [eauto|congruence].
  - intros (d2 & v & Q). injection Q as _ Q. congruence.
Qed.

Lemma single_write : forall rs d l r d' a, Forall small rs ->
  dbrun (sdbm_prep zerodisk false) rs = Some (d, l) -> small r -> (forall ro, r <> RReopen ro) ->
  dbstep d r = Some (d', a) -> dlen (dsk d') <= 1 -> (length (writes d d') <= 1)%nat ->
  forall n ro, exists m,
    (forall k, exists d1, sdbm_fetch (sdbm_prep (crash d d' n) ro) k = Some (d1, m k)) /\
    ((forall k, exists d1, sdbm_fetch d k = Some (d1, m k)) \/
     (forall k, exists d1, sdbm_fetch d' k = Some (d1, m k))).
Proof.
  intros rs d l r d' a S E Sm NR E' L Wr n ro.
  pose proof (dbstep_mono _ _ _ _ E') as Mono.
  destruct (reach rs d l S E ltac:(lia)) as (m & R & I).
  destruct (dbstep_ok d m r I Sm) as (d2 & a2 & E2 & H). rewrite E' in E2. injection E2 as <- <-.
  destruct (H L) as (m' & St & I').
  destruct (run_any d d' (dbstep_run d m r d' a I E' NR) Wr n) as [C|C]; rewrite C.
  - exists m. split; [|left]; intros k; apply inv_fetch; auto. apply Inv_prep; apply I.
  - exists m'. split; [|right]; intros k; apply inv_fetch; auto. apply Inv_prep; apply I'.
Qed.

Lemma damage_confined : forall rs d l k v b d' c, Forall small rs ->
  dbrun (sdbm_prep zerodisk false) rs = Some (d, l) ->
  sdbm_store d k v b = Some (d', c) -> dlen (dsk d') <= 1 ->
  exists ps, NoDup (map fst ps) /\ page_size ps <= 1024 /\
    (forall k1 v1, In (k1, v1) ps -> exists d1, sdbm_fetch d k1 = Some (d1, Some v1)) /\
    forall n ro k1 v1 d1, sdbm_fetch d k1 = Some (d1, Some v1) -> ~ In k1 (map fst ps) ->
    exists d2, sdbm_fetch (sdbm_prep (crash d d' n) ro) k1 = Some (d2, Some v1).
Proof.
  intros rs d l k v b d' c S E St L.
  assert (Mono : dlen (dsk d) <= dlen (dsk d')).
  { apply (dbstep_mono d (RStore k v b) d' (ACode c)). cbn [dbstep]. now rewrite St. }
  destruct (reach rs d l S E ltac:(lia)) as (m & R & I).
  destruct (store_crash d m k v b d' c I St L) as (ps & A & B & C & D).
  exists ps. split; [exact A|]. split; [exact B|]. split.
  - intros k1 v1 In1. rewrite <- (C k1 v1 In1). now apply inv_fetch.
  - intros n ro k1 v1 d1 F Nin. apply D; auto.
    destruct (inv_fetch d m k1 I) as (d2 & F2). rewrite F in F2. now injection F2.
Qed.

Lemma failed_store : forall rs d l k v b d' c, Forall small rs ->
  dbrun (sdbm_prep zerodisk false) rs = Some (d, l) -> small (RStore k v b) ->
  sdbm_store d k v b = Some (d', c) -> c <> 0 -> dlen (dsk d') <= 1 ->
  b = false \/ k = [] \/ rdonly d = true \/ 1008 < dsize k + dsize v ->
  forall k1 d1 o, sdbm_fetch d k1 = Some (d1, o) -> exists d2, sdbm_fetch d' k1 = Some (d2, o).
Proof.
  intros rs d l k v b d' c S E Sm St Nc L Why k1 d1 o F.
  assert (E' : dbstep d (RStore k v b) = Some (d', ACode c)) by (cbn [dbstep]; now rewrite St).
  pose proof (dbstep_mono _ _ _ _ E') as Mono.
  destruct (reach rs d l S E ltac:(lia)) as (m & R & I).
  destruct (dbstep_ok d m _ I Sm) as (d2 & a2 & E2 & H). rewrite E' in E2. injection E2 as <- <-.
  destruct (H L) as (m' & Sp & I').
  destruct (inv_fetch d m k1 I) as (d3 & F3). rewrite F in F3. injection F3 as <- ->.
  assert (Q : m' k1 = m k1).
  { destruct Why as [->|[->|[Ro|Big]]].
    - inversion Sp; subst; try reflexivity; try congruence.
      match goal with H : _ \/ m k = None |- _ => destruct H as [H|H]; [discriminate|] end.
      unfold ddel. destruct (bstr_eq k1 k) as [->|]; congruence.
    - unfold sdbm_store in St. change (bad []) with true in St. injection St as <- _.
      destruct (inv_fetch d m k1 I) as (x & F1). destruct (inv_fetch d m' k1 I') as (y & F2).
      rewrite F1 in F2. injection F2 as _ <-. reflexivity.
    - inversion Sp; subst; try reflexivity; congruence.
    - unfold sdbm_store in St. destruct (bad k); [|destruct (rdonly d); [|]].
      3:{ cbn zeta in St. destruct Sm as [S1 S2]. destruct (need_wrap k v S1 S2) as [Nw _]. cbv zeta in Nw.
          rewrite Nw in St. replace (1008 <? dsize k + dsize v) with true in St by lia.
          injection St as <- _.
          destruct (inv_fetch d m k1 I) as (x & F1). destruct (inv_fetch d m' k1 I') as (y & F2).
          rewrite F1 in F2. injection F2 as _ <-. reflexivity. }
      all: injection St as <- _;
           destruct (inv_fetch d m k1 I) as (x & F1); destruct (inv_fetch d m' k1 I') as (y & F2);
           rewrite F1 in F2; injection F2 as _ <-; reflexivity. }
  destruct (inv_fetch d' m' k1 I') as (d4 & F4). rewrite Q in F4. eauto.
Qed.

Lemma lisp_delete : forall rs d l k d' ok, Forall small rs ->
  dbrun (sdbm_prep zerodisk false) rs = Some (d, l) -> dlen (dsk d) <= 1 ->
  Fsdbm_delete d k = Some (d', ok) ->
  forall d1 o, Fsdbm_fetch d k = Some (d1, o) -> exists d2, Fsdbm_fetch d' k = Some (d2, o).
Proof.
  intros rs d l k d' ok S E L Fd d1 o F. unfold Fsdbm_fetch, Fsdbm_delete in *.
  destruct (reach rs d l S E L) as (m & R & I).
  destruct (delete_ok d m (k ++ [0]) I) as (d2 & c & E2 & _ & m' & Sp & I').
  rewrite E2 in Fd. injection Fd as <- _.
  destruct (inv_fetch d m k I) as (d3 & F3). rewrite F in F3. injection F3 as <- ->.
  destruct (inv_fetch d2 m' k I') as (d4 & F4). exists d4. rewrite F4. do 2 f_equal.
  inversion Sp; subst; auto. unfold ddel. destruct (bstr_eq k (k ++ [0])) as [Q|]; auto.
  exfalso. apply (f_equal (@length Z)) in Q. rewrite app_length in Q. cbn in Q. lia.
Qed.

(** * Computations *)

Definition ka : datum := [97; 97; 97; 97].
Definition kb : datum := [105; 121; 121; 105].
Definition kc : datum := [122; 107; 106; 121].
Definition deep : list req :=
  [RStore ka (xs 480) false; RStore kb (xs 480) false; RStore kc (xs 480) false;
   RStore kc (xs 480) false; RFetch ka].
Definition deep_ans : list ans := [ACode 0; ACode 0; ACode (-1); ACode (-1); AVal None].

Lemma deep_run : option_map snd (dbrun (sdbm_prep zerodisk false) deep) = Some deep_ans.
Proof. vm_compute. reflexivity. Qed.

Lemma spec_keep : forall ro m r a ro' m' k, spec_step ro m r a ro' m' ->
  (forall v b, r <> RStore k v b) -> r <> RDelete k -> m' k = m k.
Proof.
  intros ro m r a ro' m' k St N1 N2. inversion St; subst; auto; unfold dset, ddel;
    destruct (bstr_eq k k0) as [Q|]; subst; auto; exfalso;
    first [eapply N1; reflexivity | apply N2; reflexivity].
Qed.

Lemma big_directory : exists rs d l, Forall small rs /\
  dbrun (sdbm_prep zerodisk false) rs = Some (d, l) /\
  ~ exists ro m, spec_run false empty rs l ro m.
Proof.
  pose proof deep_run as E. destruct (dbrun (sdbm_prep zerodisk false) deep) as [[d l]|] eqn:R; [|discriminate].
  exists deep, d, l. split.
  { unfold deep, ka, kb, kc, xs. repeat constructor; rewrite ?repeat_length; cbn; lia. }
  split; [exact R|]. cbn in E. injection E as ->. intros (ro & m & Sp).
  unfold deep, deep_ans in Sp.
  inversion Sp as [|? ? ? ? ro1 m1 ? ? ? ? S1 T1]; subst; clear Sp.
  assert (M1 : m1 ka = Some (xs 480)).
  { inversion S1; subst. unfold dset. destruct (bstr_eq _ _) as [|N]; [reflexivity|now elim N]. }
  inversion T1 as [|? ? ? ? ro2 m2 ? ? ? ? S2 T2]; subst; clear T1.
  inversion T2 as [|? ? ? ? ro3 m3 ? ? ? ? S3 T3]; subst; clear T2.
  inversion T3 as [|? ? ? ? ro4 m4 ? ? ? ? S4 T4]; subst; clear T3.
  inversion T4 as [|? ? ? ? ro5 m5 ? ? ? ? S5 T5]; subst; clear T4.
  assert (M4 : m4 ka = Some (xs 480)).
  { rewrite (spec_keep _ _ _ _ _ _ ka S4), (spec_keep _ _ _ _ _ _ ka S3), (spec_keep _ _ _ _ _ _ ka S2); auto;
      unfold ka, kb, kc; try discriminate; intros v b Q; injection Q; discriminate. }
  assert (M5 : AVal None = AVal (m4 ka)).
  { inversion S5; subst; [congruence|]. match goal with H : _ \/ _ |- _ => destruct H; discriminate end. }
  rewrite M4 in M5. discriminate.
Qed.

Definition four : list req :=
  [RStore [97] (xs 300) false; RStore [98] (xs 300) false; RStore [99] (xs 300) false; RStore [100] (xs 300) false].

Definition peek (k : datum) (d : db) : option datum :=
  match sdbm_fetch d k with Some (_, o) => o | None => None end.
Lemma peek_some : forall k d v, peek k d = Some v -> exists d1 v1, sdbm_fetch d k = Some (d1, Some v1).
Proof.
  intros k d v E. unfold peek in E. destruct (sdbm_fetch d k) as [[d1 o]|]; [|discriminate]. subst. eauto.
Qed.
Lemma peek_v : forall k d v, peek k d = Some v -> exists d1, sdbm_fetch d k = Some (d1, Some v).
Proof.
  intros k d v E. unfold peek in E. destruct (sdbm_fetch d k) as [[d1 o]|]; [|discriminate]. subst. eauto.
Qed.
Definition gone (k : datum) (d : db) : bool :=
  match sdbm_fetch d k with Some (_, None) => true | _ => false end.
Lemma gone_none : forall k d, gone k d = true -> exists d1, sdbm_fetch d k = Some (d1, None).
Proof.
  intros k d E. unfold gone in E. destruct (sdbm_fetch d k) as [[d1 [v|]]|]; try discriminate. eauto.
Qed.

Definition is_key (k : datum) (a : ans) : bool :=
  match a with AVal (Some x) => eqbytes k x | _ => false end.
Lemma is_key_in : forall k l, existsb (is_key k) l = false -> ~ In (AVal (Some k)) l.
Proof.
  intros k l E I. assert (existsb (is_key k) l = true); [|congruence].
  apply existsb_exists. exists (AVal (Some k)). split; auto. cbn.
  clear. induction k as [|x k IH]; cbn; auto. now rewrite Z.eqb_refl.
Qed.

Lemma interrupted_walk :
  exists rs d l, dbrun (sdbm_prep zerodisk false) rs = Some (d, l) /\ dlen (dsk d) <= 1 /\
  exists q d' l', dbrun d (RFirst :: RFetch q :: repeat RNext 4) = Some (d', l') /\
    exists k d1 v, sdbm_fetch d k = Some (d1, Some v) /\ ~ In (AVal (Some k)) l'.
Proof.
  exists four.
  assert (C : match dbrun (sdbm_prep zerodisk false) four with
    | Some (d, _) => dlen (dsk d) = 1 /\ peek [100] d = Some (xs 300) /\
        match dbrun d (RFirst :: RFetch [97] :: repeat RNext 4) with
        | Some (_, l') => existsb (is_key [100]) l' = false
        | None => False end
    | None => False end) by (vm_compute; repeat split; reflexivity).
  destruct (dbrun (sdbm_prep zerodisk false) four) as [[d l]|]; [|tauto].
  destruct C as (C1 & C2 & C3). exists d, l. split; auto. split; [lia|]. exists [97].
  destruct (dbrun d (RFirst :: RFetch [97] :: repeat RNext 4)) as [[d' l']|]; [|tauto].
  exists d', l'. split; auto. exists [100]. destruct (peek_some _ _ _ C2) as (d1 & v & F).
  exists d1, v. split; auto. now apply is_key_in.
Qed.

Lemma after_end :
  exists rs d l, dbrun (sdbm_prep zerodisk false) rs = Some (d, l) /\ dlen (dsk d) <= 1 /\
  exists d' k, dbrun d [RFirst; RNext; RNext] = Some (d', [AVal (Some k); AVal None; AVal (Some k)]).
Proof.
  exists [RStore [97] [1] false].
  assert (C : match dbrun (sdbm_prep zerodisk false) [RStore [97] [1] false] with
    | Some (d, _) => dlen (dsk d) = 0 /\
        match dbrun d [RFirst; RNext; RNext] with
        | Some (_, l') => l' = [AVal (Some [97]); AVal None; AVal (Some [97])]
        | None => False end
    | None => False end) by (vm_compute; repeat split; reflexivity).
  destruct (dbrun (sdbm_prep zerodisk false) [RStore [97] [1] false]) as [[d l]|]; [|tauto].
  destruct C as (C1 & C2). exists d, l. split; auto. split; [lia|].
  destruct (dbrun d [RFirst; RNext; RNext]) as [[d' l']|]; [|tauto]. subst l'. eauto.
Qed.

Definition three : list req :=
  [RStore [97] (xs 300) false; RStore [98] (xs 300) false; RStore [99] (xs 300) false].

Lemma crash_loses : exists rs d l k v d',
  dbrun (sdbm_prep zerodisk false) rs = Some (d, l) /\
  sdbm_store d k v false = Some (d', 0) /\
  exists n k1 v1 d1 d2, k1 <> k /\
    sdbm_fetch d k1 = Some (d1, Some v1) /\
    sdbm_fetch (sdbm_prep (crash d d' n) false) k1 = Some (d2, None).
Proof.
  exists three.
  assert (C : match dbrun (sdbm_prep zerodisk false) three with
    | Some (d, _) => peek [97] d = Some (xs 300) /\
        match sdbm_store d [101] (xs 300) false with
        | Some (d', c) => c = 0 /\ gone [97] (sdbm_prep (crash d d' 1) false) = true
        | None => False end
    | None => False end) by (vm_compute; repeat split; reflexivity).
  destruct (dbrun (sdbm_prep zerodisk false) three) as [[d l]|]; [|tauto].
  destruct C as (C1 & C2). exists d, l, [101], (xs 300).
  destruct (sdbm_store d [101] (xs 300) false) as [[d' c]|]; [|tauto]. destruct C2 as [-> C2].
  exists d'. split; auto. split; auto. apply peek_v in C1. apply gone_none in C2.
  destruct C1 as [d1 C1]. destruct C2 as [d2 C2].
  exists 1%nat, [97], (xs 300), d1, d2. split; [discriminate|]. auto.
Qed.

Definition two : list req := [RStore [97] (xs 480) false; RStore [97; 98; 98] (xs 480) false].

Lemma failed_replace : exists rs d l k v d',
  Forall small rs /\ dbrun (sdbm_prep zerodisk false) rs = Some (d, l) /\
  sdbm_store d k v true = Some (d', -1) /\ dlen (dsk d') <= 1 /\
  exists old d1 d2, sdbm_fetch d k = Some (d1, Some old) /\ sdbm_fetch d' k = Some (d2, None).
Proof.
  exists two.
  assert (C : match dbrun (sdbm_prep zerodisk false) two with
    | Some (d, _) => peek [97] d = Some (xs 480) /\
        match sdbm_store d [97] (xs 600) true with
        | Some (d', c) => c = -1 /\ dlen (dsk d') = 1 /\ gone [97] d' = true
        | None => False end
    | None => False end) by (vm_compute; repeat split; reflexivity).
  destruct (dbrun (sdbm_prep zerodisk false) two) as [[d l]|]; [|tauto].
  destruct C as (C1 & C2). exists d, l, [97], (xs 600).
  destruct (sdbm_store d [97] (xs 600) true) as [[d' c]|]; [|tauto]. destruct C2 as (-> & C2 & C3).
  exists d'. split. { unfold two, xs. repeat constructor; rewrite ?repeat_length; cbn; lia. }
  split; auto. split; auto. split; [lia|]. apply peek_v in C1. apply gone_none in C3.
  destruct C1 as [d1 C1]. destruct C3 as [d2 C3]. exists (xs 480), d1, d2. auto.
Qed.

Lemma lisp_delete_other : exists rs d l d',
  dbrun (sdbm_prep zerodisk false) rs = Some (d, l) /\
  Fsdbm_delete d [97] = Some (d', true) /\
  (exists d1 v, Fsdbm_fetch d [97; 0] = Some (d1, Some v)) /\
  (exists d2, Fsdbm_fetch d' [97; 0] = Some (d2, None)) /\
  (exists d3 v, Fsdbm_fetch d' [97] = Some (d3, Some v)).
Proof.
  set (rs := [RStore [97] [1] false; RStore [97; 0] [2] false]). exists rs.
  assert (C : match dbrun (sdbm_prep zerodisk false) rs with
    | Some (d, _) => peek [97; 0] d = Some [2] /\
        match Fsdbm_delete d [97] with
        | Some (d', c) => c = true /\ gone [97; 0] d' = true /\ peek [97] d' = Some [1]
        | None => False end
    | None => False end) by (vm_compute; repeat split; reflexivity).
  destruct (dbrun (sdbm_prep zerodisk false) rs) as [[d l]|]; [|tauto].
  destruct C as (C1 & C2). exists d, l.
  destruct (Fsdbm_delete d [97]) as [[d' c]|]; [|tauto]. destruct C2 as (-> & C2 & C3).
  exists d'. unfold Fsdbm_fetch. split; auto. split; auto. split; [now apply peek_some in C1|].
  split; [now apply gone_none in C2|now apply peek_some in C3].
Qed.
