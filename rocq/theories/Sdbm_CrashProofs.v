From Coq Require Import ZArith List Bool Lia ZifyBool.
From Verif Require Import Sdbm_Model Sdbm_Spec Sdbm_Proofs Sdbm_DbProofs Sdbm_RunProofs.
Import ListNotations.
Open Scope Z_scope.

Local Opaque Z.mul Z.add Z.sub Z.pow Z.div Z.modulo.

(** * Disks that differ from dk0 only below one leaf *)

Record conf (dk0 dk : disk) (h : Z) (i : nat) : Prop := {
  cf_dlen : 0 <= dlen dk <= 1;
  cf_zero : dlen dk = 0 -> forall x, dblk dk 0 x = 0;
  cf_plen : plen dk0 <= plen dk;
  cf_pblk : forall x, 0 <= x -> x mod 2 ^ Z.of_nat i <> pgno h i -> pblk dk x = pblk dk0 x;
  cf_bits : forall n, 0 <= n -> (forall j, (i <= j)%nat -> n <> node h j) -> bits dk n = bits dk0 n
}.

Lemma conf_refl : forall dk m h i, winv dk m -> conf dk dk h i.
Proof. intros dk m h i W. constructor; auto; try apply W. lia. Qed.

Lemma conf_pag : forall dk0 dk h i b q, conf dk0 dk h i -> 0 <= b -> b mod 2 ^ Z.of_nat i = pgno h i ->
  conf dk0 (apply_wr dk (WPag b q)) h i.
Proof.
  intros dk0 dk h i b q C B0 B. destruct C as [A1 A2 A3 A4 A5]. constructor; cbn; auto; [lia|].
  intros x Hx N. destruct (Z.eqb_spec x b) as [->|]; [congruence|auto].
Qed.

Lemma setdbit_write : forall d n, exists w,
  trace (setdbit d n) = trace d ++ [w] /\ dsk (setdbit d n) = apply_wr (dsk d) w.
Proof.
  intros d n. unfold setdbit, load_dir.
  destruct (_ =? dirbno d); destruct (maxbno _ <=? n); eexists; split; reflexivity.
Qed.

Lemma replay_snoc : forall ws w dk, replay (ws ++ [w]) dk = apply_wr (replay ws dk) w.
Proof. intros. unfold replay. now rewrite fold_left_app. Qed.
Lemma replay_app : forall a b dk, replay (a ++ b) dk = replay b (replay a dk).
Proof. intros. unfold replay. now rewrite fold_left_app. Qed.

(* ws leads from d to d' and every prefix leaves a disk satisfying P *)
Definition run (P : disk -> Prop) (d d' : db) : Prop :=
  exists ws, trace d' = trace d ++ ws /\ dsk d' = replay ws (dsk d) /\
    forall t, P (replay (firstn t ws) (dsk d)).

Lemma run_same : forall (P : disk -> Prop) d d', P (dsk d) -> trace d' = trace d -> dsk d' = dsk d -> run P d d'.
Proof.
  intros P d d' H T D. exists []. rewrite app_nil_r. split; [auto|]. split; [auto|].
  intros t. now rewrite firstn_nil.
Qed.
Lemma run_one : forall (P : disk -> Prop) d d' w, P (dsk d) -> trace d' = trace d ++ [w] -> dsk d' = apply_wr (dsk d) w ->
  P (dsk d') -> run P d d'.
Proof.
  intros P d d' w H T D H'. exists [w]. split; [exact T|]. split; [exact D|].
  intros [|t]; cbn [firstn]; [exact H|]. rewrite firstn_nil.
  change (P (apply_wr (dsk d) w)). now rewrite <- D.
Qed.
Lemma run_trans : forall (P : disk -> Prop) d1 d2 d3, run P d1 d2 -> run P d2 d3 -> run P d1 d3.
Proof.
  intros P d1 d2 d3 (a & A1 & A2 & A3) (b & B1 & B2 & B3). exists (a ++ b).
  split; [now rewrite B1, A1, app_assoc|]. split; [now rewrite replay_app, <- A2|].
  intros t. rewrite firstn_app, replay_app. destruct (le_lt_dec (length a) t) as [L|L].
  - rewrite (firstn_all2 a) by lia. rewrite <- A2. apply B3.
  - replace (t - length a)%nat with 0%nat by lia. apply A3.
Qed.
Lemma run_last : forall (P : disk -> Prop) d d', run P d d' -> P (dsk d').
Proof. intros P d d' (ws & A & B & C). rewrite B, <- (firstn_all ws). apply C. Qed.
Lemma run_crash : forall (P : disk -> Prop) d d' n, run P d d' -> P (crash d d' n).
Proof.
  intros P d d' n (ws & A & B & C). unfold crash, writes. rewrite A.
  rewrite skipn_app, skipn_all, Nat.sub_diag. cbn [skipn app]. apply C.
Qed.

Lemma newp_mod : forall h i j, (i <= j)%nat ->
  (h mod 2 ^ Z.of_nat j + 2 ^ Z.of_nat j) mod 2 ^ Z.of_nat i = pgno h i.
Proof.
  intros h i j L. unfold pgno. replace (Z.of_nat j) with (Z.of_nat (j - i) + Z.of_nat i) at 2 by lia.
  rewrite Z.pow_add_r by lia. rewrite Z.mod_add by (pose proof (pow2_pos i); lia).
  apply mod_mod_le. lia.
Qed.

Definition inside (d : db) (h : Z) (i j : nat) : Prop :=
  dirok d /\ curbit d = node h j /\ hmask d = 2 ^ Z.of_nat j - 1 /\ (i <= j)%nat /\
  0 <= pagbno d /\ pagbno d mod 2 ^ Z.of_nat i = pgno h i.

Lemma setdbit_conf : forall dk0 d h i j, conf dk0 (dsk d) h i -> dirok d -> (i <= j)%nat ->
  dlen (dsk (setdbit d (node h j))) <= 1 ->
  run (fun dk => conf dk0 dk h i) d (setdbit d (node h j)) /\ dirok (setdbit d (node h j)) /\
  curbit (setdbit d (node h j)) = curbit d /\ hmask (setdbit d (node h j)) = hmask d /\
  pagbno (setdbit d (node h j)) = pagbno d.
Proof.
  intros dk0 d h i j C D L Dl. pose proof C as [C1 C2 C3 C4 C5].
  destruct (setdbit_ok d (node h j) D (node_nonneg h j) C1 Dl)
    as (S1 & S2 & S3 & S4 & S5 & S6 & S7 & S8 & S9 & S10 & _).
  destruct (setdbit_write d (node h j)) as (w & T1 & T2).
  split; [|auto]. eapply run_one; eauto.
  constructor.
  - lia.
  - lia.
  - lia.
  - intros x Hx N. rewrite S5. auto.
  - intros n Hn N. rewrite S6 by auto. rewrite C5 by auto.
    replace (n =? node h j) with false by (specialize (N j L); lia). apply orb_false_r.
Qed.

Lemma split_conf : forall dk0 d h i j, conf dk0 (dsk d) h i -> inside d h i j ->
  dlen (dsk (split_body d h)) <= 1 ->
  run (fun dk => conf dk0 dk h i) d (split_body d h) /\ dirok (split_body d h) /\
  curbit (split_body d h) = node h j /\ hmask (split_body d h) = 2 ^ Z.of_nat j - 1 /\
  0 <= pagbno (split_body d h) /\ pagbno (split_body d h) mod 2 ^ Z.of_nat i = pgno h i.
Proof.
  intros dk0 d h i j C (D & Cb & Hm & L & P0 & P1). unfold split_body. rewrite Hm.
  destruct (splpage _ _) as [pag new]. cbn zeta. cbn [set_pagbuf hmask pagbno pagbuf].
  rewrite Hm, land_mask. replace (2 ^ Z.of_nat j - 1 + 1) with (2 ^ Z.of_nat j) by lia. rewrite lor_new.
  pose proof (newp_mod h i j L) as NM. pose proof (pgno_range h j) as PR. unfold pgno in PR.
  set (newp := h mod 2 ^ Z.of_nat j + 2 ^ Z.of_nat j) in *.
  match goal with |- context[setdbit ?x _] => set (d1 := x) end.
  assert (H1 : run (fun dk => conf dk0 dk h i) d d1 /\ dirok d1 /\ curbit d1 = node h j /\
     hmask d1 = 2 ^ Z.of_nat j - 1 /\ 0 <= pagbno d1 /\ pagbno d1 mod 2 ^ Z.of_nat i = pgno h i).
  { unfold d1. destruct (negb _).
    - split; [|split; [|cbn; repeat split; auto; lia]].
      + eapply run_one; [exact C|reflexivity|reflexivity|]. cbn. now apply conf_pag.
      + exact D.
    - split; [|split; [|cbn; repeat split; auto; lia]].
      + eapply run_one; [exact C|reflexivity|reflexivity|]. cbn. apply conf_pag; auto. lia.
      + exact D. }
  clearbody d1. destruct H1 as (R1 & D1 & E1 & E2 & E3 & E4). rewrite E1. intros Dl.
  destruct (setdbit_conf dk0 d1 h i j (run_last _ _ _ R1) D1 L Dl) as (R2 & D2 & F1 & F2 & F3).
  rewrite F1, F2, F3. split; [eapply run_trans; eauto|auto].
Qed.

Lemma makroom_conf : forall n dk0 d h i j need, conf dk0 (dsk d) h i -> inside d h i j ->
  forall d' ok, makroom_loop n d h need = (d', ok) -> dlen (dsk d') <= 1 ->
  run (fun dk => conf dk0 dk h i) d d' /\ 0 <= pagbno d' /\ pagbno d' mod 2 ^ Z.of_nat i = pgno h i.
Proof.
  induction n as [|n IH]; intros dk0 d h i j need C In d' ok E L.
  - injection E as <- _. split; [now apply run_same|apply In].
  - rewrite makroom_S in E. cbn zeta in E.
    assert (Dl : dlen (dsk (split_body d h)) <= 1).
    { destruct (fitpair _ _); [injection E as <- _; exact L|].
      match type of E with makroom_loop n ?x h need = _ => pose proof (dlen_makroom n x h need) as Q end.
      rewrite E in Q. cbn in Q. lia. }
    destruct (split_conf dk0 d h i j C In Dl) as (R1 & D1 & E1 & E2 & E3 & E4).
    destruct (fitpair _ _).
    + injection E as <- _. auto.
    + set (d1 := split_body d h) in *. clearbody d1.
      match type of E with makroom_loop n ?x h need = _ => set (d2 := x) in * end.
      assert (R2 : run (fun dk => conf dk0 dk h i) d1 d2).
      { eapply run_one; [exact (run_last _ _ _ R1)|reflexivity|reflexivity|].
        cbn. apply conf_pag; auto. exact (run_last _ _ _ R1). }
      assert (In2 : inside d2 h i (S j)).
      { destruct In as (_ & _ & _ & L' & _). split; [exact D1|].
        unfold d2; cbn. rewrite E1, E2. replace (2 ^ Z.of_nat j - 1 + 1) with (2 ^ Z.of_nat j) by lia.
        rewrite lor_mask. rewrite land_pow2 by lia. rewrite negb_involutive.
        split; [reflexivity|]. split; [reflexivity|]. split; [lia|auto]. }
      destruct (IH dk0 d2 h i (S j) need (run_last _ _ _ R2) In2 d' ok E L) as (R3 & A & B).
      split; [|auto]. eapply run_trans; [exact R1|]. eapply run_trans; eauto.
Qed.

Lemma room_conf : forall n dk0 d h i j w d3 ok,
  (if fitpair (pagbuf d) w then (d, true) else makroom_loop n d h w) = (d3, ok) ->
  conf dk0 (dsk d) h i -> inside d h i j -> dlen (dsk d3) <= 1 ->
  run (fun dk => conf dk0 dk h i) d d3 /\ 0 <= pagbno d3 /\ pagbno d3 mod 2 ^ Z.of_nat i = pgno h i.
Proof.
  intros n dk0 d h i j w d3 ok E C In L. destruct (fitpair _ _).
  - injection E as <- _. split; [now apply run_same|apply In].
  - eapply makroom_conf; eauto.
Qed.

(** * What a fetch sees after a crash *)

Lemma conf_fetch : forall dk0 dk m h i ro k v, winv dk0 m -> conf dk0 dk h i -> leaf (bits dk0) h i ->
  m [] = None -> m k = Some v -> pgno (sdbm_hash k) i <> pgno h i ->
  exists d', sdbm_fetch (sdbm_prep dk ro) k = Some (d', Some v).
Proof.
  intros dk0 dk m h i ro k v W C Lf Nil Mk Ne.
  set (h' := sdbm_hash k) in *.
  assert (Lk : exists i', leaf (bits dk0) h' i').
  { destruct (getpage_ok (sdbm_prep dk0 false) h' m W (prep_cinv _ _ _ W)) as (d' & n & _ & L & _). eauto. }
  destruct Lk as [i' Lk].
  assert (Lt : forall n, 0 <= n -> n = n) by auto. clear Lt.
  assert (Path : forall j, bits dk (node h' j) = bits dk0 (node h' j)).
  { intros j. apply (cf_bits _ _ _ _ C); [apply node_nonneg|]. intros j' Hj E.
    assert (j = j') by (eapply node_depth; eauto). subst j'. apply node_inj in E. apply Ne.
    unfold pgno. rewrite <- (mod_mod_le h' j i), <- (mod_mod_le h j i) by auto. now rewrite E. }
  assert (Lk' : leaf (bits dk) h' i').
  { destruct Lk as [A B]. split; [intros j Hj|]; rewrite Path; auto. }
  pose proof (pgno_range h' i') as PR.
  assert (Pg : pgno h' i' mod 2 ^ Z.of_nat i <> pgno h i).
  { destruct (le_lt_dec i i') as [L|L].
    - unfold pgno at 1. now rewrite mod_mod_le.
    - intros E. assert (2 ^ Z.of_nat i' <= 2 ^ Z.of_nat i) by (apply Z.pow_le_mono_r; lia).
      rewrite Z.mod_small in E by lia. assert (i = i'); [|lia].
      eapply leaf_fun; [exact Lf|]. apply (leaf_same _ h' h i' Lk).
      fold (pgno h' i'). rewrite <- (mod_mod_le h i i') by lia. fold (pgno h i). rewrite <- E.
      unfold pgno. rewrite Z.mod_mod; [reflexivity|]. pose proof (pow2_pos i'). lia. }
  pose proof (w_map _ _ W k i' Lk) as M. fold h' in M. rewrite Mk in M.
  assert (Pl : pgno h' i' < plen dk0).
  { unfold cont in M. destruct (pgno h' i' <? plen dk0) eqn:Q; [lia|].
    rewrite (getpair_rep _ _ _ rep_zero) in M. discriminate. }
  assert (Same : cont dk (pgno h' i') = cont dk0 (pgno h' i')).
  { pose proof (cf_plen _ _ _ _ C). unfold cont. replace (pgno h' i' <? plen dk) with true by lia.
    replace (pgno h' i' <? plen dk0) with true by lia. apply (cf_pblk _ _ _ _ C); auto. lia. }
  assert (Nk : bad k = false).
  { rewrite bad_nil. destruct k; [congruence|reflexivity]. }
  unfold sdbm_fetch. rewrite Nk. fold h'. unfold getpage.
  destruct (walk_ok 32 (sdbm_prep dk ro) h' 0 (cf_dlen _ _ _ _ C) (cf_zero _ _ _ _ C)
    (prep_cinv0 dk ro (cf_dlen _ _ _ _ C) ltac:(pose proof (cf_plen _ _ _ _ C); lia) (cf_zero _ _ _ _ C))
    ltac:(lia) ltac:(lia)) as (b & buf & i2 & E & Lf2 & _ & _); [intros; lia|].
  cbn [node] in E. rewrite E.
  assert (i2 = i') by (eapply leaf_fun; [exact Lf2|exact Lk']). subst i2.
  cbn zeta. cbn [set_cur hmask]. rewrite mask_eq, land_mask. fold (pgno h' i').
  cbn [set_cur set_dir sdbm_prep pagbno]. replace (pgno h' i' =? -1) with false by lia.
  unfold read_pag. cbn [set_ppos ppos dsk]. cbn [set_cur set_dir sdbm_prep dsk].
  pose proof (cf_plen _ _ _ _ C). replace (pgno h' i' <? plen dk) with true by lia.
  cbn [set_pagbuf set_ppos pagbuf].
  destruct (w_rep _ _ W (pgno h' i') ltac:(lia)) as (ps & R & _).
  rewrite (cf_pblk _ _ _ _ C) by (auto; lia). rewrite (chkpage_rep _ _ R).
  unfold cont in M. replace (pgno h' i' <? plen dk0) with true in M by lia.
  eexists. rewrite <- M. rewrite <- (cf_pblk _ _ _ _ C) by (auto; lia). reflexivity.
Qed.

Lemma rep_size : forall p ps, rep p ps -> page_size ps <= 1024.
Proof. intros p ps R. destruct R as (_ & _ & R). rewrite page_size_eq. lia. Qed.

Lemma store_crash : forall d m k v b d' c, Inv d m -> sdbm_store d k v b = Some (d', c) ->
  dlen (dsk d') <= 1 ->
  exists ps, NoDup (map fst ps) /\ page_size ps <= 1024 /\
    (forall k1 v1, In (k1, v1) ps -> m k1 = Some v1) /\
    forall n ro k1 v1, m k1 = Some v1 -> ~ In k1 (map fst ps) ->
    exists d1, sdbm_fetch (sdbm_prep (crash d d' n) ro) k1 = Some (d1, Some v1).
Proof.
  intros d m k v b d' c I E L.
  pose proof (i_w _ _ I) as W.
  destruct (getpage_ok d (sdbm_hash k) m W (i_c _ _ I))
    as (d1 & i & G & Lf & E1 & E2 & E3 & E4 & E5 & E6 & E7 & C1).
  assert (Fin : run (fun dk => conf (dsk d) dk (sdbm_hash k) i) d d').
  { unfold sdbm_store in E.
    destruct (bad k); [injection E as <- _; apply run_same; auto; now apply conf_refl with m|].
    destruct (rdonly d); [injection E as <- _; apply run_same; auto; now apply conf_refl with m|].
    cbn zeta in E.
    destruct (_ || _)%bool; [injection E as <- _; apply run_same; auto; now apply conf_refl with m|].
    rewrite G in E.
    destruct (negb b && duppair (pagbuf d1) k);
      [injection E as <- _; apply run_same; auto; now apply conf_refl with m|].
    set (d2 := if b then _ else _) in E.
    assert (D2 : dsk d2 = dsk d /\ trace d2 = trace d /\ curbit d2 = curbit d1 /\ hmask d2 = hmask d1 /\
                 pagbno d2 = pagbno d1 /\ dirok d2).
    { assert (Dk : dirok d1) by (split; [apply C1|apply (c_dir _ C1)]).
      unfold d2. destruct b; [destruct (delpair _ _)|]; cbn; repeat split; auto; apply Dk. }
    clearbody d2. destruct D2 as (A1 & A2 & A3 & A4 & A5 & A6).
    destruct (if fitpair (pagbuf d2) (wrap 32 (dsize k + dsize v)) then (d2, true)
              else makroom d2 (sdbm_hash k) (wrap 32 (dsize k + dsize v))) as [d3 ok] eqn:F.
    apply room_eq in F.
    assert (R2 : run (fun dk => conf (dsk d) dk (sdbm_hash k) i) d d2).
    { apply run_same; auto. now apply conf_refl with m. }
    assert (In2 : inside d2 (sdbm_hash k) i i).
    { split; [exact A6|]. rewrite A3, A4, A5, E4, E5, E6. split; [reflexivity|]. split; [reflexivity|].
      split; [lia|]. pose proof (pgno_range (sdbm_hash k) i). split; [lia|].
      unfold pgno. apply Z.mod_mod. pose proof (pow2_pos i). lia. }
    assert (L3 : dlen (dsk d3) <= 1) by (destruct ok; injection E as <- _; exact L).
    destruct (room_conf _ _ _ _ _ _ _ _ _ F (run_last _ _ _ R2) In2 L3) as (R3 & P0 & P1).
    assert (R : run (fun dk => conf (dsk d) dk (sdbm_hash k) i) d d3) by (eapply run_trans; eauto).
    destruct ok; injection E as <- _.
    - eapply run_trans; [exact R|]. eapply run_one; [exact (run_last _ _ _ R)|reflexivity|reflexivity|].
      cbn. apply conf_pag; auto. exact (run_last _ _ _ R).
    - eapply run_trans; [exact R|]. apply run_same; auto. exact (run_last _ _ _ R). }
  assert (Pg : exists ps, rep (cont (dsk d) (pgno (sdbm_hash k) i)) ps /\ NoDup (map fst ps) /\
     forall k1 v1, In (k1, v1) ps -> pgno (sdbm_hash k1) i = pgno (sdbm_hash k) i).
  { pose proof (pgno_range (sdbm_hash k) i) as PR. unfold cont.
    destruct (pgno (sdbm_hash k) i <? plen (dsk d)) eqn:Q.
    - destruct (i_h _ _ I (pgno (sdbm_hash k) i) ltac:(lia)) as (ps & R & N & H). exists ps.
      split; [exact R|]. split; [exact N|]. intros k1 v1 In1. destruct (H k1 v1 In1) as (_ & i1 & L1 & P1).
      assert (i1 = i) by (eapply leaf_page; [exact L1|exact Lf|exact P1]). now subst i1.
    - exists []. split; [apply rep_zero|]. split; [constructor|]. intros k1 v1 []. }
  destruct Pg as (ps & R & N & H).
  assert (Mem : forall k1, pgno (sdbm_hash k1) i = pgno (sdbm_hash k) i -> m k1 = assoc k1 ps).
  { intros k1 P. assert (L1 : leaf (bits (dsk d)) (sdbm_hash k1) i) by (eapply leaf_same; [exact Lf|symmetry; exact P]).
    rewrite <- (w_map _ _ W k1 i L1), P. now apply getpair_rep. }
  exists ps. split; [exact N|]. split; [eapply rep_size; eauto|]. split.
  - intros k1 v1 In1. rewrite (Mem k1 (H k1 v1 In1)). now apply assoc_In.
  - intros n ro k1 v1 Mk Nin.
    eapply conf_fetch; [exact W|exact (run_crash _ _ _ n Fin)|exact Lf|apply (i_nil _ _ I)|exact Mk|].
    intros P. apply Nin. rewrite (Mem k1 P) in Mk. apply In_assoc in Mk. apply in_map_iff. exists (k1, v1). auto.
Qed.

(** * Calls that write at most one block *)

Lemma run_any : forall d d', run (fun _ => True) d d' ->
  (length (writes d d') <= 1)%nat -> forall n, crash d d' n = dsk d \/ crash d d' n = dsk d'.
Proof.
  intros d d' (ws & A & B & _) L n. unfold crash, writes in *. rewrite A in *.
  rewrite skipn_app, skipn_all, Nat.sub_diag in *. cbn [skipn app] in *.
  destruct n as [|n]; [left; reflexivity|]. destruct ws as [|w [|w' ws]]; cbn [length] in L; [|right|lia].
  - left. reflexivity.
  - cbn [firstn]. rewrite firstn_nil. now rewrite B.
Qed.

Lemma run_makroom : forall n d h w, run (fun _ => True) d (fst (makroom_loop n d h w)).
Proof.
  induction n as [|n IH]; intros d h w.
  - now apply run_same.
  - rewrite makroom_S. cbn zeta.
    assert (S : run (fun _ => True) d (split_body d h)).
    { unfold split_body. destruct (splpage _ _) as [pag new]. cbn zeta.
      match goal with |- context[setdbit ?x ?y] => set (d1 := x); set (q := y) end.
      assert (S1 : run (fun _ => True) d d1).
      { unfold d1. destruct (negb _); (eapply run_one; [exact I|reflexivity|reflexivity|exact I]). }
      eapply run_trans; [exact S1|]. destruct (setdbit_write d1 q) as (x & T1 & T2).
      eapply run_one; eauto. }
    destruct (fitpair _ _); [exact S|].
    eapply run_trans; [exact S|]. eapply run_trans; [|apply IH].
    eapply run_one; [exact I|reflexivity|reflexivity|exact I].
Qed.

Lemma dbstep_run : forall d m r d' a, Inv d m -> dbstep d r = Some (d', a) ->
  (forall ro, r <> RReopen ro) -> run (fun _ => True) d d'.
Proof.
  intros d m r d' a I E NR.
  assert (GP : forall k, exists d1, getpage d (sdbm_hash k) = Some (d1, true) /\ dsk d1 = dsk d /\ trace d1 = trace d).
  { intros k. destruct (getpage_ok d (sdbm_hash k) m (i_w _ _ I) (i_c _ _ I))
    as (d1 & i & G & Lf & E1 & E2 & E3 & _). eauto. }
  assert (GN : forall fuel x y o, getnext_loop fuel x = Some (y, o) -> dsk y = dsk x /\ trace y = trace x).
  { clear. induction fuel as [|f IH]; intros x y o E; cbn [getnext_loop] in E; [discriminate|].
    cbn [set_walk pagbuf keyptr] in E.
    destruct (getnkey _ _); [injection E as <- _; split; reflexivity|].
    set (d1 := set_pagbno _ _) in E.
    assert (D1 : dsk d1 = dsk x /\ trace d1 = trace x) by (unfold d1; destruct (negb _); split; reflexivity).
    clearbody d1. unfold read_pag in E. destruct (ppos d1 <? plen (dsk d1)).
    - destruct (chkpage _); [apply IH in E; cbn in E; destruct E as [-> ->]; exact D1|injection E as <- _; exact D1].
    - injection E as <- _. exact D1. }
  destruct r as [k|k v b|k| | |ro]; cbn [dbstep] in E.
  - unfold sdbm_fetch in E. destruct (bad k); [injection E as <- _; now apply run_same|].
    destruct (GP k) as (d1 & G & D & T). rewrite G in E. injection E as <- _. now apply run_same.
  - unfold sdbm_store in E.
    destruct (bad k); [injection E as <- _; now apply run_same|].
    destruct (rdonly d); [injection E as <- _; now apply run_same|]. cbn zeta in E.
    destruct (_ || _)%bool; [injection E as <- _; now apply run_same|].
    destruct (GP k) as (d1 & G & D & T). rewrite G in E.
    destruct (negb b && duppair (pagbuf d1) k); [injection E as <- _; now apply run_same|].
    set (d2 := if b then _ else _) in E.
    assert (D2 : dsk d2 = dsk d /\ trace d2 = trace d).
    { unfold d2. destruct b; [destruct (delpair _ _)|]; auto. }
    clearbody d2. destruct D2 as [D2 T2].
    destruct (if fitpair (pagbuf d2) (wrap 32 (dsize k + dsize v)) then (d2, true)
              else makroom d2 (sdbm_hash k) (wrap 32 (dsize k + dsize v))) as [d3 ok] eqn:F.
    apply room_eq in F.
    assert (R : run (fun _ => True) d d3).
    { eapply run_trans; [apply (run_same _ d d2); auto; exact Logic.I|].
      destruct (fitpair _ _); [injection F as <- _; now apply run_same|].
      match type of F with makroom_loop ?n _ ?h ?w = _ => pose proof (run_makroom n d2 h w) as Q end.
      rewrite F in Q. exact Q. }
    destruct ok; injection E as <- _; (eapply run_trans; [exact R|]).
    + eapply run_one; [exact Logic.I|reflexivity|reflexivity|exact Logic.I].
    + now apply run_same.
  - unfold sdbm_delete in E. destruct (bad k); [injection E as <- _; now apply run_same|].
    destruct (rdonly d); [injection E as <- _; now apply run_same|].
    destruct (GP k) as (d1 & G & D & T). rewrite G in E.
    eapply run_trans; [apply (run_same _ d d1); auto; exact Logic.I|].
    destruct (delpair _ _); injection E as <- _; [|now apply run_same].
    eapply run_one; [exact Logic.I|reflexivity|reflexivity|exact Logic.I].
  - rewrite firstkey_eq in E. unfold getnext in E.
    match type of E with match getnext_loop ?f ?x with _ => _ end = _ =>
      destruct (getnext_loop f x) as [[d1 o]|] eqn:G; [|discriminate] end.
    apply GN in G. destruct G as [G1 G2]. injection E as <- _. apply run_same; auto.
    + rewrite G2. unfold first_state, read_pag. destruct (ppos _ <? _); reflexivity.
    + rewrite G1. unfold first_state, read_pag. destruct (ppos _ <? _); reflexivity.
  - unfold sdbm_nextkey, getnext in E.
    match type of E with match getnext_loop ?f ?x with _ => _ end = _ =>
      destruct (getnext_loop f x) as [[d1 o]|] eqn:G; [|discriminate] end.
    apply GN in G. destruct G as [G1 G2]. injection E as <- _. now apply run_same.
  - now specialize (NR ro).
Qed.
