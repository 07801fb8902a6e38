From Coq Require Import ZArith List Bool Lia ZifyBool.
From Verif Require Import Sdbm_Model Sdbm_Spec Sdbm_Proofs Sdbm_DbProofs.
Import ListNotations.
Open Scope Z_scope.

Local Opaque Z.mul Z.add Z.sub Z.pow Z.div Z.modulo.

(** * The directory file never shrinks *)

Lemma walk_loop_dsk : forall fuel d h n i d' n' i',
  walk_loop fuel d h n i = Some (d', n', i') -> dsk d' = dsk d.
Proof.
  induction fuel as [|f IH]; intros d h n i d' n' i' E; cbn [walk_loop] in E; [discriminate|].
  destruct (n <? maxbno d); [|now injection E as <- _ _].
  unfold getdbit in E.
  assert (L : forall b, dsk (load_dir d b) = dsk d) by (intros b; unfold load_dir; destruct (b =? dirbno d); reflexivity).
  destruct (negb _); [apply IH in E|injection E as <- _ _]; rewrite ?E; apply L.
Qed.
Lemma getpage_dsk : forall d h d' r, getpage d h = Some (d', r) -> dsk d' = dsk d.
Proof.
  intros d h d' r E. unfold getpage in E.
  destruct (walk_loop 32 d h 0 0) as [[[d1 n] i]|] eqn:W; [|discriminate].
  apply walk_loop_dsk in W. cbn zeta in E. destruct (_ =? _).
  - injection E as <- _. exact W.
  - unfold read_pag in E. destruct (ppos _ <? plen _); cbn in E;
      destruct (chkpage _); injection E as <- _; exact W.
Qed.
Lemma getnext_loop_dsk : forall fuel d d' o, getnext_loop fuel d = Some (d', o) -> dsk d' = dsk d.
Proof.
  induction fuel as [|f IH]; intros d d' o E; cbn [getnext_loop] in E; [discriminate|].
  cbn [set_walk pagbuf keyptr] in E.
  destruct (getnkey _ _); [injection E as <- _; reflexivity|].
  set (d1 := set_pagbno _ _) in E.
  assert (D1 : dsk d1 = dsk d) by (unfold d1; destruct (negb _); reflexivity).
  unfold read_pag in E. destruct (ppos d1 <? plen (dsk d1)).
  - destruct (chkpage _); [apply IH in E; rewrite E; exact D1|injection E as <- _; exact D1].
  - injection E as <- _. exact D1.
Qed.
Lemma room_mono : forall n d2 h w d3 ok,
  (if fitpair (pagbuf d2) w then (d2, true) else makroom_loop n d2 h w) = (d3, ok) ->
  dlen (dsk d2) <= dlen (dsk d3).
Proof.
  intros n d2 h w d3 ok E. destruct (fitpair _ _); [injection E as <- _; lia|].
  pose proof (dlen_makroom n d2 h w) as Q. rewrite E in Q. exact Q.
Qed.
Lemma dbstep_mono : forall d r d' a, dbstep d r = Some (d', a) -> dlen (dsk d) <= dlen (dsk d').
Proof.
  intros d r d' a E. destruct r as [k|k v b|k| | |ro]; cbn [dbstep] in E.
  - unfold sdbm_fetch in E. destruct (bad k); [injection E as <- _; lia|].
    destruct (getpage d (sdbm_hash k)) as [[d1 [|]]|] eqn:G; [| |discriminate];
      apply getpage_dsk in G; injection E as <- _; cbn; rewrite G; lia.
  - unfold sdbm_store in E. destruct (bad k); [injection E as <- _; lia|].
    destruct (rdonly d); [injection E as <- _; lia|]. cbn zeta in E.
    destruct (_ || _)%bool; [injection E as <- _; lia|].
    destruct (getpage d (sdbm_hash k)) as [[d1 [|]]|] eqn:G; [| |discriminate];
      apply getpage_dsk in G.
    2:{ injection E as <- _; cbn; rewrite G; lia. }
    destruct (negb b && duppair (pagbuf d1) k); [injection E as <- _; rewrite G; lia|].
    set (d2 := if b then _ else _) in E.
    assert (D2 : dsk d2 = dsk d) by (unfold d2; destruct b; [destruct (delpair _ _)|]; exact G).
    clearbody d2.
    destruct (if fitpair (pagbuf d2) (wrap 32 (dsize k + dsize v)) then (d2, true)
              else makroom d2 (sdbm_hash k) (wrap 32 (dsize k + dsize v))) as [d3 ok] eqn:F.
    apply room_eq, room_mono in F. rename F into D3.
    rewrite D2 in D3. destruct ok; injection E as <- _; cbn; exact D3.
  - unfold sdbm_delete in E. destruct (bad k); [injection E as <- _; lia|].
    destruct (rdonly d); [injection E as <- _; lia|].
    destruct (getpage d (sdbm_hash k)) as [[d1 [|]]|] eqn:G; [| |discriminate];
      apply getpage_dsk in G.
    + destruct (delpair _ _); injection E as <- _; cbn; rewrite G; lia.
    + injection E as <- _; cbn; rewrite G; lia.
  - unfold sdbm_firstkey, read_pag, getnext in E. destruct (ppos _ <? plen _) in E; cbn zeta iota in E;
    match type of E with match getnext_loop ?f ?x with _ => _ end = _ =>
      destruct (getnext_loop f x) as [[d1 o]|] eqn:G; [|discriminate] end;
    apply getnext_loop_dsk in G; injection E as <- _; rewrite G; cbn; lia.
  - unfold sdbm_nextkey, getnext in E.
    match type of E with match getnext_loop ?f ?x with _ => _ end = _ =>
      destruct (getnext_loop f x) as [[d1 o]|] eqn:G; [|discriminate] end.
    apply getnext_loop_dsk in G; injection E as <- _; rewrite G; lia.
  - injection E as <- _. cbn. lia.
Qed.
Lemma dbrun_mono : forall rs d d' l, dbrun d rs = Some (d', l) -> dlen (dsk d) <= dlen (dsk d').
Proof.
  induction rs as [|r rs IH]; intros d d' l E; cbn [dbrun] in E; [injection E as <- _; lia|].
  destruct (dbstep d r) as [[d1 a]|] eqn:S; [|discriminate].
  destruct (dbrun d1 rs) as [[d2 l2]|] eqn:R; [|discriminate]. injection E as <- _.
  apply dbstep_mono in S. apply IH in R. lia.
Qed.

(** * Walking *)

Definition npos (d : db) : Z := if pagbno d =? blkptr d then ppos d else blkptr d + 1.

Lemma getnext_inv : forall fuel d m, Inv d m -> (0 < fuel)%nat ->
  plen (dsk d) - npos d + 1 <= Z.of_nat fuel ->
  exists d' o, getnext_loop fuel d = Some (d', o) /\ rdonly d' = rdonly d /\ Inv d' m.
Proof.
  induction fuel as [|f IH]; intros d m I F0 F; [lia|]. cbn [getnext_loop].
  pose proof (i_w _ _ I) as W. pose proof (i_c _ _ I) as C. pose proof (w_plen _ _ W) as PL.
  pose proof (c_pos _ C) as [P1 P2]. pose proof (c_walk _ C) as (W1 & W2 & W3 & W4).
  cbn [set_walk pagbuf keyptr]. destruct (getnkey (pagbuf d) (keyptr d + 1)) as [k|] eqn:G.
  - eexists _, _. split; [reflexivity|]. split; [reflexivity|].
    constructor; try apply I. destruct C. constructor; cbn; auto; lia.
  - set (d1 := set_pagbno _ _).
    assert (D1 : dsk d1 = dsk d /\ pagbno d1 = blkptr d + 1 /\ blkptr d1 = blkptr d + 1 /\ keyptr d1 = 0 /\
       ppos d1 = npos d /\ pagbuf d1 = pagbuf d /\ rdonly d1 = rdonly d /\ maxbno d1 = maxbno d /\
       dirbno d1 = dirbno d /\ dirbuf d1 = dirbuf d).
    { unfold d1, npos. cbn [pagbno blkptr set_walk]. destruct (pagbno d =? blkptr d); cbn [negb]; cbn; repeat split. }
    clearbody d1. destruct D1 as (A1 & A2 & A3 & A4 & A5 & A6 & A7 & A8 & A9 & A10).
    assert (Np : 0 <= npos d /\ (npos d < plen (dsk d) -> npos d = blkptr d + 1) /\
                 (plen (dsk d) <= npos d -> plen (dsk d) <= blkptr d + 1)).
    { unfold npos. destruct (Z.eqb_spec (pagbno d) (blkptr d)) as [E|E]; [|lia].
      destruct (Z_lt_ge_dec (pagbno d) (plen (dsk d))); [specialize (P1 ltac:(lia)); lia|].
      specialize (P2 ltac:(lia)). lia. }
    destruct Np as (N0 & N1 & N2).
    unfold read_pag. rewrite A1, A5. destruct (npos d <? plen (dsk d)) eqn:Q.
    + specialize (N1 ltac:(lia)). destruct (w_rep _ _ W (npos d) ltac:(lia)) as (ps & R & _).
      cbn [set_ppos set_pagbuf pagbuf]. rewrite (chkpage_rep _ _ R).
      set (d2 := set_ppos _ _).
      assert (I2 : Inv d2 m).
      { constructor; [exact (eq_ind_r (fun x => winv x m) W A1)|exact (eq_ind_r homed (i_h _ _ I) A1)| |apply (i_nil _ _ I)].
        constructor; unfold d2; cbn; rewrite ?A1, ?A2, ?A3, ?A4, ?A8, ?A9, ?A10; try apply C; try lia.
        intros h i L E. unfold cont. rewrite <- N1, Q. reflexivity. }
      assert (Np2 : npos d2 = npos d + 1).
      { unfold npos at 1. unfold d2; cbn. rewrite A2, A3, Z.eqb_refl. reflexivity. }
      destruct (IH d2 m I2) as (d' & o & E1 & E2 & E3).
      * lia.
      * rewrite Np2. unfold d2; cbn. rewrite A1. lia.
      * exists d', o. split; [exact E1|]. split; [|exact E3]. rewrite E2. exact A7.
    + specialize (N2 ltac:(lia)).
      eexists _, _. split; [reflexivity|]. split; [exact A7|].
      constructor; [exact (eq_ind_r (fun x => winv x m) W A1)|exact (eq_ind_r homed (i_h _ _ I) A1)| |apply (i_nil _ _ I)].
      constructor; cbn; rewrite ?A1, ?A2, ?A3, ?A4, ?A5, ?A6, ?A8, ?A9, ?A10; try apply C; try lia.
      intros h i L E. exfalso. destruct (w_leaf _ _ W h i L) as [X|X]; [lia|].
      assert (i = 0)%nat.
      { destruct i as [|i]; auto. destruct L as [L1 _]. specialize (L1 0%nat ltac:(lia)).
        rewrite (bits_dlen0 _ _ _ W (w_zero2 _ _ W X)) in L1. discriminate. }
      subst i. pose proof (pgno_range h 0). change (2 ^ Z.of_nat 0) with 1 in *. lia.
Qed.

Lemma nextkey_inv : forall d m, Inv d m ->
  exists d' o, sdbm_nextkey d = Some (d', o) /\ rdonly d' = rdonly d /\ Inv d' m.
Proof.
  intros d m I. unfold sdbm_nextkey, getnext. apply getnext_inv; auto; [lia|].
  pose proof (c_walk _ (i_c _ _ I)). pose proof (w_plen _ _ (i_w _ _ I)).
  unfold npos. destruct (pagbno d =? blkptr d); lia.
Qed.

Definition first_state (d : db) : db := set_walk (set_pagbno (fst (read_pag (set_ppos d 0))) 0) 0 0.
Lemma first_inv : forall d m, Inv d m -> Inv (first_state d) m /\ rdonly (first_state d) = rdonly d.
Proof.
  intros d m I. pose proof (i_w _ _ I) as W. pose proof (i_c _ _ I) as C. pose proof (w_plen _ _ W) as PL.
  unfold first_state, read_pag. cbn [set_ppos ppos dsk].
  destruct (0 <? plen (dsk d)) eqn:Q; (split; [|reflexivity]).
  - constructor; try apply I. constructor; cbn; try apply C; try lia.
    intros. unfold cont. rewrite Q. reflexivity.
  - constructor; try apply I. constructor; cbn; try apply C; try lia.
    intros. unfold cont. rewrite Q. apply (c_pag0 _ C). lia.
Qed.
Lemma firstkey_eq : forall d, sdbm_firstkey d = getnext (first_state d).
Proof. intros. unfold sdbm_firstkey, first_state. destruct (read_pag _). reflexivity. Qed.

(** * Histories *)

Lemma dbstep_ok : forall d m r, Inv d m -> small r ->
  exists d' a, dbstep d r = Some (d', a) /\
    (dlen (dsk d') <= 1 -> exists m', spec_step (rdonly d) m r a (rdonly d') m' /\ Inv d' m').
Proof.
  intros d m r I Sm. destruct r as [k|k v b|k| | |ro]; cbn [dbstep small] in *.
  - destruct (fetch_ok d k m (i_w _ _ I) (i_c _ _ I) (i_nil _ _ I)) as (d' & E & D & C & R).
    rewrite E. eexists _, _. split; [reflexivity|]. intros _. exists m. rewrite R. split; [constructor|].
    constructor; rewrite ?D; auto; apply I.
  - destruct Sm as [S1 S2].
    destruct (store_ok d m k v b I S1 S2) as (d' & c & E & R & _ & H). rewrite E.
    eexists _, _. split; [reflexivity|]. rewrite R. exact H.
  - destruct (delete_ok d m k I) as (d' & c & E & R & H). rewrite E.
    eexists _, _. split; [reflexivity|]. rewrite R. intros _. exact H.
  - rewrite firstkey_eq. destruct (first_inv d m I) as [I1 R1].
    destruct (nextkey_inv _ m I1) as (d' & o & E & R & I'). unfold sdbm_nextkey in E. rewrite E.
    eexists _, _. split; [reflexivity|]. intros _. exists m. rewrite R, R1. split; auto. constructor. auto.
  - destruct (nextkey_inv _ m I) as (d' & o & E & R & I'). rewrite E.
    eexists _, _. split; [reflexivity|]. intros _. exists m. rewrite R. split; auto. constructor. auto.
  - eexists _, _. split; [reflexivity|]. intros _. exists m. split; [constructor|].
    apply Inv_prep; apply I.
Qed.

Lemma dbrun_ok : forall rs d m d' l, Inv d m -> Forall small rs ->
  dbrun d rs = Some (d', l) -> dlen (dsk d') <= 1 ->
  exists m', spec_run (rdonly d) m rs l (rdonly d') m' /\ Inv d' m'.
Proof.
  induction rs as [|r rs IH]; intros d m d' l I S E L; cbn [dbrun] in E.
  - injection E as <- <-. exists m. split; auto. constructor.
  - inversion_clear S as [|? ? S1 S2].
    destruct (dbstep_ok d m r I S1) as (d1 & a & E1 & H). rewrite E1 in E.
    destruct (dbrun d1 rs) as [[d2 l2]|] eqn:R; [|discriminate]. injection E as <- <-.
    pose proof (dbrun_mono _ _ _ _ R) as M. destruct (H ltac:(lia)) as (m1 & St & I1).
    destruct (IH d1 m1 d2 l2 I1 S2 R L) as (m2 & Sr & I2). exists m2. split; auto.
    econstructor; eauto.
Qed.

(** * A complete walk visits every key once *)

Lemma finite_choice : forall (P : nat -> pairs -> Prop) n,
  (forall i, (i < n)%nat -> exists ps, P i ps) ->
  exists pl, length pl = n /\ forall i ps, nth_error pl i = Some ps -> P i ps.
Proof.
  intros P. induction n as [|n IH]; intros H.
  - exists []. split; auto. intros [|i] ps E; discriminate.
  - destruct IH as (pl & A & B); [intros; apply H; lia|].
    destruct (H n ltac:(lia)) as [ps Hp]. exists (pl ++ [ps]). split.
    + rewrite app_length. cbn. lia.
    + intros i q E. destruct (lt_dec i n) as [L|L].
      * rewrite nth_error_app1 in E by lia. auto.
      * rewrite nth_error_app2 in E by lia. rewrite A in E.
        destruct (i - n)%nat as [|x] eqn:Q; cbn in E; [|destruct x; discriminate].
        injection E as <-. replace i with n by lia. exact Hp.
Qed.

Section Walk.
  Variables (dk : disk) (pl : list pairs).
  Hypothesis Len : plen dk = Z.of_nat (length pl).
  Hypothesis Pg : forall i ps, nth_error pl i = Some ps -> rep (pblk dk (Z.of_nat i)) ps.

  Definition rest (b j : nat) : list bstring :=
    skipn j (map fst (nth b pl [])) ++ concat (map (map fst) (skipn (S b) pl)).

  Record wst (d : db) (b j : nat) : Prop := {
    ws_d : dsk d = dk; ws_p : pagbno d = Z.of_nat b; ws_b : blkptr d = Z.of_nat b;
    ws_q : pagbuf d = pblk dk (Z.of_nat b); ws_o : ppos d = Z.of_nat b + 1;
    ws_k : keyptr d = Z.of_nat j; ws_l : (b < length pl)%nat
  }.

  Lemma skipn_nth : forall (A : Type) (l : list A) n x, nth_error l n = Some x ->
    skipn n l = x :: skipn (S n) l.
  Proof.
    induction l as [|y l IH]; intros [|n] x E; cbn [nth_error] in E; try discriminate.
    - injection E as ->. reflexivity.
    - cbn [skipn]. rewrite (IH n x E). reflexivity.
  Qed.

  Lemma getnext_walk : forall fuel d b j, wst d b j -> (length pl - b <= fuel)%nat ->
    match rest b j with
    | k :: r => exists d' b' j', getnext_loop fuel d = Some (d', Some k) /\ wst d' b' j' /\ rest b' j' = r
    | [] => exists d', getnext_loop fuel d = Some (d', None)
    end.
  Proof.
    induction fuel as [|f IH]; intros d b j Ws F.
    { destruct Ws. lia. }
    destruct Ws as [A1 A2 A3 A4 A5 A6 A7]. cbn [getnext_loop]. cbn [set_walk pagbuf keyptr].
    rewrite A4, A6.
    destruct (nth_error pl b) as [ps|] eqn:Nb.
    2:{ apply nth_error_None in Nb. lia. }
    pose proof (Pg b ps Nb) as R.
    rewrite (getnkey_rep _ _ _ R) by lia.
    replace (Z.to_nat (Z.of_nat j + 1 - 1)) with j by lia.
    unfold rest. rewrite (nth_error_nth _ _ _ Nb).
    destruct (nth_error ps j) as [[k v]|] eqn:Nj; cbn [option_map fst].
    - assert (E : skipn j (map fst ps) = k :: skipn (S j) (map fst ps)).
      { apply skipn_nth. rewrite nth_error_map, Nj. reflexivity. }
      rewrite E. cbn [app]. eexists _, b, (S j). split; [reflexivity|]. split.
      + constructor; cbn; auto. lia.
      + unfold rest. now rewrite (nth_error_nth _ _ _ Nb).
    - apply nth_error_None in Nj. rewrite skipn_all2 by (rewrite map_length; lia). cbn [app].
      cbn [set_walk pagbno blkptr]. rewrite A2, A3, Z.eqb_refl. cbn [negb].
      unfold read_pag. cbn [set_pagbno set_walk ppos dsk set_pagbuf set_ppos]. rewrite A1, A5, Len.
      destruct (Z.of_nat b + 1 <? Z.of_nat (length pl)) eqn:Q.
      + destruct (nth_error pl (S b)) as [ps'|] eqn:Nb'.
        2:{ apply nth_error_None in Nb'. lia. }
        pose proof (Pg _ _ Nb') as R'. replace (Z.of_nat (S b)) with (Z.of_nat b + 1) in R' by lia.
        cbn [pagbuf set_ppos set_pagbuf]. rewrite (chkpage_rep _ _ R').
        match goal with |- context[getnext_loop f ?x] => set (d2 := x) end.
        assert (W2 : wst d2 (S b) 0).
        { constructor; unfold d2; cbn; auto; try lia.
          f_equal. lia. }
        specialize (IH d2 (S b) 0%nat W2 ltac:(lia)).
        unfold rest in IH at 1. rewrite (nth_error_nth _ _ _ Nb') in IH. cbn [skipn] in IH.
        assert (E2 : skipn (S b) pl = ps' :: skipn (S (S b)) pl) by now apply skipn_nth.
        rewrite E2. cbn [map concat]. exact IH.
      + rewrite (skipn_all2 pl) by lia. cbn [map concat]. eexists. reflexivity.
  Qed.

  Lemma walk_rest_ok : forall fuel d b j, wst d b j -> (length (rest b j) < fuel)%nat ->
    exists d', walk_rest fuel d = Some (d', rest b j).
  Proof.
    induction fuel as [|f IH]; intros d b j Ws F; [lia|]. cbn [walk_rest].
    unfold sdbm_nextkey, getnext.
    pose proof (getnext_walk (Z.to_nat (plen (dsk d)) + 2) d b j Ws) as G.
    rewrite (ws_d _ _ _ Ws), Len in G. specialize (G ltac:(lia)).
    rewrite (ws_d _ _ _ Ws), Len.
    destruct (rest b j) as [|k r] eqn:Er.
    - destruct G as [d' G]. rewrite G. eauto.
    - destruct G as (d' & b' & j' & G1 & G2 & G3). rewrite G1.
      cbn [length] in F. destruct (IH d' b' j' G2) as [d2 E2]; [rewrite G3; lia|].
      rewrite E2, G3. eauto.
  Qed.
End Walk.

Lemma NoDup_app_intro : forall (A : Type) (a b : list A), NoDup a -> NoDup b ->
  (forall x, In x a -> In x b -> False) -> NoDup (a ++ b).
Proof.
  induction a as [|x a IH]; intros b Ha Hb H; cbn [app]; auto.
  inversion_clear Ha as [|? ? N1 N2]. constructor.
  - intros I. apply in_app_iff in I. destruct I as [I|I]; [tauto|]. apply (H x); cbn; auto.
  - apply IH; auto. intros y I1 I2. apply (H y); cbn; auto.
Qed.

Lemma NoDup_concat : forall (ls : list (list bstring)),
  (forall i l, nth_error ls i = Some l -> NoDup l) ->
  (forall i j l l' k, nth_error ls i = Some l -> nth_error ls j = Some l' -> In k l -> In k l' -> i = j) ->
  NoDup (concat ls).
Proof.
  induction ls as [|l ls IH]; intros A B; cbn [concat]; [constructor|].
  apply NoDup_app_intro.
  - apply (A 0%nat). reflexivity.
  - apply IH.
    + intros i l' E. apply (A (S i)). exact E.
    + intros i j l1 l2 k E1 E2 I1 I2. specialize (B (S i) (S j) l1 l2 k E1 E2 I1 I2). lia.
  - intros k I1 I2. apply in_concat in I2. destruct I2 as (l' & I2 & I3).
    apply In_nth_error in I2. destruct I2 as [j E]. specialize (B 0%nat (S j) l l' k eq_refl E I1 I3). lia.
Qed.

Lemma walk_ok_inv : forall d m, Inv d m ->
  exists l, NoDup l /\ (forall k, In k l <-> m k <> None) /\
    forall fuel, (length l <= fuel)%nat -> exists d1, walk_keys fuel d = Some (d1, l).
Proof.
  intros d m I. pose proof (i_w _ _ I) as W. pose proof (w_plen _ _ W) as PL.
  pose proof (i_h _ _ I) as H.
  destruct (finite_choice (fun i ps => rep (pblk (dsk d) (Z.of_nat i)) ps /\ NoDup (map fst ps) /\
     forall k v, In (k, v) ps -> home (dsk d) k (Z.of_nat i)) (Z.to_nat (plen (dsk d)))) as (pl & A & B).
  { intros i Hi. apply H. lia. }
  assert (Len : plen (dsk d) = Z.of_nat (length pl)) by lia.
  set (l := concat (map (map fst) pl)).
  assert (Nth : forall i q, nth_error (map (map fst) pl) i = Some q ->
     exists ps, nth_error pl i = Some ps /\ q = map fst ps).
  { intros i q E. rewrite nth_error_map in E. unfold pairs in *. destruct (nth_error pl i) as [ps|]; cbn [option_map] in E; inversion_clear E. eauto. }
  assert (ND : NoDup l).
  { apply NoDup_concat.
    - intros i q E. destruct (Nth i q E) as (ps & E1 & ->). apply (B i ps E1).
    - intros i j q q' k E1 E2 I1 I2.
      destruct (Nth i q E1) as (ps & F1 & ->). destruct (Nth j q' E2) as (ps' & F2 & ->).
      apply in_map_iff in I1. destruct I1 as ([k1 v1] & X1 & I1). cbn in X1. subst k1.
      apply in_map_iff in I2. destruct I2 as ([k2 v2] & X2 & I2). cbn in X2. subst k2.
      destruct (B i ps F1) as (_ & _ & B1). destruct (B j ps' F2) as (_ & _ & B2).
      destruct (B1 k v1 I1) as [_ (n1 & L1 & P1)]. destruct (B2 k v2 I2) as [_ (n2 & L2 & P2)].
      rewrite (leaf_fun _ _ _ _ L1 L2) in P1. lia. }
  assert (Mem : forall k, In k l <-> m k <> None).
  { intros k. split.
    - intros In1. apply in_concat in In1. destruct In1 as (q & I1 & I2).
      apply In_nth_error in I1. destruct I1 as [i E]. destruct (Nth i q E) as (ps & E1 & ->).
      apply in_map_iff in I2. destruct I2 as ([k1 v1] & X1 & I2). cbn in X1. subst k1.
      destruct (B i ps E1) as (R & N & B1). destruct (B1 k v1 I2) as [_ (n & L & P)].
      rewrite <- (w_map _ _ W k n L), (cont_pblk _ _ _ W), P, (getpair_rep _ _ _ R).
      rewrite (assoc_In _ _ _ N I2). discriminate.
    - intros Mk.
      assert (Lf : exists n, leaf (bits (dsk d)) (sdbm_hash k) n).
      { destruct (getpage_ok d (sdbm_hash k) m W (i_c _ _ I)) as (d' & n & _ & L & _). eauto. }
      destruct Lf as [n L].
      rewrite <- (w_map _ _ W k n L) in Mk. unfold cont in Mk.
      destruct (pgno (sdbm_hash k) n <? plen (dsk d)) eqn:Q.
      2:{ rewrite (getpair_rep _ _ _ rep_zero) in Mk. now cbn in Mk. }
      pose proof (pgno_range (sdbm_hash k) n) as PR. set (b := pgno (sdbm_hash k) n) in *.
      destruct (nth_error pl (Z.to_nat b)) as [ps|] eqn:E.
      2:{ apply nth_error_None in E. lia. }
      destruct (B _ _ E) as (R & N & _). rewrite Z2Nat.id in R by lia.
      rewrite (getpair_rep _ _ _ R) in Mk. destruct (assoc k ps) as [v|] eqn:As; [|congruence].
      apply In_assoc in As. apply in_concat. exists (map fst ps). split.
      + apply nth_error_In with (n := Z.to_nat b). rewrite nth_error_map. unfold pairs in *. rewrite E. reflexivity.
      + apply in_map_iff. exists (k, v). auto. }
  exists l. split; [exact ND|]. split; [exact Mem|]. intros fuel Hf.
  unfold walk_keys. rewrite firstkey_eq.
  destruct (Z.eq_dec (plen (dsk d)) 0) as [Z0|Z0].
  - assert (pl = []) by (destruct pl; [reflexivity|cbn in *; lia]). subst pl. cbn in l. subst l.
    assert (Fs : dsk (first_state d) = dsk d /\ pagbuf (first_state d) = zeropage /\ pagbno (first_state d) = 0 /\
      blkptr (first_state d) = 0 /\ keyptr (first_state d) = 0 /\ ppos (first_state d) = 0).
    { unfold first_state, read_pag. cbn [set_ppos ppos dsk]. rewrite Z0. change (0 <? 0) with false.
      cbn. repeat split. apply (c_pag0 _ (i_c _ _ I)). exact Z0. }
    destruct Fs as (F1 & F2 & F3 & F4 & F5 & F6).
    unfold getnext. rewrite F1, Z0. change (Z.to_nat 0 + 2)%nat with 2%nat. cbn [getnext_loop].
    cbn [set_walk pagbuf keyptr]. rewrite F2, F5. rewrite (getnkey_rep _ _ _ rep_zero) by lia.
    replace (nth_error ([] : pairs) (Z.to_nat (0 + 1 - 1))) with (@None (bstring * bstring))
      by (destruct (Z.to_nat (0 + 1 - 1)); reflexivity).
    cbn [option_map]. unfold read_pag. cbn [set_walk pagbno blkptr]. rewrite F3, F4. change (0 =? 0) with true.
    cbn [negb]. cbn [set_pagbno set_walk ppos dsk]. rewrite F1, F6, Z0. change (0 <? 0) with false.
    eexists. reflexivity.
  - assert (Ws : wst (dsk d) pl (first_state d) 0 0).
    { unfold first_state, read_pag. cbn [set_ppos ppos dsk].
      replace (0 <? plen (dsk d)) with true by lia. constructor; cbn; auto; try lia. }
    assert (Pg : forall i ps, nth_error pl i = Some ps -> rep (pblk (dsk d) (Z.of_nat i)) ps).
    { intros i ps E. apply (B i ps E). }
    pose proof (getnext_walk (dsk d) pl Len Pg (Z.to_nat (plen (dsk (first_state d))) + 2)
                  (first_state d) 0 0 Ws) as G.
    rewrite (ws_d _ _ _ _ _ Ws) in G. specialize (G ltac:(lia)).
    assert (R0 : rest pl 0 0 = l).
    { unfold rest, l. destruct pl as [|p0 pl']; [cbn in *; lia|]. reflexivity. }
    unfold getnext. rewrite (ws_d _ _ _ _ _ Ws). rewrite R0 in G.
    destruct l as [|k r] eqn:El.
    + destruct G as [d' G]. rewrite G. eexists. reflexivity.
    + destruct G as (d' & b' & j' & G1 & G2 & G3). rewrite G1.
      destruct (walk_rest_ok (dsk d) pl Len Pg fuel d' b' j' G2) as [d2 E2].
      { rewrite G3. cbn [length] in Hf. lia. }
      rewrite E2, G3. eexists. reflexivity.
Qed.
