(** The scan of the guardians. *)

From Coq Require Import ZArith List Bool Arith Lia.
Import ListNotations.
From Verif Require Import Gc_Model Gc_Spec Gc_Mark.

Lemma list_at_frame c c' v ks xs :
  (forall k, In k ks -> c' k = c k) -> list_at c v ks xs -> list_at c' v ks xs.
Proof.
  intros H L. induction L.
  - constructor.
  - econstructor; eauto.
    + rewrite H; [eassumption | now left].
    + apply IHL. intros k' I. apply H. now right.
Qed.

Lemma list_at_length c v ks xs : list_at c v ks xs -> length ks = length xs.
Proof. induction 1; simpl; auto. Qed.

Lemma list_at_cons c v ks xs k :
  list_at c v ks xs -> In k ks -> exists x d, c k = Some (OCons x d).
Proof. induction 1; simpl; intros []; subst; eauto. Qed.

Lemma list_at_car c v ks xs x :
  list_at c v ks xs -> In x xs -> exists k d, In k ks /\ c k = Some (OCons x d).
Proof.
  induction 1; simpl; intros []; subst; eauto.
  destruct IHlist_at as (k' & d' & I & E); eauto.
Qed.

Lemma pick_ext f g ks xs :
  (forall x, In x xs -> f x = g x) -> pick f ks xs = pick g ks xs.
Proof.
  revert xs. induction ks as [|k ks IH]; intros [|x xs] H; simpl; auto.
  rewrite (H x) by now left. rewrite (IH xs); auto. intros; apply H; now right.
Qed.

Lemma pick_in f ks xs k : In k (pick f ks xs) -> In k ks.
Proof.
  revert xs. induction ks as [|k' ks IH]; intros [|x xs]; simpl; auto.
  - intros [].
  - destruct (f x); simpl; intros H; [destruct H|]; eauto.
Qed.

Lemma pick_or f ks xs k :
  length ks = length xs -> In k ks -> In k (pick f ks xs) \/ In k (pick (fun x => negb (f x)) ks xs).
Proof.
  revert xs. induction ks as [|k' ks IH]; intros [|x xs] L; simpl in *; try discriminate; try tauto.
  intros [->|I].
  - destruct (f x); simpl; auto.
  - destruct (IH xs) as [H|H]; auto; destruct (f x); simpl; auto.
Qed.

Lemma pick_nodup f ks xs : NoDup ks -> NoDup (pick f ks xs).
Proof.
  intros N. revert xs. induction N as [|k ks H N IH]; intros [|x xs]; simpl; try constructor.
  destruct (f x); auto. constructor; auto. intros I. apply H. eapply pick_in; eauto.
Qed.

Definition owner_free (ptr : slot) (g : loc) (ks pk : list loc) : Prop :=
  match ptr with
  | SAcc g' => g' = g
  | SCdr k0 => ~ In k0 ks /\ ~ In k0 pk
  end.

Definition at_slot (ptr : slot) (p : loc) : Prop :=
  match ptr with SAcc _ => False | SCdr k0 => p = k0 end.

Lemma alive_set m k x : (exists p, x = VPtr p /\ p <> k) -> alive (set m k) x = alive m x.
Proof.
  intros (p & -> & N). simpl. unfold set. destruct (Nat.eqb_spec p k); congruence.
Qed.

Lemma is_nil_ptr k : k <> nil_loc -> is_nil (VPtr k) = false.
Proof. simpl. apply Nat.eqb_neq. Qed.

Lemma scan_ok ks : forall xs fuel c m g ptr changed v i pk px a,
  length ks < fuel ->
  list_at c v ks xs -> NoDup ks ->
  c g = Some (OGuardian a i) -> list_at c i pk px ->
  read_slot c ptr = Done v -> owner_free ptr g ks pk ->
  (forall k, In k ks -> ~ In k pk) ->
  (forall x, In x xs -> exists p, x = VPtr p /\ c p <> None /\ ~ In p ks) ->
  exists c' m' v' a' i',
    scan_accessible fuel c m g ptr changed =
      Done (c', m', rev (filter (dead m) xs) ++ changed) /\
    (forall p, m' p = true <-> m p = true \/ In p ks) /\
    read_slot c' ptr = Done v' /\
    list_at c' v' (pick (alive m) ks xs) (filter (alive m) xs) /\
    c' g = Some (OGuardian a' i') /\ (match ptr with SAcc _ => a' = v' | SCdr _ => a' = a end) /\
    list_at c' i' (rev (pick (dead m) ks xs) ++ pk) (rev (filter (dead m) xs) ++ px) /\
    (forall p, ~ In p ks -> p <> g -> ~ at_slot ptr p -> c' p = c p) /\
    (forall k, In k ks \/ at_slot ptr k ->
       exists x d d', c k = Some (OCons x d) /\ c' k = Some (OCons x d')) /\
    (forall p, c p = None <-> c' p = None).
Proof.
  induction ks as [|k ks IH]; intros xs fuel c m g ptr changed v i pk px a F L ND Cg Li Rd Ow Dj Ob;
    destruct fuel as [|fuel]; simpl in F; try lia.
  - inversion L; subst. simpl scan_accessible. rewrite Rd. simpl.
    exists c, m, Qnil, a, i. simpl.
    split; [reflexivity|]. split; [intros p; tauto|]. split; [exact Rd|].
    split; [constructor|]. split; [exact Cg|].
    split.
    { destruct ptr; auto. simpl in Rd, Ow. subst. rewrite Cg in Rd. now injection Rd. }
    split; [exact Li|]. split; [auto|]. split.
    { intros k [[]|H]. destruct ptr; simpl in H; [destruct H|]. subst.
      simpl in Rd. destruct (c k0) as [[]|]; try discriminate. eauto. }
    intros p; tauto.
  - inversion L as [|k1 x d ks1 xs1 Nk Ck Ld]; subst.
    inversion ND as [|? ? NI ND1]; subst.
    destruct (Ob x (or_introl eq_refl)) as (p & -> & Cp & Np).
    assert (kg : k <> g) by (intros ->; congruence).
    assert (Ob1 : forall y, In y xs1 -> exists q, y = VPtr q /\ c q <> None /\ ~ In q ks).
    { intros y I. destruct (Ob y (or_intror I)) as (q & E1 & E2 & E3). exists q.
      split; [|split]; auto. intros I'. apply E3. now right. }
    assert (Al : forall y, In y xs1 -> alive (set m k) y = alive m y).
    { intros y I. apply alive_set. destruct (Ob y (or_intror I)) as (q & -> & _ & E3).
      exists q. split; auto. intros ->. apply E3. now left. }
    assert (De : forall y, In y xs1 -> dead (set m k) y = dead m y).
    { intros y I. unfold dead. now rewrite Al. }
    cbn [scan_accessible]. rewrite Rd. cbn [bind].
    rewrite is_nil_ptr by auto. rewrite Ck. cbn [markedp].
    destruct (c p) as [op|] eqn:CP; [|congruence]. cbn [bind].
    destruct (m p) eqn:MP.
    + (* kept *)
      assert (Ow1 : owner_free (SCdr k) g ks pk).
      { split; auto. apply Dj. now left. }
      edestruct (IH xs1 fuel c (set m k) g (SCdr k) changed d i pk px a)
        as (c' & m' & v' & a' & i' & E & M & R' & L' & G' & A' & I' & Fr & Kc & Nn); auto.
      { lia. }
      { simpl. now rewrite Ck. }
      { intros k' I'. apply Dj. now right. }
      rewrite E.
      assert (Rk : c' k = Some (OCons (VPtr p) v')).
      { destruct (Kc k (or_intror eq_refl)) as (x1 & d1 & d2 & E1 & E2).
        rewrite Ck in E1. injection E1 as <- <-.
        simpl in R'. rewrite E2 in R'. injection R' as ->. exact E2. }
      exists c', m', (VPtr k), a', i'.
      assert (Dp : dead m (VPtr p) = false) by (unfold dead; simpl; now rewrite MP).
      assert (Ap : alive m (VPtr p) = true) by exact MP.
      cbn [filter pick]. rewrite Dp, Ap.
      rewrite (filter_ext_in _ _ _ De) in E, I'. rewrite (filter_ext_in _ _ _ Al) in L'.
      rewrite (pick_ext _ _ ks xs1 De) in I'. rewrite (pick_ext _ _ ks xs1 Al) in L'.
      rewrite (filter_ext_in _ _ _ De).
      split; [reflexivity|]. split.
      { intros q. rewrite M, set_spec. simpl. split; intuition auto. }
      assert (Rd' : read_slot c' ptr = Done (VPtr k)).
      { destruct ptr as [g'|k0]; simpl in Ow, Rd |- *.
        - subst g'. simpl in A'. rewrite G'. simpl. rewrite Cg in Rd. simpl in Rd. congruence.
        - destruct Ow as [O1 O2]. rewrite (Fr k0).
          + exact Rd.
          + intros I0. apply O1. now right.
          + intros ->. rewrite Cg in Rd. discriminate.
          + simpl. intros ->. apply O1. now left. }
      split; [exact Rd'|]. split; [econstructor; eauto|].
      split; [exact G'|]. split.
      { destruct ptr as [g'|k0]; auto. simpl in Ow. subst g'.
        simpl in Rd, Rd'. rewrite G' in Rd'. now injection Rd'. }
      split; [exact I'|]. split.
      { intros q I1 I2 I3. apply Fr; auto.
        - intros I0. apply I1. now right.
        - simpl. intros ->. apply I1. now left. }
      split; [|exact Nn].
      intros q [[<-|I0]|I0].
      * rewrite Ck, Rk. eauto.
      * apply Kc; auto.
      * destruct ptr as [g'|k0]; simpl in I0; [destruct I0|]. subst q.
        simpl in Ow. destruct Ow as [O1 O2].
        assert (k0 <> g) by (intros ->; simpl in Rd; rewrite Cg in Rd; discriminate).
        rewrite (Fr k0); auto.
        simpl in Rd. destruct (c k0) as [[]|]; try discriminate. eauto.
    + (* moved *)
      assert (Dp : dead m (VPtr p) = true) by (unfold dead; simpl; now rewrite MP).
      assert (Ap : alive m (VPtr p) = false) by exact MP.
      set (c1 := write_slot c ptr d).
      assert (W : exists a1, c1 g = Some (OGuardian a1 i) /\
                  (match ptr with SAcc _ => a1 = d | SCdr _ => a1 = a end)).
      { unfold c1. destruct ptr as [g'|k0]; simpl in Ow, Rd |- *.
        - subst g'. rewrite Cg. exists d. now rewrite put_same.
        - destruct (c k0) as [[]|] eqn:C0; try discriminate.
          exists a. rewrite put_other; auto. intros ->. congruence. }
      destruct W as (a1 & Cg1 & Ea1). rewrite Cg1.
      set (c2 := put (put c1 k (Some (OCons (VPtr p) i))) g (Some (OGuardian a1 (VPtr k)))).
      assert (Own : ~ at_slot ptr k).
      { destruct ptr as [g'|k0]; simpl in *; auto. intros ->. destruct Ow as [O1 _].
        apply O1. now left. }
      assert (C1 : forall q, q <> g -> ~ at_slot ptr q -> c1 q = c q).
      { intros q Q1 Q2. unfold c1. destruct ptr as [g'|k0]; simpl in Ow, Q2 |- *.
        - subst g'. rewrite Cg. now rewrite put_other.
        - destruct (c k0) as [[]|]; auto. now rewrite put_other. }
      assert (C2 : forall q, q <> g -> q <> k -> ~ at_slot ptr q -> c2 q = c q).
      { intros q Q1 Q2 Q3. unfold c2. rewrite !put_other by auto. auto. }
      assert (C2k : c2 k = Some (OCons (VPtr p) i)).
      { unfold c2. rewrite put_other by auto. apply put_same. }
      assert (C2g : c2 g = Some (OGuardian a1 (VPtr k))) by apply put_same.
      assert (C2s : forall k0, ptr = SCdr k0 -> exists y, c k0 = Some (OCons y (VPtr k)) /\
                      c2 k0 = Some (OCons y d)).
      { intros k0 ->. simpl in Rd, Own. destruct (c k0) as [[y z|  | | | | | | | |]|] eqn:C0;
          try discriminate. injection Rd as ->. exists y. split; auto.
        unfold c2, c1. simpl. rewrite C0. rewrite !put_other by congruence. apply put_same. }
      assert (Slot_ks : forall q, at_slot ptr q -> ~ In q ks).
      { intros q Q I0. destruct ptr as [g'|k0]; simpl in Q; auto. subst q.
        destruct Ow as [O1 _]. apply O1. now right. }
      assert (Slot_pk : forall q, at_slot ptr q -> ~ In q pk).
      { intros q Q I0. destruct ptr as [g'|k0]; simpl in Q; auto. subst q.
        destruct Ow as [_ O2]. auto. }
      assert (Gks : ~ In g ks).
      { intros I0. destruct (list_at_cons _ _ _ _ _ Ld I0) as (? & ? & ?). congruence. }
      assert (Gpk : ~ In g pk).
      { intros I0. destruct (list_at_cons _ _ _ _ _ Li I0) as (? & ? & ?). congruence. }
      assert (Nn2 : forall q, c q = None <-> c2 q = None).
      { intros q. destruct (Nat.eq_dec q g) as [->|Q1]; [rewrite C2g, Cg; split; discriminate|].
        destruct (Nat.eq_dec q k) as [->|Q2]; [rewrite C2k, Ck; split; discriminate|].
        destruct ptr as [g'|k0].
        - rewrite C2; auto. tauto.
        - destruct (Nat.eq_dec q k0) as [->|Q3].
          + destruct (C2s k0 eq_refl) as (y & -> & ->). split; discriminate.
          + rewrite C2; auto. tauto. }
      assert (L2 : list_at c2 d ks xs1).
      { apply list_at_frame with c; auto. intros q I0. apply C2.
        - intros ->; auto.
        - intros ->; auto.
        - intros Q. now apply (Slot_ks q Q). }
      assert (Li2 : list_at c2 (VPtr k) (k :: pk) (VPtr p :: px)).
      { econstructor; eauto. apply list_at_frame with c; auto. intros q I0. apply C2.
        - intros ->; auto.
        - intros ->. apply (Dj k); [now left | auto].
        - intros Q. now apply (Slot_pk q Q). }
      edestruct (IH xs1 fuel c2 (set m k) g ptr (VPtr p :: changed) d (VPtr k) (k :: pk)
                   (VPtr p :: px) a1)
        as (c' & m' & v' & a' & i' & E & M & R' & L' & G' & A' & I' & Fr & Kc & Nn); auto.
      { lia. }
      { destruct ptr as [g'|k0]; simpl in Ow |- *.
        - subst g'. rewrite C2g. congruence.
        - destruct (C2s k0 eq_refl) as (y & _ & ->). reflexivity. }
      { destruct ptr as [g'|k0]; simpl in Ow, Own |- *; auto. destruct Ow as [O1 O2]. split.
        - intros I0. apply O1. now right.
        - intros [->|I0]; auto. }
      { intros q I0 [->|I1]; auto. apply (Dj q); [now right | auto]. }
      { intros y I0. destruct (Ob1 y I0) as (q & -> & E2 & E3). exists q.
        split; [|split]; auto. intros X. apply E2. now apply Nn2. }
      rewrite E. exists c', m', v', a', i'.
      cbn [filter pick]. rewrite Dp, Ap.
      rewrite (filter_ext_in _ _ _ De) in E, I'. rewrite (filter_ext_in _ _ _ Al) in L'.
      rewrite (pick_ext _ _ ks xs1 De) in I'. rewrite (pick_ext _ _ ks xs1 Al) in L'.
      rewrite (filter_ext_in _ _ _ De).
      cbn [rev]. rewrite <- !app_assoc. cbn [app].
      split; [reflexivity|]. split.
      { intros q. rewrite M, set_spec. simpl. split; intuition auto. }
      split; [exact R'|]. split; [exact L'|]. split; [exact G'|]. split.
      { destruct ptr; congruence. }
      split; [exact I'|]. split.
      { intros q Q1 Q2 Q3. rewrite Fr; auto.
        - apply C2; auto. intros ->. apply Q1. now left.
        - intros I0. apply Q1. now right. }
      split.
      { intros q [[<-|I0]|I0].
        - rewrite (Fr k); auto. rewrite C2k, Ck. eauto.
        - destruct (Kc q (or_introl I0)) as (y & e & e' & E1 & E2).
          rewrite C2 in E1.
          + rewrite E1, E2. eauto.
          + intros ->; auto.
          + intros ->; auto.
          + intros Q. now apply (Slot_ks q Q).
        - destruct (Kc q (or_intror I0)) as (y & e & e' & E1 & E2).
          destruct ptr as [g'|k0]; simpl in I0; [destruct I0|]. subst q.
          destruct (C2s k0 eq_refl) as (y' & F1 & F2). rewrite F2 in E1.
          injection E1 as -> ->. rewrite F1, E2. eauto. }
      intros q. rewrite Nn2. apply Nn.
Qed.

Lemma nodup_app_disjoint {A} (l1 l2 : list A) x :
  NoDup (l1 ++ l2) -> In x l1 -> ~ In x l2.
Proof.
  induction l1 as [|y l1 IH]; simpl; intros N; [intros []|].
  inversion N; subst. intros [->|I] J.
  - apply H1, in_or_app. auto.
  - now apply (IH H2 I).
Qed.

Lemma nodup_app_l {A} (l1 l2 : list A) : NoDup (l1 ++ l2) -> NoDup l1.
Proof.
  induction l1 as [|y l1 IH]; simpl; intros N; [constructor|].
  inversion N; subst. constructor; auto. intros I. apply H1, in_or_app. auto.
Qed.

Lemma nodup_app_r {A} (l1 l2 : list A) : NoDup (l1 ++ l2) -> NoDup l2.
Proof.
  induction l1 as [|y l1 IH]; simpl; intros N; auto. inversion N; auto.
Qed.

Lemma scan_guardians_ok ds : forall fuel c m changed,
  (forall d, In d ds -> describes c d) ->
  NoDup (map g_loc ds) -> NoDup (all_cells ds) ->
  (forall d, In d ds -> length (g_cells d) < fuel) ->
  (forall k d, In k (all_cells ds) -> In d ds -> ~ In k (p_cells d)) ->
  (forall v, In v (all_guarded ds) ->
     exists p, v = VPtr p /\ c p <> None /\ ~ In p (all_cells ds)) ->
  exists c' m',
    scan_guardians fuel (map g_loc ds) c m changed =
      Done (c', m', rev (filter (dead m) (all_guarded ds)) ++ changed) /\
    (forall p, m' p = true <-> m p = true \/ In p (all_cells ds)) /\
    (forall d, In d ds -> describes c' (after_collect m d)) /\
    (forall p, ~ In p (all_cells ds) -> ~ In p (map g_loc ds) -> c' p = c p) /\
    (forall k, In k (all_cells ds) ->
       exists x e e', c k = Some (OCons x e) /\ c' k = Some (OCons x e')) /\
    (forall p, c p = None <-> c' p = None).
Proof.
  induction ds as [|d ds IH]; intros fuel c m changed De N1 N2 Fu Dj Ob.
  - exists c, m. simpl. split; [reflexivity|]. split; [intros; tauto|].
    split; [intros ? []|]. split; auto. split; [intros ? []|intros; tauto].
  - unfold all_cells in *. unfold all_guarded in *. simpl in *.
    fold (all_cells ds) in *. fold (all_guarded ds) in *.
    inversion N1 as [|? ? Ng N1']; subst.
    destruct (De d (or_introl eq_refl)) as (a & i & Cg & La & Li).
    destruct (scan_ok (g_cells d) (guarded d) fuel c m (g_loc d) (SAcc (g_loc d)) changed a i
                (p_cells d) (pending d) a)
      as (c1 & m1 & v' & a' & i' & E & M & R' & L' & G' & A' & I' & Fr & Kc & Nn); auto.
    { eapply nodup_app_l; eauto. }
    { simpl. now rewrite Cg. }
    { reflexivity. }
    { intros k I. apply Dj; auto. apply in_or_app. auto. }
    { intros x I. destruct (Ob x) as (p & E1 & E2 & E3); [apply in_or_app; auto|].
      exists p. split; [|split]; auto. intros J. apply E3, in_or_app. auto. }
    subst a'.
    assert (Al : forall v, In v (all_guarded ds) -> alive m1 v = alive m v).
    { intros v I. destruct (Ob v) as (p & -> & E2 & E3); [apply in_or_app; auto|]. simpl.
      destruct (m p) eqn:MP.
      - apply M. auto.
      - destruct (m1 p) eqn:MP1; auto. apply M in MP1. destruct MP1 as [X|X]; [congruence|].
        exfalso. apply E3, in_or_app. auto. }
    assert (Dd : forall v, In v (all_guarded ds) -> dead m1 v = dead m v).
    { intros v I. unfold dead. now rewrite Al. }
    assert (Fr1 : forall p, ~ In p (g_cells d) -> p <> g_loc d -> c1 p = c p).
    { intros p P1 P2. apply Fr; auto. }
    assert (Gl : forall d', In d' ds -> exists a0 i0, c1 (g_loc d') = Some (OGuardian a0 i0)).
    { intros d' I. destruct (De d' (or_intror I)) as (a0 & i0 & C0 & _). exists a0, i0.
      rewrite Fr1; auto.
      - intros J. destruct (list_at_cons _ _ _ _ _ La J) as (? & ? & ?). congruence.
      - intros J. apply Ng. rewrite <- J. now apply in_map. }
    destruct (IH fuel c1 m1 (rev (filter (dead m) (guarded d)) ++ changed))
      as (c' & m' & E2 & M2 & D2 & F2 & K2 & Nn2); auto.
    { intros d' I. destruct (De d' (or_intror I)) as (a0 & i0 & C0 & La0 & Li0).
      exists a0, i0. rewrite Fr1; auto.
      - split; [exact C0|]. split.
        + apply list_at_frame with c; auto. intros k J. apply Fr1.
          * intros J'. eapply nodup_app_disjoint in J'; [|exact N2]. apply J'.
            apply in_flat_map. eauto.
          * intros ->. destruct (list_at_cons _ _ _ _ _ La0 J) as (? & ? & ?). congruence.
        + apply list_at_frame with c; auto. intros k J. apply Fr1.
          * intros J'. apply (Dj k d'); auto. apply in_or_app. auto.
          * intros ->. destruct (list_at_cons _ _ _ _ _ Li0 J) as (? & ? & ?). congruence.
      - intros J. destruct (list_at_cons _ _ _ _ _ La J) as (? & ? & ?). congruence.
      - intros J. apply Ng. rewrite <- J. now apply in_map. }
    { eapply nodup_app_r; eauto. }
    { intros k d' J1 J2. apply Dj; auto. apply in_or_app. auto. }
    { intros v I. destruct (Ob v) as (p & -> & E3 & E4); [apply in_or_app; auto|].
      exists p. split; [|split]; auto.
      - intros X. apply E3. now apply Nn.
      - intros J. apply E4, in_or_app. auto. }
    exists c', m'. rewrite E. cbn [bind]. rewrite E2.
    rewrite (filter_ext_in _ _ _ Dd), filter_app, rev_app_distr, <- app_assoc.
    split; [reflexivity|]. split.
    { intros p. rewrite M2, M, in_app_iff. tauto. }
    split.
    { intros d' [<-|I].
      - exists v', i'. simpl.
        assert (Keep : forall k x e, c1 k = Some (OCons x e) -> ~ In k (all_cells ds) -> c' k = c1 k).
        { intros k x e C1 NI. apply F2; auto. intros J. apply in_map_iff in J.
          destruct J as (d' & <- & J). destruct (Gl d' J) as (? & ? & ?). congruence. }
        split; [|split].
        + rewrite F2; auto. intros J. destruct (K2 _ J) as (? & ? & ? & X & _). congruence.
        + apply list_at_frame with c1; auto. intros k J.
          destruct (list_at_cons _ _ _ _ _ L' J) as (x & e & X).
          eapply Keep; eauto. apply pick_in in J. eapply nodup_app_disjoint; eauto.
        + apply list_at_frame with c1; auto. intros k J.
          destruct (list_at_cons _ _ _ _ _ I' J) as (x & e & X).
          eapply Keep; eauto. apply in_app_or in J. destruct J as [J|J].
          * apply in_rev in J. apply pick_in in J. eapply nodup_app_disjoint; eauto.
          * intros J'. apply (Dj k d); auto. apply in_or_app. auto.
      - assert (AC : after_collect m d' = after_collect m1 d').
        { unfold after_collect.
          assert (Q : forall v, In v (guarded d') -> In v (all_guarded ds)).
          { intros v J. apply in_flat_map. eauto. }
          rewrite (pick_ext (alive m1) (alive m)) by auto.
          rewrite (pick_ext (dead m1) (dead m)) by auto.
          rewrite (filter_ext_in (alive m1) (alive m)) by auto.
          rewrite (filter_ext_in (dead m1) (dead m)) by auto. reflexivity. }
        rewrite AC. auto. }
    split.
    { intros p P1 P2. rewrite F2.
      - apply Fr1.
        + intros J. apply P1, in_or_app. auto.
        + intros ->. apply P2. now left.
      - intros J. apply P1, in_or_app. auto.
      - intros J. apply P2. now right. }
    split.
    { intros k J. apply in_app_or in J. destruct J as [J|J].
      - destruct (Kc k (or_introl J)) as (x & e & e' & X1 & X2).
        exists x, e, e'. split; auto. rewrite F2; auto.
        + eapply nodup_app_disjoint; eauto.
        + intros J'. apply in_map_iff in J'. destruct J' as (d' & <- & J').
          destruct (Gl d' J') as (? & ? & ?). congruence.
      - destruct (K2 k J) as (x & e & e' & X1 & X2).
        exists x, e, e'. split; auto. rewrite <- X1. symmetry. apply Fr1.
        + intros J'. revert J. eapply nodup_app_disjoint; eauto.
        + intros ->. congruence. }
    intros p. rewrite Nn. apply Nn2.
Qed.
