(** The result of a collection, and that it is again a well formed state. *)

From Coq Require Import ZArith List Bool Arith Lia.
Import ListNotations.
From Verif Require Import Gc_Model Gc_Spec Gc_Mark Gc_Guardians Gc_Sweep Gc_Proofs.

Record collected (ds : list guard) (s s' : state) (live kept : loc -> bool) : Prop := {
  co_marks : forall p, mark s' p = false;
  co_conses : conses s' = conses s;
  co_others : others s' = rev (filter kept (others s));
  co_guardians : guardians s' = rev (filter kept (guardians s));
  co_weak_refs : weak_refs s' = rev (filter kept (weak_refs s));
  co_free : free_at (cell s') (freelist s')
              (rev (filter (fun p => negb (kept p)) (conses s)));
  co_used : used_cons s' = length (filter kept (conses s));
  co_cons : forall p, In p (conses s) -> exists a d, cell s' p = Some (OCons a d);
  co_dead : forall p, In p (others s ++ guardians s) -> kept p = false -> cell s' p = None;
  co_weak : forall w v, cell s w = Some (OWeak v) -> kept w = true ->
    cell s' w = Some (OWeak (cleared kept v));
  co_same : forall p o, kept p = true -> cell s p = Some o ->
    (forall v, o <> OWeak v) -> ~ In p (all_cells ds) -> ~ In p (guardians s) ->
    cell s' p = Some o;
  co_static : forall p, cell s p = Some OStatic -> cell s' p = Some OStatic;
  co_none : forall p, cell s p = None -> cell s' p = None;
  co_own : forall k, In k (all_cells ds) ->
    exists x e e', cell s k = Some (OCons x e) /\ cell s' k = Some (OCons x e');
  co_describes : forall d, In d ds -> kept (g_loc d) = true ->
    describes (cell s') (after_collect live d)
}.

Section Whole.
Context (roots : list value) (ds : list guard) (s : state).
Hypothesis WF : well_formed roots ds s.
Hypothesis NL : no_lost_guardian roots ds s.

Lemma in_weak w v : cell s w = Some (OWeak v) -> In w (others s).
Proof.
  intros E. destruct (wf_all _ _ _ WF w _ E) as [|I]; [discriminate|].
  apply in_app_or in I. destruct I as [I|I].
  - destruct (wf_conses _ _ _ WF w I) as (? & ? & X). congruence.
  - apply in_app_or in I. destruct I as [I|I]; auto.
    rewrite <- (wf_guardians _ _ _ WF) in I. apply in_map_iff in I. destruct I as (g & <- & I).
    destruct (wf_describes _ _ _ WF g I) as (? & ? & X & _). congruence.
Qed.

Lemma guardian_kind p : In p (guardians s) -> exists a i, cell s p = Some (OGuardian a i).
Proof.
  rewrite <- (wf_guardians _ _ _ WF). intros I. apply in_map_iff in I.
  destruct I as (g & <- & I).
  destruct (wf_describes _ _ _ WF g I) as (? & ? & X & _). eauto.
Qed.

Lemma collect_ok fuel :
  length (dom s) < fuel ->
  exists s' live kept,
    collect fuel roots s = Done s' /\ decides roots s live /\
    keeps roots ds s live kept /\ collected ds s s' live kept.
Proof.
  intros FU. destruct (phase1 roots ds s WF fuel FU) as (m1 & E1 & LV).
  unfold collect. rewrite E1. cbn [bind]. unfold run_guardians. cbn [guardians cell mark].
  destruct (scan_guardians_ok ds fuel (cell s) m1 [])
    as (c2 & m2 & E2 & M2 & S1 & S2 & S3 & S4).
  { apply (wf_describes _ _ _ WF). }
  { rewrite (wf_guardians _ _ _ WF). pose proof (wf_nodup _ _ _ WF) as N.
    apply nodup_app_r in N. now apply nodup_app_r in N. }
  { apply (wf_own _ _ _ WF). }
  { intros d I. apply Nat.le_lt_trans with (2 := FU). apply NoDup_incl_length.
    - pose proof (wf_own _ _ _ WF) as N. apply in_split in I. destruct I as (l1 & l2 & ->).
      unfold all_cells in N. rewrite flat_map_app in N. simpl in N.
      apply nodup_app_r in N. now apply nodup_app_l in N.
    - intros k J. destruct (own_cons roots ds s WF k) as (x & e & X).
      + eapply cell_guard; eauto.
      + apply in_or_app. left. eapply in_conses; eauto. }
  { intros k d I J1 J2.
    destruct (pending_reach roots ds s WF NL d J1) as [P _].
    apply (wf_private _ _ _ WF k I). eapply reach_mono; [|apply P, J2].
    apply roots_all. }
  { intros v I. destruct (wf_guarded _ _ _ WF v I) as (p & ->). exists p.
    assert (R : reach (cell s) (roots ++ all_guarded ds) p).
    { apply reach_root, in_or_app. auto. }
    split; auto. split.
    - destruct (wf_reach _ _ _ WF p R) as (o & O & _). congruence.
    - intros J. now apply (wf_private _ _ _ WF p J). }
  rewrite <- (wf_guardians _ _ _ WF). rewrite E2. cbn [bind].
  rewrite app_nil_r. fold (saved m1 ds).
  assert (SC : scanned ds s m1 c2) by (repeat split; auto; apply S4).
  destruct (markvals_roots c2 (dom s)
     (fun p => protected roots ds s m1 p \/ moved ds m1 p)) with (fuel := fuel)
     (vs := rev (saved m1 ds)) (m := m2) as (m3 & E3 & P3).
  { intros p P. destruct (c2 p) as [o2|] eqn:C2.
    - exists o2. split; auto. destruct (scanned_kind roots ds s WF m1 c2 p o2 SC C2)
        as (o & O & _ & F). apply F. destruct P as [P|P].
      + destruct (protected_alloc roots ds s WF m1 p P) as (o' & O' & F').
        rewrite O in O'. now injection O' as ->.
      + apply moved_own in P. destruct (own_cons roots ds s WF p P) as (x & e & X).
        rewrite O in X. injection X as ->. simpl. auto.
    - exfalso. apply S4 in C2. destruct P as [P|P].
      + destruct (protected_alloc roots ds s WF m1 p P) as (o' & O' & F'). congruence.
      + apply moved_own in P. destruct (own_cons roots ds s WF p P) as (x & e & X). congruence. }
  { intros p o q P O I. eapply (scanned_step roots ds s WF NL m1 LV c2); eauto. }
  { intros p _ C. apply (collectable_dom roots ds s WF).
    now apply (scanned_collectable roots ds s WF m1 c2). }
  { intros p I. left. apply reach_root, in_or_app. right. now apply in_rev. }
  { unfold unmarked. pose proof (length_filter_le (fun p => negb (m2 p)) (dom s)). lia. }
  rewrite E3. cbn [bind weak_refs cell mark others conses guardians].
  assert (KP : keeps roots ds s m1 m3).
  { eapply (phase2_marks roots ds s WF NL m1 LV c2 m2); eauto.
    intros v. symmetry. apply in_rev. }
  assert (W2 : forall w v, cell s w = Some (OWeak v) <-> c2 w = Some (OWeak v)).
  { intros w v. destruct (in_dec Nat.eq_dec w (all_cells ds)) as [I|I].
    - destruct (S3 w I) as (x & e & e' & X1 & X2). rewrite X1, X2. split; discriminate.
    - destruct (in_dec Nat.eq_dec w (map g_loc ds)) as [G|G].
      + apply in_map_iff in G. destruct G as (d & <- & Id).
        destruct (S1 d Id) as (a & i & X1 & _). simpl in X1. rewrite X1.
        destruct (wf_describes _ _ _ WF d Id) as (a0 & i0 & X & _). rewrite X.
        split; discriminate.
      + now rewrite S2. }
  destruct (scan_weak_ok (weak_refs s) c2 m3 []) as (c3 & E4 & W3 & F3).
  { apply (wf_weak_nodup _ _ _ WF). }
  { intros w I. apply (wf_weak _ _ _ WF) in I. destruct I as (v & C). exists v.
    split; [now apply W2|]. pose proof (wf_referent _ _ _ WF w v C) as R.
    destruct v as [| |q]; auto. intros X. apply (proj1 R). now apply S4. }
  rewrite E4. cbn [bind]. rewrite app_nil_r.
  assert (ND := wf_nodup _ _ _ WF).
  assert (NDo : NoDup (others s)) by (apply nodup_app_r, nodup_app_l in ND; auto).
  assert (NDc : NoDup (conses s)) by (apply nodup_app_l in ND; auto).
  assert (NDg : NoDup (guardians s)) by (apply nodup_app_r, nodup_app_r in ND; auto).
  assert (D1 : forall p, In p (conses s) -> ~ In p (others s) /\ ~ In p (guardians s)).
  { intros p I. split; intros J.
    - destruct (wf_conses _ _ _ WF p I) as (a & d & X).
      destruct (wf_others _ _ _ WF p J) as (o & O & P). rewrite X in O. injection O as <-.
      destruct P.
    - destruct (wf_conses _ _ _ WF p I) as (a & d & X).
      destruct (guardian_kind p J) as (? & ? & Y). congruence. }
  assert (D2 : forall p, In p (others s) -> ~ In p (guardians s)).
  { intros p I J. destruct (wf_others _ _ _ WF p I) as (o & O & P).
    destruct (guardian_kind p J) as (? & ? & Y). rewrite Y in O. injection O as <-. destruct P. }
  destruct (chain_sweep_ok (others s) c3 m3 [] NDo) as (c4 & m4 & E5 & F4 & K4).
  rewrite E5. rewrite app_nil_r. cbn [used_cons freelist].
  destruct (cons_sweep_ok (conses s) c4 m4 VNull [] 0) as (c5 & m5 & fr & E6 & Fl & F5 & K5); auto.
  { intros p I. destruct (F4 p) as [X _]; [apply D1, I|]. rewrite X.
    destruct (in_dec Nat.eq_dec p (weak_refs s)) as [W|W].
    - apply (wf_weak _ _ _ WF) in W. destruct W as (v & W).
      destruct (wf_conses _ _ _ WF p I) as (? & ? & Y). congruence.
    - rewrite F3 by auto. destruct (in_dec Nat.eq_dec p (all_cells ds)) as [O|O].
      + destruct (S3 p O) as (x & e & e' & X1 & X2). eauto.
      + rewrite S2; auto.
        * apply (wf_conses _ _ _ WF p I).
        * rewrite (wf_guardians _ _ _ WF). apply D1, I. }
  { constructor. }
  rewrite E6.
  rewrite (wf_guardians _ _ _ WF).
  destruct (chain_sweep_ok (guardians s) c5 m5 [] NDg) as (c6 & m6 & E7 & F6 & K6).
  rewrite E7. rewrite app_nil_r.
  eexists. exists m1, m3. split; [reflexivity|]. split; [exact LV|]. split; [exact KP|].
  (* the marks seen by each sweep *)
  assert (M4 : forall p, ~ In p (others s) -> m4 p = m3 p) by (intros; now apply F4).
  assert (M5 : forall p, ~ In p (conses s) -> m5 p = m4 p) by (intros; now apply F5).
  assert (M4c : forall p, In p (conses s) -> m4 p = m3 p) by (intros p I; apply M4; apply (D1 p I)).
  assert (M5g : forall p, In p (guardians s) -> m5 p = m3 p).
  { intros p I. rewrite M5, M4; auto.
    - intros J. now apply (D2 p J).
    - intros J. now destruct (D1 p J). }
  (* the contents of each kind of cell *)
  assert (WO : forall p, In p (weak_refs s) -> In p (others s)).
  { intros p I. apply (wf_weak _ _ _ WF) in I. destruct I as (v & I). eapply in_weak; eauto. }
  assert (C_other : forall p, In p (others s) ->
            c6 p = if m3 p then c3 p else None).
  { intros p I. destruct (F6 p) as [-> _]; [now apply D2|].
    destruct (F5 p) as [-> _]; [intros J; now destruct (D1 p J)|].
    apply K4; auto. }
  assert (C_cons : forall p, In p (conses s) -> m3 p = true -> c6 p = c2 p).
  { intros p I M. destruct (F6 p) as [-> _]; [now apply (D1 p)|].
    destruct (K5 p I) as (_ & K & _). rewrite K by (rewrite M4c; auto).
    destruct (F4 p) as [-> _]; [now apply (D1 p)|].
    apply F3. intros J. apply (proj1 (D1 p I)). auto. }
  assert (C_guard : forall p, In p (guardians s) -> c6 p = if m3 p then c2 p else None).
  { intros p I. destruct (K6 p I) as [_ ->]. rewrite M5g by auto. destruct (m3 p); auto.
    destruct (F5 p) as [-> _]; [intros J; now destruct (D1 p J)|].
    destruct (F4 p) as [-> _]; [intros J; now apply (D2 p J)|].
    apply F3. intros J. now apply (D2 p (WO p J)). }
  assert (C_rest : forall p, ~ In p (dom s) -> c6 p = cell s p).
  { intros p I. unfold dom in I. rewrite !in_app_iff in I.
    destruct (F6 p) as [-> _]; [tauto|]. destruct (F5 p) as [-> _]; [tauto|].
    destruct (F4 p) as [-> _]; [tauto|]. rewrite F3.
    - apply S2.
      + intros J. apply I. destruct (own_cons roots ds s WF p J) as (x & e & X).
        left. eapply in_conses; eauto.
      + rewrite (wf_guardians _ _ _ WF). tauto.
    - intros J. apply I. auto. }
  constructor; cbn [mark cell conses others guardians weak_refs freelist used_cons]; auto.
  - intros p. destruct (m6 p) eqn:E; auto. exfalso.
    destruct (in_dec Nat.eq_dec p (guardians s)) as [G|G].
    { destruct (K6 p G). congruence. }
    destruct (F6 p G) as [_ X]. rewrite E in X. symmetry in X.
    destruct (in_dec Nat.eq_dec p (conses s)) as [G1|G1].
    { destruct (K5 p G1). congruence. }
    destruct (F5 p G1) as [_ Y]. rewrite X in Y. symmetry in Y.
    destruct (in_dec Nat.eq_dec p (others s)) as [G2|G2].
    { destruct (K4 p G2). congruence. }
    destruct (F4 p G2) as [_ Z]. rewrite Y in Z. symmetry in Z.
    apply KP in Z. destruct Z as [Z _]. apply (collectable_dom roots ds s WF) in Z.
    unfold dom in Z. rewrite !in_app_iff in Z. tauto.
  - f_equal. apply filter_ext_in. exact M5g.
  - rewrite app_nil_r in Fl. apply free_at_frame with c5.
    + intros k I. apply in_rev in I. apply filter_In in I. destruct I as [I _].
      apply F6. now apply (D1 k).
    + erewrite filter_ext_in; [exact Fl|]. intros p I. simpl. now rewrite M4c.
  - erewrite filter_ext_in; [reflexivity|]. intros p I. simpl. now rewrite M4c.
  - intros p I. destruct (F6 p) as [-> _]; [now apply (D1 p)|]. now apply K5.
  - intros p I K. apply in_app_or in I. destruct I as [I|I].
    + rewrite C_other, K; auto.
    + rewrite C_guard, K; auto.
  - intros w v Cw K. rewrite C_other by (eapply in_weak; eauto). rewrite K.
    rewrite (W3 w v).
    + now rewrite K.
    + apply (wf_weak _ _ _ WF). eauto.
    + now apply W2.
  - intros p o K O NW NO NG.
    assert (C2 : c2 p = Some o).
    { rewrite S2; auto. now rewrite (wf_guardians _ _ _ WF). }
    destruct (wf_all _ _ _ WF p o O) as [->|I].
    { apply KP in K. destruct K as ((o' & O' & N) & _). congruence. }
    rewrite !in_app_iff in I. destruct I as [I|[I|I]]; [| |tauto].
    + rewrite C_cons; auto.
    + rewrite C_other, K by auto. rewrite F3; auto.
      intros J. apply (wf_weak _ _ _ WF) in J. destruct J as (v & J).
      rewrite O in J. injection J as ->. now apply (NW v).
  - intros p O. rewrite C_rest; auto. intros I.
    unfold dom in I. rewrite !in_app_iff in I. destruct I as [I|[I|I]].
    + destruct (wf_conses _ _ _ WF p I) as (? & ? & X). congruence.
    + destruct (wf_others _ _ _ WF p I) as (o & O' & P). rewrite O in O'. injection O' as <-.
      destruct P.
    + destruct (guardian_kind p I) as (? & ? & X). congruence.
  - intros p O. rewrite C_rest; auto. intros I.
    unfold dom in I. rewrite !in_app_iff in I. destruct I as [I|[I|I]].
    + destruct (wf_conses _ _ _ WF p I) as (? & ? & X). congruence.
    + destruct (wf_others _ _ _ WF p I) as (o & O' & P). congruence.
    + destruct (guardian_kind p I) as (? & ? & X). congruence.
  - intros k I. destruct (S3 k I) as (x & e & e' & X1 & X2). exists x, e, e'. split; auto.
    rewrite C_cons; auto.
    + eapply in_conses; eauto.
    + apply KP. split; auto. exists (OCons x e). split; auto. discriminate.
  - intros d I K. destruct (S1 d I) as (a & i & X1 & X2 & X3). simpl in X1, X2, X3.
    exists a, i. simpl. split.
    { rewrite C_guard, K; auto. eapply guard_in; eauto. }
    assert (Own : forall k, In k (all_cells ds) -> c6 k = c2 k).
    { intros k J. destruct (own_cons roots ds s WF k J) as (x & e & X).
      apply C_cons; [eapply in_conses; eauto|]. apply KP. split; auto.
      exists (OCons x e). split; auto. discriminate. }
    split.
    + apply list_at_frame with c2; auto. intros k J. apply Own. apply pick_in in J.
      eapply cell_guard; eauto.
    + apply list_at_frame with c2; auto. intros k J. apply in_app_or in J. destruct J as [J|J].
      * apply Own. apply in_rev, pick_in in J. eapply cell_guard; eauto.
      * destruct (pending_reach roots ds s WF NL d I) as [P _].
        destruct (wf_describes _ _ _ WF d I) as (a0 & i0 & _ & _ & Li).
        destruct (list_at_cons _ _ _ _ _ Li J) as (x & e & X).
        apply C_cons; [eapply in_conses; eauto|]. apply KP. split.
        -- exists (OCons x e). split; auto. discriminate.
        -- left. apply roots_protected, P, J.
Qed.
End Whole.
