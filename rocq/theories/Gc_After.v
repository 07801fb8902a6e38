(** The state after a collection is well formed again. *)

From Coq Require Import ZArith List Bool Arith Lia.
Import ListNotations.
From Verif Require Import Gc_Model Gc_Spec Gc_Mark Gc_Guardians Gc_Sweep Gc_Proofs Gc_Collect.

Section After.
Context (roots : list value) (ds : list guard) (s s' : state) (live kept : loc -> bool).
Hypothesis WF : well_formed roots ds s.
Hypothesis NL : no_lost_guardian roots ds s.
Hypothesis LV : decides roots s live.
Hypothesis KP : keeps roots ds s live kept.
Hypothesis CO : collected ds s s' live kept.

Local Notation ds' := (guards_after live kept ds).

Lemma kept_protected p : collectable (cell s) p -> protected roots ds s live p -> kept p = true.
Proof. intros C P. apply KP. auto. Qed.

Lemma kept_own k : In k (all_cells ds) -> kept k = true.
Proof.
  intros I. apply KP. split; auto. destruct (own_cons roots ds s WF k I) as (x & e & X).
  exists (OCons x e). split; auto. discriminate.
Qed.

Lemma in_guards d' : In d' ds' <->
  exists d, In d ds /\ kept (g_loc d) = true /\ d' = after_collect live d.
Proof.
  unfold guards_after. rewrite in_map_iff. split.
  - intros (d & <- & I). apply in_rev, filter_In in I. exists d. tauto.
  - intros (d & I & K & ->). exists d. split; auto. apply -> in_rev. apply filter_In. auto.
Qed.

Lemma cells_after k : In k (all_cells ds') -> In k (all_cells ds) /\
  exists d, In d ds /\ In k (pick (alive live) (g_cells d) (guarded d)).
Proof.
  intros I. apply in_flat_map in I. destruct I as (d' & I & J). apply in_guards in I.
  destruct I as (d & I & K & ->). simpl in J. split; eauto.
  apply pick_in in J. eapply cell_guard; eauto.
Qed.

Lemma guarded_after v : In v (all_guarded ds') -> In v (all_guarded ds) /\ alive live v = true.
Proof.
  intros I. apply in_flat_map in I. destruct I as (d' & I & J). apply in_guards in I.
  destruct I as (d & I & K & ->). simpl in J. apply filter_In in J. destruct J as [J1 J2].
  split; auto. eapply guarded_all; eauto.
Qed.

Definition moved_kept (p : loc) : Prop :=
  exists d, In d ds /\ kept (g_loc d) = true /\ In p (pick (dead live) (g_cells d) (guarded d)).

Lemma pick_split f ks xs k :
  NoDup ks -> In k (pick f ks xs) -> ~ In k (pick (fun x => negb (f x)) ks xs).
Proof.
  intros N. revert xs. induction N as [|k' ks H N IH]; intros [|x xs]; simpl; auto.
  destruct (f x); simpl.
  - intros [->|I] J.
    + apply H. eapply pick_in; eauto.
    + now apply (IH xs).
  - intros I [->|J].
    + apply H. eapply pick_in; eauto.
    + now apply (IH xs).
Qed.

Lemma cells_same_guard d1 d2 k :
  In d1 ds -> In d2 ds -> In k (g_cells d1) -> In k (g_cells d2) -> d1 = d2.
Proof.
  intros I1 I2 J1 J2. pose proof (wf_own _ _ _ WF) as N. revert I1 I2 N.
  unfold all_cells. clear - J1 J2. induction ds as [|d l IH]; simpl; [intros []|].
  intros [->|I1] [->|I2] N; auto.
  - exfalso. eapply nodup_app_disjoint; [exact N | exact J1 |]. apply in_flat_map. eauto.
  - exfalso. eapply nodup_app_disjoint; [exact N | exact J2 |]. apply in_flat_map. eauto.
  - apply nodup_app_r in N. auto.
Qed.

Lemma guard_cells_nodup d : In d ds -> NoDup (g_cells d).
Proof.
  intros I. pose proof (wf_own _ _ _ WF) as N. apply in_split in I. destruct I as (l1 & l2 & E).
  rewrite E in N. unfold all_cells in N. rewrite flat_map_app in N. simpl in N.
  apply nodup_app_r in N. now apply nodup_app_l in N.
Qed.

Lemma moved_not_own k : moved_kept k -> ~ In k (all_cells ds').
Proof.
  intros (d & I & K & J) A. apply cells_after in A. destruct A as (_ & d2 & I2 & J2).
  assert (d2 = d) as ->.
  { eapply cells_same_guard; eauto; eapply pick_in; eauto. }
  eapply pick_split; [apply (guard_cells_nodup d I) | exact J2 | exact J].
Qed.

Lemma after_step p o q :
  protected roots ds s live p \/ moved_kept p ->
  cell s' p = Some o -> In (VPtr q) (strong o) ->
  protected roots ds s live q \/ moved_kept q.
Proof.
  intros P O I.
  assert (Cells : forall d x, In d ds -> kept (g_loc d) = true ->
     In x (rev (pick (dead live) (g_cells d) (guarded d)) ++ p_cells d) ->
     protected roots ds s live x \/ moved_kept x).
  { intros d x Id K J. apply in_app_or in J. destruct J as [J|J].
    - right. exists d. split; auto. split; auto. now apply in_rev.
    - left. apply roots_protected. apply (proj1 (pending_reach roots ds s WF NL d Id)); auto. }
  destruct P as [P|P].
  - destruct (protected_alloc roots ds s WF live p P) as (o0 & O0 & _).
    destruct (in_dec Nat.eq_dec p (guardians s)) as [G|G].
    + assert (K : kept p = true).
      { apply kept_protected; auto. destruct (guardian_kind roots ds s WF p G) as (a & i & X).
        exists (OGuardian a i). split; auto. discriminate. }
      rewrite <- (wf_guardians _ _ _ WF) in G.
      apply in_map_iff in G. destruct G as (d & <- & Id).
      destruct (co_describes _ _ _ _ _ CO d Id K) as (a & i & X1 & X2 & X3).
      simpl in X1. rewrite X1 in O.
      injection O as <-. simpl in I. destruct I as [->|[]].
      simpl in X3. destruct (list_at_head _ _ _ _ q X3 eq_refl) as [->|J].
      * left. apply nil_protected. exact WF.
      * eapply Cells; eauto.
    + left.
      assert (D : (forall v, o0 <> OWeak v) \/ exists v, o0 = OWeak v).
      { destruct o0; eauto; left; discriminate. }
      assert (S : o0 = OStatic \/ o0 <> OStatic) by (destruct o0; auto; right; discriminate).
      destruct S as [->|S].
      { rewrite (co_static _ _ _ _ _ CO p O0) in O. injection O as <-. destruct I. }
      assert (K : kept p = true) by (apply kept_protected; auto; exists o0; auto).
      destruct D as [D|(v & ->)].
      * rewrite (co_same _ _ _ _ _ CO p o0) in O; auto.
        -- injection O as <-. eapply reach_step; eauto.
        -- eapply protected_private; eauto.
      * rewrite (co_weak _ _ _ _ _ CO p v) in O; auto. injection O as <-. destruct I.
  - destruct P as (d & Id & K & J).
    destruct (co_describes _ _ _ _ _ CO d Id K) as (a & i & X1 & X2 & X3). simpl in X3.
    assert (J' : In p (rev (pick (dead live) (g_cells d) (guarded d)) ++ p_cells d)).
    { apply in_or_app. left. now apply -> in_rev. }
    destruct (list_at_elem _ _ _ _ _ X3 J') as (x & e & X4 & X5 & X6).
    rewrite X4 in O. injection O as <-. simpl in I. destruct I as [->|[->|[]]].
    + left. apply in_app_or in X5. destruct X5 as [X5|X5].
      * apply in_rev in X5. apply filter_In in X5. apply guarded_protected; auto.
        eapply guarded_all; [exact Id | apply X5].
      * apply roots_protected. apply (proj2 (pending_reach roots ds s WF NL d Id)); auto.
    + destruct X6 as [[= ->]|(k' & X6 & [= ->])].
      * left. apply nil_protected. exact WF.
      * eapply Cells; eauto.
Qed.

Lemma reach_after p :
  reach (cell s') (roots ++ all_guarded ds') p -> protected roots ds s live p \/ moved_kept p.
Proof.
  intros R. induction R as [p I|p o q R IH O I].
  - left. apply in_app_or in I. destruct I as [I|I].
    + apply reach_root, in_or_app. auto.
    + apply guarded_after in I. apply guarded_protected; auto. tauto.
  - eapply after_step; eauto.
Qed.

Lemma alloc_after p : protected roots ds s live p \/ moved_kept p ->
  exists o, cell s' p = Some o /\ fn_ok o.
Proof.
  intros [P|P].
  - destruct (protected_alloc roots ds s WF live p P) as (o0 & O0 & F).
    assert (S : o0 = OStatic \/ o0 <> OStatic) by (destruct o0; auto; right; discriminate).
    destruct S as [->|S].
    { exists OStatic. split; auto. now apply (co_static _ _ _ _ _ CO). }
    assert (K : kept p = true) by (apply kept_protected; auto; exists o0; auto).
    destruct (in_dec Nat.eq_dec p (guardians s)) as [G|G].
    + rewrite <- (wf_guardians _ _ _ WF) in G.
      apply in_map_iff in G. destruct G as (d & <- & Id).
      destruct (co_describes _ _ _ _ _ CO d Id K) as (a & i & X1 & X2 & X3).
      simpl in X1. rewrite X1. eexists. split; [reflexivity|]. simpl. auto.
    + assert (D : (forall v, o0 <> OWeak v) \/ exists v, o0 = OWeak v).
      { destruct o0; eauto; left; discriminate. }
      destruct D as [D|(v & ->)].
      * exists o0. split; auto. apply (co_same _ _ _ _ _ CO); auto.
        eapply protected_private; eauto.
      * rewrite (co_weak _ _ _ _ _ CO p v); auto. eexists. split; [reflexivity|]. simpl. auto.
  - destruct P as (d & Id & K & J). apply pick_in in J.
    destruct (co_own _ _ _ _ _ CO p) as (x & e & e' & X1 & X2).
    { eapply cell_guard; eauto. }
    rewrite X2. eexists. split; [reflexivity|]. simpl. auto.
Qed.

Lemma in_filter_rev {A} (f : A -> bool) l x : In x (rev (filter f l)) <-> In x l /\ f x = true.
Proof. rewrite <- in_rev. apply filter_In. Qed.

Lemma nodup_rev_filter {A} (f : A -> bool) (l : list A) : NoDup l -> NoDup (rev (filter f l)).
Proof. intros N. apply NoDup_rev. now apply NoDup_filter. Qed.

Lemma nodup_app {A} (l1 l2 : list A) :
  NoDup l1 -> NoDup l2 -> (forall x, In x l1 -> ~ In x l2) -> NoDup (l1 ++ l2).
Proof.
  induction 1 as [|x l1 H N IH]; simpl; intros N2 D; auto. constructor.
  - intros I. apply in_app_or in I. destruct I as [I|I]; [auto|].
    apply (D x); auto.
  - apply IH; auto.
Qed.

Lemma own_after : NoDup (all_cells ds').
Proof.
  unfold guards_after, all_cells. rewrite flat_map_concat_map, map_map.
  rewrite <- flat_map_concat_map.
  assert (N : NoDup (flat_map g_cells ds)) by apply (wf_own _ _ _ WF).
  assert (Sub : forall l, NoDup (flat_map g_cells l) ->
     NoDup (flat_map (fun d => g_cells (after_collect live d)) l)).
  { induction l as [|d l IH]; simpl; intros H; auto.
    apply nodup_app.
    - apply pick_nodup. now apply nodup_app_l in H.
    - apply IH. now apply nodup_app_r in H.
    - intros x J1 J2. apply pick_in in J1. apply in_flat_map in J2.
      destruct J2 as (d2 & J2 & J3). simpl in J3. apply pick_in in J3.
      eapply nodup_app_disjoint; [exact H | exact J1 |]. apply in_flat_map. eauto. }
  apply Sub. clear Sub.
  assert (Fi : forall l, NoDup (flat_map g_cells l) ->
    NoDup (flat_map g_cells (filter (fun d => kept (g_loc d)) l))).
  { induction l as [|d l IH]; simpl; intros H; auto.
    destruct (kept (g_loc d)); simpl.
    - apply nodup_app.
      + now apply nodup_app_l in H.
      + apply IH. now apply nodup_app_r in H.
      + intros x J1 J2. apply in_flat_map in J2. destruct J2 as (d2 & J2 & J3).
        apply filter_In in J2. eapply nodup_app_disjoint; [exact H | exact J1 |].
        apply in_flat_map. exists d2. tauto.
    - apply IH. now apply nodup_app_r in H. }
  assert (Re : forall l, NoDup (flat_map g_cells l) -> NoDup (flat_map g_cells (rev l))).
  { induction l as [|d l IH]; simpl; intros H; auto.
    rewrite flat_map_app. simpl. rewrite app_nil_r. apply nodup_app.
    - apply IH. now apply nodup_app_r in H.
    - now apply nodup_app_l in H.
    - intros x J1 J2. apply in_flat_map in J1. destruct J1 as (d2 & J1 & J3).
      apply in_rev in J1. eapply nodup_app_disjoint; [exact H | exact J2 |].
      apply in_flat_map. eauto. }
  auto.
Qed.

Lemma well_formed_after : well_formed roots ds' s'.
Proof.
  assert (D1 : forall p, In p (conses s) -> ~ In p (others s)).
  { intros p I J. destruct (wf_conses _ _ _ WF p I) as (a & d & X).
    destruct (wf_others _ _ _ WF p J) as (o & O & P). rewrite X in O. injection O as <-.
    destruct P. }
  assert (D3 : forall p, In p (conses s) -> ~ In p (guardians s)).
  { intros p I J. destruct (wf_conses _ _ _ WF p I) as (a & d & X).
    destruct (guardian_kind roots ds s WF p J) as (? & ? & Y). congruence. }
  assert (D2 : forall p, In p (others s) -> ~ In p (guardians s)).
  { intros p I J. destruct (wf_others _ _ _ WF p I) as (o & O & P).
    destruct (guardian_kind roots ds s WF p J) as (? & ? & Y). rewrite Y in O.
    injection O as <-. destruct P. }
  assert (ND := wf_nodup _ _ _ WF).
  assert (Wk : forall w v, cell s' w = Some (OWeak v) -> In w (others s) /\ kept w = true /\
            exists v0, cell s w = Some (OWeak v0) /\ v = cleared kept v0).
  { intros w v E. destruct (cell s w) as [o|] eqn:O.
    - destruct (wf_all _ _ _ WF w o O) as [->|I].
      { rewrite (co_static _ _ _ _ _ CO w O) in E. discriminate. }
      rewrite !in_app_iff in I. destruct I as [I|[I|I]].
      + destruct (co_cons _ _ _ _ _ CO w I) as (? & ? & X). congruence.
      + destruct (kept w) eqn:K.
        * split; auto. split; auto.
          assert (D : (forall v, o <> OWeak v) \/ exists v, o = OWeak v).
          { destruct o; eauto; left; discriminate. }
          destruct D as [D|(v0 & ->)].
          -- rewrite (co_same _ _ _ _ _ CO w o) in E; auto.
             ++ injection E as ->. exfalso. now apply (D v).
             ++ intros J. destruct (own_cons roots ds s WF w J) as (? & ? & X).
                destruct (wf_others _ _ _ WF w I) as (o' & O' & P'). rewrite X in O'.
                injection O' as <-. destruct P'.
          -- exists v0. split; auto. rewrite (co_weak _ _ _ _ _ CO w v0 O K) in E.
             now injection E.
        * rewrite (co_dead _ _ _ _ _ CO w) in E; [discriminate| |auto].
          apply in_or_app. auto.
      + destruct (kept w) eqn:K.
        * rewrite <- (wf_guardians _ _ _ WF) in I. apply in_map_iff in I.
          destruct I as (d & <- & I).
          destruct (co_describes _ _ _ _ _ CO d I K) as (? & ? & X & _). simpl in X. congruence.
        * rewrite (co_dead _ _ _ _ _ CO w) in E; [discriminate| |auto].
          apply in_or_app. auto.
    - rewrite (co_none _ _ _ _ _ CO w O) in E. discriminate. }
  constructor.
  - apply (co_marks _ _ _ _ _ CO).
  - rewrite (co_guardians _ _ _ _ _ CO), <- (wf_guardians _ _ _ WF).
    unfold guards_after. rewrite map_map. simpl.
    assert (E : forall l, map g_loc (rev (filter (fun d => kept (g_loc d)) l)) =
                     rev (filter kept (map g_loc l))).
    { induction l as [|d l IH]; simpl; auto. destruct (kept (g_loc d)); simpl; auto.
      rewrite map_app, IH. reflexivity. }
    apply E.
  - intros d' I. apply in_guards in I. destruct I as (d & I & K & ->).
    now apply (co_describes _ _ _ _ _ CO).
  - rewrite (co_conses _ _ _ _ _ CO), (co_others _ _ _ _ _ CO), (co_guardians _ _ _ _ _ CO).
    apply nodup_app; [now apply nodup_app_l in ND| |].
    + apply nodup_app.
      * apply nodup_rev_filter. apply nodup_app_r, nodup_app_l in ND. auto.
      * apply nodup_rev_filter. apply nodup_app_r, nodup_app_r in ND. auto.
      * intros x I J. apply in_filter_rev in I, J. apply (D2 x); tauto.
    + intros x I J. rewrite in_app_iff, !in_filter_rev in J.
      destruct J as [J|J]; [apply (D1 x); tauto | apply (D3 x); tauto].
  - intros p I. rewrite (co_conses _ _ _ _ _ CO) in I. now apply (co_cons _ _ _ _ _ CO).
  - intros p I. rewrite (co_others _ _ _ _ _ CO) in I. apply in_filter_rev in I.
    destruct I as [I K]. destruct (wf_others _ _ _ WF p I) as (o & O & P).
    assert (D : (forall v, o <> OWeak v) \/ exists v, o = OWeak v).
    { destruct o; eauto; left; discriminate. }
    destruct D as [D|(v & ->)].
    + exists o. split; auto. apply (co_same _ _ _ _ _ CO); auto.
      intros J. destruct (own_cons roots ds s WF p J) as (? & ? & X).
      rewrite X in O. injection O as <-. destruct P.
    + rewrite (co_weak _ _ _ _ _ CO p v); auto. eexists. split; [reflexivity|]. simpl. auto.
  - intros p o O. destruct (cell s p) as [o0|] eqn:O0.
    + destruct (wf_all _ _ _ WF p o0 O0) as [->|I].
      { rewrite (co_static _ _ _ _ _ CO p O0) in O. injection O as <-. auto. }
      right. rewrite (co_conses _ _ _ _ _ CO), (co_others _ _ _ _ _ CO),
               (co_guardians _ _ _ _ _ CO).
      rewrite !in_app_iff in I. rewrite !in_app_iff, !in_filter_rev.
      destruct (kept p) eqn:K; [tauto|]. destruct I as [I|I]; auto.
      rewrite (co_dead _ _ _ _ _ CO p) in O; [discriminate| |auto]. apply in_or_app. tauto.
    + rewrite (co_none _ _ _ _ _ CO p O0) in O. discriminate.
  - apply own_after.
  - intros k I R. apply reach_after in R. destruct R as [R|R].
    + apply (protected_private roots ds s WF live k R). now apply cells_after.
    + now apply (moved_not_own k R).
  - intros v I. apply guarded_after in I. now apply (wf_guarded _ _ _ WF).
  - intros p R. apply alloc_after. now apply reach_after.
  - rewrite (co_weak_refs _ _ _ _ _ CO). apply nodup_rev_filter. apply (wf_weak_nodup _ _ _ WF).
  - intros w. rewrite (co_weak_refs _ _ _ _ _ CO), in_filter_rev. split.
    + intros [I K]. apply (wf_weak _ _ _ WF) in I. destruct I as (v & I).
      exists (cleared kept v). now apply (co_weak _ _ _ _ _ CO).
    + intros (v & E). apply Wk in E. destruct E as (I & K & v0 & E & _). split; auto.
      apply (wf_weak _ _ _ WF). eauto.
  - intros w v E. apply Wk in E. destruct E as (I & K & v0 & E & ->).
    pose proof (wf_referent _ _ _ WF w v0 E) as R. destruct v0 as [|z|q]; simpl; auto.
    assert (NA : exists o, cell s' nil_loc = Some o).
    { destruct (alloc_after nil_loc) as (o & O & _); eauto. left. now apply nil_protected. }
    destruct R as [R1 R2]. destruct (kept q) eqn:Kq; simpl.
    + split.
      * assert (Q := proj1 (KP q) Kq). destruct Q as [_ [Q|Q]]; [|tauto].
        destruct (alloc_after q (or_introl Q)) as (o & O & _). congruence.
      * intros J. apply R2. now apply cells_after.
    + split.
      * destruct NA. congruence.
      * intros J. apply cells_after in J. destruct J as [J _].
        apply (protected_private roots ds s WF live nil_loc); auto. now apply nil_protected.
  - split; [apply (wf_nil _ _ _ WF)|]. destruct (wf_nil _ _ _ WF) as (In & n & x & E).
    exists n, x. apply (co_same _ _ _ _ _ CO); auto.
    + apply kept_protected; [eapply nil_collectable; eauto | now apply nil_protected].
    + discriminate.
    + apply (protected_private roots ds s WF live). now apply nil_protected.
    + intros J. destruct (guardian_kind roots ds s WF _ J) as (? & ? & X). congruence.
Qed.
End After.
