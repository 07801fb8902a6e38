(** A whole collection. *)

From Coq Require Import ZArith List Bool Arith Lia.
Import ListNotations.
From Verif Require Import Gc_Model Gc_Spec Gc_Mark Gc_Guardians Gc_Sweep.

Definition dom (s : state) : list loc := conses s ++ others s ++ guardians s.

Lemma list_at_elem c v ks xs k :
  list_at c v ks xs -> In k ks ->
  exists x d, c k = Some (OCons x d) /\ In x xs /\
    (d = Qnil \/ exists k', In k' ks /\ d = VPtr k').
Proof.
  induction 1 as [|k0 x d ks xs N C L IH]; simpl; intros I; [destruct I|].
  destruct I as [->|I].
  - exists x, d. split; auto. split; auto. inversion L; subst; auto.
    right. exists k0. split; auto. right. now left.
  - destruct (IH I) as (x' & d' & C' & I' & [->|(k' & J & ->)]).
    + exists x', Qnil. auto.
    + exists x', (VPtr k'). split; auto. split; auto. right. eauto.
Qed.

Lemma list_at_head c v ks xs q :
  list_at c v ks xs -> v = VPtr q -> q = nil_loc \/ In q ks.
Proof. destruct 1; intros E; injection E as <-; auto. right. now left. Qed.

Lemma list_at_reach c r v ks xs :
  list_at c v ks xs -> (forall q, v = VPtr q -> reach c r q) ->
  (forall k, In k ks -> reach c r k) /\ (forall q, In (VPtr q) xs -> reach c r q).
Proof.
  induction 1 as [|k0 x d ks xs N C L IH]; intros H.
  - split; intros ? [].
  - assert (R0 : reach c r k0) by auto.
    destruct IH as [I1 I2].
    { intros q ->. eapply reach_step; eauto. simpl. auto. }
    split.
    + intros k [<-|I]; auto.
    + intros q [->|I]; auto. eapply reach_step; eauto. simpl. auto.
Qed.

Lemma length_filter_le {A} (f : A -> bool) l : length (filter f l) <= length l.
Proof. induction l as [|x l IH]; simpl; auto. destruct (f x); simpl; lia. Qed.

Lemma in_list_length {A} (l1 l2 : list A) :
  NoDup l1 -> (forall x, In x l1 -> In x l2) -> length l1 <= length l2.
Proof. intros N H. now apply NoDup_incl_length. Qed.

Section Collect.
Context (roots : list value) (ds : list guard) (s : state).
Hypothesis WF : well_formed roots ds s.
Hypothesis NL : no_lost_guardian roots ds s.

Local Notation c0 := (cell s).

Lemma live_reach r p :
  (forall v, In v r -> In v (roots ++ all_guarded ds)) ->
  reach c0 r p -> reach c0 (roots ++ all_guarded ds) p.
Proof. apply reach_mono. Qed.

Lemma roots_all v : In v roots -> In v (roots ++ all_guarded ds).
Proof. intros I. apply in_or_app. auto. Qed.

Lemma saved_all live v : In v (roots ++ saved live ds) -> In v (roots ++ all_guarded ds).
Proof.
  intros I. apply in_app_or in I. apply in_or_app. destruct I as [I|I]; auto.
  apply filter_In in I. tauto.
Qed.

Lemma collectable_dom p : collectable c0 p -> In p (dom s).
Proof.
  intros (o & O & N). destruct (wf_all _ _ _ WF p o O) as [->|I]; [congruence|auto].
Qed.

Lemma nil_collectable : collectable c0 nil_loc.
Proof.
  destruct (wf_nil _ _ _ WF) as (_ & n & x & E). exists (OSymbol n x). split; auto. discriminate.
Qed.

Lemma guard_in d : In d ds -> In (g_loc d) (guardians s).
Proof. intros I. rewrite <- (wf_guardians _ _ _ WF). now apply in_map. Qed.

Lemma cell_guard d k : In d ds -> In k (g_cells d) -> In k (all_cells ds).
Proof. intros I J. apply in_flat_map. eauto. Qed.

Lemma guarded_all d v : In d ds -> In v (guarded d) -> In v (all_guarded ds).
Proof. intros I J. apply in_flat_map. eauto. Qed.

Lemma own_cons k : In k (all_cells ds) -> exists x e, c0 k = Some (OCons x e).
Proof.
  intros I. apply in_flat_map in I. destruct I as (d & I & J).
  destruct (wf_describes _ _ _ WF d I) as (a & i & _ & La & _).
  eapply list_at_cons; eauto.
Qed.

Lemma in_conses p a d : c0 p = Some (OCons a d) -> In p (conses s).
Proof.
  intros E. destruct (wf_all _ _ _ WF p _ E) as [|I]; [discriminate|].
  apply in_app_or in I. destruct I as [I|I]; auto. apply in_app_or in I. destruct I as [I|I].
  - destruct (wf_others _ _ _ WF p I) as (o & O & P). rewrite E in O. injection O as <-. destruct P.
  - rewrite <- (wf_guardians _ _ _ WF) in I. apply in_map_iff in I. destruct I as (g & <- & I).
    destruct (wf_describes _ _ _ WF g I) as (? & ? & X & _). congruence.
Qed.

Lemma in_guardians p a i : c0 p = Some (OGuardian a i) -> In p (guardians s).
Proof.
  intros E. destruct (wf_all _ _ _ WF p _ E) as [|I]; [discriminate|].
  apply in_app_or in I. destruct I as [I|I].
  - destruct (wf_conses _ _ _ WF p I) as (? & ? & X). congruence.
  - apply in_app_or in I. destruct I as [I|I]; auto.
    destruct (wf_others _ _ _ WF p I) as (o & O & P). rewrite E in O. injection O as <-. destruct P.
Qed.

Lemma pending_reach d :
  In d ds -> (forall k, In k (p_cells d) -> reach c0 roots k) /\
  (forall q, In (VPtr q) (pending d) -> reach c0 roots q).
Proof.
  intros I. destruct (wf_describes _ _ _ WF d I) as (a & i & G & _ & Li).
  destruct (NL d I) as [R|E].
  - apply (list_at_reach _ _ _ _ _ Li). intros q ->. eapply reach_step; eauto. simpl. auto.
  - rewrite E in Li. inversion Li; subst. rewrite E. split; intros ? [].
Qed.

(** *** The first phase. *)
Section Phase1.
Context (fuel : nat).
Hypothesis FU : length (dom s) < fuel.

Lemma phase1 : exists m1,
  markvals c0 (mark_value fuel c0) roots (mark s) = Done m1 /\ decides roots s m1.
Proof.
  destruct (markvals_roots c0 (dom s) (reach c0 (roots ++ all_guarded ds)))
    with (fuel := fuel) (vs := roots) (m := mark s) as (m1 & E & (A & B & C)).
  - apply (wf_reach _ _ _ WF).
  - intros. eapply reach_step; eauto.
  - intros. now apply collectable_dom.
  - intros p I. apply reach_root, roots_all, I.
  - unfold unmarked. pose proof (length_filter_le (fun p => negb (mark s p)) (dom s)). lia.
  - exists m1. split; auto. intros p. split.
    + intros M. destruct (C p M (wf_marks _ _ _ WF p)) as (C1 & C2 & _). auto.
    + intros [R Cp]. assert (Hn : m1 nil_loc = true).
      { apply B; [apply (wf_nil _ _ _ WF) | apply nil_collectable]. }
      induction R as [p I|p o q R IH O I].
      * apply B; auto.
      * destruct (Nat.eq_dec q nil_loc) as [->|N]; auto.
        assert (Cq : collectable c0 p).
        { exists o. split; auto. intros ->. destruct I. }
        specialize (IH Cq). destruct (C p IH (wf_marks _ _ _ WF p)) as (_ & _ & K).
        eapply K; eauto.
Qed.
End Phase1.

Context (live : loc -> bool).
Hypothesis LV : decides roots s live.

Lemma protected_alloc p : protected roots ds s live p -> exists o, c0 p = Some o /\ fn_ok o.
Proof.
  intros R. apply (wf_reach _ _ _ WF). eapply live_reach; [|exact R]. apply saved_all.
Qed.

Lemma protected_private p : protected roots ds s live p -> ~ In p (all_cells ds).
Proof.
  intros R I. apply (wf_private _ _ _ WF p I). eapply live_reach; [|exact R]. apply saved_all.
Qed.

Lemma roots_protected p : reach c0 roots p -> protected roots ds s live p.
Proof. apply reach_mono. intros v I. apply in_or_app. auto. Qed.

Lemma nil_protected : protected roots ds s live nil_loc.
Proof. apply reach_root, in_or_app. left. apply (wf_nil _ _ _ WF). Qed.

(** A guarded object that is kept is one that the roots reach. *)
Lemma guarded_protected q : In (VPtr q) (all_guarded ds) -> protected roots ds s live q.
Proof.
  intros I. destruct (live q) eqn:E.
  - apply roots_protected. now apply LV.
  - apply reach_root, in_or_app. right. apply filter_In. split; auto.
    unfold dead. simpl. now rewrite E.
Qed.

Definition moved (p : loc) : Prop :=
  exists d, In d ds /\ In p (pick (dead live) (g_cells d) (guarded d)).

Lemma moved_own p : moved p -> In p (all_cells ds).
Proof. intros (d & I & J). apply pick_in in J. eapply cell_guard; eauto. Qed.

(** What the scan of the guardians leaves. *)
Definition scanned (c2 : cells) : Prop :=
  (forall d, In d ds -> describes c2 (after_collect live d)) /\
  (forall p, ~ In p (all_cells ds) -> ~ In p (map g_loc ds) -> c2 p = c0 p) /\
  (forall k, In k (all_cells ds) ->
     exists x e e', c0 k = Some (OCons x e) /\ c2 k = Some (OCons x e')) /\
  (forall p, c0 p = None <-> c2 p = None).

Lemma scanned_step c2 p o q :
  scanned c2 -> protected roots ds s live p \/ moved p ->
  c2 p = Some o -> In (VPtr q) (strong o) ->
  protected roots ds s live q \/ moved q.
Proof.
  intros (S1 & S2 & S3 & S4) P O I.
  assert (Cells : forall d x ks v, In d ds -> describes c2 (after_collect live d) ->
     list_at c2 v (rev (pick (dead live) (g_cells d) (guarded d)) ++ p_cells d)
       (rev (filter (dead live) (guarded d)) ++ pending d) ->
     In x (rev (pick (dead live) (g_cells d) (guarded d)) ++ p_cells d) ->
     ks = x -> protected roots ds s live x \/ moved x).
  { intros d x ks v Id _ _ J _. apply in_app_or in J. destruct J as [J|J].
    - right. exists d. split; auto. now apply in_rev.
    - left. apply roots_protected. apply (proj1 (pending_reach d Id)); auto. }
  destruct P as [P|P].
  - destruct (in_dec Nat.eq_dec p (map g_loc ds)) as [G|G].
    + apply in_map_iff in G. destruct G as (d & <- & Id).
      destruct (S1 d Id) as (a & i & X1 & X2 & X3). simpl in X1. rewrite X1 in O.
      injection O as <-. simpl in I. destruct I as [->|[]].
      simpl in X3. destruct (list_at_head _ _ _ _ q X3 eq_refl) as [->|J].
      * left. apply nil_protected.
      * eapply Cells; eauto.
    + left. rewrite S2 in O; auto.
      * eapply reach_step; eauto.
      * now apply protected_private.
  - destruct P as (d & Id & J).
    destruct (S1 d Id) as (a & i & X1 & X2 & X3). simpl in X3.
    assert (J' : In p (rev (pick (dead live) (g_cells d) (guarded d)) ++ p_cells d)).
    { apply in_or_app. left. now apply -> in_rev. }
    destruct (list_at_elem _ _ _ _ _ X3 J') as (x & e & X4 & X5 & X6).
    rewrite X4 in O. injection O as <-. simpl in I. destruct I as [->|[->|[]]].
    + left. apply in_app_or in X5. destruct X5 as [X5|X5].
      * apply in_rev in X5. apply filter_In in X5. apply guarded_protected.
        eapply guarded_all; [exact Id | apply X5].
      * apply roots_protected. apply (proj2 (pending_reach d Id)); auto.
    + destruct X6 as [[= ->]|(k' & X6 & [= ->])].
      * left. apply nil_protected.
      * eapply Cells; eauto.
Qed.

Lemma scanned_kind c2 p o2 : scanned c2 -> c2 p = Some o2 ->
  exists o, c0 p = Some o /\ (o = OStatic <-> o2 = OStatic) /\ (fn_ok o -> fn_ok o2).
Proof.
  intros (S1 & S2 & S3 & S4) O.
  destruct (in_dec Nat.eq_dec p (all_cells ds)) as [I|I].
  - destruct (S3 p I) as (x & e & e' & X1 & X2). rewrite X2 in O. injection O as <-.
    exists (OCons x e). split; auto. split; [split; discriminate|auto].
  - destruct (in_dec Nat.eq_dec p (map g_loc ds)) as [G|G].
    + apply in_map_iff in G. destruct G as (d & <- & Id).
      destruct (S1 d Id) as (a & i & X1 & _). simpl in X1. rewrite X1 in O. injection O as <-.
      destruct (wf_describes _ _ _ WF d Id) as (a0 & i0 & X & _).
      exists (OGuardian a0 i0). split; auto. split; [split; discriminate|auto].
    + rewrite S2 in O by auto. exists o2. split; auto. split; [reflexivity|auto].
Qed.

Lemma scanned_collectable c2 p : scanned c2 -> collectable c2 p <-> collectable c0 p.
Proof.
  intros S. split.
  - intros (o2 & O & N). destruct (scanned_kind c2 p o2 S O) as (o & X & E & _).
    exists o. split; auto. intros ->. apply N. now apply E.
  - intros (o & O & N). destruct (c2 p) as [o2|] eqn:C2.
    + destruct (scanned_kind c2 p o2 S C2) as (o' & X & E & _). exists o2. split; auto.
      rewrite O in X. injection X as <-. intros ->. apply N. now apply E.
    + destruct S as (_ & _ & _ & S4). apply S4 in C2. congruence.
Qed.

Definition keeps (kept : loc -> bool) : Prop :=
  forall p, kept p = true <->
    collectable c0 p /\ (protected roots ds s live p \/ In p (all_cells ds)).

(** The marks after the guardians have been run are right. *)
Lemma phase2_marks c2 m2 m3 changed :
  scanned c2 ->
  (forall v, In v changed <-> In v (saved live ds)) ->
  (forall p, m2 p = true <-> live p = true \/ In p (all_cells ds)) ->
  marked_ok c2 m2 changed m3 -> keeps m3.
Proof.
  intros S Ch M2 (A & B & C) p.
  assert (Hn : m3 nil_loc = true).
  { apply A, M2. left. apply LV. split; [|apply nil_collectable].
    apply reach_root, (wf_nil _ _ _ WF). }
  split.
  - intros M. destruct (m2 p) eqn:E.
    + apply M2 in E. destruct E as [E|E].
      * apply LV in E. destruct E as [E1 E2]. split; auto. left. now apply roots_protected.
      * split; auto. destruct (own_cons p E) as (x & e & X). exists (OCons x e).
        split; auto. discriminate.
    + destruct (C p M E) as (C1 & C2 & _). split; [now apply (scanned_collectable c2)|].
      assert (Q : protected roots ds s live p \/ moved p).
      { clear - WF NL LV S Ch C2. induction C2 as [p I|p o q R IH O I].
        - left. apply reach_root, in_or_app. right. now apply Ch.
        - eapply scanned_step; eauto. }
      destruct Q as [Q|Q]; auto. right. now apply moved_own.
  - intros [Cp [P|P]].
    + unfold protected in P. induction P as [p I|p o q R IH O I].
      * apply in_app_or in I. destruct I as [I|I].
        -- apply A, M2. left. apply LV. split; auto. now apply reach_root.
        -- apply B; [now apply Ch | now apply (scanned_collectable c2)].
      * assert (Cq : collectable c0 p) by (exists o; split; auto; intros ->; destruct I).
        specialize (IH Cq). destruct (live p) eqn:Lp.
        -- apply A, M2. left. apply LV. split; auto. apply LV in Lp.
           eapply reach_step; eauto. apply Lp.
        -- destruct (in_dec Nat.eq_dec p (map g_loc ds)) as [G|G].
           ++ apply in_map_iff in G. destruct G as (d & <- & Id).
              destruct (wf_describes _ _ _ WF d Id) as (a & i & X1 & _ & X3).
              rewrite X1 in O. injection O as <-. simpl in I. destruct I as [->|[]].
              destruct (NL d Id) as [Rd|Pd].
              ** assert (live (g_loc d) = true) by (apply LV; auto). congruence.
              ** rewrite Pd in X3. inversion X3; subst. auto.
           ++ assert (NP : ~ In p (all_cells ds)) by (apply protected_private; exact R).
              assert (m2 p = false).
              { destruct (m2 p) eqn:E; auto. apply M2 in E. destruct E; [congruence|tauto]. }
              destruct (Nat.eq_dec q nil_loc) as [->|N]; auto.
              destruct (C p IH H) as (_ & _ & K). apply (K o q); auto.
              ** destruct S as (_ & S2 & _). now rewrite S2.
              ** now apply (scanned_collectable c2).
    + apply A, M2. auto.
Qed.

End Collect.
