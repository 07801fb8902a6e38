(* What the scheduler does to the threads in programs with one dynamic root,
   for the proofs about mutexes, condition variables and ports. *)
From Coq Require Import ZArith List Bool Lia.
Import ListNotations.
From Verif Require Import Threads_Model Threads_Spec Threads_Proofs Threads_RunProofs Threads_InvProofs Threads_OrderProofs Threads_EffectProofs.

(* threads outside P keep their value, and are not suspended or ended *)
Definition keep (P : nat -> Prop) (a b : ast) : Prop :=
  (acount a <= acount b)%nat /\ aroots b = aroots a /\ (astack b = astack a \/ astack b = []) /\
  forall t, (t < acount a)%nat -> ~ P t ->
    exit_val (aat b t) = exit_val (aat a t) /\ (susp (aat b t) = true -> susp (aat a t) = true) /\
    (astack b <> [] -> exited (aat b t) = exited (aat a t)).

Definition none (t : nat) : Prop := False.

Lemma keep_refl : forall P a, keep P a a.
Proof. unfold keep. auto 10. Qed.

Lemma keep_trans : forall P a b c, keep P a b -> keep P b c -> keep P a c.
Proof.
  intros P a b c (A1 & A2 & A3 & A4) (B1 & B2 & B3 & B4). split; [lia |]. split; [congruence |]. split.
  - destruct B3 as [-> | ->]; auto.
  - intros t L N. destruct (A4 t L N) as (X1 & X2 & X3). destruct (B4 t ltac:(lia) N) as (Y1 & Y2 & Y3).
    split; [congruence |]. split; [auto |]. intros E. rewrite Y3; auto. apply X3. destruct B3 as [B3 | B3]; [rewrite <- B3; auto | contradiction].
Qed.
Lemma keep_weak : forall P a b, keep none a b -> keep P a b.
Proof. intros P a b (A1 & A2 & A3 & A4). repeat split; auto; apply A4; auto. Qed.

(* same apart from attributes that do not matter *)
Lemma keep_same : forall P a b, acount b = acount a -> aroots b = aroots a -> astack b = astack a ->
  (forall t, ~ P t -> exit_val (aat b t) = exit_val (aat a t) /\ (susp (aat b t) = true -> susp (aat a t) = true) /\
     exited (aat b t) = exited (aat a t)) -> keep P a b.
Proof.
  intros P a b E1 E2 E3 H. split; [lia |]. split; [auto |]. split; [auto |]. intros t L N. destruct (H t N) as (X & Y & Z). auto.
Qed.

Lemma keep_wake : forall P a t, keep P a (a_wake a t).
Proof.
  intros. apply keep_same; cbn; auto. intros u _. unfold put. destruct (Nat.eqb_spec u t); subst; auto. cbn. repeat split; auto. discriminate.
Qed.
Lemma keep_wakes : forall P l a, keep P a (fold_left a_wake l a).
Proof. induction l; cbn; intros; [apply keep_refl |]. eapply keep_trans; [apply keep_wake | apply IHl]. Qed.

Definition single (a : ast) : Prop := aroots a = 1%nat /\ (astack a = [] \/ astack a = [0%nat]).
Lemma keep_single : forall P a b, keep P a b -> single a -> single b.
Proof. intros P a b (_ & K1 & K2 & _) [S1 S2]. split; [congruence |]. destruct K2 as [-> | ->]; auto. Qed.

Lemma keep_pop : forall P a, single a -> keep P a (a_pop a).
Proof.
  intros P a [_ [S | S]].
  - unfold a_pop. rewrite S. apply keep_refl.
  - destruct (pop_fields a 0 [] S) as (_ & _ & _ & P4 & P5 & P6 & _ & _ & P9).
    split; [lia |]. split; [auto |]. split; [auto |]. intros t _ _. rewrite P9. destruct (existsb _ _); cbn; repeat split; auto; rewrite P5; congruence.
Qed.

Lemma keep_next : forall P a, single a -> keep P a (a_next a).
Proof.
  intros P a S. unfold a_next. destruct (astack a) as [| r l] eqn:ES; [apply keep_refl |].
  assert (A : forall b q, keep P b (a_act b r q)) by (intros; apply keep_same; cbn; auto).
  destruct (runq a r); [| apply A]. destruct (suspq a r) as [| b sq].
  - eapply keep_trans; [apply A | apply keep_pop]. eapply keep_single; [apply (A a None) | auto].
  - destruct (filter _ _) as [| w ws].
    + eapply keep_trans; [| apply A]. eapply keep_trans; [| apply keep_wake]. destruct (sleep_same a b) as (E1 & _ & _ & E4 & E5).
      apply keep_same; auto. { unfold a_sleep. destruct (later _ _); auto. } intros t _. rewrite E1. auto.
    + eapply keep_trans; [| apply A]. apply keep_wakes.
Qed.

Lemma keep_new : forall P a r su, keep P a (a_new a r su).
Proof.
  intros. split; [cbn; lia |]. split; [auto |]. split; [auto |]. intros t L _. cbn. rewrite put_other by lia. auto.
Qed.
Lemma keep_enter : forall P a t r, keep P a (a_enter a t r).
Proof.
  intros. destruct (enter_fields a t r) as (C1 & C2 & C3 & _ & C5 & _). apply keep_same; auto. intros u _. rewrite C3. auto.
Qed.
Lemma keep_leave : forall P a t, keep P a (a_leave a t).
Proof.
  intros. destruct (leave_fields a t) as (C1 & C2 & C3 & _ & C5 & _). apply keep_same; auto. intros u _. rewrite C3. auto.
Qed.
Lemma keep_act : forall P a r q, keep P a (a_act a r q).
Proof. intros. apply keep_same; cbn; auto. Qed.
Lemma keep_default : forall P a, keep P a (a_default a).
Proof.
  intros P a. unfold a_default. destruct (astack a) as [| r l]; [apply keep_refl |]. destruct (aact a r); [apply keep_refl |].
  eapply keep_trans; [| apply keep_act]. eapply keep_trans; [apply keep_new | apply keep_enter].
Qed.
Lemma keep_make : forall P a su, keep P a (a_make a su).
Proof.
  intros P a su. unfold a_make. destruct (astack a) as [| r l]; [apply keep_refl |].
  eapply keep_trans; [| apply keep_enter]. eapply keep_trans; [apply keep_new | apply keep_default].
Qed.
Lemma keep_yield : forall P a, single a -> keep P a (a_yield a).
Proof.
  intros P a S. unfold a_yield. destruct (astack a) as [| r l]; [apply keep_refl |]. cbv zeta.
  match goal with |- context [fold_left a_wake ?ws ?x] => assert (K : keep P a (fold_left a_wake ws x)) end.
  { eapply keep_trans; [| apply keep_wakes]. apply keep_same; cbn; auto. }
  destruct (opt_eq _ _); auto. eapply keep_trans; [exact K |]. apply keep_next. eapply keep_single; eauto.
Qed.
Lemma keep_att : forall (P : nat -> Prop) a t x, P t -> keep P a (a_att a t x).
Proof. intros P a t x HP. apply keep_same; cbn; auto. intros u N. unfold put. destruct (Nat.eqb_spec u t); subst; auto. contradiction. Qed.
Lemma keep_delete : forall (P : nat -> Prop) a t, P t -> single a -> keep P a (a_delete a t).
Proof.
  intros P a t HP S. unfold a_delete. cbv zeta.
  assert (K : keep P a (a_att (a_leave a t) t (attr_exited (aat (a_leave a t) t)))).
  { eapply keep_trans; [apply keep_leave | apply keep_att; auto]. }
  destruct (opt_is _ _); auto. eapply keep_trans; [exact K |]. apply keep_next. eapply keep_single; eauto.
Qed.
Lemma keep_fail : forall P a, keep P a (a_fail a).
Proof. intros. apply keep_same; cbn; auto. Qed.
Lemma keep_suspend : forall (P : nat -> Prop) a t ms p, P t -> single a -> keep P a (a_suspend a t ms p).
Proof.
  intros P a t ms p HP S. unfold a_suspend. destruct (_ || _)%bool; [apply keep_fail |]. cbv zeta.
  match goal with |- context [a_enter ?x ?y ?z] => assert (K : keep P a (a_enter x y z)) end.
  { eapply keep_trans; [| apply keep_enter]. eapply keep_trans; [apply keep_leave |]. apply keep_att; auto. }
  destruct (astack _); auto. destruct (opt_is _ _); auto. eapply keep_trans; [exact K |]. apply keep_next. eapply keep_single; eauto.
Qed.

(** * The same for the states of the model *)

Definition sched (s : st) : Prop := exists a, rep s a /\ mem a /\ first_runs a /\ single a.

Definition ev (s : st) (t : nat) : option bool := exit_val (att (th s t)).
Definition moved (P : nat -> Prop) (s s' : st) : Prop :=
  (nth_ s <= nth_ s')%nat /\ (stack s' <> [] -> stack s' = stack s) /\
  forall t, (t < nth_ s)%nat -> ~ P t ->
    ev s' t = ev s t /\ (susp (att (th s' t)) = true -> susp (att (th s t)) = true) /\
    (stack s' <> [] -> exited (att (th s' t)) = exited (att (th s t))).

Lemma moved_refl : forall P s, moved P s s.
Proof. unfold moved. auto 10. Qed.
Lemma moved_trans : forall P s1 s2 s3, moved P s1 s2 -> moved P s2 s3 -> moved P s1 s3.
Proof.
  intros P s1 s2 s3 (A1 & A2 & A3) (B1 & B2 & B3). split; [lia |]. split.
  - intros E. rewrite B2; auto. apply A2. rewrite <- B2; auto.
  - intros t L N. destruct (A3 t L N) as (X1 & X2 & X3). destruct (B3 t ltac:(lia) N) as (Y1 & Y2 & Y3).
    split; [congruence |]. split; [auto |]. intros E. rewrite Y3; auto. apply X3. rewrite <- B2; auto.
Qed.
Lemma moved_weak : forall (P Q : nat -> Prop) s s', (forall t, P t -> Q t) -> moved P s s' -> moved Q s s'.
Proof. intros P Q s s' I (A1 & A2 & A3). repeat split; auto; apply A3; auto. Qed.

Lemma keep_moved : forall P s a s' b, rep s a -> rep s' b -> keep P a b -> moved P s s'.
Proof.
  intros P s a s' b R R' (K1 & K2 & K3 & K4). unfold moved, ev. rewrite (p_nth _ _ R), (p_nth _ _ R'), (p_stack _ _ R), (p_stack _ _ R').
  split; [auto |]. split; [destruct K3 as [-> | ->]; congruence |]. intros t L N. rewrite !(p_att _ _ R), !(p_att _ _ R'). apply K4; auto.
Qed.

Lemma sched_init : sched init.
Proof. exists ainit. split; [apply init_rep |]. split; [apply init_mem |]. split; [apply init_first |]. split; cbn; auto. Qed.

Lemma sched_step : forall P s e, sched s -> named_local s e ->
  (forall a, rep s a -> mem a -> first_runs a -> single a -> failed s = false -> keep P a (a_step a e)) ->
  sched (step s e) /\ moved P s (step s e).
Proof.
  intros P s e (a & R & M & F & S) NL K. destruct (step_rep s a e R M) as [R' M'].
  assert (KP : keep P a (a_step a e)).
  { destruct (failed s) eqn:E; [| apply K; auto]. unfold a_step. rewrite <- (p_failed _ _ R), E. apply keep_refl. }
  split; [| eapply keep_moved; eauto].
  exists (a_step a e). split; [auto |]. split; [auto |]. split; [eapply first_step; eauto | eapply keep_single; eauto].
Qed.

Lemma step_simple : forall s e, match e with EYield | ETick _ | EMake _ | EList => True | _ => False end -> sched s ->
  sched (step s e) /\ moved none s (step s e).
Proof.
  intros s e E S. apply sched_step; auto.
  - destruct e; cbn; auto; contradiction.
  - intros a R M F SG NF. unfold a_step. rewrite <- (p_failed _ _ R), NF.
    destruct e; try contradiction; [apply keep_make | apply keep_yield; auto | apply keep_default | apply keep_same; cbn; auto].
Qed.

Lemma current_step : forall s, failed s = false -> fst (current_thread s) = step s EList.
Proof. intros s F. unfold current_thread, step. rewrite F. cbv zeta. destruct (stack _); reflexivity. Qed.

(* the current thread *)
Definition current (s : st) (t : nat) : Prop := exists r l, stack s = r :: l /\ active (rt s r) = Some t.

Lemma current_of : forall s t, snd (current_thread s) = Some t -> current (fst (current_thread s)) t.
Proof.
  intros s t. unfold current_thread, current. cbv zeta. destruct (stack (ensure_default_thread s)) as [| r l] eqn:E; cbn; [discriminate |].
  intros A. exists r, l. auto.
Qed.

Lemma current_live : forall s t, sched s -> current s t ->
  (t < nth_ s)%nat /\ exited (att (th s t)) = false /\ susp (att (th s t)) = false /\ threadp s t = true /\
  match stack s with r :: _ => troot (att (th s t)) = r | [] => True end.
Proof.
  intros s t (a & R & M & F & S) (r & l & E1 & E2). rewrite (live_rep s a t R).
  rewrite !(p_att _ _ R), (p_nth _ _ R), E1. rewrite (p_stack _ _ R) in E1. rewrite (p_act _ _ R) in E2.
  destruct (F r) as [F1 _]; [rewrite E1; left; auto |]. rewrite F1 in E2.
  destruct (runq a r) as [| x q] eqn:ER; [discriminate |]. cbn in E2. injection E2 as ->.
  assert (IQ : inq a r t) by (left; rewrite ER; left; auto).
  destruct (m_in _ M _ _ IQ) as [X1 X2].
  assert (X3 : exited (aat a t) = false) by (eapply (m_live _ M r); auto; rewrite E1; left; auto).
  split; [auto |]. split; [auto |]. split; [eapply (p_inrun _ _ R r); rewrite ER; left; auto |]. split; [| auto].
  unfold a_live. rewrite X3. cbn. apply andb_true_iff. split; auto. apply Nat.ltb_lt; auto.
Qed.

Lemma one_root : forall s t, sched s -> (t < nth_ s)%nat -> match stack s with r :: _ => troot (att (th s t)) = r | [] => True end.
Proof.
  intros s t (a & R & M & F & S1 & S2) L. rewrite (p_stack _ _ R), (p_att _ _ R). rewrite (p_nth _ _ R) in L.
  pose proof (m_root _ M t L). destruct S2 as [-> | ->]; auto. lia.
Qed.

Lemma step_suspend : forall s t ms, sched s -> current s t -> failed s = false ->
  let s' := step s (ESuspend (Some t) ms) in
  sched s' /\ moved (fun u => u = t) s s' /\ ev s' t = Some false /\ failed s' = false /\
  (stack s' <> [] -> exited (att (th s' t)) = false).
Proof.
  intros s t ms S C NF. destruct (current_live s t S C) as (L1 & L2 & L3 & L4 & L5).
  assert (NL : named_local s (ESuspend (Some t) ms)) by (cbn; auto).
  assert (NR : named_right s (ESuspend (Some t) ms)) by (cbn; auto).
  destruct (sched_step (fun u => u = t) s (ESuspend (Some t) ms) S NL) as [X Y].
  { intros a R M F SG NF'. unfold a_step. rewrite <- (p_failed _ _ R), NF. cbn [a_the].
    destruct (a_live a t); [| apply keep_refl]. cbv zeta.
    assert (K : keep (fun u => u = t) a (a_suspend a t (match ms with None => 1%Z | Some m => ulong m end) None)) by (apply keep_suspend; auto).
    destruct (match astack a with [] => _ | _ => _ end); auto. eapply keep_trans; [exact K |]. apply keep_att; auto. }
  cbv zeta. split; [auto |]. split; [auto |]. destruct S as (a & R & M & F & SG). destruct C as (r & l & E1 & E2).
  destruct (step_rep s a (ESuspend (Some t) ms) R M) as [R' M']. unfold ev. rewrite (p_failed _ _ R'), !(p_att _ _ R').
  rewrite (p_stack _ _ R) in E1. rewrite (p_act _ _ R) in E2. rewrite (p_att _ _ R) in L2, L3. rewrite (p_nth _ _ R) in L1.
  rewrite (live_rep s a t R) in L4.
  split; [| split].
  - clear X Y. unfold a_step. rewrite <- (p_failed _ _ R), NF. cbn [a_the]. rewrite L4, E1, E2. cbn [opt_is]. rewrite Nat.eqb_refl.
    cbv zeta. unfold a_suspend. rewrite L2, L3. cbn [orb]. cbv zeta.
    destruct (leave_fields a t) as (Q1 & Q2 & Q3 & Q4 & Q5 & Q6 & _).
    match goal with |- context [a_enter ?x ?y ?z] => destruct (enter_fields x y z) as (C1 & C2 & C3 & C4 & C5 & C6 & _) end.
    rewrite C2. cbn [a_att astack]. rewrite Q2, E1, C4. cbn [a_att aact]. rewrite Q4, E2. cbn [opt_is]. rewrite Nat.eqb_refl.
    match goal with |- context [a_next ?x] => destruct (keep_next none x) as (_ & _ & _ & K); [| destruct (K t) as (K1 & _); auto] end.
    + destruct SG. split; [rewrite C5; cbn; congruence | rewrite C2; cbn; rewrite Q2; auto].
    + rewrite C1. cbn. rewrite Q1. auto.
    + rewrite K1, C3. cbn. rewrite put_same. reflexivity.
  - rewrite (step_ok s a (ESuspend (Some t) ms) R M F NL NR); auto. now rewrite <- (p_failed _ _ R).
  - rewrite (p_stack _ _ R'). clear X Y. unfold a_step. rewrite <- (p_failed _ _ R), NF. cbn [a_the]. rewrite L4, E1, E2. cbn [opt_is]. rewrite Nat.eqb_refl.
    cbv zeta. unfold a_suspend. rewrite L2, L3. cbn [orb]. cbv zeta.
    destruct (leave_fields a t) as (Q1 & Q2 & Q3 & Q4 & Q5 & Q6 & _).
    match goal with |- context [a_enter ?x ?y ?z] => destruct (enter_fields x y z) as (C1 & C2 & C3 & C4 & C5 & C6 & _) end.
    rewrite C2. cbn [a_att astack]. rewrite Q2, E1, C4. cbn [a_att aact]. rewrite Q4, E2. cbn [opt_is]. rewrite Nat.eqb_refl.
    match goal with |- context [a_next ?x] => destruct (keep_next none x) as (_ & _ & _ & K); [| destruct (K t) as (_ & _ & K1); auto] end.
    + destruct SG. split; [rewrite C5; cbn; congruence | rewrite C2; cbn; rewrite Q2; auto].
    + rewrite C1. cbn. rewrite Q1. auto.
    + intros E. rewrite K1 by auto. rewrite C3. cbn. rewrite put_same. reflexivity.
Qed.

Lemma step_wake : forall s t, sched s -> threadp s t = true -> failed s = false ->
  let s' := step s (EWake (Some t)) in
  sched s' /\ moved (fun u => u = t) s s' /\ ev s' t = Some true /\ exited (att (th s' t)) = false /\ stack s' = stack s /\
  (failed s' = false -> susp (att (th s' t)) = false) /\ (failed s' = true -> susp (att (th s t)) = false) /\
  (forall r, active (rt s' r) = active (rt s r)).
Proof.
  intros s t S TP NF. unfold threadp in TP. apply andb_true_iff in TP. destruct TP as [L EX]. apply Nat.ltb_lt in L. apply negb_true_iff in EX.
  assert (NL : named_local s (EWake (Some t))) by (cbn; apply one_root; auto).
  destruct (sched_step (fun u => u = t) s (EWake (Some t)) S NL) as [X Y].
  { intros a R M F SG NF'. unfold a_step. rewrite <- (p_failed _ _ R), NF. cbn [a_the].
    destruct (a_live a t); [| apply keep_refl]. cbv zeta. eapply keep_trans; [apply keep_att; auto |].
    destruct (susp _); [apply keep_wake | apply keep_fail]. }
  cbv zeta. split; [auto |]. split; [auto |]. destruct S as (a & R & M & F & SG).
  destruct (step_rep s a (EWake (Some t)) R M) as [R' M']. unfold ev. rewrite (p_failed _ _ R'), !(p_att _ _ R'), (p_stack _ _ R'), (p_stack _ _ R).
  assert (AC : (forall r, active (rt (step s (EWake (Some t))) r) = active (rt s r)) <-> (forall r, aact (a_step a (EWake (Some t))) r = aact a r)).
  { split; intros H r; specialize (H r); rewrite (p_act _ _ R'), (p_act _ _ R) in *; auto. }
  rewrite AC. rewrite (p_att _ _ R) in EX. rewrite (p_nth _ _ R) in L. rewrite (p_att _ _ R).
  clear X Y. unfold a_step. rewrite <- (p_failed _ _ R), NF. cbn [a_the]. unfold a_live. rewrite EX.
  replace (t <? acount a)%nat with true by (symmetry; apply Nat.ltb_lt; auto). cbn [andb negb]. cbv zeta.
  cbn [a_att aat]. rewrite put_same. cbn [attr_exit_val susp].
  destruct (susp (aat a t)) eqn:SU.
  - cbn. rewrite !put_same. cbn. rewrite <- (p_failed _ _ R), NF. repeat split; auto.
  - cbn. rewrite !put_same. cbn. repeat split; auto.
Qed.

Lemma step_return : forall s t, sched s -> current s t -> failed s = false ->
  let s' := step s EReturn in sched s' /\ moved (fun u => u = t) s s'.
Proof.
  intros s t S C NF. apply sched_step; [auto | cbn; auto |]. intros a R M F SG _. destruct C as (r & l & E1 & E2).
  rewrite (p_stack _ _ R) in E1. rewrite (p_act _ _ R) in E2. unfold a_step. rewrite <- (p_failed _ _ R), NF, E1, E2. cbv zeta.
  assert (K : keep (fun u => u = t) a (a_delete a t)) by (apply keep_delete; auto).
  destruct (opt_is _ _); [exact K | eapply keep_trans; [exact K | apply keep_fail]].
Qed.

(* thread-suspend on oneself by the program *)
Lemma step_sleep : forall s t ms, sched s -> current s t -> failed s = false ->
  let s' := step s (ESuspend None (Some ms)) in sched s' /\ moved (fun u => u = t) s s'.
Proof.
  intros s t ms S C NF. apply sched_step; [auto | cbn; auto |]. intros a R M F SG _. destruct C as (r & l & E1 & E2).
  rewrite (p_stack _ _ R) in E1. rewrite (p_act _ _ R) in E2. unfold a_step. rewrite <- (p_failed _ _ R), NF. cbn [a_the].
  assert (EC : a_current a = (a, Some t)).
  { unfold a_current, a_default. rewrite E1, E2. rewrite E1, E2. reflexivity. }
  rewrite EC. destruct (a_live a t); [| apply keep_refl]. cbv zeta.
  match goal with |- context [a_suspend ?x ?y ?z ?w] => assert (K : keep (fun u => u = t) a (a_suspend x y z w)) by (apply keep_suspend; auto) end.
  destruct (match astack a with [] => _ | _ => _ end); auto. eapply keep_trans; [exact K |]. apply keep_att; auto.
Qed.

Lemma sched_ev : forall s t v, sched s -> let s' := set_att s t (attr_exit_val (att (th s t)) v) in
  sched s' /\ moved (fun u => u = t) s s' /\ ev s' t = v /\ susp (att (th s' t)) = susp (att (th s t)) /\
  exited (att (th s' t)) = exited (att (th s t)) /\ stack s' = stack s /\ failed s' = failed s.
Proof.
  intros s t v (a & R & M & F & S1 & S2) s'.
  assert (E : att (th s' t) = attr_exit_val (att (th s t)) v) by (unfold s'; cbn; unfold upd; rewrite Nat.eqb_refl; reflexivity).
  split; [| split; [| unfold ev; rewrite E; cbn; auto 10]].
  - exists (a_att a t (attr_exit_val (aat a t) v)). unfold s'. rewrite (p_att _ _ R). split; [apply rep_att_same; auto |].
    split; [eapply mem_same; [apply sameq_att |]; auto |]. split; [exact F |]. split; auto.
  - unfold moved. cbn. split; [auto |]. split; [auto |]. intros u L N. unfold ev. cbn. unfold upd.
    destruct (Nat.eqb_spec u t); [contradiction | auto].
Qed.
