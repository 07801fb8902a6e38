(* What always holds of the list scheduler. *)
From Coq Require Import ZArith List Bool Lia ZifyBool Permutation Sorted.
Import ListNotations.
From Verif Require Import Threads_Model Threads_Spec Threads_Proofs Threads_RunProofs.

Definition inq (a : ast) (r t : nat) : Prop := In t (runq a r) \/ In t (suspq a r).

(** * Who is queued *)

Record mem (a : ast) : Prop := mkMem {
  m_live : forall r t, In r (astack a) -> inq a r t -> exited (aat a t) = false;
  m_queued : forall t, (t < acount a)%nat -> exited (aat a t) = false ->
    In (troot (aat a t)) (astack a) /\ inq a (troot (aat a t)) t;
  m_stack : forall r, In r (astack a) -> (r < aroots a)%nat;
  m_nodup : NoDup (astack a);
  m_root : forall t, (t < acount a)%nat -> (troot (aat a t) < aroots a)%nat;
  m_in : forall r t, inq a r t -> (t < acount a)%nat /\ troot (aat a t) = r;
  m_act : forall r t, aact a r = Some t -> (t < acount a)%nat /\ troot (aat a t) = r
}.

(* nothing changed that mem is about *)
Record sameq (a b : ast) : Prop := mkSameq {
  e_count : acount b = acount a;
  e_roots : aroots b = aroots a;
  e_stack : astack b = astack a;
  e_exit : forall t, exited (aat b t) = exited (aat a t);
  e_root : forall t, troot (aat b t) = troot (aat a t);
  e_q : forall r t, inq b r t <-> inq a r t;
  e_act : forall r t, aact b r = Some t -> aact a r = Some t \/ inq a r t
}.

Lemma mem_same : forall a b, sameq a b -> mem a -> mem b.
Proof.
  intros a b E M. destruct E, M. constructor.
  - intros r t. rewrite e_stack0, e_q0, e_exit0. eauto.
  - intros t. rewrite e_count0, e_exit0, e_root0, e_stack0, e_q0. auto.
  - intros r. rewrite e_stack0, e_roots0. auto.
  - now rewrite e_stack0.
  - intros t. rewrite e_count0, e_root0, e_roots0. auto.
  - intros r t. rewrite e_q0, e_count0, e_root0. auto.
  - intros r t X. rewrite e_count0, e_root0. destruct (e_act0 _ _ X); eauto.
Qed.

Lemma sameq_trans : forall a b c, sameq a b -> sameq b c -> sameq a c.
Proof.
  intros a b c E F. destruct E, F. constructor; try congruence.
  - intros r t. rewrite e_q1. auto.
  - intros r t X. destruct (e_act1 _ _ X) as [Y | Y]; auto. rewrite e_q0 in Y. auto.
Qed.
Lemma sameq_refl : forall a, sameq a a.
Proof. constructor; auto. tauto. Qed.

Lemma sameq_queues : forall a r q sq,
  (forall t, In t q \/ In t sq <-> inq a r t) -> sameq a (a_queues a r q sq).
Proof.
  intros a r q sq H. constructor; cbn; auto. intros i t. unfold inq. cbn. unfold put.
  destruct (Nat.eqb_spec i r); subst; [apply H | tauto].
Qed.
Lemma sameq_att : forall a t x, exited x = exited (aat a t) -> troot x = troot (aat a t) -> sameq a (a_att a t x).
Proof.
  intros a t x H1 H2. constructor; cbn; auto; try tauto.
  - intros u. unfold put. destruct (Nat.eqb_spec u t); subst; auto.
  - intros u. unfold put. destruct (Nat.eqb_spec u t); subst; auto.
Qed.
Lemma sameq_wake : forall a t, In t (suspq a (troot (aat a t))) -> sameq a (a_wake a t).
Proof.
  intros a t I. eapply sameq_trans; [apply (sameq_att a t (attr_susp (aat a t) false)); auto |].
  apply sameq_queues. intros u. unfold inq. cbn. rewrite in_app_iff, without_in. cbn.
  destruct (Nat.eq_dec u t) as [-> | NE]; intuition congruence.
Qed.
Lemma sameq_now : forall a n, sameq a (a_now a n).
Proof. constructor; cbn; auto. tauto. Qed.
Lemma sameq_fail : forall a, sameq a (a_fail a).
Proof. constructor; cbn; auto. tauto. Qed.
Lemma sameq_act : forall a r p, (forall t, p = Some t -> inq a r t) -> sameq a (a_act a r p).
Proof.
  intros a r p H. constructor; cbn; auto; try tauto.
  intros i t. unfold put. destruct (Nat.eqb_spec i r); subst; auto.
Qed.
Lemma sameq_sleep : forall a b, sameq a (a_sleep a b).
Proof. intros. unfold a_sleep. destruct (later _ _); [apply sameq_now | apply sameq_refl]. Qed.

Lemma sameq_wakes : forall ws a r, NoDup ws -> (forall t, In t ws -> In t (suspq a r) /\ troot (aat a t) = r) ->
  sameq a (fold_left a_wake ws a).
Proof.
  induction ws as [| w ws IH]; intros a r ND I; cbn [fold_left]; [apply sameq_refl |].
  inversion ND; subst. destruct (I w (or_introl eq_refl)) as [I1 I2].
  eapply sameq_trans; [apply sameq_wake; rewrite I2; auto |].
  apply (IH _ r); auto. intros t It. destruct (I t (or_intror It)) as [J1 J2]. cbn.
  rewrite I2, put_same, without_in. split; [split; auto; intros ->; auto |].
  unfold put. destruct (Nat.eqb_spec t w); subst; auto.
Qed.

(** * The end of a root *)

Lemma exit_all_att : forall l a t, aat (a_exit_all a l) t = if existsb (Nat.eqb t) l then attr_exited (aat a t) else aat a t.
Proof.
  induction l as [| x l IH]; intros a t; cbn [existsb]; auto.
  unfold a_exit_all in *. cbn [fold_left]. rewrite IH. cbn. unfold put.
  destruct (Nat.eqb_spec t x); subst; cbn; auto. destruct (existsb (Nat.eqb x) l); auto.
Qed.
Lemma exit_all_more : forall l a, aroots (a_exit_all a l) = aroots a /\ anow (a_exit_all a l) = anow a /\ afailed (a_exit_all a l) = afailed a.
Proof.
  induction l; intros; cbn; auto. unfold a_exit_all in IHl. destruct (IHl (a_att a0 a (attr_exited (aat a0 a)))) as (? & ? & ?). auto.
Qed.
Lemma existsb_in : forall t l, existsb (Nat.eqb t) l = true <-> In t l.
Proof.
  intros. rewrite existsb_exists. split.
  - intros (x & I & E). apply Nat.eqb_eq in E. now subst.
  - intros I. exists t. rewrite Nat.eqb_refl. auto.
Qed.

Definition opt_list (p : option nat) : list nat := match p with Some t => [t] | None => [] end.

(* the fields after a_pop *)
Lemma pop_fields : forall a r l, astack a = r :: l ->
  let b := a_pop a in
  runq b = runq a /\ suspq b = suspq a /\ aact b = aact a /\ acount b = acount a /\ astack b = l /\ aroots b = aroots a /\
  anow b = anow a /\ afailed b = afailed a /\
  forall t, aat b t = if existsb (Nat.eqb t) (runq a r ++ suspq a r ++ opt_list (aact a r)) then attr_exited (aat a t) else aat a t.
Proof.
  intros a r l ES b. subst b. unfold a_pop. rewrite ES.
  destruct (exit_all_queues (runq a r) a) as (X1 & X2 & X3 & X4 & X5).
  destruct (exit_all_more (runq a r) a) as (X6 & X7 & X8).
  pose proof (exit_all_att (runq a r) a) as X9.
  set (a1 := a_exit_all a (runq a r)) in *. clearbody a1.
  destruct (exit_all_queues (suspq a1 r) a1) as (Y1 & Y2 & Y3 & Y4 & Y5).
  destruct (exit_all_more (suspq a1 r) a1) as (Y6 & Y7 & Y8).
  pose proof (exit_all_att (suspq a1 r) a1) as Y9.
  set (a2 := a_exit_all a1 (suspq a1 r)) in *. clearbody a2. cbv zeta.
  assert (Z : forall t, aat a2 t = if existsb (Nat.eqb t) (runq a r ++ suspq a r) then attr_exited (aat a t) else aat a t).
  { intros t. rewrite Y9, X9, existsb_app, X2. destruct (existsb (Nat.eqb t) (runq a r)), (existsb (Nat.eqb t) (suspq a r)); auto. }
  rewrite Y3, X3. destruct (aact a r) as [x |]; cbn [opt_list].
  - cbn. repeat split; try congruence. intros t. unfold put.
    rewrite app_assoc, existsb_app. cbn [existsb]. rewrite orb_false_r.
    destruct (Nat.eqb_spec t x).
    + subst. rewrite orb_true_r, Z. destruct (existsb _ _); auto.
    + rewrite orb_false_r. apply Z.
  - rewrite app_nil_r. cbn. repeat split; try congruence. auto.
Qed.

Lemma mem_pop : forall a, mem a -> mem (a_pop a).
Proof.
  intros a M. destruct (astack a) as [| r l] eqn:ES; [unfold a_pop; rewrite ES; auto |].
  destruct (pop_fields a r l ES) as (P1 & P2 & P3 & P4 & P5 & P6 & P7 & P8 & P9).
  set (b := a_pop a) in *. clearbody b. destruct M. rewrite ES in *.
  assert (RT : forall t, troot (aat b t) = troot (aat a t)).
  { intros t. rewrite P9. destruct (existsb _ _); auto. }
  apply NoDup_cons_iff in m_nodup0. destruct m_nodup0 as [NI ND].
  assert (DEAD : forall t, In t (runq a r ++ suspq a r ++ opt_list (aact a r)) -> troot (aat a t) = r).
  { intros t I. rewrite !in_app_iff in I. destruct I as [I | [I | I]].
    - apply (m_in0 r t). now left.
    - apply (m_in0 r t). now right.
    - destruct (aact a r) as [x |] eqn:EA; cbn in I; [| tauto]. destruct I as [<- | []]. apply (m_act0 r x EA). }
  assert (LV : forall t, exited (aat b t) = false -> exited (aat a t) = false /\ ~ In t (runq a r ++ suspq a r ++ opt_list (aact a r))).
  { intros t E. rewrite P9 in E. destruct (existsb _ _) eqn:EB; [discriminate |]. split; auto.
    intros I. apply existsb_in in I. congruence. }
  assert (Q : forall i t, inq b i t <-> inq a i t) by (intros; unfold inq; rewrite P1, P2; tauto).
  constructor.
  - intros i t Ii It. rewrite Q in It. rewrite P5 in Ii. rewrite P9.
    destruct (existsb _ _) eqn:EB.
    + exfalso. apply existsb_in in EB. apply DEAD in EB. destruct (m_in0 _ _ It) as [_ E]. subst. congruence.
    + apply (m_live0 i); auto. right; auto.
  - intros t Lt Et. rewrite P4 in Lt. destruct (LV t Et) as [E1 E2]. destruct (m_queued0 t Lt E1) as [I1 I2].
    rewrite RT, P5, Q. split; auto. destruct I1 as [E3 | I1]; auto.
    exfalso. apply E2. rewrite !in_app_iff. rewrite <- E3 in I2. unfold inq in I2. tauto.
  - intros i I. rewrite P5 in I. rewrite P6. apply m_stack0. right; auto.
  - now rewrite P5.
  - intros t. rewrite P4, RT, P6. auto.
  - intros i t. rewrite Q, P4, RT. auto.
  - intros i t. rewrite P3, P4, RT. auto.
Qed.

Lemma mem_act_none : forall a r, mem a -> mem (a_act a r None).
Proof. intros. eapply mem_same; [| eauto]. apply sameq_act. discriminate. Qed.

Definition wf (a : ast) : Prop := exists s, rep s a.

Lemma mem_next : forall a, wf a -> mem a -> mem (a_next a).
Proof.
  intros a [s H] M. unfold a_next. destruct (astack a) as [| r l] eqn:ES; auto.
  destruct (runq a r) as [| x q] eqn:ER.
  - destruct (suspq a r) as [| b sq] eqn:EQ.
    + apply mem_pop, mem_act_none, M.
    + destruct (filter (a_polled a) (b :: sq)) as [| w ws] eqn:EF.
      * eapply mem_same; [| exact M].
        destruct (sleep_same a b) as (E1 & E2 & E3 & E4 & E5).
        destruct (p_insusp _ _ H r b) as (B1 & B2 & B3); [rewrite EQ; left; auto |].
        eapply sameq_trans; [apply (sameq_sleep a b) |].
        eapply sameq_trans; [apply sameq_wake; rewrite E1, E3, B2, EQ; left; auto |].
        apply sameq_act. intros t E. injection E as <-. unfold inq. cbn. rewrite E1, B2, put_same. left.
        apply in_or_app. right. left. auto.
      * eapply mem_same; [| exact M].
        assert (FI : forall t, In t (w :: ws) -> In t (suspq a r) /\ troot (aat a t) = r).
        { intros t I. rewrite <- EF in I. apply filter_In in I. destruct I as [I _]. rewrite <- EQ in I. split; auto. apply (p_insusp _ _ H _ _ I). }
        assert (ND : NoDup (w :: ws)).
        { rewrite <- EF. apply NoDup_filter. rewrite <- EQ. apply (p_ndsusp _ _ H). }
        eapply sameq_trans; [apply (sameq_wakes (w :: ws) a r); auto |].
        apply sameq_act. intros t E. injection E as <-.
        destruct (wakes_queues (w :: ws) a r []) as (I1 & _); auto. { intros t I. apply FI; auto. }
        unfold inq. rewrite I1. left. apply in_or_app. right. left. auto.
  - eapply mem_same; [| exact M]. apply sameq_act. intros t E. injection E as <-. left. rewrite ER. left; auto.
Qed.

(** * Taking a thread out, and putting one in *)

Lemma leave_q : forall s a t r u, rep s a -> (inq (a_leave a t) r u <-> inq a r u /\ u <> t).
Proof.
  intros s a t r u H. unfold inq, a_leave.
  assert (D : forall q, (In t (runq a q) -> susp (aat a t) = false /\ troot (aat a t) = q) /\
                        (In t (suspq a q) -> susp (aat a t) = true /\ troot (aat a t) = q)).
  { intros q. split; intros I.
    - destruct (p_inrun _ _ H _ _ I) as (? & ? & ?); auto.
    - destruct (p_insusp _ _ H _ _ I) as (? & ? & ?); auto. }
  destruct (D r) as [D1 D2].
  destruct (susp (aat a t)) eqn:SU; cbn; unfold put; destruct (Nat.eqb_spec r (troot (aat a t))) as [-> | NE];
  rewrite ?without_in; destruct (Nat.eq_dec u t) as [-> | NE2]; intuition congruence.
Qed.

Lemma leave_fields : forall a t, acount (a_leave a t) = acount a /\ astack (a_leave a t) = astack a /\ aat (a_leave a t) = aat a /\
  aact (a_leave a t) = aact a /\ aroots (a_leave a t) = aroots a /\ anow (a_leave a t) = anow a /\ afailed (a_leave a t) = afailed a.
Proof. intros. unfold a_leave. destruct (susp (aat a t)); cbn; auto 10. Qed.

Lemma mem_exit : forall s a t, rep s a -> mem a ->
  mem (a_att (a_leave a t) t (attr_exited (aat (a_leave a t) t))).
Proof.
  intros s a t H M. destruct (leave_fields a t) as (L1 & L2 & L3 & L4 & L5 & _). pose proof (fun r u => leave_q s a t r u H) as Q.
  set (b := a_leave a t) in *. clearbody b. destruct M.
  assert (RT : forall u, troot (put (aat b) t (attr_exited (aat b t)) u) = troot (aat a u)).
  { intros u. unfold put. rewrite L3. destruct (Nat.eqb_spec u t); subst; auto. }
  constructor; cbn.
  - intros r u I J. rewrite L2 in I. change (inq b r u) in J. rewrite Q in J. destruct J as [J NE].
    rewrite put_other, L3 by auto. eapply m_live0; eauto.
  - intros u Lu. rewrite RT. destruct (Nat.eq_dec u t) as [-> | NE]; [rewrite put_same; discriminate |].
    rewrite put_other, L3, L2 by auto. rewrite L1 in Lu. intros E. destruct (m_queued0 u Lu E). split; auto.
    change (inq b (troot (aat a u)) u). rewrite Q. auto.
  - intros r. rewrite L2, L5. auto.
  - now rewrite L2.
  - intros u. rewrite RT, L1, L5. auto.
  - intros r u J. change (inq b r u) in J. rewrite Q in J. rewrite RT, L1. apply m_in0. tauto.
  - intros r u. rewrite RT, L1, L4. auto.
Qed.

Lemma mem_delete : forall s a t, rep s a -> mem a -> mem (a_delete a t).
Proof.
  intros s a t H M. unfold a_delete. pose proof (mem_exit s a t H M) as E. cbv zeta.
  destruct (opt_is _ t); auto. apply mem_next; auto.
  exists (set_att (unlink_thread s t) t (attr_exited (aat (a_leave a t) t))).
  apply rep_att_same; auto. apply rep_unlink; auto.
Qed.

Lemma by_time_in : forall f t l u, In u (by_time f t l) <-> u = t \/ In u l.
Proof.
  induction l; cbn; intros; [intuition |]. destruct (later _ _); cbn; rewrite ?IHl; intuition.
Qed.

Lemma enter_q : forall a t r i u, inq (a_enter a t r) i u <-> inq a i u \/ (i = r /\ u = t).
Proof.
  intros. unfold inq, a_enter. destruct (susp (aat a t)); cbn; unfold put; destruct (Nat.eqb_spec i r); subst;
  rewrite ?in_app_iff, ?by_time_in; cbn; intuition.
Qed.
Lemma enter_fields : forall a t r, acount (a_enter a t r) = acount a /\ astack (a_enter a t r) = astack a /\ aat (a_enter a t r) = aat a /\
  aact (a_enter a t r) = aact a /\ aroots (a_enter a t r) = aroots a /\ anow (a_enter a t r) = anow a /\ afailed (a_enter a t r) = afailed a.
Proof. intros. unfold a_enter. destruct (susp (aat a t)); cbn; auto 10. Qed.

(* a new thread of the innermost root, in its queue *)
Lemma mem_new : forall a r l su, mem a -> astack a = r :: l -> mem (a_enter (a_new a r su) (acount a) r).
Proof.
  intros a r l su M ES. destruct (enter_fields (a_new a r su) (acount a) r) as (L1 & L2 & L3 & L4 & L5 & _).
  pose proof (enter_q (a_new a r su) (acount a) r) as Q.
  set (b := a_enter (a_new a r su) (acount a) r) in *. clearbody b. cbn in *. destruct M.
  assert (OLD : forall i u, inq (a_new a r su) i u <-> inq a i u) by (intros; unfold inq; cbn; tauto).
  assert (ATN : aat b (acount a) = mkAttr su false (0, 0)%Z None None r) by (rewrite L3; apply put_same).
  assert (ATO : forall u, (u < acount a)%nat -> aat b u = aat a u) by (intros; rewrite L3; apply put_other; lia).
  constructor.
  - intros i u I J. rewrite L2 in I. rewrite Q, OLD in J. destruct J as [J | [-> ->]].
    + rewrite ATO by (apply (m_in0 _ _ J)). eapply m_live0; eauto.
    + now rewrite ATN.
  - intros u Lu E. rewrite L1 in Lu. destruct (Nat.eq_dec u (acount a)) as [-> | NE].
    + rewrite ATN, L2, Q, ES. cbn. auto.
    + assert (u < acount a)%nat by lia. rewrite ATO in * by auto. rewrite L2, Q, OLD. destruct (m_queued0 u H E). auto.
  - intros i. rewrite L2, L5. auto.
  - now rewrite L2.
  - intros u Lu. rewrite L1 in Lu. rewrite L5. destruct (Nat.eq_dec u (acount a)) as [-> | NE].
    + rewrite ATN. cbn. apply m_stack0. rewrite ES. left; auto.
    + rewrite ATO by lia. apply m_root0. lia.
  - intros i u J. rewrite Q, OLD in J. rewrite L1. destruct J as [J | [-> ->]].
    + destruct (m_in0 _ _ J). rewrite ATO by auto. auto.
    + rewrite ATN. auto.
  - intros i u. rewrite L4, L1. intros J. destruct (m_act0 _ _ J). rewrite ATO by auto. auto.
Qed.

Lemma mem_default : forall a, mem a -> mem (a_default a).
Proof.
  intros a M. unfold a_default. destruct (astack a) as [| r l] eqn:ES; auto. destruct (aact a r); auto.
  eapply mem_same; [| apply (mem_new a r l false M ES)].
  apply sameq_act. intros t E. injection E as <-. rewrite enter_q. auto.
Qed.

(* when the thread is made first and the default thread after it *)
Lemma mem_make : forall a su, mem a -> mem (a_make a su).
Proof.
  intros a su M. unfold a_make. destruct (astack a) as [| r l] eqn:ES; auto.
  pose proof (mem_new a r l su M ES) as M1.
  unfold a_default. cbn [a_new astack aact]. rewrite ES. destruct (aact a r) as [x |] eqn:EA; auto.
  set (b := a_enter (a_new a r su) (acount a) r) in *.
  destruct (enter_fields (a_new a r su) (acount a) r) as (L1 & L2 & L3 & L4 & L5 & _). fold b in L1, L2, L3, L4, L5. cbn in L1, L2, L3, L4, L5.
  assert (ESb : astack b = r :: l) by congruence.
  pose proof (mem_new b r l false M1 ESb) as M2. rewrite L1 in M2.
  eapply mem_same; [| exact M2]. cbn [acount].
  set (c := a_enter (a_new b r false) (S (acount a)) r).
  set (d := a_enter (a_new (a_new a r su) r false) (S (acount a)) r).
  destruct (enter_fields (a_new b r false) (S (acount a)) r) as (C1 & C2 & C3 & C4 & C5 & _). fold c in C1, C2, C3, C4, C5.
  destruct (enter_fields (a_new (a_new a r su) r false) (S (acount a)) r) as (D1 & D2 & D3 & D4 & D5 & _). fold d in D1, D2, D3, D4, D5.
  destruct (enter_fields (a_act d r (Some (S (acount a)))) (acount a) r) as (F1 & F2 & F3 & F4 & F5 & _).
  pose proof (enter_q (a_act d r (Some (S (acount a)))) (acount a) r) as Q3.
  set (e := a_enter (a_act d r (Some (S (acount a)))) (acount a) r) in *.
  assert (Qd : forall i u, inq (a_act d r (Some (S (acount a)))) i u <-> inq a i u \/ (i = r /\ u = S (acount a))).
  { intros i u. transitivity (inq d i u); [unfold inq; cbn; tauto |].
    unfold d. rewrite enter_q. unfold inq. cbn. tauto. }
  assert (Qc : forall i u, inq c i u <-> (inq a i u \/ (i = r /\ u = acount a)) \/ (i = r /\ u = S (acount a))).
  { intros i u. unfold c. rewrite enter_q. transitivity (inq b i u \/ (i = r /\ u = S (acount a))); [unfold inq; cbn; tauto |].
    unfold b. rewrite enter_q. unfold inq. cbn. tauto. }
  assert (ATT : forall u, aat e u = aat c u).
  { intros u. rewrite F3, C3. cbn. rewrite D3, L3. cbn. rewrite L1. reflexivity. }
  change (sameq c e). constructor.
  - rewrite F1, C1. cbn. rewrite D1. cbn. congruence.
  - rewrite F5, C5. cbn. rewrite D5. cbn. congruence.
  - rewrite F2, C2. cbn. rewrite D2. cbn. congruence.
  - intros u. now rewrite ATT.
  - intros u. now rewrite ATT.
  - intros i u. rewrite Q3, Qd, Qc. tauto.
  - intros i u. rewrite F4, C4. cbn. rewrite D4, L4. cbn. unfold put. destruct (Nat.eqb_spec i r).
    + intros E. injection E as <-. right. rewrite Qc. auto.
    + auto.
Qed.

Lemma mem_suspend : forall s a t ms p, rep s a -> queued_live a -> mem a -> (t < acount a)%nat -> mem (a_suspend a t ms p).
Proof.
  intros s a t ms p H LV M LT. unfold a_suspend.
  destruct (susp (aat a t)) eqn:SU; cbn [orb]; [eapply mem_same; [apply sameq_fail | auto] |].
  destruct (exited (aat a t)) eqn:EX; [eapply mem_same; [apply sameq_fail | auto] |].
  cbv zeta.
  destruct (leave_fields a t) as (L1 & L2 & L3 & L4 & L5 & L6 & _). pose proof (fun r u => leave_q s a t r u H) as Q.
  set (x := mkAttr true false (deadline (anow (a_leave a t)) ms) p (Some false) (troot (aat a t))).
  destruct (enter_fields (a_att (a_leave a t) t x) t (troot (aat a t))) as (C1 & C2 & C3 & C4 & C5 & C6 & _).
  pose proof (enter_q (a_att (a_leave a t) t x) t (troot (aat a t))) as Q2.
  assert (W : wf (a_enter (a_att (a_leave a t) t x) t (troot (aat a t)))).
  { exists (enqueue_thread (set_att (unlink_thread s t) t x) t (troot (aat a t))).
    pose proof (leave_nowhere s a t H) as NW.
    apply rep_enqueue; auto.
    - apply rep_att_out; [apply rep_unlink; auto | apply NW | apply NW].
    - cbn. lia.
    - cbn. now rewrite put_same.
    - cbn. now rewrite put_same. }
  set (b := a_enter (a_att (a_leave a t) t x) t (troot (aat a t))) in *. clearbody b.
  assert (SQ : sameq a b).
  { destruct (m_queued _ M t LT EX) as [_ IT].
    constructor; cbn in *; try congruence.
    - intros u. rewrite C3, L3. unfold put. destruct (Nat.eqb_spec u t); subst; cbn; auto.
    - intros u. rewrite C3, L3. unfold put. destruct (Nat.eqb_spec u t); subst; cbn; auto.
    - intros r u. rewrite Q2. transitivity (inq (a_leave a t) r u \/ r = troot (aat a t) /\ u = t); [unfold inq; cbn; tauto |].
      rewrite Q. destruct (Nat.eq_dec u t) as [-> | NE]; [| tauto].
      split; [intros [[_ F] | [-> _]]; [congruence | auto] |]. intros J. right. split; auto.
      destruct (m_in _ M _ _ J). auto.
    - intros r u. rewrite C4, L4. auto. }
  pose proof (mem_same _ _ SQ M) as Mb.
  destruct (astack b) as [| cr l]; auto. destruct (opt_is _ t); auto. apply mem_next; auto.
Qed.

Lemma mem_queued_live : forall a, mem a -> queued_live a.
Proof. intros a M r t I J. apply (m_live _ M r t I J). Qed.

Lemma mem_yield : forall s a, rep s a -> mem a -> mem (a_yield a).
Proof.
  intros s a H M. unfold a_yield. destruct (astack a) as [| r l] eqn:ES; auto. cbv zeta.
  set (a1 := a_queues a r (to_end (runq a r)) (suspq a r)).
  assert (S1 : sameq a a1).
  { apply sameq_queues. intros t. rewrite to_end_in. unfold inq. tauto. }
  set (ws := filter (a_due a) (suspq a r)).
  assert (ND : NoDup ws) by (apply NoDup_filter, (p_ndsusp _ _ H)).
  assert (FI : forall t, In t ws -> In t (suspq a1 r) /\ troot (aat a1 t) = r).
  { intros t I. apply filter_In in I. destruct I as [I _]. cbn. rewrite put_same. split; auto. apply (p_insusp _ _ H _ _ I). }
  pose proof (sameq_wakes ws a1 r ND FI) as S2.
  assert (M2 : mem (fold_left a_wake ws a1)) by (eapply mem_same; [| exact M]; eapply sameq_trans; eauto).
  destruct (opt_eq _ _); auto. apply mem_next; auto.
  pose proof (rep_rotate s a r H) as R.
  destruct (rep_length _ _ r R) as [_ L]. fold a1 in R, L.
  assert (EQ : suspq a1 r = suspq a r) by (cbn; apply put_same). rewrite EQ in L.
  destruct (wake_loop_rep (due (timeval (anow a))) (a_due a) a1 r (suspq a r) (acount a1) (rotate s r) a1 [] false
      (fun s' a' R' Q t => due_rep a1 s' a' R' Q t) R (quiet_refl _) EQ L) as [W1 W2].
  { intros t I. apply (mem_queued_live _ M r); [rewrite ES; left; auto | auto]. }
  eexists. exact W1.
Qed.

(** * One event *)

Lemma rep_the : forall s a t, rep s a -> mem a ->
  rep (fst (the_thread s t)) (fst (a_the a t)) /\ snd (the_thread s t) = snd (a_the a t) /\ mem (fst (a_the a t)).
Proof.
  intros s a [t |] H M; cbn; auto. unfold current_thread, a_current.
  pose proof (rep_default s a H) as D. pose proof (mem_default a M) as E. cbv zeta. rewrite (p_stack _ _ D).
  destruct (astack (a_default a)) as [| r l]; cbn; auto. rewrite (p_act _ _ D). auto.
Qed.

Lemma live_rep : forall s a t, rep s a -> threadp s t = a_live a t.
Proof. intros s a t H. unfold threadp, a_live. now rewrite (p_nth _ _ H), (p_att _ _ H). Qed.

Lemma a_live_lt : forall a t, a_live a t = true -> (t < acount a)%nat /\ exited (aat a t) = false.
Proof.
  intros a t H. apply andb_true_iff in H. destruct H as [H1 H2]. apply Nat.ltb_lt in H1. apply negb_true_iff in H2. auto.
Qed.

Lemma step_rep : forall s a e, rep s a -> mem a -> rep (step s e) (a_step a e) /\ mem (a_step a e).
Proof.
  intros s a e H M. pose proof (mem_queued_live a M) as LV.
  unfold step, a_step. rewrite (p_failed _ _ H). destruct (afailed a); [auto |].
  destruct e as [su | | t | t ms | t ms | t | | | | | dt].
  - split; [apply rep_make; auto | apply mem_make; auto].
  - split; [apply rep_yield; auto | eapply mem_yield; eauto].
  - unfold Fthread_delete. destruct (rep_the s a t H M) as (T1 & T2 & T3).
    destruct (the_thread s t) as [s1 o], (a_the a t) as [a1 o']. cbn [fst snd] in *. subst o'.
    destruct o as [x |]; auto. rewrite (live_rep _ _ x T1). destruct (a_live a1 x); auto.
    split; [apply rep_delete; auto; apply mem_queued_live; auto | eapply mem_delete; eauto].
  - unfold Fthread_suspend. destruct (rep_the s a t H M) as (T1 & T2 & T3).
    destruct (the_thread s t) as [s1 o], (a_the a t) as [a1 o']. cbn [fst snd] in *. subst o'.
    destruct o as [x |]; auto. rewrite (live_rep _ _ x T1). destruct (a_live a1 x) eqn:AL; auto.
    apply a_live_lt in AL. destruct AL as [AL _]. cbv zeta.
    rewrite (p_stack _ _ T1).
    set (m := match ms with None => 1%Z | Some m => ulong m end).
    pose proof (rep_suspend s1 a1 x m None T1 (mem_queued_live _ T3) AL) as R.
    pose proof (mem_suspend s1 a1 x m None T1 (mem_queued_live _ T3) T3 AL) as R2.
    replace (match astack a1 with [] => false | r :: _ => opt_is (active (rt s1 r)) x end)
      with (match astack a1 with [] => false | r :: _ => opt_is (aact a1 r) x end)
      by (destruct (astack a1); auto; now rewrite (p_act _ _ T1)).
    destruct (match astack a1 with [] => false | r :: _ => opt_is (aact a1 r) x end); auto.
    rewrite (p_att _ _ R). split; [apply rep_att_same; auto |].
    eapply mem_same; [apply sameq_att |]; auto.
  - unfold Fthread_join. destruct (rep_the s a None H M) as (T1 & T2 & T3). cbn [the_thread a_the] in *.
    destruct (current_thread s) as [s1 o], (a_current a) as [a1 o']. cbn [fst snd] in *. subst o'.
    destruct o as [x |]; auto. rewrite (live_rep _ _ x T1), (p_stack _ _ T1), (p_att _ _ T1). unfold xthreadp. rewrite (p_nth _ _ T1).
    destruct (Nat.ltb t (acount a1) && _ && _ && a_live a1 x) eqn:C; auto.
    apply andb_true_iff in C. destruct C as [_ C]. apply a_live_lt in C. destruct C as [C _].
    split; [apply rep_suspend; auto; apply mem_queued_live; auto | eapply mem_suspend; eauto; apply mem_queued_live; auto].
  - unfold Fthread_wake. destruct (rep_the s a t H M) as (T1 & T2 & T3).
    destruct (the_thread s t) as [s1 o], (a_the a t) as [a1 o']. cbn [fst snd] in *. subst o'.
    destruct o as [x |]; auto. rewrite (live_rep _ _ x T1). destruct (a_live a1 x) eqn:AL; auto.
    apply a_live_lt in AL. destruct AL as [AL EX]. cbv zeta. rewrite (p_att _ _ T1).
    set (v := attr_exit_val (aat a1 x) (Some true)).
    assert (R : rep (set_att s1 x v) (a_att a1 x v)) by (apply rep_att_same; auto).
    assert (R2 : mem (a_att a1 x v)) by (eapply mem_same; [apply sameq_att |]; auto).
    assert (AX : aat (a_att a1 x v) x = v) by (cbn; apply put_same).
    rewrite AX. destruct (susp v) eqn:SV.
    + split.
      * apply rep_wake; auto; rewrite AX; auto.
      * eapply mem_same; [apply sameq_wake | exact R2]. rewrite AX.
        destruct (m_queued _ T3 x AL EX) as [_ [J | J]]; auto.
        exfalso. destruct (p_inrun _ _ T1 _ _ J) as (_ & _ & F). cbn in SV. congruence.
    + unfold thread_wake. rewrite (p_att _ _ R), AX, SV. cbn [negb].
      split; [apply rep_fail; auto | eapply mem_same; [apply sameq_fail | auto]].
  - split; [apply rep_default; auto | apply mem_default; auto].
  - unfold thread_return. rewrite (p_stack _ _ H). destruct (astack a) as [| r l] eqn:ES; auto. rewrite (p_act _ _ H).
    destruct (aact a r) as [x |] eqn:EA; [| split; [apply rep_pop; auto | apply mem_pop; auto]].
    destruct (p_run _ _ H r) as (_ & H1 & _). rewrite H1, <- hdo_hd. cbv zeta.
    pose proof (rep_delete s a x H LV) as R. pose proof (mem_delete s a x H M) as R2.
    destruct (opt_is _ x); auto. split; [apply rep_fail; auto | eapply mem_same; [apply sameq_fail | auto]].
  - split; [apply rep_pop; auto | apply mem_pop; auto].
  - split.
    + destruct H. constructor; cbn; auto. now rewrite p_stack, p_nroots.
    + destruct M. constructor; cbn; auto.
      * intros r t [<- | I] J; eauto. exfalso. destruct (m_in0 _ _ J) as [J1 J2]. specialize (m_root0 _ J1). lia.
      * intros t L E. destruct (m_queued0 t L E). auto.
      * intros r [<- | I]; [lia | specialize (m_stack0 _ I); lia].
      * constructor; auto. intros I. specialize (m_stack0 _ I). lia.
      * intros t L. specialize (m_root0 t L). lia.
  - rewrite (p_now _ _ H). split; [apply rep_now; auto | eapply mem_same; [apply sameq_now | auto]].
Qed.

Lemma init_rep : rep init ainit.
Proof.
  constructor; cbn; auto; try tauto.
  - intros r. split; cbn; auto.
  - intros r. split; cbn; auto.
  - constructor.
  - constructor.
Qed.
Lemma init_mem : mem ainit.
Proof.
  constructor; cbn.
  - intros r t _ [[] | []].
  - intros t L. lia.
  - intros r [<- | []]. lia.
  - constructor; auto. constructor.
  - intros t L. lia.
  - intros r t [[] | []].
  - discriminate.
Qed.

Lemma run_rep : forall es s a, rep s a -> mem a -> rep (run s es) (a_run a es) /\ mem (a_run a es).
Proof.
  induction es as [| e es IH]; intros s a H M; auto.
  unfold run, a_run. cbn [fold_left]. destruct (step_rep s a e H M). apply IH; auto.
Qed.
