(* Every event takes Threads_Model to the state the list scheduler gets to. *)
From Coq Require Import ZArith List Bool Lia ZifyBool Permutation.
Import ListNotations.
From Verif Require Import Threads_Model Threads_Spec Threads_Proofs.

(** * Abstract states that agree *)

Record aeq (a b : ast) : Prop := mkAeq {
  q_failed : afailed a = afailed b;
  q_stack : astack a = astack b;
  q_now : anow a = anow b;
  q_count : acount a = acount b;
  q_roots : aroots a = aroots b;
  q_att : forall t, aat a t = aat b t;
  q_act : forall r, aact a r = aact b r;
  q_run : forall r, runq a r = runq b r;
  q_susp : forall r, suspq a r = suspq b r
}.

Lemma rep_ext : forall s a b, rep s a -> aeq a b -> rep s b.
Proof.
  intros s a b H E. destruct H, E. constructor; try congruence.
  - intros r. rewrite <- q_run0. auto.
  - intros r. rewrite <- q_susp0. auto.
  - intros r t. rewrite <- q_run0, <- q_att0, <- q_count0. auto.
  - intros r t. rewrite <- q_susp0, <- q_att0, <- q_count0. auto.
  - intros r. rewrite <- q_run0. auto.
  - intros r. rewrite <- q_susp0. auto.
  - intros t. rewrite <- q_run0, <- q_susp0, <- q_att0. auto.
Qed.

Ltac putc := unfold put; repeat match goal with |- context [Nat.eqb ?x ?y] => destruct (Nat.eqb_spec x y); subst end; auto; try congruence.

Lemma leave_nowhere : forall s a t, rep s a -> nowhere (a_leave a t) t.
Proof.
  intros s a t H. intros r. unfold a_leave.
  assert (D : forall q, (In t (runq a q) -> susp (aat a t) = false /\ troot (aat a t) = q) /\
                        (In t (suspq a q) -> susp (aat a t) = true /\ troot (aat a t) = q)).
  { intros q. split; intros I.
    - destruct (p_inrun _ _ H _ _ I) as (? & ? & ?); auto.
    - destruct (p_insusp _ _ H _ _ I) as (? & ? & ?); auto. }
  destruct (susp (aat a t)) eqn:SU; cbn; split; intros I.
  - assert (In t (runq a r)) by (revert I; putc). apply D in H0. destruct H0; congruence.
  - unfold put in I. destruct (Nat.eqb_spec r (troot (aat a t))).
    + apply without_in in I. tauto.
    + apply D in I. destruct I; congruence.
  - unfold put in I. destruct (Nat.eqb_spec r (troot (aat a t))).
    + apply without_in in I. tauto.
    + apply D in I. destruct I; congruence.
  - assert (In t (suspq a r)) by (revert I; putc). apply D in H0. destruct H0; congruence.
Qed.

Lemma a_leave_att : forall a t, aat (a_leave a t) = aat a.
Proof. intros. unfold a_leave. destruct (susp (aat a t)); reflexivity. Qed.
Lemma a_leave_count : forall a t, acount (a_leave a t) = acount a.
Proof. intros. unfold a_leave. destruct (susp (aat a t)); reflexivity. Qed.

Lemma nowhere_att : forall a t u x, nowhere a t -> nowhere (a_att a u x) t.
Proof. intros a t u x H r. apply H. Qed.

Lemma rep_wake : forall s a t, rep s a -> (t < acount a)%nat ->
  susp (aat a t) = true -> exited (aat a t) = false -> rep (thread_wake s t) (a_wake a t).
Proof.
  intros s a t H LT SU EX. unfold thread_wake. rewrite !(p_att _ _ H), SU, EX. cbn [negb].
  pose proof (rep_unlink s a t H) as U. pose proof (leave_nowhere s a t H) as NW.
  cbv zeta. set (s1 := unlink_thread s t) in *. clearbody s1.
  assert (A1 : att (th s1 t) = aat a t) by (rewrite (p_att _ _ U), a_leave_att; auto). rewrite A1.
  pose proof (rep_att_out s1 _ t (attr_susp (aat a t) false) U (fun r => proj1 (NW r)) (fun r => proj2 (NW r))) as V.
  eapply rep_ext.
  - apply (rep_enqueue _ _ t (troot (aat a t)) V).
    + apply nowhere_att, NW.
    + cbn. rewrite a_leave_count. auto.
    + cbn. now rewrite put_same.
    + cbn. now rewrite put_same.
  - unfold a_enter. cbn. rewrite put_same. cbn. unfold a_leave. rewrite SU. cbn.
    constructor; cbn; auto; intros; putc.
Qed.

(** * The loop that wakes threads *)

(* only susp, the queues and active may differ *)
Definition quiet (a b : ast) : Prop :=
  acount b = acount a /\ (forall t, exited (aat b t) = exited (aat a t) /\ poll (aat b t) = poll (aat a t) /\
                       run_at (aat b t) = run_at (aat a t) /\ troot (aat b t) = troot (aat a t)).

Lemma quiet_refl : forall a, quiet a a.
Proof. split; auto. Qed.
Lemma quiet_wake : forall a b t, quiet a b -> quiet a (a_wake b t).
Proof.
  intros a b t [Q1 Q2]. split; cbn; auto. intros u. unfold put. destruct (Nat.eqb_spec u t); subst; cbn; auto.
Qed.

Lemma wake_loop_rep : forall test f a0 r l fuel s a kept woke,
  (forall s' a', rep s' a' -> quiet a0 a' -> forall t, test s' t = f t) ->
  rep s a -> quiet a0 a -> suspq a r = kept ++ l -> (length l <= fuel)%nat ->
  (forall t, In t l -> exited (aat a0 t) = false) ->
  rep (fst (wake_loop fuel test s (hdo l None) woke)) (fold_left a_wake (filter f l) a) /\
  snd (wake_loop fuel test s (hdo l None) woke) = (woke || existsb f l)%bool.
Proof.
  intros test f a0 r. induction l as [| t l IH]; intros fuel s a kept woke T H Q E L LV.
  - destruct fuel; cbn; rewrite orb_false_r; auto.
  - cbn [length] in L. destruct fuel as [| fuel]; [lia |]. cbn [wake_loop hdo filter existsb].
    rewrite (T _ _ H Q t).
    assert (NX : nxt (th s t) = hdo l None).
    { destruct (p_susp _ _ H r) as (S & _). rewrite E in S. apply seg_at in S. apply S. }
    assert (IT : In t (suspq a r)) by (rewrite E; apply in_or_app; right; left; auto).
    destruct (p_insusp _ _ H _ _ IT) as (LT & RT & SU).
    rewrite NX. destruct (f t) eqn:FT.
    + cbn [fold_left orb]. rewrite orb_true_r.
      assert (EX : exited (aat a t) = false).
      { destruct Q as [_ Q]. destruct (Q t) as (Q1 & _). rewrite Q1. apply LV. left; auto. }
      destruct (IH fuel (thread_wake s t) (a_wake a t) kept true T) as [I1 I2].
      * apply rep_wake; auto.
      * apply quiet_wake; auto.
      * cbn. rewrite RT, put_same, E. apply without_split. rewrite <- E. apply (p_ndsusp _ _ H).
      * lia.
      * intros; apply LV; right; auto.
      * split; auto.
    + cbn [orb]. apply (IH fuel s a (kept ++ [t]) woke T H Q).
      * now rewrite <- app_assoc.
      * lia.
      * intros; apply LV; right; auto.
Qed.

Lemma polled_rep : forall a0 s' a', rep s' a' -> quiet a0 a' -> forall t, polled s' t = a_polled a0 t.
Proof.
  intros a0 s' a' H [_ Q] t. unfold polled, a_polled. rewrite (p_att _ _ H).
  destruct (Q t) as (_ & -> & _). destruct (poll (aat a0 t)) as [x |]; auto.
  rewrite (p_att _ _ H). now destruct (Q x) as (-> & _).
Qed.
Lemma due_rep : forall a0 s' a', rep s' a' -> quiet a0 a' -> forall t, due (timeval (anow a0)) s' t = a_due a0 t.
Proof.
  intros a0 s' a' H Q t. unfold due, a_due. rewrite (polled_rep _ _ _ H Q). rewrite (p_att _ _ H).
  destruct Q as [_ Q]. now destruct (Q t) as (_ & _ & -> & _).
Qed.

(** * The end of a root *)

Lemma exit_all_queues : forall l a, runq (a_exit_all a l) = runq a /\ suspq (a_exit_all a l) = suspq a /\
  aact (a_exit_all a l) = aact a /\ acount (a_exit_all a l) = acount a /\ astack (a_exit_all a l) = astack a.
Proof.
  induction l; intros; cbn; auto. unfold a_exit_all in IHl. destruct (IHl (a_att a0 a (attr_exited (aat a0 a)))) as (? & ? & ? & ? & ?).
  cbn in *. auto 10.
Qed.

Lemma mark_rep : forall l fuel s a b, rep s a -> seg (nx s) (pr s) b l None -> (length l <= fuel)%nat ->
  rep (mark_exited fuel s (hdo l None)) (a_exit_all a l).
Proof.
  induction l as [| t l IH]; intros fuel s a b H S L.
  - destruct fuel; auto.
  - cbn [length] in L. destruct fuel as [| fuel]; [lia |]. cbn [mark_exited hdo]. unfold a_exit_all. cbn [fold_left].
    cbn [seg] in S. destruct S as (S1 & S2 & S3). unfold nx in S2. rewrite S2, (p_att _ _ H).
    eapply IH; [| | lia].
    + apply rep_att_same; auto.
    + eapply seg_ext; [| apply S3]. intros y _. unfold nx, pr. cbn. unfold upd. destruct (Nat.eqb_spec y t); subst; auto.
Qed.

Lemma mark_rt : forall fuel s p, rt (mark_exited fuel s p) = rt s /\ nth_ (mark_exited fuel s p) = nth_ s /\ stack (mark_exited fuel s p) = stack s.
Proof. induction fuel; cbn; intros; auto. destruct p; auto. destruct (IHfuel (set_att s n (attr_exited (att (th s n)))) (nxt (th s n))) as (? & ? & ?). auto. Qed.

Lemma rep_stack : forall s a l, rep s a ->
  rep (with_stack s l) (mkA (aat a) (acount a) (runq a) (suspq a) (aact a) (aroots a) l (anow a) (afailed a)).
Proof. intros s a l H. destruct H. constructor; cbn; auto. Qed.

Lemma rep_pop : forall s a, rep s a -> rep (pop_root s) (a_pop a).
Proof.
  intros s a H. unfold pop_root, a_pop. rewrite (p_stack _ _ H). destruct (astack a) as [| r l] eqn:ES; auto.
  destruct (rep_length _ _ r H) as [L1 L2]. rewrite <- (p_nth _ _ H) in L1, L2.
  destruct (p_run _ _ H r) as (S1 & H1 & _). cbv zeta.
  rewrite H1. pose proof (mark_rep _ _ _ _ _ H S1 L1) as M1.
  destruct (mark_rt (nth_ s) s (hdo (runq a r) None)) as (R1 & N1 & K1).
  set (s1 := mark_exited (nth_ s) s (hdo (runq a r) None)) in *. clearbody s1.
  destruct (exit_all_queues (runq a r) a) as (X1 & X2 & X3 & X4 & X5).
  set (a1 := a_exit_all a (runq a r)) in *. clearbody a1.
  destruct (p_susp _ _ M1 r) as (S2 & H2 & _). rewrite H2, X2 in *.
  rewrite <- N1 in L2. pose proof (mark_rep _ _ _ _ _ M1 S2 L2) as M2. rewrite N1 in *.
  destruct (mark_rt (nth_ s) s1 (hdo (suspq a r) None)) as (R2 & N2 & K2).
  set (s2 := mark_exited (nth_ s) s1 (hdo (suspq a r) None)) in *. clearbody s2.
  set (a2 := a_exit_all a1 (suspq a r)) in *. clearbody a2.
  rewrite (p_act _ _ M2 r). apply rep_stack.
  destruct (aact a2 r) as [t |]; auto. unfold a_exit_all. cbn [fold_left]. rewrite (p_att _ _ M2).
  apply rep_att_same; auto.
Qed.

(** * Context switches *)

(* in the roots in force no exited thread is queued *)
Definition queued_live (a : ast) : Prop :=
  forall r t, In r (astack a) -> In t (runq a r) \/ In t (suspq a r) -> exited (aat a t) = false.

Lemma wakes_queues : forall ws a r kept,
  NoDup ws -> (forall t, In t ws -> troot (aat a t) = r) ->
  let b := fold_left a_wake ws a in
  runq b r = runq a r ++ ws /\ astack b = astack a /\ anow b = anow a /\ acount b = acount a /\ aroots b = aroots a /\ afailed b = afailed a /\
  (forall i, aact b i = aact a i) /\
  (forall i, i <> r -> runq b i = runq a i /\ suspq b i = suspq a i) /\
  (kept = filter (fun t => negb (existsb (Nat.eqb t) ws)) (suspq a r) -> suspq b r = kept) /\
  (forall t, aat b t = if existsb (Nat.eqb t) ws then attr_susp (aat a t) false else aat a t).
Proof.
  induction ws as [| w ws IH]; intros a r kept ND RT b.
  - subst b. cbn. rewrite app_nil_r. repeat split; auto. intros ->.
    induction (suspq a r) as [| x l IHl]; cbn; congruence.
  - subst b. cbn [fold_left]. inversion ND as [| ? ? NI ND']; subst.
    assert (RW : troot (aat a w) = r) by (apply RT; left; auto).
    assert (RT' : forall t, In t ws -> troot (aat (a_wake a w) t) = r).
    { intros t I. cbn. unfold put. destruct (Nat.eqb_spec t w); cbn; auto. apply RT; right; auto. }
    destruct (IH (a_wake a w) r kept ND' RT') as (I1 & I2 & I3 & I4 & I5 & I6 & I7 & I8 & I9 & I10).
    rewrite I1, I2, I3, I4, I5, I6. cbn. rewrite RW, !put_same, <- app_assoc. repeat split; auto.
    + destruct (I8 i H) as [-> _]. cbn. now rewrite RW, put_other.
    + destruct (I8 i H) as [_ ->]. cbn. now rewrite RW, put_other.
    + intros ->. apply I9. cbn. rewrite RW, put_same. unfold without. clear.
      induction (suspq a r) as [| x l IHl]; cbn; auto.
      destruct (Nat.eqb_spec x w); cbn; auto. rewrite IHl.
      destruct (existsb (Nat.eqb x) ws); cbn; auto.
    + intros t. rewrite I10. cbn. unfold put. destruct (Nat.eqb_spec t w); subst; cbn; auto.
      replace (existsb (Nat.eqb w) ws) with false; auto.
      symmetry. apply Bool.not_true_is_false. intros E. apply existsb_exists in E. destruct E as (y & Iy & Ey).
      apply Nat.eqb_eq in Ey. subst. auto.
Qed.

Lemma rep_sleep : forall s a b, rep s a -> rep (sleep_for s b) (a_sleep a b).
Proof.
  intros s a b H. unfold sleep_for, a_sleep. rewrite (p_att _ _ H), (p_now _ _ H).
  destruct (later _ _); auto. apply rep_now. auto.
Qed.
Lemma sleep_same : forall a b, aat (a_sleep a b) = aat a /\ runq (a_sleep a b) = runq a /\ suspq (a_sleep a b) = suspq a /\
  acount (a_sleep a b) = acount a /\ astack (a_sleep a b) = astack a.
Proof. intros. unfold a_sleep. destruct (later _ _); cbn; auto 10. Qed.

Lemma existsb_filter : forall A (f : A -> bool) l, existsb f l = negb (match filter f l with [] => true | _ => false end).
Proof. induction l; cbn; auto. destruct (f a); cbn; auto. Qed.

Lemma rep_invoke : forall s a, rep s a -> queued_live a -> rep (thread_invoke s) (a_next a).
Proof.
  intros s a H LV. unfold thread_invoke, a_next. rewrite (p_stack _ _ H).
  destruct (astack a) as [| r l] eqn:ES; auto.
  destruct (p_run _ _ H r) as (S1 & H1 & _). destruct (p_susp _ _ H r) as (S2 & H2 & _).
  rewrite H1. destruct (runq a r) as [| x q] eqn:ER; cbn [hdo].
  - rewrite H2. destruct (suspq a r) as [| b sq] eqn:EQ; cbn [hdo].
    + apply rep_pop, rep_active; auto.
    + unfold poll_threads. rewrite H2, (p_nth _ _ H). cbn [hdo].
      destruct (rep_length _ _ r H) as [_ L2]. rewrite EQ in L2.
      assert (LVb : forall t, In t (b :: sq) -> exited (aat a t) = false).
      { intros t I. apply (LV r); [rewrite ES; left; auto | right; rewrite EQ; auto]. }
      destruct (wake_loop_rep polled (a_polled a) a r (b :: sq) (acount a) s a [] false
                  (fun s' a' => polled_rep a s' a') H (quiet_refl a) EQ L2 LVb) as [W1 W2].
      cbn [hdo] in W1, W2. destruct (wake_loop (acount a) polled s (Some b) false) as [s1 woke].
      cbn [fst snd] in W1, W2. rewrite W2. cbn [orb]. rewrite existsb_filter.
      destruct (filter (a_polled a) (b :: sq)) as [| w ws] eqn:EF; cbn [negb].
      * cbn [fold_left] in W1. destruct (p_susp _ _ W1 r) as (_ & H3 & _). rewrite H3, EQ. cbn [hdo].
        pose proof (rep_sleep _ _ b W1) as W3. destruct (sleep_same a b) as (E1 & E2 & E3 & E4 & E5).
        destruct (p_insusp _ _ H r b) as (B1 & B2 & B3); [rewrite EQ; left; auto |].
        assert (W4 : rep (thread_wake (sleep_for s1 b) b) (a_wake (a_sleep a b) b)).
        { apply rep_wake; auto; rewrite ?E1, ?E4; auto. apply LVb. left; auto. }
        unfold switch. destruct (p_run _ _ W4 r) as (_ & H4 & _). rewrite H4.
        cbn [a_wake a_queues runq]. rewrite E1, E2, B2, put_same. cbn. rewrite ER. cbn.
        apply rep_active. auto.
      * unfold switch. destruct (p_run _ _ W1 r) as (_ & H4 & _). rewrite H4.
        assert (FI : forall t, In t (w :: ws) -> In t (suspq a r)).
        { intros t I. rewrite <- EF in I. apply filter_In in I. rewrite EQ. tauto. }
        destruct (wakes_queues (w :: ws) a r []) as (I1 & _).
        { rewrite <- EF. apply NoDup_filter. rewrite <- EQ. apply (p_ndsusp _ _ H). }
        { intros t I. apply (p_insusp _ _ H). auto. }
        rewrite I1, ER. cbn [app hdo]. apply rep_active. auto.
  - unfold switch. rewrite H1. apply rep_active; auto.
Qed.

Lemma queued_live_queues : forall a r q sq, queued_live a ->
  (forall t, In t q -> In t (runq a r) \/ In t (suspq a r)) ->
  (forall t, In t sq -> In t (runq a r) \/ In t (suspq a r)) -> queued_live (a_queues a r q sq).
Proof.
  intros a r q sq H Hq Hs i t. cbn. intros I. unfold put. destruct (Nat.eqb_spec i r).
  - subst. intros [J | J]; apply (H r); auto.
  - apply H; auto.
Qed.

Lemma leave_live : forall a t, queued_live a -> queued_live (a_leave a t).
Proof.
  intros a t H. unfold a_leave. destruct (susp (aat a t)); apply queued_live_queues; auto;
  intros u I; apply without_in in I; tauto.
Qed.

Lemma att_live : forall a t x, queued_live a -> (exited x = exited (aat a t) \/ nowhere a t) -> queued_live (a_att a t x).
Proof.
  intros a t x H E r u I J. cbn in *. unfold put. destruct (Nat.eqb_spec u t); [subst | apply (H r); auto].
  destruct E as [-> | N].
  - apply (H r); auto.
  - exfalso. destruct (N r). tauto.
Qed.

Lemma rep_delete : forall s a t, rep s a -> queued_live a -> rep (thread_delete s t) (a_delete a t).
Proof.
  intros s a t H LV. unfold thread_delete, a_delete.
  rewrite (p_att _ _ H). destruct (p_run _ _ H (troot (aat a t))) as (_ & H1 & _). rewrite H1, <- hdo_hd.
  pose proof (rep_unlink s a t H) as U. cbv zeta. rewrite (p_att _ _ U).
  pose proof (leave_nowhere s a t H) as NW.
  assert (V : rep (set_att (unlink_thread s t) t (attr_exited (aat (a_leave a t) t))) (a_att (a_leave a t) t (attr_exited (aat (a_leave a t) t))))
    by (apply rep_att_same; auto).
  destruct (opt_is _ t); auto. apply rep_invoke; auto.
  apply att_live; auto. apply leave_live; auto.
Qed.

Lemma rep_default : forall s a, rep s a -> rep (ensure_default_thread s) (a_default a).
Proof.
  intros s a H. unfold ensure_default_thread, a_default. rewrite (p_stack _ _ H).
  destruct (astack a) as [| r l] eqn:ES; auto. rewrite (p_act _ _ H). destruct (aact a r); auto.
  rewrite (p_nth _ _ H). cbv zeta. apply rep_active.
  apply rep_enqueue.
  - apply rep_new; auto.
  - intros q. apply (rep_fresh s a q H).
  - cbn. lia.
  - cbn. now rewrite put_same.
  - cbn. now rewrite put_same.
Qed.

Lemma default_nowhere : forall s a t, rep s a -> nowhere a t -> (t < acount a)%nat ->
  nowhere (a_default a) t /\ (acount a <= acount (a_default a))%nat /\ aat (a_default a) t = aat a t.
Proof.
  intros s a t H N L. unfold a_default. destruct (astack a) as [| r l]; auto. destruct (aact a r); auto.
  cbn. unfold a_enter. cbn. rewrite put_same. cbn. rewrite put_other by lia. repeat split; auto.
  - intros I. cbn in I. unfold put in I. destruct (Nat.eqb_spec r0 r).
    + subst. apply in_app_iff in I. destruct I as [I | [I | []]]; [destruct (N r); auto | lia].
    + destruct (N r0); auto.
  - intros I. cbn in I. unfold put in I. destruct (Nat.eqb_spec r0 r); subst; [destruct (N r); auto | destruct (N r0); auto].
Qed.

Lemma rep_make : forall s a su, rep s a -> rep (make_thread s su) (a_make a su).
Proof.
  intros s a su H. unfold make_thread, a_make. rewrite (p_stack _ _ H).
  destruct (astack a) as [| r l] eqn:ES; auto. cbv zeta. rewrite (p_nth _ _ H).
  pose proof (rep_new s a r su H) as N. pose proof (rep_default _ _ N) as D.
  destruct (default_nowhere _ _ (acount a) N) as (W1 & W2 & W3).
  { intros q. apply (rep_fresh s a q H). }
  { cbn. lia. }
  change (acount (a_new a r su)) with (S (acount a)) in W2.
  replace (aat (a_new a r su) (acount a)) with (mkAttr su false (0, 0)%Z None None r) in W3
    by (cbn; now rewrite put_same).
  apply rep_enqueue; auto.
  - rewrite W3. reflexivity.
  - rewrite W3. reflexivity.
Qed.

Lemma rep_rotate : forall s a r, rep s a -> rep (rotate s r) (a_queues a r (to_end (runq a r)) (suspq a r)).
Proof.
  intros s a r H. destruct (p_run _ _ H r) as (S & HH & HT). unfold rotate. rewrite HH.
  destruct (runq a r) as [| x [| n l]] eqn:ER; cbn [hdo to_end].
  - rewrite <- ER. apply a_queues_same; auto.
  - destruct S as (_ & E & _). unfold nx in E. rewrite E. cbn [hdo app]. rewrite <- ER. apply a_queues_same; auto.
  - pose proof S as S0. cbn [seg hdo] in S. destruct S as (P1 & N1 & P2 & N2 & S). unfold nx in N1. unfold pr in P1. rewrite N1, P1.
    pose proof (p_ndrun _ _ H r) as ND. rewrite ER in ND.
    pose proof ND as NDx. inversion NDx as [| ? ? NIx ND1]; subst. clear NDx.
    assert (XN : n <> x) by (intros ->; apply NIx; left; auto).
    destruct (lasto_some _ l n None) as [z Z].
    assert (Zx : z <> x) by (intros ->; apply NIx; apply (lasto_in0 _ (n :: l)); auto).
    cbn [lasto] in HT. cbn [lasto] in Z. rewrite Z in HT.
    match goal with |- rep ?t _ => set (s' := t) end.
    assert (B : failed s' = failed s /\ stack s' = stack s /\ now s' = now s /\ nth_ s' = nth_ s /\ nroots s' = nroots s /\
      (forall u, att (th s' u) = att (th s u)) /\
      (forall u, nxt (th s' u) = (if Nat.eqb u x then None else if Nat.eqb u z then Some x else nxt (th s u))) /\
      (forall u, prd (th s' u) = (if Nat.eqb u x then Some z else if Nat.eqb u n then None else prd (th s u))) /\
      (forall i, i <> r -> rt s' i = rt s i) /\
      rt s' r = mkRoot (Some n) (Some x) (shead (rt s r)) (stail (rt s r)) (active (rt s r))).
    { subst s'. cbv zeta. cbn. rewrite ?(upd_other _ _ n) by auto. cbn. rewrite N1. cbn.
      rewrite ?upd_same. cbn. rewrite HT, ?upd_same. cbn.
      repeat split; auto.
      - intros u. cbn. updc.
      - intros u. cbn. updc.
      - intros u. cbn. updc.
      - intros i NE. cbn. rewrite !upd_other by auto. auto.
      - cbn. rewrite !upd_same. cbn. rewrite ?upd_same. reflexivity. }
    clearbody s'. destruct B as (U1 & U2 & U3 & U4 & U5 & U6 & U7 & U8 & U9 & U10).
    assert (OUT : forall u, ~ In u (x :: n :: l) -> th s' u = th s u).
    { intros u NI. specialize (U6 u). specialize (U7 u). specialize (U8 u).
      destruct (Nat.eqb_spec u x); [subst; exfalso; apply NI; left; auto |].
      destruct (Nat.eqb_spec u z); [subst; exfalso; apply NI; right; apply (lasto_in0 _ (n :: l)); auto |].
      destruct (Nat.eqb_spec u n); [subst; exfalso; apply NI; right; left; auto |].
      destruct (th s' u), (th s u). cbn in *. congruence. }
    assert (INN : forall u, In u (x :: n :: l) -> (u < acount a)%nat /\ troot (aat a u) = r /\ susp (aat a u) = false).
    { intros u I. apply (p_inrun _ _ H). rewrite ER. auto. }
    assert (PE : forall u, In u ((n :: l) ++ [x]) <-> In u (x :: n :: l)).
    { intros u. rewrite in_app_iff. cbn. tauto. }
    eapply rep_change; eauto.
    + intros i. destruct (Nat.eq_dec i r) as [-> | NE]; [rewrite U10 | rewrite U9]; auto.
    + intros u i NE [I | I]; apply OUT; intros J; apply INN in J.
      * destruct (p_inrun _ _ H _ _ I) as (_ & F2 & _). destruct J as (_ & F & _). congruence.
      * destruct (p_insusp _ _ H _ _ I) as (_ & _ & F2). destruct J as (_ & _ & F). congruence.
    + rewrite U10. cbn [head tail]. split; [| split; auto; rewrite lasto_app; reflexivity].
      apply (seg_insert (nx s) (fun u => if Nat.eqb u n then None else pr s u) _ _ (n :: l) [] x).
      * now rewrite app_nil_r.
      * now rewrite app_nil_r.
      * rewrite app_nil_r. apply (seg_remove (nx s) (pr s) _ _ [] (n :: l) x); auto.
        -- discriminate.
        -- intros u E. cbn in E. injection E as <-. rewrite Nat.eqb_refl. reflexivity.
        -- intros u NE E. cbn in E. destruct (Nat.eqb_spec u n); congruence.
      * unfold nx. rewrite U7, Nat.eqb_refl. reflexivity.
      * unfold pr. rewrite U8, Nat.eqb_refl. cbn [lasto]. congruence.
      * intros u E. cbn [lasto] in E. assert (u = z) by congruence. subst u. unfold nx. rewrite U7, Nat.eqb_refl.
        destruct (Nat.eqb_spec z x); congruence.
      * discriminate.
      * intros u NE E. cbn [lasto] in E. unfold nx. rewrite U7. destruct (Nat.eqb_spec u x); [congruence |].
        destruct (Nat.eqb_spec u z); [congruence | auto].
      * intros u NE _. unfold pr. rewrite U8. destruct (Nat.eqb_spec u x); [congruence | auto].
    + rewrite U10. cbn [shead stail]. destruct (p_susp _ _ H r) as (RS & RH & RTT). split; auto.
      eapply seg_ext; [| apply RS]. intros y Iy. unfold nx, pr. rewrite OUT; auto. intros J. apply INN in J.
      destruct (p_insusp _ _ H _ _ Iy) as (_ & _ & F2). destruct J as (_ & _ & F). congruence.
    + intros u I. apply PE in I. auto.
    + apply (p_insusp _ _ H).
    + apply (NoDup_insert (n :: l) [] x); rewrite app_nil_r; auto.
    + apply (p_ndsusp _ _ H).
    + intros u RU X1 X2. rewrite PE in X1. unfold nx, pr. rewrite OUT by auto.
      apply (p_out _ _ H); rewrite RU; auto. now rewrite ER.
    + intros u RU X1 X2. apply OUT. intros J. apply INN in J. destruct J as (_ & F & _). congruence.
Qed.

Lemma to_end_in : forall l (t : nat), In t (to_end l) <-> In t l.
Proof. destruct l; cbn; intros; [tauto |]. rewrite in_app_iff. cbn. tauto. Qed.

Lemma wakes_live : forall ws a, queued_live a -> (forall t, In t ws -> In t (suspq a (troot (aat a t)))) -> NoDup ws ->
  queued_live (fold_left a_wake ws a).
Proof.
  induction ws as [| w ws IH]; intros a H I ND; auto. cbn [fold_left]. inversion ND; subst.
  assert (HW : In w (suspq a (troot (aat a w)))) by (apply I; left; auto).
  apply IH; auto.
  - intros r t IR IT. cbn in *. set (q := troot (aat a w)) in *.
    assert (exited (aat a t) = false).
    { unfold put in IT. destruct (Nat.eqb_spec r q).
      - subst r. destruct IT as [IT | IT].
        + apply in_app_iff in IT. destruct IT as [IT | [<- | []]]; apply (H q); auto.
        + apply without_in in IT. apply (H q); tauto.
      - apply (H r); auto. }
    unfold put. destruct (Nat.eqb_spec t w); subst; cbn; auto.
  - intros t It. cbn. unfold put at 2. rewrite (proj2 (Nat.eqb_neq t w)) by (intros ->; auto).
    assert (J : In t (suspq a (troot (aat a t)))) by (apply I; right; auto).
    unfold put. destruct (Nat.eqb_spec (troot (aat a t)) (troot (aat a w))) as [E | NE]; auto.
    apply without_in. rewrite <- E. split; auto. intros ->; auto.
Qed.

Lemma rep_yield : forall s a, rep s a -> queued_live a -> rep (thread_yield s) (a_yield a).
Proof.
  intros s a H LV. unfold thread_yield, a_yield. rewrite (p_stack _ _ H).
  destruct (astack a) as [| r l] eqn:ES; auto.
  destruct (p_run _ _ H r) as (_ & H1 & _). rewrite H1, <- hdo_hd.
  pose proof (rep_rotate s a r H) as R. cbv zeta.
  set (a1 := a_queues a r (to_end (runq a r)) (suspq a r)) in *.
  assert (LV1 : queued_live a1).
  { apply queued_live_queues; auto. intros t I. rewrite to_end_in in I. auto. }
  assert (EQ : suspq a1 r = suspq a r) by (cbn; apply put_same).
  set (s1 := rotate s r) in *. clearbody s1.
  destruct (p_susp _ _ R r) as (_ & H2 & _). rewrite H2, EQ, (p_nth _ _ R), (p_now _ _ R).
  destruct (rep_length _ _ r R) as [_ L]. rewrite EQ in L.
  destruct (wake_loop_rep (due (timeval (anow a))) (a_due a) a1 r (suspq a r) (acount a1) s1 a1 [] false
      (fun s' a' R' Q t => due_rep a1 s' a' R' Q t) R (quiet_refl _) EQ L) as [W1 W2].
  { intros t I. apply (LV r); [rewrite ES; left; auto | auto]. }
  cbn [anow a1 a_queues]. change (anow a1) with (anow a).
  destruct (wake_loop (acount a1) (due (timeval (anow a))) s1 (hdo (suspq a r) None) false) as [s2 woke].
  cbn [fst] in W1. set (a2 := fold_left a_wake (filter (a_due a) (suspq a r)) a1) in *.
  destruct (p_run _ _ W1 r) as (_ & H3 & _). rewrite H3, <- hdo_hd.
  destruct (opt_eq _ _); auto. apply rep_invoke; auto.
  apply wakes_live; auto.
  - intros t I. apply filter_In in I. destruct I as [I _].
    destruct (p_insusp _ _ H _ _ I) as (_ & E & _). cbn. rewrite E, put_same. auto.
  - apply NoDup_filter. apply (p_ndsusp _ _ H).
Qed.

Lemma rep_suspend : forall s a t ms p, rep s a -> queued_live a -> (t < acount a)%nat ->
  rep (thread_suspend s t ms p) (a_suspend a t ms p).
Proof.
  intros s a t ms p H LV LT. unfold thread_suspend, a_suspend. rewrite !(p_att _ _ H).
  destruct (susp (aat a t)) eqn:SU; cbn [orb]; [apply rep_fail; auto |].
  destruct (exited (aat a t)) eqn:EX; [apply rep_fail; auto |].
  pose proof (rep_unlink s a t H) as U. pose proof (leave_nowhere s a t H) as NW. cbv zeta.
  rewrite (p_att _ _ U), (p_now _ _ U), a_leave_att, EX.
  set (x := mkAttr true false (deadline (anow (a_leave a t)) ms) p (Some false) (troot (aat a t))).
  pose proof (rep_att_out _ _ t x U (fun r => proj1 (NW r)) (fun r => proj2 (NW r))) as V.
  pose proof (leave_live a t LV) as LV1.
  assert (W : rep (enqueue_thread (set_att (unlink_thread s t) t x) t (troot (aat a t))) (a_enter (a_att (a_leave a t) t x) t (troot (aat a t)))).
  { apply rep_enqueue; auto.
    - cbn. rewrite a_leave_count. auto.
    - cbn. now rewrite put_same.
    - cbn. now rewrite put_same. }
  assert (LV2 : queued_live (a_enter (a_att (a_leave a t) t x) t (troot (aat a t)))).
  { assert (L3 : queued_live (a_att (a_leave a t) t x)) by (apply att_live; auto).
    unfold a_enter. cbn [a_att aat]. rewrite put_same. cbn [susp x].
    intros r u I J. cbn in *. unfold put in J at 1. unfold put in J at 1.
    assert (J' : u = t \/ In u (runq (a_leave a t) r) \/ In u (suspq (a_leave a t) r)).
    { destruct (Nat.eqb_spec r (troot (aat a t))); [subst r |]; auto.
      destruct J as [J | J]; auto.
      assert (BI : forall f l, In u (by_time f t l) -> u = t \/ In u l).
      { clear. induction l; cbn; intuition. destruct (later _ _); cbn in *; intuition. }
      apply BI in J. destruct J; auto. }
    destruct J' as [-> | J']; [unfold put; rewrite Nat.eqb_refl; reflexivity |].
    apply (L3 r u I J'). }
  set (s3 := enqueue_thread _ _ _) in *. clearbody s3.
  set (a3 := a_enter _ _ _) in *. clearbody a3.
  rewrite (p_stack _ _ W). destruct (astack a3) as [| cr l]; auto. rewrite (p_act _ _ W).
  destruct (opt_is _ t); auto. apply rep_invoke; auto.
Qed.
