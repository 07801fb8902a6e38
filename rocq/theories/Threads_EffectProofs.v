(* No failure, and what the operations do to the queues, for C19. *)
From Coq Require Import ZArith List Bool Lia ZifyBool Permutation Sorted.
Import ListNotations.
From Verif Require Import Threads_Model Threads_Spec Threads_Proofs Threads_RunProofs Threads_InvProofs Threads_OrderProofs.

Lemma init_rep' : rep init ainit. Proof. apply init_rep. Qed.

Lemma run_init : forall es, rep (run init es) (a_run ainit es) /\ mem (a_run ainit es).
Proof. intros. apply run_rep; [apply init_rep | apply init_mem]. Qed.

Lemma NoDup_app3 : forall (l m : list nat), NoDup l -> NoDup m -> (forall x, In x l -> ~ In x m) -> NoDup (l ++ m).
Proof.
  induction l; cbn; intros m N M D; auto. inversion N; subst. constructor.
  - rewrite in_app_iff. intros [I | I]; auto. eapply D; eauto.
  - apply IHl; auto.
Qed.

(** * Nothing fails *)

Lemma pop_failed : forall a, afailed (a_pop a) = afailed a.
Proof.
  assert (X : forall l a, afailed (a_exit_all a l) = afailed a).
  { induction l; intros; auto. cbn. unfold a_exit_all in IHl. now rewrite IHl. }
  intros a. unfold a_pop. destruct (astack a) as [| r l]; auto. cbv zeta. destruct (aact _ r); cbn [afailed]; rewrite !X; auto.
Qed.
Lemma wakes_failed : forall l a, afailed (fold_left a_wake l a) = afailed a.
Proof. induction l; cbn; intros; auto. now rewrite IHl. Qed.
Lemma next_failed : forall a, afailed (a_next a) = afailed a.
Proof.
  intros a. unfold a_next. destruct (astack a) as [| r l]; auto. destruct (runq a r); auto. destruct (suspq a r) as [| b q]; [rewrite pop_failed; reflexivity |].
  destruct (filter _ _); [| exact (wakes_failed (_ :: _) a)]. cbn. unfold a_sleep. destruct (later _ _); auto.
Qed.
Lemma leave_failed : forall a t, afailed (a_leave a t) = afailed a.
Proof. intros. unfold a_leave. destruct (susp _); auto. Qed.
Lemma enter_failed : forall a t r, afailed (a_enter a t r) = afailed a.
Proof. intros. unfold a_enter. destruct (susp _); auto. Qed.
Lemma delete_failed : forall a t, afailed (a_delete a t) = afailed a.
Proof. intros. unfold a_delete. cbv zeta. destruct (opt_is _ _); [rewrite next_failed |]; apply leave_failed. Qed.
Lemma default_failed : forall a, afailed (a_default a) = afailed a.
Proof. intros. unfold a_default. destruct (astack a) as [| r l]; auto. destruct (aact a r); auto. exact (enter_failed (a_new a r false) (acount a) r). Qed.
Lemma suspend_failed : forall a t ms p, susp (aat a t) = false -> exited (aat a t) = false -> afailed (a_suspend a t ms p) = afailed a.
Proof.
  intros a t ms p S E. unfold a_suspend. rewrite S, E. cbn [orb]. cbv zeta.
  match goal with |- context [a_enter ?x ?y ?z] => assert (F : afailed (a_enter x y z) = afailed a) by (rewrite enter_failed; apply leave_failed) end.
  destruct (astack _); auto. destruct (opt_is _ _); auto. now rewrite next_failed.
Qed.

(* the current thread is not suspended *)
Lemma current_ok : forall s a x, rep s a -> mem a -> first_runs a -> snd (a_current a) = Some x ->
  susp (aat (fst (a_current a)) x) = false.
Proof.
  intros s a x R M H E. unfold a_current in *. cbv zeta in *. destruct (first_default a H) as (D1 & D2 & D3).
  pose proof (rep_default s a R) as RD. destruct (astack (a_default a)) as [| r l] eqn:ES; [discriminate |]. cbn in *.
  destruct (D1 r) as [F1 _]; [rewrite ES; left; auto |]. rewrite F1 in E.
  destruct (runq (a_default a) r) as [| y q] eqn:ER; [discriminate |]. cbn in E. injection E as ->.
  apply (p_inrun _ _ RD r). rewrite ER. left; auto.
Qed.

Lemma step_ok : forall s a e, rep s a -> mem a -> first_runs a -> named_local s e -> named_right s e ->
  afailed a = false -> afailed (a_step a e) = false.
Proof.
  intros s a e R M H NL NR AF. unfold a_step. rewrite AF.
  assert (CF : afailed (fst (a_current a)) = false).
  { unfold a_current. cbv zeta. destruct (astack _); cbn; rewrite default_failed; auto. }
  destruct e as [su | | t | t ms | t ms | t | | | | | dt].
  - unfold a_make. destruct (astack a); auto. rewrite enter_failed, default_failed. auto.
  - unfold a_yield. destruct (astack a); auto. cbv zeta. destruct (opt_eq _ _); rewrite ?next_failed, wakes_failed; auto.
  - destruct t as [t |]; cbn [a_the]; [| destruct (a_current a) as [a1 [x |]]; cbn in *; auto].
    + destruct (a_live a t); rewrite ?delete_failed; auto.
    + destruct (a_live a1 x); rewrite ?delete_failed; auto.
  - destruct t as [t |]; cbn [a_the].
    + destruct (a_live a t) eqn:AL; auto. apply a_live_lt in AL. cbv zeta. cbn in NR. rewrite (p_att _ _ R) in NR.
      match goal with |- context [a_suspend ?x ?y ?z ?w] => assert (afailed (a_suspend x y z w) = false) by (rewrite suspend_failed; auto; apply AL) end.
      destruct (match astack a with [] => _ | _ => _ end); auto.
    + pose proof (fun x => current_ok s a x R M H) as C. destruct (a_current a) as [a1 [x |]]; cbn [fst snd] in *; auto.
      destruct (a_live a1 x) eqn:AL; auto. apply a_live_lt in AL. cbv zeta.
      match goal with |- context [a_suspend ?x ?y ?z ?w] => assert (afailed (a_suspend x y z w) = false) by (rewrite suspend_failed; auto; apply AL) end.
      destruct (match astack a1 with [] => _ | _ => _ end); auto.
  - pose proof (fun x => current_ok s a x R M H) as C. destruct (a_current a) as [a1 [x |]]; cbn [fst snd] in *; auto.
    destruct (_ && _)%bool eqn:B; auto. apply andb_true_iff in B. destruct B as [_ AL]. apply a_live_lt in AL.
    rewrite suspend_failed; auto. apply AL.
  - destruct t as [t |]; [| destruct NR]. cbn [a_the]. cbn in NR. rewrite (p_att _ _ R) in NR.
    destruct (a_live a t); auto. cbv zeta. cbn. rewrite put_same. cbn. rewrite NR. exact AF.
  - rewrite default_failed. auto.
  - destruct (astack a) as [| r l] eqn:ES; auto. destruct (aact a r) as [x |] eqn:EA; [| now rewrite pop_failed]. cbv zeta.
    destruct (H r) as [H1 _]; [rewrite ES; left; auto |]. rewrite EA in H1. rewrite <- H1. cbn [opt_is]. rewrite Nat.eqb_refl. now rewrite delete_failed.
  - now rewrite pop_failed.
  - reflexivity.
  - exact AF.
Qed.

Lemma run_ok : forall es s a, rep s a -> mem a -> first_runs a ->
  all_along named_local s es -> all_along named_right s es -> afailed a = false -> afailed (a_run a es) = false.
Proof.
  induction es as [| e es IH]; intros s a R M H A B F; auto. unfold a_run. cbn [fold_left]. cbn [all_along] in A, B.
  destruct A as [A1 A2], B as [B1 B2]. destruct (step_rep s a e R M). eapply IH; eauto.
  - eapply first_step; eauto.
  - eapply step_ok; eauto.
Qed.

(** * The theorems *)

Lemma refines : forall es, same_state (run init es) (a_run ainit es).
Proof. intros. apply rep_same, run_init. Qed.

Lemma queues_of : forall s a r, rep s a -> run_queue s r = runq a r /\ susp_queue s r = suspq a r.
Proof. intros s a r H. destruct (rep_same _ _ H) as (_ & _ & _ & _ & _ & _ & Q & _). apply Q. Qed.

Lemma all_threads_ok : forall es r, let s := run init es in
  all_threads s r = run_queue s r ++ susp_queue s r /\ NoDup (all_threads s r) /\
  (In r (stack s) -> forall t, In t (all_threads s r) <-> live_in s r t) /\
  (forall t, In t (run_queue s r) -> susp (att (th s t)) = false) /\
  (forall t, In t (susp_queue s r) -> susp (att (th s t)) = true).
Proof.
  intros es r s. destruct (run_init es) as [R M]. fold s in R. set (a := a_run ainit es) in *. clearbody a s.
  destruct (queues_of s a r R) as [Q1 Q2]. rewrite (rep_all_threads s a r R), Q1, Q2.
  split; [auto |]. split; [| split; [| split]].
  - apply NoDup_app3; [apply R | apply R |]. intros t I J. destruct (p_inrun _ _ R _ _ I) as (_ & _ & F). destruct (p_insusp _ _ R _ _ J) as (_ & _ & G). congruence.
  - intros IR t. rewrite (p_stack _ _ R) in IR. unfold live_in. rewrite (p_att _ _ R), (p_nth _ _ R). rewrite in_app_iff. split.
    + intros I. assert (J : inq a r t) by exact I. destruct (m_in _ M _ _ J) as [J1 J2]. repeat split; auto. eapply (m_live _ M); eauto.
    + intros (L1 & L2 & L3). destruct (m_queued _ M t L1 L2) as [_ J]. rewrite L3 in J. exact J.
  - intros t I. rewrite (p_att _ _ R). apply (p_inrun _ _ R _ _ I).
  - intros t I. rewrite (p_att _ _ R). apply (p_insusp _ _ R _ _ I).
Qed.

Lemma later_order : forall p q, later p q = false <-> in_order p q.
Proof. intros [a b] [c d]. unfold later, in_order. cbn [fst snd]. lia. Qed.

Lemma sorted_ok : forall es r, let s := run init es in
  StronglySorted (fun x y => in_order (run_at (att (th s x))) (run_at (att (th s y)))) (susp_queue s r).
Proof.
  intros es r s. destruct (run_init es) as [R M]. fold s in R.
  pose proof (srt_run es init ainit init_rep init_mem init_srt r) as S. set (a := a_run ainit es) in *. clearbody a s.
  destruct (queues_of s a r R) as [_ ->]. revert S. generalize (suspq a r). induction l; intros S; constructor; inversion S; subst; auto.
  rewrite Forall_forall in *. intros x I. rewrite !(p_att _ _ R). apply later_order, H2, I.
Qed.

Lemma order_time : forall p q, finite_time p -> finite_time q -> in_order p q -> (micros p <= micros q)%Z.
Proof. intros [a b] [c d]. unfold finite_time, in_order, micros. cbn [fst snd]. lia. Qed.

Lemma deadline_time : forall n ms, (0 <= n)%Z -> (0 < ms)%Z ->
  micros (deadline n ms) = (n + ms * 1000)%Z /\ finite_time (deadline n ms).
Proof.
  intros n ms Hn Hm. unfold deadline. replace (ms =? 0)%Z with false by lia. unfold timeval. cbv beta iota zeta.
  pose proof (Z.div_mod n 1000000). pose proof (Z.mod_pos_bound n 1000000). pose proof (Z.div_mod ms 1000). pose proof (Z.mod_pos_bound ms 1000).
  set (u := (n mod 1000000 + ms mod 1000 * 1000)%Z) in *.
  destruct (1000000 <? u)%Z eqn:E; unfold micros, finite_time; cbn [fst snd].
  - pose proof (Z.div_mod u 1000000). pose proof (Z.mod_pos_bound u 1000000). lia.
  - lia.
Qed.

Lemma running_ok : forall es r, let s := run init es in all_along named_local init es -> In r (stack s) ->
  active (rt s r) = hd_error (run_queue s r) /\ (run_queue s r = [] -> susp_queue s r = []).
Proof.
  intros es r s A I. destruct (run_init es) as [R M]. fold s in R.
  pose proof (first_run es init ainit init_rep init_mem init_first A) as F. set (a := a_run ainit es) in *. clearbody a s.
  destruct (queues_of s a r R) as [-> ->]. rewrite (p_act _ _ R). apply F. now rewrite <- (p_stack _ _ R).
Qed.

Lemma no_failure : forall es, all_along named_local init es -> all_along named_right init es -> failed (run init es) = false.
Proof.
  intros es A B. destruct (run_init es) as [R M]. rewrite (p_failed _ _ R).
  apply (run_ok es init ainit init_rep init_mem init_first A B). reflexivity.
Qed.

Lemma may_run_due : forall s a t, rep s a -> (a_due a t = true <-> may_run s t).
Proof.
  intros s a t R. unfold a_due, may_run, a_polled. rewrite (p_att _ _ R), (p_now _ _ R). unfold timeval.
  rewrite orb_true_iff. destruct (run_at (aat a t)) as [x y]. unfold later, in_order. cbn [fst snd].
  assert (P : match poll (aat a t) with Some z => exited (aat a z) | None => false end = true <->
              exists z, poll (aat a t) = Some z /\ exited (att (th s z)) = true).
  { destruct (poll (aat a t)) as [z |]; split.
    - intros E. exists z. now rewrite (p_att _ _ R).
    - intros (w & E & F). injection E as <-. now rewrite (p_att _ _ R) in F.
    - discriminate.
    - intros (w & E & _). discriminate. }
  rewrite P.
  assert (Q : forall u v : Z, (x, y) <> (u, v) <-> x <> u \/ y <> v).
  { intros u v. split.
    - intros N. destruct (Z.eq_dec x u), (Z.eq_dec y v); subst; auto.
    - intros [N | N] E; congruence. }
  rewrite Q. match goal with |- (?b = true \/ ?e) <-> (?c \/ ?d) => assert (b = true <-> c) by lia; tauto end.
Qed.

Lemma filter_due : forall (f : nat -> bool) (P : nat -> Prop) l, (forall t, f t = true <-> P t) ->
  (forall t, In t (filter f l) <-> In t l /\ P t) /\ (forall t, In t (filter (fun x => negb (f x)) l) <-> In t l /\ ~ P t).
Proof.
  intros f P l H. split; intros t; rewrite filter_In; [rewrite H; tauto |]. rewrite negb_true_iff, <- H. destruct (f t); intuition congruence.
Qed.

(* thread-yield *)
Lemma yield_ok : forall es r l x q, let s := run init es in failed s = false -> all_along named_local init es ->
  stack s = r :: l -> run_queue s r = x :: q ->
  exists woken rest, let s' := step s EYield in
    run_queue s' r = q ++ [x] ++ woken /\ susp_queue s' r = rest /\ active (rt s' r) = hd_error (q ++ [x]) /\
    Permutation (woken ++ rest) (susp_queue s r) /\
    (forall t, In t woken -> may_run s t) /\ (forall t, In t rest -> ~ may_run s t) /\ now s' = now s /\
    (forall i, i <> r -> run_queue s' i = run_queue s i /\ susp_queue s' i = susp_queue s i /\ active (rt s' i) = active (rt s i)).
Proof.
  intros es r l x q s NF LC ES EQ. destruct (run_init es) as [R M]. fold s in R.
  pose proof (running_ok es r) as RN. cbv zeta in RN. fold s in RN. specialize (RN LC). destruct RN as [RN _]; [rewrite ES; left; auto |].
  destruct (step_rep s (a_run ainit es) EYield R M) as [R' M'].
  set (a := a_run ainit es) in *. clearbody a. clearbody s.
  destruct (queues_of s a r R) as [Q1 Q2]. exists (filter (a_due a) (suspq a r)), (filter (fun t => negb (a_due a t)) (suspq a r)). cbv zeta.
  destruct (queues_of _ _ r R') as [-> ->]. rewrite (p_act _ _ R'), (p_now _ _ R'), Q2. rewrite Q1 in EQ.
  rewrite (p_stack _ _ R) in ES. rewrite (p_act _ _ R), Q1, EQ in RN. cbn [hd_error] in RN.
  assert (Y : exists b, a_step a EYield = b /\ runq b r = q ++ [x] ++ filter (a_due a) (suspq a r) /\
     suspq b r = filter (fun t => negb (a_due a t)) (suspq a r) /\ aact b r = hd_error (q ++ [x]) /\ anow b = anow a /\
     (forall i, i <> r -> runq b i = runq a i /\ suspq b i = suspq a i /\ aact b i = aact a i)).
  { unfold a_step. rewrite <- (p_failed _ _ R), NF. unfold a_yield. rewrite ES. cbv zeta.
    set (a1 := a_queues a r (to_end (runq a r)) (suspq a r)). set (ws := filter (a_due a) (suspq a r)).
    assert (ND : NoDup ws) by (apply NoDup_filter, (p_ndsusp _ _ R)).
    assert (FI : forall t, In t ws -> troot (aat a1 t) = r).
    { intros t I. apply filter_In in I. apply (p_insusp _ _ R _ _ (proj1 I)). }
    assert (E2 : suspq a1 r = suspq a r) by (cbn; apply put_same).
    destruct (wakes_queues ws a1 r (filter (fun t => negb (existsb (Nat.eqb t) ws)) (suspq a1 r)) ND FI)
      as (I1 & I2 & I6 & _ & _ & _ & I7 & I8 & I9 & _). specialize (I9 eq_refl).
    assert (E1 : runq a1 r = to_end (runq a r)) by (cbn; apply put_same). rewrite E1, EQ in I1. cbn [to_end] in I1.
    assert (SQ : suspq (fold_left a_wake ws a1) r = filter (fun t => negb (a_due a t)) (suspq a r)).
    { rewrite I9, E2. apply filter_ext_in. intros t I. f_equal. unfold ws. destruct (a_due a t) eqn:D.
      - apply existsb_exists. exists t. split; [apply filter_In; auto | apply Nat.eqb_refl].
      - destruct (existsb _ _) eqn:X; auto. apply existsb_exists in X. destruct X as (u & U1 & U2). apply Nat.eqb_eq in U2. subst u.
        apply filter_In in U1. destruct U1. congruence. }
    assert (OT : forall i, i <> r -> runq a1 i = runq a i /\ suspq a1 i = suspq a i) by (intros i N; cbn; rewrite !put_other; auto).
    set (b := fold_left a_wake ws a1) in *. clearbody b.
    rewrite I1, <- app_assoc. 
    assert (HD : hd_error (q ++ [x] ++ ws) = hd_error (q ++ [x])) by (destruct q; reflexivity).
    rewrite HD, EQ. cbn [hd_error].
    destruct (opt_eq (hd_error (q ++ [x])) (Some x)) eqn:EO.
    - apply opt_eq_spec in EO. exists b. rewrite I1, <- app_assoc, SQ, I7. split; [auto |]. split; [auto |]. split; [auto |]. split; [cbn; congruence |]. split; [exact I6 |].
      intros i N. destruct (I8 _ N) as [-> ->]. destruct (OT i N) as [-> ->]. rewrite I7. auto.
    - eexists. split; [reflexivity |]. unfold a_next. rewrite I2. cbn [a1 a_queues astack]. rewrite ES, I1, <- app_assoc.
      destruct (q ++ [x] ++ ws) as [| z zs] eqn:EZ; [destruct q; discriminate |].
      cbn. rewrite I1, <- app_assoc, EZ, SQ, put_same. split; [auto |]. split; [auto |]. split; [exact HD |]. split; [exact I6 |].
      intros i N. rewrite put_other by auto. rewrite I7. destruct (I8 _ N) as [-> ->]. repeat split; auto; apply OT; auto. }
  destruct Y as (b & EB & Y1 & Y2 & Y3 & Y4 & Y5). rewrite EB, Y1, Y2, Y3, Y4.
  destruct (filter_due (a_due a) (may_run s) (suspq a r) (fun t => may_run_due s a t R)) as [F1 F2].
  split; [auto |]. split; [auto |]. split; [auto |]. split; [| split; [| split; [| split]]].
  - clear. induction (suspq a r) as [| y l IH]; cbn; auto. destruct (a_due a y); cbn.
    + constructor; auto.
    + etransitivity; [symmetry; apply Permutation_middle |]. constructor; auto.
  - intros t I. apply F1 in I. apply I.
  - intros t I. apply F2 in I. apply I.
  - now rewrite (p_now _ _ R).
  - intros i N. rewrite EB in R'. destruct (queues_of _ _ i R') as [-> ->]. destruct (queues_of _ _ i R) as [-> ->]. rewrite (p_act _ _ R'), (p_act _ _ R). auto.
Qed.

Lemma all_along_app : forall P es fs s, all_along P s (es ++ fs) <-> all_along P s es /\ all_along P (run s es) fs.
Proof. induction es; cbn; intros; [tauto |]. rewrite IHes. unfold run. cbn. tauto. Qed.
Lemma run_app : forall s es fs, run s (es ++ fs) = run (run s es) fs.
Proof. intros. apply fold_left_app. Qed.

Lemma step_failed : forall s e, failed (step s EYield) = failed s -> e = EYield -> failed (step s e) = failed s.
Proof. intros; subst; auto. Qed.

(* round robin *)
Lemma turns_ok : forall p q es r l, let s := run init es in failed s = false -> all_along named_local init es ->
  stack s = r :: l -> run_queue s r = p ++ q -> q <> [] -> susp_queue s r = [] ->
  run_queue (run s (repeat EYield (length p))) r = q ++ p /\ active (rt (run s (repeat EYield (length p))) r) = hd_error q.
Proof.
  induction p as [| x p IH]; intros q es r l s NF LC ES EQ NE SE.
  - cbn. rewrite app_nil_r. cbn in EQ. split; auto. destruct (running_ok es r LC) as [RN _]; [fold s; rewrite ES; left; auto |].
    fold s in RN. rewrite RN, EQ. reflexivity.
  - cbn [length repeat]. change (run s (EYield :: repeat EYield (length p))) with (run (step s EYield) (repeat EYield (length p))).
    cbn [app] in EQ. destruct (yield_ok es r l x (p ++ q) NF LC ES EQ) as (w & rest & Y1 & Y2 & Y3 & Y4 & Y5 & Y6 & Y7 & Y8).
    fold s in Y1, Y2, Y3, Y4. rewrite SE in Y4. apply Permutation_sym, Permutation_nil in Y4. apply app_eq_nil in Y4. destruct Y4 as [-> ->].
    assert (RS : step s EYield = run init (es ++ [EYield])) by (unfold s; rewrite run_app; reflexivity).
    specialize (IH (q ++ [x]) (es ++ [EYield]) r l). cbv zeta in IH. rewrite <- RS in IH.
    rewrite app_nil_r in Y1.
    assert (H : run_queue (run (step s EYield) (repeat EYield (length p))) r = (q ++ [x]) ++ p /\
                active (rt (run (step s EYield) (repeat EYield (length p))) r) = hd_error (q ++ [x])).
    { apply IH.
      - destruct (run_init es) as [R M]. fold s in R. destruct (step_rep _ _ EYield R M) as [R' _]. rewrite (p_failed _ _ R').
        unfold a_step. rewrite <- (p_failed _ _ R), NF. unfold a_yield. rewrite (p_failed _ _ R) in NF. destruct (astack _); auto. cbv zeta.
        destruct (opt_eq _ _); rewrite ?next_failed, wakes_failed; auto.
      - apply all_along_app. split; auto. cbn. auto.
      - destruct (run_init es) as [R M]. fold s in R. destruct (step_rep _ _ EYield R M) as [R' _]. rewrite (p_stack _ _ R').
        pose proof (queues_of _ _ r R') as [Q1 _]. rewrite Y1 in Q1. rewrite (p_stack _ _ R) in ES.
        unfold a_step. rewrite <- (p_failed _ _ R), NF. unfold a_yield. rewrite ES. cbv zeta.
        destruct (queues_of _ _ r R) as [Q3 Q4]. rewrite EQ in Q3. rewrite SE in Q4. rewrite <- Q3, <- Q4. cbn [filter fold_left a_queues runq to_end].
        rewrite put_same. destruct (opt_eq _ _); [exact ES |]. unfold a_next. cbn [a_queues astack runq]. rewrite ES, put_same.
        destruct ((p ++ q) ++ [x]) eqn:EE; [destruct (p ++ q); discriminate |]. exact ES.
      - rewrite Y1, <- app_assoc. reflexivity.
      - destruct q; discriminate.
      - exact Y2. }
    destruct H as [H1 H2]. rewrite H1, H2, <- app_assoc. split; [reflexivity |]. destruct q; [congruence | reflexivity].
Qed.
