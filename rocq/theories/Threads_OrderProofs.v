(* Order of the queues, the running thread, and the theorems of C19. *)
From Coq Require Import ZArith List Bool Lia ZifyBool Permutation Sorted.
Import ListNotations.
From Verif Require Import Threads_Model Threads_Spec Threads_Proofs Threads_RunProofs Threads_InvProofs.

(** * From the links to lists *)

Lemma forward_seg : forall s l b fuel, seg (nx s) (pr s) b l None -> (length l <= fuel)%nat -> forward fuel s (hdo l None) = l.
Proof.
  induction l as [| x l IH]; intros b fuel S L; cbn [hdo].
  - destruct fuel; reflexivity.
  - cbn [length] in L. destruct fuel as [| fuel]; [lia |]. cbn [forward]. cbn [seg] in S. destruct S as (S1 & S2 & S3).
    f_equal. unfold nx in S2. rewrite S2. eapply IH; eauto. lia.
Qed.

Lemma backward_seg : forall s l a fuel, seg (nx s) (pr s) None l a -> (length l <= fuel)%nat -> backward fuel s (lasto l None) = rev l.
Proof.
  intros s l. induction l as [| x l IH] using rev_ind; intros a fuel S L.
  - destruct fuel; reflexivity.
  - rewrite app_length in L. cbn [length] in L. destruct fuel as [| fuel]; [lia |].
    rewrite lasto_app, rev_app_distr. cbn [lasto backward rev app]. f_equal.
    apply seg_app in S. destruct S as [S1 S2]. cbn [seg] in S2. destruct S2 as (S2 & _). unfold pr in S2. rewrite S2.
    eapply IH; [exact S1 | lia].
Qed.

Lemma rep_same : forall s a, rep s a -> same_state s a.
Proof.
  intros s a H. unfold same_state, run_queue, susp_queue.
  repeat match goal with |- _ /\ _ => split end; try apply H.
  - intros r. destruct (rep_length _ _ r H) as [L1 L2]. rewrite (p_nth _ _ H).
    destruct (p_run _ _ H r) as (S1 & -> & _). destruct (p_susp _ _ H r) as (S2 & -> & _). split; eapply forward_seg; eauto.
  - intros r. destruct (rep_length _ _ r H) as [L1 L2]. rewrite (p_nth _ _ H).
    destruct (p_run _ _ H r) as (S1 & _ & ->). destruct (p_susp _ _ H r) as (S2 & _ & ->). split; eapply backward_seg; eauto.
Qed.

Lemma collect_backward : forall fuel s p out, collect fuel s p out = rev (backward fuel s p) ++ out.
Proof.
  induction fuel; cbn; intros; auto. destruct p; auto. rewrite IHfuel. cbn. now rewrite <- app_assoc.
Qed.

Lemma rep_all_threads : forall s a r, rep s a -> all_threads s r = runq a r ++ suspq a r.
Proof.
  intros s a r H. unfold all_threads. rewrite !collect_backward, app_nil_r.
  destruct (rep_same _ _ H) as (_ & _ & _ & _ & _ & _ & _ & B). destruct (B r) as [-> ->]. now rewrite !rev_involutive.
Qed.

(** * Suspended threads are in order *)

Definition before (f : nat -> attr) (x y : nat) : Prop := later (run_at (f x)) (run_at (f y)) = false.
Definition srt (a : ast) : Prop := forall r, StronglySorted (before (aat a)) (suspq a r).

Lemma later_trans : forall p q w, later p q = false -> later q w = false -> later p w = false.
Proof. intros [a b] [c d] [e f]. unfold later. cbn [fst snd]. lia. Qed.
Lemma later_asym : forall p q, later p q = true -> later q p = false.
Proof. intros [a b] [c d]. unfold later. cbn [fst snd]. lia. Qed.

Lemma sorted_ext : forall f g l, (forall t, In t l -> run_at (g t) = run_at (f t)) ->
  StronglySorted (before f) l -> StronglySorted (before g) l.
Proof.
  induction l; intros E S; constructor; inversion S; subst.
  - apply IHl; auto. intros; apply E; right; auto.
  - rewrite Forall_forall in *. intros x I. unfold before. rewrite !E; [apply H2; auto | right; auto | left; auto].
Qed.

Lemma sorted_filter : forall f P l, StronglySorted (before f) l -> StronglySorted (before f) (filter P l).
Proof.
  induction l; cbn; intros S; auto. inversion S; subst. destruct (P a); auto. constructor; auto.
  rewrite Forall_forall in *. intros x I. apply filter_In in I. apply H2. tauto.
Qed.

Lemma by_time_sorted : forall f t l, StronglySorted (before f) l -> StronglySorted (before f) (by_time f t l).
Proof.
  induction l as [| x l IH]; cbn; intros S.
  - constructor; constructor.
  - inversion S as [| ? ? S1 S2]; subst. destruct (later (run_at (f t)) (run_at (f x))) eqn:E.
    + constructor; auto. rewrite Forall_forall in *. intros y I. apply by_time_in in I. destruct I as [-> | I]; auto.
      unfold before. now apply later_asym.
    + constructor; auto. constructor; auto. rewrite Forall_forall in *. intros y I. unfold before in *.
      eapply later_trans; eauto.
Qed.

Lemma srt_same : forall a b, (forall t, run_at (aat b t) = run_at (aat a t)) ->
  (forall r, exists P, suspq b r = filter P (suspq a r)) -> srt a -> srt b.
Proof.
  intros a b E F S r. destruct (F r) as [P ->]. apply sorted_filter. eapply sorted_ext; [| apply S]. auto.
Qed.
Lemma filter_all : forall (l : list nat), filter (fun _ => true) l = l.
Proof. induction l; cbn; congruence. Qed.
Ltac whole := exists (fun _ => true); now rewrite filter_all.

Lemma srt_att : forall a t x, run_at x = run_at (aat a t) -> srt a -> srt (a_att a t x).
Proof.
  intros a t x E. apply srt_same; cbn.
  - intros u. unfold put. destruct (Nat.eqb_spec u t); subst; auto.
  - intros r. whole.
Qed.
Lemma srt_att_out : forall a t x, nowhere a t -> srt a -> srt (a_att a t x).
Proof.
  intros a t x N S r. cbn. eapply sorted_ext; [| apply S]. intros u I. cbn. unfold put.
  destruct (Nat.eqb_spec u t); subst; auto. exfalso. destruct (N r). auto.
Qed.
Lemma srt_queues : forall a r q P, srt a -> srt (a_queues a r q (filter P (suspq a r))).
Proof.
  intros a r q P. apply srt_same; cbn; auto. intros i. unfold put. destruct (Nat.eqb_spec i r); subst; [eauto | whole].
Qed.
Lemma srt_wake : forall a t, srt a -> srt (a_wake a t).
Proof.
  intros a t S. unfold a_wake, without.
  apply (srt_queues (a_att a t (attr_susp (aat a t) false)) (troot (aat a t)) _ (fun x => negb (Nat.eqb x t))).
  apply srt_att; auto.
Qed.
Lemma srt_wakes : forall ws a, srt a -> srt (fold_left a_wake ws a).
Proof. induction ws; cbn; auto. intros. apply IHws, srt_wake, H. Qed.
Lemma srt_leave : forall a t, srt a -> srt (a_leave a t).
Proof.
  intros a t S. unfold a_leave. destruct (susp (aat a t)).
  - apply srt_queues; auto.
  - replace (suspq a (troot (aat a t))) with (filter (fun _ => true) (suspq a (troot (aat a t)))) by apply filter_all.
    apply srt_queues; auto.
Qed.
Lemma srt_enter : forall a t r, srt a -> srt (a_enter a t r).
Proof.
  intros a t r S. unfold a_enter. destruct (susp (aat a t)).
  - intros i. cbn. unfold put. destruct (Nat.eqb_spec i r); auto. apply by_time_sorted; auto.
  - replace (suspq a r) with (filter (fun _ => true) (suspq a r)) by apply filter_all. apply srt_queues; auto.
Qed.
Lemma srt_act : forall a r p, srt a -> srt (a_act a r p).
Proof. intros a r p S. exact S. Qed.
Lemma srt_pop : forall a, srt a -> srt (a_pop a).
Proof.
  intros a S. destruct (astack a) as [| r l] eqn:ES; [unfold a_pop; rewrite ES; auto |].
  destruct (pop_fields a r l ES) as (P1 & P2 & _ & _ & _ & _ & _ & _ & P9).
  revert S. apply srt_same.
  - intros t. rewrite P9. destruct (existsb _ _); auto.
  - intros i. rewrite P2. whole.
Qed.
Lemma srt_next : forall a, srt a -> srt (a_next a).
Proof.
  intros a S. unfold a_next. destruct (astack a) as [| r l]; auto.
  destruct (runq a r); [| apply srt_act; auto]. destruct (suspq a r) as [| b sq]; [apply srt_pop, srt_act; auto |].
  destruct (filter _ _); [| apply srt_act, srt_wakes; auto].
  apply srt_act, srt_wake. unfold a_sleep. destruct (later _ _); auto.
Qed.
Lemma srt_new : forall a r su, wf a -> srt a -> srt (a_new a r su).
Proof.
  intros a r su [s H] S i. cbn. eapply sorted_ext; [| apply S]. intros t I. cbn. rewrite put_other; auto.
  destruct (p_insusp _ _ H _ _ I). lia.
Qed.
Lemma srt_default : forall a, wf a -> srt a -> srt (a_default a).
Proof.
  intros a W S. unfold a_default. destruct (astack a); auto. destruct (aact a n); auto. apply srt_act, srt_enter, srt_new; auto.
Qed.
Lemma wf_new : forall a r su, wf a -> wf (a_new a r su).
Proof. intros a r su [s H]. eexists. apply rep_new. eauto. Qed.
Lemma srt_make : forall a su, wf a -> srt a -> srt (a_make a su).
Proof.
  intros a su W S. unfold a_make. destruct (astack a) as [| r l]; auto.
  apply srt_enter, srt_default; [apply wf_new; auto | apply srt_new; auto].
Qed.
Lemma srt_delete : forall a t, srt a -> srt (a_delete a t).
Proof.
  intros a t S. unfold a_delete. cbv zeta.
  assert (srt (a_att (a_leave a t) t (attr_exited (aat (a_leave a t) t)))) by (apply srt_att; auto; apply srt_leave; auto).
  destruct (opt_is _ _); auto. apply srt_next; auto.
Qed.
Lemma srt_yield : forall a, srt a -> srt (a_yield a).
Proof.
  intros a S. unfold a_yield. destruct (astack a) as [| r l]; auto. cbv zeta.
  assert (srt (fold_left a_wake (filter (a_due a) (suspq a r)) (a_queues a r (to_end (runq a r)) (suspq a r)))).
  { apply srt_wakes. replace (suspq a r) with (filter (fun _ => true) (suspq a r)) by apply filter_all. apply srt_queues; auto. }
  destruct (opt_eq _ _); auto. apply srt_next; auto.
Qed.
Lemma srt_suspend : forall a t ms p, wf a -> srt a -> srt (a_suspend a t ms p).
Proof.
  intros a t ms p [s H] S. unfold a_suspend. destruct (susp (aat a t) || exited (aat a t))%bool; auto. cbv zeta.
  match goal with |- context [a_enter ?x ?y ?z] => assert (srt (a_enter x y z)) end.
  { apply srt_enter, srt_att_out; [eapply leave_nowhere; eauto | apply srt_leave; auto]. }
  destruct (astack _); auto. destruct (opt_is _ _); auto. apply srt_next; auto.
Qed.

Lemma srt_step : forall a e, wf a -> mem a -> srt a -> srt (a_step a e).
Proof.
  intros a e W M S. unfold a_step. destruct (afailed a); auto.
  assert (T : forall t, srt (fst (a_the a t)) /\ wf (fst (a_the a t))).
  { intros [t |]; cbn; auto. unfold a_current. cbv zeta.
    assert (srt (a_default a) /\ wf (a_default a)).
    { split; [apply srt_default; auto |]. destruct W as [s H]. eexists. apply rep_default; eauto. }
    destruct (astack (a_default a)); auto. }
  destruct e as [su | | t | t ms | t ms | t | | | | | dt].
  - apply srt_make; auto.
  - apply srt_yield; auto.
  - destruct (T t) as [T1 T2]. destruct (a_the a t) as [a1 [x |]]; auto. cbn in *. destruct (a_live a1 x); auto. apply srt_delete; auto.
  - destruct (T t) as [T1 T2]. destruct (a_the a t) as [a1 [x |]]; auto. cbn [fst] in *. destruct (a_live a1 x); auto. cbv zeta.
    match goal with |- context [a_suspend ?x ?y ?z ?w] => assert (srt (a_suspend x y z w)) by (apply srt_suspend; auto) end.
    destruct (match astack a1 with [] => _ | _ => _ end); auto. apply srt_att; auto.
  - destruct (T None) as [T1 T2]. cbn [a_the] in *. destruct (a_current a) as [a1 [x |]]; auto. cbn [fst] in *.
    destruct (_ && _)%bool; auto. apply srt_suspend; auto.
  - destruct (T t) as [T1 T2]. destruct (a_the a t) as [a1 [x |]]; auto. cbn [fst] in *. destruct (a_live a1 x); auto. cbv zeta.
    assert (srt (a_att a1 x (attr_exit_val (aat a1 x) (Some true)))) by (apply srt_att; auto).
    destruct (susp _); [apply srt_wake; auto | auto].
  - apply srt_default; auto.
  - destruct (astack a) as [| r l]; auto. destruct (aact a r) as [x |]; [| apply srt_pop; auto]. cbv zeta.
    pose proof (srt_delete a x S). destruct (opt_is _ _); auto.
  - apply srt_pop; auto.
  - exact S.
  - exact S.
Qed.

Lemma srt_run : forall es s a, rep s a -> mem a -> srt a -> srt (a_run a es).
Proof.
  induction es as [| e es IH]; intros s a H M S; auto. unfold a_run. cbn [fold_left].
  destruct (step_rep s a e H M). eapply IH; eauto. apply srt_step; auto. exists s; auto.
Qed.
Lemma init_srt : srt ainit.
Proof. intros r. constructor. Qed.

(** * The running thread *)

Definition first_runs (a : ast) : Prop :=
  forall r, In r (astack a) -> aact a r = hd_error (runq a r) /\ (runq a r = [] -> suspq a r = []).

(* for all roots but the innermost *)
Definition others_run (a : ast) : Prop :=
  forall r l, astack a = r :: l -> forall i, In i l -> aact a i = hd_error (runq a i) /\ (runq a i = [] -> suspq a i = []).

Lemma first_others : forall a, first_runs a -> others_run a.
Proof. intros a H r l E i I. apply H. rewrite E. right; auto. Qed.

Lemma first_pop : forall a, others_run a -> first_runs (a_pop a).
Proof.
  intros a H. destruct (astack a) as [| r l] eqn:ES.
  - unfold a_pop. rewrite ES. intros i I. rewrite ES in I. destruct I.
  - destruct (pop_fields a r l ES) as (P1 & P2 & P3 & _ & P5 & _). intros i I. rewrite P5 in I. rewrite P1, P2, P3. eapply H; eauto.
Qed.

Lemma others_act : forall a r l p, astack a = r :: l -> NoDup (astack a) -> others_run a -> others_run (a_act a r p).
Proof.
  intros a r l p ES ND H r' l' ES' i I. cbn in *. rewrite ES in ES'. injection ES' as <- <-.
  rewrite put_other. { eapply H; eauto. } rewrite ES in ND. inversion ND; subst. intros ->; auto.
Qed.

Lemma first_next : forall a, wf a -> mem a -> others_run a -> first_runs (a_next a).
Proof.
  intros a [s H] M O. pose proof (m_nodup _ M) as ND. unfold a_next. destruct (astack a) as [| r l] eqn:ES.
  - intros i I. rewrite ES in I. destruct I.
  - assert (NI : ~ In r l) by (inversion ND; auto).
    destruct (runq a r) as [| x q] eqn:ER.
    + destruct (suspq a r) as [| b sq] eqn:EQ.
      * apply first_pop. eapply others_act; eauto. rewrite ES; auto.
      * destruct (filter (a_polled a) (b :: sq)) as [| w ws] eqn:EF.
        -- destruct (sleep_same a b) as (E1 & E2 & E3 & E4 & E5).
           assert (E6 : aact (a_sleep a b) = aact a) by (unfold a_sleep; destruct (later _ _); reflexivity).
           destruct (p_insusp _ _ H r b) as (B1 & B2 & B3); [rewrite EQ; left; auto |].
           intros i I. cbn in *. rewrite E5, ES in I. rewrite E1, E2, E3, B2, E6. destruct I as [<- | I].
           ++ rewrite !put_same, ER. cbn. split; auto. discriminate.
           ++ assert (i <> r) by (intros ->; auto). rewrite !put_other by auto. eapply O; eauto.
        -- assert (FI : forall t, In t (w :: ws) -> In t (suspq a r) /\ troot (aat a t) = r).
           { intros t I. rewrite <- EF in I. apply filter_In in I. destruct I as [I _]. rewrite <- EQ in I. split; auto. apply (p_insusp _ _ H _ _ I). }
           assert (ND2 : NoDup (w :: ws)).
           { rewrite <- EF. apply NoDup_filter. rewrite <- EQ. apply (p_ndsusp _ _ H). }
           destruct (wakes_queues (w :: ws) a r [] ND2 (fun t I => proj2 (FI t I))) as (I1 & I2 & _ & _ & _ & _ & I7 & I8 & _).
           set (b2 := fold_left a_wake (w :: ws) a) in *. clearbody b2.
           intros i I. cbn in *. rewrite I2, ES in I. destruct I as [<- | I].
           ++ rewrite put_same, I1, ER. cbn. split; auto. discriminate.
           ++ assert (i <> r) by (intros ->; auto). rewrite put_other by auto. destruct (I8 i H0) as [-> ->]. rewrite I7. eapply O; eauto.
    + intros i I. cbn in *. rewrite ES in I. destruct I as [<- | I].
      * rewrite put_same, ER. cbn. split; auto. discriminate.
      * assert (i <> r) by (intros ->; auto). rewrite put_other by auto. eapply O; eauto.
Qed.

Lemma first_ext : forall a b, astack b = astack a -> (forall r, aact b r = aact a r) ->
  (forall r, runq b r = runq a r) -> (forall r, suspq b r = suspq a r) -> first_runs a -> first_runs b.
Proof. intros a b E1 E2 E3 E4 H r I. rewrite E2, E3, E4. apply H. now rewrite <- E1. Qed.

Lemma first_queues : forall a r q sq, first_runs a ->
  (In r (astack a) -> hd_error q = hd_error (runq a r) /\ (q = [] -> sq = [])) -> first_runs (a_queues a r q sq).
Proof.
  intros a r q sq H C i I. cbn in *. unfold put. destruct (Nat.eqb_spec i r); [subst | apply H; auto].
  destruct (C I) as [-> C2]. destruct (H r I). auto.
Qed.

Lemma others_queues : forall a r l q sq, astack a = r :: l -> NoDup (astack a) -> others_run a -> others_run (a_queues a r q sq).
Proof.
  intros a r l q sq ES ND H r' l' ES' i I. cbn in *. rewrite ES in ES'. injection ES' as <- <-.
  rewrite !put_other. { eapply H; eauto. }
  all: rewrite ES in ND; inversion ND; subst; intros ->; auto.
Qed.

Lemma hd_app : forall A (l m : list A), l <> [] -> hd_error (l ++ m) = hd_error l.
Proof. destruct l; cbn; congruence. Qed.

Lemma first_default : forall a, first_runs a -> first_runs (a_default a) /\
  (forall r l, astack a = r :: l -> runq (a_default a) r <> []) /\ astack (a_default a) = astack a.
Proof.
  intros a H. unfold a_default. destruct (astack a) as [| r l] eqn:ES; [split; [auto | split; [intros; discriminate | auto]] |].
  destruct (H r) as [H1 H2]; [rewrite ES; left; auto |].
  destruct (aact a r) eqn:EA.
  - split; [auto | split; [| auto]]. intros r' l' E. injection E as <- <-. destruct (runq a r); [discriminate | congruence].
  - destruct (runq a r) eqn:ER; [| discriminate]. unfold a_enter. cbn. rewrite !put_same. cbn. rewrite ER. split; [| split; [| auto]].
    + intros i I. cbn in *. unfold put. destruct (Nat.eqb_spec i r); subst; cbn; [split; auto; discriminate |]. apply H; auto. 
    + intros r' l' E. injection E as <- <-. rewrite put_same. discriminate.
Qed.

Lemma first_new : forall a r su, first_runs a -> first_runs (a_new a r su).
Proof. intros a r su H. exact H. Qed.

Lemma first_enter : forall a t r, first_runs a -> runq a r <> [] -> first_runs (a_enter a t r).
Proof.
  intros a t r H N. unfold a_enter. destruct (susp (aat a t)); apply first_queues; auto; intros I.
  - split; auto. intros; contradiction.
  - split; [apply hd_app; auto |]. intros E. apply app_eq_nil in E. destruct E. discriminate.
Qed.

Lemma first_make : forall a su, first_runs a -> first_runs (a_make a su).
Proof.
  intros a su H. unfold a_make. destruct (astack a) as [| r l] eqn:ES; auto.
  destruct (first_default (a_new a r su) (first_new a r su H)) as (D1 & D2 & D3).
  apply first_enter; auto. eapply D2. cbn. eauto.
Qed.

(* t is taken out of the innermost root and it is not the first *)
Lemma without_hd : forall t l, hd_error l <> Some t -> hd_error (without t l) = hd_error l /\ (without t l = [] -> l = []).
Proof.
  destruct l as [| x l]; cbn; auto. intros N. destruct (Nat.eqb_spec x t); [subst; congruence |]. cbn. split; auto. discriminate.
Qed.

Lemma first_leave : forall s a t, rep s a -> first_runs a -> hd_error (runq a (troot (aat a t))) <> Some t -> first_runs (a_leave a t).
Proof.
  intros s a t R H N. unfold a_leave. set (r := troot (aat a t)) in *. destruct (susp (aat a t)) eqn:SU.
  - apply first_queues; auto. intros I. split; auto. intros E. destruct (H r I) as [_ C]. rewrite (C E). reflexivity.
  - apply first_queues; auto. intros I. destruct (without_hd t _ N) as [W1 W2]. split; auto. intros E. apply (H r I). auto.
Qed.

Lemma others_leave : forall a t r l, astack a = r :: l -> NoDup (astack a) -> troot (aat a t) = r -> others_run a -> others_run (a_leave a t).
Proof.
  intros a t r l ES ND RT H. unfold a_leave. rewrite RT. destruct (susp (aat a t)); eapply others_queues; eauto.
Qed.

Lemma wf_delete1 : forall a t, wf a -> wf (a_att (a_leave a t) t (attr_exited (aat (a_leave a t) t))).
Proof.
  intros a t [s H]. exists (set_att (unlink_thread s t) t (attr_exited (aat (a_leave a t) t))).
  apply rep_att_same; auto. apply rep_unlink; auto.
Qed.

Lemma first_delete : forall s a t r l, rep s a -> mem a -> first_runs a -> astack a = r :: l -> troot (aat a t) = r ->
  first_runs (a_delete a t).
Proof.
  intros s a t r l R M H ES RT. unfold a_delete. cbv zeta. rewrite RT.
  destruct (opt_is (hd_error (runq a r)) t) eqn:EO.
  - apply first_next.
    + apply wf_delete1. exists s; auto.
    + eapply mem_exit; eauto.
    + pose proof (others_leave a t r l ES (m_nodup _ M) RT (first_others a H)) as O. exact O.
  - apply opt_is_false in EO. apply (first_leave s a t R H). now rewrite RT.
Qed.

Lemma opt_eq_spec : forall p q, opt_eq p q = true <-> p = q.
Proof.
  intros [p |] [q |]; cbn; try (split; congruence). rewrite Nat.eqb_eq. split; congruence.
Qed.

Lemma first_yield : forall s a, rep s a -> mem a -> first_runs a -> first_runs (a_yield a).
Proof.
  intros s a R M H. pose proof (mem_yield s a R M) as MY. unfold a_yield in *. destruct (astack a) as [| r l] eqn:ES; auto. cbv zeta in *.
  set (a1 := a_queues a r (to_end (runq a r)) (suspq a r)) in *.
  set (ws := filter (a_due a) (suspq a r)) in *.
  assert (ND : NoDup ws) by (apply NoDup_filter, (p_ndsusp _ _ R)).
  assert (FI : forall t, In t ws -> In t (suspq a1 r) /\ troot (aat a1 t) = r).
  { intros t I. apply filter_In in I. destruct I as [I _]. cbn. rewrite put_same. split; auto. apply (p_insusp _ _ R _ _ I). }
  destruct (wakes_queues ws a1 r (filter (fun t => negb (existsb (Nat.eqb t) ws)) (suspq a1 r)) ND (fun t I => proj2 (FI t I)))
    as (I1 & I2 & _ & _ & _ & _ & I7 & I8 & I9 & _). specialize (I9 eq_refl).
  assert (E1 : runq a1 r = to_end (runq a r)) by (cbn; apply put_same).
  assert (E2 : suspq a1 r = suspq a r) by (cbn; apply put_same).
  pose proof (sameq_wakes ws a1 r ND FI) as S2.
  assert (S1 : sameq a a1).
  { apply sameq_queues. intros t. rewrite to_end_in. unfold inq. tauto. }
  assert (M2 : mem (fold_left a_wake ws a1)) by (eapply mem_same; [| exact M]; eapply sameq_trans; eauto).
  assert (W2 : wf (fold_left a_wake ws a1)).
  { pose proof (rep_rotate s a r R) as R1. fold a1 in R1.
    destruct (rep_length _ _ r R1) as [_ L]. rewrite E2 in L.
    destruct (wake_loop_rep (due (timeval (anow a))) (a_due a) a1 r (suspq a r) (acount a1) (rotate s r) a1 [] false
      (fun s' a' R' Q t => due_rep a1 s' a' R' Q t) R1 (quiet_refl _) E2 L) as [W1 W2].
    { intros t I. apply (mem_queued_live _ M r); [rewrite ES; left; auto | auto]. }
    eexists. exact W1. }
  assert (NI : ~ In r l) by (pose proof (m_nodup _ M) as X; rewrite ES in X; inversion X; auto).
  assert (OT : forall i, In i l -> aact (fold_left a_wake ws a1) i = hd_error (runq (fold_left a_wake ws a1) i) /\
                        (runq (fold_left a_wake ws a1) i = [] -> suspq (fold_left a_wake ws a1) i = [])).
  { intros i I. assert (NE : i <> r) by (intros ->; auto). destruct (I8 i NE) as [-> ->]. rewrite I7. cbn.
    rewrite !put_other by auto. apply H. rewrite ES. right; auto. }
  set (b := fold_left a_wake ws a1) in *. clearbody b.
  destruct (opt_eq _ _) eqn:EO.
  - apply opt_eq_spec in EO. intros i I. rewrite I2 in I. cbn in I. rewrite ES in I. destruct I as [<- | I]; auto.
    destruct (H r) as [H1 H2]; [rewrite ES; left; auto |]. rewrite EO, I7. split; [exact H1 |].
    intros E. rewrite E in EO. destruct (runq a r) eqn:ER; [| discriminate].
    rewrite I9, E2, H2 by auto. reflexivity.
  - apply first_next; auto. intros r' l' ES'. rewrite I2 in ES'. cbn in ES'. rewrite ES in ES'. injection ES' as <- <-. exact OT.
Qed.

Lemma first_suspend : forall s a t ms p r l, rep s a -> mem a -> first_runs a -> (t < acount a)%nat -> astack a = r :: l -> troot (aat a t) = r ->
  first_runs (a_suspend a t ms p).
Proof.
  intros s a t ms p r l R M H LT ES RT. unfold a_suspend.
  destruct (susp (aat a t)) eqn:SU; cbn [orb]; [exact H |].
  destruct (exited (aat a t)) eqn:EX; [exact H |]. cbv zeta. rewrite RT.
  destruct (leave_fields a t) as (L1 & L2 & L3 & L4 & L5 & L6 & _).
  set (x := mkAttr true false (deadline (anow (a_leave a t)) ms) p (Some false) r).
  destruct (enter_fields (a_att (a_leave a t) t x) t r) as (C1 & C2 & C3 & C4 & C5 & C6 & _).
  assert (NI : ~ In r l) by (pose proof (m_nodup _ M) as X; rewrite ES in X; inversion X; auto).
  rewrite C2. cbn [a_att astack]. rewrite L2, ES, C4. cbn [a_att aact]. rewrite L4.
  destruct (H r) as [H1 H2]; [rewrite ES; left; auto |].
  assert (IT : In t (runq a r)).
  { destruct (m_queued _ M t LT EX) as [_ [J | J]]; rewrite RT in J; auto. destruct (p_insusp _ _ R _ _ J) as (_ & _ & F). congruence. }
  assert (W : wf (a_enter (a_att (a_leave a t) t x) t r)).
  { exists (enqueue_thread (set_att (unlink_thread s t) t x) t r).
    pose proof (leave_nowhere s a t R) as NW.
    apply rep_enqueue; auto.
    - apply rep_att_out; [apply rep_unlink; auto | apply NW | apply NW].
    - cbn. lia.
    - cbn. now rewrite put_same.
    - cbn. now rewrite put_same. }
  assert (SQ : sameq a (a_enter (a_att (a_leave a t) t x) t r)).
  { pose proof (fun i u => leave_q s a t i u R) as Q. pose proof (enter_q (a_att (a_leave a t) t x) t r) as Q2.
    constructor; cbn in *; try congruence.
    - intros u. rewrite C3, L3. unfold put. destruct (Nat.eqb_spec u t); subst; cbn; auto.
    - intros u. rewrite C3, L3. unfold put. destruct (Nat.eqb_spec u t); subst; cbn; auto.
    - intros i u. rewrite Q2. transitivity (inq (a_leave a t) i u \/ i = r /\ u = t); [unfold inq; cbn; tauto |].
      rewrite Q. destruct (Nat.eq_dec u t) as [-> | NE]; [| tauto].
      split; [intros [[_ F] | [-> _]]; [congruence | left; auto] |]. intros J. right. split; auto.
      destruct (m_in _ M _ _ J). congruence.
    - intros i u. rewrite C4, L4. auto. }
  destruct (opt_is (aact a r) t) eqn:EO.
  - apply first_next; auto.
    + eapply mem_same; eauto.
    + assert (O : others_run (a_att (a_leave a t) t x)) by (exact (others_leave a t r l ES (m_nodup _ M) RT (first_others a H))).
      unfold a_enter. cbn [a_att aat]. rewrite put_same. cbn [susp x].
      apply (others_queues _ r l); [cbn; rewrite L2; auto | cbn; rewrite L2; apply (m_nodup _ M) | exact O].
  - apply opt_is_false in EO. rewrite H1 in EO.
    assert (F : first_runs (a_leave a t)) by (apply (first_leave s a t R H); now rewrite RT).
    apply first_enter; [exact F |]. cbn. unfold a_leave. rewrite SU, RT. cbn. rewrite put_same.
    intros E. destruct (without_hd t _ EO) as [_ W2]. apply W2 in E. rewrite E in IT. destruct IT.
Qed.

Lemma first_wake : forall s a t, rep s a -> mem a -> first_runs a -> (t < acount a)%nat -> exited (aat a t) = false -> susp (aat a t) = true ->
  first_runs (a_wake a t).
Proof.
  intros s a t R M H LT EX SU. unfold a_wake. apply first_queues; auto. cbn. intros I.
  destruct (m_queued _ M t LT EX) as [_ [J | J]]; [destruct (p_inrun _ _ R _ _ J) as (_ & _ & F); congruence |].
  assert (N : runq a (troot (aat a t)) <> []).
  { intros E. destruct (H _ I) as [_ C]. rewrite (C E) in J. destruct J. }
  split; [apply hd_app; auto |]. intros E. apply app_eq_nil in E. destruct E; contradiction.
Qed.

(* with only threads of the innermost root named *)
Lemma first_step : forall s a e, rep s a -> mem a -> first_runs a -> named_local s e -> first_runs (a_step a e).
Proof.
  intros s a e R M H NL. unfold a_step. destruct (afailed a); auto.
  assert (T : forall t, first_runs (fst (a_the a t)) /\ astack (fst (a_the a t)) = astack a /\
     (exists s', rep s' (fst (a_the a t))) /\ mem (fst (a_the a t)) /\
     (t = None -> forall x r l, snd (a_the a t) = Some x -> astack a = r :: l -> aact (fst (a_the a t)) r = Some x)).
  { intros [t |]; cbn.
    - split; [auto | split; [auto | split; [exists s; auto | split; [auto | intros; discriminate]]]].
    - unfold a_current. cbv zeta. destruct (first_default a H) as (D1 & D2 & D3).
      destruct (rep_the s a None R M) as (Q1 & Q2 & Q3). cbn in Q1, Q3. unfold a_current in Q1, Q3. cbv zeta in Q1, Q3.
      destruct (astack (a_default a)) as [| r l] eqn:ES; cbn in *.
      + split; [auto | split; [congruence | split; [eauto | split; [auto | intros; discriminate]]]].
      + split; [auto | split; [congruence | split; [eauto | split; [auto |]]]]. intros _ x r' l' E1 E2. congruence. }
  assert (LOC : forall t x r l, (t = None \/ (exists y, t = Some y /\ match stack s with q :: _ => troot (att (th s y)) = q | [] => True end)) ->
     snd (a_the a t) = Some x -> astack a = r :: l -> troot (aat (fst (a_the a t)) x) = r).
  { intros t x r l [-> | (y & -> & L)] E ES.
    - destruct (T None) as (_ & _ & _ & T4 & T5). specialize (T5 eq_refl x r l E ES). apply (m_act _ T4 _ _ T5).
    - cbn in E |- *. injection E as <-. rewrite (p_stack _ _ R), ES, (p_att _ _ R) in L. exact L. }
  destruct e as [su | | t | t ms | t ms | t | | | | | dt].
  - apply first_make; auto.
  - eapply first_yield; eauto.
  - destruct (T t) as (T1 & T2 & (s' & T3) & T4 & _). specialize (LOC t). destruct (a_the a t) as [a1 [x |]]; cbn [fst snd] in *; auto.
    destruct (a_live a1 x) eqn:AL; auto. destruct (astack a) as [| r l] eqn:ES.
    + exfalso. apply a_live_lt in AL. destruct AL as [A1 A2]. destruct (m_queued _ T4 x A1 A2) as [F _]. rewrite T2 in F. destruct F.
    + eapply (first_delete s'); eauto. apply (LOC x r l); auto. cbn in NL. destruct t; eauto.
  - destruct (T t) as (T1 & T2 & (s' & T3) & T4 & _). specialize (LOC t). destruct (a_the a t) as [a1 [x |]]; cbn [fst snd] in *; auto.
    destruct (a_live a1 x) eqn:AL; auto. cbv zeta. destruct (astack a) as [| r l] eqn:ES.
    + exfalso. apply a_live_lt in AL. destruct AL as [A1 A2]. destruct (m_queued _ T4 x A1 A2) as [F _]. rewrite T2 in F. destruct F.
    + apply a_live_lt in AL. destruct AL as [A1 A2].
      assert (F : first_runs (a_suspend a1 x (match ms with None => 1%Z | Some m => ulong m end) None)).
      { eapply (first_suspend s'); eauto. apply (LOC x r l); auto. cbn in NL. destruct t; eauto. }
      destruct (match astack a1 with [] => _ | _ => _ end); auto.
  - destruct (T None) as (T1 & T2 & (s' & T3) & T4 & _). specialize (LOC None). cbn [a_the] in *. destruct (a_current a) as [a1 [x |]]; cbn [fst snd] in *; auto.
    destruct (_ && _)%bool eqn:C; auto. apply andb_true_iff in C. destruct C as [_ AL].
    apply a_live_lt in AL. destruct AL as [A1 A2]. destruct (astack a) as [| r l] eqn:ES.
    + exfalso. destruct (m_queued _ T4 x A1 A2) as [F _]. rewrite T2 in F. destruct F.
    + eapply (first_suspend s'); eauto.
  - destruct (T t) as (T1 & T2 & (s' & T3) & T4 & _). destruct (a_the a t) as [a1 [x |]]; cbn [fst snd] in *; auto.
    destruct (a_live a1 x) eqn:AL; auto. cbv zeta. apply a_live_lt in AL. destruct AL as [A1 A2].
    set (v := attr_exit_val (aat a1 x) (Some true)).
    assert (R' : rep (set_att s' x v) (a_att a1 x v)) by (apply rep_att_same; auto).
    assert (M' : mem (a_att a1 x v)) by (eapply mem_same; [apply sameq_att |]; auto).
    assert (AX : aat (a_att a1 x v) x = v) by (cbn; apply put_same).
    destruct (susp (aat (a_att a1 x v) x)) eqn:SV; [| exact T1].
    eapply first_wake; eauto. rewrite AX. auto.
  - apply first_default; auto.
  - destruct (astack a) as [| r l] eqn:ES; auto. destruct (aact a r) as [x |] eqn:EA; [| apply first_pop, first_others; auto]. cbv zeta.
    assert (F : first_runs (a_delete a x)) by (eapply first_delete; eauto; apply (m_act _ M _ _ EA)).
    destruct (opt_is _ _); auto.
  - apply first_pop, first_others; auto.
  - intros r I. cbn in *. destruct I as [<- | I]; [| apply H; auto].
    assert (Z : forall t, ~ inq a (aroots a) t).
    { intros t J. destruct (m_in _ M _ _ J) as [J1 J2]. pose proof (m_root _ M t J1). lia. }
    assert (runq a (aroots a) = []) as ->.
    { destruct (runq a (aroots a)) as [| y q] eqn:E; auto. exfalso. apply (Z y). left. rewrite E. left; auto. }
    assert (suspq a (aroots a) = []) as ->.
    { destruct (suspq a (aroots a)) as [| y q] eqn:E; auto. exfalso. apply (Z y). right. rewrite E. left; auto. }
    split; auto. cbn. destruct (aact a (aroots a)) as [y |] eqn:E; auto. destruct (m_act _ M _ _ E) as [J1 J2].
    pose proof (m_root _ M y J1). lia.
  - exact H.
Qed.

Lemma init_first : first_runs ainit.
Proof. intros r _. auto. Qed.

Lemma first_run : forall es s a, rep s a -> mem a -> first_runs a -> all_along named_local s es -> first_runs (a_run a es).
Proof.
  induction es as [| e es IH]; intros s a R M H A; auto. unfold a_run. cbn [fold_left]. cbn [all_along] in A. destruct A as [A1 A2].
  destruct (step_rep s a e R M). eapply IH; eauto. eapply first_step; eauto.
Qed.
