(* The invariant along a run. *)
From Coq Require Import ZArith List Bool Lia.
Import ListNotations.
From Verif Require Import Threads_Model Threads_Spec Threads_Proofs Threads_RunProofs Threads_InvProofs Threads_OrderProofs Threads_EffectProofs
  Sync_Model Sync_Spec Sync_SchedProofs Sync_PartProofs Sync_Proofs Sync_ExecProofs.

Lemma elist_failed : forall s, sched s -> failed (step s EList) = failed s.
Proof.
  intros s (a & R & M & F & S). destruct (step_rep s a EList R M) as [R' _]. rewrite (p_failed _ _ R'), (p_failed _ _ R).
  unfold a_step. destruct (afailed a) eqn:E; auto. rewrite default_failed. auto.
Qed.

Lemma default_active : forall s r k, sched s -> failed s = false -> stack (step s EList) = r :: k -> active (rt (step s EList) r) <> None.
Proof.
  intros s r k (a & R & M & F & S) NF E. destruct (step_rep s a EList R M) as [R' _]. rewrite (p_stack _ _ R') in E. rewrite (p_act _ _ R').
  unfold a_step in *. rewrite <- (p_failed _ _ R), NF in *. unfold a_default in *. destruct (astack a) as [| r0 l0] eqn:ES; [congruence |].
  destruct (aact a r0) eqn:EA.
  - rewrite ES in E. injection E as <- <-. congruence.
  - destruct (first_default a F) as (_ & _ & FD). unfold a_default in FD. rewrite ES, EA in FD. rewrite FD in E. injection E as -> ->.
    cbn. unfold put. rewrite Nat.eqb_refl. discriminate.
Qed.

Lemma current_none : forall s, sched s -> failed s = false -> snd (current_thread s) = None -> stack (fst (current_thread s)) = [].
Proof.
  intros s S NF E. destruct (stack (fst (current_thread s))) as [| r k] eqn:ES; auto. exfalso.
  rewrite (current_step s NF) in ES. pose proof (default_active s r k S NF ES) as A. unfold step in *. rewrite NF in *.
  unfold current_thread in E. cbv zeta in E. rewrite ES in E. cbn in E. contradiction.
Qed.

Section Run.
Variable am : nat -> nat.
Notation good := (good am).

Lemma good_init : good sinit.
Proof.
  constructor; cbn; auto; try (intros; congruence).
  - apply sched_init.
  - intros. apply T_plain, plain_nil.
  - intros t [n | n]; auto.
  - constructor; cbn; intros; try discriminate; auto. constructor.
  - constructor; cbn; intros; try discriminate; try contradiction; auto. constructor.
  - constructor; auto.
Qed.

Lemma good_ts : forall s x (P : nat -> Prop), good s -> sched x -> moved P (ts s) x -> (forall u, P u -> todo s u = []) -> good (s_ts s x).
Proof.
  intros s x P G S (M1 & M2 & M3) PE.
  assert (K : forall u, todo s u <> [] -> ev x u = ev (ts s) u /\ (susp (att (th x u)) = true -> susp (att (th (ts s) u)) = true) /\
    (stack x <> [] -> exited (att (th x u)) = exited (att (th (ts s) u)))).
  { intros u N. apply M3; [apply (todo_lt am); auto | intros X; auto]. }
  constructor; cbn [s_ts ts mtx cvs queue todo acq trace]; auto; try apply G.
  - intros t L. apply (g_count _ _ G). lia.
  - intros t SK NT. destruct (K t NT) as (_ & _ & E). rewrite E by auto. apply (g_live _ _ G); auto. rewrite <- M2; auto.
  - intros t SK L X. destruct (todo s t) as [| i0 l0] eqn:TD; [auto |]. right. assert (NT : todo s t <> []) by congruence.
    destruct (K t NT) as (_ & E & _). destruct (g_susp _ _ G t) as [Y | (w & l & Y)]; auto.
    + rewrite <- M2; auto. + apply (todo_lt am); auto. + congruence. + rewrite TD in Y. eauto.
  - intros t w l E. assert (NT : todo s t <> []) by congruence. destruct (K t NT) as (E1 & E2 & _). rewrite E1.
    destruct (g_ev _ _ G t w l E) as [X | [X Y]]; auto. right. split; auto. destruct (susp (att (th x t))); auto. rewrite E2 in Y; auto.
  - refine (MI_ext _ _ _ _ _ _ _ _ _ _ _ _ _ _ _ _ _ _ (g_mi _ _ G)); auto. intros u m B. apply K. eapply blb_todo; eauto.
  - refine (CI_ext _ _ _ _ _ _ _ _ _ _ _ _ _ _ _ _ _ _ _ _ _ _ _ _ _ _ _ (g_ci _ _ G)); auto; try tauto. intros u m B. apply K. eapply wtb_todo; eauto.
Qed.

Lemma good_call : forall s t c, good s -> current (ts s) t -> todo s t = [] ->
  match c with
  | Obtain m _ => holds (trace s) t (User m) = false
  | Release m => holds (trace s) t (User m) = true
  | Wait c m _ => holds (trace s) t (User m) = true /\ m = am c
  | Signal c | Broadcast c => holds (trace s) t (User (am c)) = true
  | _ => True
  end -> good (s_todo s t (prog c)).
Proof.
  intros s t c G CUR TD D.
  assert (PO : forall p, holds (trace s) t (Port p) = false).
  { intros p. pose proof (g_chk _ _ G t (Port p)) as X. rewrite TD in X. cbn in X. now apply negb_true_iff in X. }
  assert (HD : forall w r, prog c <> IWoken w :: r) by (destruct c; discriminate).
  assert (TI : tidy (prog c)).
  { destruct c; cbn [prog]; try (apply T_push); try apply T_plain; intros i I; cbn in I;
      repeat (destruct I as [<- | I]; [reflexivity |]); contradiction. }
  match goal with |- Sync_Proofs.good _ ?z => refine (good_step am s z t t (prog c) G (x_lt am s t G CUR) (g_sched _ _ G) (moved_refl _ _) eq_refl (fun _ => x_live am s t G CUR) (nosusp am s t G CUR _) _ _ TI _ _ _ _ _ _ _ _ _) end.
  - congruence.
  - intros w r X. destruct (HD _ _ X).
  - intros m. cbn [s_todo trace]. destruct m as [n | n].
    + destruct c; cbn [prog chk amo obj_eqb]; auto.
      * destruct (Nat.eqb_spec m n) as [-> |]; auto. rewrite D. auto.
      * destruct (Nat.eqb_spec m n) as [-> |]; auto.
      * destruct (Nat.eqb_spec m n) as [-> |]; auto. rewrite D. auto.
      * destruct D as [D ->]. rewrite Nat.eqb_refl. cbn [andb]. destruct (Nat.eqb_spec (am c) n) as [E |]; auto. rewrite E in D. rewrite D. auto.
      * destruct (Nat.eqb_spec (am c) n) as [<- |]; auto. rewrite D. auto.
      * destruct (Nat.eqb_spec (am c) n) as [<- |]; auto. rewrite D. auto.
    + rewrite PO. destruct c; cbn [prog chk amo obj_eqb]; auto; try (destruct (Nat.eqb_spec p n); auto).
      destruct D as [_ ->]. now rewrite Nat.eqb_refl.
  - auto.
  - auto.
  - cbn [s_todo acq]. destruct c; reflexivity.
  - cbn [s_todo mtx todo trace ts]. apply (MI_same am); auto. intros m. rewrite TD. destruct c; reflexivity.
  - cbn [s_todo cvs todo trace ts]. apply (CI_same am); auto; rewrite TD; intros.
    + destruct c; reflexivity. + destruct c; reflexivity. + destruct c; cbn; tauto. + destruct c; cbn; tauto.
    + unfold wkp. destruct c; cbn; intuition discriminate.
  - cbn [s_todo queue todo trace]. apply (QI_same am); auto. destruct c; cbn; auto.
  - apply G.
  - apply G.
Qed.

Lemma exec_failed : forall s t i l, failed (ts s) = true -> failed (ts (exec s t i l)) = true.
Proof.
  intros s t i l F.
  assert (S : forall x e, failed x = true -> failed (step x e) = true) by (intros x e X; unfold step; now rewrite X).
  assert (W : forall s' x L, failed (ts s') = true -> failed (ts (do_wake s' t x L)) = true).
  { intros s' x L X. unfold do_wake, raise. destruct (threadp _ _); cbn; auto. }
  assert (R : forall s' m L, failed (ts s') = true -> failed (ts (do_release s' t m L)) = true).
  { intros s' m L X. unfold do_release, raise. destruct (mtx s' m) as [| o r]; auto. destruct (Nat.eqb o t); auto. destruct r; [auto | apply W; auto]. }
  destruct i; cbn [exec]; auto.
  - destruct (mtx (log s (TTry t m)) m); cbn; auto.
  - destruct w; cbn; auto.
  - destruct (mtx s m); cbn; auto.
  - cbn. destruct (existsb _ _); auto.
  - destruct (todo _ t) as [| j r]; auto. destruct j; auto. cbn. apply S. apply R. auto.
  - destruct (cvs s c); auto.
  - destruct (queue s p); auto. destruct (first || acq s t); auto.
  - destruct (queue s p); auto.
Qed.

Lemma exec_trace : forall s t i l, exists new, trace (exec s t i l) = new ++ trace s.
Proof.
  intros s t i l.
  assert (W : forall s' x L, exists new, trace (do_wake s' t x L) = new ++ trace s').
  { intros s' x L. unfold do_wake, raise. destruct (threadp _ _); cbn; [exists [] | exists [TError t]]; auto. }
  assert (R : forall s' m L, exists new, trace (do_release s' t m L) = new ++ trace s').
  { intros s' m L. unfold do_release, raise. destruct (mtx s' m) as [| o r]; [exists [TError t]; auto |]. destruct (Nat.eqb o t); [| exists [TError t]; auto].
    destruct r; [exists [TRel t m]; auto |]. destruct (W (log (s_mtx s' m (n :: r)) (TRel t m)) n L) as [new E]. exists (new ++ [TRel t m]). rewrite E. cbn. now rewrite <- app_assoc. }
  destruct i; cbn [exec]; auto; try (exists []; reflexivity); try (eexists [_]; reflexivity).
  - destruct (mtx (log s (TTry t m)) m); cbn; [exists [TGot t m true; TTry t m] | exists [TTry t m]]; auto.
  - destruct w; cbn; eexists [_]; reflexivity.
  - destruct (mtx s m); cbn; eexists [_]; reflexivity.
  - cbn. destruct (existsb _ _); exists [TPush t c]; auto.
  - destruct (R s m (IWoken (WCond c) :: l)) as [new E]. exists new. rewrite <- E. destruct (todo _ t) as [| j r]; auto. destruct j; auto.
  - destruct (cvs s c); exists []; auto.
  - destruct (queue s p); [| exists []; auto]. destruct (first || acq s t); [exists []; auto | eexists [_]; reflexivity].
  - destruct (queue s p); [exists [TError t] | exists []]; auto.
Qed.

Lemma sstep_trace : forall s e, exists new, trace (sstep s e) = new ++ trace s.
Proof.
  intros s e. unfold sstep. destruct (failed (ts s)); [exists []; auto |]. destruct (current_thread (ts s)) as [x me].
  destruct e; try (exists []; reflexivity); try (destruct (idle _ _); exists []; reflexivity).
  - destruct me as [t |]; [| exists []; auto]. destruct (idle _ _); exists []; reflexivity.
  - destruct me as [t |]; [| exists []; auto]. cbn [s_ts todo]. destruct (todo s t) as [| i l] eqn:E; [exists []; auto |]. exact (exec_trace (s_ts s x) t i l).
Qed.

Lemma no_timeout_app : forall a b, no_timeout (a ++ b) -> no_timeout b.
Proof. intros a b H o I. apply H. rewrite in_app_iff. auto. Qed.

Lemma sstep_failed : forall s e, failed (ts s) = true -> sstep s e = s.
Proof. intros s e F. unfold sstep. now rewrite F. Qed.

Lemma good_sstep : forall s e, good s -> disciplined am s e -> failed (ts (sstep s e)) = false -> no_timeout (trace (sstep s e)) -> good (sstep s e).
Proof.
  intros s e G D NF' NT. destruct (failed (ts s)) eqn:NF; [rewrite sstep_failed in * by auto; congruence |].
  unfold sstep in *. rewrite NF in *. unfold disciplined in D.
  pose proof (current_step (ts s) NF) as CS. pose proof (current_of (ts s)) as CO. pose proof (current_none (ts s) (g_sched _ _ G) NF) as CN.
  destruct (current_thread (ts s)) as [x me]. cbn [fst snd] in *.
  destruct (step_simple (ts s) EList I (g_sched _ _ G)) as [SX MX]. rewrite <- CS in *.
  assert (NX : failed x = false) by (rewrite CS; now rewrite elist_failed by apply G).
  assert (G1 : good (s_ts s x)) by (apply good_ts with none; auto; intros u []).
  destruct e.
  - destruct (step_simple x EYield I SX) as [S2 M2]. apply good_ts with none; auto. intros u [].
  - destruct (step_simple x (ETick dt) I SX) as [S2 M2]. apply good_ts with none; auto. intros u [].
  - destruct (idle (s_ts s x) me); auto. destruct (step_simple x (EMake false) I SX) as [S2 M2]. apply good_ts with none; auto. intros u [].
  - destruct me as [t |].
    + destruct (idle (s_ts s x) (Some t)) eqn:ID; auto. cbn [idle s_ts todo] in ID.
      destruct (step_sleep x t ms SX (CO t eq_refl) NX) as [S2 M2]. apply good_ts with (fun u => u = t); auto.
      intros u ->. cbn [s_ts todo]. destruct (todo s t); [auto | discriminate].
    + cbn [idle]. specialize (CN eq_refl). destruct (step_simple x EList I SX) as [S2 M2].
      assert (E : step x (ESuspend None (Some ms)) = step x EList).
      { unfold step. rewrite NX. cbn [Fthread_suspend the_thread]. unfold Fthread_suspend, the_thread, current_thread. cbv zeta.
        assert (EE : ensure_default_thread x = x) by (unfold ensure_default_thread; now rewrite CN). rewrite EE, CN. reflexivity. }
      cbn [s_ts ts]. rewrite E. apply good_ts with none; auto. intros u [].
  - destruct me as [t |].
    + destruct (idle (s_ts s x) (Some t)) eqn:ID; auto. cbn [idle s_ts todo] in ID.
      destruct (step_return x t SX (CO t eq_refl) NX) as [S2 M2]. apply good_ts with (fun u => u = t); auto.
      intros u ->. cbn [s_ts todo]. destruct (todo s t); [auto | discriminate].
    + cbn [idle]. specialize (CN eq_refl).
      assert (E : step x EReturn = x). { unfold step. rewrite NX. unfold thread_return. now rewrite CN. }
      cbn [s_ts ts]. rewrite E. exact G1.
  - destruct me as [t |]; auto. destruct (idle (s_ts s x) (Some t)) eqn:ID; auto. cbn [idle s_ts todo] in ID.
    apply good_call; auto.
    + cbn [s_ts todo]. destruct (todo s t); [auto | discriminate].
  - destruct me as [t |]; auto. destruct (todo (s_ts s x) t) as [| i l] eqn:TD; auto. apply good_exec; auto.
Qed.

Lemma srun_failed : forall es s, failed (ts s) = true -> srun s es = s.
Proof. induction es as [| e es IH]; intros s F; auto. cbn. rewrite sstep_failed by auto. apply IH; auto. Qed.

Lemma srun_trace : forall es s, exists new, trace (srun s es) = new ++ trace s.
Proof.
  induction es as [| e es IH]; intros s; [exists []; auto |]. cbn. destruct (IH (sstep s e)) as [n1 E1]. destruct (sstep_trace s e) as [n2 E2].
  exists (n1 ++ n2). unfold srun in E1. now rewrite E1, E2, app_assoc.
Qed.

Lemma good_run : forall es s, good s -> along (disciplined am) s es -> failed (ts (srun s es)) = false -> no_timeout (trace (srun s es)) -> good (srun s es).
Proof.
  induction es as [| e es IH]; intros s G A F N; auto. destruct A as [A1 A2]. cbn [srun fold_left] in *.
  change (fold_left sstep es (sstep s e)) with (srun (sstep s e) es) in *. apply IH; auto. apply good_sstep; auto.
  - destruct (failed (ts (sstep s e))) eqn:X; auto. rewrite srun_failed in F by auto. congruence.
  - destruct (srun_trace es (sstep s e)) as [new E]. rewrite E in N. eapply no_timeout_app; eauto.
Qed.
End Run.
