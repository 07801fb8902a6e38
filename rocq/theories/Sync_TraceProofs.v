(* Everything observed is allowed. *)
From Coq Require Import ZArith List Bool Lia.
Import ListNotations.
From Verif Require Import Threads_Model Threads_Spec Threads_Proofs Sync_Model Sync_Spec Sync_SchedProofs Sync_PartProofs Sync_Proofs Sync_ExecProofs Sync_RunProofs.

Section Trace.
Variable am : nat -> nat.
Notation good := (good am).

(* each new event is allowed *)
Inductive steps : list obs -> list obs -> Prop :=
| S_nil : forall tr, steps tr tr
| S_cons : forall tr tr' o, steps tr tr' -> allowed am tr' o -> steps tr (o :: tr').

Lemma steps_trans : forall a b c, steps a b -> steps b c -> steps a c.
Proof. intros a b c H1 H2. induction H2; auto. constructor; auto. Qed.
Lemma steps_one : forall tr o, allowed am tr o -> steps tr (o :: tr).
Proof. intros. constructor; auto. constructor. Qed.
Lemma steps_split : forall tr x o y, steps [] tr -> tr = x ++ o :: y -> allowed am y o.
Proof.
  intros tr x o y H. revert x. remember [] as z eqn:Z. induction H; intros x E.
  - subst tr. destruct x; discriminate.
  - destruct x as [| q x]; [injection E as -> ->; auto |]. injection E as -> E. eapply IHsteps; eauto.
Qed.

Lemma amo_mutex : forall c, amo am c = mutex_of am c.
Proof. destruct c; auto. Qed.

Lemma count_app_last : forall (x : list nat) l t, ~ In t l -> count_occ Nat.eq_dec (x ++ l) t = count_occ Nat.eq_dec x t.
Proof. intros. rewrite count_occ_app. apply count_occ_not_In with (eq_dec := Nat.eq_dec) in H. lia. Qed.

Section Exec.
Variables (s : sst) (t : nat) (l : list instr).
Hypothesis G : good s.
Hypothesis CUR : current (ts s) t.

Lemma mtx_empty : forall m, mtx s m = [] <-> (forall u, holds (trace s) u m = false) /\ tries (trace s) m = gots (trace s) m.
Proof.
  intros m. destruct (g_mi _ _ G) as [H1 H2 H3 H4 H5 H6]. split.
  - intros E. split; [| rewrite H6, E; cbn; now rewrite app_nil_r]. intros u. destruct (holds (trace s) u m) eqn:X; auto. destruct (H5 u m X). congruence.
  - intros [E1 E2]. destruct (mtx s m) as [| h ws] eqn:E; auto. exfalso. destruct (H2 m h ws E) as [X | [X _]].
    + rewrite E1 in X. discriminate.
    + specialize (H6 m). rewrite E2 in H6. rewrite <- (app_nil_r (gots (trace s) m)) in H6 at 1. apply app_inv_head in H6. rewrite E in H6. cbn in H6. rewrite X in H6. discriminate.
Qed.

Lemma steps_release : forall m L, holds (trace s) t m = true -> steps (trace s) (trace (do_release s t m L)).
Proof.
  intros m L H. destruct (i_ho _ _ _ _ _ _ (g_mi _ _ G) _ _ H) as [ws E]. unfold do_release. rewrite E, Nat.eqb_refl.
  assert (A : steps (trace s) (TRel t m :: trace s)) by (apply steps_one; exact H). destruct ws as [| x r]; [exact A |].
  unfold do_wake.
  destruct (i_tail _ _ _ _ _ _ (g_mi _ _ G) m t (x :: r) x E (or_introl eq_refl)) as [B EV].
  pose proof (blb_todo _ _ B) as NT. pose proof (todo_lt am s x G NT) as LX.
  assert (SK : stack (ts s) <> []) by (destruct CUR as (r0 & l0 & E0 & _); congruence).
  pose proof (g_live _ _ G x SK NT) as EXX.
  assert (TP : threadp (ts s) x = true). { unfold threadp. rewrite EXX. destruct (Nat.ltb_spec x (nth_ (ts s))); [auto | lia]. }
  cbn [ts log s_mtx]. rewrite TP. exact A.
Qed.

Lemma steps_exec : forall i, todo s t = i :: l -> no_timeout (trace (exec s t i l)) -> steps (trace s) (trace (exec s t i l)).
Proof.
  intros i TD NT. pose proof (x_chk am s t _ _ G TD) as C. destruct (g_mi _ _ G) as [H1 H2 H3 H4 H5 H6].
  destruct i; cbn [exec] in *; try (constructor; fail).
  - assert (H : holds (trace s) t m = false).
    { pose proof (chk_hd _ _ _ _ _ (C m)) as X. cbn in X. rewrite obj_eqb_refl in X. apply X. }
    cbn [mtx log]. destruct (mtx s m) as [| o r] eqn:E; [| apply steps_one; exact H].
    apply S_cons; [apply steps_one; exact H |]. apply mtx_empty in E. destruct E as [E1 E2]. cbn [allowed]. split; auto. split; [exact E1 |].
    exists []. cbn. rewrite obj_eqb_refl. now rewrite E2.
  - assert (EV : ev (ts s) t = Some true).
    { destruct (g_ev _ _ G t w l TD) as [X | [X _]]; auto. exfalso. unfold ev in X. rewrite X in NT. destruct w; exact (NT _ (or_introl eq_refl)). }
    unfold ev in EV. rewrite EV. destruct w as [m | c].
    + apply steps_one. cbn [allowed]. split; auto.
      assert (B : blb (todo s t) m = true) by (rewrite TD; apply obj_eqb_refl).
      assert (E : exists ws, mtx s m = t :: ws).
      { destruct (H4 t m B) as [I _]. destruct (mtx s m) as [| h ws] eqn:E; [destruct I |]. destruct I as [-> | I]; eauto. destruct (H3 m h ws t E I). unfold ev in *. congruence. }
      destruct E as [ws E]. split.
      * intros u. destruct (holds (trace s) u m) eqn:X; auto. destruct (H5 u m X) as [ws' E']. rewrite E in E'. injection E' as -> _. destruct (H4 u m B). congruence.
      * cbn [s_ts trace]. rewrite H6, E. cbn [filter]. rewrite B. eauto.
    + apply steps_one. cbn [allowed]. split; auto. destruct (g_ci _ _ G) as [J1 J2 J3 J4 J5 J6 J7 J8 J9]. cbn [s_ts s_acq trace]. rewrite J9. rewrite count_app_last; auto.
      rewrite <- in_rev. intros I. destruct (J1 c t I) as [X | [_ X]]; [rewrite TD in X; discriminate | unfold ev in X; congruence].
  - pose proof (mtx_empty m) as ME. destruct (mtx s m) as [| o r] eqn:E.
    + apply steps_one. cbn [allowed]. tauto.
    + apply steps_one. cbn [allowed]. split; [discriminate |]. intros X. apply ME in X. discriminate.
  - apply steps_release. pose proof (chk_hd _ _ _ _ _ (C m)) as X. cbn in X. rewrite obj_eqb_refl in X. apply X.
  - assert (A : steps (trace s) (TPush t c :: trace s)).
    { apply steps_one. cbn [allowed]. rewrite <- amo_mutex. apply (chk_hd _ _ _ _ _ (C (amo am c))); auto. }
    cbn [cvs log]. destruct (existsb _ _); exact A.
  - assert (H : holds (trace s) t m = true). { pose proof (chk_hd _ _ _ _ _ (C m)) as X. cbn in X. rewrite obj_eqb_refl in X. apply X. }
    pose proof (steps_release m (IWoken (WCond c) :: l) H) as A. destruct (todo (do_release s t m (IWoken (WCond c) :: l)) t) as [| [] r]; exact A.
  - destruct (cvs s c); constructor.
  - apply steps_one. cbn [allowed s_cvs trace]. split.
    + rewrite <- amo_mutex. apply (chk_hd _ _ _ _ _ (C (amo am c))); auto.
    + destruct (g_ci _ _ G) as [J1 J2 J3 J4 J5 J6 J7 J8 J9]. destruct (J6 t c t0) as [[r E] _]; [rewrite TD; cbn; auto |]. rewrite J9, E, rev_app_distr. cbn. eauto.
  - unfold do_wake, raise. destruct (j_wk _ _ _ _ _ _ _ _ _ (g_ci _ _ G) t c t0) as [B _]; [rewrite TD; left; auto |].
    pose proof (wtb_todo _ _ B) as NT'. pose proof (todo_lt am s t0 G NT') as LX.
    assert (SK : stack (ts s) <> []) by (destruct CUR as (r0 & l0 & E0 & _); congruence).
    pose proof (g_live _ _ G t0 SK NT') as EXX.
    assert (TP : threadp (ts s) t0 = true). { unfold threadp. rewrite EXX. destruct (Nat.ltb_spec t0 (nth_ (ts s))); [auto | lia]. }
    rewrite TP. constructor.
  - apply steps_one. cbn [allowed s_cvs trace]. split.
    + rewrite <- amo_mutex. apply (chk_hd _ _ _ _ _ (C (amo am c))); auto.
    + destruct (g_ci _ _ G) as [J1 J2 J3 J4 J5 J6 J7 J8 J9]. destruct (J7 t c l0) as [E _]; [rewrite TD; cbn; auto |]. rewrite J9, E. auto.
  - apply steps_one. cbn [allowed s_queue trace]. apply (chk_hd _ _ _ _ _ (C (Port p))); auto.
  - destruct (queue s p) eqn:E; [| constructor]. pose proof (x_acq am s t _ _ G TD) as F. cbn [facq] in F. apply andb_true_iff in F. destruct F as [F _]. rewrite F. constructor.
  - pose proof (q_td _ _ _ _ (g_qi _ _ G) t) as Q. rewrite TD in Q. destruct (queue s p); [congruence | constructor].
  - pose proof (q_td _ _ _ _ (g_qi _ _ G) t) as Q. rewrite TD in Q. destruct Q as [Q QN]. destruct q as [| v q]; [congruence |].
    apply steps_one. cbn [allowed s_queue trace hd_error]. exists v, q. split; auto. rewrite (q_fifo _ _ _ _ (g_qi _ _ G)), <- Q. auto.
  - apply steps_one. cbn [allowed]. rewrite (q_fifo _ _ _ _ (g_qi _ _ G)). destruct (queue s p) as [| v q].
    + rewrite app_nil_r. split; [discriminate | congruence].
    + split; auto. intros _ X. rewrite <- (app_nil_r (fetched (trace s) p)) in X at 2. apply app_inv_head in X. discriminate.
Qed.
End Exec.

Lemma steps_sstep : forall s e, good s -> disciplined am s e -> no_timeout (trace (sstep s e)) -> steps (trace s) (trace (sstep s e)).
Proof.
  intros s e G D NT. destruct (failed (ts s)) eqn:NF; [rewrite sstep_failed in * by auto; constructor |].
  unfold sstep in *. rewrite NF in *.
  pose proof (current_step (ts s) NF) as CS. pose proof (current_of (ts s)) as CO.
  destruct (current_thread (ts s)) as [x me]. cbn [fst snd] in *.
  destruct (step_simple (ts s) EList I (g_sched _ _ G)) as [SX MX]. rewrite <- CS in *.
  assert (G1 : good (s_ts s x)) by (apply good_ts with none; auto; intros u []).
  destruct e; try (constructor; fail); try (destruct (idle _ _); constructor; fail).
  - destruct me as [t |]; [| constructor]. destruct (idle _ _); constructor.
  - destruct me as [t |]; [| constructor]. destruct (todo (s_ts s x) t) as [| i l] eqn:TD; [constructor |].
    apply (steps_exec (s_ts s x) t l G1 (CO t eq_refl) i TD NT).
Qed.

Lemma steps_srun : forall es s, good s -> along (disciplined am) s es -> failed (ts (srun s es)) = false -> no_timeout (trace (srun s es)) -> steps (trace s) (trace (srun s es)).
Proof.
  induction es as [| e es IH]; intros s G A F N; [constructor |]. destruct A as [A1 A2]. cbn [srun fold_left] in *.
  change (fold_left sstep es (sstep s e)) with (srun (sstep s e) es) in *.
  assert (NT : no_timeout (trace (sstep s e))) by (destruct (srun_trace es (sstep s e)) as [new E]; rewrite E in N; eapply no_timeout_app; eauto).
  assert (NF : failed (ts (sstep s e)) = false) by (destruct (failed (ts (sstep s e))) eqn:X; auto; rewrite srun_failed in F by auto; congruence).
  apply (steps_trans _ (trace (sstep s e))); [apply steps_sstep; auto |]. apply IH; auto. apply good_sstep; auto.
Qed.
End Trace.
