(* Every instruction keeps the invariant. *)
From Coq Require Import ZArith List Bool Lia.
Import ListNotations.
From Verif Require Import Threads_Model Threads_Spec Threads_Proofs Sync_Model Sync_Spec Sync_SchedProofs Sync_PartProofs Sync_Proofs.

Lemma obj_eqb_sym : forall a b, obj_eqb a b = obj_eqb b a.
Proof. intros. destruct (obj_eqb_spec a b), (obj_eqb_spec b a); congruence. Qed.

Lemma holds_got : forall tr t m u n, holds (TGot t m true :: tr) u n = set2 (holds tr) t m true u n.
Proof. intros. cbn. unfold set2. now rewrite (Nat.eqb_sym t u), (obj_eqb_sym m n). Qed.
Lemma holds_maybe : forall tr t m u n, holds (TMaybe t m true :: tr) u n = set2 (holds tr) t m true u n.
Proof. intros. cbn. unfold set2. now rewrite (Nat.eqb_sym t u), (obj_eqb_sym m n). Qed.
Lemma holds_rel : forall tr t m u n, holds (TRel t m :: tr) u n = set2 (holds tr) t m false u n.
Proof. intros. cbn. unfold set2. now rewrite (Nat.eqb_sym t u), (obj_eqb_sym m n). Qed.
Lemma tries_snoc : forall tr t m n, tries (TTry t m :: tr) n = snoc (tries tr) m t n.
Proof. intros. cbn. unfold snoc, oput. rewrite (obj_eqb_sym n m). destruct (obj_eqb_spec m n); subst; auto. Qed.
Lemma gots_snoc : forall tr t m n, gots (TGot t m true :: tr) n = snoc (gots tr) m t n.
Proof. intros. cbn. unfold snoc, oput. rewrite (obj_eqb_sym n m). destruct (obj_eqb_spec m n); subst; auto. Qed.
Lemma waits_snoc : forall tr t m n, waits (TPush t m :: tr) n = snoc (waits tr) m t n.
Proof. intros. cbn. unfold snoc, oput. rewrite (obj_eqb_sym n m). destruct (obj_eqb_spec m n); subst; auto. Qed.
Lemma chosen_snoc : forall tr t m x n, chosen (TSignal t m x :: tr) n = snoc (chosen tr) m x n.
Proof. intros. cbn. unfold snoc, oput. rewrite (obj_eqb_sym n m). destruct (obj_eqb_spec m n); subst; auto. Qed.
Lemma chosen_app : forall tr t m k n, chosen (TBroad t m k :: tr) n = oput (chosen tr) m (chosen tr m ++ k) n.
Proof. intros. cbn. unfold oput. rewrite (obj_eqb_sym n m). destruct (obj_eqb_spec m n); subst; auto. Qed.

Section Cases.
Variable am : nat -> nat.
Notation good := (good am).
Notation chk := (chk am).
Notation amo := (amo am).
Variables (s : sst) (t : nat) (l : list instr).
Hypothesis G : good s.
Hypothesis CUR : current (ts s) t.
Hypothesis NF : failed (ts s) = false.

Local Notation LT := (x_lt am s t G CUR).
Local Notation EX := (x_live am s t G CUR).
Local Notation SU := (x_susp am s t G CUR).
Lemma nosusp : forall (P : Prop), susp (att (th (ts s) t)) = true -> P.
Proof. intros P X. rewrite SU in X. discriminate. Qed.

Lemma ev_other : forall s' u m, moved (fun u => u = t) (ts s) s' -> u <> t -> blb (todo s u) m = true \/ wtb (todo s u) m = true -> ev s' u = ev (ts s) u.
Proof.
  intros s' u m (_ & _ & M) N B. apply M; auto. apply (todo_lt am); auto. destruct B as [B | B]; [eapply blb_todo | eapply wtb_todo]; eauto.
Qed.

Lemma good_obtain_free : forall m ms, todo s t = IObtain m ms :: l -> mtx s m = [] ->
  good (s_todo (log (s_mtx (log s (TTry t m)) m [t]) (TGot t m true)) t l).
Proof.
  intros m ms TD E. pose proof (x_tidy am s t _ _ G TD) as T. pose proof (tidy_rest _ _ T) as P. cbn in P.
  pose proof (x_chk am s t _ _ G TD) as C.
  assert (A : forall n, chk n (set2 (holds (trace s)) t m true t n) l = true).
  { intros n. pose proof (chk_hd _ _ _ _ _ (C n)) as X. cbn in X. destruct (obj_eqb_spec m n) as [-> | N].
    - rewrite set2_same. apply X.
    - rewrite set2_other by auto. auto. }
  match goal with |- Sync_Proofs.good _ ?z => refine (good_step am s z t t l G LT _ _ eq_refl _ (nosusp _) _ _ (T_plain _ P) _ _ _ _ _ _ _ _ _) end.
  - apply (g_sched _ _ G).
  - apply moved_refl.
  - intros _. apply EX.
  - congruence.
  - intros w r ->. apply plain_hd in P. discriminate.
  - intros n. cbn [trace s_todo log s_mtx]. rewrite holds_got. apply A.
  - intros u n N. cbn [trace s_todo log s_mtx]. rewrite holds_got. rewrite set2_other; auto.
  - auto.
  - exact (x_acq am s t _ _ G TD).
  - cbn [trace s_todo log s_mtx mtx todo ts].
    refine (MI_ext _ _ _ _ _ _ _ _ _ _ _ _ _ _ _ _ _ _ (MI_take _ _ _ _ _ _ t m (g_mi _ _ G) E _)).
    + auto.
    + intros u n. exact (holds_got (trace s) t m u n).
    + intros u n. unfold upd. destruct (Nat.eqb_spec u t); subst; auto. rewrite TD. rewrite plain_blb; auto.
    + auto.
    + intros n. exact (tries_snoc (trace s) t m n).
    + intros n. exact (gots_snoc (trace s) t m n).
    + now rewrite TD.
  - cbn [trace s_todo log s_mtx cvs todo ts]. apply (CI_plain am s t _ _ G TD); auto.
  - cbn [trace s_todo log s_mtx queue todo]. apply (QI_same am); auto. apply plain_q; auto.
  - intros u [X | [X | X]]; try discriminate. eapply (g_noerr _ _ G); eauto.
  - intros u p [X | [X | X]]; try discriminate. eapply (g_nonil _ _ G); eauto.
Qed.

Lemma good_obtain_wait : forall m ms o r, todo s t = IObtain m ms :: l -> mtx s m = o :: r ->
  good (do_suspend (s_todo (s_mtx (log s (TTry t m)) m ((o :: r) ++ [t])) t (IWoken (WMutex m) :: l)) t ms).
Proof.
  intros m ms o r TD E. pose proof (x_tidy am s t _ _ G TD) as T. pose proof (tidy_rest _ _ T) as P. cbn in P.
  pose proof (x_chk am s t _ _ G TD) as C.
  destruct (step_suspend (ts s) t ms (g_sched _ _ G) CUR NF) as (S1 & S2 & S3 & S4 & S5).
  match goal with |- Sync_Proofs.good _ ?z => refine (good_step am s z t t _ G LT S1 (moved_weak _ _ _ _ (fun u X => or_introl X) S2) eq_refl S5 (fun _ => ex_intro _ _ (ex_intro _ _ eq_refl)) _ _ (T_woken (WMutex m) _ P) _ _ _ _ _ _ _ _ _) end.
  - congruence.
  - intros. exact S3.
  - intros n. exact (C n).
  - auto.
  - auto.
  - exact (x_acq am s t _ _ G TD).
  - cbn [trace s_todo do_suspend s_ts log s_mtx mtx todo ts].
    assert (HO : holds (trace s) t m = false).
    { pose proof (chk_hd _ _ _ _ _ (C m)) as X. cbn in X. rewrite obj_eqb_refl in X. apply X. }
    refine (MI_ext _ _ _ _ _ _ _ _ _ _ _ _ _ _ _ _ _ _ (MI_queue _ _ _ _ _ _ t m o r _ (g_mi _ _ G) E _ HO _ S3)).
    + auto.
    + auto.
    + intros u n. unfold upd, set2. destruct (Nat.eqb_spec u t); subst; auto. cbn [andb blb]. rewrite (obj_eqb_sym n m).
      destruct (obj_eqb m n); auto. now rewrite TD.
    + auto.
    + intros n. exact (tries_snoc (trace s) t m n).
    + auto.
    + intros n. now rewrite TD.
    + intros u n N B. apply (ev_other _ u n S2 N); auto.
  - cbn [trace s_todo do_suspend s_ts log s_mtx mtx todo ts cvs].
    apply (CI_plain am s t _ _ G TD); auto. intros u c W. apply (ev_other _ u c S2); auto.
    intros ->. rewrite TD in W. discriminate.
  - cbn [trace s_todo do_suspend s_ts log s_mtx mtx todo queue]. apply (QI_same am); auto.
  - intros u [X | X]; try discriminate. eapply (g_noerr _ _ G); eauto.
  - intros u p [X | X]; try discriminate. eapply (g_nonil _ _ G); eauto.
Qed.

Lemma good_woken : forall w, todo s t = IWoken w :: l -> no_timeout (trace (exec s t (IWoken w) l)) -> good (exec s t (IWoken w) l).
Proof.
  intros w TD NT. pose proof (x_tidy am s t _ _ G TD) as T. pose proof (tidy_rest _ _ T) as P. cbn in P.
  pose proof (x_chk am s t _ _ G TD) as C. pose proof (x_acq am s t _ _ G TD) as FA.
  assert (EV : ev (ts s) t = Some true).
  { destruct (g_ev _ _ G t w l TD) as [X | [X _]]; auto. exfalso. unfold ev in X. cbn [exec] in NT. rewrite X in NT.
    destruct w; cbn [trace s_todo log s_ts s_acq] in NT; [exact (NT _ (or_introl eq_refl)) | exact (NT _ (or_introl eq_refl))]. }
  destruct (sched_ev (ts s) t None (g_sched _ _ G)) as (S1 & S2 & S3 & S4 & S5 & S6 & S7).
  assert (EO : forall u, u <> t -> ev (set_att (ts s) t (attr_exit_val (att (th (ts s) t)) None)) u = ev (ts s) u).
  { intros u N. unfold ev, set_att. cbn. destruct (Nat.eqb_spec u t); [contradiction |]. unfold upd. destruct (Nat.eqb_spec u t); [contradiction | auto]. }
  set (ts' := set_att (ts s) t (attr_exit_val (att (th (ts s) t)) None)) in *.
  assert (NW : forall w0 r0, l <> IWoken w0 :: r0) by (intros w0 r0 ->; apply plain_hd in P; discriminate).
  cbn [exec]. unfold ev in EV. rewrite EV. fold ts'. destruct w as [m | c].
  - assert (A : forall n, chk n (set2 (holds (trace s)) t m true t n) l = true).
    { intros n. pose proof (chk_hd _ _ _ _ _ (C n)) as X. cbn in X. destruct (obj_eqb_spec m n) as [-> | N].
      - rewrite set2_same. apply X.
      - rewrite set2_other by auto. auto. }
    match goal with |- Sync_Proofs.good _ ?z => refine (good_step am s z t t l G LT S1 (moved_weak _ _ _ _ (fun u X => or_introl X) S2) eq_refl _ (fun X => nosusp _ (eq_trans (eq_sym S4) X)) _ _ (T_plain _ P) _ _ _ _ _ _ _ _ _) end.
    + intros _. cbn [s_todo log s_ts ts]. rewrite S5. apply EX.
    + congruence.
    + intros w0 r0 X. destruct (NW _ _ X).
    + intros n. cbn [trace s_todo log s_ts]. rewrite holds_got. apply A.
    + intros u n N. cbn [trace s_todo log s_ts]. rewrite holds_got. rewrite set2_other; auto.
    + auto.
    + exact FA.
    + cbn [trace s_todo log s_ts mtx todo ts].
      assert (B : blb (todo s t) m = true) by (rewrite TD; apply obj_eqb_refl).
      refine (MI_ext _ _ _ _ _ _ _ _ _ _ _ _ _ _ _ _ _ _ (MI_grant _ _ _ _ _ _ t m (ev ts') (g_mi _ _ G) B EV _ EO)).
      * auto.
      * intros u n. exact (holds_got (trace s) t m u n).
      * intros u n. unfold upd, set2. destruct (Nat.eqb_spec u t); subst; auto. rewrite plain_blb by auto. cbn [andb]. rewrite TD. cbn [blb].
        rewrite (obj_eqb_sym n m). destruct (obj_eqb m n); auto.
      * auto.
      * auto.
      * intros n. exact (gots_snoc (trace s) t m n).
      * intros n B'. eapply blb_one; eauto.
    + cbn [trace s_todo log s_ts mtx todo ts cvs]. apply (CI_plain am s t _ _ G TD); auto.
      intros u c W. apply EO. intros ->. rewrite TD in W. discriminate.
    + cbn [trace s_todo log s_ts mtx todo ts queue]. apply (QI_same am); auto. apply plain_q; auto.
    + intros u [X | X]; try discriminate. eapply (g_noerr _ _ G); eauto.
    + intros u p [X | X]; try discriminate. eapply (g_nonil _ _ G); eauto.
  - match goal with |- Sync_Proofs.good _ ?z => refine (good_step am s z t t l G LT S1 (moved_weak _ _ _ _ (fun u X => or_introl X) S2) eq_refl _ (fun X => nosusp _ (eq_trans (eq_sym S4) X)) _ _ (T_plain _ P) _ _ _ _ _ _ _ _ _) end.
    + intros _. cbn [s_todo log s_ts s_acq ts]. rewrite S5. apply EX.
    + congruence.
    + intros w0 r0 X. destruct (NW _ _ X).
    + intros n. exact (proj2 (chk_hd _ _ _ _ _ (C n))).
    + auto.
    + intros u N. cbn [acq s_todo log s_acq s_ts]. apply upd_other; auto.
    + cbn [acq s_todo log s_acq s_ts]. rewrite upd_same. exact FA.
    + cbn [trace s_todo log s_ts s_acq mtx todo ts]. apply (MI_same am); auto.
      * intros n. rewrite TD. apply plain_blb; auto.
      * intros u n B. apply EO. intros ->. rewrite TD in B. discriminate.
    + cbn [trace s_todo log s_ts s_acq cvs todo ts].
      assert (W : wtb (todo s t) c = true) by (rewrite TD; apply obj_eqb_refl).
      refine (CI_ext _ _ _ _ _ _ _ _ _ _ _ _ _ _ _ _ _ _ _ _ _ _ _ _ _ _ _ (CI_woken _ _ _ _ _ _ _ _ _ t c (ev ts') (g_ci _ _ G) W EV _ EO)).
      * auto.
      * intros u n. unfold upd. destruct (Nat.eqb_spec u t); subst; auto. rewrite TD. apply plain_iwb; auto.
      * intros u n. unfold upd, set2. destruct (Nat.eqb_spec u t); subst; auto. rewrite plain_wtb by auto. cbn [andb]. rewrite TD. cbn [wtb].
        rewrite (obj_eqb_sym n c). destruct (obj_eqb c n); auto.
      * intros u n x. unfold upd. destruct (Nat.eqb_spec u t); subst; [| tauto]. rewrite TD. apply plain_dqp; auto.
      * intros u n x. unfold upd. destruct (Nat.eqb_spec u t); subst; [| tauto]. rewrite TD. apply plain_clp; auto.
      * intros u n x. unfold upd. destruct (Nat.eqb_spec u t); subst; [| tauto]. rewrite TD. unfold wkp. cbn [In]. split; auto. intros [X | X]; [discriminate | auto].
      * auto.
      * auto.
      * auto.
      * intros d W'. eapply wtb_one; eauto.
    + cbn [trace s_todo log s_ts s_acq mtx todo ts queue]. apply (QI_same am); auto. apply plain_q; auto.
    + intros u [X | X]; try discriminate. eapply (g_noerr _ _ G); eauto.
    + intros u p [X | X]; try discriminate. eapply (g_nonil _ _ G); eauto.
Qed.

Lemma good_maybe : forall m, todo s t = IMaybe m :: l -> good (exec s t (IMaybe m) l).
Proof.
  intros m TD. pose proof (x_tidy am s t _ _ G TD) as T. pose proof (tidy_rest _ _ T) as P. cbn in P.
  pose proof (x_chk am s t _ _ G TD) as C. pose proof (x_acq am s t _ _ G TD) as FA. cbn [exec].
  assert (NW : forall w0 r0, l <> IWoken w0 :: r0) by (intros w0 r0 ->; apply plain_hd in P; discriminate).
  destruct (mtx s m) as [| o r] eqn:E.
  - assert (A : forall n, chk n (set2 (holds (trace s)) t m true t n) l = true).
    { intros n. pose proof (chk_hd _ _ _ _ _ (C n)) as X. cbn in X. destruct (obj_eqb_spec m n) as [-> | N].
      - rewrite set2_same. apply X.
      - rewrite set2_other by auto. auto. }
    match goal with |- Sync_Proofs.good _ ?z => refine (good_step am s z t t l G LT (g_sched _ _ G) (moved_refl _ _) eq_refl (fun _ => EX) (nosusp _) _ _ (T_plain _ P) _ _ _ _ _ _ _ _ _) end.
    + congruence.
    + intros w r X. destruct (NW _ _ X).
    + intros n. cbn [trace s_todo log s_mtx]. rewrite holds_maybe. apply A.
    + intros u n N. cbn [trace s_todo log s_mtx]. rewrite holds_maybe. rewrite set2_other; auto.
    + auto.
    + exact FA.
    + cbn [trace s_todo log s_mtx mtx todo ts].
      refine (MI_ext _ _ _ _ _ _ _ _ _ _ _ _ _ _ _ _ _ _ (MI_maybe _ _ _ _ _ _ t m (g_mi _ _ G) E _)); auto.
      * intros u n. exact (holds_maybe (trace s) t m u n).
      * intros u n. unfold upd. destruct (Nat.eqb_spec u t); subst; auto. rewrite TD. rewrite plain_blb; auto.
      * now rewrite TD.
    + cbn [trace s_todo log s_mtx cvs todo ts]. apply (CI_plain am s t _ _ G TD); auto.
    + cbn [trace s_todo log s_mtx queue todo]. apply (QI_same am); auto. apply plain_q; auto.
    + intros u [X | X]; try discriminate. eapply (g_noerr _ _ G); eauto.
    + intros u p [X | X]; try discriminate. eapply (g_nonil _ _ G); eauto.
  - match goal with |- Sync_Proofs.good _ ?z => refine (good_quiet am s z t _ _ l G LT (fun _ => EX) SU TD eq_refl _ eq_refl eq_refl _ _ _ _ NW (T_plain _ P) _ FA _ _ _ _) end; auto.
    + discriminate.
    + intros n. pose proof (chk_hd _ _ _ _ _ (C n)) as X. cbn in X. destruct (obj_eqb m n); tauto.
    + cbn [trace s_todo log cvs todo ts]. apply (CI_plain am s t _ _ G TD); auto.
    + cbn [trace s_todo log queue todo]. apply (QI_same am); auto. apply plain_q; auto.
    + intros u [X | X]; try discriminate. eapply (g_noerr _ _ G); eauto.
    + intros u p [X | X]; try discriminate. eapply (g_nonil _ _ G); eauto.
Qed.

(* what release-mutex does *)
Lemma rel_ts : forall m ws L', holds (trace s) t m = true -> mtx s m = t :: ws ->
  exists ts', do_release s t m L' = s_todo (s_ts (log (s_mtx s m ws) (TRel t m)) ts') t L' /\
   (failed ts' = false -> sched ts' /\ moved (fun u => hd_error ws = Some u) (ts s) ts' /\ current ts' t /\ exited (att (th ts' t)) = false /\ (susp (att (th ts' t)) = true -> susp (att (th (ts s) t)) = true) /\
     forall x, hd_error ws = Some x -> x <> t /\ (x < nth_ (ts s))%nat /\ ev ts' x = Some true /\ susp (att (th ts' x)) = false /\ exited (att (th ts' x)) = false /\ blb (todo s x) m = true).
Proof.
  intros m ws L' H E. unfold do_release. rewrite E, Nat.eqb_refl. destruct ws as [| x r].
  - exists (ts s). split; [reflexivity |]. intros _. split; [apply (g_sched _ _ G) |]. split; [apply moved_refl |]. split; [auto |]. split; [apply EX |]. split; [auto |]. intros x X. discriminate.
  - destruct (i_tail _ _ _ _ _ _ (g_mi _ _ G) m t (x :: r) x E (or_introl eq_refl)) as [B EV].
    pose proof (blb_todo _ _ B) as NT. pose proof (todo_lt am s x G NT) as LX.
    assert (SK : stack (ts s) <> []) by (destruct CUR as (r0 & l0 & E0 & _); congruence).
    pose proof (g_live _ _ G x SK NT) as EXX.
    assert (TP : threadp (ts s) x = true). { unfold threadp. rewrite EXX. destruct (Nat.ltb_spec x (nth_ (ts s))); [auto | lia]. }
    unfold do_wake. cbn [ts log s_mtx]. rewrite TP. exists (step (ts s) (EWake (Some x))). split; [reflexivity |].
    destruct (step_wake (ts s) x (g_sched _ _ G) TP NF) as (W1 & W2 & W3 & W4 & W5 & W6 & _ & W8). intros NF'.
    assert (NX : x <> t). { intros ->. pose proof (i_nodup _ _ _ _ _ _ (g_mi _ _ G) m) as ND. rewrite E in ND. inversion ND as [| ? ? NI _]. apply NI. left; auto. }
    split; [auto |]. split; [eapply moved_weak; [| exact W2]; intros u ->; reflexivity |].
    split. { destruct CUR as (r0 & l0 & E0 & A0). exists r0, l0. rewrite W5, W8. auto. }
    split. { destruct W2 as (_ & _ & M). destruct (M t LT) as (_ & _ & M'); [auto |]. rewrite M' by (rewrite W5; auto). apply EX. }
    split. { destruct W2 as (_ & _ & M). destruct (M t LT) as (_ & M' & _); auto. }
    intros y Y. injection Y as <-. repeat (split; [auto; fail |]). auto 10.
Qed.

Lemma rel_MI : forall m ws L' e', holds (trace s) t m = true -> mtx s m = t :: ws ->
  (forall n, blb (todo s t) n = false) -> (forall n, blb L' n = false) ->
  (forall u n, u <> t -> blb (todo s u) n = true -> hd_error ws <> Some u -> e' u = ev (ts s) u) ->
  (forall x, hd_error ws = Some x -> e' x = Some true /\ blb (todo s x) m = true) ->
  MI (oput (mtx s) m ws) (holds (TRel t m :: trace s)) (fun u => blb (upd (todo s) t L' u)) e' (tries (trace s)) (gots (trace s)).
Proof.
  intros m ws L' e' H E B1 B2 E1 E2.
  refine (MI_ext _ _ _ _ _ _ _ _ _ _ _ _ _ _ _ _ _ _ (MI_release _ _ _ _ _ _ t m ws e' (g_mi _ _ G) E H _ _)); auto.
  - intros. apply holds_rel.
  - intros u n. unfold upd. destruct (Nat.eqb_spec u t); subst; auto. rewrite B1. auto.
  - intros u n B NH. apply E1 with n; auto. intros ->. rewrite B1 in B. discriminate.
  - intros x X. destruct (E2 x X) as [Y Z]. split; auto. intros n B. eapply blb_one; eauto.
Qed.

Lemma rel_chk : forall m n L, (if obj_eqb m n then holds (trace s) t n = true /\ chk n false L = true else chk n (holds (trace s) t n) L = true) ->
  chk n (holds (TRel t m :: trace s) t n) L = true.
Proof.
  intros m n L X. rewrite holds_rel. destruct (obj_eqb_spec m n) as [-> | N].
  - rewrite set2_same. apply X.
  - rewrite set2_other by auto. auto.
Qed.

Lemma good_release : forall m, todo s t = IRelease m :: l -> failed (ts (exec s t (IRelease m) l)) = false -> good (exec s t (IRelease m) l).
Proof.
  intros m TD NF'. pose proof (x_tidy am s t _ _ G TD) as T. pose proof (tidy_rest _ _ T) as P. cbn in P.
  pose proof (x_chk am s t _ _ G TD) as C. pose proof (x_acq am s t _ _ G TD) as FA. cbn [exec] in *.
  assert (NW : forall w0 r0, l <> IWoken w0 :: r0) by (intros w0 r0 ->; apply plain_hd in P; discriminate).
  assert (H : holds (trace s) t m = true). { pose proof (chk_hd _ _ _ _ _ (C m)) as X. cbn in X. rewrite obj_eqb_refl in X. apply X. }
  destruct (i_ho _ _ _ _ _ _ (g_mi _ _ G) _ _ H) as [ws E].
  destruct (rel_ts m ws l H E) as (ts' & R & K). rewrite R in *. destruct (K NF') as (S1 & S2 & S3 & S4 & S6 & S5). clear K.
  assert (M2 : forall u n, blb (todo s u) n = true \/ wtb (todo s u) n = true -> hd_error ws <> Some u -> ev ts' u = ev (ts s) u).
  { intros u n B NH. destruct S2 as (_ & _ & M). apply M; auto. apply (todo_lt am); auto. destruct B as [B | B]; [eapply blb_todo | eapply wtb_todo]; eauto. }
  match goal with |- Sync_Proofs.good _ ?z => refine (good_step am s z t (hd t ws) l G LT S1 (moved_weak _ _ _ _ _ S2) eq_refl (fun _ => S4) (fun X => nosusp _ (S6 X)) _ _ (T_plain _ P) _ _ _ _ _ _ _ _ _) end.
  - intros u X. right. destruct ws; [discriminate |]. injection X as ->. auto.
  - destruct ws as [| x r]; [cbn; congruence |]. intros _. destruct (S5 x eq_refl) as (X1 & X2 & X3 & X4 & X5 & X6). cbn. auto.
  - intros w r X. destruct (NW _ _ X).
  - intros n. apply rel_chk. exact (chk_hd _ _ _ _ _ (C n)).
  - intros u n N. cbn [trace s_todo log s_mtx s_ts]. rewrite holds_rel, set2_other; auto.
  - auto.
  - exact FA.
  - cbn [trace s_todo log s_mtx s_ts mtx todo ts]. apply rel_MI; auto.
    + intros n. now rewrite TD.
    + intros n. apply plain_blb; auto.
    + intros u n _ B NH. apply (M2 u n); auto.
    + intros x X. destruct (S5 x X) as (X1 & X2 & X3 & X4 & X5 & X6). auto.
  - cbn [trace s_todo log s_mtx s_ts cvs todo ts]. apply (CI_plain am s t _ _ G TD); auto.
    intros u c W. apply (M2 u c); auto. intros X. destruct (S5 u X) as (X1 & X2 & X3 & X4 & X5 & X6). rewrite (blb_wtb _ _ c X6) in W. discriminate.
  - cbn [trace s_todo log s_mtx s_ts queue todo]. apply (QI_same am); auto. apply plain_q; auto.
  - intros u [X | X]; try discriminate. eapply (g_noerr _ _ G); eauto.
  - intros u p [X | X]; try discriminate. eapply (g_nonil _ _ G); eauto.
Qed.

Lemma good_wait : forall c m ms, todo s t = IWait c m ms :: l -> failed (ts (exec s t (IWait c m ms) l)) = false -> good (exec s t (IWait c m ms) l).
Proof.
  intros c m ms TD NF'. pose proof (x_tidy am s t _ _ G TD) as T. pose proof (tidy_rest _ _ T) as P. cbn in P.
  pose proof (x_chk am s t _ _ G TD) as C. pose proof (x_acq am s t _ _ G TD) as FA. cbn [exec] in *.
  assert (EM : m = amo c) by (apply (chk_hd _ _ _ _ _ (C m))).
  assert (H : holds (trace s) t m = true). { pose proof (chk_hd _ _ _ _ _ (C m)) as X. cbn in X. rewrite obj_eqb_refl in X. apply X. }
  destruct (i_ho _ _ _ _ _ _ (g_mi _ _ G) _ _ H) as [ws E].
  destruct (rel_ts m ws (IWoken (WCond c) :: l) H E) as (ts' & R & K). rewrite R in *.
  assert (TT : todo (s_todo (s_ts (log (s_mtx s m ws) (TRel t m)) ts') t (IWoken (WCond c) :: l)) t = IWoken (WCond c) :: l) by (cbn [s_todo todo]; apply upd_same).
  rewrite TT in *.
  assert (NF1 : failed ts' = false).
  { destruct (failed ts') eqn:F; auto. unfold do_suspend, step in NF'. cbn [ts s_todo s_ts] in NF'. rewrite F in NF'. cbv iota in NF'. rewrite F in NF'. discriminate. }
  destruct (K NF1) as (S1 & S2 & S3 & S4 & S6 & S5). clear K.
  destruct (step_suspend ts' t ms S1 S3 NF1) as (U1 & U2 & U3 & U4 & U5).
  set (ts'' := step ts' (ESuspend (Some t) ms)) in *.
  assert (MV : moved (fun u => u = t \/ u = hd t ws) (ts s) ts'').
  { eapply moved_trans; [| eapply moved_weak; [| exact U2]; intros u ->; auto].
    eapply moved_weak; [| exact S2]. intros u X. right. destruct ws; [discriminate |]. injection X as ->. auto. }
  assert (M2 : forall u n, u <> t -> blb (todo s u) n = true \/ wtb (todo s u) n = true -> hd_error ws <> Some u -> ev ts'' u = ev (ts s) u).
  { intros u n N B NH. destruct MV as (_ & _ & M). apply M; auto.
    - apply (todo_lt am); auto. destruct B as [B | B]; [eapply blb_todo | eapply wtb_todo]; eauto.
    - intros [X | X]; auto. destruct ws; [cbn in X; auto | cbn in *; congruence]. }
  assert (SX : forall x, hd_error ws = Some x -> x <> t /\ (x < nth_ (ts s))%nat /\ ev ts'' x = Some true /\ susp (att (th ts'' x)) = false /\ blb (todo s x) m = true /\
    (stack ts'' <> [] -> exited (att (th ts'' x)) = false)).
  { intros x X. destruct (S5 x X) as (X1 & X2 & X3 & X4 & X5 & X6). destruct U2 as (U21 & U22 & U23).
    assert (x < nth_ ts')%nat by (eapply Nat.lt_le_trans; [exact X2 | apply S2]). destruct (U23 x) as (Y1 & Y2 & Y3); auto.
    split; [auto |]. split; [auto |]. split; [congruence |]. split; [| split; [auto | intros Z; rewrite Y3; auto]].
    destruct (susp (att (th ts'' x))); auto. rewrite Y2 in X4; auto. }
  match goal with |- Sync_Proofs.good _ ?z => refine (good_step am s z t (hd t ws) (IWoken (WCond c) :: l) G LT U1 MV eq_refl U5 (fun _ => ex_intro _ _ (ex_intro _ _ eq_refl)) _ _ (T_woken (WCond c) _ P) _ _ _ _ _ _ _ _ _) end.
  - destruct ws as [| x r]; [cbn; congruence |]. intros _. destruct (SX x eq_refl) as (X1 & X2 & X3 & X4 & X5 & X6). cbn. auto.
  - intros w r X. exact U3.
  - intros n. cbn [trace s_todo log s_mtx s_ts do_suspend].
    pose proof (chk_hd _ _ _ _ _ (C n)) as X. cbn beta iota in X. destruct X as [_ X].
    assert (Y : chk n (holds (TRel t m :: trace s) t n) l = true) by (apply rel_chk; exact X).
    cbn [Sync_Proofs.chk]. rewrite Y, andb_true_r. rewrite <- EM. destruct (obj_eqb_spec m n) as [-> | N]; [| now rewrite andb_false_r].
    now rewrite holds_rel, set2_same.
  - intros u n N. cbn [trace s_todo log s_mtx s_ts do_suspend]. rewrite holds_rel, set2_other; auto.
  - auto.
  - exact FA.
  - cbn [trace s_todo log s_mtx s_ts mtx todo ts do_suspend]. apply rel_MI; auto.
    + intros n. now rewrite TD.
    + intros u n N B NH. apply (M2 u n); auto.
    + intros x X. destruct (SX x X) as (X1 & X2 & X3 & X4 & X5 & X6). auto.
  - cbn [trace s_todo log s_mtx s_ts cvs todo ts do_suspend].
    assert (I : iwb (todo s t) c = true) by (rewrite TD; apply obj_eqb_refl).
    refine (CI_ext _ _ _ _ _ _ _ _ _ _ _ _ _ _ _ _ _ _ _ _ _ _ _ _ _ _ _ (CI_sleep _ _ _ _ _ _ _ _ _ t c (ev ts'') (g_ci _ _ G) I _ _ _ U3)).
    + auto.
    + intros u n. unfold upd, set2. destruct (Nat.eqb_spec u t) as [-> | N0]; auto. rewrite TD. cbn [andb iwb]. rewrite (obj_eqb_sym n c). destruct (obj_eqb c n); auto.
    + intros u n. unfold upd, set2. destruct (Nat.eqb_spec u t) as [-> | N0]; auto. rewrite TD. cbn [andb wtb]. rewrite (obj_eqb_sym n c). destruct (obj_eqb c n); auto.
    + intros u n x. unfold upd. destruct (Nat.eqb_spec u t) as [-> | N0]; [| tauto]. rewrite TD. cbn. tauto.
    + intros u n x. unfold upd. destruct (Nat.eqb_spec u t) as [-> | N0]; [| tauto]. rewrite TD. cbn. tauto.
    + intros u n x. unfold upd. destruct (Nat.eqb_spec u t) as [-> | N0]; [| tauto]. rewrite TD. unfold wkp. cbn [In]. split; intros [X | X]; try discriminate; auto.
    + auto.
    + auto.
    + auto.
    + intros d X. rewrite TD in X. cbn in X. destruct (obj_eqb_spec c d); congruence.
    + intros d. now rewrite TD.
    + intros u d N W. apply (M2 u d); auto. intros X. destruct (SX u X) as (X1 & X2 & X3 & X4 & X5 & X6). rewrite (blb_wtb _ _ d X5) in W. discriminate.
  - cbn [trace s_todo log s_mtx s_ts queue todo do_suspend]. apply (QI_same am); auto.
  - intros u [X | X]; try discriminate. eapply (g_noerr _ _ G); eauto.
  - intros u p [X | X]; try discriminate. eapply (g_nonil _ _ G); eauto.
Qed.

Ltac quiet TD NW TI FA :=
  match goal with |- Sync_Proofs.good _ ?z =>
    match z with context [s_todo _ t ?L] => refine (good_quiet am s z t _ _ L G LT (fun _ => EX) SU TD eq_refl _ eq_refl eq_refl _ _ _ _ NW TI _ FA _ _ _ _) end
  end; auto; try discriminate.
Ltac errs := first [ intros u [X | X]; [discriminate |]; exact (g_noerr _ _ G u X) | intros u p0 [X | X]; [discriminate |]; exact (g_nonil _ _ G u p0 X)
  | exact (g_noerr _ _ G) | exact (g_nonil _ _ G) ].

Lemma good_push : forall c, todo s t = IPush c :: l -> good (exec s t (IPush c) l).
Proof.
  intros c TD. pose proof (x_tidy am s t _ _ G TD) as T. destruct (tidy_push _ _ T) as (m & ms & r & EL & P).
  pose proof (x_chk am s t _ _ G TD) as C. pose proof (x_acq am s t _ _ G TD) as FA.
  assert (H : holds (trace s) t (amo c) = true) by (apply (chk_hd _ _ _ _ _ (C (amo c))); auto).
  destruct (x_only am s t G c H) as (O1 & O2 & O3 & O4).
  destruct (CI_push _ _ _ _ _ _ _ _ _ t c (g_ci _ _ G)) as [K NI].
  - intros d. now rewrite TD.
  - intros d. now rewrite TD.
  - intros u x X. pose proof (O4 u x X) as Y. subst u. unfold wkp in X. rewrite TD in X. subst l. destruct X as [X | [X | X]]; try discriminate. exact (plain_wake _ _ _ P X).
  - intros u x X. pose proof (O3 u x X) as Y. subst u. rewrite TD in X. exact X.
  - cbn [exec]. cbn [cvs log].
    assert (EB : existsb (Nat.eqb t) (cvs s c) = false).
    { destruct (existsb (Nat.eqb t) (cvs s c)) eqn:EB; auto. apply existsb_exists in EB. destruct EB as (x & X1 & X2). apply Nat.eqb_eq in X2. subst x. contradiction. }
    rewrite EB. assert (NH : forall w0 r0, l <> IWoken w0 :: r0) by (intros; rewrite EL; discriminate).
    assert (TI : tidy l) by (rewrite EL; apply T_wait; auto). quiet TD NH TI FA.
    + intros n. exact (proj2 (chk_hd _ _ _ _ _ (C n))).
    + cbn [trace s_todo log s_cvs cvs todo ts].
      refine (CI_ext _ _ _ _ _ _ _ _ _ _ _ _ _ _ _ _ _ _ _ _ _ _ _ _ _ _ _ K); auto.
      * intros u n. unfold upd, set2. destruct (Nat.eqb_spec u t) as [-> | N]; auto. rewrite TD, EL. cbn [andb iwb]. rewrite (obj_eqb_sym n c). destruct (obj_eqb c n); auto.
      * intros u n. unfold upd. destruct (Nat.eqb_spec u t) as [-> | N]; auto. now rewrite TD, EL.
      * intros u n x. unfold upd. destruct (Nat.eqb_spec u t) as [-> | N]; [| tauto]. rewrite TD, EL. cbn. tauto.
      * intros u n x. unfold upd. destruct (Nat.eqb_spec u t) as [-> | N]; [| tauto]. rewrite TD, EL. cbn. tauto.
      * intros u n x. unfold upd. destruct (Nat.eqb_spec u t) as [-> | N]; [| tauto]. rewrite TD, EL. unfold wkp. cbn [In]. split; auto. intros [X | X]; [discriminate | auto].
      * intros n. exact (waits_snoc (trace s) t c n).
    + cbn [trace s_todo log s_cvs queue todo]. apply (QI_same am); auto. now rewrite EL.
    + errs.
    + errs.
Qed.

Lemma last_split : forall (x : nat) r, exists q, x :: r = q ++ [last (x :: r) x].
Proof. intros x r. exists (removelast (x :: r)). apply app_removelast_last. discriminate. Qed.

Lemma good_take : forall c, todo s t = ITake c :: l -> good (exec s t (ITake c) l).
Proof.
  intros c TD. pose proof (x_tidy am s t _ _ G TD) as T. pose proof (tidy_rest _ _ T) as P. cbn in P.
  pose proof (x_chk am s t _ _ G TD) as C. pose proof (x_acq am s t _ _ G TD) as FA.
  assert (NW : forall w0 r0, l <> IWoken w0 :: r0) by (intros w0 r0 ->; apply plain_hd in P; discriminate).
  cbn [exec]. destruct (cvs s c) as [| x r] eqn:E.
  - quiet TD NW (T_plain _ P) FA.
    + intros n. exact (proj2 (chk_hd _ _ _ _ _ (C n))).
    + apply (CI_plain am s t _ _ G TD); auto.
    + apply (QI_same am); auto. apply plain_q; auto.
    + errs.
    + errs.
  - destruct (last_split x r) as [q EQ]. set (y := last (x :: r) x) in *. cbv zeta.
    assert (H : holds (trace s) t (amo c) = true) by (apply (chk_hd _ _ _ _ _ (C (amo c))); auto).
    destruct (x_only am s t G c H) as (O1 & O2 & O3 & O4).
    assert (NH : forall w0 r0, IDelq c y :: IWake c y :: l <> IWoken w0 :: r0) by discriminate.
    quiet TD NH (T_delq c y l P) FA.
    + intros n. pose proof (chk_hd _ _ _ _ _ (C n)) as [X1 X2]. apply chk_intro1 with (c := c); [exact X1 | exact (C n) | right; left; eauto].
    + cbn [trace s_todo cvs todo ts].
      refine (CI_ext _ _ _ _ _ _ _ _ _ _ _ _ _ _ _ _ _ _ _ _ _ _ _ _ _ _ _ (CI_take _ _ _ _ _ _ _ _ _ t c y q (g_ci _ _ G) ltac:(rewrite E; exact EQ) _ _)); auto.
      * intros u n. unfold upd. destruct (Nat.eqb_spec u t) as [-> | N]; auto. now rewrite TD.
      * intros u n. unfold upd. destruct (Nat.eqb_spec u t) as [-> | N]; auto. now rewrite TD.
      * intros u n z. unfold upd. destruct (Nat.eqb_spec u t) as [-> | N]; [| tauto]. rewrite TD. cbn. intuition congruence.
      * intros u n z. unfold upd. destruct (Nat.eqb_spec u t) as [-> | N]; [| tauto]. rewrite TD. cbn. tauto.
      * intros u n z. unfold upd. destruct (Nat.eqb_spec u t) as [-> | N]; [| tauto]. rewrite TD. unfold wkp. cbn [In]. split.
        -- intros [X | [X | X]]; auto; [discriminate |]. injection X as -> ->. auto.
        -- intros [(_ & -> & ->) | [X | X]]; auto. discriminate.
      * intros u. destruct (iwb (todo s u) c) eqn:I; auto. pose proof (O1 u I). subst u. rewrite TD in I. discriminate.
      * intros z d X. rewrite TD in X. destruct X as [X | X]; [discriminate | exact (plain_wake _ _ _ P X)].
    + apply (QI_same am); auto.
    + errs.
    + errs.
Qed.

Lemma good_delq : forall c y, todo s t = IDelq c y :: l -> good (exec s t (IDelq c y) l).
Proof.
  intros c y TD. pose proof (x_tidy am s t _ _ G TD) as T. destruct (tidy_delq _ _ _ T) as (r & EL & P).
  pose proof (x_chk am s t _ _ G TD) as C. pose proof (x_acq am s t _ _ G TD) as FA.
  assert (H : holds (trace s) t (amo c) = true) by (apply (chk_hd _ _ _ _ _ (C (amo c))); auto).
  destruct (x_only am s t G c H) as (O1 & O2 & O3 & O4). cbn [exec].
  assert (NH : forall w0 r0, l <> IWoken w0 :: r0) by (intros; rewrite EL; discriminate).
  assert (TI : tidy l) by (rewrite EL; apply (T_wakes c y []); auto; constructor; auto; constructor).
  quiet TD NH TI FA.
  - intros n. exact (proj2 (chk_hd _ _ _ _ _ (C n))).
  - cbn [trace s_todo log s_cvs cvs todo ts].
    refine (CI_ext _ _ _ _ _ _ _ _ _ _ _ _ _ _ _ _ _ _ _ _ _ _ _ _ _ _ _ (CI_delq _ _ _ _ _ _ _ _ _ t c y (g_ci _ _ G) _ _ _ _ _)); auto.
    + intros u n. unfold upd. destruct (Nat.eqb_spec u t) as [-> | N]; auto. now rewrite TD, EL.
    + intros u n. unfold upd. destruct (Nat.eqb_spec u t) as [-> | N]; auto. now rewrite TD, EL.
    + intros u n z. unfold upd. destruct (Nat.eqb_spec u t) as [-> | N].
      * rewrite TD, EL. cbn. intuition congruence.
      * split; [| tauto]. intros X. split; auto. intros ->. apply N. eapply O2; eauto.
    + intros u n z. unfold upd. destruct (Nat.eqb_spec u t) as [-> | N]; [| tauto]. rewrite TD, EL. cbn. tauto.
    + intros u n z. unfold upd. destruct (Nat.eqb_spec u t) as [-> | N]; [| tauto]. rewrite TD. unfold wkp. cbn [In]. split; auto. intros [X | X]; auto. discriminate.
    + intros n. exact (chosen_snoc (trace s) t c y n).
    + rewrite TD. cbn. auto.
    + intros u z X. pose proof (O2 u z X). subst u. rewrite TD in X. cbn in X. split; auto. symmetry. apply X.
    + intros u z X. pose proof (O3 u z X). subst u. rewrite TD in X. exact X.
    + destruct (iwb (todo s y) c) eqn:I; auto. pose proof (O1 y I). subst y. rewrite TD in I. discriminate.
  - apply (QI_same am); auto. now rewrite EL.
  - errs.
  - errs.
Qed.

Lemma good_broad : forall c, todo s t = IBroad c :: l -> good (exec s t (IBroad c) l).
Proof.
  intros c TD. pose proof (x_tidy am s t _ _ G TD) as T. pose proof (tidy_rest _ _ T) as P. cbn in P.
  pose proof (x_chk am s t _ _ G TD) as C. pose proof (x_acq am s t _ _ G TD) as FA.
  assert (H : holds (trace s) t (amo c) = true) by (apply (chk_hd _ _ _ _ _ (C (amo c))); auto).
  destruct (x_only am s t G c H) as (O1 & O2 & O3 & O4). cbn [exec].
  assert (ND : NoDup (rev (cvs s c))) by (apply NoDup_rev; apply (j_nodup _ _ _ _ _ _ _ _ _ (g_ci _ _ G))).
  assert (FA' : facq (acq s t) (IClear c (rev (cvs s c)) :: map (IWake c) (rev (cvs s c)) ++ l) = true).
  { cbn [facq]. cbn [facq] in FA. induction (rev (cvs s c)); auto. cbn [map app facq]. apply IHl0. inversion ND; auto. }
  assert (NH : forall w0 r0, IClear c (rev (cvs s c)) :: map (IWake c) (rev (cvs s c)) ++ l <> IWoken w0 :: r0) by discriminate.
  quiet TD NH (T_clear c (rev (cvs s c)) l ND P) FA'.
  - intros n. pose proof (chk_hd _ _ _ _ _ (C n)) as [X1 X2]. apply chk_intro1 with (c := c); [exact X1 | | right; right; right; eauto].
    clear - X1 X2. induction (rev (cvs s c)) as [| z k IH]; auto. cbn [map app]. apply chk_intro1 with (c := c); [exact X1 | exact IH | right; right; left; eauto].
  - cbn [trace s_todo cvs todo ts].
    refine (CI_ext _ _ _ _ _ _ _ _ _ _ _ _ _ _ _ _ _ _ _ _ _ _ _ _ _ _ _ (CI_broad _ _ _ _ _ _ _ _ _ t c (g_ci _ _ G) _ _)); auto.
    + intros u n. unfold upd. destruct (Nat.eqb_spec u t) as [-> | N]; auto. now rewrite TD.
    + intros u n. unfold upd. destruct (Nat.eqb_spec u t) as [-> | N]; auto. now rewrite TD.
    + intros u n z. unfold upd. destruct (Nat.eqb_spec u t) as [-> | N]; [| tauto]. rewrite TD. cbn. tauto.
    + intros u n z. unfold upd. destruct (Nat.eqb_spec u t) as [-> | N]; [| tauto]. rewrite TD. cbn. intuition congruence.
    + intros u n z. unfold upd. destruct (Nat.eqb_spec u t) as [-> | N]; [| tauto]. rewrite TD. unfold wkp. cbn [In]. rewrite in_wakes by auto. rewrite <- in_rev. split.
      * intros [X | [-> X]]; [discriminate | auto].
      * intros [(_ & -> & X) | [X | X]]; auto; [discriminate | destruct (plain_wake _ _ _ P X)].
    + intros u. destruct (iwb (todo s u) c) eqn:I; auto. pose proof (O1 u I). subst u. rewrite TD in I. discriminate.
    + intros z d X. rewrite TD in X. destruct X as [X | X]; [discriminate | exact (plain_wake _ _ _ P X)].
  - apply (QI_same am); auto.
  - errs.
  - errs.
Qed.

Lemma good_clear : forall c k, todo s t = IClear c k :: l -> good (exec s t (IClear c k) l).
Proof.
  intros c k TD. pose proof (x_tidy am s t _ _ G TD) as T. destruct (tidy_clear _ _ _ T) as (r & EL & P & ND).
  pose proof (x_chk am s t _ _ G TD) as C. pose proof (x_acq am s t _ _ G TD) as FA.
  assert (H : holds (trace s) t (amo c) = true) by (apply (chk_hd _ _ _ _ _ (C (amo c))); auto).
  destruct (x_only am s t G c H) as (O1 & O2 & O3 & O4). cbn [exec].
  assert (NH : forall w0 r0, l <> IWoken w0 :: r0).
  { intros w0 r0 X. rewrite EL in X. destruct k; [cbn in X; subst r; apply plain_hd in P; discriminate | discriminate]. }
  assert (NL : (forall n, iwb l n = false) /\ (forall n, wtb l n = false) /\ (forall n z, dqp l n z <-> False) /\ (forall n z, clp l n z <-> False)).
  { rewrite EL. destruct k as [| z k]; [cbn [map app] | repeat split; auto].
    repeat split; intros; try tauto; rewrite ?plain_iwb, ?plain_wtb by auto; auto.
    - apply plain_dqp in H0; auto. - apply plain_clp in H0; auto. }
  destruct NL as (N1 & N2 & N3 & N4).
  assert (TI : tidy l) by (rewrite EL; apply tidy_wakes; auto).
  quiet TD NH TI FA.
  - intros n. exact (proj2 (chk_hd _ _ _ _ _ (C n))).
  - cbn [trace s_todo log s_cvs cvs todo ts].
    refine (CI_ext _ _ _ _ _ _ _ _ _ _ _ _ _ _ _ _ _ _ _ _ _ _ _ _ _ _ _ (CI_clear _ _ _ _ _ _ _ _ _ t c k (g_ci _ _ G) _ _ _)); auto.
    + intros u n. unfold upd. destruct (Nat.eqb_spec u t) as [-> | N]; auto. rewrite TD. apply N1.
    + intros u n. unfold upd. destruct (Nat.eqb_spec u t) as [-> | N]; auto. rewrite TD. apply N2.
    + intros u n z. unfold upd. destruct (Nat.eqb_spec u t) as [-> | N]; [| tauto]. rewrite TD. rewrite N3. cbn. tauto.
    + intros u n z. unfold upd. destruct (Nat.eqb_spec u t) as [-> | N].
      * rewrite TD, N4. cbn. intuition congruence.
      * split; [| tauto]. intros X. split; auto. intros ->. apply N. eapply O3; eauto.
    + intros u n z. unfold upd. destruct (Nat.eqb_spec u t) as [-> | N]; [| tauto]. rewrite TD. unfold wkp. cbn [In]. split; auto. intros [X | X]; auto. discriminate.
    + intros n. exact (chosen_app (trace s) t c k n).
    + rewrite TD. cbn. auto.
    + intros u. destruct (iwb (todo s u) c) eqn:I; auto. pose proof (O1 u I). subst u. rewrite TD in I. discriminate.
    + intros u z X. pose proof (O2 u z X). subst u. rewrite TD in X. exact X.
  - apply (QI_same am); auto. rewrite EL. destruct k; cbn; auto. apply plain_q; auto.
  - errs.
  - errs.
Qed.

Lemma good_wake : forall c x, todo s t = IWake c x :: l -> failed (ts (exec s t (IWake c x) l)) = false -> good (exec s t (IWake c x) l).
Proof.
  intros c x TD NF'. pose proof (x_tidy am s t _ _ G TD) as T. destruct (tidy_wake _ _ _ T) as (k & r & EL & P & ND).
  pose proof (x_chk am s t _ _ G TD) as C. pose proof (x_acq am s t _ _ G TD) as FA.
  assert (H : holds (trace s) t (amo c) = true) by (apply (chk_hd _ _ _ _ _ (C (amo c))); auto).
  destruct (x_only am s t G c H) as (O1 & O2 & O3 & O4). cbn [exec] in *.
  assert (NH : forall w0 r0, l <> IWoken w0 :: r0).
  { intros w0 r0 X. rewrite EL in X. destruct k; [cbn in X; subst r; apply plain_hd in P; discriminate | discriminate]. }
  assert (NL : (forall n, iwb l n = false) /\ (forall n, wtb l n = false) /\ (forall n z, dqp l n z <-> False) /\ (forall n z, clp l n z <-> False)).
  { rewrite EL. destruct k as [| z k]; [cbn [map app] | repeat split; auto].
    repeat split; intros; try tauto; rewrite ?plain_iwb, ?plain_wtb by auto; auto.
    - apply plain_dqp in H0; auto. - apply plain_clp in H0; auto. }
  destruct NL as (N1 & N2 & N3 & N4).
  assert (WK : wkp (todo s t) c x) by (rewrite TD; left; auto).
  destruct (j_wk _ _ _ _ _ _ _ _ _ (g_ci _ _ G) t c x WK) as [W1 W2].
  pose proof (wtb_todo _ _ W1) as NT. pose proof (todo_lt am s x G NT) as LX.
  assert (SK : stack (ts s) <> []) by (destruct CUR as (r0 & l0 & E0 & _); congruence).
  pose proof (g_live _ _ G x SK NT) as EXX.
  assert (TP : threadp (ts s) x = true). { unfold threadp. rewrite EXX. destruct (Nat.ltb_spec x (nth_ (ts s))); [auto | lia]. }
  unfold do_wake in *. rewrite TP in *.
  destruct (step_wake (ts s) x (g_sched _ _ G) TP NF) as (V1 & V2 & V3 & V4 & V5 & V6 & _ & V8).
  cbn [s_todo s_ts ts] in NF'. specialize (V6 NF'). set (ts' := step (ts s) (EWake (Some x))) in *.
  assert (NX : x <> t) by (intros ->; rewrite TD in W1; discriminate).
  assert (M2 : forall u, todo s u <> [] -> u <> x -> ev ts' u = ev (ts s) u).
  { intros u B N. destruct V2 as (_ & _ & M). apply M; auto. apply (todo_lt am); auto. }
  match goal with |- Sync_Proofs.good _ ?z => refine (good_step am s z t x l G LT V1 (moved_weak _ _ _ _ (fun u X => or_intror X) V2) eq_refl _ _ _ _ _ _ _ _ _ _ _ _ _ _) end.
  - intros _. destruct V2 as (_ & _ & M). destruct (M t LT) as (_ & _ & M'); auto. cbn [ts s_todo s_ts]. rewrite M' by (rewrite V5; auto). apply EX.
  - intros X. apply nosusp. destruct V2 as (_ & _ & M). destruct (M t LT) as (_ & M' & _); auto.
  - intros _. cbn [ts s_todo s_ts]. auto.
  - intros w0 r0 X. destruct (NH _ _ X).
  - rewrite EL. apply tidy_wakes; auto. inversion ND; auto.
  - intros n. exact (proj2 (chk_hd _ _ _ _ _ (C n))).
  - auto.
  - auto.
  - exact FA.
  - cbn [trace s_todo s_ts mtx todo ts]. apply (MI_same am); auto.
    + intros n. rewrite TD. rewrite EL. destruct k; cbn [map app]; [apply plain_blb; auto | auto].
    + intros u n B. apply M2; [eapply blb_todo; eauto |]. intros ->. rewrite (wtb_blb _ _ n W1) in B. discriminate.
  - cbn [trace s_todo s_ts cvs todo ts].
    refine (CI_ext _ _ _ _ _ _ _ _ _ _ _ _ _ _ _ _ _ _ _ _ _ _ _ _ _ _ _ (CI_wake _ _ _ _ _ _ _ _ _ t c x (ev ts') (g_ci _ _ G) WK _ _ _ _ _ V3)); auto.
    + intros u n. unfold upd. destruct (Nat.eqb_spec u t) as [-> | N]; auto. rewrite TD. apply N1.
    + intros u n. unfold upd. destruct (Nat.eqb_spec u t) as [-> | N]; auto. rewrite TD. apply N2.
    + intros u n z. unfold upd. destruct (Nat.eqb_spec u t) as [-> | N]; [| tauto]. rewrite TD, N3. cbn. tauto.
    + intros u n z. unfold upd. destruct (Nat.eqb_spec u t) as [-> | N]; [| tauto]. rewrite TD, N4. cbn. tauto.
    + intros u n z. unfold upd. destruct (Nat.eqb_spec u t) as [-> | N]; [| tauto]. rewrite TD. unfold wkp. cbn [In]. split.
      * intros X. split; auto. intros (_ & -> & ->). rewrite EL in X. apply in_wakes in X; auto. inversion ND. tauto.
      * intros [Y [X | X]]; auto. injection X as -> ->. tauto.
    + intros d W'. eapply wtb_one; eauto.
    + intros u X. exact (O4 u x X).
    + intros y X. rewrite TD in X. exact X.
    + intros y X. rewrite TD in X. exact X.
    + intros u d N W. apply M2; auto. eapply wtb_todo; eauto.
  - cbn [trace s_todo s_ts queue todo]. apply (QI_same am); auto. rewrite EL. destruct k; cbn; auto. apply plain_q; auto.
  - errs.
  - errs.
Qed.

(* message queues *)
Lemma QI_put : forall p q' L' se' fe', holds (trace s) t (Port p) = true ->
  se' p = fe' p ++ q' -> (forall n, n <> p -> se' n = sent (trace s) n /\ fe' n = fetched (trace s) n) ->
  plain L' -> QI (upd (queue s) p q') (upd (todo s) t L') se' fe'.
Proof.
  intros p q' L' se' fe' H E1 E2 P. destruct (g_qi _ _ G) as [Q1 Q2]. constructor.
  - intros n. destruct (Nat.eq_dec n p) as [-> | N]; [now rewrite upd_same |]. rewrite upd_other by auto. destruct (E2 n N) as [-> ->]. auto.
  - intros u. unfold upd at 1. destruct (Nat.eqb_spec u t) as [-> | N].
    + pose proof (plain_q _ P). destruct L' as [| j r]; auto. destruct j; auto; contradiction.
    + pose proof (Q2 u) as Q. pose proof (x_port am s t G u p H) as X. destruct (todo s u) as [| j r]; auto.
      destruct j; auto; (rewrite upd_other; [auto | intros ->; apply N; apply X; auto]).
Qed.

Lemma QI_hold : forall L', match L' with IEnq2 p _ q :: _ => q = queue s p | IDeq1 p :: _ => queue s p <> [] | IDeq2 p q :: _ => q = queue s p /\ q <> [] | _ => True end ->
  QI (queue s) (upd (todo s) t L') (sent (trace s)) (fetched (trace s)).
Proof.
  intros L' H. destruct (g_qi _ _ G) as [Q1 Q2]. constructor; auto. intros u. unfold upd. destruct (Nat.eqb u t); auto. apply Q2.
Qed.

Lemma good_enq1 : forall p v, todo s t = IEnq1 p v :: l -> good (exec s t (IEnq1 p v) l).
Proof.
  intros p v TD. pose proof (x_tidy am s t _ _ G TD) as T. pose proof (tidy_rest _ _ T) as P. cbn in P.
  pose proof (x_chk am s t _ _ G TD) as C. pose proof (x_acq am s t _ _ G TD) as FA. cbn [exec].
  assert (NH : forall w0 r0, IEnq2 p v (queue s p) :: l <> IWoken w0 :: r0) by discriminate.
  quiet TD NH (T_enq2 p v (queue s p) l P) FA.
  - apply (CI_plain am s t _ _ G TD); auto.
  - apply QI_hold. reflexivity.
  - errs.
  - errs.
Qed.

Lemma good_enq2 : forall p v q, todo s t = IEnq2 p v q :: l -> good (exec s t (IEnq2 p v q) l).
Proof.
  intros p v q TD. pose proof (x_tidy am s t _ _ G TD) as T. pose proof (tidy_rest _ _ T) as P. cbn in P.
  pose proof (x_chk am s t _ _ G TD) as C. pose proof (x_acq am s t _ _ G TD) as FA. cbn [exec].
  assert (NW : forall w0 r0, l <> IWoken w0 :: r0) by (intros w0 r0 ->; apply plain_hd in P; discriminate).
  assert (H : holds (trace s) t (Port p) = true) by (apply (chk_hd _ _ _ _ _ (C (Port p))); auto).
  destruct (g_qi _ _ G) as [Q1 Q2]. pose proof (Q2 t) as Q. rewrite TD in Q.
  quiet TD NW (T_plain _ P) FA.
  - intros n. exact (proj2 (chk_hd _ _ _ _ _ (C n))).
  - apply (CI_plain am s t _ _ G TD); auto.
  - cbn [trace s_todo log s_queue queue todo]. apply QI_put; auto.
    + cbn [sent fetched]. rewrite Nat.eqb_refl, Q1, Q, <- app_assoc. reflexivity.
    + intros n N. cbn [sent fetched]. destruct (Nat.eqb_spec p n); [congruence | auto].
  - errs.
  - errs.
Qed.

Lemma good_deq1 : forall p, todo s t = IDeq1 p :: l -> good (exec s t (IDeq1 p) l).
Proof.
  intros p TD. pose proof (x_tidy am s t _ _ G TD) as T. pose proof (tidy_rest _ _ T) as P. cbn in P.
  pose proof (x_chk am s t _ _ G TD) as C. pose proof (x_acq am s t _ _ G TD) as FA. cbn [exec].
  destruct (g_qi _ _ G) as [Q1 Q2]. pose proof (Q2 t) as Q. rewrite TD in Q.
  destruct (queue s p) as [| v q] eqn:E; [congruence |].
  assert (NH : forall w0 r0, IDeq2 p (v :: q) :: l <> IWoken w0 :: r0) by discriminate.
  quiet TD NH (T_deq2 p (v :: q) l P) FA.
  - apply (CI_plain am s t _ _ G TD); auto.
  - apply QI_hold. rewrite E. split; congruence.
  - errs.
  - errs.
Qed.

Lemma good_deq2 : forall p q, todo s t = IDeq2 p q :: l -> good (exec s t (IDeq2 p q) l).
Proof.
  intros p q TD. pose proof (x_tidy am s t _ _ G TD) as T. pose proof (tidy_rest _ _ T) as P. cbn in P.
  pose proof (x_chk am s t _ _ G TD) as C. pose proof (x_acq am s t _ _ G TD) as FA. cbn [exec].
  assert (NW : forall w0 r0, l <> IWoken w0 :: r0) by (intros w0 r0 ->; apply plain_hd in P; discriminate).
  assert (H : holds (trace s) t (Port p) = true) by (apply (chk_hd _ _ _ _ _ (C (Port p))); auto).
  destruct (g_qi _ _ G) as [Q1 Q2]. pose proof (Q2 t) as Q. rewrite TD in Q. destruct Q as [Q QN].
  destruct q as [| v q]; [congruence |].
  quiet TD NW (T_plain _ P) FA.
  - intros n. exact (proj2 (chk_hd _ _ _ _ _ (C n))).
  - apply (CI_plain am s t _ _ G TD); auto.
  - cbn [trace s_todo log s_queue queue todo]. apply QI_put; auto.
    + cbn [sent fetched hd_error tl]. rewrite Nat.eqb_refl, Q1, <- Q, <- app_assoc. reflexivity.
    + intros n N. cbn [sent fetched hd_error]. destruct (Nat.eqb_spec p n); [congruence | auto].
  - errs.
  - errs.
Qed.

Lemma good_fetch : forall p ms f, todo s t = IFetch p ms f :: l -> good (exec s t (IFetch p ms f) l).
Proof.
  intros p ms f TD. pose proof (x_tidy am s t _ _ G TD) as T. pose proof (tidy_rest _ _ T) as P. cbn in P.
  pose proof (x_chk am s t _ _ G TD) as C. pose proof (x_acq am s t _ _ G TD) as FA. cbn [exec].
  destruct (queue s p) as [| v q] eqn:E.
  - cbn [facq] in FA. apply andb_true_iff in FA. destruct FA as [F1 F2]. rewrite F1.
    assert (NH : forall w0 r0, [IPush (Port p); IWait (Port p) (Port p) ms; IObtain (Port p) None; IFetch p ms false] ++ l <> IWoken w0 :: r0) by discriminate.
    assert (P' : plain (IObtain (Port p) None :: IFetch p ms false :: l)) by (apply plain_cons; auto; apply plain_cons; auto).
    assert (FA' : facq (acq s t) ([IPush (Port p); IWait (Port p) (Port p) ms; IObtain (Port p) None; IFetch p ms false] ++ l) = true).
    { cbn [app facq]. rewrite (facq_true _ _ F2). reflexivity. }
    quiet TD NH (T_push (Port p) (Port p) ms _ P') FA'.
    + intros n. pose proof (chk_hd _ _ _ _ _ (C n)) as [X1 X2]. cbn [app Sync_Proofs.chk Sync_Proofs.amo]. rewrite obj_eqb_refl.
      destruct (obj_eqb_spec (Port p) n) as [<- | N]; cbn [andb].
      * rewrite (X1 eq_refl) in *. rewrite X2. reflexivity.
      * exact X2.
    + apply (CI_plain am s t _ _ G TD); auto.
    + apply QI_hold. cbn. auto.
    + errs.
    + errs.
  - assert (NH : forall w0 r0, IDeq1 p :: l <> IWoken w0 :: r0) by discriminate.
    assert (FA' : facq (acq s t) (IDeq1 p :: l) = true) by (cbn [facq] in *; apply andb_true_iff in FA; apply FA).
    quiet TD NH (T_deq1 p l P) FA'.
    + apply (CI_plain am s t _ _ G TD); auto.
    + apply QI_hold. rewrite E. discriminate.
    + errs.
    + errs.
Qed.

Lemma good_check : forall p, todo s t = ICheck p :: l -> good (exec s t (ICheck p) l).
Proof.
  intros p TD. pose proof (x_tidy am s t _ _ G TD) as T. pose proof (tidy_rest _ _ T) as P. cbn in P.
  pose proof (x_chk am s t _ _ G TD) as C. pose proof (x_acq am s t _ _ G TD) as FA. cbn [exec].
  assert (NW : forall w0 r0, l <> IWoken w0 :: r0) by (intros w0 r0 ->; apply plain_hd in P; discriminate).
  quiet TD NW (T_plain _ P) FA.
  - intros n. exact (proj2 (chk_hd _ _ _ _ _ (C n))).
  - apply (CI_plain am s t _ _ G TD); auto.
  - apply (QI_same am); auto. apply plain_q; auto.
  - errs.
  - errs.
Qed.

Lemma good_cleanup : todo s t = ICleanup :: l -> good (exec s t ICleanup l).
Proof.
  intros TD. pose proof (x_tidy am s t _ _ G TD) as T. pose proof (tidy_rest _ _ T) as P. cbn in P.
  pose proof (x_chk am s t _ _ G TD) as C. pose proof (x_acq am s t _ _ G TD) as FA. cbn [exec].
  assert (NW : forall w0 r0, l <> IWoken w0 :: r0) by (intros w0 r0 ->; apply plain_hd in P; discriminate).
  quiet TD NW (T_plain _ P) FA.
  - apply (CI_plain am s t _ _ G TD); auto.
  - apply (QI_same am); auto. apply plain_q; auto.
  - errs.
  - errs.
Qed.

Lemma good_exec : forall i, todo s t = i :: l -> failed (ts (exec s t i l)) = false -> no_timeout (trace (exec s t i l)) -> good (exec s t i l).
Proof.
  intros i TD F N. destruct i.
  - cbn [exec]. cbn [mtx log]. destruct (mtx s m) as [| o r] eqn:E; [eapply good_obtain_free | eapply good_obtain_wait]; eauto.
  - apply good_woken; auto.
  - apply good_maybe; auto.
  - apply good_release; auto.
  - apply good_push; auto.
  - apply good_wait; auto.
  - apply good_take; auto.
  - apply good_delq; auto.
  - apply good_wake; auto.
  - apply good_broad; auto.
  - apply good_clear; auto.
  - apply good_enq1; auto.
  - apply good_enq2; auto.
  - apply good_fetch; auto.
  - apply good_deq1; auto.
  - apply good_deq2; auto.
  - apply good_check; auto.
  - apply good_cleanup; auto.
Qed.
End Cases.
