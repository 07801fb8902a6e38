(* C20-C22: mutexes, condition variables and message ports. *)
From Coq Require Import ZArith List Bool Lia.
Import ListNotations.
From Verif Require Import Threads_Model Sync_Model Sync_Spec Sync_SchedProofs Sync_PartProofs Sync_Proofs Sync_RunProofs Sync_TraceProofs Sync_PortProofs.
Open Scope Z_scope.

Lemma calm_good : forall am es, calm am es -> good am (srun sinit es).
Proof. intros am es [[A F] N]. apply good_run; auto. apply good_init. Qed.
Lemma calm_live : forall am es, calm am es -> live (srun sinit es).
Proof. intros am es [[A F] N]. apply (live_run am); auto. apply good_init. apply live_init. Qed.
Lemma calm_trace : forall am es x o y, calm am es -> trace (srun sinit es) = x ++ o :: y -> allowed am y o.
Proof.
  intros am es x o y [[A F] N] E. refine (steps_split am _ x o y _ E). apply (steps_srun am es sinit); auto. apply good_init.
Qed.

(* Histories for the examples: calls with the number of steps they are given *)
Definition on (c : call) (n : nat) := SCall c :: repeat SGo n.
Ltac calmly := split; [split; [vm_compute; tauto | vm_compute; reflexivity] | unfold no_timeout; vm_compute; intros o I; repeat (destruct I as [<- | I]; [exact Logic.I |]); destruct I].

(* threads 1 and 2 queue for the mutex of thread 0; 0 queues again behind them *)
Definition ex_mutex := SMake :: SMake :: on (Obtain 0 None) 1 ++ [SYield] ++ on (Obtain 0 None) 1 ++ on (Obtain 0 None) 1 ++ on (Maybe 0) 1 ++
  on (Release 0) 1 ++ on (Maybe 0) 1 ++ on (Obtain 0 None) 1 ++ [SGo] ++ on (Release 0) 1.
(* threads 1 and 2 wait; 0 signals, broadcasts *)
Definition ex_cond := SMake :: SMake :: SYield :: on (Obtain 0 None) 1 ++ on (Wait 0 0 (Some 1000)) 2 ++ on (Obtain 0 None) 1 ++ on (Wait 0 0 (Some 1000)) 2 ++
  on (Obtain 0 None) 1 ++ on (Signal 0) 3 ++ on (Broadcast 0) 3 ++ on (Release 0) 1 ++ [SYield; SGo; SGo].
(* threads 1 and 2 fetch from a port to which 0 sends *)
Definition ex_port := [SMake; SMake; SYield] ++ on (Fetch 0 (Some 1000)) 4 ++ on (Fetch 0 (Some 1000)) 4 ++ on (Send 0 7) 8 ++ on (Waiting 0) 4 ++
  on (Send 0 8) 8 ++ [SYield] ++ repeat SGo 7.
Definition ex_sending := [SMake; SMake; SYield] ++ on (Fetch 0 (Some 1000)) 4 ++ on (Fetch 0 (Some 1000)) 4 ++ on (Send 0 7) 3.
Definition am0 : nat -> nat := fun _ => 0%nat.

Example mutex_calm : calm am0 ex_mutex.
Proof. calmly. Qed.
Example cond_calm : calm am0 ex_cond.
Proof. calmly. Qed.
Example port_calm : calm am0 ex_port.
Proof. calmly. Qed.
Example sending_calm : calm am0 ex_sending.
Proof. calmly. Qed.

(** * C20 *)

(* Partial: for disciplined programs in one dynamic root, as long as no thread-suspend in the
   library is left by its timeout; see the refuted forms below for the rest. *)
Theorem C20_exclusion_partial : forall am es t u m, calm am es ->
  holds (trace (srun sinit es)) t m = true -> holds (trace (srun sinit es)) u m = true -> t = u.
Proof. intros am es t u m C. apply (good_excl am). apply calm_good; auto. Qed.
Print Assumptions C20_exclusion_partial.

Theorem C20_obtain_partial : forall am es x t m r y, calm am es -> trace (srun sinit es) = x ++ TGot t m r :: y ->
  r = true /\ (forall u, holds y u m = false) /\ exists q, tries y m = gots y m ++ t :: q.
Proof. intros am es x t m r y C E. exact (calm_trace _ _ _ _ _ C E). Qed.
Print Assumptions C20_obtain_partial.

Theorem C20_maybe_partial : forall am es x t m r y, calm am es -> trace (srun sinit es) = x ++ TMaybe t m r :: y ->
  r = true <-> (forall u, holds y u m = false) /\ tries y m = gots y m.
Proof. intros am es x t m r y C E. exact (calm_trace _ _ _ _ _ C E). Qed.
Print Assumptions C20_maybe_partial.

Example C20_mutex_case : trace (srun sinit ex_mutex) =
  [TRel 1 (User 0); TGot 1 (User 0) true; TTry 0 (User 0); TMaybe 0 (User 0) false; TRel 0 (User 0); TMaybe 0 (User 0) false; TTry 2 (User 0);
   TTry 1 (User 0); TGot 0 (User 0) true; TTry 0 (User 0)].
Proof. reflexivity. Qed.

(* those inside obtain-mutex are those who called and have not got it, in that order *)
Theorem C20_queue_partial : forall am es m, calm am es -> let s := srun sinit es in
  exists q, tries (trace s) m = gots (trace s) m ++ q /\ NoDup q /\ forall t, In t q <-> blocked s t m.
Proof.
  intros am es m C s. pose proof (g_mi _ _ (calm_good _ _ C)) as M.
  exists (filter (fun t => blb (todo s t) m) (mtx s m)). split; [apply (i_fifo _ _ _ _ _ _ M) |]. split; [apply NoDup_filter; apply (i_nodup _ _ _ _ _ _ M) |].
  intros t. rewrite filter_In. assert (B : blb (todo s t) m = true <-> blocked s t m).
  { unfold blocked. destruct (todo s t) as [| i l]; cbn; [split; [discriminate | intros [l X]; discriminate] |].
    destruct i; try (split; [discriminate | intros [r X]; discriminate]). destruct w; [| split; [discriminate | intros [r X]; discriminate]].
    destruct (obj_eqb_spec m0 m); split; intros X; try discriminate; [subst; eauto | auto | destruct X as [r X]; congruence]. }
  rewrite B. split; [tauto |]. intros X. split; auto. apply B in X. apply (i_bl _ _ _ _ _ _ M) in X. apply X.
Qed.
Print Assumptions C20_queue_partial.

(* the mutex does not stay free while somebody waits for it: it is held, or the
   thread that has waited longest has been woken *)
Theorem C20_hand_over_partial : forall am es t m, calm am es -> let s := srun sinit es in blocked s t m ->
  (exists u, holds (trace s) u m = true) \/
  (exists u q, blocked s u m /\ released s u /\ tries (trace s) m = gots (trace s) m ++ u :: q).
Proof.
  intros am es t m C s [l B]. pose proof (calm_good _ _ C) as G. pose proof (g_mi _ _ G) as M.
  assert (B1 : blb (todo s t) m = true) by (rewrite B; apply obj_eqb_refl).
  destruct (i_bl _ _ _ _ _ _ M t m B1) as [I H]. fold s in I. destruct (mtx s m) as [| h ws] eqn:E; [destruct I |].
  destruct (i_head _ _ _ _ _ _ M m h ws E) as [X | [X Y]]; [left; eauto |]. right.
  pose proof (i_fifo _ _ _ _ _ _ M m) as F. fold s in F, X, Y. rewrite E in F. cbn [filter] in F. rewrite X in F.
  exists h. eexists. split; [| split; [| exact F]].
  - unfold blocked. destruct (todo s h) as [| [] r]; try discriminate. destruct w; [| discriminate]. cbn in X. destruct (obj_eqb_spec m0 m); [subst; eauto | discriminate].
  - destruct (todo s h) as [| [] r] eqn:TH; try discriminate. destruct (g_ev _ _ G h w r TH) as [Z | [Z1 Z2]]; [fold s in Z; congruence |]. split; auto.
Qed.
Print Assumptions C20_hand_over_partial.

Theorem C20_no_error_partial : forall am es t, calm am es -> ~ In (TError t) (trace (srun sinit es)).
Proof. intros am es t C. apply (g_noerr am). apply calm_good; auto. Qed.
Print Assumptions C20_no_error_partial.

(* obtain-mutex without a timeout gives up after a millisecond *)
Definition bad_obtain := SMake :: on (Obtain 0 None) 1 ++ [SYield] ++ on (Obtain 0 None) 1 ++ [STick 5000; SYield; SYield; SGo].
Theorem C20_no_timeout_refuted : exists am es, history am es /\ In (SCall (Obtain 0 None)) es /\ (forall ms m, ~ In (SCall (Obtain m (Some ms))) es) /\
  In (TGot 1 (User 0) false) (trace (srun sinit es)).
Proof.
  exists am0, bad_obtain. split; [split; vm_compute; tauto |]. split; [right; left; auto |]. split; [| vm_compute; tauto].
  intros ms m. cbn. intuition discriminate.
Qed.
Print Assumptions C20_no_timeout_refuted.

(* a thread whose obtain-mutex has timed out becomes the owner when the mutex is
   released: nobody holds it and nobody can get it *)
Theorem C20_timed_out_refuted : exists am es x y, history am es /\ let tr := trace (srun sinit es) in
  tr = TMaybe 0 (User 0) false :: x /\ x = TRel 0 (User 0) :: TGot 1 (User 0) false :: y /\ forall u, holds x u (User 0) = false.
Proof.
  exists am0, (bad_obtain ++ [SSleep 0] ++ on (Release 0) 1 ++ on (Maybe 0) 1). eexists. eexists. split; [split; vm_compute; tauto |].
  split; [vm_compute; reflexivity |]. split; [reflexivity |]. intros u. cbn. destruct u as [| u]; reflexivity.
Qed.
Print Assumptions C20_timed_out_refuted.

(* or, when that thread is in the run queue, release-mutex fails in an assertion *)
Theorem C20_abort_refuted : exists am es, along (disciplined am) sinit es /\ failed (ts (srun sinit (removelast es))) = false /\ failed (ts (srun sinit es)) = true.
Proof. exists am0, (bad_obtain ++ [SYield] ++ on (Release 0) 1). split; vm_compute; tauto. Qed.
Print Assumptions C20_abort_refuted.

(* two threads hold the same mutex: thread 1 times out for mutex 0 and then queues for
   mutex 1; thread 0 has both and releases mutex 0 *)
Definition bad_both := SMake :: on (Obtain 0 None) 1 ++ on (Obtain 1 None) 1 ++ [SYield] ++ on (Obtain 0 None) 1 ++ [STick 5000; SYield; SYield; SGo] ++
  on (Obtain 1 (Some 1000)) 1 ++ on (Release 0) 1 ++ [SYield; SGo].
Theorem C20_exclusion_refuted : exists am es m, history am es /\ holds (trace (srun sinit es)) 0 m = true /\ holds (trace (srun sinit es)) 1 m = true.
Proof. exists am0, bad_both, (User 1). split; [split; vm_compute; tauto |]. split; vm_compute; reflexivity. Qed.
Print Assumptions C20_exclusion_refuted.

(** * C21 *)

Theorem C21_signal_partial : forall am es x t c w y, calm am es -> trace (srun sinit es) = x ++ TSignal t c w :: y ->
  holds y t (mutex_of am c) = true /\ exists q, waits y c = chosen y c ++ w :: q.
Proof. intros am es x t c w y C E. exact (calm_trace _ _ _ _ _ C E). Qed.
Print Assumptions C21_signal_partial.

Theorem C21_broadcast_partial : forall am es x t c l y, calm am es -> trace (srun sinit es) = x ++ TBroad t c l :: y ->
  holds y t (mutex_of am c) = true /\ waits y c = chosen y c ++ l.
Proof. intros am es x t c l y C E. exact (calm_trace _ _ _ _ _ C E). Qed.
Print Assumptions C21_broadcast_partial.

Theorem C21_wait_end_partial : forall am es x t c r y, calm am es -> trace (srun sinit es) = x ++ TWaitEnd t c r :: y ->
  r = true /\ count_occ Nat.eq_dec (chosen y c) t = count_occ Nat.eq_dec (waits y c) t.
Proof. intros am es x t c r y C E. exact (calm_trace _ _ _ _ _ C E). Qed.
Print Assumptions C21_wait_end_partial.

(* nobody is forgotten: a waiting thread is still to be chosen, or it has been
   woken, or the thread that chose it is about to wake it *)
Theorem C21_waiting_partial : forall am es t c, calm am es -> let s := srun sinit es in stack (ts s) <> [] -> waiting s t c ->
  released s t \/ (exists q, waits (trace s) c = chosen (trace s) c ++ q /\ In t q) \/
  (exists u, In (IWake c t) (todo s u) /\ susp (att (th (ts s) u)) = false).
Proof.
  intros am es t c C s SK [l TD]. pose proof (calm_good _ _ C) as G. fold s in G.
  destruct (g_ev _ _ G t _ _ TD) as [X | X]; [right | left; exact X].
  assert (B : wtb (todo s t) c = true) by (rewrite TD; apply obj_eqb_refl).
  destruct (j_pend _ _ _ _ _ _ _ _ _ (g_ci _ _ G) t c B X) as [I | [u W]].
  - left. exists (rev (cvs s c)). split; [apply (j_fifo _ _ _ _ _ _ _ _ _ (g_ci _ _ G)) | now rewrite <- in_rev].
  - right. exists u. split; auto. unfold wkp in W. pose proof (g_tidy _ _ G u) as T. destruct (todo s u) as [| i r] eqn:TU; [destruct W |].
    apply (awake am s G SK u i r TU). intros w ->. apply tidy_rest in T. destruct W as [W | W]; [discriminate |]. apply T in W. discriminate.
Qed.
Print Assumptions C21_waiting_partial.

Example C21_case : trace (srun sinit ex_cond) =
  [TGot 1 (User 0) true; TTry 1 (User 0); TWaitEnd 1 (User 0) true; TRel 0 (User 0); TBroad 0 (User 0) [2%nat]; TSignal 0 (User 0) 1;
   TGot 0 (User 0) true; TTry 0 (User 0); TRel 2 (User 0); TPush 2 (User 0); TGot 2 (User 0) true; TTry 2 (User 0); TRel 1 (User 0);
   TPush 1 (User 0); TGot 1 (User 0) true; TTry 1 (User 0)].
Proof. reflexivity. Qed.
Example C21_waiting_case : let s := srun sinit (firstn 17 ex_cond) in calm am0 (firstn 17 ex_cond) /\ stack (ts s) <> [] /\ waiting s 1 (User 0) /\ waiting s 2 (User 0).
Proof. split; [calmly |]. split; [vm_compute; discriminate |]. split; eexists; vm_compute; reflexivity. Qed.

(* a wait that timed out leaves its thread in the list, and a later signal goes to that
   thread instead of the one that waits *)
Definition bad_signal := SMake :: SYield :: on (Obtain 0 None) 1 ++ on (Wait 0 0 (Some 1)) 2 ++ [STick 5000; SYield; SYield; SGo; SGo] ++ on (Release 0) 1 ++
  [SSleep 0; SMake; SYield] ++ on (Obtain 0 None) 1 ++ on (Wait 0 0 (Some 1000)) 2 ++ on (Obtain 0 None) 1 ++ on (Signal 0) 3.
Theorem C21_signal_refuted : exists am es y, history am es /\ let s := srun sinit es in trace s = TSignal 0 (User 0) 1 :: y /\
  in_wait y 1 (User 0) = false /\ in_wait y 2 (User 0) = true /\ todo s 0%nat = [] /\ susp (att (th (ts s) 2)) = true.
Proof. exists am0, bad_signal. eexists. split; [split; vm_compute; tauto |]. split; [vm_compute; reflexivity |]. vm_compute. auto. Qed.
Print Assumptions C21_signal_refuted.

(* that signal may end an obtain-mutex for a mutex which another thread holds *)
Definition bad_wake := SMake :: on (Obtain 1 None) 1 ++ [SYield] ++ on (Obtain 0 None) 1 ++ on (Wait 0 0 (Some 1)) 2 ++ [STick 5000; SYield; SYield; SGo; SGo] ++
  on (Release 0) 1 ++ on (Obtain 1 (Some 1000)) 1 ++ on (Obtain 0 None) 1 ++ on (Signal 0) 3 ++ [SYield; SGo].
Theorem C21_wakes_other_refuted : exists am es m y, history am es /\ trace (srun sinit es) = TGot 1 m true :: TSignal 0 (User 0) 1 :: y /\ holds y 0 m = true.
Proof. exists am0, bad_wake, (User 1). eexists. split; [split; vm_compute; tauto |]. split; vm_compute; reflexivity. Qed.
Print Assumptions C21_wakes_other_refuted.

(** * C22 *)

Theorem C22_order_partial : forall am es p, calm am es -> exists q, sent (trace (srun sinit es)) p = fetched (trace (srun sinit es)) p ++ q.
Proof. intros am es p C. eexists. apply (q_fifo _ _ _ _ (g_qi _ _ (calm_good _ _ C))). Qed.
Print Assumptions C22_order_partial.

Theorem C22_fetch_partial : forall am es x t p r y, calm am es -> trace (srun sinit es) = x ++ TFetched t p r :: y ->
  exists v q, r = Some v /\ sent y p = fetched y p ++ v :: q.
Proof. intros am es x t p r y C E. exact (calm_trace _ _ _ _ _ C E). Qed.
Print Assumptions C22_fetch_partial.

Theorem C22_any_partial : forall am es x t p r y, calm am es -> trace (srun sinit es) = x ++ TAny t p r :: y ->
  r = true <-> sent y p <> fetched y p.
Proof. intros am es x t p r y C E. exact (calm_trace _ _ _ _ _ C E). Qed.
Print Assumptions C22_any_partial.

(* no message is left in a port while those who could take it sleep: then some thread is
   in the middle of a call on that port and can run *)
Theorem C22_not_lost_partial : forall am es p t, calm am es -> let s := srun sinit es in stack (ts s) <> [] ->
  sent (trace s) p <> fetched (trace s) p -> waiting s t (Port p) -> ~ released s t -> exists u, busy s p u.
Proof.
  intros am es p t C s SK NE W NR. pose proof (calm_good _ _ C) as G. fold s in G. pose proof (calm_live _ _ C) as V. fold s in V.
  apply (no_lost am s p G V SK t NE W). destruct W as [l TD]. destruct (g_ev _ _ G t _ _ TD) as [X | X]; [auto | contradiction].
Qed.
Print Assumptions C22_not_lost_partial.

Example C22_case : trace (srun sinit ex_port) =
  [TRel 1 (Port 0); TFetched 1 0 (Some 7); TGot 1 (Port 0) true; TTry 1 (Port 0); TWaitEnd 1 (Port 0) true; TRel 0 (Port 0); TSignal 0 (Port 0) 2;
   TSent 0 0 8; TGot 0 (Port 0) true; TTry 0 (Port 0); TRel 0 (Port 0); TAny 0 0 true; TGot 0 (Port 0) true; TTry 0 (Port 0); TRel 0 (Port 0);
   TSignal 0 (Port 0) 1; TSent 0 0 7; TGot 0 (Port 0) true; TTry 0 (Port 0); TRel 2 (Port 0); TPush 2 (Port 0); TGot 2 (Port 0) true;
   TTry 2 (Port 0); TRel 1 (Port 0); TPush 1 (Port 0); TGot 1 (Port 0) true; TTry 1 (Port 0)].
Proof. reflexivity. Qed.
Example C22_not_lost_case : let s := srun sinit ex_sending in stack (ts s) <> [] /\ sent (trace s) 0 <> fetched (trace s) 0 /\ waiting s 1 (Port 0) /\ ~ released s 1.
Proof. split; [vm_compute; discriminate |]. split; [vm_compute; discriminate |]. split; [eexists; vm_compute; reflexivity |]. vm_compute. intros [X _]. discriminate. Qed.

(* message-fetch without a timeout returns nil after a millisecond *)
Theorem C22_no_timeout_refuted : exists am es, history am es /\ (forall p ms, ~ In (SCall (Fetch p (Some ms))) es) /\ In (TFetched 0 0 None) (trace (srun sinit es)).
Proof.
  exists am0, (on (Fetch 0 None) 10). split; [split; vm_compute; tauto |]. split; [| vm_compute; tauto]. intros p ms. cbn. intuition discriminate.
Qed.
Print Assumptions C22_no_timeout_refuted.

(* and the message-send that comes after fails in an assertion *)
Theorem C22_abort_refuted : exists am es, along (disciplined am) sinit es /\ failed (ts (srun sinit (removelast es))) = false /\ failed (ts (srun sinit es)) = true /\
  forall c, In (SCall c) es -> c = Fetch 0 None \/ c = Send 0 7.
Proof.
  exists am0, (on (Fetch 0 None) 10 ++ [SMake; SYield] ++ on (Send 0 7) 6). split; [vm_compute; tauto |]. split; [vm_compute; reflexivity |]. split; [vm_compute; reflexivity |].
  intros c. cbn. intuition congruence.
Qed.
Print Assumptions C22_abort_refuted.
