(* Schedules, histories and counting. *)
From Coq Require Import ZArith List Bool Lia ZifyBool Sorting.Sorted Permutation.
From Verif Require Import Timers_Model Timers_Spec Timers_Proofs Timers_InvProofs.
Import ListNotations.
Open Scope Z_scope.

Lemma no_assert : forall s, reachable s -> failed s = false.
Proof. intros s R. destruct (reachable_inv s R) as (F & U & [] & _). assumption. Qed.

(* A state in which nothing is going on *)
Record calm (s : st) (U : list nat) : Prop := mkCalm {
  kinv : inv s [] U;
  kpend : pending s = false;
  kpipe : pipe s = 0%nat;
  kready : ready s = []
}.

Lemma calm_reach : forall s, reachable s -> quiet s -> exists U, calm s U.
Proof.
  intros s R Q. destruct (quiet_inv s R Q) as (U & V & NP). destruct Q as [Q1 Q2]. exists U. now constructor.
Qed.

Lemma calm_chain : forall s U, calm s U -> chain s = U.
Proof. intros s U [V _ _ _]. now destruct V. Qed.

Lemma calm_armed : forall s h r, calm s (h :: r) ->
  caught s = true /\ exists x, itimer s = Some x /\ 0 < x <= rel (tms s h) /\ elapsed s = rel (tms s h) - x.
Proof.
  intros s h r K. destruct K. destruct kinv0. destruct (iarm eq_refl h r eq_refl) as [C [P|(x & X & L)]]; [congruence|].
  split; [exact C|]. exists x. split; [exact X|]. specialize (itim x X). split; [lia|].
  unfold elapsed. cbn [app] in ic. now rewrite ic, X.
Qed.

Lemma elapsed_nonneg : forall s U, calm s U -> 0 <= elapsed s.
Proof.
  intros s [|h r] K; [unfold elapsed; rewrite (calm_chain _ _ K); lia|].
  destruct (calm_armed s h r K) as (_ & x & _ & L & ->). lia.
Qed.

(** * One expiry, handled at once *)

Lemma sums_app_zeros : forall a b t, zeros a -> sums t (a ++ b) = map (fun p => (fst p, t)) a ++ sums t b.
Proof.
  induction a as [|[j d] r IH]; intros b t Z; [reflexivity|]. apply Forall_cons_iff in Z. destruct Z as [E Z]. cbn [snd] in E. subst d.
  cbn [app sums map fst]. rewrite Z.add_0_r, IH by exact Z. reflexivity.
Qed.

Lemma call_all_ok : forall l s, ready s = l -> (forall i, In i l -> deleted (tms s i) = false) ->
  let s' := call_all (length l) s in
  calls s' = calls s ++ map (fun i => (i, now s)) l /\ ready s' = [] /\ tms s' = tms s /\ chain s' = chain s /\
  itimer s' = itimer s /\ caught s' = caught s /\ pending s' = pending s /\ pipe s' = pipe s /\ now s' = now s /\
  fresh s' = fresh s /\ failed s' = failed s.
Proof.
  induction l as [|i r IH]; intros s E D; cbn [length call_all].
  - rewrite app_nil_r. auto 20.
  - rewrite E. unfold call_next. rewrite E. cbn [tms with_ready]. rewrite (D i) by now left.
    set (s1 := with_call _ _). specialize (IH s1 eq_refl). cbn zeta in IH.
    destruct IH as (A1 & A2 & A3 & A4 & A5 & A6 & A7 & A8 & A9 & A10 & A11); [intros j J; apply D; now right|].
    rewrite A1, A2, A3, A4, A5, A6, A7, A8, A9, A10, A11. cbn. rewrite <- app_assoc. auto 20.
Qed.

Lemma fire : forall s h r x, calm s (h :: r) -> itimer s = Some x ->
  let s1 := step (step s (ETick x)) EHandle in
  let s2 := call_all (length (ready s1)) s1 in
  exists B U1, h :: r = B ++ U1 /\ B <> [] /\ calm s2 U1 /\ now s2 = now s + x /\ elapsed s2 = 0 /\
    calls s2 = calls s ++ map (fun i => (i, now s + x)) B /\
    sched s = map (fun i => (i, now s + x)) B ++ sched s2 /\
    fresh s2 = fresh s /\ (forall j, secs (tms s2 j) = secs (tms s j) /\ msecs (tms s2 j) = msecs (tms s j)).
Proof.
  intros s h r x K X. cbv zeta.
  destruct (calm_armed s h r K) as (Ca & x' & X' & L & EL). rewrite X in X'. injection X' as <-.
  assert (C := calm_chain _ _ K).
  (* the signal *)
  set (s0 := with_now (with_alarm s None (caught s) (pending s)) (now s + x)).
  assert (P0 : step s (ETick x) = timer_signal_handler s0).
  { cbn [step]. unfold pass. rewrite X. replace (x <? x) with false by lia. fold s0. cbn [caught s0 with_now with_alarm]. now rewrite Ca. }
  rewrite P0.
  destruct K as [V NP PI RD].
  assert (V0 : inv (with_now s (now s + x)) [] (h :: r)).
  { destruct V. constructor; cbn; assumption. }
  destruct (handler_inv _ [] (h :: r) V0) as (B & U1 & EU & W & HB & _ & NE & ED & PH & H1 & H2 & H3 & H4 & H5 & H6 & H7 & H8);
    [cbn; rewrite C; discriminate|exact NP|].
  destruct (HB eq_refl h r eq_refl) as (B' & EB & ZB).
  set (sa := timer_signal_handler (with_now s (now s + x))) in *.
  assert (Es : timer_signal_handler s0 = with_alarm sa None (caught sa) (pending sa)).
  { unfold sa, s0, timer_signal_handler. cbn [chain with_now with_alarm tms pipe]. now rewrite C. }
  rewrite Es. cbn [app] in W.
  assert (NPa : pending sa = false).
  { unfold sa, timer_signal_handler. cbn [chain with_now]. rewrite C. exact NP. }
  set (sb := with_alarm sa None (caught sa) (pending sa)).
  assert (Wb : inv sb B U1).
  { destruct W. constructor; cbn; try assumption.
    - intros Q. exfalso. apply NE. exact Q.
    - discriminate. }
  assert (Sb : step sb EHandle = fd_handler sb).
  { cbn [step]. replace (pipe sb) with 1%nat; [|cbn; rewrite H6; cbn; now rewrite PI].
    replace (ready sb) with (@nil nat); [reflexivity|]. cbn. rewrite H5. cbn. now rewrite RD. }
  rewrite Sb.
  destruct (fd_handler_inv sb B U1 Wb NPa) as [Wc NPc].
  assert (Ef := fd_handler_eq sb B U1 Wb).
  set (sc := fd_handler sb) in *.
  set (sd := with_ready (with_pipe sb (pred (pipe sb))) U1 B) in *.
  destruct (setup_fields sd) as (E1 & E2 & E3 & E4 & E5 & E6 & E7 & E8). rewrite <- Ef in *.
  assert (RC : ready sc = B) by (rewrite E5; reflexivity).
  rewrite RC.
  destruct (call_all_ok B sc RC) as (A1 & A2 & A3 & A4 & A5 & A6 & A7 & A8 & A9 & A10 & A11).
  { intros i I. rewrite E1. cbn. apply (idel _ _ _ Wb). rewrite (ic _ _ _ Wb). apply in_or_app. now left. }
  set (s2 := call_all (length B) sc) in *.
  assert (N2 : now s2 = now s + x). { rewrite A9, E6. cbn. rewrite H3. reflexivity. }
  assert (V2 : inv s2 [] U1).
  { destruct Wc. constructor; rewrite ?A2, ?A3, ?A4, ?A5, ?A6, ?A7, ?A8, ?A10, ?A11; try assumption. intros i []. }
  assert (T2 : tms s2 = tms sa) by (rewrite A3, E1; reflexivity).
  assert (EL2 : elapsed s2 = 0).
  { unfold elapsed. rewrite (ic _ _ _ V2). cbn [app]. destruct U1 as [|h1 r1]; [reflexivity|].
    rewrite A5, Ef. rewrite (setup_armed sd h1 r1); [cbn; rewrite T2; lia|reflexivity| |].
    - cbn. apply (inorm _ _ _ W). rewrite (ic _ _ _ W). apply in_or_app. right. now left.
    - pose proof (ihd _ _ _ W) as Q. cbn in Q. exact Q. }
  exists B, U1. split; [exact EU|]. split; [exact NE|]. split; [|split; [exact N2|split; [exact EL2|split; [|split; [|split]]]]].
  - constructor; [exact V2|rewrite A7; exact NPc|rewrite A8, E4; cbn; rewrite H6; cbn; now rewrite PI|exact A2].
  - rewrite A1, E7. cbn. rewrite H4. cbn. f_equal. rewrite E6. cbn. rewrite H3. reflexivity.
  - unfold sched. rewrite EL2, N2, C, EU. rewrite EB. cbn [app deltas map sums].
    rewrite EL. replace (now s - (rel (tms s h) - x) + rel (tms s h)) with (now s + x) by lia.
    f_equal. rewrite map_app.
    rewrite sums_app_zeros by exact ZB. rewrite map_map. cbn [fst]. f_equal.
    rewrite (ic _ _ _ V2). cbn [app]. rewrite Z.sub_0_r, T2. f_equal. symmetry. exact ED.
  - rewrite A10, E2. cbn. exact H1.
  - intros j. rewrite T2. destruct (H7 j) as (_ & Q1 & Q2). split; [exact Q1|exact Q2].
Qed.

(** * Waiting *)

Lemma wait_short : forall s U dt, calm s U -> 0 <= dt -> (forall x, itimer s = Some x -> dt < x) ->
  let s' := step s (ETick dt) in
  calm s' U /\ now s' = now s + dt /\ calls s' = calls s /\ sched s' = sched s /\ tms s' = tms s /\ fresh s' = fresh s /\
  (U <> [] -> elapsed s' = elapsed s + dt).
Proof.
  intros s U dt K P L. cbn [step]. assert (V := kinv _ _ K). assert (W := pass_blocked_inv s [] U dt V P).
  assert (E : pass s dt false = pass s dt true).
  { unfold pass. destruct (itimer s) as [x|]; [|reflexivity]. specialize (L x eq_refl). now replace (dt <? x) with true by lia. }
  cbn zeta. rewrite E. clear E.
  assert (C := calm_chain _ _ K). destruct K.
  unfold pass in *. destruct (itimer s) as [x|] eqn:EI.
  - specialize (L x eq_refl). replace (dt <? x) with true in * by lia.
    split; [constructor; cbn; assumption|]. cbn. do 2 (split; [reflexivity|]).
    split; [|split; [reflexivity|split; [reflexivity|]]].
    + unfold sched, elapsed. cbn. rewrite EI. destruct (chain s) as [|h r]; [reflexivity|]. f_equal. lia.
    + intros N. unfold elapsed. cbn. rewrite C, EI. destruct U as [|h r]; [contradiction|]. lia.
  - assert (HU : U = []).
    { destruct U as [|h r]; [reflexivity|]. destruct (calm_armed s h r) as (_ & x & X & _); [constructor; assumption|congruence]. }
    rewrite HU in *. split; [constructor; cbn; assumption|]. cbn. do 2 (split; [reflexivity|]).
    split; [|split; [reflexivity|split; [reflexivity|contradiction]]].
    unfold sched. cbn. now rewrite C.
Qed.

Lemma filter_all : forall {A} (P : A -> bool) l, (forall x, In x l -> P x = true) -> filter P l = l.
Proof. induction l as [|x l IH]; intros H; cbn; [reflexivity|]. rewrite H by now left. f_equal. apply IH. intros; apply H; now right. Qed.
Lemma filter_none : forall {A} (P : A -> bool) l, (forall x, In x l -> P x = false) -> filter P l = [].
Proof. induction l as [|x l IH]; intros H; cbn; [reflexivity|]. rewrite H by now left. apply IH. intros; apply H; now right. Qed.

Lemma nonneg_chain : forall s F U, inv s F U -> nonneg (deltas (tms s) (chain s)).
Proof. intros s F U V. apply nonneg_deltas. now destruct V. Qed.

Lemma sched_first : forall s h r x, calm s (h :: r) -> itimer s = Some x -> forall p, In p (sched s) -> now s + x <= snd p.
Proof.
  intros s h r x K X p I. destruct (calm_armed s h r K) as (_ & x' & X' & L & E). rewrite X in X'. injection X' as <-.
  assert (C := calm_chain _ _ K). unfold sched in I. rewrite C in I. cbn [deltas map sums] in I. rewrite E in I.
  assert (N := nonneg_chain _ _ _ (kinv _ _ K)). rewrite C in N. apply Forall_cons_iff in N. destruct N as [_ N].
  destruct I as [<-|I]; cbn [snd]; [lia|]. apply sums_ge in I; [lia|exact N].
Qed.

Lemma idle_ok : forall n U s limit fuel, (length U <= n)%nat -> calm s U -> now s <= limit ->
  (n + 2 <= fuel)%nat ->
  exists s' U', s' = idle fuel s limit /\ calm s' U' /\ now s' = limit /\
    calls s' = calls s ++ filter (due limit) (sched s) /\
    sched s' = filter (later limit) (sched s) /\ fresh s' = fresh s /\
    (forall j, secs (tms s' j) = secs (tms s j) /\ msecs (tms s' j) = msecs (tms s j)) /\
    (In limit (map snd (sched s)) -> elapsed s' = 0) /\
    (limit = now s -> elapsed s = 0 -> elapsed s' = 0).
Proof.
  induction n as [|n IH]; intros U s limit fuel LU K NL FU.
  - destruct U as [|? ?]; [|cbn in LU; lia]. assert (C := calm_chain _ _ K).
    assert (SE : forall q, chain q = [] -> sched q = []) by (intros q Q; unfold sched; now rewrite Q).
    assert (EE : forall q, chain q = [] -> elapsed q = 0) by (intros q Q; unfold elapsed; now rewrite Q).
    destruct fuel as [|fuel]; [cbn in FU; lia|]. cbn [idle].
    assert (CaF : caught s = false). { destruct K. destruct kinv0. auto. }
    destruct (itimer s) as [x|] eqn:EI.
    + destruct (Z.leb_spec (now s + x) limit) as [Q|Q].
      * assert (X0 : 0 < x) by (destruct K; destruct kinv0; auto).
        set (s1 := step s (ETick x)).
        assert (E1 : s1 = with_now (with_alarm s None (caught s) (pending s)) (now s + x)).
        { unfold s1. cbn [step]. unfold pass. rewrite EI. replace (x <? x) with false by lia.
          cbn [caught with_now with_alarm]. now rewrite CaF. }
        assert (K1 : calm s1 []).
        { destruct K. rewrite E1. constructor; cbn; try assumption. destruct kinv0. constructor; cbn; try assumption; try discriminate. }
        assert (E2 : step s1 EHandle = s1) by (cbn [step]; rewrite (kpipe _ _ K1); reflexivity).
        rewrite E2. rewrite (kready _ _ K1). cbn [length call_all].
        destruct fuel as [|fuel]; [cbn in FU; lia|]. cbn [idle].
        replace (itimer s1) with (@None Z) by (rewrite E1; reflexivity).
        assert (N1 : now s1 = now s + x) by (rewrite E1; reflexivity).
        destruct (wait_short s1 [] (limit - now s1) K1) as (W1 & W2 & W3 & W4 & W5 & W6 & _); [lia|rewrite E1; discriminate|].
        eexists. exists []. split; [reflexivity|]. split; [exact W1|]. split; [lia|].
        rewrite W3, W4, W5, W6, (EE _ (calm_chain _ _ W1)), (SE s1 (calm_chain _ _ K1)), (SE s C), E1. cbn. rewrite app_nil_r. auto 10.
      * destruct (wait_short s [] (limit - now s) K) as (W1 & W2 & W3 & W4 & W5 & W6 & _); [lia|intros y Y; rewrite EI in Y; injection Y as <-; lia|].
        eexists. exists []. split; [reflexivity|]. split; [exact W1|]. split; [lia|].
        rewrite W3, W4, W5, W6, (EE _ (calm_chain _ _ W1)), (SE s C). cbn. rewrite app_nil_r. auto 10.
    + destruct (wait_short s [] (limit - now s) K) as (W1 & W2 & W3 & W4 & W5 & W6 & _); [lia|rewrite EI; discriminate|].
      eexists. exists []. split; [reflexivity|]. split; [exact W1|]. split; [lia|].
      rewrite W3, W4, W5, W6, (EE _ (calm_chain _ _ W1)), (SE s C). cbn. rewrite app_nil_r. auto 10.
  - destruct U as [|h r].
    { apply (IH [] s limit fuel); [cbn; lia|exact K|exact NL|cbn in *; lia]. }
    destruct (calm_armed s h r K) as (_ & x & X & L & E).
    destruct fuel as [|fuel]; [cbn in FU; lia|]. cbn [idle]. rewrite X.
    destruct (Z.leb_spec (now s + x) limit) as [Q|Q].
    + destruct (fire s h r x K X) as (B & U1 & EB & NE & K2 & N2 & EL2 & C2 & S2 & F2 & P2).
      cbn zeta in *. set (s2 := call_all _ _) in *. clearbody s2.
      assert (LL : (length U1 <= n)%nat).
      { destruct B as [|b B]; [contradiction|]. cbn in EB. injection EB as _ EB.
        cbn in LU. rewrite EB, app_length in LU. lia. }
      assert (BN : B <> []) by exact NE.
      assert (Later : forall p, In p (sched s2) -> now s + x < snd p).
      { intros p Pp. rewrite <- N2. destruct U1 as [|h1 r1]; [unfold sched in Pp; rewrite (calm_chain _ _ K2) in Pp; destruct Pp|].
        destruct (calm_armed s2 h1 r1 K2) as (_ & x1 & X1 & L1 & _).
        apply (sched_first s2 h1 r1 x1 K2 X1) in Pp. lia. }
      destruct (IH U1 s2 limit fuel LL K2) as (s' & U' & E' & K' & N' & C' & S' & F' & P' & T1 & T2); [lia|lia|].
      exists s', U'. split; [exact E'|]. split; [exact K'|]. split; [exact N'|].
      assert (DB : forall p, In p (map (fun i => (i, now s + x)) B) -> due limit p = true).
      { intros p Pp. apply in_map_iff in Pp. destruct Pp as (j & <- & _). unfold due. cbn. lia. }
      split; [|split; [|split; [|split; [|split]]]].
      * rewrite C', C2, S2, filter_app, (filter_all _ _ DB), app_assoc. reflexivity.
      * rewrite S', S2, filter_app, (filter_none (later limit) (map _ B)); [reflexivity|].
        intros p Pp. apply DB in Pp. unfold due, later in *. now rewrite Pp.
      * congruence.
      * intros j. destruct (P' j) as [-> ->]. apply P2.
      * intros I. rewrite S2, map_app, in_app_iff in I. destruct I as [I|I]; [|now apply T1].
        apply in_map_iff in I. destruct I as (p & Ep & Ip). apply in_map_iff in Ip. destruct Ip as (j & <- & _). cbn in Ep.
        apply T2; [lia|exact EL2].
      * intros El. lia.
    + destruct (wait_short s (h :: r) (limit - now s) K) as (W1 & W2 & W3 & W4 & W5 & W6 & W7); [lia|intros y Y; rewrite X in Y; injection Y as <-; lia|].
      assert (Fut : forall p, In p (sched s) -> limit < snd p).
      { intros p Pp. apply (sched_first s h r x K X) in Pp. lia. }
      eexists. exists (h :: r). split; [reflexivity|]. split; [exact W1|]. split; [lia|].
      rewrite W3, W4, W5, W6. rewrite W7 by discriminate.
      rewrite (filter_none (due limit)), (filter_all (later limit)), app_nil_r.
      * split; [reflexivity|]. split; [reflexivity|]. split; [reflexivity|]. split; [auto|]. split.
        -- intros I. apply in_map_iff in I. destruct I as (p & <- & Pp). apply Fut in Pp. lia.
        -- intros; lia.
      * intros p Pp. apply Fut in Pp. unfold later. lia.
      * intros p Pp. apply Fut in Pp. unfold due. lia.
Qed.

Theorem schedule : forall s limit, reachable s -> quiet s -> now s <= limit ->
  let s' := idle (S (S (length (chain s)))) s limit in
  StronglySorted by_time (sched s) /\ map fst (sched s) = chain s /\
  calls s' = calls s ++ filter (due limit) (sched s) /\
  sched s' = filter (later limit) (sched s) /\ now s' = limit /\ quiet s'.
Proof.
  intros s limit R Q L. cbv zeta. destruct (calm_reach s R Q) as (U & K).
  assert (C := calm_chain _ _ K).
  destruct (idle_ok (length U) U s limit (S (S (length (chain s)))) ltac:(lia) K L) as (s' & U' & E & K' & N' & C' & S' & _); [rewrite C; lia|].
  rewrite <- E. split; [apply sums_sorted; eapply nonneg_chain; apply K|].
  split; [unfold sched; now rewrite fst_sums, fst_deltas|]. split; [exact C'|]. split; [exact S'|]. split; [exact N'|].
  destruct K'. now split.
Qed.

(** * Operations *)

Lemma st_eq : forall s it n, itimer s = it -> now s = n -> with_now (with_alarm s it (caught s) (pending s)) n = s.
Proof. intros [] it n <- <-. reflexivity. Qed.

Lemma pass_0 : forall s F U b, inv s F U -> pass s 0 b = s.
Proof.
  intros s F U b V. unfold pass. destruct (itimer s) as [x|] eqn:E.
  - pose proof (itim _ _ _ V x E). replace (0 <? x) with true by lia.
    apply st_eq; [rewrite E; f_equal; lia|lia].
  - destruct s. cbn in *. subst. unfold with_now. cbn. f_equal. lia.
Qed.

Lemma setup_pending : forall s, pending s = false -> pending (setup_next_timer s) = false.
Proof. intros s H. unfold setup_next_timer. destruct (chain s); [reflexivity|]. destruct (_ || _); [exact H|reflexivity]. Qed.

Lemma insert_pending : forall s i, pending s = false -> pending (insert_timer s i) = false.
Proof.
  intros s i H. unfold insert_timer. destruct (_ || _); [|exact H]. destruct (insert_walk _ _ _) as [f c].
  destruct (head_is _ _); [now apply setup_pending|exact H].
Qed.

Lemma delete_pending : forall s i, pending s = false -> pending (delete_timer s i) = false.
Proof.
  intros s i H. unfold delete_timer. destruct (delete_walk _ _ _) as [[f c]|]; [|exact H].
  destruct (head_is _ _); [now apply setup_pending|exact H].
Qed.

Lemma op_pending : forall s o, pending s = false -> pending (do_op s o) = false.
Proof.
  intros s [sc m|i|i p] H; cbn [do_op].
  - unfold make_timer. destruct (fix_time sc m). apply insert_pending. exact H.
  - destruct (Nat.ltb i (fresh s)); [now apply delete_pending|exact H].
  - destruct (Nat.ltb i (fresh s)); [|exact H]. unfold set_timer. apply insert_pending.
    destruct p as [[sc m]|]; [destruct (fix_time sc m); cbn|]; now apply delete_pending.
Qed.

Lemma op_step : forall s U o, calm s U -> step s (EOp 0 o) = do_op s o.
Proof.
  intros s U o K. cbn [step]. rewrite (pass_0 s [] U) by apply K. unfold unblock.
  rewrite op_pending; [reflexivity|apply K].
Qed.

Lemma sched_base : forall s b, now s - elapsed s = b -> sched s = sums b (deltas (tms s) (chain s)).
Proof. intros s b <-. reflexivity. Qed.

Definition move (d : Z) (l : list (nat * Z)) : list (nat * Z) := map (fun p => (fst p, snd p + d)) l.

Lemma move_0 : forall l, move 0 l = l.
Proof. induction l as [|[j t] l IH]; cbn; [reflexivity|]. f_equal; [f_equal; lia|exact IH]. Qed.
Lemma move_move : forall l a b, move a (move b l) = move (b + a) l.
Proof. intros. unfold move. rewrite map_map. apply map_ext. intros [j t]; cbn. f_equal. lia. Qed.
Lemma fst_move : forall l d, map fst (move d l) = map fst l.
Proof. intros. unfold move. rewrite map_map. reflexivity. Qed.
Lemma without_move : forall l d i, without i (move d l) = move d (without i l).
Proof.
  induction l as [|[j t] l IH]; intros d i; cbn; [reflexivity|]. destruct (Nat.eqb j i); cbn; [apply IH|]. f_equal. apply IH.
Qed.

Lemma setup_calm : forall s U, cinv s [] U -> pending s = false -> pipe s = 0%nat -> ready s = [] -> calm (setup_next_timer s) U.
Proof.
  intros s U C NP PI RD. destruct (setup_fields s) as (_ & _ & _ & E4 & E5 & _).
  constructor; [now apply setup_inv|now apply setup_pending|congruence|congruence].
Qed.

Lemma setup_elapsed : forall s U, cinv s [] U -> elapsed (setup_next_timer s) = 0.
Proof.
  intros s U C. destruct (setup_fields s) as (E1 & _ & E3 & _).
  unfold elapsed. rewrite E3, E1. destruct C. cbn [app] in *. destruct U as [|h r]; [now rewrite cc|].
  rewrite (setup_armed s h r cc); [|apply cnorm; rewrite cc; now left|exact chd].
  rewrite cc. cbn. lia.
Qed.

Lemma insert_sched : forall s U i, calm s U -> ~ In i (chain s) -> (i < fresh s)%nat ->
  let p := 1000 * secs (tms s i) + msecs (tms s i) in
  let s' := insert_timer s i in
  exists d U', (d = 0 \/ d = elapsed s) /\ calm s' U' /\ elapsed s' = elapsed s - d /\
    sched s' = (if 0 <? p then place (i, now s - elapsed s + d + p) (move d (sched s)) else sched s) /\
    (0 <? p = false -> d = 0) /\
    (0 < p -> d = 0 \/ elapsed s' = 0) /\
    now s' = now s /\ calls s' = calls s /\ fresh s' = fresh s /\
    (forall j, secs (tms s' j) = secs (tms s j) /\ msecs (tms s' j) = msecs (tms s j)).
Proof.
  intros s U i K NI LF p s'. subst s'.
  destruct (Z.ltb_spec 0 p) as [P|P].
  2:{ rewrite insert_zero; [|pose proof (iper _ _ _ (kinv _ _ K) i); subst p; lia].
      exists 0, U. split; [now left|]. split; [exact K|]. split; [lia|]. auto 10 using Zle_not_lt. }
  destruct (insert_core s [] U i (kinv _ _ K) NI LF P) as (s1 & U1 & E & C & EU & ED & EP & _ & _ & Efr & Ei & Ec & Ep & Epi & Er & En & Eca).
  fold p in EU, ED. assert (CU := calm_chain _ _ K).
  assert (C1 : chain s1 = U1) by (destruct C; assumption).
  rewrite E. destruct (head_is (chain s1) i) eqn:H.
  - destruct (setup_fields s1) as (E1 & E2 & E3 & E4 & E5 & E6 & E7 & E8).
    exists (elapsed s), U1. split; [now right|].
    split; [apply setup_calm; [exact C| | |]; destruct K; congruence|].
    rewrite (setup_elapsed s1 U1 C). split; [lia|]. split; [|split; [discriminate|split; [auto|rewrite E6, E7, E2, E1; repeat split; try congruence; apply EP]]].
    rewrite (sched_base _ (now s)); [|rewrite E6, (setup_elapsed s1 U1 C); lia].
    rewrite E1, E3, C1, ED, sums_dins. f_equal; [f_equal; lia|].
    unfold sched, move. rewrite <- sums_shift, CU. f_equal. lia.
  - (* not first: the head stays *)
    destruct U as [|h r].
    { cbn in EU. rewrite C1, EU in H. cbn in H. rewrite Nat.eqb_refl in H. discriminate. }
    assert (HE : elapsed s1 = elapsed s).
    { cbn [deltas map dins] in EU, ED. destruct (rel (tms s h) <=? p) eqn:Q.
      - cbn [map fst] in EU. unfold elapsed. rewrite CU, C1, Ei. rewrite EU. rewrite EU in ED. cbn [deltas map] in ED.
        injection ED as R _. now rewrite R.
      - cbn [map fst] in EU. rewrite C1, EU in H. cbn in H. rewrite Nat.eqb_refl in H. discriminate. }
    exists 0, U1. split; [now left|].
    split.
    { constructor; try (destruct K; congruence). pose proof (insert_inv s [] (h :: r) i (kinv _ _ K) NI LF) as (U2 & W).
      rewrite E in W. assert (U1 = U2) by (destruct W; cbn in *; congruence). now subst U2. }
    split; [lia|]. split; [|split; [discriminate|split; [auto|]]].
    2:{ repeat split; try assumption; apply EP. }
    rewrite (sched_base _ (now s - elapsed s)); [|lia].
    rewrite C1, ED, sums_dins, move_0. f_equal; [f_equal; lia|]. unfold sched. now rewrite CU.
Qed.

Lemma delete_sched : forall s U i, calm s U ->
  let s' := delete_timer s i in
  exists d U', (d = 0 \/ d = elapsed s) /\ calm s' U' /\ elapsed s' = elapsed s - d /\
    sched s' = without i (move d (sched s)) /\ ~ In i (chain s') /\
    now s' = now s /\ calls s' = calls s /\ fresh s' = fresh s /\
    (forall j, secs (tms s' j) = secs (tms s j) /\ msecs (tms s' j) = msecs (tms s j)).
Proof.
  intros s U i K. cbv zeta. assert (CU := calm_chain _ _ K). assert (V := kinv _ _ K).
  destruct (in_dec Nat.eq_dec i (chain s)) as [I|I].
  - destruct (delete_core s [] U i V I) as (s1 & F1 & U1 & E & C & EC & EF & ED & _ & EP & _ & Efr & Ei & Ec & Ep & Epi & Er & En & Eca & _).
    rewrite (EF eq_refl) in *. cbn [app] in *. clear F1 EF.
    assert (C1 : chain s1 = U1) by (destruct C; assumption).
    assert (NI : ~ In i U1). { rewrite EC. apply not_in_ddel. rewrite fst_deltas. apply V. }
    assert (ND : NoDup (map fst (deltas (tms s) (chain s)))) by (rewrite fst_deltas; apply V).
    rewrite E. destruct (head_is (chain s) i) eqn:H.
    + destruct (setup_fields s1) as (E1 & E2 & E3 & E4 & E5 & E6 & E7 & E8).
      exists (elapsed s), U1. split; [now right|].
      split; [apply setup_calm; [exact C| | |]; destruct K; congruence|].
      rewrite (setup_elapsed s1 U1 C). split; [lia|]. split; [|rewrite E3, C1, E6, E7, E2, E1; repeat split; try congruence; apply EP].
      rewrite (sched_base _ (now s)); [|rewrite E6, (setup_elapsed s1 U1 C); lia].
      rewrite E1, E3, C1, ED, sums_ddel by exact ND. f_equal.
      unfold sched, move. rewrite <- sums_shift. f_equal. lia.
    + destruct U as [|h r]; [rewrite CU in I; destruct I|].
      assert (HE : elapsed s1 = elapsed s).
      { rewrite CU in EC, ED, H. cbn [deltas map ddel head_is] in EC, ED, H. rewrite H in EC, ED. cbn [map fst] in EC.
        unfold elapsed. rewrite CU, C1, Ei, EC. rewrite EC in ED. cbn [deltas map] in ED. injection ED as R _. now rewrite R. }
      exists 0, U1. split; [now left|]. split.
      { constructor; try (destruct K; congruence).
        destruct (delete_inv s [] (h :: r) i V) as (F2 & U2 & W & _). rewrite E in W.
        assert (F2 = []).
        { destruct F2 as [|k F2]; [reflexivity|]. destruct W. exfalso. apply ipipe; [discriminate|]. destruct K; congruence. }
        subst F2. assert (U1 = U2) by (destruct W; cbn in *; congruence). now subst U2. }
      split; [lia|]. split; [|rewrite C1; repeat split; try congruence; apply EP].
      rewrite (sched_base _ (now s - elapsed s)); [|lia].
      rewrite C1, ED, sums_ddel, move_0 by exact ND. reflexivity.
  - rewrite delete_absent by exact I. set (s1 := with_tms _ _).
    assert (W : inv s1 [] U) by (apply inv_touch; [exact V|exact I|cbn; apply V]).
    assert (ED : forall j, rel (tms s1 j) = rel (tms s j)).
    { intros j. cbn. unfold set_tm. destruct (Nat.eqb_spec j i) as [->|]; reflexivity. }
    assert (EE : elapsed s1 = elapsed s).
    { unfold elapsed. cbn [chain s1 with_tms itimer]. destruct (chain s); [reflexivity|]. destruct (itimer s); [|reflexivity]. now rewrite ED. }
    exists 0, U. split; [now left|]. split; [destruct K; constructor; try assumption|]. split; [lia|].
    split; [|split; [exact I|repeat split; cbn; unfold set_tm; destruct (Nat.eqb_spec j i) as [->|]; reflexivity]].
    rewrite (sched_base _ (now s - elapsed s)); [|rewrite EE; reflexivity].
    rewrite move_0, without_absent; [|unfold sched; rewrite fst_sums, fst_deltas; exact I].
    unfold sched. f_equal. apply deltas_ext. intros; apply ED.
Qed.

Lemma touch_calm : forall s U i t, calm s U -> ~ In i (chain s) -> 0 <= msecs t < 1000 /\ 0 <= secs t ->
  let s' := with_tms s (set_tm (tms s) i t) in calm s' U /\ sched s' = sched s /\ elapsed s' = elapsed s.
Proof.
  intros s U i t K NI P. cbv zeta.
  assert (E : forall j, In j (chain s) -> set_tm (tms s) i t j = tms s j).
  { intros j J. apply set_tm_neq. intros ->. contradiction. }
  assert (EE : elapsed (with_tms s (set_tm (tms s) i t)) = elapsed s).
  { unfold elapsed. cbn. destruct (chain s) as [|h r]; [reflexivity|]. destruct (itimer s); [|reflexivity]. now rewrite E by now left. }
  split; [|split; [|exact EE]].
  - destruct K. constructor; try assumption. now apply inv_touch.
  - unfold sched. rewrite EE. cbn. f_equal. apply deltas_ext. intros j J. now rewrite E.
Qed.

Lemma fresh_calm : forall s U, calm s U -> calm (with_fresh s) U.
Proof. intros s U []. constructor; try assumption. now apply inv_fresh. Qed.

(* The general effect of an operation. *)
Lemma op_sched : forall s U o, calm s U -> ok_op o -> (target s o < fresh (do_op s o))%nat ->
  let s' := do_op s o in
  let i := target s o in
  let p := new_period s o in
  exists d U', (d = 0 \/ d = elapsed s) /\ calm s' U' /\ elapsed s' = elapsed s - d /\
    sched s' = (if 0 <? p then place (i, now s - elapsed s + d + p) (without i (move d (sched s)))
                else without i (move d (sched s))) /\
    now s' = now s /\ calls s' = calls s /\
    fresh s' = (match o with OMake _ _ => S (fresh s) | _ => fresh s end) /\
    (forall j, old_period s' j = if Nat.eqb j i then (match o with ODelete _ => old_period s j | _ => p end) else old_period s j).
Proof.
  intros s U o K OK TG. cbv zeta. destruct o as [sc m|i|i q]; cbn [do_op target new_period] in *.
  - unfold make_timer. destruct (fix_time sc m) as [sc' m'] eqn:E.
    destruct (fix_time_period _ _ _ _ E OK) as (P1 & P2 & P3).
    assert (NI : ~ In (fresh s) (chain s)). { intros I. pose proof (ifresh _ _ _ (kinv _ _ K) _ I). lia. }
    destruct (touch_calm s U (fresh s) (mkTimer sc' m' 0 0 false false) K NI (conj P1 P2)) as (K1 & S1 & E1).
    cbv zeta in *. set (s0 := with_tms _ _) in *. assert (T0 : tms s0 (fresh s) = mkTimer sc' m' 0 0 false false) by apply set_tm_eq.
    assert (TN : forall j, j <> fresh s -> tms s0 j = tms s j) by (intros j J; now apply set_tm_neq).
    assert (N0 : now s0 = now s /\ calls s0 = calls s /\ fresh s0 = fresh s /\ chain s0 = chain s) by auto.
    clearbody s0. apply fresh_calm in K1.
    destruct (insert_sched (with_fresh s0) U (fresh s) K1) as (d & U' & D & K2 & E2 & S2 & D2 & _ & N2 & C2 & F2 & PP);
      [cbn; destruct N0 as (_ & _ & _ & ->); exact NI|cbn; destruct N0 as (_ & _ & -> & _); lia|].
    cbv zeta in *. destruct N0 as (N0 & C0 & F0 & _).
    replace (elapsed (with_fresh s0)) with (elapsed s) in * by (rewrite <- E1; reflexivity).
    replace (sched (with_fresh s0)) with (sched s) in * by (rewrite <- S1; reflexivity).
    cbn [tms with_fresh now calls fresh] in *. rewrite T0 in *. cbn [secs msecs] in *. rewrite P3 in *.
    assert (WA : without (fresh s) (move d (sched s)) = move d (sched s)).
    { apply without_absent. rewrite fst_move. unfold sched. now rewrite fst_sums, fst_deltas. }
    exists d, U'. split; [exact D|]. split; [exact K2|]. split; [exact E2|]. split; [|split; [congruence|split; [congruence|split; [congruence|]]]].
    + rewrite S2, WA. destruct (0 <? ms (sc, m)) eqn:Z; [now rewrite N0|].
      rewrite (D2 eq_refl), move_0. reflexivity.
    + intros j. unfold old_period. destruct (PP j) as [-> ->]. destruct (Nat.eqb_spec j (fresh s)) as [->|J].
      * rewrite T0. exact P3.
      * now rewrite TN.
  - destruct (Nat.ltb_spec i (fresh s)) as [L|L]; [|lia].
    destruct (delete_sched s U i K) as (d & U' & D & K2 & E2 & S2 & _ & N2 & C2 & F2 & PP). cbv zeta in *.
    exists d, U'. split; [exact D|]. split; [exact K2|]. split; [exact E2|]. split; [exact S2|].
    split; [exact N2|]. split; [exact C2|]. split; [exact F2|]. intros j. unfold old_period. destruct (PP j) as [-> ->]. now destruct (Nat.eqb j i).
  - destruct (Nat.ltb_spec i (fresh s)) as [L|L]; [|lia]. unfold set_timer.
    destruct (delete_sched s U i K) as (d1 & U1 & D1 & K1 & E1 & S1 & NI & N1 & C1 & F1 & P1). cbv zeta in *.
    set (s1 := delete_timer s i) in *. clearbody s1.
    set (s2 := match q with None => s1 | Some _ => _ end).
    assert (X : exists U2, calm s2 U2 /\ sched s2 = sched s1 /\ elapsed s2 = elapsed s1 /\ chain s2 = chain s1 /\ now s2 = now s1 /\
      calls s2 = calls s1 /\ fresh s2 = fresh s1 /\ (forall j, j <> i -> tms s2 j = tms s1 j) /\
      1000 * secs (tms s2 i) + msecs (tms s2 i) = new_period s (OSet i q)).
    { subst s2. destruct q as [[sc m]|].
      - destruct (fix_time sc m) as [sc' m'] eqn:E. destruct (fix_time_period _ _ _ _ E OK) as (Q1 & Q2 & Q3).
        destruct (touch_calm s1 U1 i (set_period (tms s1 i) sc' m') K1 NI) as (A & B & C); [cbn; auto|].
        exists U1. split; [exact A|]. split; [exact B|]. split; [exact C|]. cbn. do 4 (split; [reflexivity|]).
        split; [intros j J; now apply set_tm_neq|]. rewrite set_tm_eq. exact Q3.
      - exists U1. split; [exact K1|]. do 6 (split; [reflexivity|]). split; [reflexivity|]. destruct (P1 i) as [-> ->]. reflexivity. }
    destruct X as (U2 & K2 & S2 & E2 & CH2 & N2 & C2 & F2 & T2 & P2). clearbody s2.
    destruct (insert_sched s2 U2 i K2) as (d2 & U3 & D2 & K3 & E3 & S3 & D3 & _ & N3 & C3 & F3 & P3); [congruence|lia|].
    cbv zeta in *. rewrite P2 in *.
    change (match q with Some p => ms p | None => old_period s i end) with (new_period s (OSet i q)).
    exists (d1 + d2), U3. split; [lia|]. split; [exact K3|]. split; [lia|].
    split; [|split; [congruence|split; [congruence|split; [congruence|]]]].
    + rewrite S3, S2, S1. destruct (0 <? new_period s (OSet i q)) eqn:Z.
      * rewrite <- without_move, move_move. f_equal. f_equal. lia.
      * rewrite (D3 eq_refl), Z.add_0_r. reflexivity.
    + intros j. unfold old_period. destruct (P3 j) as [-> ->]. destruct (Nat.eqb_spec j i) as [->|J]; [exact P2|].
      rewrite T2 by exact J. destruct (P1 j) as [-> ->]. reflexivity.
Qed.

Theorem operation : forall s o, reachable s -> quiet s -> ok_op o ->
  (target s o < fresh (do_op s o))%nat ->
  let s' := step s (EOp 0 o) in
  quiet s' /\ now s' = now s /\ calls s' = calls s /\ 0 <= elapsed s /\
  exists d, (d = 0 \/ d = elapsed s) /\
    (forall j, j <> target s o -> time_of j (sched s') = shift d (time_of j (sched s))) /\
    time_of (target s o) (sched s') =
      (if 0 <? new_period s o then Some (now s + new_period s o - (elapsed s - d)) else None).
Proof.
  intros s o R Q OK T. cbv zeta. destruct (calm_reach s R Q) as (U & K).
  rewrite (op_step s U o K).
  destruct (op_sched s U o K OK T) as (d & U' & D & K' & E & S & N & C & _). cbv zeta in *.
  split; [destruct K'; now split|]. split; [exact N|]. split; [exact C|]. split; [now apply elapsed_nonneg with (U := U)|].
  exists d. split; [exact D|].
  assert (NI : ~ In (target s o) (map fst (without (target s o) (move d (sched s))))).
  { intros I. apply in_map_iff in I. destruct I as ([j t] & E1 & I). apply filter_In in I. cbn in *. rewrite E1, Nat.eqb_refl in I. now destruct I. }
  split.
  - intros j J. rewrite S. destruct (0 <? new_period s o).
    + rewrite time_of_place by exact NI. destruct (Nat.eqb_spec j (target s o)); [contradiction|].
      rewrite time_of_without. destruct (Nat.eqb_spec j (target s o)); [contradiction|]. apply time_of_shift.
    + rewrite time_of_without. destruct (Nat.eqb_spec j (target s o)); [contradiction|]. apply time_of_shift.
  - rewrite S. destruct (0 <? new_period s o).
    + rewrite time_of_place by exact NI. rewrite Nat.eqb_refl. f_equal. lia.
    + rewrite time_of_without, Nat.eqb_refl. reflexivity.
Qed.

(** * Histories *)

Lemma place_sorted : forall l p, StronglySorted by_time l -> StronglySorted by_time (place p l).
Proof.
  induction l as [|q l IH]; intros p S; cbn [place]; [repeat constructor|].
  apply StronglySorted_inv in S. destruct S as [S F]. destruct (Z.leb_spec (snd q) (snd p)) as [L|L].
  - constructor; [now apply IH|]. assert (P : Permutation (p :: l) (place p l)).
    { clear. induction l as [|r l IH]; cbn [place]; [reflexivity|]. destruct (snd r <=? snd p); [|reflexivity].
      eapply perm_trans; [apply perm_swap|]. now constructor. }
    eapply Permutation_Forall; [exact P|]. constructor; [exact L|exact F].
  - constructor; [now constructor|]. constructor; [unfold by_time; lia|].
    eapply Forall_impl; [|exact F]. unfold by_time. intros; lia.
Qed.

Lemma sorted_snoc : forall l p, sorted (l ++ [p]) = place p (sorted l).
Proof. intros. unfold sorted. now rewrite fold_left_app. Qed.

Lemma sorted_sorted : forall l, StronglySorted by_time (sorted l).
Proof.
  induction l as [|p l IH] using rev_ind; [constructor|]. rewrite sorted_snoc. now apply place_sorted.
Qed.

Lemma filter_place : forall P l p, StronglySorted by_time l ->
  filter P (place p l) = if P p then place p (filter P l) else filter P l.
Proof.
  intros P. induction l as [|q l IH]; intros p S; cbn [place filter]; [now destruct (P p)|].
  apply StronglySorted_inv in S. destruct S as [S F]. destruct (Z.leb_spec (snd q) (snd p)) as [L|L].
  - cbn [filter]. rewrite IH by exact S. destruct (P q), (P p); cbn [place]; try reflexivity.
    now replace (snd q <=? snd p) with true by lia.
  - cbn [filter]. destruct (P p) eqn:EP; [|reflexivity].
    assert (G : forall r, (forall x, In x r -> snd p < snd x) -> place p r = p :: r).
    { intros [|x r] H; cbn [place]; [reflexivity|]. replace (snd x <=? snd p) with false; [reflexivity|]. specialize (H x (or_introl eq_refl)). lia. }
    symmetry. destruct (P q).
    + apply G. intros x [<-|X]; [lia|]. apply filter_In in X. rewrite Forall_forall in F. destruct X as [X _]. apply F in X. unfold by_time in X. lia.
    + apply G. intros x X. apply filter_In in X. rewrite Forall_forall in F. destruct X as [X _]. apply F in X. unfold by_time in X. lia.
Qed.

Lemma filter_sorted : forall P l, filter P (sorted l) = sorted (filter P l).
Proof.
  intros P. induction l as [|p l IH] using rev_ind; [reflexivity|].
  rewrite sorted_snoc, filter_place, filter_app by apply sorted_sorted. cbn [filter].
  destruct (P p); [now rewrite sorted_snoc, IH|now rewrite app_nil_r].
Qed.

Lemma sorted_perm : forall l, Permutation l (sorted l).
Proof.
  assert (G : forall l p, Permutation (p :: l) (place p l)).
  { induction l as [|r l IH]; intros p; cbn [place]; [reflexivity|]. destruct (snd r <=? snd p); [|reflexivity].
    eapply perm_trans; [apply perm_swap|]. now constructor. }
  induction l as [|p l IH] using rev_ind; [reflexivity|]. rewrite sorted_snoc.
  etransitivity; [|apply G]. etransitivity; [symmetry; apply Permutation_cons_append|]. now constructor.
Qed.

Lemma sorted_stable : forall l t, filter (fun p => snd p =? t) (sorted l) = filter (fun p => snd p =? t) l.
Proof.
  intros l t. rewrite filter_sorted.
  assert (G : forall r, (forall p, In p r -> snd p = t) -> sorted r = r).
  { induction r as [|p r IH] using rev_ind; intros H; [reflexivity|]. rewrite sorted_snoc, IH; [|intros; apply H; apply in_or_app; now left].
    assert (Q : snd p = t) by (apply H; apply in_or_app; right; now left).
    assert (Hr : forall q, In q r -> snd q = t) by (intros; apply H; apply in_or_app; now left). clear - Q Hr.
    induction r as [|q r IH]; [reflexivity|]. cbn [place app]. replace (snd q <=? snd p) with true.
    - f_equal. apply IH. intros; apply Hr; now right.
    - rewrite (Hr q) by now left. lia. }
  apply G. intros p P. apply filter_In in P. destruct P as [_ P]. lia.
Qed.

Lemma sorted_spec : forall l, Permutation l (sorted l) /\ StronglySorted by_time (sorted l) /\
  forall t, filter (fun p => snd p =? t) (sorted l) = filter (fun p => snd p =? t) l.
Proof. intros l. split; [apply sorted_perm|]. split; [apply sorted_sorted|]. apply sorted_stable. Qed.

Record match_st (s : st) (d : ideal) : Prop := mkMatch {
  mcalm : exists U, calm s U;
  msched : sched s = sorted (waiting d);
  mclock : now s = clock d;
  mcalls : calls s = called d;
  mcount : fresh s = count d;
  mperiod : forall i, (i < fresh s)%nat -> period d i = old_period s i
}.

Lemma start_match : forall s d o, match_st s d -> elapsed s = 0 -> ok_op o ->
  match_st (step s (EOp 0 o)) (ideal_op d o) /\ elapsed (step s (EOp 0 o)) = 0.
Proof.
  intros s d o M E0 OK. destruct M. destruct mcalm0 as (U & K).
  rewrite (op_step s U o K).
  destruct (Nat.ltb_spec (target s o) (fresh (do_op s o))) as [T|T].
  - destruct (op_sched s U o K OK T) as (x & U' & D & K' & E & S & N & C & F & P). cbv zeta in *.
    assert (x = 0) by lia. subst x. split; [|lia].
    rewrite move_0 in S. rewrite msched0 in S. unfold without in S. rewrite filter_sorted in S.
    fold (without (target s o) (waiting d)) in S.
    assert (NP : match o with ODelete _ => True | OSet i _ => (i < fresh s)%nat | OMake _ _ => True end).
    { destruct o; auto. cbn [do_op target] in *. destruct (Nat.ltb_spec i (fresh s)); [assumption|lia]. }
    assert (SS : sched (do_op s o) = sorted (without (target s o) (waiting d) ++
        (if 0 <? new_period s o then [(target s o, clock d + new_period s o)] else []))).
    { rewrite S. destruct (0 <? new_period s o); [|now rewrite app_nil_r]. rewrite sorted_snoc. f_equal. f_equal. lia. }
    destruct o as [sc m|i|i q]; cbn [target new_period] in *.
    + constructor; try (now exists U'); cbn [ideal_op start waiting clock called count period]; try congruence.
      * rewrite SS, mcount0. reflexivity.
      * intros j J. rewrite P, mcount0. destruct (Nat.eqb_spec j (count d)); [reflexivity|]. apply mperiod0. rewrite F in J. lia.
    + constructor; try (now exists U'); cbn [ideal_op start waiting clock called count period]; try congruence.
      * rewrite SS. change (0 <? 0) with false. cbn iota. now rewrite app_nil_r.
      * intros j J. rewrite P. destruct (Nat.eqb_spec j i); apply mperiod0; lia.
    + assert (PE : (match q with Some p => ms p | None => period d i end) = (match q with Some p => ms p | None => old_period s i end)).
      { destruct q; [reflexivity|]. now apply mperiod0. }
      cbn [ideal_op]. replace (Nat.ltb i (count d)) with true by (symmetry; apply Nat.ltb_lt; congruence).
      constructor; try (now exists U'); cbn [start waiting clock called count period]; try congruence.
      * rewrite SS, PE. reflexivity.
      * intros j J. rewrite P. destruct (Nat.eqb_spec j i); [exact PE|]. apply mperiod0. lia.
  - (* no such timer: nothing happens *)
    destruct o as [sc m|i|i q]; cbn [do_op target] in *.
    + exfalso. destruct (op_sched s U (OMake sc m) K OK) as (x & U' & _ & _ & _ & _ & _ & _ & F & _); [|cbn in *; lia].
      cbn [do_op target]. unfold make_timer in *. destruct (fix_time sc m) as [sc' m'] eqn:EF.
      assert (FF : forall a b, fresh (insert_timer a b) = fresh a).
      { intros a b. unfold insert_timer. destruct (_ || _); [|reflexivity]. destruct (insert_walk _ _ _). destruct (head_is _ _); [|reflexivity].
        destruct (setup_fields (with_chain a t l)) as (_ & Q & _). exact Q. }
      rewrite FF in *. cbn in *. lia.
    + destruct (Nat.ltb_spec i (fresh s)) as [L|L].
      * exfalso. destruct (delete_sched s U i K) as (? & ? & _ & _ & _ & _ & _ & _ & _ & F & _). lia.
      * split; [|exact E0]. constructor; try (now exists U); cbn [ideal_op waiting clock called count period]; try assumption.
        rewrite without_absent; [exact msched0|]. intros I.
        assert (I2 : In i (chain s)).
        { assert (Q : map fst (sched s) = chain s) by (unfold sched; now rewrite fst_sums, fst_deltas).
          rewrite <- Q, msched0. eapply Permutation_in; [apply Permutation_map; apply sorted_perm|exact I]. }
        pose proof (ifresh _ _ _ (kinv _ _ K) i I2). lia.
    + destruct (Nat.ltb_spec i (fresh s)) as [L|L].
      * exfalso. destruct (op_sched s U (OSet i q) K OK) as (x & U' & _ & _ & _ & _ & _ & _ & F & _); cbn [do_op target] in *;
          destruct (Nat.ltb_spec i (fresh s)); try lia.
        assert (FF : forall a b, fresh (insert_timer a b) = fresh a).
        { intros a b. unfold insert_timer. destruct (_ || _); [|reflexivity]. destruct (insert_walk _ _ _). destruct (head_is _ _); [|reflexivity].
          destruct (setup_fields (with_chain a t l)) as (_ & Q & _). exact Q. }
        unfold set_timer in *. rewrite FF in *. destruct (delete_sched s U i K) as (? & ? & _ & _ & _ & _ & _ & _ & _ & F & _). cbv zeta in F.
        destruct q as [[sc m]|]; [destruct (fix_time sc m); cbn in *; lia|lia].
      * split; [|exact E0]. cbn [ideal_op]. replace (Nat.ltb i (count d)) with false by (symmetry; apply Nat.ltb_ge; congruence).
        constructor; try (now exists U); assumption.
Qed.

Lemma ops_match : forall os s d, match_st s d -> elapsed s = 0 -> Forall ok_op os ->
  match_st (run s (map (EOp 0) os)) (fold_left ideal_op os d) /\ elapsed (run s (map (EOp 0) os)) = 0.
Proof.
  induction os as [|o os IH]; intros s d M E OK; [now split|].
  apply Forall_cons_iff in OK. destruct OK as [O OK]. cbn [map run fold_left].
  destruct (start_match s d o M E O) as [M1 E1]. exact (IH _ _ M1 E1 OK).
Qed.

Lemma ideal_clock : forall os d, clock (fold_left ideal_op os d) = clock d.
Proof.
  induction os as [|o os IH]; intros d; [reflexivity|]. cbn [fold_left]. rewrite IH.
  destruct o as [sc m|i|i q]; cbn [ideal_op]; try reflexivity. destruct (Nat.ltb i (count d)); reflexivity.
Qed.

Lemma wait_match : forall s d limit, match_st s d -> elapsed s = 0 -> clock d <= limit ->
  let s' := idle (S (S (length (chain s)))) s limit in
  match_st s' (ideal_wait d limit) /\
  (waiting (ideal_wait d limit) = [] \/ clock d = limit \/ In limit (map snd (waiting d)) -> elapsed s' = 0).
Proof.
  intros s d limit M E0 L. cbv zeta. destruct M. destruct mcalm0 as (U & K).
  assert (C := calm_chain _ _ K).
  destruct (idle_ok (length U) U s limit (S (S (length (chain s)))) ltac:(lia) K) as (s' & U' & E & K' & N' & C' & S' & F' & P' & T1 & T2); [lia|rewrite C; lia|].
  rewrite <- E. split.
  - constructor; cbn [ideal_wait waiting clock called count period]; try congruence.
    + now exists U'.
    + now rewrite S', msched0, filter_sorted.
    + rewrite C', mcalls0, msched0, filter_sorted. reflexivity.
    + intros i I. unfold old_period. destruct (P' i) as [-> ->]. apply mperiod0. lia.
  - intros [W|[W|W]].
    + cbn [ideal_wait waiting] in W. rewrite msched0, filter_sorted, W in S'. unfold sorted in S'. cbn in S'.
      assert (Q : map fst (sched s') = chain s') by (unfold sched; now rewrite fst_sums, fst_deltas).
      rewrite S' in Q. cbn in Q. unfold elapsed. now rewrite <- Q.
    + apply T2; [lia|exact E0].
    + apply T1. rewrite msched0. eapply Permutation_in; [apply Permutation_map; apply sorted_perm|exact W].
Qed.

Lemma history_gen : forall ps s d, match_st s d -> (ps <> [] -> elapsed s = 0) -> aligned d ps ->
  match_st (fold_left real_phase ps s) (fold_left ideal_phase ps d).
Proof.
  induction ps as [|[os limit] ps IH]; intros s d M E A; [exact M|].
  cbn [aligned fst snd] in A. destruct A as (OK & L & AL & A). cbn [fold_left].
  specialize (E ltac:(discriminate)).
  destruct (ops_match os s d M E OK) as [M1 E1].
  destruct (wait_match _ _ limit M1 E1) as [M2 E2]; [now rewrite ideal_clock|]. cbv zeta in *.
  rewrite ideal_clock in E2.
  apply IH; [exact M2| |exact A].
  intros NE. apply E2. destruct AL as [->|[W|[W|W]]]; auto. now contradiction NE.
Qed.

Theorem history : forall ps, aligned ideal0 ps ->
  calls (real_run ps) = called (ideal_run ps) /\ now (real_run ps) = clock (ideal_run ps) /\
  sched (real_run ps) = sorted (waiting (ideal_run ps)).
Proof.
  intros ps A. assert (M : match_st init ideal0).
  { constructor; try reflexivity.
    - exists []. constructor; try reflexivity. apply inv_init. }
  destruct (history_gen ps init ideal0 M (fun _ => eq_refl) A) as [_ S C D _ _].
  split; [exact D|]. split; [exact C|exact S].
Qed.

(** * Counting *)

Definition occ (i : nat) (l : list nat) : nat := count_occ Nat.eq_dec l i.

Lemma occ_app : forall i a b, occ i (a ++ b) = (occ i a + occ i b)%nat.
Proof. intros. apply count_occ_app. Qed.

Lemma occ_le1 : forall i l, NoDup l -> (occ i l <= 1)%nat.
Proof. intros i l H. rewrite (NoDup_count_occ Nat.eq_dec) in H. apply H. Qed.

Lemma occ_incl : forall i a b, NoDup a -> (forall j, In j a -> In j b) -> (occ i a <= occ i b)%nat.
Proof.
  intros i a b H S. destruct (in_dec Nat.eq_dec i a) as [I|I].
  - pose proof (occ_le1 i a H). apply S in I. apply (count_occ_In Nat.eq_dec) in I. unfold occ in *. lia.
  - apply (count_occ_not_In Nat.eq_dec) in I. unfold occ. lia.
Qed.

Definition load (i : nat) (s : st) : nat := (times_called i s + occ i (chain s) + occ i (ready s))%nat.

Lemma insert_load : forall s F U i j, inv s F U -> ~ In i (chain s) -> (i < fresh s)%nat ->
  (load j (insert_timer s i) <= (if Nat.eqb i j then 1 else 0) + load j s)%nat /\ fresh (insert_timer s i) = fresh s.
Proof.
  intros s F U i j V NI LF.
  destruct (Z.ltb_spec 0 (1000 * secs (tms s i) + msecs (tms s i))) as [P|P].
  2:{ rewrite insert_zero; [split; [lia|reflexivity]|]. pose proof (iper _ _ _ V i). lia. }
  destruct (insert_core s F U i V NI LF P) as (s1 & U1 & E & C & EU & _ & _ & _ & _ & Efr & _ & _ & _ & _ & Er & _ & Eca).
  assert (X : (load j s1 <= (if Nat.eqb i j then 1 else 0) + load j s)%nat).
  { unfold load, times_called. rewrite Er, Eca. rewrite (cc _ _ _ C), (ic _ _ _ V).
    assert (PM : Permutation (i :: U) U1) by (rewrite EU; rewrite <- (fst_deltas (tms s) U) at 1; apply fst_dins).
    rewrite !occ_app. unfold occ. rewrite (Permutation_count_occ Nat.eq_dec) in PM. rewrite <- (PM j). cbn [count_occ].
    destruct (Nat.eq_dec i j), (Nat.eqb_spec i j); try lia; congruence. }
  destruct (setup_fields s1) as (_ & E2 & E3 & _ & E5 & _ & E7 & _).
  rewrite E. destruct (head_is _ _); [|auto]. split; [|congruence].
  unfold load, times_called in *. now rewrite E3, E5, E7.
Qed.

Lemma delete_load : forall s F U i j, inv s F U -> (load j (delete_timer s i) <= load j s)%nat.
Proof.
  intros s F U i j V. destruct (in_dec Nat.eq_dec i (chain s)) as [I|I].
  2:{ rewrite delete_absent by exact I. reflexivity. }
  destruct (delete_core s F U i V I) as (s1 & F1 & U1 & E & C & EC & _ & _ & _ & _ & _ & _ & _ & _ & _ & _ & Er & _ & Eca & _).
  assert (X : (load j s1 <= load j s)%nat).
  { unfold load, times_called. rewrite Er, Eca. rewrite (cc _ _ _ C).
    assert (occ j (F1 ++ U1) <= occ j (chain s))%nat; [|lia].
    apply occ_incl; [rewrite <- (cc _ _ _ C); apply C|]. intros k K. rewrite EC in K. apply in_ddel in K. now rewrite fst_deltas in K. }
  destruct (setup_fields s1) as (_ & E2 & E3 & _ & E5 & _ & E7 & _).
  rewrite E. destruct (head_is _ _); [|auto]. unfold load, times_called in *. now rewrite E3, E5, E7.
Qed.

Lemma op_load : forall s F U o j, inv s F U -> ok_op o ->
  (load j (do_op s o) <= (if is_set j (fresh s) (EOp 0 o) then 1 else 0) + load j s)%nat /\
  fresh (do_op s o) = match o with OMake _ _ => S (fresh s) | _ => fresh s end.
Proof.
  intros s F U o j V OK. destruct o as [sc m|i|i p]; cbn [do_op is_set].
  - cbn in OK. unfold make_timer. destruct (fix_time sc m) as [sc' m'] eqn:E.
    destruct (fix_time_period _ _ _ _ E OK) as (P1 & P2 & P3).
    assert (NI : ~ In (fresh s) (chain s)). { intros I. pose proof (ifresh _ _ _ V _ I). lia. }
    set (s1 := with_fresh _). assert (V1 : inv s1 F U).
    { apply inv_fresh. apply inv_touch; [exact V|exact NI|]. cbn. auto. }
    destruct (insert_load s1 F U (fresh s) j V1) as [A B]; [exact NI|cbn; lia|]. split; [exact A|exact B].
  - destruct (Nat.ltb i (fresh s)); [|split; [lia|reflexivity]].
    pose proof (delete_load s F U i j V). destruct (delete_inv s F U i V) as (? & ? & _ & _ & Q & _). split; [lia|exact Q].
  - destruct (Nat.ltb_spec i (fresh s)) as [L|L]; [|split; [lia|reflexivity]]. unfold set_timer.
    destruct (delete_inv s F U i V) as (F1 & U1 & W & NI & Fr & _).
    assert (DL := delete_load s F U i j V).
    set (s1 := delete_timer s i) in *. clearbody s1.
    assert (NI' : ~ In i (chain s1)) by (destruct W; congruence).
    set (s2 := match p with None => s1 | Some _ => _ end).
    assert (V2 : inv s2 F1 U1 /\ chain s2 = chain s1 /\ load j s2 = load j s1 /\ fresh s2 = fresh s1).
    { subst s2. destruct p as [[sc m]|]; [|auto]. destruct (fix_time sc m) as [sc' m'] eqn:E.
      destruct (fix_time_period _ _ _ _ E OK) as (P1 & P2 & P3).
      split; [|auto]. apply inv_touch; [exact W|exact NI'|cbn; auto]. }
    destruct V2 as (V2 & C2 & L2 & F2). clearbody s2.
    destruct (insert_load s2 F1 U1 i j V2) as [A B]; [congruence|lia|]. split; [lia|congruence].
Qed.

Lemma handler_load : forall s j, load j (timer_signal_handler s) = load j s /\ fresh (timer_signal_handler s) = fresh s.
Proof. intros s j. unfold timer_signal_handler. destruct (chain s) eqn:E; [|unfold load; cbn; rewrite E]; split; reflexivity. Qed.

Lemma pass_load : forall s dt b j, load j (pass s dt b) = load j s /\ fresh (pass s dt b) = fresh s.
Proof.
  intros s dt b j. unfold pass. destruct (itimer s) as [r|]; [|split; reflexivity].
  destruct (dt <? r); [split; reflexivity|]. cbn [caught with_now with_alarm]. destruct (caught s); [|split; reflexivity].
  destruct b; [split; reflexivity|]. match goal with |- context [timer_signal_handler ?x] => destruct (handler_load x j) as [A B] end.
  rewrite A, B. split; reflexivity.
Qed.

Lemma unblock_load : forall s j, load j (unblock s) = load j s /\ fresh (unblock s) = fresh s.
Proof.
  intros s j. unfold unblock. destruct (pending s); [|split; reflexivity]. cbn [caught with_alarm].
  destruct (caught s); [|split; reflexivity].
  match goal with |- context [timer_signal_handler ?x] => destruct (handler_load x j) as [A B] end.
  rewrite A, B. split; reflexivity.
Qed.

Lemma step_load : forall s F U e j, inv s F U -> pending s = false -> ok_event e ->
  (load j (step s e) <= (if is_set j (fresh s) e then 1 else 0) + load j s)%nat /\
  fresh (step s e) = match e with EOp _ (OMake _ _) => S (fresh s) | _ => fresh s end.
Proof.
  intros s F U e j V NP OK. destruct e as [dt o|dt| |]; cbn [step].
  - destruct OK as [P OK]. assert (W := pass_blocked_inv s F U dt V P).
    destruct (op_load _ F U o j W OK) as [A B]. destruct (unblock_load (do_op (pass s dt true) o) j) as [C D].
    destruct (pass_load s dt true j) as [E G]. rewrite C, D, B. rewrite E, G in *.
    split; [exact A|]. now destruct o.
  - destruct (pass_load s dt false j) as [E G]. rewrite E, G. cbn. split; lia.
  - cbn [is_set]. destruct (pipe s); [split; [lia|reflexivity]|]. destruct (ready s) eqn:R; [|split; [lia|reflexivity]].
    rewrite (fd_handler_eq s F U V). set (sd := with_ready _ _ _).
    destruct (setup_fields sd) as (_ & E2 & E3 & _ & E5 & _ & E7 & _). split; [|exact E2].
    unfold load, times_called. rewrite E3, E5, E7, R. change (chain sd) with U. change (ready sd) with F. change (calls sd) with (calls s). rewrite (ic _ _ _ V), occ_app. change (occ j []) with 0%nat. lia.
  - cbn [is_set]. unfold call_next. destruct (ready s) as [|i r] eqn:R; [split; [lia|reflexivity]|].
    cbn [tms with_ready]. destruct (deleted (tms s i)).
    + split; [|reflexivity]. unfold load, times_called. cbn. rewrite R. unfold occ. cbn. destruct (Nat.eq_dec i j); lia.
    + split; [|reflexivity]. unfold load, times_called. cbn. rewrite R, filter_app, app_length. cbn.
      unfold occ. cbn. destruct (Nat.eq_dec i j), (Nat.eqb_spec i j); cbn; try congruence; lia.
Qed.

Lemma run_load : forall es s F U j, inv s F U -> pending s = false -> Forall ok_event es ->
  (load j (run s es) <= times_set j (fresh s) es + load j s)%nat.
Proof.
  induction es as [|e es IH]; intros s F U j V NP OK; [cbn; lia|].
  apply Forall_cons_iff in OK. destruct OK as [O OK].
  destruct (step_inv s F U e V NP O) as (F1 & U1 & W & NP').
  destruct (step_load s F U e j V NP O) as [A B].
  specialize (IH (step s e) F1 U1 j W NP' OK). cbn [run fold_left times_set] in *. fold (run (step s e) es) in *.
  rewrite B in IH. destruct e as [dt [| |]| | |]; lia.
Qed.

Theorem once_per_set : forall es i, Forall ok_event es ->
  (times_called i (run init es) <= times_set i 0 es)%nat.
Proof.
  intros es i OK. pose proof (run_load es init [] [] i inv_init eq_refl OK) as H. unfold load at 1 2 in H. cbn in H. unfold times_called in *. cbn in H. lia.
Qed.

(** * Deleted timers *)

Definition dead (i : nat) (s : st) : Prop := deleted (tms s i) = true /\ (i < fresh s)%nat.

Lemma dead_setup : forall i s, dead i s -> dead i (setup_next_timer s).
Proof. intros i s [A B]. destruct (setup_fields s) as (E1 & E2 & _). split; congruence. Qed.

Lemma dead_insert : forall s F U i j, inv s F U -> ~ In i (chain s) -> (i < fresh s)%nat -> j <> i -> dead j s -> dead j (insert_timer s i).
Proof.
  intros s F U i j V NI LF N [D L].
  destruct (Z.ltb_spec 0 (1000 * secs (tms s i) + msecs (tms s i))) as [P|P].
  2:{ rewrite insert_zero; [now split|]. pose proof (iper _ _ _ V i). lia. }
  destruct (insert_core s F U i V NI LF P) as (s1 & U1 & E & _ & _ & _ & _ & SM & _ & Efr & _).
  assert (X : dead j s1). { destruct (SM j N) as (_ & _ & _ & Q). split; congruence. }
  rewrite E. destruct (head_is _ _); [now apply dead_setup|exact X].
Qed.

Lemma dead_delete : forall s F U i j, inv s F U -> dead j s \/ (j = i /\ (i < fresh s)%nat) -> dead j (delete_timer s i).
Proof.
  intros s F U i j V D. destruct (in_dec Nat.eq_dec i (chain s)) as [I|I].
  - destruct (delete_core s F U i V I) as (s1 & F1 & U1 & E & _ & _ & _ & _ & SM & _ & DI & Efr & _).
    assert (X : dead j s1).
    { destruct (Nat.eq_dec j i) as [->|N]; [split; [exact DI|destruct D as [[_ D]|[_ D]]; congruence]|].
      destruct D as [[D1 D2]|[D _]]; [|contradiction]. destruct (SM j N) as (_ & _ & _ & Q). split; congruence. }
    rewrite E. destruct (head_is _ _); [now apply dead_setup|exact X].
  - rewrite delete_absent by exact I. unfold dead. cbn. unfold set_tm. destruct (Nat.eqb_spec j i) as [->|N].
    + cbn. split; [reflexivity|]. destruct D as [[_ D]|[_ D]]; exact D.
    + destruct D as [D|[D _]]; [exact D|contradiction].
Qed.

Lemma dead_op : forall s F U o j, inv s F U -> ok_op o -> (forall p, o <> OSet j p) -> dead j s -> dead j (do_op s o).
Proof.
  intros s F U o j V OK NS D. destruct o as [sc m|i|i p]; cbn [do_op].
  - cbn in OK. unfold make_timer. destruct (fix_time sc m) as [sc' m'] eqn:E.
    destruct (fix_time_period _ _ _ _ E OK) as (P1 & P2 & P3).
    assert (NI : ~ In (fresh s) (chain s)). { intros I. pose proof (ifresh _ _ _ V _ I). lia. }
    set (s1 := with_fresh _). assert (V1 : inv s1 F U).
    { apply inv_fresh. apply inv_touch; [exact V|exact NI|]. cbn. auto. }
    destruct D as [D L]. apply (dead_insert s1 F U); [exact V1|exact NI|cbn; lia|lia|].
    split; [|cbn; lia]. cbn. rewrite set_tm_neq by lia. exact D.
  - destruct (Nat.ltb i (fresh s)); [|exact D]. apply (dead_delete s F U); auto.
  - destruct (Nat.ltb_spec i (fresh s)) as [L|L]; [|exact D]. unfold set_timer.
    assert (N : j <> i) by (intros ->; now apply (NS p)).
    assert (D1 := dead_delete s F U i j V (or_introl D)).
    destruct (delete_inv s F U i V) as (F1 & U1 & W & NI & Fr & _).
    set (s1 := delete_timer s i) in *. clearbody s1.
    assert (NI' : ~ In i (chain s1)) by (destruct W; congruence).
    set (s2 := match p with None => s1 | Some _ => _ end).
    assert (V2 : inv s2 F1 U1 /\ chain s2 = chain s1 /\ dead j s2 /\ fresh s2 = fresh s1).
    { subst s2. destruct p as [[sc m]|]; [|auto]. destruct (fix_time sc m) as [sc' m'] eqn:E.
      destruct (fix_time_period _ _ _ _ E OK) as (P1 & P2 & P3).
      split; [apply inv_touch; [exact W|exact NI'|cbn; auto]|]. split; [reflexivity|]. split; [|reflexivity].
      destruct D1. split; [|assumption]. cbn. now rewrite set_tm_neq. }
    destruct V2 as (V2 & C2 & D2 & F2). clearbody s2.
    apply (dead_insert s2 F1 U1); [exact V2|congruence|lia|exact N|exact D2].
Qed.

Lemma mark_deleted : forall c f j, deleted (mark_fired f c j) = deleted (f j).
Proof.
  induction c as [|i r IH]; intros f j; cbn [mark_fired]; [reflexivity|]. destruct (_ && _); [|reflexivity].
  rewrite IH. unfold set_tm. destruct (Nat.eqb_spec j i) as [->|]; reflexivity.
Qed.

Lemma dead_handler : forall s j, dead j s -> dead j (timer_signal_handler s).
Proof.
  intros s j [D L]. unfold timer_signal_handler. destruct (chain s) as [|i r]; [now split|].
  split; [|exact L]. cbn [tms with_pipe with_tms]. rewrite mark_deleted. unfold set_tm. destruct (Nat.eqb_spec j i) as [->|]; exact D.
Qed.

Lemma dead_pass : forall s dt b j, dead j s -> dead j (pass s dt b).
Proof.
  intros s dt b j D. unfold pass. destruct (itimer s) as [r|]; [|exact D].
  destruct (dt <? r); [exact D|]. cbn [caught with_now with_alarm]. destruct (caught s); [|exact D].
  destruct b; [exact D|]. apply dead_handler. exact D.
Qed.

Lemma dead_unblock : forall s j, dead j s -> dead j (unblock s).
Proof.
  intros s j D. unfold unblock. destruct (pending s); [|exact D]. cbn [caught with_alarm].
  destruct (caught s); [|exact D]. apply dead_handler. exact D.
Qed.

Lemma pass_calls : forall s dt b, calls (pass s dt b) = calls s.
Proof.
  intros s dt b. unfold pass. destruct (itimer s) as [r|]; [|reflexivity].
  destruct (dt <? r); [reflexivity|]. cbn [caught with_now with_alarm]. destruct (caught s); [|reflexivity].
  destruct b; [reflexivity|]. unfold timer_signal_handler. cbn. destruct (chain s); reflexivity.
Qed.

Lemma unblock_calls : forall s, calls (unblock s) = calls s.
Proof.
  intros s. unfold unblock. destruct (pending s); [|reflexivity]. cbn [caught with_alarm].
  destruct (caught s); [|reflexivity]. unfold timer_signal_handler. cbn. destruct (chain s); reflexivity.
Qed.

Lemma setup_calls : forall s, calls (setup_next_timer s) = calls s.
Proof. intros s. apply setup_fields. Qed.

Lemma insert_calls : forall s i, calls (insert_timer s i) = calls s.
Proof.
  intros s i. unfold insert_timer. destruct (_ || _); [|reflexivity]. destruct (insert_walk _ _ _).
  destruct (head_is _ _); [now rewrite setup_calls|reflexivity].
Qed.

Lemma delete_calls : forall s i, calls (delete_timer s i) = calls s.
Proof.
  intros s i. unfold delete_timer. destruct (delete_walk _ _ _) as [[f c]|]; [|reflexivity].
  destruct (head_is _ _); [now rewrite setup_calls|reflexivity].
Qed.

Lemma op_calls : forall s o, calls (do_op s o) = calls s.
Proof.
  intros s [sc m|i|i p]; cbn [do_op].
  - unfold make_timer. destruct (fix_time sc m). now rewrite insert_calls.
  - destruct (Nat.ltb i (fresh s)); [apply delete_calls|reflexivity].
  - destruct (Nat.ltb i (fresh s)); [|reflexivity]. unfold set_timer. rewrite insert_calls.
    destruct p as [[sc m]|]; [destruct (fix_time sc m); cbn|]; apply delete_calls.
Qed.

Lemma dead_step : forall s F U e j, inv s F U -> pending s = false -> ok_event e ->
  (forall dt p, e <> EOp dt (OSet j p)) -> dead j s ->
  dead j (step s e) /\ times_called j (step s e) = times_called j s.
Proof.
  intros s F U e j V NP OK NS D. destruct e as [dt o|dt| |]; cbn [step].
  - destruct OK as [P OK]. split.
    + apply dead_unblock. apply (dead_op _ F U); [now apply pass_blocked_inv|exact OK|intros p ->; now apply (NS dt p)|now apply dead_pass].
    + unfold times_called. now rewrite unblock_calls, op_calls, pass_calls.
  - split; [now apply dead_pass|]. unfold times_called. now rewrite pass_calls.
  - destruct (pipe s); [now split|]. destruct (ready s) eqn:R; [|now split].
    rewrite (fd_handler_eq s F U V). set (sd := with_ready _ _ _). split; [apply dead_setup; exact D|].
    unfold times_called. now rewrite setup_calls.
  - unfold call_next. destruct (ready s) as [|i r] eqn:R; [now split|].
    cbn [tms with_ready]. destruct (deleted (tms s i)) eqn:Di; [split; [exact D|reflexivity]|].
    split; [exact D|]. unfold times_called. cbn. rewrite filter_app. cbn.
    destruct (Nat.eqb_spec i j) as [->|]; [destruct D; congruence|]. now rewrite app_nil_r.
Qed.

Theorem deleted_silent : forall es1 dt i es2,
  Forall ok_event (es1 ++ EOp dt (ODelete i) :: es2) -> never_set i es2 ->
  let s0 := run init es1 in
  (i < fresh s0)%nat ->
  let s := step s0 (EOp dt (ODelete i)) in
  times_called i (run s es2) = times_called i s.
Proof.
  intros es1 dt i es2 OK NS s0 L s. apply Forall_app in OK. destruct OK as [OK1 OK2].
  apply Forall_cons_iff in OK2. destruct OK2 as [O OK2].
  destruct (run_inv es1 init [] [] inv_init eq_refl OK1) as (F & U & V & NP). fold s0 in V, NP.
  assert (D : dead i s).
  { unfold s. cbn [step]. apply dead_unblock. cbn [do_op]. destruct (pass_load s0 dt true i) as [_ FR].
    rewrite FR. replace (Nat.ltb i (fresh s0)) with true by (symmetry; apply Nat.ltb_lt; exact L).
    apply (dead_delete _ F U); [apply pass_blocked_inv; [exact V|apply O]|]. right. split; [reflexivity|congruence]. }
  destruct (step_inv s0 F U _ V NP O) as (F1 & U1 & W & NP'). fold s in W, NP'. clearbody s. clear - D W NP' OK2 NS.
  revert s F1 U1 D W NP'. induction es2 as [|e es IH]; intros s F U D V NP; [reflexivity|].
  apply Forall_cons_iff in OK2. destruct OK2 as [O OK]. apply Forall_cons_iff in NS. destruct NS as [N NS].
  destruct (dead_step s F U e i V NP O N D) as [D' E]. destruct (step_inv s F U e V NP O) as (F1 & U1 & W & NP').
  cbn [run fold_left]. fold (run (step s e) es). rewrite (IH OK NS _ F1 U1 D' W NP'). exact E.
Qed.
