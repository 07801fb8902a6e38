(* No message waits in a port while all threads that could take it are asleep. *)
From Coq Require Import ZArith List Bool Lia ZifyBool.
Import ListNotations.
From Verif Require Import Threads_Model Threads_Spec Threads_Proofs Sync_Model Sync_Spec Sync_SchedProofs Sync_PartProofs Sync_Proofs Sync_ExecProofs Sync_RunProofs.

(** * Counting *)

Definition b2n (b : bool) : nat := if b then 1 else 0.
Fixpoint cnt (f : nat -> bool) (n : nat) : nat := match n with O => O | S k => cnt f k + b2n (f k) end.

Lemma cnt_ext : forall f g n, (forall u, (u < n)%nat -> f u = g u) -> cnt f n = cnt g n.
Proof. induction n; intros H; cbn; auto. rewrite IHn, H; auto. Qed.
Lemma cnt_mono : forall f g n m, (forall u, f u = true -> g u = true) -> (n <= m)%nat -> (cnt f n <= cnt g m)%nat.
Proof.
  intros f g n m H L. induction L as [| m L IH].
  - induction n; cbn; auto. specialize (H n). destruct (f n), (g n); cbn; lia.
  - cbn. lia.
Qed.
Lemma cnt_upd : forall f g n t, (t < n)%nat -> (forall u, u <> t -> g u = f u) -> (cnt g n + b2n (f t) = cnt f n + b2n (g t))%nat.
Proof.
  induction n as [| n IH]; intros t L H; [lia |]. cbn. destruct (Nat.eq_dec t n) as [-> | N].
  - rewrite (cnt_ext g f n); [lia |]. intros u Lu. apply H. lia.
  - rewrite (H n) by auto. specialize (IH t ltac:(lia) H). lia.
Qed.
Lemma cnt_pos : forall f n, (0 < cnt f n)%nat -> exists u, (u < n)%nat /\ f u = true.
Proof.
  induction n; cbn; intros H; [lia |]. destruct (f n) eqn:E; [exists n; split; [lia | auto] |]. cbn in H. destruct IHn as (u & L & F); [lia |]. exists u. split; [lia | auto].
Qed.

(** * Who will see to the messages of a port *)

Definition obl (p : nat) (L : list instr) (incv : bool) : bool :=
  match L with
  | ITake (Port q) :: _ | IDelq (Port q) _ :: _ | IDeq1 q :: _ | IDeq2 q _ :: _ => Nat.eqb q p
  | IFetch q _ first :: _ => negb first && Nat.eqb q p
  | IObtain (Port q) _ :: IFetch _ _ false :: _ | IWoken (WMutex (Port q)) :: IFetch _ _ false :: _ => Nat.eqb q p
  | IWoken (WCond (Port q)) :: _ => Nat.eqb q p && negb incv
  | _ => false
  end.

Definition link (i : instr) (r : list instr) : Prop :=
  match i with
  | IEnq1 p _ | IEnq2 p _ _ => exists r', r = ITake (Port p) :: r'
  | IWait (Port p) _ _ | IWoken (WCond (Port p)) => exists ms ms' r', r = IObtain (Port p) ms :: IFetch p ms' false :: r'
  | IObtain (Port p) _ | IWoken (WMutex (Port p)) => forall q ms f r', r = IFetch q ms f :: r' -> q = p
  | IBroad (Port _) | IClear (Port _) _ => False
  | _ => True
  end.
Fixpoint lnk (L : list instr) : Prop := match L with [] => True | i :: r => link i r /\ lnk r end.
(* calls on ports end with release-mutex *)
Definition portal (i : instr) : option nat :=
  match i with
  | IObtain (Port p) _ | IWoken (WMutex (Port p)) | IWoken (WCond (Port p)) | IPush (Port p) | IWait (Port p) _ _ | ITake (Port p) | IDelq (Port p) _
  | IWake (Port p) _ | IEnq1 p _ | IEnq2 p _ _ | IFetch p _ _ | IDeq1 p | IDeq2 p _ | ICheck p | IRelease (Port p) => Some p
  | _ => None
  end.
Fixpoint closed (L : list instr) : Prop :=
  match L with
  | [] => True
  | i :: r => (forall p, portal i = Some p -> In (IRelease (Port p)) (i :: r)) /\ closed r
  end.
(* a call on a port concerns no other mutex *)
Definition uni (L : list instr) : Prop := forall i j p, In i L -> In j L -> portal i = Some p -> portal j = Some p \/ j = ICleanup.

Section Port.
Variable am : nat -> nat.
Notation good := (good am).

Definition inb (x : nat) (l : list nat) : bool := existsb (Nat.eqb x) l.
Lemma inb_in : forall x l, inb x l = true <-> In x l.
Proof.
  intros. unfold inb. rewrite existsb_exists. split.
  - intros (y & I & E). apply Nat.eqb_eq in E. now subst.
  - intros I. exists x. rewrite Nat.eqb_refl. auto.
Qed.

Record live (s : sst) : Prop := mkLive {
  v_lnk : forall t, lnk (todo s t);
  v_closed : forall t, closed (todo s t);
  v_uni : forall t, uni (todo s t);
  v_push : forall t p l, todo s t = IPush (Port p) :: l -> queue s p = [];
  v_cnt : forall p, cvs s (Port p) <> [] -> (length (queue s p) <= cnt (fun t => obl p (todo s t) (inb t (cvs s (Port p)))) (nth_ (ts s)))%nat
}.


Lemma closed_in : forall i r p, closed (i :: r) -> portal i = Some p -> i <> IRelease (Port p) -> In (IRelease (Port p)) r.
Proof. intros i r p [C _] E N. destruct (C p E) as [X | X]; auto. contradiction. Qed.
Lemma closed_swap : forall i j r, closed (i :: r) -> (forall p, portal j = Some p -> portal i = Some p /\ i <> IRelease (Port p)) -> closed (j :: r).
Proof.
  intros i j r C E. split; [| apply C]. intros p X. right. destruct (E p X). eapply closed_in; eauto.
Qed.
Lemma closed_wakes : forall c l i r, closed (i :: r) -> (forall p, c = Port p -> portal i = Some p /\ i <> IRelease (Port p)) -> closed (map (IWake c) l ++ r).
Proof.
  intros c l i r C E. induction l as [| x l IH]; cbn [map app]; [apply C |]. split; auto. intros p X.
  destruct c as [n | n]; cbn in X; [discriminate |]. injection X as ->. right. rewrite in_app_iff. right. destruct (E p eq_refl). eapply closed_in; eauto.
Qed.
Lemma lnk_wakes : forall c l r, lnk r -> lnk (map (IWake c) l ++ r).
Proof. intros c l r H. induction l; cbn [map app]; auto. split; auto. exact I. Qed.

Lemma closed_mem : forall L i p, closed L -> In i L -> portal i = Some p -> In (IRelease (Port p)) L.
Proof. induction L as [| j L IH]; intros i p C I E; [destruct I |]. destruct C as [C1 C2]. destruct I as [-> | I]; auto. right. eauto. Qed.
Lemma uni_tl : forall i r, uni (i :: r) -> uni r.
Proof. intros i r U a b p I J. apply U; right; auto. Qed.
Lemma uni_grow : forall new i r, uni (i :: r) -> i <> ICleanup -> (forall j, In j new -> portal j = portal i) -> uni (new ++ r).
Proof.
  intros new i r U NC E a b p I J PA. rewrite in_app_iff in I, J.
  assert (A : exists a', In a' (i :: r) /\ portal a' = Some p).
  { destruct I as [I | I]; [exists i | exists a]; split; auto; [left; auto | rewrite <- (E a I); auto | right; auto]. }
  destruct A as (a' & A1 & A2). destruct J as [J | J].
  - destruct (U a' i p A1 (or_introl eq_refl) A2) as [X | X]; [left; rewrite (E b J); auto | contradiction].
  - apply (U a' b p A1 (or_intror J) A2).
Qed.
Lemma uni_swap : forall i j r, uni (i :: r) -> i <> ICleanup -> portal j = portal i -> uni (j :: r).
Proof. intros i j r U NC E. apply (uni_grow [j] i r); auto. intros k [<- | []]; auto. Qed.

Definition oblf (s : sst) (p : nat) : nat -> bool := fun u => obl p (todo s u) (inb u (cvs s (Port p))).

Lemma live_step : forall s s' t L', good s -> live s -> (t < nth_ (ts s))%nat -> (nth_ (ts s) <= nth_ (ts s'))%nat ->
  todo s' = upd (todo s) t L' -> lnk L' -> closed L' -> uni L' ->
  (forall p l, L' = IPush (Port p) :: l -> queue s' p = []) ->
  (forall p, queue s' p = queue s p \/ forall u l, u <> t -> todo s u <> IPush (Port p) :: l) ->
  (forall p, cvs s' (Port p) <> [] -> (length (queue s' p) <= cnt (oblf s' p) (nth_ (ts s)))%nat) -> live s'.
Proof.
  intros s s' t L' G V LT NT TD LK CL UN PU QU CN.
  assert (TDT : todo s' t = L') by (rewrite TD; apply upd_same).
  assert (TDO : forall u, u <> t -> todo s' u = todo s u) by (intros; rewrite TD; apply upd_other; auto).
  constructor.
  - intros u. destruct (Nat.eq_dec u t) as [-> | N]; [now rewrite TDT | rewrite TDO by auto; apply V].
  - intros u. destruct (Nat.eq_dec u t) as [-> | N]; [now rewrite TDT | rewrite TDO by auto; apply V].
  - intros u. destruct (Nat.eq_dec u t) as [-> | N]; [now rewrite TDT | rewrite TDO by auto; apply V].
  - intros u p l. destruct (Nat.eq_dec u t) as [-> | N]; [rewrite TDT; apply PU | rewrite TDO by auto]. intros E.
    destruct (QU p) as [-> | X]; [eapply v_push; eauto | destruct (X u l N E)].
  - intros p NE. eapply Nat.le_trans; [apply CN; auto |]. apply cnt_mono; auto.
Qed.

(* nothing changes but for t, which keeps what it has to do *)
Lemma cnt_keep : forall s s' t L' p, good s -> live s -> todo s' = upd (todo s) t L' -> cvs s' (Port p) = cvs s (Port p) -> queue s' p = queue s p ->
  (oblf s p t = true -> obl p L' (inb t (cvs s (Port p))) = true) ->
  cvs s' (Port p) <> [] -> (length (queue s' p) <= cnt (oblf s' p) (nth_ (ts s)))%nat.
Proof.
  intros s s' t L' p G V TD EC EQ H NE. rewrite EC in NE. rewrite EQ. eapply Nat.le_trans; [apply (v_cnt _ V); auto |]. apply cnt_mono; auto.
  intros u X. unfold oblf. rewrite EC, TD. unfold upd. destruct (Nat.eqb_spec u t) as [-> | N]; auto.
Qed.

Section Exec.
Variables (s : sst) (t : nat) (l : list instr).
Hypothesis G : good s.
Hypothesis V : live s.
Hypothesis CUR : current (ts s) t.
Hypothesis NF : failed (ts s) = false.
Local Notation LT := (x_lt am s t G CUR).

(* steps that concern no port, or change nothing in one *)
Lemma live_keep : forall s' i L', todo s t = i :: l -> (nth_ (ts s) <= nth_ (ts s'))%nat -> todo s' = upd (todo s) t L' ->
  (forall p, cvs s' (Port p) = cvs s (Port p)) -> (forall p, queue s' p = queue s p) ->
  lnk L' -> closed L' -> uni L' -> (forall p r, L' <> IPush (Port p) :: r) ->
  (forall p, obl p (i :: l) (inb t (cvs s (Port p))) = true -> obl p L' (inb t (cvs s (Port p))) = true) -> live s'.
Proof.
  intros s' i L' TD NT TD' EC EQ LK CL UN NP OB. apply live_step with (s := s) (t := t) (L' := L'); auto using LT.
  - intros p r X. destruct (NP _ _ X).
  - intros p NE. apply cnt_keep with (t := t) (L' := L'); auto. unfold oblf. rewrite TD. apply OB.
Qed.

Lemma live_exec : forall i, todo s t = i :: l -> failed (ts (exec s t i l)) = false -> no_timeout (trace (exec s t i l)) -> live (exec s t i l).
Proof.
  intros i TD F N. pose proof (v_lnk _ V t) as LK. pose proof (v_closed _ V t) as CL. pose proof (v_uni _ V t) as UN. rewrite TD in LK, CL, UN.
  pose proof (x_tidy am s t _ _ G TD) as T. pose proof (x_chk am s t _ _ G TD) as C.
  assert (PLH : plain l -> forall p r, l <> IPush (Port p) :: r) by (intros P p r ->; apply plain_hd in P; discriminate).
  pose proof (tidy_rest _ _ T) as P.
  destruct LK as [LK1 LK2]. pose proof (proj2 CL) as CL2. pose proof (uni_tl _ _ UN) as UN2.
  assert (OL : forall p b, plain l -> match l with ITake _ :: _ | IFetch _ _ _ :: _ | IObtain _ _ :: _ => False | _ => True end -> obl p l b = false).
  { intros p b PL H. destruct l as [| j r]; auto. apply plain_hd in PL. destruct j; auto; try discriminate; contradiction. }
  assert (HN : forall c, holds (trace s) t (amo am c) = true -> forall p, c = Port p -> forall u r, u <> t -> todo s u <> IPush (Port p) :: r).
  { intros c H p -> u r NU E. apply NU. apply (good_excl am s u t (Port p)); auto. pose proof (g_chk _ _ G u (Port p)) as X. rewrite E in X. apply (chk_hd _ _ _ _ _ X). auto. }
  destruct i; cbn [exec] in *; cbn in P.
  - (* IObtain *)
    cbn [mtx log]. destruct (mtx s m) as [| o r] eqn:E.
    + eapply live_keep with (L' := l); eauto. intros p. cbn [obl]. destruct m as [n | n]; [discriminate |]. destruct l as [| [] l']; try discriminate.
      destruct first; [discriminate |]. intros X. cbn. rewrite (LK1 _ _ _ _ eq_refl). exact X.
    + destruct (step_suspend (ts s) t ms (g_sched _ _ G) CUR NF) as (S1 & S2 & S3 & S4 & S5).
      eapply live_keep with (L' := IWoken (WMutex m) :: l); eauto.
      * apply S2.
      * split; auto.
      * apply closed_swap with (IObtain m ms); auto. intros p X. split; [exact X | discriminate].
      * apply uni_swap with (IObtain m ms); auto; discriminate.
      * discriminate.
  - (* IWoken *)
    assert (EV : ev (ts s) t = Some true).
    { destruct (g_ev _ _ G t w l TD) as [X | [X _]]; auto. exfalso. unfold ev in X. rewrite X in N. destruct w; exact (N _ (or_introl eq_refl)). }
    destruct w as [m | c].
    + eapply live_keep with (L' := l); eauto. intros p. cbn [obl]. destruct m as [n | n]; [discriminate |]. destruct l as [| [] l']; try discriminate.
      destruct first; [discriminate |]. intros X. cbn. rewrite (LK1 _ _ _ _ eq_refl). exact X.
    + eapply live_keep with (L' := l); eauto. intros p. cbn [obl]. destruct c as [n | n]; [discriminate |]. destruct LK1 as (ms & ms' & r' & ->).
      intros X. apply andb_true_iff in X. apply X.
  - (* IMaybe *)
    assert (A : forall p b, obl p (IMaybe m :: l) b = true -> obl p l b = true) by discriminate.
    destruct (mtx s m); eapply live_keep with (L' := l); eauto.
  - (* IRelease *)
    assert (H : holds (trace s) t m = true). { pose proof (chk_hd _ _ _ _ _ (C m)) as X. cbn in X. rewrite obj_eqb_refl in X. apply X. }
    destruct (i_ho _ _ _ _ _ _ (g_mi _ _ G) _ _ H) as [ws E].
    destruct (rel_ts am s t G CUR NF m ws l H E) as (ts' & R & K). rewrite R in *. destruct (K F) as (S1 & S2 & _).
    eapply live_keep with (L' := l); eauto. apply S2. discriminate.
  - (* IPush *)
    destruct (tidy_push _ _ T) as (m & ms & r & EL & PL).
    assert (H : holds (trace s) t (amo am c) = true) by (apply (chk_hd _ _ _ _ _ (C (amo am c))); auto).
    set (s1 := if existsb _ _ then _ else _).
    assert (A : ts s1 = ts s /\ queue s1 = queue s /\ todo s1 = todo s) by (unfold s1; destruct (existsb _ _); cbn; auto).
    destruct A as (A1 & A2 & A3).
    apply live_step with (s := s) (t := t) (L' := l); auto using LT.
    + cbn [s_todo ts]. rewrite A1. auto.
    + cbn [s_todo todo]. now rewrite A3.
    + rewrite EL. discriminate.
    + intros p. left. cbn [s_todo queue]. now rewrite A2.
    + intros p NE. cbn [s_todo queue]. rewrite A2. destruct (obj_eqb_spec c (Port p)) as [-> | NC].
      * rewrite (v_push _ V t p _ TD). cbn. lia.
      * assert (EC : cvs (s_todo s1 t l) (Port p) = cvs s (Port p)).
        { unfold s1. cbn [s_todo cvs]. destruct (existsb _ _); auto. cbn [s_cvs cvs log]. apply oput_other. congruence. }
        eapply cnt_keep with (t := t) (L' := l) in NE; eauto.
        -- cbn [s_todo queue] in NE. rewrite A2 in NE. exact NE.
        -- cbn [s_todo todo]. now rewrite A3.
        -- cbn [s_todo queue]. now rewrite A2.
        -- unfold oblf. rewrite TD. discriminate.
  - (* IWait *)
    assert (H : holds (trace s) t m = true). { pose proof (chk_hd _ _ _ _ _ (C m)) as X. cbn in X. rewrite obj_eqb_refl in X. apply X. }
    destruct (i_ho _ _ _ _ _ _ (g_mi _ _ G) _ _ H) as [ws E].
    destruct (rel_ts am s t G CUR NF m ws (IWoken (WCond c) :: l) H E) as (ts' & R & K). rewrite R in *.
    assert (TT : todo (s_todo (s_ts (log (s_mtx s m ws) (TRel t m)) ts') t (IWoken (WCond c) :: l)) t = IWoken (WCond c) :: l) by (cbn [s_todo todo]; apply upd_same).
    rewrite TT in *.
    assert (NF1 : failed ts' = false).
    { destruct (failed ts') eqn:FF; auto. unfold do_suspend, step in F. cbn [ts s_todo s_ts] in F. rewrite FF in F. cbv iota in F. rewrite FF in F. discriminate. }
    destruct (K NF1) as (S1 & S2 & S3 & _).
    destruct (step_suspend ts' t ms S1 S3 NF1) as (U1 & U2 & _).
    eapply live_keep with (L' := IWoken (WCond c) :: l); eauto.
    + cbn [do_suspend s_ts ts s_todo]. destruct S2 as (X & _). destruct U2 as (Y & _). lia.
    + split; auto.
    + apply closed_swap with (IWait c m ms); auto. intros p X. destruct c; [discriminate |]. split; [exact X | discriminate].
    + apply uni_swap with (IWait c m ms); auto; discriminate.
    + discriminate.
    + discriminate.
  - (* ITake *)
    destruct (cvs s c) as [| x r] eqn:E.
    + apply live_step with (s := s) (t := t) (L' := l); auto using LT.
      * intros p r X. destruct (PLH P _ _ X).
      * intros p NE. destruct (obj_eqb_spec c (Port p)) as [-> | NC]; [cbn in NE; contradiction |].
        eapply cnt_keep with (t := t) (L' := l) in NE; eauto. unfold oblf. rewrite TD. cbn [obl]. destruct c as [n | n]; [discriminate |].
        destruct (Nat.eqb_spec n p); [congruence | discriminate].
    + eapply live_keep with (L' := IDelq c (last (x :: r) x) :: IWake c (last (x :: r) x) :: l); eauto; try discriminate.
      * split; [exact I |]. split; [exact I | auto].
      * assert (A : forall j, portal j = portal (ITake c) -> closed (j :: l)).
        { intros j X. apply closed_swap with (ITake c); auto. intros p Y. rewrite X in Y. split; [auto | discriminate]. }
        split; [| apply A; destruct c; auto]. intros p X. right. right. eapply (closed_in (ITake c)); eauto; destruct c; auto; discriminate.
      * apply (uni_grow [IDelq c (last (x :: r) x); IWake c (last (x :: r) x)] (ITake c)); auto; [discriminate |]. intros j [<- | [<- | []]]; destruct c; auto.
  - (* IDelq *)
    destruct (tidy_delq _ _ _ T) as (r & EL & PL).
    assert (H : holds (trace s) t (amo am c) = true) by (apply (chk_hd _ _ _ _ _ (C (amo am c))); auto).
    destruct (j_dq _ _ _ _ _ _ _ _ _ (g_ci _ _ G) t c t0) as [[r0 E] W]; [rewrite TD; cbn; auto |].
    destruct (j_wk _ _ _ _ _ _ _ _ _ (g_ci _ _ G) t c t0 W) as [W1 W2].
    pose proof (j_nodup _ _ _ _ _ _ _ _ _ (g_ci _ _ G) c) as ND. rewrite E in ND.
    pose proof (remove_last _ _ ND) as RM. rewrite <- E in RM.
    assert (NX : t0 <> t) by (intros ->; rewrite TD in W1; discriminate).
    assert (LX : (t0 < nth_ (ts s))%nat) by (apply (todo_lt am); auto; eapply wtb_todo; eauto).
    apply live_step with (s := s) (t := t) (L' := l); auto using LT.
    + intros p q X. rewrite EL in X. discriminate.
    + intros p NE. destruct (obj_eqb_spec c (Port p)) as [-> | NC].
      * set (s' := s_todo _ t l) in *. change (queue s' p) with (queue s p).
        assert (EC : cvs s' (Port p) = r0) by (unfold s'; cbn [s_todo log s_cvs cvs]; rewrite oput_same; exact RM).
        assert (NI : ~ In t0 r0). { apply NoDup_remove in ND. rewrite app_nil_r in ND. apply ND. }
        eapply Nat.le_trans; [apply (v_cnt _ V p); rewrite E; destruct r0; discriminate |].
        change (cnt (oblf s p) (nth_ (ts s)) <= cnt (oblf s' p) (nth_ (ts s)))%nat.
        set (g := fun u => if Nat.eqb u t then false else oblf s p u).
        pose proof (cnt_upd (oblf s p) g (nth_ (ts s)) t LT) as X1.
        pose proof (cnt_upd g (oblf s' p) (nth_ (ts s)) t0 LX) as X2.
        assert (Y1 : oblf s p t = true) by (unfold oblf; rewrite TD; cbn; apply Nat.eqb_refl).
        assert (Y2 : g t = false) by (unfold g; now rewrite Nat.eqb_refl).
        assert (Y3 : g t0 = false).
        { unfold g. destruct (Nat.eqb_spec t0 t); [contradiction |]. unfold oblf. destruct (todo s t0) as [| [] q]; try discriminate. destruct w; [discriminate |].
          cbn in W1. destruct (obj_eqb_spec c (Port p)); [subst c | discriminate]. cbn. assert (inb t0 (cvs s (Port p)) = true) as ->; [| now rewrite andb_false_r].
          apply inb_in. rewrite E, in_app_iff. right; left; auto. }
        assert (Y4 : oblf s' p t0 = true).
        { unfold oblf. rewrite EC. unfold s'. cbn [s_todo log s_cvs todo]. rewrite upd_other by auto. destruct (todo s t0) as [| [] q]; try discriminate. destruct w; [discriminate |].
          cbn in W1. destruct (obj_eqb_spec c (Port p)); [subst c | discriminate]. cbn. rewrite Nat.eqb_refl. cbn.
          destruct (inb t0 r0) eqn:Z; auto. apply inb_in in Z. contradiction. }
        specialize (X1 ltac:(intros u NU; unfold g; destruct (Nat.eqb_spec u t); [contradiction | auto])).
        assert (Z : forall u, u <> t0 -> oblf s' p u = g u).
        { intros u NU. unfold g. destruct (Nat.eqb_spec u t) as [-> | N2].
          - unfold oblf, s'. cbn [s_todo log s_cvs todo]. rewrite upd_same, EL. reflexivity.
          - unfold oblf. rewrite EC. unfold s'. cbn [s_todo log s_cvs todo]. rewrite upd_other by auto. f_equal. rewrite E.
            destruct (inb u (r0 ++ [t0])) eqn:B1, (inb u r0) eqn:B2; auto.
            + apply inb_in in B1. rewrite in_app_iff in B1. destruct B1 as [B1 | [B1 | []]]; [| congruence]. apply inb_in in B1. congruence.
            + apply inb_in in B2. assert (inb u (r0 ++ [t0]) = true) by (apply inb_in; rewrite in_app_iff; auto). congruence. }
        specialize (X2 Z). rewrite Y1, Y2 in X1. rewrite Y3, Y4 in X2. cbn in X1, X2. lia.
      * eapply cnt_keep with (t := t) (L' := l) in NE; eauto.
        -- cbn [s_todo log s_cvs cvs]. apply oput_other. congruence.
        -- unfold oblf. rewrite TD. cbn [obl]. destruct c as [n | n]; [discriminate |]. destruct (Nat.eqb_spec n p); [congruence | discriminate].
  - (* IWake *)
    destruct (tidy_wake _ _ _ T) as (k & r & EL & PL & ND).
    assert (NP : forall p q, l <> IPush (Port p) :: q).
    { intros p q X. rewrite EL in X. destruct k; [cbn in X; subst r; apply plain_hd in PL; discriminate | discriminate]. }
    unfold do_wake in *. destruct (threadp (ts s) t0) eqn:TP.
    + destruct (step_wake (ts s) t0 (g_sched _ _ G) TP NF) as (W1 & W2 & _).
      eapply live_keep with (L' := l); eauto; [apply W2 | discriminate].
    + exfalso. destruct (j_wk _ _ _ _ _ _ _ _ _ (g_ci _ _ G) t c t0) as [B _]; [rewrite TD; left; auto |].
      pose proof (wtb_todo _ _ B) as NT'. pose proof (todo_lt am s t0 G NT') as LX.
      assert (SK : stack (ts s) <> []) by (destruct CUR as (r1 & l1 & E1 & _); congruence).
      pose proof (g_live _ _ G t0 SK NT') as EXX. unfold threadp in TP. rewrite EXX in TP. destruct (Nat.ltb_spec t0 (nth_ (ts s))); [discriminate | lia].
  - (* IBroad *)
    eapply live_keep with (L' := IClear c (rev (cvs s c)) :: map (IWake c) (rev (cvs s c)) ++ l); eauto; try discriminate.
    + split; [exact LK1 | apply lnk_wakes; auto].
    + destruct c as [c | c]; [| contradiction]. split; [discriminate |]. apply closed_wakes with (IBroad (User c)); auto. discriminate.
    + destruct c as [c | c]; [| contradiction]. apply (uni_grow (IClear (User c) (rev (cvs s (User c))) :: map (IWake (User c)) (rev (cvs s (User c)))) (IBroad (User c))); auto; [discriminate |].
      intros j [<- | J]; auto. apply in_map_iff in J. destruct J as (y & <- & _). auto.
  - (* IClear *)
    destruct c as [c | c]; [| contradiction].
    destruct (tidy_clear _ _ _ T) as (r & EL & PL & ND).
    assert (NP : forall p q, l <> IPush (Port p) :: q).
    { intros p q X. rewrite EL in X. destruct l0; [cbn in X; subst r; apply plain_hd in PL; discriminate | discriminate]. }
    eapply live_keep with (L' := l); eauto. discriminate.
  - (* IEnq1 *)
    eapply live_keep with (L' := IEnq2 p v (queue s p) :: l); eauto; try discriminate.
    + split; auto.
    + apply closed_swap with (IEnq1 p v); auto. intros n X. split; [exact X | discriminate].
    + apply uni_swap with (IEnq1 p v); auto; discriminate.
  - (* IEnq2 *)
    assert (H : holds (trace s) t (Port p) = true) by (apply (chk_hd _ _ _ _ _ (C (Port p))); auto).
    pose proof (q_td _ _ _ _ (g_qi _ _ G) t) as Q. rewrite TD in Q. destruct LK1 as [r' EL].
    apply live_step with (s := s) (t := t) (L' := l); auto using LT.
    + rewrite EL. discriminate.
    + intros n. destruct (Nat.eq_dec n p) as [-> | NP]; [right; intros; apply (HN (Port p)); auto | left]. cbn [s_todo log s_queue queue]. apply upd_other; auto.
    + intros n NE. destruct (Nat.eq_dec n p) as [-> | NP].
      * set (s' := s_todo _ t l) in *. assert (EQ : queue s' p = queue s p ++ [v]) by (unfold s'; cbn [s_todo log s_queue queue]; rewrite upd_same; congruence).
        rewrite EQ, app_length. cbn [length].
        pose proof (cnt_upd (oblf s p) (oblf s' p) (nth_ (ts s)) t LT) as X.
        assert (Y1 : oblf s p t = false) by (unfold oblf; now rewrite TD).
        assert (Y2 : oblf s' p t = true) by (unfold oblf, s'; cbn [s_todo log s_queue todo]; rewrite upd_same, EL; cbn; apply Nat.eqb_refl).
        rewrite Y1, Y2 in X. cbn in X.
        assert (Z : forall u, u <> t -> oblf s' p u = oblf s p u) by (intros u NU; unfold oblf, s'; cbn [s_todo log s_queue todo cvs]; now rewrite upd_other by auto).
        specialize (X Z). pose proof (v_cnt _ V p NE) as W. change (length (queue s p) <= cnt (oblf s p) (nth_ (ts s)))%nat in W. lia.
      * eapply cnt_keep with (t := t) (L' := l) in NE; eauto.
        -- cbn [s_todo log s_queue queue]. apply upd_other; auto.
        -- unfold oblf. rewrite TD. discriminate.
  - (* IFetch *)
    destruct (queue s p) as [| v q] eqn:E.
    + pose proof (x_acq am s t _ _ G TD) as FA. cbn [facq] in FA. apply andb_true_iff in FA. destruct FA as [F1 _]. rewrite F1 in *.
      apply live_step with (s := s) (t := t) (L' := [IPush (Port p); IWait (Port p) (Port p) ms; IObtain (Port p) None; IFetch p ms false] ++ l); auto using LT.
      * cbn [app lnk link]. split; auto. split; eauto. split; [intros; congruence | auto].
      * assert (IR : In (IRelease (Port p)) l) by (eapply (closed_in (IFetch p ms first)); eauto; discriminate).
        cbn [app closed portal]. repeat (split; [intros n X; injection X as <-; cbn; tauto |]). auto.
      * apply (uni_grow [IPush (Port p); IWait (Port p) (Port p) ms; IObtain (Port p) None; IFetch p ms false] (IFetch p ms first)); auto; [discriminate |].
        intros j [<- | [<- | [<- | [<- | []]]]]; auto.
      * intros n r X. cbn in X. injection X as -> _. exact E.
      * intros n NE. destruct (Nat.eq_dec n p) as [-> | NP]; [cbn; rewrite E; cbn; lia |].
        apply cnt_keep with (s := s) (t := t) (L' := [IPush (Port p); IWait (Port p) (Port p) ms; IObtain (Port p) None; IFetch p ms false] ++ l); auto. unfold oblf. rewrite TD. cbn. destruct (Nat.eqb_spec p n); [congruence | now rewrite andb_false_r].
    + eapply live_keep with (L' := IDeq1 p :: l); eauto; try discriminate.
      * split; auto.
      * apply closed_swap with (IFetch p ms first); auto. intros n X. split; [exact X | discriminate].
      * apply uni_swap with (IFetch p ms first); auto; discriminate.
      * intros n. cbn [obl]. intros X. apply andb_true_iff in X. apply X.
  - (* IDeq1 *)
    pose proof (q_td _ _ _ _ (g_qi _ _ G) t) as Q. rewrite TD in Q. destruct (queue s p) as [| v q] eqn:E; [congruence |].
    eapply live_keep with (L' := IDeq2 p (v :: q) :: l); eauto; try discriminate.
    + split; auto.
    + apply closed_swap with (IDeq1 p); auto. intros n X. split; [exact X | discriminate].
    + apply uni_swap with (IDeq1 p); auto; discriminate.
  - (* IDeq2 *)
    assert (H : holds (trace s) t (Port p) = true) by (apply (chk_hd _ _ _ _ _ (C (Port p))); auto).
    pose proof (q_td _ _ _ _ (g_qi _ _ G) t) as Q. rewrite TD in Q. destruct Q as [Q QN].
    apply live_step with (s := s) (t := t) (L' := l); auto using LT.
    + intros n r X. destruct (PLH P _ _ X).
    + intros n. destruct (Nat.eq_dec n p) as [-> | NP]; [right; intros; apply (HN (Port p)); auto | left]. cbn [s_todo log s_queue queue]. apply upd_other; auto.
    + intros n NE. destruct (Nat.eq_dec n p) as [-> | NP].
      * set (s' := s_todo _ t l) in *. assert (EQ : queue s' p = tl q) by (unfold s'; cbn [s_todo log s_queue queue]; now rewrite upd_same).
        pose proof (cnt_upd (oblf s p) (oblf s' p) (nth_ (ts s)) t LT) as X.
        assert (Y1 : oblf s p t = true) by (unfold oblf; rewrite TD; cbn; apply Nat.eqb_refl). rewrite Y1 in X. cbn in X.
        assert (Z : forall u, u <> t -> oblf s' p u = oblf s p u) by (intros u NU; unfold oblf, s'; cbn [s_todo log s_queue todo cvs]; now rewrite upd_other by auto).
        specialize (X Z). pose proof (v_cnt _ V p NE) as W. change (length (queue s p) <= cnt (oblf s p) (nth_ (ts s)))%nat in W. rewrite <- Q in W. rewrite EQ.
        destruct q as [| v q]; [congruence |]. cbn [tl length] in *. lia.
      * eapply cnt_keep with (t := t) (L' := l) in NE; eauto.
        -- cbn [s_todo log s_queue queue]. apply upd_other; auto.
        -- unfold oblf. rewrite TD. cbn. destruct (Nat.eqb_spec p n); [congruence | discriminate].
  - (* ICheck *) eapply live_keep with (L' := l); eauto; discriminate.
  - (* ICleanup *) eapply live_keep with (L' := l); eauto; discriminate.
Qed.
End Exec.

Lemma live_init : live sinit.
Proof.
  constructor; cbn [todo sinit cvs].
  - intros _. exact I.
  - intros _. exact I.
  - intros _ i j p [].
  - discriminate.
  - intros p X. contradiction.
Qed.

Lemma live_ts : forall s x, live s -> (nth_ (ts s) <= nth_ x)%nat -> live (s_ts s x).
Proof.
  intros s x [V1 V2 V3 V4 V5] L. constructor; auto. intros p NE. eapply Nat.le_trans; [apply (V5 p NE) |]. apply cnt_mono; auto.
Qed.

Lemma live_call : forall s t c, good s -> live s -> current (ts s) t -> todo s t = [] -> live (s_todo s t (prog c)).
Proof.
  intros s t c G V CUR TD. apply live_step with (s := s) (t := t) (L' := prog c); auto.
  - apply (x_lt am s t G CUR).
  - destruct c; cbn; try tauto; eauto 10.
    + split; [discriminate |]. eauto 10.
    + split; [| tauto]. intros q ms' f r X. congruence.
    + split; [discriminate |]. tauto.
  - destruct c; cbn; try (repeat (split; [intros q X; first [discriminate | injection X as <-; tauto] |]); tauto).
  - intros i j p I J P. destruct c; cbn in I, J;
      repeat (destruct I as [<- | I]; [cbn in P; try discriminate P; try (injection P as <-); repeat (destruct J as [<- | J]; [cbn; auto |]); destruct J |]); destruct I.
  - intros p l X. destruct c; discriminate.
  - intros p NE. apply cnt_keep with (t := t) (L' := prog c); auto. unfold oblf. rewrite TD. discriminate.
Qed.

Lemma live_sstep : forall s e, good s -> live s -> failed (ts (sstep s e)) = false -> no_timeout (trace (sstep s e)) -> live (sstep s e).
Proof.
  intros s e G V NF' NT. destruct (failed (ts s)) eqn:NF; [rewrite sstep_failed in * by auto; congruence |].
  unfold sstep in *. rewrite NF in *.
  pose proof (current_step (ts s) NF) as CS. pose proof (current_of (ts s)) as CO. pose proof (current_none (ts s) (g_sched _ _ G) NF) as CN.
  destruct (current_thread (ts s)) as [x me]. cbn [fst snd] in *.
  destruct (step_simple (ts s) EList I (g_sched _ _ G)) as [SX MX]. rewrite <- CS in *.
  assert (NX : failed x = false) by (rewrite CS; now rewrite elist_failed by apply G).
  assert (G1 : good (s_ts s x)) by (apply good_ts with none; auto; intros u []).
  assert (V1 : live (s_ts s x)) by (apply live_ts; [auto | apply MX]).
  destruct e.
  - destruct (step_simple x EYield I SX) as [S2 M2]. apply (live_ts (s_ts s x)); auto. apply M2.
  - destruct (step_simple x (ETick dt) I SX) as [S2 M2]. apply (live_ts (s_ts s x)); auto. apply M2.
  - destruct (idle (s_ts s x) me); auto. destruct (step_simple x (EMake false) I SX) as [S2 M2]. apply (live_ts (s_ts s x)); auto. apply M2.
  - destruct me as [t |].
    + destruct (idle (s_ts s x) (Some t)); auto.
      destruct (step_sleep x t ms SX (CO t eq_refl) NX) as [S2 M2]. apply (live_ts (s_ts s x)); auto. apply M2.
    + cbn [idle]. specialize (CN eq_refl). destruct (step_simple x EList I SX) as [S2 M2].
      assert (E : step x (ESuspend None (Some ms)) = step x EList).
      { unfold step. rewrite NX. cbn [Fthread_suspend the_thread]. unfold Fthread_suspend, the_thread, current_thread. cbv zeta.
        assert (EE : ensure_default_thread x = x) by (unfold ensure_default_thread; now rewrite CN). rewrite EE, CN. reflexivity. }
      cbn [s_ts ts]. rewrite E. apply (live_ts (s_ts s x)); auto. apply M2.
  - destruct me as [t |].
    + destruct (idle (s_ts s x) (Some t)); auto.
      destruct (step_return x t SX (CO t eq_refl) NX) as [S2 M2]. apply (live_ts (s_ts s x)); auto. apply M2.
    + cbn [idle]. specialize (CN eq_refl).
      assert (E : step x EReturn = x). { unfold step. rewrite NX. unfold thread_return. now rewrite CN. }
      cbn [s_ts ts]. rewrite E. exact V1.
  - destruct me as [t |]; auto. destruct (idle (s_ts s x) (Some t)) eqn:ID; auto. cbn [idle s_ts todo] in ID.
    apply live_call; auto.
    cbn [s_ts todo]. destruct (todo s t); [auto | discriminate].
  - destruct me as [t |]; auto. destruct (todo (s_ts s x) t) as [| i l] eqn:TD; auto. apply live_exec; auto.
Qed.

Lemma live_run : forall es s, good s -> live s -> along (disciplined am) s es -> failed (ts (srun s es)) = false -> no_timeout (trace (srun s es)) -> live (srun s es).
Proof.
  induction es as [| e es IH]; intros s G V A F N; auto. destruct A as [A1 A2]. cbn [srun fold_left] in *.
  change (fold_left sstep es (sstep s e)) with (srun (sstep s e) es) in *.
  assert (F1 : failed (ts (sstep s e)) = false) by (destruct (failed (ts (sstep s e))) eqn:X; auto; rewrite srun_failed in F by auto; congruence).
  assert (N1 : no_timeout (trace (sstep s e))) by (destruct (srun_trace es (sstep s e)) as [new E]; rewrite E in N; eapply no_timeout_app; eauto).
  apply IH; auto. apply good_sstep; auto. apply live_sstep; auto.
Qed.

(** * Somebody will see to it *)


Section Lost.
Variables (s : sst) (p : nat).
Hypothesis G : good s.
Hypothesis V : live s.
Hypothesis SK : stack (ts s) <> [].

Lemma awake : forall y i l, todo s y = i :: l -> (forall w, i <> IWoken w) -> susp (att (th (ts s) y)) = false.
Proof.
  intros y i l TD N. destruct (susp (att (th (ts s) y))) eqn:E; auto. exfalso.
  destruct (g_susp _ _ G y SK) as [X | (w & r & X)]; auto; [apply (todo_lt am); congruence | congruence |]. apply (N w). congruence.
Qed.

Lemma busy_holder : forall y, holds (trace s) y (Port p) = true -> busy s p y.
Proof.
  intros y H. pose proof (g_chk _ _ G y (Port p)) as C. rewrite H in C. pose proof (g_tidy _ _ G y) as T.
  assert (R : forall L, chk am (Port p) true L = true -> exists i, In i L /\ portal i = Some p \/ exists c ms, In (IWait c (Port p) ms) L).
  { induction L as [| i L IH]; intros X; [discriminate |]. cbn [chk] in X.
    assert (K : chk am (Port p) true L = true -> exists j, In j (i :: L) /\ portal j = Some p \/ exists c ms, In (IWait c (Port p) ms) (i :: L)).
    { intros Y. destruct (IH Y) as (j & [[J1 J2] | (c & ms & J)]); exists j; [left; split; [right |]; auto | right; exists c, ms; right; auto]. }
    destruct i; try destruct w; auto; repeat rewrite andb_true_iff in X; try tauto;
      try (match type of X with context [if obj_eqb ?a ?b then _ else _] => destruct (obj_eqb_spec a b) as [EE | EE] end; [| auto]); try tauto;
      try (apply andb_true_iff in X; tauto).
    - subst. eexists. left. split; [left; reflexivity | reflexivity].
    - destruct X as [X1 X2]. destruct (obj_eqb_spec m (Port p)) as [-> | NE]; [| auto]. exists ICleanup. right. exists c, ms. left. auto. }
  destruct (todo s y) as [| i l] eqn:TD; [discriminate |].
  assert (NW : forall w, i <> IWoken w).
  { intros w ->. pose proof (tidy_rest _ _ T) as P. cbn in P.
    assert (PW : portal (IWoken w) = Some p).
    { destruct (R _ C) as (j & [[J1 J2] | (c & ms & J)]).
      - pose proof (v_uni _ V y) as U. rewrite TD in U. destruct (U j (IWoken w) p J1 (or_introl eq_refl) J2) as [X | X]; [auto | discriminate].
      - destruct J as [J | J]; [discriminate |]. apply P in J. discriminate. }
    apply chk_hd in C. destruct w as [[n | n] | [n | n]]; cbn in PW; try discriminate; injection PW as ->.
    - rewrite obj_eqb_refl in C. destruct C. discriminate.
    - destruct C as [C _]. specialize (C eq_refl). discriminate. }
  split; [| eapply awake; eauto].
  destruct (R _ C) as (j & [[J1 J2] | (c & ms & J)]).
  - rewrite <- TD in J1. eapply closed_mem; eauto. apply (v_closed _ V).
  - assert (CC : exists i0, In i0 (i :: l) /\ portal i0 = Some p).
    { assert (nopl : forall L, plain L -> In (IWait c (Port p) ms) L -> False) by (intros L P I; apply P in I; discriminate).
      inversion T; subst.
      - exfalso; eauto.
      - destruct (NW w eq_refl).
      - apply chk_hd in C. destruct C as [_ C]. apply chk_hd in C. destruct C as [C _].
        destruct J as [J | [J | J]]; [discriminate | | exfalso; eauto]. injection J as -> -> ->.
        destruct c as [c | c]; cbn in C; [discriminate |]. injection C as ->. exists (IPush (Port c)). split; [left |]; auto.
      - apply chk_hd in C. destruct C as [C _].
        destruct J as [J | J]; [| exfalso; eauto]. injection J as -> -> ->.
        destruct c as [c | c]; cbn in C; [discriminate |]. injection C as ->. exists (IWait (Port c) (Port c) ms). split; [left |]; auto.
      - destruct J as [J | [J | J]]; [discriminate | discriminate | exfalso; eauto].
      - destruct J as [J | J]; [discriminate |]. rewrite in_app_iff, in_map_iff in J. destruct J as [(y0 & J & _) | J]; [discriminate | exfalso; eauto].
      - destruct J as [J | J]; [discriminate |]. rewrite in_app_iff, in_map_iff in J. destruct J as [(y0 & J & _) | J]; [discriminate | exfalso; eauto].
      - destruct J as [J | J]; [discriminate | exfalso; eauto].
      - destruct J as [J | J]; [discriminate | exfalso; eauto].
      - destruct J as [J | J]; [discriminate | exfalso; eauto]. }
    destruct CC as (i0 & I0 & P0). rewrite <- TD in I0. eapply closed_mem; eauto. apply (v_closed _ V).
Qed.

Lemma released_awake : forall y w l, todo s y = IWoken w :: l -> ev (ts s) y = Some true -> susp (att (th (ts s) y)) = false.
Proof. intros y w l TD E. destruct (g_ev _ _ G y w l TD) as [X | [_ X]]; auto. congruence. Qed.

Lemma busy_blocked : forall y l, todo s y = IWoken (WMutex (Port p)) :: l -> exists z, busy s p z.
Proof.
  intros y l TD. assert (B : blb (todo s y) (Port p) = true) by (rewrite TD; apply obj_eqb_refl).
  destruct (i_bl _ _ _ _ _ _ (g_mi _ _ G) y (Port p) B) as [I _]. destruct (mtx s (Port p)) as [| h ws] eqn:E; [destruct I |].
  exists h. destruct (i_head _ _ _ _ _ _ (g_mi _ _ G) _ _ _ E) as [H | [H1 H2]]; [apply busy_holder; auto |].
  destruct (todo s h) as [| [] r] eqn:TH; try discriminate. destruct w; [| discriminate]. cbn in H1. destruct (obj_eqb_spec m (Port p)); [subst m | discriminate].
  split; [| eapply released_awake; eauto]. eapply closed_mem; [apply (v_closed _ V) | rewrite TH; left; reflexivity | reflexivity].
Qed.

Lemma busy_waker : forall t y, In (IWake (Port p) y) (todo s t) -> busy s p t.
Proof.
  intros t y I. split; [eapply closed_mem; [apply (v_closed _ V) | exact I | reflexivity] |].
  pose proof (g_tidy _ _ G t) as T. destruct (todo s t) as [| i l] eqn:TD; [destruct I |]. eapply awake; eauto.
  intros w ->. apply tidy_rest in T. destruct I as [I | I]; [discriminate |]. apply T in I. discriminate.
Qed.

Lemma no_lost : forall x, sent (trace s) p <> fetched (trace s) p -> waiting s x (Port p) -> ev (ts s) x = Some false -> exists y, busy s p y.
Proof.
  intros x NE [l TD] EV. assert (B : wtb (todo s x) (Port p) = true) by (rewrite TD; apply obj_eqb_refl).
  destruct (j_pend _ _ _ _ _ _ _ _ _ (g_ci _ _ G) x (Port p) B EV) as [I | [t W]]; [| exists t; eapply busy_waker; eauto].
  assert (QN : queue s p <> []). { intros Q. apply NE. rewrite (q_fifo _ _ _ _ (g_qi _ _ G) p), Q. apply app_nil_r. }
  assert (CN : cvs s (Port p) <> []) by (intros X; rewrite X in I; destruct I).
  pose proof (v_cnt _ V p CN) as C. destruct (queue s p) as [| v q] eqn:Q; [congruence |]. cbn [length] in C.
  destruct (cnt_pos _ _ (Nat.lt_le_trans _ _ _ (Nat.lt_0_succ _) C)) as (y & LY & O).
  pose proof (v_closed _ V y) as CL. pose proof (v_lnk _ V y) as LK. destruct (todo s y) as [| i r] eqn:TY; [discriminate |].
  assert (K : portal i = Some p -> (forall w, i <> IWoken w) -> exists y, busy s p y).
  { intros P N. exists y. split; [rewrite TY; eapply closed_mem; [exact CL | left; reflexivity | exact P] | eapply awake; eauto]. }
  destruct i; try discriminate; cbn [obl] in O.
  - destruct m as [n | n]; [discriminate |]. destruct r as [| [] r]; try discriminate. destruct first; [discriminate |]. apply Nat.eqb_eq in O. subst n. apply K; [auto | discriminate].
  - destruct w as [[n | n] | [n | n]]; try discriminate.
    + destruct r as [| [] r]; try discriminate. destruct first; [discriminate |]. apply Nat.eqb_eq in O. subst n. eapply busy_blocked; eauto.
    + apply andb_true_iff in O. destruct O as [O1 O2]. apply Nat.eqb_eq in O1. subst n.
      destruct (g_ev _ _ G y _ _ TY) as [X | [X Y]].
      * assert (B2 : wtb (todo s y) (Port p) = true) by (rewrite TY; apply obj_eqb_refl).
        destruct (j_pend _ _ _ _ _ _ _ _ _ (g_ci _ _ G) y (Port p) B2 X) as [I2 | [t W]]; [| exists t; eapply busy_waker; eauto].
        apply inb_in in I2. rewrite I2 in O2. discriminate.
      * exists y. split; auto. rewrite TY. eapply closed_mem; [exact CL | left; reflexivity | reflexivity].
  - destruct c as [n | n]; [discriminate |]. apply Nat.eqb_eq in O. subst n. apply K; [auto | discriminate].
  - destruct c as [n | n]; [discriminate |]. apply Nat.eqb_eq in O. subst n. apply K; [auto | discriminate].
  - apply andb_true_iff in O. destruct O as [_ O]. apply Nat.eqb_eq in O. subst. apply K; [auto | discriminate].
  - apply Nat.eqb_eq in O. subst. apply K; [auto | discriminate].
  - apply Nat.eqb_eq in O. subst. apply K; [auto | discriminate].
Qed.
End Lost.
End Port.
