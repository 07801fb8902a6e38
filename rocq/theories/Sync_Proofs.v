(* The invariant of disciplined programs without timeouts. *)
From Coq Require Import ZArith List Bool Lia.
Import ListNotations.
From Verif Require Import Threads_Model Threads_Spec Threads_Proofs Sync_Model Sync_Spec Sync_SchedProofs Sync_PartProofs.

(** * Lists of instructions *)

Definition plainI (i : instr) : bool :=
  match i with
  | IWoken _ | IPush _ | IWait _ _ _ | IDelq _ _ | IWake _ _ | IClear _ _ | IEnq2 _ _ _ | IDeq1 _ | IDeq2 _ _ => false
  | _ => true
  end.
Definition plain (L : list instr) : Prop := forall i, In i L -> plainI i = true.
Lemma plain_nil : plain [].
Proof. intros i []. Qed.
Lemma plain_cons : forall i L, plainI i = true -> plain L -> plain (i :: L).
Proof. intros i L H P j [<- | I]; auto. Qed.
Lemma plain_tl : forall i L, plain (i :: L) -> plain L.
Proof. intros i L P j I. apply P. right; auto. Qed.
Lemma plain_hd : forall i L, plain (i :: L) -> plainI i = true.
Proof. intros i L P. apply P. left; auto. Qed.

Inductive tidy : list instr -> Prop :=
| T_plain : forall L, plain L -> tidy L
| T_woken : forall w L, plain L -> tidy (IWoken w :: L)
| T_push : forall c m ms L, plain L -> tidy (IPush c :: IWait c m ms :: L)
| T_wait : forall c m ms L, plain L -> tidy (IWait c m ms :: L)
| T_delq : forall c y L, plain L -> tidy (IDelq c y :: IWake c y :: L)
| T_wakes : forall c x l L, NoDup (x :: l) -> plain L -> tidy (IWake c x :: map (IWake c) l ++ L)
| T_clear : forall c l L, NoDup l -> plain L -> tidy (IClear c l :: map (IWake c) l ++ L)
| T_enq2 : forall p v q L, plain L -> tidy (IEnq2 p v q :: L)
| T_deq1 : forall p L, plain L -> tidy (IDeq1 p :: L)
| T_deq2 : forall p q L, plain L -> tidy (IDeq2 p q :: L).

Lemma tidy_rest : forall i L, tidy (i :: L) -> match i with IPush _ | IDelq _ _ | IWake _ _ | IClear _ _ => True | _ => plain L end.
Proof. intros i L H. inversion H; subst; auto. apply plain_tl in H0. destruct i; auto. Qed.
Lemma tidy_push : forall c L, tidy (IPush c :: L) -> exists m ms r, L = IWait c m ms :: r /\ plain r.
Proof. intros c L H. inversion H; subst; eauto. apply plain_hd in H0. discriminate. Qed.
Lemma tidy_delq : forall c y L, tidy (IDelq c y :: L) -> exists r, L = IWake c y :: r /\ plain r.
Proof. intros c y L H. inversion H; subst; eauto. apply plain_hd in H0. discriminate. Qed.
Lemma tidy_wake : forall c x L, tidy (IWake c x :: L) -> exists l r, L = map (IWake c) l ++ r /\ plain r /\ NoDup (x :: l).
Proof. intros c x L H. inversion H; subst; eauto. apply plain_hd in H0. discriminate. Qed.
Lemma tidy_clear : forall c l L, tidy (IClear c l :: L) -> exists r, L = map (IWake c) l ++ r /\ plain r /\ NoDup l.
Proof. intros c l L H. inversion H; subst; eauto. apply plain_hd in H0. discriminate. Qed.
Lemma tidy_wakes : forall c l L, NoDup l -> plain L -> tidy (map (IWake c) l ++ L).
Proof. intros c [| x l] L N P; cbn; [apply T_plain | apply T_wakes]; auto. Qed.

Lemma plain_wake : forall c x L, plain L -> ~ In (IWake c x) L.
Proof. intros c x L P I. apply P in I. discriminate. Qed.
Lemma in_wakes : forall c x d l L, plain L -> In (IWake c x) (map (IWake d) l ++ L) <-> c = d /\ In x l.
Proof.
  intros c x d l L P. rewrite in_app_iff, in_map_iff. split.
  - intros [(y & E & I) | I]; [injection E as -> ->; auto | destruct (plain_wake _ _ _ P I)].
  - intros [-> I]. left. exists x. auto.
Qed.

(* where the mutex m must and must not be held *)
Section Discipline.
Variable am : nat -> nat.
Definition amo (c : obj) : obj := match c with User n => User (am n) | Port p => Port p end.

Fixpoint chk (m : obj) (h : bool) (L : list instr) : bool :=
  match L with
  | [] => match m with Port _ => negb h | User _ => true end
  | i :: r =>
    match i with
    | IObtain n _ | IWoken (WMutex n) => if obj_eqb n m then negb h && chk m true r else chk m h r
    | IWoken (WCond c) => negb (h && obj_eqb (amo c) m) && chk m h r
    | IMaybe n => if obj_eqb n m then chk m true r && chk m h r else chk m h r
    | IRelease n => if obj_eqb n m then h && chk m false r else chk m h r
    | IPush c | ITake c | IDelq c _ | IWake c _ | IBroad c | IClear c _ => if obj_eqb (amo c) m then h && chk m h r else chk m h r
    | IWait c n _ => obj_eqb n (amo c) && if obj_eqb n m then h && chk m false r else chk m h r
    | IEnq1 p _ | IEnq2 p _ _ | IFetch p _ _ | IDeq1 p | IDeq2 p _ | ICheck p => if obj_eqb (Port p) m then h && chk m h r else chk m h r
    | ICleanup => chk m h r
    end
  end.

Fixpoint facq (a : bool) (L : list instr) : bool :=
  match L with
  | [] => true
  | i :: r =>
    match i with
    | IWoken (WCond _) | IWait _ _ _ => facq true r
    | IFetch _ _ first => (first || a) && facq a r
    | _ => facq a r
    end
  end.
Lemma facq_true : forall L a, facq a L = true -> facq true L = true.
Proof.
  induction L as [| i r IH]; intros a H; auto. cbn [facq] in *.
  destruct i; try destruct w; eauto. rewrite andb_true_iff in *. rewrite orb_true_r. destruct H. eauto.
Qed.

Definition blb (L : list instr) (m : obj) : bool := match L with IWoken (WMutex n) :: _ => obj_eqb n m | _ => false end.
Definition wtb (L : list instr) (c : obj) : bool := match L with IWoken (WCond n) :: _ => obj_eqb n c | _ => false end.
Definition iwb (L : list instr) (c : obj) : bool := match L with IWait n _ _ :: _ => obj_eqb n c | _ => false end.
Definition dqp (L : list instr) (c : obj) (y : nat) : Prop := match L with IDelq d z :: _ => d = c /\ z = y | _ => False end.
Definition clp (L : list instr) (c : obj) (l : list nat) : Prop := match L with IClear d k :: _ => d = c /\ k = l | _ => False end.
Definition wkp (L : list instr) (c : obj) (x : nat) : Prop := In (IWake c x) L.

Lemma plain_blb : forall L m, plain L -> blb L m = false.
Proof. intros [| i L] m P; auto. apply plain_hd in P. destruct i; auto; discriminate. Qed.
Lemma plain_wtb : forall L m, plain L -> wtb L m = false.
Proof. intros [| i L] m P; auto. apply plain_hd in P. destruct i; auto; discriminate. Qed.
Lemma plain_iwb : forall L m, plain L -> iwb L m = false.
Proof. intros [| i L] m P; auto. apply plain_hd in P. destruct i; auto; discriminate. Qed.
Lemma plain_dqp : forall L m x, plain L -> dqp L m x <-> False.
Proof. intros [| i L] m x P; [cbn; tauto |]. apply plain_hd in P. destruct i; cbn; try tauto; discriminate. Qed.
Lemma plain_clp : forall L m x, plain L -> clp L m x <-> False.
Proof. intros [| i L] m x P; [cbn; tauto |]. apply plain_hd in P. destruct i; cbn; try tauto; discriminate. Qed.
Lemma plain_wkp : forall L m x, plain L -> wkp L m x <-> False.
Proof. intros. split; [apply plain_wake; auto | tauto]. Qed.

(* messages *)
Record QI (qu : nat -> list Z) (td : nat -> list instr) (se fe : nat -> list Z) : Prop := mkQI {
  q_fifo : forall p, se p = fe p ++ qu p;
  q_td : forall t, match td t with
                   | IEnq2 p _ q :: _ => q = qu p
                   | IDeq1 p :: _ => qu p <> []
                   | IDeq2 p q :: _ => q = qu p /\ q <> []
                   | _ => True
                   end
}.

Record good (s : sst) : Prop := mkGood {
  g_sched : sched (ts s);
  g_count : forall t, (nth_ (ts s) <= t)%nat -> todo s t = [];
  g_live : forall t, stack (ts s) <> [] -> todo s t <> [] -> exited (att (th (ts s) t)) = false;
  g_susp : forall t, stack (ts s) <> [] -> (t < nth_ (ts s))%nat -> susp (att (th (ts s) t)) = true -> todo s t = [] \/ exists w l, todo s t = IWoken w :: l;
  g_ev : forall t w l, todo s t = IWoken w :: l -> ev (ts s) t = Some false \/ ev (ts s) t = Some true /\ susp (att (th (ts s) t)) = false;
  g_tidy : forall t, tidy (todo s t);
  g_chk : forall t m, chk m (holds (trace s) t m) (todo s t) = true;
  g_acq : forall t, facq (acq s t) (todo s t) = true;
  g_mi : MI (mtx s) (holds (trace s)) (fun t => blb (todo s t)) (ev (ts s)) (tries (trace s)) (gots (trace s));
  g_ci : CI (cvs s) (fun t => iwb (todo s t)) (fun t => wtb (todo s t)) (fun t => dqp (todo s t)) (fun t => clp (todo s t)) (fun t => wkp (todo s t))
    (ev (ts s)) (waits (trace s)) (chosen (trace s));
  g_qi : QI (queue s) (todo s) (sent (trace s)) (fetched (trace s));
  g_noerr : forall t, ~ In (TError t) (trace s);
  g_nonil : forall t p, ~ In (TFetched t p None) (trace s)
}.

(** * What the checks imply *)

Lemma chk_other : forall m h h' L, chk m h L = true -> h' = h -> chk m h' L = true.
Proof. intros. now subst. Qed.

Lemma lock_wk : forall L c x h, tidy L -> wkp L c x -> chk (amo c) h L = true -> h = true.
Proof.
  intros L c x h T I C. unfold wkp in I. inversion T; subst.
  - destruct (plain_wake _ _ _ H I).
  - destruct I as [I | I]; [discriminate | destruct (plain_wake _ _ _ H I)].
  - destruct I as [I | [I | I]]; try discriminate. destruct (plain_wake _ _ _ H I).
  - destruct I as [I | I]; [discriminate | destruct (plain_wake _ _ _ H I)].
  - destruct I as [I | [I | I]]; try discriminate; [| destruct (plain_wake _ _ _ H I)]. injection I as -> ->. cbn [chk] in C. rewrite obj_eqb_refl in C. apply andb_true_iff in C. apply C.
  - assert (E : c0 = c).
    { destruct I as [I | I]; [congruence |]. apply in_wakes in I; auto. symmetry. apply I. }
    subst c0. cbn [chk] in C. rewrite obj_eqb_refl in C. apply andb_true_iff in C. apply C.
  - destruct I as [I | I]; [discriminate |]. apply in_wakes in I; auto. destruct I as [<- I]. cbn [chk] in C. rewrite obj_eqb_refl in C. apply andb_true_iff in C. apply C.
  - destruct I as [I | I]; [discriminate | destruct (plain_wake _ _ _ H I)].
  - destruct I as [I | I]; [discriminate | destruct (plain_wake _ _ _ H I)].
  - destruct I as [I | I]; [discriminate | destruct (plain_wake _ _ _ H I)].
Qed.
Lemma lock_iw : forall L c h, iwb L c = true -> chk (amo c) h L = true -> h = true.
Proof.
  intros [| i L] c h I C; cbn in I; [discriminate |]. destruct i; try discriminate. destruct (obj_eqb_spec c0 c); [subst | discriminate].
  cbn [chk] in C. apply andb_true_iff in C. destruct C as [E C]. rewrite E in C. apply andb_true_iff in C. apply C.
Qed.
Lemma lock_dq : forall L c y h, dqp L c y -> chk (amo c) h L = true -> h = true.
Proof.
  intros [| i L] c y h I C; cbn in I; [tauto |]. destruct i; try tauto. destruct I as [-> ->]. cbn [chk] in C. rewrite obj_eqb_refl in C. apply andb_true_iff in C. apply C.
Qed.
Lemma lock_cl : forall L c y h, clp L c y -> chk (amo c) h L = true -> h = true.
Proof.
  intros [| i L] c y h I C; cbn in I; [tauto |]. destruct i; try tauto. destruct I as [-> ->]. cbn [chk] in C. rewrite obj_eqb_refl in C. apply andb_true_iff in C. apply C.
Qed.

Lemma good_excl : forall s t u m, good s -> holds (trace s) t m = true -> holds (trace s) u m = true -> t = u.
Proof.
  intros s t u m G H1 H2. destruct (i_ho _ _ _ _ _ _ (g_mi _ G) _ _ H1) as [l1 E1]. destruct (i_ho _ _ _ _ _ _ (g_mi _ G) _ _ H2) as [l2 E2]. congruence.
Qed.

Lemma todo_lt : forall s t, good s -> todo s t <> [] -> (t < nth_ (ts s))%nat.
Proof. intros s t G H. destruct (Nat.lt_ge_cases t (nth_ (ts s))); auto. exfalso. apply H. apply (g_count _ G); auto. Qed.
Lemma blb_todo : forall L m, blb L m = true -> L <> [].
Proof. intros [| i L] m; cbn; [discriminate | intros _ X; discriminate]. Qed.
Lemma wtb_todo : forall L m, wtb L m = true -> L <> [].
Proof. intros [| i L] m; cbn; [discriminate | intros _ X; discriminate]. Qed.
Lemma blb_one : forall L m n, blb L m = true -> blb L n = true -> n = m.
Proof. intros [| i L] m n; cbn; try discriminate. destruct i; try discriminate. destruct w; try discriminate. destruct (obj_eqb_spec m0 m), (obj_eqb_spec m0 n); congruence. Qed.
Lemma wtb_one : forall L m n, wtb L m = true -> wtb L n = true -> n = m.
Proof. intros [| i L] m n; cbn; try discriminate. destruct i; try discriminate. destruct w; try discriminate. destruct (obj_eqb_spec c m), (obj_eqb_spec c n); congruence. Qed.
Lemma blb_wtb : forall L m n, blb L m = true -> wtb L n = false.
Proof. intros [| i L] m n; cbn; try discriminate. destruct i; try discriminate. destruct w; try discriminate. auto. Qed.
Lemma wtb_blb : forall L m n, wtb L m = true -> blb L n = false.
Proof. intros [| i L] m n; cbn; try discriminate. destruct i; try discriminate. destruct w; try discriminate. auto. Qed.

(** * One thread moves *)

(* what a step of thread t, during which x may be woken, leaves to be shown *)
Lemma good_step : forall s s' t x L', good s -> (t < nth_ (ts s))%nat ->
  sched (ts s') -> moved (fun u => u = t \/ u = x) (ts s) (ts s') ->
  todo s' = upd (todo s) t L' ->
  (stack (ts s') <> [] -> exited (att (th (ts s') t)) = false) ->
  (susp (att (th (ts s') t)) = true -> exists w l, L' = IWoken w :: l) ->
  (x <> t -> (x < nth_ (ts s))%nat /\ ev (ts s') x = Some true /\ susp (att (th (ts s') x)) = false /\ (stack (ts s') <> [] -> exited (att (th (ts s') x)) = false)) ->
  (forall w l, L' = IWoken w :: l -> ev (ts s') t = Some false) ->
  tidy L' ->
  (forall m, chk m (holds (trace s') t m) L' = true) ->
  (forall u m, u <> t -> holds (trace s') u m = holds (trace s) u m) ->
  (forall u, u <> t -> acq s' u = acq s u) -> facq (acq s' t) L' = true ->
  MI (mtx s') (holds (trace s')) (fun t => blb (todo s' t)) (ev (ts s')) (tries (trace s')) (gots (trace s')) ->
  CI (cvs s') (fun t => iwb (todo s' t)) (fun t => wtb (todo s' t)) (fun t => dqp (todo s' t)) (fun t => clp (todo s' t)) (fun t => wkp (todo s' t))
    (ev (ts s')) (waits (trace s')) (chosen (trace s')) ->
  QI (queue s') (todo s') (sent (trace s')) (fetched (trace s')) ->
  (forall u, ~ In (TError u) (trace s')) -> (forall u p, ~ In (TFetched u p None) (trace s')) ->
  good s'.
Proof.
  intros s s' t x L' G LT SC (MV1 & MV2 & MV3) TD EX SU WX EV TI CH HO AO AT HM HC HQ NE NN.
  assert (TDT : todo s' t = L') by (rewrite TD; unfold upd; now rewrite Nat.eqb_refl).
  assert (TDO : forall u, u <> t -> todo s' u = todo s u).
  { intros u N. rewrite TD. unfold upd. destruct (Nat.eqb_spec u t); [contradiction | auto]. }
  constructor; auto.
  - intros u L. rewrite TDO by lia. apply (g_count _ G). lia.
  - intros u ST NT. destruct (Nat.eq_dec u t) as [-> | N]; auto. rewrite TDO in NT by auto.
    destruct (Nat.eq_dec u x) as [-> | N2]; [apply WX; auto |].
    destruct (MV3 u (todo_lt _ _ G NT)) as (_ & _ & E); [intros [|]; auto |]. rewrite E by auto. apply (g_live _ G); auto. rewrite <- MV2; auto.
  - intros u ST L X. destruct (Nat.eq_dec u t) as [-> | N]; [rewrite TDT; auto |]. rewrite TDO by auto.
    destruct (Nat.eq_dec u x) as [-> | N2]; [destruct (WX N) as (_ & _ & Y & _); congruence |].
    destruct (Nat.lt_ge_cases u (nth_ (ts s))) as [Lu | Lu]; [| left; apply (g_count _ G); auto].
    destruct (MV3 u Lu) as (_ & E & _); [intros [|]; auto |]. apply (g_susp _ G); auto. rewrite <- MV2; auto.
  - intros u w l E. destruct (Nat.eq_dec u t) as [-> | N].
    + rewrite TDT in E. left. eauto.
    + destruct (Nat.eq_dec u x) as [-> | N2]; [right; split; apply WX; auto |]. rewrite TDO in E by auto.
      assert (NT : todo s u <> []) by congruence.
      destruct (MV3 u (todo_lt _ _ G NT)) as (E1 & E2 & _); [intros [|]; auto |]. rewrite E1.
      destruct (g_ev _ G u w l E) as [X | [X Y]]; auto. right. split; auto.
      destruct (susp (att (th (ts s') u))) eqn:Z; auto. rewrite E2 in Y; auto.
  - intros u. destruct (Nat.eq_dec u t) as [-> | N]; [now rewrite TDT | rewrite TDO by auto; apply (g_tidy _ G)].
  - intros u m. destruct (Nat.eq_dec u t) as [-> | N]; [rewrite TDT; auto | rewrite TDO by auto]. rewrite HO by auto. apply (g_chk _ G).
  - intros u. destruct (Nat.eq_dec u t) as [-> | N]; [now rewrite TDT | rewrite TDO by auto]. rewrite AO by auto. apply (g_acq _ G).
Qed.

Lemma upd_same : forall A (f : nat -> A) t v, upd f t v t = v.
Proof. intros. unfold upd. now rewrite Nat.eqb_refl. Qed.
Lemma upd_other : forall A (f : nat -> A) t v u, u <> t -> upd f t v u = f u.
Proof. intros. unfold upd. destruct (Nat.eqb_spec u t); congruence. Qed.

Lemma MI_same : forall s t L' mt' ho' e' tr' go', good s ->
  (forall m, mt' m = mtx s m) -> (forall u m, ho' u m = holds (trace s) u m) ->
  (forall m, blb L' m = blb (todo s t) m) ->
  (forall u m, blb (todo s u) m = true -> e' u = ev (ts s) u) ->
  (forall m, tr' m = tries (trace s) m) -> (forall m, go' m = gots (trace s) m) ->
  MI mt' ho' (fun u => blb (upd (todo s) t L' u)) e' tr' go'.
Proof.
  intros s t L' mt' ho' e' tr' go' G E1 E2 E3 E4 E5 E6. refine (MI_ext _ _ _ _ _ _ _ _ _ _ _ _ E1 E2 _ E4 E5 E6 (g_mi _ G)).
  intros u m. unfold upd. destruct (Nat.eqb_spec u t); subst; auto.
Qed.

Lemma CI_same : forall s t L' cv' e' wa' ch', good s ->
  (forall c, cv' c = cvs s c) ->
  (forall c, iwb L' c = iwb (todo s t) c) -> (forall c, wtb L' c = wtb (todo s t) c) ->
  (forall c y, dqp L' c y <-> dqp (todo s t) c y) -> (forall c y, clp L' c y <-> clp (todo s t) c y) -> (forall c y, wkp L' c y <-> wkp (todo s t) c y) ->
  (forall u c, wtb (todo s u) c = true -> e' u = ev (ts s) u) ->
  (forall c, wa' c = waits (trace s) c) -> (forall c, ch' c = chosen (trace s) c) ->
  CI cv' (fun u => iwb (upd (todo s) t L' u)) (fun u => wtb (upd (todo s) t L' u)) (fun u => dqp (upd (todo s) t L' u))
    (fun u => clp (upd (todo s) t L' u)) (fun u => wkp (upd (todo s) t L' u)) e' wa' ch'.
Proof.
  intros s t L' cv' e' wa' ch' G E1 E2 E3 E4 E5 E6 E7 E8 E9.
  refine (CI_ext _ _ _ _ _ _ _ _ _ _ _ _ _ _ _ _ _ _ E1 _ _ _ _ _ E7 E8 E9 (g_ci _ G));
    intros u c; unfold upd; destruct (Nat.eqb_spec u t); subst; auto; intros; reflexivity.
Qed.

Lemma QI_same : forall s t L' qu' se' fe', good s ->
  (forall p, qu' p = queue s p) -> match L' with IEnq2 _ _ _ :: _ | IDeq1 _ :: _ | IDeq2 _ _ :: _ => False | _ => True end ->
  (forall p, se' p = sent (trace s) p) -> (forall p, fe' p = fetched (trace s) p) ->
  QI qu' (upd (todo s) t L') se' fe'.
Proof.
  intros s t L' qu' se' fe' G E1 E2 E3 E4. destruct (g_qi _ G) as [H1 H2]. constructor.
  - intros p. rewrite E1, E3, E4. auto.
  - intros u. unfold upd. destruct (Nat.eqb_spec u t).
    + destruct L' as [| i L']; auto. destruct i; auto; contradiction.
    + pose proof (H2 u) as X. destruct (todo s u) as [| i r]; auto. destruct i; auto; rewrite E1; auto.
Qed.
Lemma plain_q : forall L, plain L -> match L with IEnq2 _ _ _ :: _ | IDeq1 _ :: _ | IDeq2 _ _ :: _ => False | _ => True end.
Proof. intros [| i L] P; auto. apply plain_hd in P. destruct i; auto; discriminate. Qed.


Lemma good_quiet : forall s s' t i l L', good s -> (t < nth_ (ts s))%nat -> (stack (ts s) <> [] -> exited (att (th (ts s) t)) = false) -> susp (att (th (ts s) t)) = false -> todo s t = i :: l ->
  ts s' = ts s -> (forall m, mtx s' m = mtx s m) -> todo s' = upd (todo s) t L' -> acq s' = acq s ->
  (forall u m, holds (trace s') u m = holds (trace s) u m) -> (forall m, tries (trace s') m = tries (trace s) m) -> (forall m, gots (trace s') m = gots (trace s) m) ->
  (forall w, i <> IWoken w) -> (forall w r, L' <> IWoken w :: r) ->
  tidy L' -> (forall m, chk m (holds (trace s) t m) L' = true) -> facq (acq s t) L' = true ->
  CI (cvs s') (fun u => iwb (upd (todo s) t L' u)) (fun u => wtb (upd (todo s) t L' u)) (fun u => dqp (upd (todo s) t L' u))
    (fun u => clp (upd (todo s) t L' u)) (fun u => wkp (upd (todo s) t L' u)) (ev (ts s)) (waits (trace s')) (chosen (trace s')) ->
  QI (queue s') (upd (todo s) t L') (sent (trace s')) (fetched (trace s')) ->
  (forall u, ~ In (TError u) (trace s')) -> (forall u p, ~ In (TFetched u p None) (trace s')) ->
  good s'.
Proof.
  intros s s' t i l L' G LT EX SU TD E1 E2 E3 E4 E5 E6 E7 NI NL TI CH FA HC HQ NE NN.
  apply good_step with (s := s) (t := t) (x := t) (L' := L'); auto; rewrite ?E1, ?E3, ?E4; auto.
  - apply (g_sched _ G).
  - apply moved_refl.
  - congruence.
  - intros X; contradiction.
  - intros w r X. destruct (NL _ _ X).
  - intros m. rewrite E5. auto.
  - apply MI_same; auto. intros m. rewrite TD.
    assert (forall r, blb (i :: r) m = false) as -> by (intros; destruct i; auto; destruct (NI w eq_refl)).
    destruct L' as [| j r]; auto. destruct j; auto. destruct (NL _ _ eq_refl).
Qed.

(* splitting a check *)
Lemma chk_hd : forall m h i r, chk m h (i :: r) = true ->
  match i with
  | IObtain n _ | IWoken (WMutex n) => if obj_eqb n m then h = false /\ chk m true r = true else chk m h r = true
  | IWoken (WCond c) => (amo c = m -> h = false) /\ chk m h r = true
  | IMaybe n => if obj_eqb n m then chk m true r = true /\ chk m h r = true else chk m h r = true
  | IRelease n => if obj_eqb n m then h = true /\ chk m false r = true else chk m h r = true
  | IPush c | ITake c | IDelq c _ | IWake c _ | IBroad c | IClear c _ => (amo c = m -> h = true) /\ chk m h r = true
  | IWait c n _ => n = amo c /\ if obj_eqb n m then h = true /\ chk m false r = true else chk m h r = true
  | IEnq1 p _ | IEnq2 p _ _ | IFetch p _ _ | IDeq1 p | IDeq2 p _ | ICheck p => (Port p = m -> h = true) /\ chk m h r = true
  | ICleanup => chk m h r = true
  end.
Proof.
  intros m h i r C. cbn [chk] in C. destruct i; try destruct w; auto;
    try (match type of C with context [obj_eqb ?a ?b] => destruct (obj_eqb_spec a b); subst end; auto; rewrite ?andb_true_iff, ?negb_true_iff in C; tauto).
  - rewrite andb_true_iff, negb_true_iff in C. destruct C as [C1 C2]. split; auto. intros <-. rewrite obj_eqb_refl in C1. now rewrite andb_true_r in C1.
  - rewrite andb_true_iff in C. destruct C as [C1 C2]. destruct (obj_eqb_spec m0 (amo c)); [| discriminate]. split; auto.
    destruct (obj_eqb m0 m); auto. now rewrite andb_true_iff in C2.
Qed.

Lemma chk_intro1 : forall m h c r, (amo c = m -> h = true) -> chk m h r = true -> forall i, In i [IPush c; ITake c; IBroad c] \/ (exists x, i = IDelq c x) \/ (exists x, i = IWake c x) \/ (exists x, i = IClear c x) ->
  chk m h (i :: r) = true.
Proof.
  intros m h c r A C i I. assert (X : (if obj_eqb (amo c) m then h && chk m h r else chk m h r) = true).
  { destruct (obj_eqb_spec (amo c) m); auto. rewrite A, <- (A e) by auto. rewrite C. now rewrite (A e). }
  destruct I as [[<- | [<- | [<- | []]]] | [[x ->] | [[x ->] | [x ->]]]]; auto.
Qed.

Section Exec.
Variables (s : sst) (t : nat) (i : instr) (l : list instr).
Hypothesis G : good s.
Hypothesis CUR : current (ts s) t.
Hypothesis NF : failed (ts s) = false.
Hypothesis TD : todo s t = i :: l.

Lemma x_lt : (t < nth_ (ts s))%nat.
Proof. apply (current_live _ _ (g_sched _ G) CUR). Qed.
Lemma x_live : exited (att (th (ts s) t)) = false.
Proof. apply (current_live _ _ (g_sched _ G) CUR). Qed.
Lemma x_susp : susp (att (th (ts s) t)) = false.
Proof. apply (current_live _ _ (g_sched _ G) CUR). Qed.
Lemma x_tidy : tidy (i :: l).
Proof. rewrite <- TD. apply (g_tidy _ G). Qed.
Lemma x_chk : forall m, chk m (holds (trace s) t m) (i :: l) = true.
Proof. intros. rewrite <- TD. apply (g_chk _ G). Qed.
Lemma x_acq : facq (acq s t) (i :: l) = true.
Proof. rewrite <- TD. apply (g_acq _ G). Qed.

(* whoever deals with c holds its mutex *)
Lemma x_only : forall c, holds (trace s) t (amo c) = true ->
  (forall u, iwb (todo s u) c = true -> u = t) /\ (forall u y, dqp (todo s u) c y -> u = t) /\ (forall u k, clp (todo s u) c k -> u = t) /\
  (forall u x, wkp (todo s u) c x -> u = t).
Proof.
  intros c H. repeat split; intros u; intros; eapply (good_excl s u t (amo c)); eauto.
  - eapply lock_iw; eauto. apply (g_chk _ G).
  - eapply lock_dq; eauto. apply (g_chk _ G).
  - eapply lock_cl; eauto. apply (g_chk _ G).
  - eapply lock_wk; eauto. apply (g_tidy _ G). apply (g_chk _ G).
Qed.
Lemma x_port : forall u p, holds (trace s) t (Port p) = true ->
  match todo s u with IEnq2 q _ _ :: _ | IDeq1 q :: _ | IDeq2 q _ :: _ => q = p -> u = t | _ => True end.
Proof.
  intros u p H. pose proof (g_chk _ G u (Port p)) as C. destruct (todo s u) as [| j r]; auto.
  destruct j; auto; intros ->; apply chk_hd in C; destruct C as [C _]; apply (good_excl s u t (Port p)); auto.
Qed.

Lemma noerr_log : forall o, (forall u, o <> TError u) -> (forall u p, o <> TFetched u p None) ->
  (forall u, ~ In (TError u) (o :: trace s)) /\ (forall u p, ~ In (TFetched u p None) (o :: trace s)).
Proof.
  intros o H1 H2. split.
  - intros u [X | X]; [eapply H1; eauto | eapply (g_noerr _ G); eauto].
  - intros u p [X | X]; [eapply H2; eauto | eapply (g_nonil _ G); eauto].
Qed.

(* condition variables are not involved *)
Lemma CI_plain : forall L' cv' e' wa' ch', 
  match i with IWoken (WCond _) | IWait _ _ _ | IDelq _ _ | IClear _ _ | IWake _ _ => False | _ => True end ->
  match i with IPush _ => False | _ => True end ->
  plain L' \/ (match L' with [] => True | IWoken (WMutex _) :: r | IEnq2 _ _ _ :: r | IDeq1 _ :: r | IDeq2 _ _ :: r => plain r | IPush _ :: IWait _ _ _ :: r => plain r | _ => False end) ->
  (forall c, cv' c = cvs s c) -> 
  (forall u c, wtb (todo s u) c = true -> e' u = ev (ts s) u) ->
  (forall c, wa' c = waits (trace s) c) -> (forall c, ch' c = chosen (trace s) c) ->
  CI cv' (fun u => iwb (upd (todo s) t L' u)) (fun u => wtb (upd (todo s) t L' u)) (fun u => dqp (upd (todo s) t L' u))
    (fun u => clp (upd (todo s) t L' u)) (fun u => wkp (upd (todo s) t L' u)) e' wa' ch'.
Proof.
  intros L' cv' e' wa' ch' HI HP HL E1 E2 E3 E4.
  assert (PL : plain l). { pose proof (tidy_rest _ _ x_tidy) as X. destruct i; auto; contradiction. }
  assert (A : (forall c, iwb (todo s t) c = false) /\ (forall c, wtb (todo s t) c = false) /\ (forall c y, dqp (todo s t) c y <-> False) /\
    (forall c y, clp (todo s t) c y <-> False) /\ (forall c y, wkp (todo s t) c y <-> False)).
  { rewrite TD. repeat split; intros; try tauto; try (destruct i; try destruct w; auto; contradiction).
    - destruct H as [X | X]; [subst i; contradiction | eapply plain_wake; eauto]. }
  destruct A as (A1 & A2 & A3 & A4 & A5).
  assert (B : (forall c, iwb L' c = false) /\ (forall c, wtb L' c = false) /\ (forall c y, dqp L' c y <-> False) /\
    (forall c y, clp L' c y <-> False) /\ (forall c y, wkp L' c y <-> False)).
  { destruct HL as [P | P].
    - repeat split; intros; try tauto; try (now rewrite ?plain_iwb, ?plain_wtb by auto).
      + apply plain_dqp in H; auto. + apply plain_clp in H; auto. + apply plain_wkp in H; auto.
    - destruct L' as [| j r]; [repeat split; auto; try tauto; intros [] |].
      destruct j; try contradiction.
      + destruct w; [| contradiction]. repeat split; auto; try (intros; contradiction); intros [X | X]; [discriminate | exact (plain_wake _ _ _ P X)].
      + destruct r as [| j r]; [contradiction |]. destruct j; try contradiction.
        repeat split; auto; try (intros; contradiction); intros [X | [X | X]]; try discriminate; exact (plain_wake _ _ _ P X).
      + repeat split; auto; try (intros; contradiction); intros [X | X]; [discriminate | exact (plain_wake _ _ _ P X)].
      + repeat split; auto; try (intros; contradiction); intros [X | X]; [discriminate | exact (plain_wake _ _ _ P X)].
      + repeat split; auto; try (intros; contradiction); intros [X | X]; [discriminate | exact (plain_wake _ _ _ P X)]. }
  destruct B as (B1 & B2 & B3 & B4 & B5).
  apply CI_same; auto; intros.
  - now rewrite A1, B1. - now rewrite A2, B2. - now rewrite A3, B3. - now rewrite A4, B4. - now rewrite A5, B5.
Qed.
End Exec.
End Discipline.
