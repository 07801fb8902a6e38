(* Doubly linked queues, and the primitives of Threads_Model refine those of the
   list scheduler of Threads_Spec. *)
From Coq Require Import ZArith List Bool Lia ZifyBool Permutation.
Import ListNotations.
From Verif Require Import Threads_Model Threads_Spec.

(** * Segments of doubly linked lists *)

Section seg.
Variable A : Type.

Definition hdo (l : list A) (d : option A) : option A := match l with [] => d | x :: _ => Some x end.
Fixpoint lasto (l : list A) (d : option A) : option A :=
  match l with [] => d | x :: r => lasto r (Some x) end.

Fixpoint seg (nx pr : A -> option A) (b : option A) (l : list A) (a : option A) : Prop :=
  match l with
  | [] => True
  | x :: r => pr x = b /\ nx x = hdo r a /\ seg nx pr (Some x) r a
  end.

Lemma lasto_app : forall l1 l2 d, lasto (l1 ++ l2) d = lasto l2 (lasto l1 d).
Proof. induction l1; cbn; intros; auto. Qed.

Lemma hdo_app : forall l1 l2 d, hdo (l1 ++ l2) d = hdo l1 (hdo l2 d).
Proof. destruct l1; reflexivity. Qed.

Lemma seg_app : forall nx pr l1 l2 b a,
  seg nx pr b (l1 ++ l2) a <-> seg nx pr b l1 (hdo l2 a) /\ seg nx pr (lasto l1 b) l2 a.
Proof.
  induction l1; cbn [app seg lasto]; intros.
  - tauto.
  - rewrite IHl1, hdo_app. tauto.
Qed.

Lemma seg_ext : forall nx pr nx' pr' l b a,
  (forall x, In x l -> nx' x = nx x /\ pr' x = pr x) -> seg nx pr b l a -> seg nx' pr' b l a.
Proof.
  induction l; cbn; intros b q H S; auto.
  destruct S as (S1 & S2 & S3). destruct (H a (or_introl eq_refl)) as [E1 E2].
  rewrite E1, E2. repeat split; auto.
Qed.

Lemma lasto_in : forall l b x, lasto l b = Some x -> In x l \/ (l = [] /\ b = Some x).
Proof.
  induction l; cbn; intros; auto.
  destruct (IHl _ _ H) as [I | [-> E]]; auto. injection E as <-. auto.
Qed.

Lemma lasto_cons_irrel : forall l a b b', lasto (a :: l) b = lasto (a :: l) b'.
Proof. reflexivity. Qed.

(* a new successor of the last one *)
Lemma seg_after : forall nx pr nx' pr' l b a a',
  NoDup l ->
  (forall x, In x l -> pr' x = pr x) ->
  (forall x, In x l -> lasto l None <> Some x -> nx' x = nx x) ->
  (forall x, lasto l None = Some x -> nx' x = a') ->
  seg nx pr b l a -> seg nx' pr' b l a'.
Proof.
  induction l as [| x r IH]; cbn [seg]; intros b a a' ND P N L S; auto.
  destruct S as (S1 & S2 & S3). inversion ND; subst.
  split; [rewrite P by (left; auto); auto |].
  destruct r as [| y r].
  - cbn in *. auto.
  - split.
    + cbn [hdo] in *. rewrite N; auto. left; auto.
      cbn [lasto]. intros E. destruct (lasto_in _ _ _ E) as [I | [-> E2]].
      * apply H1. right; auto.
      * injection E2 as <-. apply H1. left; auto.
    + eapply IH; eauto.
      * intros. apply P. right; auto.
      * intros. apply N; auto. right; auto.
Qed.

(* a new predecessor of the first one *)
Lemma seg_before : forall nx pr nx' pr' l b b' a,
  NoDup l ->
  (forall x, In x l -> nx' x = nx x) ->
  (forall x, In x l -> hdo l None <> Some x -> pr' x = pr x) ->
  (forall x, hdo l None = Some x -> pr' x = b') ->
  seg nx pr b l a -> seg nx' pr' b' l a.
Proof.
  intros nx pr nx' pr' l b b' a ND N P L S. destruct l as [| x r]; cbn [seg] in *; auto.
  destruct S as (S1 & S2 & S3). inversion ND; subst. split; [apply L; auto |].
  split; [rewrite N by (left; auto); auto |].
  eapply seg_ext; [| apply S3]. intros y Iy. split.
  - apply N. right; auto.
  - apply P. right; auto. cbn. intros E. injection E as <-. contradiction.
Qed.

End seg.
Arguments seg {A}. Arguments hdo {A}. Arguments lasto {A}.
Arguments lasto_in {A}. Arguments seg_app {A}.

Lemma hdo_hd : forall A (l : list A), hd_error l = hdo l None.
Proof. destruct l; reflexivity. Qed.

(** * Representation *)

Definition nx (s : st) (t : nat) := nxt (th s t).
Definition pr (s : st) (t : nat) := prd (th s t).

Definition queue (s : st) (h tl : option nat) (l : list nat) : Prop :=
  seg (nx s) (pr s) None l None /\ h = hdo l None /\ tl = lasto l None.

Record rep (s : st) (a : ast) : Prop := mkRep {
  p_failed : failed s = afailed a;
  p_stack : stack s = astack a;
  p_now : now s = anow a;
  p_nth : nth_ s = acount a;
  p_nroots : nroots s = aroots a;
  p_att : forall t, att (th s t) = aat a t;
  p_act : forall r, active (rt s r) = aact a r;
  p_run : forall r, queue s (head (rt s r)) (tail (rt s r)) (runq a r);
  p_susp : forall r, queue s (shead (rt s r)) (stail (rt s r)) (suspq a r);
  p_inrun : forall r t, In t (runq a r) -> (t < acount a)%nat /\ troot (aat a t) = r /\ susp (aat a t) = false;
  p_insusp : forall r t, In t (suspq a r) -> (t < acount a)%nat /\ troot (aat a t) = r /\ susp (aat a t) = true;
  p_ndrun : forall r, NoDup (runq a r);
  p_ndsusp : forall r, NoDup (suspq a r);
  p_out : forall t, ~ In t (runq a (troot (aat a t))) -> ~ In t (suspq a (troot (aat a t))) ->
    nx s t = None /\ pr s t = None
}.

Lemma upd_same : forall A (f : nat -> A) i v, upd f i v i = v.
Proof. intros. unfold upd. now rewrite Nat.eqb_refl. Qed.
Lemma upd_other : forall A (f : nat -> A) i v j, j <> i -> upd f i v j = f j.
Proof. intros. unfold upd. destruct (Nat.eqb_spec j i); congruence. Qed.
Lemma put_same : forall A (f : nat -> A) i v, put f i v i = v.
Proof. intros. unfold put. now rewrite Nat.eqb_refl. Qed.
Lemma put_other : forall A (f : nat -> A) i v j, j <> i -> put f i v j = f j.
Proof. intros. unfold put. destruct (Nat.eqb_spec j i); congruence. Qed.

Lemma without_in : forall t x l, In x (without t l) <-> In x l /\ x <> t.
Proof.
  intros. unfold without. rewrite filter_In. destruct (Nat.eqb_spec x t); cbn; intuition congruence.
Qed.
Lemma without_notin : forall t l, ~ In t l -> without t l = l.
Proof.
  induction l; cbn; intros; auto.
  destruct (Nat.eqb_spec a t); cbn.
  - subst. exfalso; auto.
  - f_equal. auto.
Qed.
Lemma without_split : forall t l1 l2, NoDup (l1 ++ t :: l2) -> without t (l1 ++ t :: l2) = l1 ++ l2.
Proof.
  intros. apply NoDup_remove in H. destruct H as [_ H]. unfold without. rewrite filter_app. cbn.
  rewrite Nat.eqb_refl. cbn. fold (without t l1). fold (without t l2).
  rewrite !without_notin; auto; intros I; apply H; apply in_or_app; auto.
Qed.
Lemma NoDup_without : forall t l, NoDup l -> NoDup (without t l).
Proof. intros. now apply NoDup_filter. Qed.

(** * Attributes *)

Lemma rep_att_same : forall s a t x, rep s a ->
  susp x = susp (aat a t) -> troot x = troot (aat a t) -> rep (set_att s t x) (a_att a t x).
Proof.
  intros s a t x H HS HT. destruct H. constructor; cbn; auto.
  - intros u. unfold upd, put. destruct (Nat.eqb_spec u t); cbn; auto.
  - intros r. destruct (p_run0 r) as (Q1 & Q2 & Q3). repeat split; auto.
    eapply seg_ext; [| apply Q1]. intros y _. unfold nx, pr. cbn. unfold upd. destruct (Nat.eqb_spec y t); subst; auto.
  - intros r. destruct (p_susp0 r) as (Q1 & Q2 & Q3). repeat split; auto.
    eapply seg_ext; [| apply Q1]. intros y _. unfold nx, pr. cbn. unfold upd. destruct (Nat.eqb_spec y t); subst; auto.
  - intros r u I. destruct (p_inrun0 r u I) as (? & ? & ?). unfold put. destruct (Nat.eqb_spec u t); subst; auto.
    repeat split; auto; congruence.
  - intros r u I. destruct (p_insusp0 r u I) as (? & ? & ?). unfold put. destruct (Nat.eqb_spec u t); subst; auto.
    repeat split; auto; congruence.
  - intros u. unfold nx, pr in *. cbn. unfold upd, put. destruct (Nat.eqb_spec u t); subst; cbn; auto; rewrite ?HT; auto.
Qed.

(* of a thread that is in no queue *)
Lemma rep_att_out : forall s a t x, rep s a ->
  (forall r, ~ In t (runq a r)) -> (forall r, ~ In t (suspq a r)) ->
  rep (set_att s t x) (a_att a t x).
Proof.
  intros s a t x H N1 N2. destruct H. constructor; cbn; auto.
  - intros u. unfold upd, put. destruct (Nat.eqb_spec u t); cbn; auto.
  - intros r. destruct (p_run0 r) as (Q1 & Q2 & Q3). repeat split; auto.
    eapply seg_ext; [| apply Q1]. intros y _. unfold nx, pr. cbn. unfold upd. destruct (Nat.eqb_spec y t); subst; auto.
  - intros r. destruct (p_susp0 r) as (Q1 & Q2 & Q3). repeat split; auto.
    eapply seg_ext; [| apply Q1]. intros y _. unfold nx, pr. cbn. unfold upd. destruct (Nat.eqb_spec y t); subst; auto.
  - intros r u I. rewrite put_other by (intros ->; eapply N1; eauto). auto.
  - intros r u I. rewrite put_other by (intros ->; eapply N2; eauto). auto.
  - intros u. unfold nx, pr in *. cbn. unfold upd, put. destruct (Nat.eqb_spec u t); subst; cbn; auto.
Qed.

Lemma rep_active : forall s a r p, rep s a -> rep (set_active s r p) (a_act a r p).
Proof.
  intros s a r p H. destruct H. constructor; cbn; auto.
  - intros q. unfold upd, put. destruct (Nat.eqb_spec q r); cbn; auto.
  - intros q. unfold upd. destruct (Nat.eqb_spec q r); subst; cbn; apply p_run0.
  - intros q. unfold upd. destruct (Nat.eqb_spec q r); subst; cbn; apply p_susp0.
Qed.

Lemma rep_fail : forall s a, rep s a -> rep (fail s) (a_fail a).
Proof. intros s a H. destruct H. constructor; cbn; auto. Qed.

Lemma rep_now : forall s a n, rep s a -> rep (with_now s n) (a_now a n).
Proof. intros s a n H. destruct H. constructor; cbn; auto. Qed.

(* a thread that does not exist yet is in no queue *)
Lemma rep_fresh : forall s a r, rep s a -> ~ In (acount a) (runq a r) /\ ~ In (acount a) (suspq a r).
Proof.
  intros s a r H. split; intros I.
  - destruct (p_inrun _ _ H _ _ I). lia.
  - destruct (p_insusp _ _ H _ _ I). lia.
Qed.

Lemma rep_new : forall s a r su, rep s a -> rep (new_thread s r su) (a_new a r su).
Proof.
  intros s a r su H. pose proof (fun q => rep_fresh _ _ q H) as F. destruct H. constructor; cbn; auto.
  - intros u. rewrite p_nth0. unfold upd, put. destruct (Nat.eqb_spec u (acount a)); cbn; auto.
  - intros q. destruct (p_run0 q) as (Q1 & Q2 & Q3). repeat split; auto.
    eapply seg_ext; [| apply Q1]. intros y Iy. unfold nx, pr. cbn. rewrite p_nth0, upd_other; auto.
    intros ->. destruct (F q); auto.
  - intros q. destruct (p_susp0 q) as (Q1 & Q2 & Q3). repeat split; auto.
    eapply seg_ext; [| apply Q1]. intros y Iy. unfold nx, pr. cbn. rewrite p_nth0, upd_other; auto.
    intros ->. destruct (F q); auto.
  - intros q u I. rewrite put_other by (intros ->; destruct (F q); auto). destruct (p_inrun0 _ _ I) as (? & ? & ?). repeat split; auto.
  - intros q u I. rewrite put_other by (intros ->; destruct (F q); auto). destruct (p_insusp0 _ _ I) as (? & ? & ?). repeat split; auto.
  - intros u. unfold nx, pr in *. cbn. rewrite p_nth0. unfold upd, put. destruct (Nat.eqb_spec u (acount a)); cbn; auto.
Qed.

(** * Changing one queue *)

(* Run queue of root r replaced: what has to be shown. *)
Lemma rep_change : forall s a s' r q sq,
  rep s a ->
  failed s' = failed s -> stack s' = stack s -> now s' = now s -> nth_ s' = nth_ s -> nroots s' = nroots s ->
  (forall t, att (th s' t) = att (th s t)) ->
  (forall i, active (rt s' i) = active (rt s i)) ->
  (forall i, i <> r -> rt s' i = rt s i) ->
  (forall t i, i <> r -> In t (runq a i) \/ In t (suspq a i) -> th s' t = th s t) ->
  queue s' (head (rt s' r)) (tail (rt s' r)) q ->
  queue s' (shead (rt s' r)) (stail (rt s' r)) sq ->
  (forall t, In t q -> (t < acount a)%nat /\ troot (aat a t) = r /\ susp (aat a t) = false) ->
  (forall t, In t sq -> (t < acount a)%nat /\ troot (aat a t) = r /\ susp (aat a t) = true) ->
  NoDup q -> NoDup sq ->
  (forall t, troot (aat a t) = r -> ~ In t q -> ~ In t sq -> nx s' t = None /\ pr s' t = None) ->
  (forall t, troot (aat a t) <> r -> ~ In t (runq a (troot (aat a t))) -> ~ In t (suspq a (troot (aat a t))) -> th s' t = th s t) ->
  rep s' (a_queues a r q sq).
Proof.
  intros s a s' r q sq H E1 E2 E3 E4 E5 E6 E7 E8 E9 Q SQ IQ ISQ ND1 ND2 O1 O2.
  destruct H. constructor; cbn; try (etransitivity; eassumption).
  - intros t. rewrite E6. auto.
  - intros i. rewrite E7. auto.
  - intros i. destruct (Nat.eq_dec i r) as [-> | NE].
    + rewrite put_same. auto.
    + rewrite put_other, E8 by auto. destruct (p_run0 i) as (S1 & S2 & S3). repeat split; auto.
      eapply seg_ext; [| apply S1]. intros y Iy. unfold nx, pr. rewrite (E9 y i); auto.
  - intros i. destruct (Nat.eq_dec i r) as [-> | NE].
    + rewrite put_same. auto.
    + rewrite put_other, E8 by auto. destruct (p_susp0 i) as (S1 & S2 & S3). repeat split; auto.
      eapply seg_ext; [| apply S1]. intros y Iy. unfold nx, pr. rewrite (E9 y i); auto.
  - intros i t. destruct (Nat.eq_dec i r) as [-> | NE].
    + rewrite put_same. auto.
    + rewrite put_other by auto. auto.
  - intros i t. destruct (Nat.eq_dec i r) as [-> | NE].
    + rewrite put_same. auto.
    + rewrite put_other by auto. auto.
  - intros i. destruct (Nat.eq_dec i r) as [-> | NE].
    + now rewrite put_same.
    + now rewrite put_other by auto.
  - intros i. destruct (Nat.eq_dec i r) as [-> | NE].
    + now rewrite put_same.
    + now rewrite put_other by auto.
  - intros t. destruct (Nat.eq_dec (troot (aat a t)) r) as [E | NE].
    + rewrite E, !put_same. auto.
    + rewrite !put_other by auto. intros N1 N2. unfold nx, pr. rewrite (O2 t NE N1 N2). apply p_out0; auto.
Qed.

Lemma lasto_some : forall A (l : list A) x d, exists y, lasto (x :: l) d = Some y.
Proof. induction l; intros x d; [cbn; eauto | exact (IHl a (Some x))]. Qed.

Lemma lasto_none : forall A (l : list A), lasto l None = None -> l = [].
Proof. intros A [| x l]; auto. intros H. destruct (lasto_some _ l x None) as [y E]. congruence. Qed.

Lemma hdo_in : forall A (l : list A) x, hdo l None = Some x -> In x l.
Proof. destruct l; cbn; intros; [discriminate | injection H as <-; auto]. Qed.

Lemma lasto_in0 : forall A (l : list A) x, lasto l None = Some x -> In x l.
Proof. intros A l x H. destruct (lasto_in _ _ _ H) as [I | [_ E]]; auto. discriminate. Qed.

Lemma NoDup_left : forall A (l1 l2 : list A), NoDup (l1 ++ l2) -> NoDup l1.
Proof.
  induction l1; cbn; intros; constructor; inversion H; subst; eauto.
  intros I. apply H2. apply in_or_app; auto.
Qed.
Lemma NoDup_right : forall A (l1 l2 : list A), NoDup (l1 ++ l2) -> NoDup l2.
Proof. induction l1; cbn; intros; auto. inversion H; subst; eauto. Qed.

(* insertion between l1 and l2 *)
Lemma seg_insert : forall (nx pr nx' pr' : nat -> option nat) l1 l2 t,
  NoDup (l1 ++ l2) -> ~ In t (l1 ++ l2) ->
  seg nx pr None (l1 ++ l2) None ->
  nx' t = hdo l2 None -> pr' t = lasto l1 None ->
  (forall x, lasto l1 None = Some x -> nx' x = Some t) ->
  (forall x, hdo l2 None = Some x -> pr' x = Some t) ->
  (forall x, x <> t -> lasto l1 None <> Some x -> nx' x = nx x) ->
  (forall x, x <> t -> hdo l2 None <> Some x -> pr' x = pr x) ->
  seg nx' pr' None (l1 ++ t :: l2) None.
Proof.
  intros nx0 pr0 nx' pr' l1 l2 t ND NI S H1 H2 H3 H4 H5 H6.
  apply seg_app in S. destruct S as [S1 S2].
  assert (ND1 : NoDup l1) by (eapply NoDup_left; eauto).
  assert (ND2 : NoDup l2) by (eapply NoDup_right; eauto).
  assert (DJ : forall x, In x l1 -> In x l2 -> False).
  { intros x I1 I2. apply in_split in I2. destruct I2 as (u & v & ->).
    rewrite app_assoc in ND. apply NoDup_remove in ND. apply (proj2 ND). apply in_or_app. left. apply in_or_app. auto. }
  rewrite in_app_iff in NI.
  apply seg_app. split; [| cbn [seg]; split; [auto | split; [auto |]]].
  - cbn [hdo]. eapply (seg_after _ nx0 pr0); [exact ND1 | | | auto | exact S1].
    + intros x I. apply H6.
      * intros ->; auto.
      * intros E. apply hdo_in in E. eauto.
    + intros x I N. apply H5; auto. intros ->; auto.
  - eapply (seg_before _ nx0 pr0); [exact ND2 | | | auto | exact S2].
    + intros x I. apply H5.
      * intros ->; auto.
      * intros E. apply lasto_in0 in E. eauto.
    + intros x I N. apply H6; auto. intros ->; auto.
Qed.

(* removal *)
Lemma seg_remove : forall (nx pr nx' pr' : nat -> option nat) l1 l2 t,
  NoDup (l1 ++ t :: l2) ->
  seg nx pr None (l1 ++ t :: l2) None ->
  (forall x, lasto l1 None = Some x -> nx' x = hdo l2 None) ->
  (forall x, hdo l2 None = Some x -> pr' x = lasto l1 None) ->
  (forall x, x <> t -> lasto l1 None <> Some x -> nx' x = nx x) ->
  (forall x, x <> t -> hdo l2 None <> Some x -> pr' x = pr x) ->
  seg nx' pr' None (l1 ++ l2) None.
Proof.
  intros nx0 pr0 nx' pr' l1 l2 t ND S H3 H4 H5 H6.
  apply seg_app in S. destruct S as [S1 S2]. cbn [seg] in S2. destruct S2 as (_ & _ & S2).
  destruct (NoDup_remove _ _ _ ND) as [ND' NI].
  assert (ND1 : NoDup l1) by (eapply NoDup_left; eauto).
  assert (ND2 : NoDup l2) by (eapply NoDup_right; eauto).
  assert (DJ : forall x, In x l1 -> In x l2 -> False).
  { intros x I1 I2. apply in_split in I2. destruct I2 as (u & v & ->).
    rewrite app_assoc in ND'. apply NoDup_remove in ND'. apply (proj2 ND'). apply in_or_app. left. apply in_or_app. auto. }
  rewrite in_app_iff in NI.
  apply seg_app. split.
  - eapply (seg_after _ nx0 pr0); [exact ND1 | | | auto | exact S1].
    + intros x I. apply H6.
      * intros ->; auto.
      * intros E. apply hdo_in in E. eauto.
    + intros x I N. apply H5; auto. intros ->; auto.
  - eapply (seg_before _ nx0 pr0); [exact ND2 | | | auto | exact S2].
    + intros x I. apply H5.
      * intros ->; auto.
      * intros E. apply lasto_in0 in E. eauto.
    + intros x I N. apply H6; auto. intros ->; auto.
Qed.

(** * unlink *)

Definition nowhere (a : ast) (t : nat) : Prop :=
  forall r, ~ In t (runq a r) /\ ~ In t (suspq a r).

Lemma rep_nowhere : forall s a t, rep s a ->
  ~ In t (runq a (troot (aat a t))) -> ~ In t (suspq a (troot (aat a t))) -> nowhere a t.
Proof.
  intros s a t H N1 N2 r. split; intros I.
  - destruct (p_inrun _ _ H _ _ I) as (_ & E & _). subst r. auto.
  - destruct (p_insusp _ _ H _ _ I) as (_ & E & _). subst r. auto.
Qed.

Ltac updc := unfold upd; repeat match goal with |- context [Nat.eqb ?x ?y] => destruct (Nat.eqb_spec x y); subst end; cbn [nxt prd att head tail shead stail active]; auto; try congruence.

Lemma opt_is_spec : forall p t, opt_is p t = true <-> p = Some t.
Proof. destruct p; cbn; intros; [rewrite Nat.eqb_eq; split; congruence | split; congruence]. Qed.

(* the fields after unlinking *)
Lemma unlink_fields : forall s t, prd (th s t) <> Some t -> nxt (th s t) <> Some t ->
  let s' := unlink_thread s t in
  let r := troot (att (th s t)) in
  let b := susp (att (th s t)) in
  failed s' = failed s /\ stack s' = stack s /\ now s' = now s /\ nth_ s' = nth_ s /\ nroots s' = nroots s /\
  (forall u, att (th s' u) = att (th s u)) /\
  (forall u, nxt (th s' u) = (if Nat.eqb u t then None else if opt_is (prd (th s t)) u then nxt (th s t) else nxt (th s u))) /\
  (forall u, prd (th s' u) = (if Nat.eqb u t then None else if opt_is (nxt (th s t)) u then prd (th s t) else prd (th s u))) /\
  (forall i, i <> r -> rt s' i = rt s i) /\
  rt s' r = (if b
             then mkRoot (head (rt s r)) (tail (rt s r))
                    (if opt_is (shead (rt s r)) t then nxt (th s t) else shead (rt s r))
                    (if opt_is (stail (rt s r)) t then prd (th s t) else stail (rt s r)) (active (rt s r))
             else mkRoot (if opt_is (head (rt s r)) t then nxt (th s t) else head (rt s r))
                    (if opt_is (tail (rt s r)) t then prd (th s t) else tail (rt s r))
                    (shead (rt s r)) (stail (rt s r)) (active (rt s r))).
Proof.
  intros s t P N.
  set (s1 := match prd (th s t) with Some p => set_nxt s p (nxt (th s t)) | None => s end).
  assert (A1 : forall u, th s1 u = mkThread (if opt_is (prd (th s t)) u then nxt (th s t) else nxt (th s u)) (prd (th s u)) (att (th s u))).
  { intros u. unfold s1. destruct (prd (th s t)) as [p |]; cbn [opt_is].
    - cbn. unfold upd. rewrite (Nat.eqb_sym p u). destruct (Nat.eqb_spec u p); subst; cbn; auto. now destruct (th s u).
    - now destruct (th s u). }
  assert (R1 : rt s1 = rt s /\ failed s1 = failed s /\ stack s1 = stack s /\ now s1 = now s /\ nth_ s1 = nth_ s /\ nroots s1 = nroots s)
    by (unfold s1; destruct (prd (th s t)); cbn; auto 10).
  assert (T1 : th s1 t = th s t).
  { rewrite A1. destruct (prd (th s t)) as [p|] eqn:E; cbn; [| now destruct (th s t); cbn in *; subst].
    destruct (Nat.eqb_spec p t); [congruence |]. rewrite <- E. now destruct (th s t). }
  set (s2 := match nxt (th s1 t) with Some n => set_prd s1 n (prd (th s1 t)) | None => s1 end).
  assert (A2 : forall u, th s2 u = mkThread (if opt_is (prd (th s t)) u then nxt (th s t) else nxt (th s u))
                                   (if opt_is (nxt (th s t)) u then prd (th s t) else prd (th s u)) (att (th s u))).
  { intros u. unfold s2. rewrite T1. destruct (nxt (th s t)) as [n |] eqn:E; cbn [opt_is].
    - cbn. unfold upd. rewrite (Nat.eqb_sym n u). destruct (Nat.eqb_spec u n); subst; cbn; rewrite A1; cbn; auto.
    - rewrite A1; auto. }
  assert (R2 : rt s2 = rt s /\ failed s2 = failed s /\ stack s2 = stack s /\ now s2 = now s /\ nth_ s2 = nth_ s /\ nroots s2 = nroots s)
    by (unfold s2; destruct R1 as (? & ? & ? & ? & ? & ?); destruct (nxt (th s1 t)); cbn; auto 10).
  assert (T2 : th s2 t = th s t).
  { rewrite A2.
    replace (opt_is (prd (th s t)) t) with false by (symmetry; apply Bool.not_true_is_false; rewrite opt_is_spec; auto).
    replace (opt_is (nxt (th s t)) t) with false by (symmetry; apply Bool.not_true_is_false; rewrite opt_is_spec; auto).
    now destruct (th s t). }
  cbv zeta. unfold unlink_thread. fold s1. cbv zeta. fold s2. clearbody s2. clear s1 A1 R1 T1.
  destruct R2 as (R2 & R3 & R4 & R5 & R6 & R7). rewrite T2, R2.
  set (r := troot (att (th s t))).
  destruct (susp (att (th s t))); cbn [negb].
  - set (s3 := if opt_is (shead (rt s r)) t then set_shead s2 r (nxt (th s t)) else s2).
    assert (Q3 : th s3 = th s2 /\ (forall i, i <> r -> rt s3 i = rt s i) /\
       rt s3 r = mkRoot (head (rt s r)) (tail (rt s r)) (if opt_is (shead (rt s r)) t then nxt (th s t) else shead (rt s r)) (stail (rt s r)) (active (rt s r)) /\
       failed s3 = failed s /\ stack s3 = stack s /\ now s3 = now s /\ nth_ s3 = nth_ s /\ nroots s3 = nroots s).
    { unfold s3. destruct (opt_is (shead (rt s r)) t); cbn; rewrite ?R2; repeat split; auto.
      - intros. now rewrite upd_other.
      - now rewrite upd_same.
      - now destruct (rt s r). }
    clearbody s3. destruct Q3 as (Q1 & Q2 & Q3 & Q4 & Q5 & Q6 & Q7 & Q8).
    rewrite Q1, Q3, T2. cbn [stail].
    set (s4 := if opt_is (stail (rt s r)) t then set_stail s3 r (prd (th s t)) else s3).
    assert (Q9 : th s4 = th s2 /\ (forall i, i <> r -> rt s4 i = rt s i) /\
       rt s4 r = mkRoot (head (rt s r)) (tail (rt s r)) (if opt_is (shead (rt s r)) t then nxt (th s t) else shead (rt s r))
          (if opt_is (stail (rt s r)) t then prd (th s t) else stail (rt s r)) (active (rt s r)) /\
       failed s4 = failed s /\ stack s4 = stack s /\ now s4 = now s /\ nth_ s4 = nth_ s /\ nroots s4 = nroots s).
    { unfold s4. destruct (opt_is (stail (rt s r)) t); cbn; rewrite ?Q1; repeat split; auto.
      - intros. rewrite upd_other; auto.
      - rewrite upd_same, Q3. auto. }
    clearbody s4. destruct Q9 as (W1 & W2 & W3 & W4 & W5 & W6 & W7 & W8).
    cbn. rewrite W1. repeat split; auto.
    + intros u. unfold upd. destruct (Nat.eqb_spec u t); subst; cbn; rewrite ?Nat.eqb_refl, A2; cbn; auto.
    + intros u. unfold upd. destruct (Nat.eqb_spec u t); subst; cbn; rewrite ?Nat.eqb_refl; auto. rewrite A2; auto.
    + intros u. unfold upd. destruct (Nat.eqb_spec u t); subst; cbn; rewrite ?Nat.eqb_refl; auto. rewrite A2; auto.
  - set (s3 := if opt_is (head (rt s r)) t then set_head s2 r (nxt (th s t)) else s2).
    assert (Q3 : th s3 = th s2 /\ (forall i, i <> r -> rt s3 i = rt s i) /\
       rt s3 r = mkRoot (if opt_is (head (rt s r)) t then nxt (th s t) else head (rt s r)) (tail (rt s r)) (shead (rt s r)) (stail (rt s r)) (active (rt s r)) /\
       failed s3 = failed s /\ stack s3 = stack s /\ now s3 = now s /\ nth_ s3 = nth_ s /\ nroots s3 = nroots s).
    { unfold s3. destruct (opt_is (head (rt s r)) t); cbn; rewrite ?R2; repeat split; auto.
      - intros. now rewrite upd_other.
      - now rewrite upd_same.
      - now destruct (rt s r). }
    clearbody s3. destruct Q3 as (Q1 & Q2 & Q3 & Q4 & Q5 & Q6 & Q7 & Q8).
    rewrite Q1, Q3, T2. cbn [tail].
    set (s4 := if opt_is (tail (rt s r)) t then set_tail s3 r (prd (th s t)) else s3).
    assert (Q9 : th s4 = th s2 /\ (forall i, i <> r -> rt s4 i = rt s i) /\
       rt s4 r = mkRoot (if opt_is (head (rt s r)) t then nxt (th s t) else head (rt s r))
          (if opt_is (tail (rt s r)) t then prd (th s t) else tail (rt s r)) (shead (rt s r)) (stail (rt s r)) (active (rt s r)) /\
       failed s4 = failed s /\ stack s4 = stack s /\ now s4 = now s /\ nth_ s4 = nth_ s /\ nroots s4 = nroots s).
    { unfold s4. destruct (opt_is (tail (rt s r)) t); cbn; rewrite ?Q1; repeat split; auto.
      - intros. rewrite upd_other; auto.
      - rewrite upd_same, Q3. auto. }
    clearbody s4. destruct Q9 as (W1 & W2 & W3 & W4 & W5 & W6 & W7 & W8).
    cbn. rewrite W1. repeat split; auto.
    + intros u. unfold upd. destruct (Nat.eqb_spec u t); subst; cbn; rewrite ?Nat.eqb_refl, A2; cbn; auto.
    + intros u. unfold upd. destruct (Nat.eqb_spec u t); subst; cbn; rewrite ?Nat.eqb_refl; auto. rewrite A2; auto.
    + intros u. unfold upd. destruct (Nat.eqb_spec u t); subst; cbn; rewrite ?Nat.eqb_refl; auto. rewrite A2; auto.
Qed.

Lemma seg_at : forall (nx pr : nat -> option nat) l1 t l2,
  seg nx pr None (l1 ++ t :: l2) None -> pr t = lasto l1 None /\ nx t = hdo l2 None.
Proof. intros. apply seg_app in H. destruct H as [_ H]. cbn in H. tauto. Qed.

Lemma opt_is_false : forall p t, opt_is p t = false <-> p <> Some t.
Proof.
  intros. rewrite <- opt_is_spec. destruct (opt_is p t); split; congruence.
Qed.

Lemma remove_ends : forall (l1 l2 : list nat) t, NoDup (l1 ++ t :: l2) ->
  (if opt_is (hdo (l1 ++ t :: l2) None) t then hdo l2 None else hdo (l1 ++ t :: l2) None) = hdo (l1 ++ l2) None /\
  (if opt_is (lasto (l1 ++ t :: l2) None) t then lasto l1 None else lasto (l1 ++ t :: l2) None) = lasto (l1 ++ l2) None.
Proof.
  intros l1 l2 t ND. destruct (NoDup_remove _ _ _ ND) as [_ NI]. rewrite in_app_iff in NI. split.
  - destruct l1 as [| x l1]; cbn.
    + now rewrite Nat.eqb_refl.
    + destruct (Nat.eqb_spec x t); auto. subst. exfalso. apply NI. left. left. auto.
  - rewrite !lasto_app. cbn [lasto]. destruct l2 as [| y l2]; cbn [lasto].
    + cbn. now rewrite Nat.eqb_refl.
    + destruct (lasto_some _ l2 y None) as [z E]. cbn [lasto] in E. rewrite E.
      cbn. destruct (Nat.eqb_spec z t); auto. subst. exfalso. apply NI. right.
      apply (lasto_in0 _ (y :: l2)). exact E.
Qed.

Lemma runq_susp_disjoint : forall s a t r q, rep s a -> In t (runq a r) -> In t (suspq a q) -> False.
Proof.
  intros s a t r q H I J. destruct (p_inrun _ _ H _ _ I) as (_ & _ & E). destruct (p_insusp _ _ H _ _ J) as (_ & _ & F). congruence.
Qed.

Lemma a_queues_same : forall s a r, rep s a -> rep s (a_queues a r (runq a r) (suspq a r)).
Proof.
  intros s a r H. destruct H. constructor; cbn; auto.
  - intros i. unfold put. destruct (Nat.eqb_spec i r); subst; auto.
  - intros i. unfold put. destruct (Nat.eqb_spec i r); subst; auto.
  - intros i. unfold put. destruct (Nat.eqb_spec i r); subst; auto.
  - intros i. unfold put. destruct (Nat.eqb_spec i r); subst; auto.
  - intros i. unfold put. destruct (Nat.eqb_spec i r); subst; auto.
  - intros i. unfold put. destruct (Nat.eqb_spec i r); subst; auto.
  - intros t. unfold put. destruct (Nat.eqb_spec (troot (aat a t)) r); subst; auto.
Qed.

Lemma rep_unlink : forall s a t, rep s a -> rep (unlink_thread s t) (a_leave a t).
Proof.
  intros s a t H.
  set (r := troot (aat a t)).
  assert (SF : prd (th s t) <> Some t /\ nxt (th s t) <> Some t).
  { destruct (in_dec Nat.eq_dec t (runq a r)) as [I | N1].
    - apply in_split in I. destruct I as (l1 & l2 & E). pose proof (p_ndrun _ _ H r) as ND.
      destruct (p_run _ _ H r) as (S & _). rewrite E in ND, S. destruct (seg_at _ _ _ _ _ S) as [E1 E2].
      apply NoDup_remove in ND. destruct ND as [_ NI]. rewrite in_app_iff in NI.
      unfold nx, pr in *. rewrite E1, E2. split; intros F; apply NI.
      + left. now apply lasto_in0.
      + right. now apply hdo_in.
    - destruct (in_dec Nat.eq_dec t (suspq a r)) as [I | N2].
      + apply in_split in I. destruct I as (l1 & l2 & E). pose proof (p_ndsusp _ _ H r) as ND.
        destruct (p_susp _ _ H r) as (S & _). rewrite E in ND, S. destruct (seg_at _ _ _ _ _ S) as [E1 E2].
        apply NoDup_remove in ND. destruct ND as [_ NI]. rewrite in_app_iff in NI.
        unfold nx, pr in *. rewrite E1, E2. split; intros F; apply NI.
        * left. now apply lasto_in0.
        * right. now apply hdo_in.
      + destruct (p_out _ _ H t N1 N2) as [E1 E2]. unfold nx, pr in *. rewrite E1, E2. split; discriminate. }
  destruct SF as [SF1 SF2].
  pose proof (unlink_fields s t SF1 SF2) as U. cbv zeta in U.
  set (s' := unlink_thread s t) in *. clearbody s'.
  destruct U as (U1 & U2 & U3 & U4 & U5 & U6 & U7 & U8 & U9 & U10).
  rewrite (p_att _ _ H t) in U9, U10. fold r in U9, U10.
  unfold a_leave. fold r.
  (* threads outside the queue of t are not touched *)
  assert (FR : forall l1 l2 u, pr s t = lasto l1 None -> nx s t = hdo l2 None -> u <> t -> ~ In u (l1 ++ l2) -> th s' u = th s u).
  { intros l1 l2 u E1 E2 NE NI. rewrite in_app_iff in NI. unfold pr, nx in *.
    specialize (U6 u). specialize (U7 u). specialize (U8 u).
    destruct (Nat.eqb_spec u t); [congruence |].
    replace (opt_is (prd (th s t)) u) with false in U7
      by (symmetry; apply opt_is_false; rewrite E1; intros F; apply lasto_in0 in F; auto).
    replace (opt_is (nxt (th s t)) u) with false in U8
      by (symmetry; apply opt_is_false; rewrite E2; intros F; apply hdo_in in F; auto).
    destruct (th s' u), (th s u). cbn in *. congruence. }
  assert (TN : nx s' t = None /\ pr s' t = None).
  { unfold nx, pr. rewrite U7, U8, Nat.eqb_refl. auto. }
  destruct (susp (aat a t)) eqn:ES.
  - (* in the suspended queue, if at all *)
    assert (N1 : forall q, ~ In t (runq a q)).
    { intros q I. destruct (p_inrun _ _ H _ _ I) as (_ & _ & E). congruence. }
    destruct (in_dec Nat.eq_dec t (suspq a r)) as [I | N2].
    + apply in_split in I. destruct I as (l1 & l2 & E).
      pose proof (p_ndsusp _ _ H r) as ND. destruct (p_susp _ _ H r) as (S & HH & HT).
      destruct (p_run _ _ H r) as (RS & RH & RT).
      pose proof (fun u => p_insusp _ _ H r u) as IS.
      rewrite E in ND, S, HH, HT, IS. rewrite E, without_split by auto.
      destruct (seg_at _ _ _ _ _ S) as [E1 E2].
      assert (OUT : forall u, ~ In u (l1 ++ t :: l2) -> th s' u = th s u).
      { intros u N. rewrite in_app_iff in N. cbn in N. apply (FR l1 l2 u E1 E2); [intros ->; tauto | rewrite in_app_iff; tauto]. }
      eapply rep_change; eauto.
      * intros i. destruct (Nat.eq_dec i r) as [-> | NE]; [rewrite U10 | rewrite U9]; auto.
      * intros u i NE [I | I]; apply OUT; intros J.
        -- destruct (IS _ J) as (_ & _ & F). destruct (p_inrun _ _ H _ _ I) as (_ & _ & F2). congruence.
        -- destruct (IS _ J) as (_ & F & _). destruct (p_insusp _ _ H _ _ I) as (_ & F2 & _). congruence.
      * rewrite U10. cbn. split; [| split; auto].
        eapply seg_ext; [| apply RS]. intros y Iy. unfold nx, pr. rewrite OUT; auto. intros J.
        destruct (IS _ J) as (_ & _ & F). destruct (p_inrun _ _ H _ _ Iy) as (_ & _ & F2). congruence.
      * rewrite U10. cbn. rewrite HH, HT.
        change (nxt (th s t)) with (nx s t). change (prd (th s t)) with (pr s t). rewrite E1, E2.
        destruct (remove_ends l1 l2 t ND) as [G1 G2]. rewrite G1, G2. split; [| split; auto].
        destruct (NoDup_remove _ _ _ ND) as [_ NI]. rewrite in_app_iff in NI.
        apply (seg_remove (nx s) (pr s) _ _ l1 l2 t); auto.
        -- intros x L. unfold nx at 1. rewrite U7. unfold pr in E1. rewrite E1, L. cbn. rewrite Nat.eqb_refl.
           destruct (Nat.eqb_spec x t); [subst; exfalso; apply NI; left; now apply lasto_in0 |]. apply E2.
        -- intros x L. unfold pr at 1. rewrite U8. unfold nx in E2. rewrite E2, L. cbn. rewrite Nat.eqb_refl.
           destruct (Nat.eqb_spec x t); [subst; exfalso; apply NI; right; now apply hdo_in |]. apply E1.
        -- intros x NE L. unfold nx. rewrite U7. unfold pr in E1. rewrite E1.
           apply opt_is_false in L. rewrite L. destruct (Nat.eqb_spec x t); congruence.
        -- intros x NE L. unfold pr. rewrite U8. unfold nx in E2. rewrite E2.
           apply opt_is_false in L. rewrite L. destruct (Nat.eqb_spec x t); congruence.
      * apply (p_inrun _ _ H).
      * intros u I. apply IS. rewrite in_app_iff in *. cbn. tauto.
      * apply (p_ndrun _ _ H).
      * apply NoDup_remove in ND. tauto.
      * intros u RU NR NS. destruct (Nat.eq_dec u t) as [-> | NE]; auto.
        unfold nx, pr. rewrite OUT.
        -- apply (p_out _ _ H); rewrite RU; auto. rewrite E. rewrite in_app_iff in *. cbn. intuition.
        -- rewrite in_app_iff in *. cbn. intuition.
      * intros u RU NR NS. apply OUT. intros J. destruct (IS _ J) as (_ & F & _). congruence.
    + destruct (p_out _ _ H t) as [E1 E2]; auto.
      rewrite without_notin by auto.
      assert (OUT : forall u, th s' u = th s u).
      { intros u. destruct (Nat.eq_dec u t) as [-> | NE].
        - specialize (U6 t). unfold nx, pr in *. destruct (th s t), (th s' t). cbn in *. destruct TN. congruence.
        - apply (FR [] []); auto. }
      assert (RR : rt s' r = rt s r).
      { rewrite U10. destruct (p_susp _ _ H r) as (_ & HH & HT).
        replace (opt_is (shead (rt s r)) t) with false
          by (symmetry; apply opt_is_false; rewrite HH; intros F; apply hdo_in in F; auto).
        replace (opt_is (stail (rt s r)) t) with false
          by (symmetry; apply opt_is_false; rewrite HT; intros F; apply lasto_in0 in F; auto).
        now destruct (rt s r). }
      apply a_queues_same. destruct H. constructor; try (etransitivity; eassumption); try assumption.
      * intros u. rewrite OUT. auto.
      * intros i. destruct (Nat.eq_dec i r) as [-> | NE]; [rewrite RR | rewrite U9]; auto.
      * intros i. destruct (p_run0 i) as (S1 & S2 & S3).
        assert (rt s' i = rt s i) as -> by (destruct (Nat.eq_dec i r) as [-> | NE]; auto). split; auto.
        eapply seg_ext; [| apply S1]. intros. unfold nx, pr. now rewrite OUT.
      * intros i. destruct (p_susp0 i) as (S1 & S2 & S3).
        assert (rt s' i = rt s i) as -> by (destruct (Nat.eq_dec i r) as [-> | NE]; auto). split; auto.
        eapply seg_ext; [| apply S1]. intros. unfold nx, pr. now rewrite OUT.
      * intros u X1 X2. unfold nx, pr. rewrite OUT. apply p_out0; auto.
  - assert (N1 : forall q, ~ In t (suspq a q)).
    { intros q I. destruct (p_insusp _ _ H _ _ I) as (_ & _ & E). congruence. }
    destruct (in_dec Nat.eq_dec t (runq a r)) as [I | N2].
    + apply in_split in I. destruct I as (l1 & l2 & E).
      pose proof (p_ndrun _ _ H r) as ND. destruct (p_run _ _ H r) as (S & HH & HT).
      destruct (p_susp _ _ H r) as (RS & RH & RT).
      pose proof (fun u => p_inrun _ _ H r u) as IS.
      rewrite E in ND, S, HH, HT, IS. rewrite E, without_split by auto.
      destruct (seg_at _ _ _ _ _ S) as [E1 E2].
      assert (OUT : forall u, ~ In u (l1 ++ t :: l2) -> th s' u = th s u).
      { intros u N. rewrite in_app_iff in N. cbn in N. apply (FR l1 l2 u E1 E2); [intros ->; tauto | rewrite in_app_iff; tauto]. }
      eapply rep_change; eauto.
      * intros i. destruct (Nat.eq_dec i r) as [-> | NE]; [rewrite U10 | rewrite U9]; auto.
      * intros u i NE [I | I]; apply OUT; intros J.
        -- destruct (IS _ J) as (_ & F & _). destruct (p_inrun _ _ H _ _ I) as (_ & F2 & _). congruence.
        -- destruct (IS _ J) as (_ & _ & F). destruct (p_insusp _ _ H _ _ I) as (_ & _ & F2). congruence.
      * rewrite U10. cbn. rewrite HH, HT.
        change (nxt (th s t)) with (nx s t). change (prd (th s t)) with (pr s t). rewrite E1, E2.
        destruct (remove_ends l1 l2 t ND) as [G1 G2]. rewrite G1, G2. split; [| split; auto].
        destruct (NoDup_remove _ _ _ ND) as [_ NI]. rewrite in_app_iff in NI.
        apply (seg_remove (nx s) (pr s) _ _ l1 l2 t); auto.
        -- intros x L. unfold nx at 1. rewrite U7. unfold pr in E1. rewrite E1, L. cbn. rewrite Nat.eqb_refl.
           destruct (Nat.eqb_spec x t); [subst; exfalso; apply NI; left; now apply lasto_in0 |]. apply E2.
        -- intros x L. unfold pr at 1. rewrite U8. unfold nx in E2. rewrite E2, L. cbn. rewrite Nat.eqb_refl.
           destruct (Nat.eqb_spec x t); [subst; exfalso; apply NI; right; now apply hdo_in |]. apply E1.
        -- intros x NE L. unfold nx. rewrite U7. unfold pr in E1. rewrite E1.
           apply opt_is_false in L. rewrite L. destruct (Nat.eqb_spec x t); congruence.
        -- intros x NE L. unfold pr. rewrite U8. unfold nx in E2. rewrite E2.
           apply opt_is_false in L. rewrite L. destruct (Nat.eqb_spec x t); congruence.
      * rewrite U10. cbn. split; [| split; auto].
        eapply seg_ext; [| apply RS]. intros y Iy. unfold nx, pr. rewrite OUT; auto. intros J.
        destruct (IS _ J) as (_ & _ & F). destruct (p_insusp _ _ H _ _ Iy) as (_ & _ & F2). congruence.
      * intros u I. apply IS. rewrite in_app_iff in *. cbn. tauto.
      * apply (p_insusp _ _ H).
      * apply NoDup_remove in ND. tauto.
      * apply (p_ndsusp _ _ H).
      * intros u RU NR NS. destruct (Nat.eq_dec u t) as [-> | NE]; auto.
        unfold nx, pr. rewrite OUT.
        -- apply (p_out _ _ H); rewrite RU; auto. rewrite E. rewrite in_app_iff in *. cbn. intuition.
        -- rewrite in_app_iff in *. cbn. intuition.
      * intros u RU NR NS. apply OUT. intros J. destruct (IS _ J) as (_ & F & _). congruence.
    + destruct (p_out _ _ H t) as [E1 E2]; auto.
      rewrite without_notin by auto.
      assert (OUT : forall u, th s' u = th s u).
      { intros u. destruct (Nat.eq_dec u t) as [-> | NE].
        - specialize (U6 t). unfold nx, pr in *. destruct (th s t), (th s' t). cbn in *. destruct TN. congruence.
        - apply (FR [] []); auto. }
      assert (RR : rt s' r = rt s r).
      { rewrite U10. destruct (p_run _ _ H r) as (_ & HH & HT).
        replace (opt_is (head (rt s r)) t) with false
          by (symmetry; apply opt_is_false; rewrite HH; intros F; apply hdo_in in F; auto).
        replace (opt_is (tail (rt s r)) t) with false
          by (symmetry; apply opt_is_false; rewrite HT; intros F; apply lasto_in0 in F; auto).
        now destruct (rt s r). }
      apply a_queues_same. destruct H. constructor; try (etransitivity; eassumption); try assumption.
      * intros u. rewrite OUT. auto.
      * intros i. destruct (Nat.eq_dec i r) as [-> | NE]; [rewrite RR | rewrite U9]; auto.
      * intros i. destruct (p_run0 i) as (S1 & S2 & S3).
        assert (rt s' i = rt s i) as -> by (destruct (Nat.eq_dec i r) as [-> | NE]; auto). split; auto.
        eapply seg_ext; [| apply S1]. intros. unfold nx, pr. now rewrite OUT.
      * intros i. destruct (p_susp0 i) as (S1 & S2 & S3).
        assert (rt s' i = rt s i) as -> by (destruct (Nat.eq_dec i r) as [-> | NE]; auto). split; auto.
        eapply seg_ext; [| apply S1]. intros. unfold nx, pr. now rewrite OUT.
      * intros u X1 X2. unfold nx, pr. rewrite OUT. apply p_out0; auto.
Qed.

(** * enqueue *)

(* the links after t has been put between l1 and l2 *)
Definition links (s s' : st) (l1 l2 : list nat) (t : nat) : Prop :=
  failed s' = failed s /\ stack s' = stack s /\ now s' = now s /\ nth_ s' = nth_ s /\ nroots s' = nroots s /\
  (forall u, att (th s' u) = att (th s u)) /\
  (forall u, nxt (th s' u) = (if Nat.eqb u t then hdo l2 None else if opt_is (lasto l1 None) u then Some t else nxt (th s u))) /\
  (forall u, prd (th s' u) = (if Nat.eqb u t then lasto l1 None else if opt_is (hdo l2 None) u then Some t else prd (th s u))).

Lemma links_seg : forall s s' l1 l2 t, links s s' l1 l2 t -> NoDup (l1 ++ l2) -> ~ In t (l1 ++ l2) ->
  seg (nx s) (pr s) None (l1 ++ l2) None ->
  seg (nx s') (pr s') None (l1 ++ t :: l2) None /\
  (forall u, ~ In u (l1 ++ t :: l2) -> th s' u = th s u).
Proof.
  intros s s' l1 l2 t (U1 & U2 & U3 & U4 & U5 & U6 & U7 & U8) ND NI S.
  pose proof NI as NI'. rewrite in_app_iff in NI'. split.
  - eapply seg_insert; eauto.
    + unfold nx. now rewrite U7, Nat.eqb_refl.
    + unfold pr. now rewrite U8, Nat.eqb_refl.
    + intros x L. unfold nx. rewrite U7, L. cbn. rewrite Nat.eqb_refl. destruct (Nat.eqb_spec x t); auto.
      subst. apply lasto_in0 in L. tauto.
    + intros x L. unfold pr. rewrite U8, L. cbn. rewrite Nat.eqb_refl. destruct (Nat.eqb_spec x t); auto.
      subst. apply hdo_in in L. tauto.
    + intros x NE L. unfold nx. rewrite U7. apply opt_is_false in L. rewrite L. destruct (Nat.eqb_spec x t); congruence.
    + intros x NE L. unfold pr. rewrite U8. apply opt_is_false in L. rewrite L. destruct (Nat.eqb_spec x t); congruence.
  - intros u N. rewrite in_app_iff in N. cbn in N.
    specialize (U6 u). specialize (U7 u). specialize (U8 u).
    destruct (Nat.eqb_spec u t); [subst; tauto |].
    replace (opt_is (lasto l1 None) u) with false in U7
      by (symmetry; apply opt_is_false; intros F; apply lasto_in0 in F; tauto).
    replace (opt_is (hdo l2 None) u) with false in U8
      by (symmetry; apply opt_is_false; intros F; apply hdo_in in F; tauto).
    destruct (th s' u), (th s u). cbn in *. congruence.
Qed.

Lemma NoDup_insert : forall (l1 l2 : list nat) t, NoDup (l1 ++ l2) -> ~ In t (l1 ++ l2) -> NoDup (l1 ++ t :: l2).
Proof.
  intros. eapply Permutation_NoDup; [apply Permutation_middle |]. constructor; auto.
Qed.

Lemma rep_insert_run : forall s a s' t r, rep s a -> nowhere a t -> (t < acount a)%nat -> troot (aat a t) = r ->
  susp (aat a t) = false ->
  links s s' (runq a r) [] t ->
  (forall i, i <> r -> rt s' i = rt s i) ->
  rt s' r = mkRoot (hdo (runq a r ++ [t]) None) (Some t) (shead (rt s r)) (stail (rt s r)) (active (rt s r)) ->
  rep s' (a_queues a r (runq a r ++ [t]) (suspq a r)).
Proof.
  intros s a s' t r H NW LT RT SU L U9 U10.
  destruct (NW r) as [NR NS].
  assert (ND : NoDup (runq a r ++ [])) by (rewrite app_nil_r; apply (p_ndrun _ _ H)).
  assert (NI : ~ In t (runq a r ++ [])) by (rewrite app_nil_r; auto).
  assert (S : seg (nx s) (pr s) None (runq a r ++ []) None) by (rewrite app_nil_r; apply (p_run _ _ H)).
  destruct (links_seg _ _ _ _ _ L ND NI S) as [S' OUT].
  destruct L as (U1 & U2 & U3 & U4 & U5 & U6 & U7 & U8).
  assert (INN : forall u, In u (runq a r ++ [t]) -> (u < acount a)%nat /\ troot (aat a u) = r /\ susp (aat a u) = false).
  { intros u I. apply in_app_iff in I. destruct I as [I | [<- | []]]; auto. apply (p_inrun _ _ H _ _ I). }
  eapply rep_change; eauto.
  - intros i. destruct (Nat.eq_dec i r) as [-> | NE]; [rewrite U10 | rewrite U9]; auto.
  - intros u i NE [I | I]; apply OUT; intros J; apply INN in J.
    + destruct (p_inrun _ _ H _ _ I) as (_ & F2 & _). destruct J as (_ & F & _). congruence.
    + destruct (p_insusp _ _ H _ _ I) as (_ & _ & F2). destruct J as (_ & _ & F). congruence.
  - rewrite U10. cbn [head tail]. split; auto. split; auto. rewrite lasto_app. reflexivity.
  - rewrite U10. cbn [shead stail]. destruct (p_susp _ _ H r) as (RS & RH & RTT). split; auto.
    eapply seg_ext; [| apply RS]. intros y Iy. unfold nx, pr. rewrite OUT; auto. intros J. apply INN in J.
    destruct (p_insusp _ _ H _ _ Iy) as (_ & _ & F2). destruct J as (_ & _ & F). congruence.
  - apply (p_insusp _ _ H).
  - apply NoDup_insert; auto.
  - apply (p_ndsusp _ _ H).
  - intros u RU N1 N2. unfold nx, pr. rewrite OUT; auto. apply (p_out _ _ H); rewrite RU; auto.
    intros I. apply N1. apply in_app_iff; auto.
  - intros u RU N1 N2. apply OUT. intros J. apply INN in J. destruct J as (_ & F & _). congruence.
Qed.

Lemma rep_insert_susp : forall s a s' t r l1 l2, rep s a -> nowhere a t -> (t < acount a)%nat -> troot (aat a t) = r ->
  susp (aat a t) = true -> suspq a r = l1 ++ l2 ->
  links s s' l1 l2 t ->
  (forall i, i <> r -> rt s' i = rt s i) ->
  rt s' r = mkRoot (head (rt s r)) (tail (rt s r)) (hdo (l1 ++ t :: l2) None) (lasto (l1 ++ t :: l2) None) (active (rt s r)) ->
  rep s' (a_queues a r (runq a r) (l1 ++ t :: l2)).
Proof.
  intros s a s' t r l1 l2 H NW LT RT SU EQ L U9 U10.
  destruct (NW r) as [NR NS].
  pose proof (p_ndsusp _ _ H r) as ND. destruct (p_susp _ _ H r) as (S & _ & _).
  rewrite EQ in NS, ND, S.
  destruct (links_seg _ _ _ _ _ L ND NS S) as [S' OUT].
  destruct L as (U1 & U2 & U3 & U4 & U5 & U6 & U7 & U8).
  assert (INN : forall u, In u (l1 ++ t :: l2) -> (u < acount a)%nat /\ troot (aat a u) = r /\ susp (aat a u) = true).
  { intros u I. apply in_app_iff in I. cbn in I. destruct (Nat.eq_dec u t) as [-> | NE]; auto.
    apply (p_insusp _ _ H). rewrite EQ. apply in_app_iff. intuition congruence. }
  eapply rep_change; eauto.
  - intros i. destruct (Nat.eq_dec i r) as [-> | NE]; [rewrite U10 | rewrite U9]; auto.
  - intros u i NE [I | I]; apply OUT; intros J; apply INN in J.
    + destruct (p_inrun _ _ H _ _ I) as (_ & _ & F2). destruct J as (_ & _ & F). congruence.
    + destruct (p_insusp _ _ H _ _ I) as (_ & F2 & _). destruct J as (_ & F & _). congruence.
  - rewrite U10. cbn [head tail]. destruct (p_run _ _ H r) as (RS & RH & RTT). split; auto.
    eapply seg_ext; [| apply RS]. intros y Iy. unfold nx, pr. rewrite OUT; auto. intros J. apply INN in J.
    destruct (p_inrun _ _ H _ _ Iy) as (_ & _ & F2). destruct J as (_ & _ & F). congruence.
  - rewrite U10. cbn [shead stail]. split; auto.
  - apply (p_inrun _ _ H).
  - apply (p_ndrun _ _ H).
  - apply NoDup_insert; auto.
  - intros u RU N1 N2. unfold nx, pr. rewrite OUT; auto. apply (p_out _ _ H); rewrite RU; auto.
    rewrite EQ. intros I. apply N2. apply in_app_iff in I. apply in_app_iff. cbn. tauto.
  - intros u RU N1 N2. apply OUT. intros J. apply INN in J. destruct J as (_ & F & _). congruence.
Qed.

Lemma find_later_split : forall s f t l b fuel, (length l <= fuel)%nat ->
  seg (nx s) (pr s) b l None ->
  (forall u, att (th s u) = f u) ->
  exists l1 l2, l = l1 ++ l2 /\ by_time f t l = l1 ++ t :: l2 /\ find_later fuel s t (hdo l None) = hdo l2 None.
Proof.
  induction l as [| x r IH]; intros b fuel L S E.
  - exists [], []. repeat split. destruct fuel; reflexivity.
  - cbn [length] in L. destruct fuel as [| fuel]; [lia |]. cbn [seg] in S. destruct S as (S1 & S2 & S3).
    cbn [hdo find_later by_time]. rewrite !E.
    destruct (later (run_at (f t)) (run_at (f x))).
    + destruct (IH (Some x) fuel ltac:(lia) S3 E) as (l1 & l2 & -> & E2 & E3).
      exists (x :: l1), l2. rewrite E2. repeat split; auto. change (nxt (th s x)) with (nx s x). now rewrite S2.
    + exists [], (x :: r). auto.
Qed.

Lemma queue_length : forall l n, NoDup l -> (forall t, In t l -> (t < n)%nat) -> (length l <= n)%nat.
Proof.
  intros l n ND B. rewrite <- (seq_length n 0). apply NoDup_incl_length; auto.
  intros t I. apply in_seq. specialize (B t I). lia.
Qed.

Lemma rep_length : forall s a r, rep s a -> (length (runq a r) <= acount a)%nat /\ (length (suspq a r) <= acount a)%nat.
Proof.
  intros s a r H. split; apply queue_length.
  - apply (p_ndrun _ _ H).
  - intros t I. apply (p_inrun _ _ H _ _ I).
  - apply (p_ndsusp _ _ H).
  - intros t I. apply (p_insusp _ _ H _ _ I).
Qed.

Lemma rep_enqueue : forall s a t r, rep s a -> nowhere a t -> (t < acount a)%nat -> troot (aat a t) = r ->
  exited (aat a t) = false -> rep (enqueue_thread s t r) (a_enter a t r).
Proof.
  intros s a t r H NW LT RT EX.
  destruct (p_out _ _ H t) as [NN NP]; try apply NW.
  unfold enqueue_thread, a_enter. rewrite (p_att _ _ H t), EX.
  destruct (susp (aat a t)) eqn:SU; cbn [negb].
  - destruct (p_susp _ _ H r) as (S & HH & HT). destruct (rep_length _ _ r H) as [_ LEN].
    rewrite <- (p_nth _ _ H) in LEN.
    destruct (find_later_split s (aat a) t _ _ _ LEN S (p_att _ _ H)) as (l1 & l2 & E1 & E2 & E3).
    rewrite HH, E3, E2. rewrite E1 in S, HH, HT.
    destruct (NW r) as [_ NS]. rewrite E1 in NS.
    pose proof (p_ndsusp _ _ H r) as ND. rewrite E1 in ND.
    rewrite in_app_iff in NS.
    destruct l2 as [| p l2].
    + cbn [hdo]. rewrite app_nil_r in HH, HT, S.
      eapply rep_insert_susp; eauto.
      * cbv zeta. rewrite HT. cbn. rewrite !upd_same. cbn. rewrite ?upd_same. cbn.
        destruct (lasto l1 None) as [x |] eqn:EL; cbn.
        -- assert (x <> t) by (intros ->; apply lasto_in0 in EL; tauto).
           assert (RR : match shead (rt s r) with None => True | Some _ => True end) by (destruct (shead (rt s r)); auto).
           destruct (shead (rt s r)); repeat split; try reflexivity; intros u; cbn; rewrite ?EL; cbn; rewrite ?(Nat.eqb_sym x u); updc.
        -- destruct (shead (rt s r)); repeat split; try reflexivity; intros u; cbn; rewrite ?EL; cbn; updc.
      * intros i NE. cbv zeta. rewrite HT. cbn. rewrite !upd_same. cbn. rewrite ?upd_same. cbn.
        destruct (lasto l1 None); cbn; destruct (shead (rt s r)); cbn; rewrite !upd_other by auto; auto.
      * cbv zeta. rewrite HT. cbn. rewrite !upd_same. cbn. rewrite ?upd_same. cbn. rewrite lasto_app. cbn [lasto].
        destruct (lasto l1 None) as [x |] eqn:EL; cbn.
        -- rewrite HH. destruct l1 as [| y l1]; [discriminate |]. cbn. rewrite ?upd_same, HH. reflexivity.
        -- apply lasto_none in EL. subst l1. cbn in *. rewrite HH. cbn. rewrite ?upd_same. reflexivity.
    + cbn [hdo].
      assert (NEp : p <> t) by (intros ->; apply NS; right; left; auto).
      destruct (seg_at _ _ _ _ _ S) as [PP PN].
      assert (NLp : lasto l1 None <> Some p).
      { intros F. apply lasto_in0 in F. apply NoDup_remove in ND. apply (proj2 ND). apply in_app_iff. auto. }
      eapply rep_insert_susp; eauto.
      * cbv zeta. cbn. rewrite upd_other by auto. cbn. change (prd (th s p)) with (pr s p). rewrite PP.
        destruct (lasto l1 None) as [x |] eqn:EL; cbn.
        -- assert (x <> t) by (intros ->; apply lasto_in0 in EL; tauto).
           assert (x <> p) by congruence.
           repeat split; try reflexivity; intros u; cbn; rewrite ?EL; cbn; rewrite ?(Nat.eqb_sym x u), ?(Nat.eqb_sym p u); updc.
        -- repeat split; try reflexivity; intros u; cbn; rewrite ?EL; cbn; rewrite ?(Nat.eqb_sym p u); updc.
      * intros i NE. cbv zeta. cbn. rewrite upd_other by auto. cbn. change (prd (th s p)) with (pr s p). rewrite PP.
        destruct (lasto l1 None); cbn; rewrite ?upd_other by auto; auto.
      * cbv zeta. cbn. rewrite upd_other by auto. cbn. change (prd (th s p)) with (pr s p). rewrite PP.
        rewrite !lasto_app in *. cbn [lasto] in *.
        destruct (lasto l1 None) as [x |] eqn:EL; cbn; rewrite ?upd_same, <- HT.
        -- destruct l1 as [| y l1]; [discriminate |]. cbn in *. rewrite <- HH. now destruct (rt s r).
        -- apply lasto_none in EL. subst l1. cbn in *. now destruct (rt s r).
  - destruct (p_run _ _ H r) as (S & HH & HT). destruct (NW r) as [NR _].
    eapply rep_insert_run; eauto.
    + cbv zeta. rewrite HT. cbn. rewrite !upd_same. cbn. rewrite ?upd_same. cbn.
      destruct (lasto (runq a r) None) as [x |] eqn:EL; cbn.
      * assert (x <> t) by (intros ->; apply lasto_in0 in EL; tauto).
        destruct (head (rt s r)); repeat split; try reflexivity; intros u; cbn; rewrite ?EL; cbn; rewrite ?(Nat.eqb_sym x u); updc.
      * destruct (head (rt s r)); repeat split; try reflexivity; intros u; cbn; rewrite ?EL; cbn; updc.
    + intros i NE. cbv zeta. rewrite HT. cbn. rewrite !upd_same. cbn. rewrite ?upd_same. cbn.
      destruct (lasto (runq a r) None); cbn; destruct (head (rt s r)); cbn; rewrite !upd_other by auto; auto.
    + cbv zeta. rewrite HT. cbn. rewrite !upd_same. cbn. rewrite ?upd_same. cbn.
      destruct (lasto (runq a r) None) as [x |] eqn:EL; cbn.
      * rewrite HH. destruct (runq a r) as [| y l1]; [discriminate |]. cbn. rewrite ?upd_same, HH. reflexivity.
      * apply lasto_none in EL. rewrite EL in *. cbn in *. rewrite HH. cbn. rewrite ?upd_same. reflexivity.
Qed.
