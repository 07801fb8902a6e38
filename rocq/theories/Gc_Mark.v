(** Marking terminates and marks what can be reached. *)

From Coq Require Import ZArith List Bool Arith Lia.
Import ListNotations.
From Verif Require Import Gc_Model Gc_Spec.

Lemma set_same m p : set m p p = true.
Proof. unfold set. now rewrite Nat.eqb_refl. Qed.

Lemma set_spec m p q : set m p q = true <-> q = p \/ m q = true.
Proof.
  unfold set. destruct (Nat.eqb_spec q p).
  - split; auto.
  - split; [auto | intros [?|?]; [congruence | auto]].
Qed.

Lemma put_same c p o : put c p o p = o.
Proof. unfold put. now rewrite Nat.eqb_refl. Qed.

Lemma put_other c p o q : q <> p -> put c p o q = c q.
Proof. unfold put. intros H. destruct (Nat.eqb_spec q p); congruence. Qed.

Lemma clear_same m p : clear m p p = false.
Proof. unfold clear. now rewrite Nat.eqb_refl. Qed.

Lemma clear_other m p q : q <> p -> clear m p q = m q.
Proof. unfold clear. intros H. destruct (Nat.eqb_spec q p); congruence. Qed.

Lemma reach_mono c r1 r2 p : (forall v, In v r1 -> In v r2) -> reach c r1 p -> reach c r2 p.
Proof.
  intros H R. induction R.
  - apply reach_root; auto.
  - eapply reach_step; eauto.
Qed.

Lemma reach_trans c r1 r2 p :
  (forall q, In (VPtr q) r1 -> reach c r2 q) -> reach c r1 p -> reach c r2 p.
Proof.
  intros H R. induction R.
  - auto.
  - eapply reach_step; eauto.
Qed.

Section Mark.
Context (c : cells) (dom : list loc) (G : loc -> Prop).
Hypothesis G_alloc : forall p, G p -> exists o, c p = Some o /\ fn_ok o.
Hypothesis G_step : forall p o q, G p -> c p = Some o -> In (VPtr q) (strong o) -> G q.
Hypothesis G_dom : forall p, G p -> collectable c p -> In p dom.

Definition unmarked (m : marks) : nat := length (filter (fun p => negb (m p)) dom).

Definition grows (m m' : marks) : Prop := forall p, m p = true -> m' p = true.

Lemma filter_le {A} (f g : A -> bool) l :
  (forall x, In x l -> f x = true -> g x = true) ->
  length (filter f l) <= length (filter g l).
Proof.
  induction l as [|x l IH]; simpl; intros H; [lia|].
  assert (IH' := IH (fun y Hy => H y (or_intror Hy))).
  destruct (f x) eqn:F.
  - rewrite (H x (or_introl eq_refl) F). simpl. lia.
  - destruct (g x); simpl; lia.
Qed.

Lemma unmarked_grows m m' : grows m m' -> unmarked m' <= unmarked m.
Proof.
  intros H. apply filter_le. intros x _ E. destruct (m x) eqn:F; auto.
  now rewrite (H x F) in E.
Qed.

Lemma unmarked_set m p : In p dom -> m p = false -> unmarked (set m p) < unmarked m.
Proof.
  unfold unmarked. clear G_dom. induction dom as [|x l IH]; simpl; intros [] E.
  - subst x. rewrite set_same, E. simpl.
    apply Nat.lt_succ_r. apply filter_le. intros y _ F.
    destruct (m y) eqn:Y; auto.
    assert (set m p y = true) by (apply set_spec; auto). now rewrite H in F.
  - assert (IH' := IH H E). destruct (Nat.eqb_spec x p) as [->|N].
    + rewrite set_same, E. simpl. lia.
    + assert (set m p x = m x) as ->.
      { unfold set. destruct (Nat.eqb_spec x p); congruence. }
      destruct (m x); simpl; lia.
Qed.

Definition marked_ok (m : marks) (vs : list value) (m' : marks) : Prop :=
  grows m m' /\
  (forall p, In (VPtr p) vs -> collectable c p -> m' p = true) /\
  (forall q, m' q = true -> m q = false ->
    collectable c q /\ reach c vs q /\
    forall o p, c q = Some o -> In (VPtr p) (strong o) -> p <> nil_loc ->
      collectable c p -> m' p = true).

Lemma marked_ok_nil m : marked_ok m [] m.
Proof.
  split; [|split].
  - intros p; auto.
  - intros p [].
  - intros q A B. congruence.
Qed.

Lemma marked_ok_cons m v m1 vs m2 :
  marked_ok m [v] m1 -> marked_ok m1 vs m2 -> marked_ok m (v :: vs) m2.
Proof.
  intros (A1 & A2 & A3) (B1 & B2 & B3). split; [|split].
  - intros p H. apply B1, A1, H.
  - intros p [->|H] C.
    + apply B1, A2; simpl; auto.
    + apply B2; auto.
  - intros q H1 H2. destruct (m1 q) eqn:E.
    + destruct (A3 q E H2) as (C & R & K). split; [auto|split].
      * eapply reach_mono; [|exact R]. intros w [->|[]]. now left.
      * intros o p O I N CP. apply B1. eapply K; eauto.
    + destruct (B3 q H1 E) as (C & R & K). split; [auto|split].
      * eapply reach_mono; [|exact R]. intros w. now right.
      * exact K.
Qed.

Lemma marked_ok_app m us m1 vs m2 :
  marked_ok m us m1 -> marked_ok m1 vs m2 -> marked_ok m (us ++ vs) m2.
Proof.
  intros (A1 & A2 & A3) (B1 & B2 & B3). split; [|split].
  - intros p H. apply B1, A1, H.
  - intros p H C. apply in_app_or in H. destruct H as [H|H].
    + apply B1, A2; auto.
    + apply B2; auto.
  - intros q H1 H2. destruct (m1 q) eqn:E.
    + destruct (A3 q E H2) as (C & R & K). split; [auto|split].
      * eapply reach_mono; [|exact R]. intros w Hw. apply in_or_app; auto.
      * intros o p O I N CP. apply B1. eapply K; eauto.
    + destruct (B3 q H1 E) as (C & R & K). split; [auto|split].
      * eapply reach_mono; [|exact R]. intros w Hw. apply in_or_app; auto.
      * exact K.
Qed.

(** Marking a cell and then all it points to, but perhaps not nil. *)
Lemma marked_ok_node m p o vs m' :
  c p = Some o -> o <> OStatic ->
  (forall v, In v vs -> In v (strong o)) ->
  (forall q, In (VPtr q) (strong o) -> q <> nil_loc -> In (VPtr q) vs) ->
  marked_ok (set m p) vs m' -> marked_ok m [VPtr p] m'.
Proof.
  intros O NS S1 S2 (A1 & A2 & A3).
  assert (C : collectable c p) by (exists o; auto).
  split; [|split].
  - intros q H. apply A1, set_spec. auto.
  - intros q [[= <-]|[]] _. apply A1, set_same.
  - intros q H1 H2. destruct (Nat.eq_dec q p) as [->|N].
    + split; [auto|split].
      * apply reach_root. simpl. auto.
      * intros o' r O' I NN CR. rewrite O in O'. injection O' as <-. apply A2; auto.
    + destruct (set m p q) eqn:E.
      { apply set_spec in E. destruct E; congruence. }
      destruct (A3 q H1 E) as (C' & R & K). split; [auto|split; [|exact K]].
      apply reach_trans with (r1 := vs); auto. intros r I.
      eapply reach_step; [apply reach_root; left; reflexivity | exact O | auto].
Qed.

Definition good (v : value) : Prop := match v with VPtr p => G p | _ => True end.

Definition rec_ok (n : nat) (rec : value -> marks -> res marks) : Prop :=
  forall p m, G p -> m p = false -> unmarked m < n ->
    exists m', rec (VPtr p) m = Done m' /\ marked_ok m [VPtr p] m'.

Lemma markval_ok n rec v m :
  rec_ok n rec -> good v -> unmarked m < n ->
  exists m', markval c rec v m = Done m' /\ marked_ok m [v] m'.
Proof.
  intros R Gv L. destruct v as [|z|p]; simpl.
  - exists m. split; auto. split; [|split].
    + intros q; auto.
    + intros q [|[]]; discriminate.
    + intros q A B; congruence.
  - exists m. split; auto. split; [|split].
    + intros q; auto.
    + intros q [|[]]; discriminate.
    + intros q A B; congruence.
  - simpl in Gv. destruct (G_alloc p Gv) as (o & O & _). rewrite O. simpl.
    destruct (m p) eqn:E.
    + exists m. split; auto. split; [|split].
      * intros q; auto.
      * intros q [[= <-]|[]] _; auto.
      * intros q A B; congruence.
    + apply R; auto.
Qed.

Lemma markval_fun_ok n rec v m :
  rec_ok n rec -> good v -> (forall z, v <> VInt z) -> unmarked m < n ->
  exists m', markval_fun c rec v m = Done m' /\ marked_ok m [v] m'.
Proof.
  intros R Gv NI L. destruct v as [|z|p].
  - apply (markval_ok n rec VNull m R Gv L).
  - exfalso. now apply (NI z).
  - apply (markval_ok n rec (VPtr p) m R Gv L).
Qed.

Lemma marked_ok_unmarked m vs m' n : marked_ok m vs m' -> unmarked m < n -> unmarked m' < n.
Proof. intros (H & _) L. apply unmarked_grows in H. lia. Qed.

Lemma markvals_ok n rec vs : forall m,
  rec_ok n rec -> (forall v, In v vs -> good v) -> unmarked m < n ->
  exists m', markvals c rec vs m = Done m' /\ marked_ok m vs m'.
Proof.
  induction vs as [|v vs IH]; simpl; intros m R Gv L.
  - exists m. split; auto. apply marked_ok_nil.
  - destruct (markval_ok n rec v m R (Gv v (or_introl eq_refl)) L) as (m1 & E1 & P1).
    rewrite E1. simpl.
    destruct (IH m1 R (fun w Hw => Gv w (or_intror Hw)) (marked_ok_unmarked _ _ _ _ P1 L))
      as (m2 & E2 & P2).
    exists m2. split; auto. eapply marked_ok_cons; eauto.
Qed.

Lemma good_child p o v : G p -> c p = Some o -> In v (strong o) -> good v.
Proof. intros Gp O I. destruct v; simpl; auto. eapply G_step; eauto. Qed.

Lemma mark_value_ok fuel : rec_ok fuel (mark_value fuel c).
Proof.
  induction fuel as [|n IH]; intros p m Gp Mp L; [lia|].
  destruct (G_alloc p Gp) as (o & O & F).
  assert (GC : forall v, In v (strong o) -> good v) by (intros v; apply good_child with p; auto).
  assert (D : o <> OStatic -> unmarked (set m p) < n).
  { intros N. assert (unmarked (set m p) < unmarked m); [|lia].
    apply unmarked_set; auto. apply G_dom; auto. exists o; auto. }
  simpl mark_value. rewrite O.
  destruct o as [a d|l|nm nx| | |nm en st fn| |l|acc ina|rf].
  - assert (D' : unmarked (set m p) < n) by (apply D; discriminate).
    destruct (is_nil d) eqn:ND.
    + destruct (markval_ok n _ a _ IH (GC a (or_introl eq_refl)) D') as (m1 & E1 & P1).
      exists m1. split; auto.
      eapply marked_ok_node with (vs := [a]); eauto; try discriminate.
      * intros v [<-|[]]. simpl. auto.
      * intros q [->|[->|[]]] NN; simpl; auto.
        exfalso. simpl in ND. apply Nat.eqb_eq in ND. congruence.
    + destruct (markvals_ok n _ [a; d] _ IH GC D') as (m1 & E1 & P1).
      exists m1. split.
      * simpl in E1. destruct (markval c (mark_value n c) a (set m p)); simpl in *; auto.
        destruct (markval c (mark_value n c) d a0); simpl in *; auto.
      * eapply marked_ok_node with (vs := [a; d]); eauto; try discriminate.
  - destruct (markvals_ok n _ l _ IH GC (D ltac:(discriminate))) as (m1 & E1 & P1).
    exists m1. split; auto. eapply marked_ok_node with (vs := l); eauto; discriminate.
  - destruct (markvals_ok n _ [nm; nx] _ IH GC (D ltac:(discriminate))) as (m1 & E1 & P1).
    exists m1. split.
    + simpl in E1. destruct (markval c (mark_value n c) nm (set m p)); simpl in *; auto.
      destruct (markval c (mark_value n c) nx a); simpl in *; auto.
    + eapply marked_ok_node with (vs := [nm; nx]); eauto; discriminate.
  - exists (set m p). split; auto.
    eapply marked_ok_node with (vs := []); eauto; try discriminate. apply marked_ok_nil.
  - exists (set m p). split; auto.
    eapply marked_ok_node with (vs := []); eauto; try discriminate. apply marked_ok_nil.
  - destruct (markvals_ok n _ [nm; en; st] _ IH
                (fun v Hv => GC v ltac:(simpl in *; tauto)) (D ltac:(discriminate)))
      as (m1 & E1 & P1).
    destruct (markval_fun_ok n _ fn m1 IH) as (m2 & E2 & P2).
    { apply GC. simpl. auto. }
    { intros z ->. exact F. }
    { eapply marked_ok_unmarked; eauto. apply D. discriminate. }
    exists m2. split.
    + simpl in E1. destruct (markval c (mark_value n c) nm (set m p)); simpl in *; try discriminate.
      destruct (markval c (mark_value n c) en a); simpl in *; try discriminate.
      destruct (markval c (mark_value n c) st a0); simpl in *; try discriminate.
      injection E1 as ->. exact E2.
    + eapply marked_ok_node with (vs := [nm; en; st] ++ [fn]); eauto; try discriminate.
      eapply marked_ok_app; eauto.
  - exists m. split; auto. split; [|split].
    + intros q; auto.
    + intros q [[= <-]|[]] (o & O' & NS). congruence.
    + intros q A B; congruence.
  - destruct (markvals_ok n _ l _ IH GC (D ltac:(discriminate))) as (m1 & E1 & P1).
    exists m1. split; auto. eapply marked_ok_node with (vs := l); eauto; discriminate.
  - destruct (markval_ok n _ ina _ IH (GC ina (or_introl eq_refl)) (D ltac:(discriminate)))
      as (m1 & E1 & P1).
    exists m1. split; auto. eapply marked_ok_node with (vs := [ina]); eauto; discriminate.
  - exists (set m p). split; auto.
    eapply marked_ok_node with (vs := []); eauto; try discriminate. apply marked_ok_nil.
Qed.

Lemma markvals_roots fuel vs m :
  (forall p, In (VPtr p) vs -> G p) -> unmarked m < fuel ->
  exists m', markvals c (mark_value fuel c) vs m = Done m' /\ marked_ok m vs m'.
Proof.
  intros H L. apply markvals_ok with (n := fuel); auto.
  - apply mark_value_ok.
  - intros [| |p] I; simpl; auto.
Qed.

End Mark.
