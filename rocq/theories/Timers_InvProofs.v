(* The invariant of the timer state. *)
From Coq Require Import ZArith List Bool Lia ZifyBool Sorting.Sorted Permutation.
From Verif Require Import Timers_Model Timers_Spec Timers_Proofs.
Import ListNotations.
Open Scope Z_scope.

Definition zeros (l : list (nat * Z)) : Prop := Forall (fun p => snd p = 0) l.
Definition posh (l : list (nat * Z)) : Prop := match l with (_, d) :: _ => 0 < d | [] => True end.

(* F are the fired timers of the chain, U the others. *)
Record inv (s : st) (F U : list nat) : Prop := mkInv {
  ic : chain s = F ++ U;
  ind : NoDup (chain s);
  inorm : forall i, In i (chain s) -> norm (tms s i);
  idel : forall i, In i (chain s) -> deleted (tms s i) = false;
  ifresh : forall i, In i (chain s) -> (i < fresh s)%nat;
  iper : forall i, 0 <= msecs (tms s i) < 1000 /\ 0 <= secs (tms s i);
  iFf : forall i, In i F -> fired (tms s i) = true;
  iFz : zeros (deltas (tms s) F);
  iU : forall i, In i U -> fired (tms s i) = false;
  ihd : posh (deltas (tms s) U);
  ipipe : F <> [] -> pipe s <> 0%nat;
  iarm : F = [] -> forall h r, U = h :: r ->
    caught s = true /\ (pending s = true \/ exists x, itimer s = Some x /\ x <= rel (tms s h));
  iemp : chain s = [] -> caught s = false;
  itim : forall x, itimer s = Some x -> 0 < x;
  ipc : pending s = true -> caught s = true;
  ifail : failed s = false;
  iready : forall i, In i (ready s) -> (i < fresh s)%nat
}.

Lemma inv_init : inv init [] [].
Proof.
  constructor; cbn; try easy; try constructor; lia.
Qed.

Lemma nonneg_deltas : forall f c, (forall i, In i c -> norm (f i)) -> nonneg (deltas f c).
Proof.
  intros f c H. apply Forall_forall. intros p P. apply in_map_iff in P. destruct P as (i & <- & I).
  cbn [snd]. apply H in I. unfold norm, rel in *. lia.
Qed.

Lemma deltas_app : forall f a b, deltas f (a ++ b) = deltas f a ++ deltas f b.
Proof. intros. apply map_app. Qed.

Lemma dins_zeros : forall a b i p, zeros a -> 0 < p -> dins i p (a ++ b) = a ++ dins i p b.
Proof.
  induction a as [|[j d] r IH]; intros b i p Z P; cbn [app dins]; [reflexivity|].
  apply Forall_cons_iff in Z. destruct Z as [E Z]. cbn [snd] in E. subst d.
  replace (0 <=? p) with true by lia. rewrite Z.sub_0_r. f_equal. now apply IH.
Qed.

Lemma dadd_0 : forall l, dadd 0 l = l.
Proof. destruct l as [|[j d] r]; cbn; [reflexivity|]. now rewrite Z.add_0_r. Qed.

Lemma ddel_zeros : forall a b i, zeros a -> In i (map fst a) -> ddel i (a ++ b) = ddel i a ++ b.
Proof.
  induction a as [|[j d] r IH]; intros b i Z I; cbn [app ddel]; [easy|].
  apply Forall_cons_iff in Z. destruct Z as [E Z]. cbn [snd] in E. subst d.
  destruct (Nat.eqb_spec j i); [now rewrite !dadd_0|].
  cbn [app]. f_equal. apply IH; [exact Z|]. destruct I as [I|I]; [cbn in I; congruence|exact I].
Qed.

Lemma ddel_app : forall a b i, ~ In i (map fst a) -> ddel i (a ++ b) = a ++ ddel i b.
Proof.
  induction a as [|[j d] r IH]; intros b i I; cbn [app ddel]; [reflexivity|].
  destruct (Nat.eqb_spec j i) as [->|]; [exfalso; apply I; now left|].
  f_equal. apply IH. intros K. apply I. now right.
Qed.

Lemma zeros_ddel : forall a i, zeros a -> zeros (ddel i a).
Proof.
  induction a as [|[j d] r IH]; intros i Z; cbn [ddel]; [constructor|].
  apply Forall_cons_iff in Z. destruct Z as [E Z]. cbn [snd] in E. subst d.
  destruct (Nat.eqb j i); [now rewrite dadd_0|]. constructor; [reflexivity|]. now apply IH.
Qed.

Lemma posh_dins : forall l i p, posh l -> 0 < p -> posh (dins i p l).
Proof.
  destruct l as [|[j d] r]; intros i p H P; cbn in *; [exact P|]. destruct (d <=? p); cbn; assumption.
Qed.

Lemma posh_ddel : forall l i, posh l -> nonneg l -> posh (ddel i l).
Proof.
  destruct l as [|[j d] r]; intros i H N; cbn in *; [exact I|]. destruct (Nat.eqb j i); [|exact H].
  destruct r as [|[k e] r]; cbn; [exact I|]. apply Forall_cons_iff in N. destruct N as [_ N].
  apply Forall_cons_iff in N. cbn in N. lia.
Qed.

Lemma in_ddel : forall l i j, In j (map fst (ddel i l)) -> In j (map fst l).
Proof.
  induction l as [|[k d] r IH]; intros i j H; [easy|]. cbn [ddel] in H.
  destruct (Nat.eqb k i).
  - right. destruct r as [|[q e] r]; exact H.
  - destruct H as [H|H]; [now left|right; now apply (IH i)].
Qed.

Lemma nodup_ddel : forall l i, NoDup (map fst l) -> NoDup (map fst (ddel i l)).
Proof.
  induction l as [|[k d] r IH]; intros i H; [constructor|]. cbn [map fst] in H. apply NoDup_cons_iff in H. destruct H as [A B].
  cbn [ddel]. destruct (Nat.eqb k i).
  - destruct r as [|[q e] r]; exact B.
  - cbn [map fst]. constructor; [|now apply IH]. intros K. apply A. now apply in_ddel in K.
Qed.

Lemma not_in_ddel : forall l i, NoDup (map fst l) -> ~ In i (map fst (ddel i l)).
Proof.
  induction l as [|[k d] r IH]; intros i H; [easy|]. cbn [map fst] in H. apply NoDup_cons_iff in H. destruct H as [A B].
  cbn [ddel]. destruct (Nat.eqb_spec k i) as [->|N].
  - destruct r as [|[q e] r]; exact A.
  - intros [K|K]; [contradiction|]. now apply (IH i B).
Qed.

Lemma deltas_split : forall f a b x y, deltas f (a ++ b) = x ++ y -> length a = length x ->
  deltas f a = x /\ deltas f b = y.
Proof.
  intros f a b x y H L. rewrite deltas_app in H.
  assert (L' : length (deltas f a) = length x) by (unfold deltas; now rewrite map_length).
  clear L; revert x y H L'. generalize (deltas f a). clear. induction l as [|p l IH]; intros [|q x] y H L; cbn in *; try discriminate.
  - auto.
  - injection H as -> H. apply IH in H; [|lia]. destruct H as [-> ->]. auto.
Qed.

(** * setup_next_timer *)

Lemma setup_fields : forall s, tms (setup_next_timer s) = tms s /\ fresh (setup_next_timer s) = fresh s /\
  chain (setup_next_timer s) = chain s /\ pipe (setup_next_timer s) = pipe s /\
  ready (setup_next_timer s) = ready s /\ now (setup_next_timer s) = now s /\
  calls (setup_next_timer s) = calls s /\ failed (setup_next_timer s) = failed s.
Proof.
  intros s. unfold setup_next_timer. destruct (chain s) eqn:E; [cbn; auto 10|].
  destruct (_ || _); cbn; auto 10.
Qed.

Lemma setup_armed : forall s h r, chain s = h :: r -> norm (tms s h) -> 0 < rel (tms s h) ->
  setup_next_timer s = with_alarm s (Some (rel (tms s h))) true (pending s).
Proof.
  intros s h r C N P. unfold setup_next_timer. rewrite C. unfold norm, rel in *.
  replace ((0 <? rel_secs (tms s h)) || (0 <? rel_msecs (tms s h))) with true by lia.
  now replace (rel_secs (tms s h) <? 0) with false by lia.
Qed.

Lemma setup_zero : forall s h r, chain s = h :: r -> norm (tms s h) -> rel (tms s h) = 0 ->
  setup_next_timer s = with_alarm s (itimer s) false false.
Proof.
  intros s h r C N P. unfold setup_next_timer. rewrite C. unfold norm, rel in *.
  now replace ((0 <? rel_secs (tms s h)) || (0 <? rel_msecs (tms s h))) with false by lia.
Qed.

Lemma setup_empty : forall s, chain s = [] ->
  setup_next_timer s = with_alarm s (itimer s) false false.
Proof. intros s C. unfold setup_next_timer. now rewrite C. Qed.

(* All of the invariant but the part about the alarm. *)
Record cinv (s : st) (F U : list nat) : Prop := mkCinv {
  cc : chain s = F ++ U;
  cnd : NoDup (chain s);
  cnorm : forall i, In i (chain s) -> norm (tms s i);
  cdel : forall i, In i (chain s) -> deleted (tms s i) = false;
  cfresh : forall i, In i (chain s) -> (i < fresh s)%nat;
  cper : forall i, 0 <= msecs (tms s i) < 1000 /\ 0 <= secs (tms s i);
  cFf : forall i, In i F -> fired (tms s i) = true;
  cFz : zeros (deltas (tms s) F);
  cU : forall i, In i U -> fired (tms s i) = false;
  chd : posh (deltas (tms s) U);
  cpipe : F <> [] -> pipe s <> 0%nat;
  ctim : forall x, itimer s = Some x -> 0 < x;
  cpc : pending s = true -> caught s = true;
  cfail : failed s = false;
  cready : forall i, In i (ready s) -> (i < fresh s)%nat
}.

Lemma inv_cinv : forall s F U, inv s F U -> cinv s F U.
Proof. intros s F U []. constructor; assumption. Qed.

Lemma setup_inv : forall s F U, cinv s F U -> inv (setup_next_timer s) F U.
Proof.
  intros s F U C. assert (C' := C). destruct C'.
  destruct (setup_fields s) as (E1 & E2 & E3 & E4 & E5 & E6 & E7 & E8).
  assert (D : (exists h r, F ++ U = h :: r /\ 0 < rel (tms s h) /\ F = []) \/ (F ++ U = [] \/ F <> [])).
  { destruct F as [|h F]; [|right; right; discriminate]. destruct U as [|h U]; [right; now left|left].
    exists h, U. auto. }
  destruct D as [(h & r & HU & P & ->)|D].
  - rewrite HU in cc0. rewrite (setup_armed s h r cc0); [|apply cnorm0; rewrite cc0; now left|exact P].
    constructor; cbn; try assumption.
    + rewrite cc0. symmetry. exact HU.
    + intros _ k q K. split; [reflexivity|]. right. cbn in HU. rewrite HU in K. injection K as -> ->.
      eexists. split; [reflexivity|]. lia.
    + rewrite cc0. discriminate.
    + intros x [= <-]. exact P.
    + reflexivity.
  - assert (E : setup_next_timer s = with_alarm s (itimer s) false false).
    { destruct D as [D|D]; [apply setup_empty; congruence|].
      destruct F as [|h F]; [contradiction|]. apply (setup_zero s h (F ++ U)); [exact cc0| |].
      - apply cnorm0. rewrite cc0. now left.
      - apply Forall_cons_iff in cFz0. exact (proj1 cFz0). }
    rewrite E. constructor; cbn; try assumption; try discriminate; try reflexivity.
    intros -> h r HU. destruct D as [D|D]; [|contradiction]. rewrite HU in D. discriminate.
Qed.

(** * insert_timer *)

Definition is_head (c : list nat) (i : nat) : bool := head_is c i.

Lemma insert_zero : forall s i, (0 <? secs (tms s i)) || (0 <? msecs (tms s i)) = false -> insert_timer s i = s.
Proof. intros s i H. unfold insert_timer. now rewrite H. Qed.

(* The chain after an insertion *)
Lemma insert_core : forall s F U i, inv s F U -> ~ In i (chain s) -> (i < fresh s)%nat ->
  0 < 1000 * secs (tms s i) + msecs (tms s i) ->
  let p := 1000 * secs (tms s i) + msecs (tms s i) in
  exists s1 U1,
    insert_timer s i = (if head_is (chain s1) i then setup_next_timer s1 else s1) /\
    cinv s1 F U1 /\ U1 = map fst (dins i p (deltas (tms s) U)) /\
    deltas (tms s1) U1 = dins i p (deltas (tms s) U) /\
    (forall j, secs (tms s1 j) = secs (tms s j) /\ msecs (tms s1 j) = msecs (tms s j)) /\
    (forall j, j <> i -> same (tms s j) (tms s1 j)) /\ deleted (tms s1 i) = false /\
    fresh s1 = fresh s /\ itimer s1 = itimer s /\ caught s1 = caught s /\ pending s1 = pending s /\
    pipe s1 = pipe s /\ ready s1 = ready s /\ now s1 = now s /\ calls s1 = calls s.
Proof.
  intros s F U i V NI LF P p. destruct V.
  unfold insert_timer. replace ((0 <? secs (tms s i)) || (0 <? msecs (tms s i))) with true by (specialize (iper0 i); lia).
  set (t := mkTimer _ _ _ _ _ _). set (f := set_tm (tms s) i t).
  destruct (insert_walk f i (chain s)) as [f1 c1] eqn:W.
  assert (FC : forall j, In j (chain s) -> f j = tms s j).
  { intros j J. apply set_tm_neq. intros ->. contradiction. }
  assert (Fi : f i = t) by apply set_tm_eq.
  assert (Nt : norm t). { unfold norm, t; cbn. specialize (iper0 i). lia. }
  apply insert_walk_ok in W; [|exact NI|exact ind0|now rewrite Fi|intros j J; rewrite FC by exact J; auto].
  destruct W as (A & B & C & D & G). rewrite Fi in A, B.
  assert (Rp : rel t = p) by reflexivity. rewrite Rp in *.
  assert (X : deltas f (chain s) = deltas (tms s) F ++ deltas (tms s) U).
  { rewrite <- deltas_app, <- ic0. apply deltas_ext. intros j J. now rewrite FC. }
  rewrite X in A, B. rewrite dins_zeros in A, B by assumption.
  rewrite map_app, fst_deltas in A.
  set (U1 := map fst (dins i p (deltas (tms s) U))) in *.
  subst c1. apply deltas_split in B; [|unfold deltas; now rewrite map_length].
  destruct B as [BF BU].
  assert (Perm : Permutation (i :: U) U1).
  { unfold U1. rewrite <- (fst_deltas (tms s) U) at 1. apply fst_dins. }
  assert (InU : forall j, In j (F ++ U1) <-> j = i \/ In j (chain s)).
  { intros j. rewrite ic0, !in_app_iff. assert (Q : In j U1 <-> In j (i :: U)).
    { split; intros K; [eapply Permutation_in; [symmetry; exact Perm|exact K]|eapply Permutation_in; [exact Perm|exact K]]. }
    rewrite Q. cbn. intuition congruence. }
  assert (SM : forall j, j <> i -> same (tms s j) (f1 j)).
  { intros j J. eapply same_trans; [|apply C]. unfold f. rewrite set_tm_neq by exact J. apply same_refl. }
  exists (with_chain s f1 (F ++ U1)), U1. split; [reflexivity|].
  split; [|split; [reflexivity|split; [exact BU|split]]]; [|
    intros j; cbn; specialize (C j); destruct (Nat.eq_dec j i) as [->|J];
      [rewrite Fi in C; unfold same in C; cbn in C; intuition congruence|
       unfold f in C; rewrite set_tm_neq in C by exact J; unfold same in C; intuition congruence]|].
  - constructor; cbn; try assumption; try reflexivity.
    + eapply Permutation_NoDup with (l := i :: (F ++ U)).
      * etransitivity; [apply Permutation_middle|]. now apply Permutation_app_head.
      * constructor; [now rewrite <- ic0|now rewrite <- ic0].
    + intros j J. apply InU in J. apply D. destruct J as [->|J]; [now left|now right].
    + intros j J. apply InU in J. destruct (Nat.eq_dec j i) as [->|N].
      * specialize (C i). rewrite Fi in C. unfold same in C. cbn in C. intuition congruence.
      * destruct J as [J|J]; [contradiction|]. destruct (SM j N) as (_ & _ & _ & Q). rewrite <- Q. now apply idel0.
    + intros j J. apply InU in J. destruct J as [->|J]; [exact LF|now apply ifresh0].
    + intros j. specialize (iper0 j). destruct (C j) as (Q1 & Q2 & _). rewrite <- Q1, <- Q2.
      unfold f. destruct (Nat.eq_dec j i) as [->|N]; [rewrite set_tm_eq; exact iper0|now rewrite set_tm_neq].
    + intros j J. assert (N : j <> i) by (intros ->; apply NI; rewrite ic0; apply in_or_app; now left).
      destruct (SM j N) as (_ & _ & Q & _). rewrite <- Q. now apply iFf0.
    + rewrite BF. exact iFz0.
    + intros j J. destruct (Nat.eq_dec j i) as [->|N].
      * specialize (C i). rewrite Fi in C. unfold same in C. cbn in C. intuition congruence.
      * destruct (SM j N) as (_ & _ & Q & _). rewrite <- Q. apply iU0.
        assert (K : In j (i :: U)) by (eapply Permutation_in; [symmetry; exact Perm|exact J]).
        destruct K; [congruence|assumption].
    + rewrite BU. now apply posh_dins.
  - cbn. split; [exact SM|]. split; [|auto 10].
    specialize (C i). rewrite Fi in C. unfold same in C. cbn in C. intuition congruence.
Qed.

Lemma head_is_spec : forall c i, head_is c i = true <-> exists r, c = i :: r.
Proof.
  destruct c as [|j r]; intros i; cbn.
  - split; [discriminate|intros (r & R); discriminate].
  - rewrite Nat.eqb_eq. split; [intros ->; now exists r|intros (q & Q); congruence].
Qed.

Lemma insert_inv : forall s F U i, inv s F U -> ~ In i (chain s) -> (i < fresh s)%nat ->
  exists U1, inv (insert_timer s i) F U1.
Proof.
  intros s F U i V NI LF.
  destruct (Z.ltb_spec 0 (1000 * secs (tms s i) + msecs (tms s i))) as [P|P].
  2:{ rewrite insert_zero; [now exists U|]. destruct V. specialize (iper0 i). lia. }
  destruct (insert_core s F U i V NI LF P) as (s1 & U1 & E & C & EU & ED & _ & _ & _ & _ & Ei & Ec & Ep & _).
  exists U1. rewrite E. destruct (head_is (chain s1) i) eqn:H; [now apply setup_inv|].
  destruct C. destruct V. constructor; try assumption.
  - intros -> h r HU. cbn in cc0.
    destruct U as [|h0 r0].
    { cbn in EU. rewrite cc0, EU in H. cbn in H. rewrite Nat.eqb_refl in H. discriminate. }
    cbn [deltas map dins] in EU, ED.
    destruct (rel (tms s h0) <=? _) eqn:Q.
    + cbn [map fst] in EU. rewrite HU in EU. injection EU as -> ER.
      destruct (iarm0 eq_refl h0 r0 eq_refl) as [Ca [Pe|(x & Ix & Lx)]].
      * split; [congruence|]. left. congruence.
      * split; [congruence|]. right. exists x. split; [congruence|].
        rewrite HU in ED. cbn [deltas map] in ED. injection ED as R _. rewrite R. exact Lx.
    + cbn [map fst] in EU. rewrite cc0, EU in H. cbn in H. rewrite Nat.eqb_refl in H. discriminate.
  - intros K. rewrite cc0 in K. apply app_eq_nil in K. destruct K as [_ K].
    assert (L : length U1 = length (dins i (1000 * secs (tms s i) + msecs (tms s i)) (deltas (tms s) U))) by (rewrite EU; apply map_length).
    rewrite K in L. exfalso. clear - L. destruct (deltas (tms s) U) as [|[j d] r]; cbn in L; [discriminate|].
    destruct (d <=? _); discriminate.
Qed.

(** * delete_timer *)

Lemma delete_core : forall s F U i, inv s F U -> In i (chain s) ->
  exists s1 F1 U1,
    delete_timer s i = (if head_is (chain s) i then setup_next_timer s1 else s1) /\
    cinv s1 F1 U1 /\ F1 ++ U1 = map fst (ddel i (deltas (tms s) (chain s))) /\
    (F = [] -> F1 = []) /\
    deltas (tms s1) (F1 ++ U1) = ddel i (deltas (tms s) (chain s)) /\
    (forall j, j <> i -> same (tms s j) (tms s1 j)) /\
    (forall j, secs (tms s1 j) = secs (tms s j) /\ msecs (tms s1 j) = msecs (tms s j)) /\
    deleted (tms s1 i) = true /\
    fresh s1 = fresh s /\ itimer s1 = itimer s /\ caught s1 = caught s /\ pending s1 = pending s /\
    pipe s1 = pipe s /\ ready s1 = ready s /\ now s1 = now s /\ calls s1 = calls s /\
    (F <> [] -> F1 = [] -> head_is (chain s) i = true).
Proof.
  intros s F U i V I. assert (V' := V). destruct V'. unfold delete_timer.
  set (f := set_tm (tms s) i (set_deleted (tms s i) true)).
  cbn [tms with_tms chain].
  destruct (delete_walk f i (chain s)) as [[f1 c1]|] eqn:W.
  2:{ apply delete_walk_none in W. contradiction. }
  assert (RF : forall j, rel (f j) = rel (tms s j) /\ (norm (tms s j) -> norm (f j))).
  { intros j. unfold f. destruct (Nat.eq_dec j i) as [->|N]; [rewrite set_tm_eq; split; auto|rewrite set_tm_neq by exact N; auto]. }
  apply delete_walk_ok in W; [|exact ind0|intros j J; apply RF; auto].
  destruct W as (_ & A & B & C & D & G).
  assert (X : deltas f (chain s) = deltas (tms s) (chain s)) by (apply deltas_ext; intros j J; apply RF).
  rewrite X in A, B.
  assert (ND : NoDup (map fst (deltas (tms s) (chain s)))) by (rewrite fst_deltas; exact ind0).
  assert (NDc : NoDup c1) by (rewrite A; now apply nodup_ddel).
  assert (Sub : forall j, In j c1 -> In j (chain s) /\ j <> i).
  { intros j J. rewrite A in J. split; [apply in_ddel in J; now rewrite fst_deltas in J|].
    intros ->. revert J. now apply not_in_ddel. }
  assert (NN : nonneg (deltas (tms s) U)).
  { apply nonneg_deltas. intros j J. apply inorm0. rewrite ic0. apply in_or_app. now right. }
  assert (SM : forall j, j <> i -> same (tms s j) (f1 j)).
  { intros j J. eapply same_trans; [|apply C]. unfold f. rewrite set_tm_neq by exact J. apply same_refl. }
  assert (Sp : exists F1 U1, c1 = F1 ++ U1 /\ (forall j, In j F1 -> In j F) /\ (forall j, In j U1 -> In j U) /\
    zeros (deltas f1 F1) /\ posh (deltas f1 U1) /\ (F <> [] -> F1 = [] -> head_is (chain s) i = true)).
  { rewrite ic0, deltas_app in A, B.
    destruct (in_dec Nat.eq_dec i F) as [IF|IF].
    - rewrite ddel_zeros in A, B by (rewrite ?fst_deltas; assumption).
      rewrite map_app, fst_deltas in A.
      exists (map fst (ddel i (deltas (tms s) F))), U. rewrite A in B.
      apply deltas_split in B; [|now rewrite map_length]. destruct B as [BF BU].
      split; [exact A|]. split; [|split; [auto|]].
      + intros j J. apply in_ddel in J. now rewrite fst_deltas in J.
      + rewrite BF, BU. split; [now apply zeros_ddel|]. split; [exact ihd0|].
        intros _ E. rewrite ic0. destruct F as [|h F]; [easy|]. cbn [app head_is].
        cbn [deltas map ddel] in E. destruct (Nat.eqb h i); [reflexivity|discriminate].
    - rewrite ddel_app in A, B by (rewrite fst_deltas; exact IF).
      rewrite map_app, fst_deltas in A.
      exists F, (map fst (ddel i (deltas (tms s) U))). rewrite A in B.
      apply deltas_split in B; [|unfold deltas; now rewrite map_length]. destruct B as [BF BU].
      split; [exact A|]. split; [auto|split].
      + intros j J. apply in_ddel in J. now rewrite fst_deltas in J.
      + rewrite BF, BU. split; [exact iFz0|]. split; [now apply posh_ddel|]. intros N E. contradiction. }
  destruct Sp as (F1 & U1 & Ec1 & SF & SU & ZF & PU & HH).
  exists (with_chain s f1 c1), F1, U1. split; [reflexivity|].
  split; [|split; [congruence|split; [|split; [|split; [|split; [|split]]]]]].
  - constructor; cbn; try assumption.
    + intros j J. apply D. now apply Sub.
    + intros j J. destruct (Sub j J) as [J1 J2]. destruct (SM j J2) as (_ & _ & _ & Q). rewrite <- Q. now apply idel0.
    + intros j J. apply ifresh0. now apply Sub.
    + intros j. specialize (iper0 j). destruct (C j) as (Q1 & Q2 & _). rewrite <- Q1, <- Q2.
      unfold f. destruct (Nat.eq_dec j i) as [->|N]; [rewrite set_tm_eq; exact iper0|now rewrite set_tm_neq].
    + intros j J. destruct (Sub j) as [_ J2]; [rewrite Ec1; apply in_or_app; now left|].
      destruct (SM j J2) as (_ & _ & Q & _). rewrite <- Q. apply iFf0. now apply SF.
    + intros j J. destruct (Sub j) as [_ J2]; [rewrite Ec1; apply in_or_app; now right|].
      destruct (SM j J2) as (_ & _ & Q & _). rewrite <- Q. apply iU0. now apply SU.
    + intros K. apply ipipe0. intros ->. destruct F1 as [|k F1]; [now apply K|]. apply (SF k). now left.
  - intros ->. destruct F1 as [|k F1]; [reflexivity|]. exfalso. apply (SF k). now left.
  - cbn. rewrite <- Ec1. exact B.
  - exact SM.
  - intros j. cbn. destruct (C j) as (Q1 & Q2 & _). rewrite <- Q1, <- Q2.
    unfold f. destruct (Nat.eq_dec j i) as [->|N]; [rewrite set_tm_eq; auto|rewrite set_tm_neq by exact N; auto].
  - cbn. destruct (C i) as (_ & _ & _ & Q). unfold f in Q. rewrite set_tm_eq in Q. cbn in Q. congruence.
  - cbn. repeat (split; [reflexivity|]). exact HH.
Qed.

Lemma delete_absent : forall s i, ~ In i (chain s) ->
  delete_timer s i = with_tms s (set_tm (tms s) i (set_deleted (tms s i) true)).
Proof.
  intros s i H. unfold delete_timer. cbn [tms with_tms chain].
  destruct (delete_walk _ i (chain s)) as [[f c]|] eqn:E; [|reflexivity].
  exfalso. clear - H E. revert E. generalize (set_tm (tms s) i (set_deleted (tms s i) true)).
  revert f c H. generalize (chain s). induction l as [|j r IH]; intros f c H g E; cbn [delete_walk] in E; [discriminate|].
  destruct (Nat.eqb_spec j i) as [->|]; [apply H; now left|].
  destruct (delete_walk g i r) as [[f1 c1]|] eqn:W; [|discriminate].
  apply (IH f1 c1) with (t := g); [|exact W]. intros K. apply H. now right.
Qed.

Lemma inv_touch : forall s F U i t, inv s F U -> ~ In i (chain s) ->
  0 <= msecs t < 1000 /\ 0 <= secs t -> inv (with_tms s (set_tm (tms s) i t)) F U.
Proof.
  intros s F U i t V N P. destruct V.
  assert (E : forall j, In j (chain s) -> set_tm (tms s) i t j = tms s j).
  { intros j J. apply set_tm_neq. intros ->. contradiction. }
  assert (EF : forall j, In j F -> set_tm (tms s) i t j = tms s j) by (intros j J; apply E; rewrite ic0; apply in_or_app; now left).
  assert (EU : forall j, In j U -> set_tm (tms s) i t j = tms s j) by (intros j J; apply E; rewrite ic0; apply in_or_app; now right).
  constructor; cbn; try assumption.
  - intros j J. rewrite E by exact J. auto.
  - intros j J. rewrite E by exact J. auto.
  - intros j. unfold set_tm. destruct (Nat.eqb j i); auto.
  - intros j J. rewrite EF by exact J. auto.
  - rewrite (deltas_ext _ (tms s)); [assumption|]. intros j J. now rewrite EF.
  - intros j J. rewrite EU by exact J. auto.
  - rewrite (deltas_ext _ (tms s)); [assumption|]. intros j J. now rewrite EU.
  - intros HF h r HU. specialize (iarm0 HF h r HU). rewrite EU; [exact iarm0|]. rewrite HU. now left.
Qed.

Lemma delete_inv : forall s F U i, inv s F U ->
  exists F1 U1, inv (delete_timer s i) F1 U1 /\ ~ In i (F1 ++ U1) /\ fresh (delete_timer s i) = fresh s /\
    ready (delete_timer s i) = ready s.
Proof.
  intros s F U i V. destruct (in_dec Nat.eq_dec i (chain s)) as [I|I].
  - destruct (delete_core s F U i V I) as (s1 & F1 & U1 & E & C & EC & EF & ED & _ & _ & _ & Efr & Ei & Ec & Ep & _ & Er & _ & _ & HH).
    exists F1, U1. split; [|split; [|split]].
    3:{ rewrite E. destruct (head_is _ _); [|exact Efr]. destruct (setup_fields s1) as (_ & Q & _). congruence. }
    3:{ rewrite E. destruct (head_is _ _); [|exact Er]. destruct (setup_fields s1) as (_ & _ & _ & _ & Q & _). congruence. }
    + rewrite E. destruct (head_is (chain s) i) eqn:H; [now apply setup_inv|].
      destruct C. destruct V. constructor; try assumption.
      * intros -> h r ->. cbn [app] in EC.
        assert (HF : F = []). { destruct F as [|k F]; [reflexivity|]. now specialize (HH ltac:(discriminate) eq_refl). }
        subst F. cbn [app] in ic0. destruct U as [|h0 r0]; [rewrite ic0 in I; destruct I|].
        rewrite ic0 in EC, ED, H. cbn [deltas map ddel] in EC, ED. cbn [head_is] in H. rewrite H in EC, ED.
        cbn [map fst] in EC. injection EC as -> EC. cbn [app deltas map] in ED. injection ED as R _.
        destruct (iarm0 eq_refl h0 r0 eq_refl) as [Ca [Pe|(x & Ix & Lx)]].
        -- split; [congruence|left; congruence].
        -- split; [congruence|]. right. exists x. split; [congruence|]. rewrite R. exact Lx.
      * intros K. rewrite cc0, EC in K.
        exfalso. destruct (chain s) as [|h0 r0] eqn:Q; [destruct I|]. cbn [deltas map ddel head_is] in K, H.
        rewrite H in K. discriminate.
    + rewrite EC. apply not_in_ddel. rewrite fst_deltas. now destruct V.
  - rewrite delete_absent by exact I. exists F, U. split; [|split; [|split; reflexivity]].
    + apply inv_touch; [exact V|exact I|]. cbn. destruct V. apply iper0.
    + destruct V. now rewrite <- ic0.
Qed.

(** * Signals and time *)

Lemma mark_fired_ok : forall c f, NoDup c -> exists a b, c = a ++ b /\
  (forall i, In i a -> rel_secs (f i) = 0 /\ rel_msecs (f i) = 0) /\
  (forall h r, b = h :: r -> ~ (rel_secs (f h) = 0 /\ rel_msecs (f h) = 0)) /\
  (forall i, In i a -> mark_fired f c i = set_fired (f i) true) /\
  (forall i, ~ In i a -> mark_fired f c i = f i).
Proof.
  induction c as [|i r IH]; intros f ND; cbn [mark_fired].
  - exists [], []. repeat split; try easy.
  - apply NoDup_cons_iff in ND. destruct ND as [NI ND].
    destruct ((rel_secs (f i) =? 0) && (rel_msecs (f i) =? 0)) eqn:E.
    + destruct (IH (set_tm f i (set_fired (f i) true)) ND) as (a & b & -> & A & B & C & D).
      assert (K : forall j, In j (a ++ b) -> set_tm f i (set_fired (f i) true) j = f j).
      { intros j J. apply set_tm_neq. intros ->. contradiction. }
      exists (i :: a), b. split; [reflexivity|]. split; [|split; [|split]].
      * intros j [<-|J]; [lia|]. apply A in J as J'. rewrite K in J' by (apply in_or_app; now left). exact J'.
      * intros h q ->. specialize (B h q eq_refl). rewrite K in B by (apply in_or_app; right; now left). exact B.
      * intros j [<-|J].
        -- rewrite D; [apply set_tm_eq|]. intros Q. apply NI. apply in_or_app. now left.
        -- rewrite C by exact J. rewrite K by (apply in_or_app; now left). reflexivity.
      * intros j J. rewrite D by (intros Q; apply J; now right). apply set_tm_neq. intros ->. apply J. now left.
    + exists [], (i :: r). repeat split; try easy. intros h q [= <- <-]. lia.
Qed.

(* The handler moves the next batch of timers from U to F. *)
Lemma handler_inv : forall s F U, inv s F U -> chain s <> [] -> pending s = false ->
  exists B U1, U = B ++ U1 /\ inv (timer_signal_handler s) (F ++ B) U1 /\
    (F = [] -> forall h r, U = h :: r -> exists B', B = h :: B' /\ zeros (deltas (tms s) B') ) /\
    (F <> [] -> B = []) /\ F ++ B <> [] /\
    deltas (tms (timer_signal_handler s)) U1 = deltas (tms s) U1 /\
    posh (deltas (tms s) U1) /\
    fresh (timer_signal_handler s) = fresh s /\ itimer (timer_signal_handler s) = itimer s /\
    now (timer_signal_handler s) = now s /\ calls (timer_signal_handler s) = calls s /\
    ready (timer_signal_handler s) = ready s /\ pipe (timer_signal_handler s) = S (pipe s) /\
    (forall j, deleted (tms (timer_signal_handler s) j) = deleted (tms s j) /\
               secs (tms (timer_signal_handler s) j) = secs (tms s j) /\
               msecs (tms (timer_signal_handler s) j) = msecs (tms s j)) /\
    caught (timer_signal_handler s) = caught s.
Proof.
  intros s F U V NE NP. assert (V' := V). destruct V'.
  unfold timer_signal_handler. destruct (chain s) as [|i r] eqn:EC; [contradiction|]. clear NE.
  set (f := set_tm (tms s) i (set_rel (tms s i) 0 0)).
  destruct (mark_fired_ok (i :: r) f ind0) as (a & b & Eab & Za & Hb & Ma & Mb).
  assert (Ei : f i = set_rel (tms s i) 0 0) by apply set_tm_eq.
  assert (Er : forall j, In j r -> f j = tms s j).
  { intros j J. apply set_tm_neq. intros ->. apply NoDup_cons_iff in ind0. now destruct ind0. }
  destruct a as [|i' a].
  { cbn in Eab. exfalso. apply (Hb i r (eq_sym Eab)). rewrite Ei. now cbn. }
  injection Eab as <- Eab.
  assert (Hr : forall j, In j r -> (rel_secs (f j) = 0 /\ rel_msecs (f j) = 0) <-> rel (tms s j) = 0).
  { intros j J. rewrite Er by exact J. assert (N : norm (tms s j)) by (apply inorm0; now right).
    unfold norm, rel in *. lia. }
  assert (Sp : exists B, U = B ++ b /\ F ++ B = i :: a /\
     (F = [] -> forall h q, U = h :: q -> exists B', B = h :: B' /\ zeros (deltas (tms s) B')) /\ (F <> [] -> B = [])).
  { destruct F as [|k F].
    - cbn in ic0. exists (i :: a). split; [rewrite <- ic0, Eab; reflexivity|]. split; [reflexivity|].
      split; [|contradiction]. intros _ h q E. rewrite <- ic0 in E. injection E as <- <-.
      exists a. split; [reflexivity|]. apply Forall_forall. intros p P. apply in_map_iff in P. destruct P as (j & <- & J).
      cbn [snd]. apply Hr; [rewrite Eab; apply in_or_app; now left|]. apply Za. now right.
    - cbn in ic0. injection ic0 as <- ER.
      assert (AF : a = F).
      { clear Ma Mb. apply Forall_cons_iff in iFz0. destruct iFz0 as [_ Z].
        assert (ZF : forall j, In j F -> rel (tms s j) = 0).
        { intros j J. assert (P : In (j, rel (tms s j)) (deltas (tms s) F)) by (apply in_map_iff; eauto).
          rewrite Forall_forall in Z. now apply Z in P. }
        assert (ZA : forall j, In j a -> rel (tms s j) = 0).
        { intros j J. apply Hr; [rewrite Eab; apply in_or_app; now left|]. apply Za. now right. }
        assert (HB : forall h q, b = h :: q -> rel (tms s h) <> 0).
        { intros h q ->. intros R. apply (Hb h q eq_refl). apply Hr; [rewrite Eab; apply in_or_app; right; now left|exact R]. }
        assert (HU : forall h q, U = h :: q -> rel (tms s h) <> 0).
        { intros h q ->. cbn in ihd0. lia. }
        rewrite ER in Eab. clear - Eab ZF ZA HB HU. revert F Eab ZF. induction a as [|x a IH]; intros [|y F] E ZF.
        - reflexivity.
        - cbn in E. exfalso. apply (HB y (F ++ U)); [congruence|]. apply ZF. now left.
        - cbn in E. exfalso. apply (HU x (a ++ b)); [congruence|]. apply ZA. now left.
        - cbn in E. injection E as <- E. f_equal. apply IH; [intros; apply ZA; now right|exact E|intros; apply ZF; now right]. }
      subst F. exists []. split; [|split; [now rewrite app_nil_r|split; [discriminate|reflexivity]]].
      rewrite ER in Eab. now apply app_inv_head in Eab. }
  destruct Sp as (B & EU & EF & EH & EN).
  set (g := mark_fired f (i :: r)) in *.
  assert (ND' : NoDup ((i :: a) ++ b)) by (cbn; rewrite <- Eab; exact ind0).
  assert (NB : forall j, In j b -> ~ In j (i :: a)).
  { intros j J K. clear - ND' J K. revert ND' K. generalize (i :: a). induction l as [|x l IH]; intros ND' K; [easy|].
    cbn in ND'. apply NoDup_cons_iff in ND'. destruct ND' as [A B]. destruct K as [->|K]; [apply A; apply in_or_app; now right|now apply IH]. }
  assert (Gb : forall j, In j b -> g j = tms s j).
  { intros j J. unfold g. rewrite Mb by (now apply NB). apply Er. rewrite Eab. apply in_or_app. now right. }
  assert (Ga : forall j, In j (i :: a) -> fired (g j) = true /\ rel (g j) = 0 /\ norm (g j)).
  { intros j J. unfold g. rewrite Ma by exact J. destruct (Za j J) as [Z1 Z2].
    unfold rel, norm. cbn [set_fired fired rel_secs rel_msecs]. rewrite Z1, Z2. lia. }
  assert (Gs : forall j, deleted (g j) = deleted (tms s j) /\ secs (g j) = secs (tms s j) /\ msecs (g j) = msecs (tms s j)).
  { intros j. assert (Q : deleted (f j) = deleted (tms s j) /\ secs (f j) = secs (tms s j) /\ msecs (f j) = msecs (tms s j)).
    { unfold f. destruct (Nat.eq_dec j i) as [->|N]; [rewrite set_tm_eq; cbn; auto|rewrite set_tm_neq by exact N; auto]. }
    unfold g. destruct (in_dec Nat.eq_dec j (i :: a)) as [J|J]; [rewrite Ma by exact J; exact Q|rewrite Mb by exact J; exact Q]. }
  assert (PB : posh (deltas (tms s) b)).
  { destruct b as [|h q]; [exact I|]. cbn.
    assert (R : rel (tms s h) <> 0).
    { intros R. apply (Hb h q eq_refl). apply Hr; [rewrite Eab; apply in_or_app; right; now left|exact R]. }
    assert (N : norm (tms s h)) by (apply inorm0; right; rewrite Eab; apply in_or_app; right; now left).
    unfold norm, rel in *. lia. }
  assert (DB : deltas g b = deltas (tms s) b) by (apply deltas_ext; intros j J; now rewrite Gb).
  exists B, b. split; [exact EU|]. split; [|split; [exact EH|split; [exact EN|split; [rewrite EF; discriminate|]]]].
  - rewrite EF.
    constructor; cbn [tms with_tms with_pipe chain fresh pipe itimer caught pending failed ready]; rewrite ?EC; try assumption.
    + cbn. now rewrite Eab.
    + intros j J. destruct (in_dec Nat.eq_dec j (i :: a)) as [Q|Q]; [now apply Ga|].
      rewrite Gb; [now apply inorm0|]. destruct J as [<-|J]; [exfalso; apply Q; now left|].
      rewrite Eab in J. apply in_app_or in J. destruct J as [J|J]; [exfalso; apply Q; now right|exact J].
    + intros j J. destruct (Gs j) as (-> & _). now apply idel0.
    + intros j. destruct (Gs j) as (_ & -> & ->). apply iper0.
    + intros j J. now apply Ga.
    + apply Forall_forall. intros p P. apply in_map_iff in P. destruct P as (j & <- & J). cbn [snd]. now apply Ga.
    + intros j J. rewrite Gb by exact J. apply iU0. rewrite EU. apply in_or_app. now right.
    + rewrite DB. exact PB.
    + intros _. discriminate.
    + discriminate.
  - cbn [tms with_tms with_pipe chain fresh pipe itimer caught pending failed ready now calls].
    repeat (split; [first [exact DB|exact PB|reflexivity|exact Gs]|]). reflexivity.
Qed.

Definition clear_pending (s : st) : Prop := pending s = false.

Lemma pass_blocked_inv : forall s F U dt, inv s F U -> 0 <= dt -> inv (pass s dt true) F U.
Proof.
  intros s F U dt V P. destruct V. unfold pass. destruct (itimer s) as [r|] eqn:EI.
  - specialize (itim0 r eq_refl) as Pr. destruct (dt <? r) eqn:E.
    + constructor; cbn; try assumption.
      * intros HF h q HU. destruct (iarm0 HF h q HU) as [A [B|(x & X & Y)]]; split; auto.
        right. exists (r - dt). split; [reflexivity|]. injection X as <-. lia.
      * intros x [= <-]. lia.
    + cbn [caught with_now with_alarm]. destruct (caught s) eqn:EC.
      * constructor; cbn; try assumption; try discriminate; try reflexivity.
        -- intros HF h q HU. split; [reflexivity|now left].
      * constructor; cbn; try assumption; try discriminate.
        -- intros HF h q HU. destruct (iarm0 HF h q HU) as [A _]. congruence.
  - constructor; cbn; try assumption; try discriminate; rewrite ?EI; try assumption; try discriminate.
Qed.

Lemma unblock_inv : forall s F U, inv s F U -> exists F1 U1, inv (unblock s) F1 U1 /\ pending (unblock s) = false.
Proof.
  intros s F U V. unfold unblock. destruct (pending s) eqn:EP; [|now exists F, U].
  cbn [caught with_alarm]. assert (Ca : caught s = true) by (destruct V; auto). rewrite Ca.
  destruct (chain s) as [|h0 r0] eqn:EC.
  { destruct V. rewrite (iemp0 EC) in Ca. discriminate. }
  (* the alarm part of the invariant is lost when the pending flag is cleared *)
  set (s1 := with_alarm s (itimer s) true false).
  assert (exists F1 U1, inv (timer_signal_handler s1) F1 U1 /\ pending (timer_signal_handler s1) = false).
  { (* give the state an itimer to satisfy the invariant, which the handler does not look at *)
    destruct V.
    assert (V1 : inv (with_alarm s (Some 1) true false) F U).
    { constructor; cbn; try assumption; try discriminate; try reflexivity.
      - intros HF h q HU. split; [reflexivity|]. right. exists 1. split; [reflexivity|].
        rewrite HU in ihd0. cbn in ihd0. lia.
      - rewrite EC. discriminate.
      - intros x [= <-]. lia. }
    destruct (handler_inv _ F U V1) as (B & U1 & HU & W & _ & _ & NE & _); [cbn; rewrite EC; discriminate|reflexivity|].
    unfold s1. unfold timer_signal_handler in *. cbn [chain with_alarm tms pipe] in *. rewrite EC in *.
    exists (F ++ B), U1. split; [|reflexivity]. destruct W.
    constructor; cbn [chain with_alarm with_tms with_pipe tms pipe pending caught itimer failed ready fresh] in *; try assumption.
    - intros HF. contradiction. }
  assumption.
Qed.

Lemma pass_inv : forall s F U dt, inv s F U -> pending s = false -> 0 <= dt ->
  exists F1 U1, inv (pass s dt false) F1 U1 /\ pending (pass s dt false) = false.
Proof.
  intros s F U dt V NP P. assert (W := pass_blocked_inv s F U dt V P).
  assert (E : pass s dt false = unblock (pass s dt true)).
  { unfold pass, unblock. destruct (itimer s) as [r|]; [|now cbn; rewrite NP].
    destruct (dt <? r); [now cbn; rewrite NP|]. cbn [caught with_now with_alarm].
    destruct (caught s); [|now cbn; rewrite NP]. cbn [pending with_alarm caught itimer].
    now rewrite NP. }
  rewrite E. eapply unblock_inv. exact W.
Qed.

Lemma fix_time_period : forall s m s' m', fix_time s m = (s', m') -> 0 <= ms (s, m) ->
  0 <= m' < 1000 /\ 0 <= s' /\ 1000 * s' + m' = ms (s, m).
Proof. intros s m s' m' H P. apply fix_time_ok in H. unfold ms in *; cbn [fst snd] in *. lia. Qed.

Lemma inv_fresh : forall s F U, inv s F U -> inv (with_fresh s) F U.
Proof.
  intros s F U []. constructor; cbn; try assumption.
  - intros i I. specialize (ifresh0 i I). lia.
  - intros i I. specialize (iready0 i I). lia.
Qed.

Lemma op_inv : forall s F U o, inv s F U -> ok_op o -> exists F1 U1, inv (do_op s o) F1 U1.
Proof.
  intros s F U o V OK. destruct o as [sc m|i|i p]; cbn [do_op].
  - cbn in OK. unfold make_timer. destruct (fix_time sc m) as [sc' m'] eqn:E.
    destruct (fix_time_period _ _ _ _ E OK) as (P1 & P2 & P3).
    assert (NI : ~ In (fresh s) (chain s)). { intros I. destruct V. specialize (ifresh0 _ I). lia. }
    set (s1 := with_fresh _). assert (V1 : inv s1 F U).
    { apply inv_fresh. apply inv_touch; [exact V|exact NI|]. cbn. auto. }
    destruct (insert_inv s1 F U (fresh s) V1) as (U1 & W); [exact NI|cbn; lia|]. eauto.
  - destruct (Nat.ltb i (fresh s)); [|eauto]. destruct (delete_inv s F U i V) as (F1 & U1 & W & _). eauto.
  - destruct (Nat.ltb_spec i (fresh s)) as [L|L]; [|eauto]. unfold set_timer.
    destruct (delete_inv s F U i V) as (F1 & U1 & W & NI & Fr & _).
    set (s1 := delete_timer s i) in *. clearbody s1.
    assert (NI' : ~ In i (chain s1)) by (destruct W; congruence).
    destruct p as [[sc m]|].
    + destruct (fix_time sc m) as [sc' m'] eqn:E. destruct (fix_time_period _ _ _ _ E OK) as (P1 & P2 & P3).
      set (s2 := with_tms _ _). assert (V2 : inv s2 F1 U1) by (apply inv_touch; [exact W|exact NI'|cbn; auto]).
      destruct (insert_inv s2 F1 U1 i V2) as (U2 & W2); [exact NI'|cbn; lia|]. eauto.
    + destruct (insert_inv s1 F1 U1 i W) as (U2 & W2); [exact NI'|lia|]. eauto.
Qed.

Lemma take_fired_ok : forall f F U, (forall i, In i F -> fired (f i) = true) -> (forall i, In i U -> fired (f i) = false) ->
  take_fired f (F ++ U) = (F, U).
Proof.
  induction F as [|i F IH]; intros U HF HU; cbn [app take_fired].
  - destruct U as [|j U]; [reflexivity|]. cbn [take_fired]. now rewrite (HU j) by now left.
  - rewrite (HF i) by now left. rewrite IH; [reflexivity|intros; apply HF; now right|exact HU].
Qed.

Lemma fd_handler_eq : forall s F U, inv s F U ->
  fd_handler s = setup_next_timer (with_ready (with_pipe s (pred (pipe s))) U F).
Proof. intros s F U V. unfold fd_handler. destruct V. cbn [tms chain with_pipe]. rewrite ic0, take_fired_ok by assumption. reflexivity. Qed.

Lemma fd_handler_inv : forall s F U, inv s F U -> pending s = false ->
  inv (fd_handler s) [] U /\ pending (fd_handler s) = false.
Proof.
  intros s F U V NP. rewrite (fd_handler_eq s F U V). split.
  - apply setup_inv. destruct V. constructor; cbn; try assumption; try reflexivity; try easy.
    + rewrite ic0 in ind0. clear - ind0. induction F; [exact ind0|]. cbn in ind0. apply NoDup_cons_iff in ind0. apply IHF, ind0.
    + intros i I. apply inorm0. rewrite ic0. apply in_or_app. now right.
    + intros i I. apply idel0. rewrite ic0. apply in_or_app. now right.
    + intros i I. apply ifresh0. rewrite ic0. apply in_or_app. now right.
    + constructor.
    + intros i I. apply ifresh0. rewrite ic0. apply in_or_app. now left.
  - unfold setup_next_timer. destruct (chain _); [reflexivity|]. destruct (_ || _); [exact NP|reflexivity].
Qed.

Lemma call_inv : forall s F U, inv s F U -> inv (call_next s) F U /\ pending (call_next s) = pending s.
Proof.
  intros s F U V. unfold call_next. destruct (ready s) as [|i r] eqn:E; [auto|].
  assert (W : inv (with_ready s (chain s) r) F U).
  { destruct V. constructor; cbn; try assumption. intros j J. apply iready0. rewrite E. now right. }
  cbn [tms with_ready]. destruct (deleted (tms s i)); [auto|]. split; [|reflexivity].
  destruct W. constructor; cbn in *; assumption.
Qed.

Lemma step_inv : forall s F U e, inv s F U -> pending s = false -> ok_event e ->
  exists F1 U1, inv (step s e) F1 U1 /\ pending (step s e) = false.
Proof.
  intros s F U e V NP OK. destruct e as [dt o|dt| |]; cbn [step].
  - destruct OK as [P OK]. assert (W := pass_blocked_inv s F U dt V P).
    destruct (op_inv _ F U o W OK) as (F1 & U1 & W1). eapply unblock_inv. exact W1.
  - now apply pass_inv with (F := F) (U := U).
  - destruct (pipe s) as [|n]; [now exists F, U|]. destruct (ready s) as [|? ?] eqn:ER; [|now exists F, U].
    exists [], U. now apply fd_handler_inv with (F := F).
  - exists F, U. destruct (call_inv s F U V) as [W ->]. auto.
Qed.

Lemma run_inv : forall es s F U, inv s F U -> pending s = false -> Forall ok_event es ->
  exists F1 U1, inv (run s es) F1 U1 /\ pending (run s es) = false.
Proof.
  induction es as [|e es IH]; intros s F U V NP OK; [now exists F, U|].
  apply Forall_cons_iff in OK. destruct OK as [O OK]. cbn [run fold_left].
  destruct (step_inv s F U e V NP O) as (F1 & U1 & W & NP'). exact (IH _ F1 U1 W NP' OK).
Qed.

Lemma reachable_inv : forall s, reachable s -> exists F U, inv s F U /\ pending s = false.
Proof. intros s (es & OK & ->). now apply (run_inv es init [] []); [apply inv_init| |]. Qed.

Lemma quiet_inv : forall s, reachable s -> quiet s -> exists U, inv s [] U /\ pending s = false.
Proof.
  intros s R [Q _]. destruct (reachable_inv s R) as (F & U & V & NP). exists U.
  destruct F as [|h F]; [auto|]. destruct V. exfalso. now apply ipipe0.
Qed.
