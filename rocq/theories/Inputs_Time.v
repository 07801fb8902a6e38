(** Proofs about how long is waited for input. *)

From Coq Require Import ZArith List Bool Lia ZifyBool Sorting.Sorted.
From Verif Require Import Inputs_Model Inputs_Spec Inputs_Proofs.
Import ListNotations.
Open Scope Z_scope.

Lemma spent_app a b : spent (a ++ b) = spent a + spent b.
Proof. induction a as [|e a IH]; [reflexivity|]. destruct e; cbn [spent app]; lia. Qed.
Lemma spent_did n (os : list op) : (forall e, In e n -> exists o, In o os /\ e = Did o) -> spent n = 0.
Proof.
  induction n as [|e n IH]; intros H; [reflexivity|].
  destruct (H e (or_introl eq_refl)) as (o & _ & ->). cbn [spent]. apply IH. intros x Hx. apply H. right. exact Hx.
Qed.

Section Time.
Variable W : world.
Variable size : nat.
Hypothesis SANE : sane size W.
Variable chunk : Z.
Hypothesis CHUNK : 0 < chunk.
Variable garbage : fdset.

Lemma wait_loop_time inputs : forall fuel timeout ready s,
  0 <= timeout -> (Z.to_nat timeout < fuel)%nat ->
  exists r c s' new, wait_loop W chunk fuel inputs timeout ready s = Some (r, c, s') /\
    log s' = new ++ log s /\ called new = [] /\ 0 <= spent new <= timeout /\
    (calm W -> (forall l x ms, fst (kernel W l x ms) = 0) -> interrupted s = false ->
     r = 0 /\ spent new = timeout /\ interrupted s' = false).
Proof.
  induction fuel as [|k IH]; intros timeout ready s T F; [lia|]. cbn [wait_loop].
  set (s1 := if (ready =? 0) && tested W (log s) then do_op Throw s else s).
  assert (L1 : exists n, log s1 = n ++ log s /\ called n = [] /\ spent n = 0).
  { unfold s1. destruct ((ready =? 0) && tested W (log s)); [exists [Did Throw]|exists []]; repeat split. }
  assert (IN1 : calm W -> interrupted s = false -> interrupted s1 = false).
  { intros (_ & C & _) E. unfold s1. rewrite C, andb_false_r. exact E. }
  clearbody s1. destruct L1 as (n1 & L1 & C1 & S1).
  destruct ((ready =? 0) && interrupted s1) eqn:B.
  - exists ready, inputs, s1, n1. split; [reflexivity|]. split; [exact L1|]. split; [exact C1|]. split; [lia|].
    intros CA _ E. specialize (IN1 CA E). lia.
  - destruct (kernel W (log s1) inputs (Z.min (Z.min timeout chunk) (max_sleep W (log s)))) as [r1 y] eqn:K.
    pose proof SANE as (_ & _ & _ & OT & MS & KE). specialize (MS (log s)).
    set (actual := Z.min (Z.min timeout chunk) (max_sleep W (log s))) in *.
    set (s2 := note (Select actual) s1) in *.
    set (s3 := if _ : bool then do_ops _ _ else s2).
    assert (L3 : exists n, log s3 = n ++ log s2 /\ called n = [] /\ 0 <= spent n <= Z.min timeout chunk - actual /\
                 (r1 = 0 -> spent n = Z.min timeout chunk - actual) /\
                 (calm W -> interrupted s2 = false -> interrupted s3 = false)).
    { unfold s3. destruct ((r1 =? 0) && (actual <? Z.min timeout chunk)) eqn:B3.
      - match goal with |- context [do_ops ?o ?x] => destruct (ops_log o x) as (n & E & H & C); set (os := o) in * end.
        exists (n ++ [Suspend (Z.min timeout chunk - actual)]). rewrite E, called_app, C, spent_app, (spent_did n os H).
        cbn [called spent app note log]. rewrite <- app_assoc. split; [reflexivity|]. split; [reflexivity|]. split; [lia|]. split; [lia|].
        intros (_ & _ & CA) I2. apply ops_calm; [apply CA|exact I2].
      - exists []. cbn [spent]. split; [reflexivity|]. split; [reflexivity|]. split; [lia|]. split; [lia|]. auto. }
    clearbody s3. destruct L3 as (n3 & L3 & C3 & S3 & X3 & IN3).
    assert (L13 : log s3 = (n3 ++ Select actual :: n1) ++ log s).
    { rewrite L3. unfold s2. cbn [note log]. rewrite L1, <- app_assoc. reflexivity. }
    assert (C13 : called (n3 ++ Select actual :: n1) = []) by (rewrite called_app, C3; exact C1).
    assert (S13 : spent (n3 ++ Select actual :: n1) = spent n3 + actual) by (rewrite spent_app; cbn [spent]; lia).
    destruct ((r1 =? 0) && (0 <? timeout - Z.min timeout chunk)) eqn:B2.
    + destruct (IH (timeout - Z.min timeout chunk) r1 s3) as (r & c & s' & new & E & LN & CN & SN & XN); [lia|lia|].
      exists r, c, s', (new ++ n3 ++ Select actual :: n1). split; [exact E|].
      rewrite LN, L13, called_app, spent_app, S13, CN, C13. split; [rewrite <- !app_assoc; reflexivity|]. split; [reflexivity|].
      split; [lia|]. intros CA KZ I0.
      destruct (XN CA KZ) as (R & S & I').
      { apply IN3; [exact CA|]. unfold s2. cbn [note interrupted]. apply IN1; assumption. }
      split; [exact R|]. split; [|exact I']. assert (r1 = 0) by lia. specialize (X3 H). lia.
    + exists r1, y, s3, (n3 ++ Select actual :: n1). split; [reflexivity|]. rewrite S13.
      split; [exact L13|]. split; [exact C13|]. split; [lia|].
      intros CA KZ I0. specialize (KZ (log s1) inputs actual). rewrite K in KZ. cbn [fst] in KZ.
      specialize (X3 KZ). split; [exact KZ|]. split; [lia|].
      apply IN3; [exact CA|]. unfold s2. cbn [note interrupted]. apply IN1; assumption.
Qed.

Lemma wait_time inputs fuel timeout s :
  inv size s -> 0 <= timeout -> (Z.to_nat timeout < fuel)%nat ->
  exists r c s' new, wait_for_input W size chunk garbage fuel inputs timeout s = Some (r, c, s') /\
    log s' = new ++ log s /\ called new = [] /\ 0 <= spent new <= timeout /\
    (calm W -> (forall l x ms, fst (kernel W l x ms) = 0) -> interrupted s = false ->
     (forall i, pending s i && inputs i = false) ->
     r = 0 /\ spent new = timeout /\ interrupted s' = false).
Proof.
  intros I T F. unfold wait_for_input.
  destruct (wait_loop_time inputs fuel timeout (-1) s T F) as (r & c & s' & new & E & L & C & S & X).
  assert (D : exists r c s' new, wait_loop W chunk fuel inputs timeout (-1) s = Some (r, c, s') /\
    log s' = new ++ log s /\ called new = [] /\ 0 <= spent new <= timeout /\
    (calm W -> (forall l x ms, fst (kernel W l x ms) = 0) -> interrupted s = false ->
     (forall i, pending s i && inputs i = false) ->
     r = 0 /\ spent new = timeout /\ interrupted s' = false)).
  { exists r, c, s', new. repeat split; auto; try (apply S); apply X; auto. }
  destruct (0 <? pending_count s); [|exact D].
  destruct (scan_start size garbage inputs s I) as (n & o & -> & Cn & O).
  destruct (Z.ltb_spec 0 n) as [P|P]; [|exact D].
  exists n, o, s, []. split; [reflexivity|]. split; [reflexivity|]. split; [reflexivity|]. split; [cbn; lia|].
  intros _ _ _ H. exfalso. rewrite Cn in P. unfold card, members in P.
  assert (G : filter (fun i => pending s i && inputs i) (seq 0 size) = []).
  { generalize (seq 0 size). intros l. induction l as [|j l IHl]; [reflexivity|]. cbn [filter]. rewrite H. exact IHl. }
  unfold fd in *. rewrite G in P. cbn in P. lia.
Qed.
End Time.

(** The uninitialised set does not matter. *)
Lemma scan_garbage inputs s : forall is seen count o1 o2,
  (0 < count /\ o1 = o2) \/ count = 0 ->
  exists c p1 p2, scan is inputs s seen count o1 = (c, p1) /\ scan is inputs s seen count o2 = (c, p2) /\
    ((0 < c /\ p1 = p2) \/ c = 0).
Proof.
  induction is as [|i is IH]; intros seen count o1 o2 H; [exists count, o1, o2; auto|]. cbn [scan].
  destruct (seen <? pending_count s); [|exists count, o1, o2; auto].
  destruct (pending s i); [|apply IH; exact H]. destruct (inputs i); [|apply IH; exact H].
  apply IH. left. destruct H as [[P ->]| ->]; split; try lia; reflexivity.
Qed.
Lemma wait_garbage W size chunk g1 g2 fuel inputs timeout s :
  wait_for_input W size chunk g1 fuel inputs timeout s = wait_for_input W size chunk g2 fuel inputs timeout s.
Proof.
  unfold wait_for_input. destruct (0 <? pending_count s); [|reflexivity].
  destruct (scan_garbage inputs s (seq 0 size) 0 0 g1 g2 (or_intror eq_refl)) as (c & p1 & p2 & -> & -> & [[P ->]| ->]); reflexivity.
Qed.
