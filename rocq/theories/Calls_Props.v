(** C91: every answer of a remote procedure call reaches the callback of its call, and
    only once. *)

From Coq Require Import List Bool Arith Lia Permutation.
From Verif Require Import Calls_Model Calls_Spec Calls_Proofs Calls_System.
Import ListNotations.

Section Props.
  Variable V : Type.
  Variable lost_value : V.
  Variable no_such : nat -> V.
  Notation run := (run V lost_value).
  Notation runs := (runs V no_such).

(** Whatever arrives from whom: no callback is called twice for a call. *)
Theorem C91_at_most_once : forall ops, NoDup (called_ids V (log V (run ops))).
Proof. intros ops. apply inv_called, run_inv. Qed.

(** A callback is called only for its own call (ids are never used twice) and with what a
    received result says. *)
Theorem C91_own_answer : forall ops id cb ok v, In (id, cb, (ok, v)) (called V (log V (run ops))) ->
  In (id, cb) (noted V (log V (run ops))) /\ NoDup (map fst (noted V (log V (run ops)))) /\
  exists sock, In (Result V sock id ok v) ops.
Proof.
  intros ops id cb ok v I. split; [|split].
  - eapply inv_called_noted; [apply run_inv|exact I].
  - apply (run_inv V lost_value ops).
  - eapply called_from, I.
Qed.

(** The first result for a waiting call on a known connection calls its callback at once. *)
Theorem C91_delivered : forall ops sock id cb ok v data,
  In (id, cb) (noted V (log V (run ops))) -> ~ In id (called_ids V (log V (run ops))) ->
  tref sock (datas V (run ops)) = Some data ->
  called V (log V (run (ops ++ [Result V sock id ok v]))) = (id, cb, (ok, v)) :: called V (log V (run ops)).
Proof.
  intros ops sock id cb ok v [b l] N C D. rewrite run_snoc. unfold step, dispatch_pending_call. rewrite D. cbn [table].
  rewrite (proj1 (inv_waiting V _ id cb (run_inv V lost_value ops)) (conj N C)). reflexivity.
Qed.

(** Any other result calls nothing. *)
Theorem C91_unasked : forall ops sock id ok v,
  ~ In id (map fst (noted V (log V (run ops)))) \/ In id (called_ids V (log V (run ops))) ->
  called V (log V (run (ops ++ [Result V sock id ok v]))) = called V (log V (run ops)).
Proof.
  intros ops sock id ok v H. rewrite run_snoc. unfold step.
  pose proof (run_inv V lost_value ops) as I.
  destruct (dispatch_spec V sock id ok v _ I) as (_ & _ & _ & [E|(cb & T & _)]); [exact E|exfalso].
  apply (inv_waiting V _ id cb I) in T. destruct T as [T1 T2]. destruct H as [H|H]; [|auto].
  apply H. change id with (fst (id, cb)). apply in_map, T1.
Qed.

(** Losing a connection calls no callback at all: the data of the socket is removed before
    the callbacks would be called with it. *)
Theorem C91_loss_is_silent : forall ops sock,
  called V (log V (run (ops ++ [Deregister V sock]))) = called V (log V (run ops)).
Proof. intros ops sock. rewrite run_snoc. unfold step. apply deregister_spec, run_inv. Qed.

(** ** Two programs *)

(** A callback gets the outcome of the servant called with the arguments sent; an unknown
    servant is an error. *)
Theorem C91_outcome : forall mvs id cb ok v,
  In (id, cb, (ok, v)) (called V (log V (cl V (runs mvs)))) ->
  In (id, cb) (noted V (log V (cl V (runs mvs)))) /\
  exists sv args found, In (MCall V (Some id) sv args) (wrote V (log V (cl V (runs mvs)))) /\
    In (mkjob V (Some id) sv args found, (ok, v)) (ended V (runs mvs)) /\
    (found = false -> ok = false /\ v = no_such sv).
Proof.
  intros mvs id cb ok v I. pose proof (runs_inv V no_such mvs) as S. split.
  - eapply inv_called_noted; [apply (i_cl V no_such _ S)|exact I].
  - destruct (answered V no_such _ id cb ok v S I) as ([ji sv args found] & E & J & W). cbn [j_id] in J. subst ji.
    exists sv, args, found. split; [exact W|]. split; [exact E|]. intros ->.
    pose proof (i_found V no_such _ S) as F. rewrite Forall_forall in F. specialize (F _ E eq_refl). cbn in F.
    injection F as -> ->. auto.
Qed.

(** Calls are taken by the server in the order in which they were made, none is lost or
    doubled, and each is at work or has ended. *)
Theorem C91_in_order : forall mvs,
  rev (wrote V (log V (cl V (runs mvs)))) = rev (taken V (runs mvs)) ++ up V (runs mvs) /\
  Permutation (taken V (runs mvs))
    (map (fun j => MCall V (j_id V j) (j_servant V j) (j_args V j)) (work V (runs mvs) ++ map fst (ended V (runs mvs)))).
Proof.
  intros mvs. pose proof (runs_inv V no_such mvs) as S. split; [apply (i_fifo V no_such _ S)|apply (i_jobs V no_such _ S)].
Qed.

(** When nothing is under way and nothing at work, every call has been answered exactly
    once, every message has been worked on exactly once, and no call is remembered. *)
Theorem C91_all_answered : forall mvs, quiet V (runs mvs) ->
  Permutation (noted V (log V (cl V (runs mvs)))) (map fst (called V (log V (cl V (runs mvs))))) /\
  Permutation (wrote V (log V (cl V (runs mvs))))
    (map (fun e => MCall V (j_id V (fst e)) (j_servant V (fst e)) (j_args V (fst e))) (ended V (runs mvs))) /\
  table V (cl V (runs mvs)) = [] /\ tref sock0 (datas V (cl V (runs mvs))) = Some (true, []).
Proof.
  intros mvs Q. pose proof (runs_inv V no_such mvs) as S. destruct (quiet_all V no_such _ S Q) as (T & N & W).
  split; [exact N|]. split; [exact W|]. split; [exact T|]. unfold sock0. rewrite (i_data V no_such _ S), T. reflexivity.
Qed.

(** From every state this is reached without new calls. *)
Theorem C91_comes_to_rest : forall (o : bool * V) mvs, exists more, Forall (no_new V) more /\ quiet V (runs (mvs ++ more)).
Proof.
  intros o mvs. destruct (drains V no_such (fun _ => true) o _ _ (runs_inv V no_such mvs) (le_n _)) as (more & F & Q).
  exists more. split; [exact F|]. unfold Calls_Model.runs in *. rewrite fold_left_app. exact Q.
Qed.
End Props.
Print Assumptions C91_at_most_once.
Print Assumptions C91_own_answer.
Print Assumptions C91_delivered.
Print Assumptions C91_unasked.
Print Assumptions C91_loss_is_silent.
Print Assumptions C91_outcome.
Print Assumptions C91_in_order.
Print Assumptions C91_all_answered.
Print Assumptions C91_comes_to_rest.

(** *** Examples: values are numbers *)

(** Three calls, answered out of order and one of them twice, and an answer nobody asked for *)
Example C91_client_case :
  called nat (log nat (run nat 99 [Register nat 4 true; Call nat 4 11 7 100; Call nat 4 12 7 101; Call nat 4 13 8 102;
    Result nat 4 3 true 5; Result nat 4 1 false 6; Result nat 4 3 true 8; Result nat 4 77 true 9; Result nat 4 2 true 10])) =
  [(2, 12, (true, 10)); (1, 11, (false, 6)); (3, 13, (true, 5))].
Proof. reflexivity. Qed.
Example C91_delivered_case :
  let c := run nat 99 [Register nat 4 true; Call nat 4 11 7 100] in
  In (1, 11) (noted nat (log nat c)) /\ called_ids nat (log nat c) = [] /\ tref 4 (datas nat c) = Some (true, [1]).
Proof. cbn. auto. Qed.

(** Two calls at work at the same time, the second ends first; one goes to an unknown
    servant; one wants no answer *)
Definition moves1 : list (move nat) :=
  [MvCall nat 11 7 100; MvCall nat 12 8 101; MvTake nat (fun s => s =? 7); MvOneway nat 7 102; MvTake nat (fun s => s =? 7);
   MvEnd nat 0 (true, 55); MvRead nat; MvTake nat (fun s => s =? 7); MvEnd nat 1 (true, 200); MvEnd nat 0 (true, 201); MvRead nat].
Example C91_system_case :
  quiet nat (runs nat (fun s => 1000 + s) moves1) /\
  called nat (log nat (cl nat (runs nat (fun s => 1000 + s) moves1))) = [(1, 11, (true, 200)); (2, 12, (false, 1008))] /\
  length (ended nat (runs nat (fun s => 1000 + s) moves1)) = 3.
Proof. cbv. auto. Qed.

(** *** Refuted *)

(** A call is waiting on a connection that is lost: its callback is never called, unless a
    result for it comes from elsewhere; and it is remembered for ever. *)
Theorem C91_lost_connection_refuted : exists (ops : list (op nat)) sock id cb data,
  let c := run nat 99 ops in
  In (id, cb) (noted nat (log nat c)) /\ ~ In id (called_ids nat (log nat c)) /\ tref sock (datas nat c) = Some data /\
  forall later, (forall s ok v, ~ In (Result nat s id ok v) later) ->
    let c' := run nat 99 (ops ++ [Deregister nat sock] ++ later) in
    ~ In id (called_ids nat (log nat c')) /\ tref id (table nat c') = Some cb.
Proof.
  exists [Register nat 4 true; Call nat 4 11 7 100], 4, 1, 11, (true, [1]). cbn zeta.
  split; [cbn; auto|]. split; [cbn; auto|]. split; [reflexivity|]. intros later H.
  set (ops := [Register nat 4 true; Call nat 4 11 7 100] ++ [Deregister nat 4] ++ later).
  assert (NC : ~ In 1 (called_ids nat (log nat (run nat 99 ops)))).
  { intros I. unfold called_ids in I. apply in_map_iff in I. destruct I as ([[i cb] [ok v]] & E & I). cbn [fst] in E. subst i.
    destruct (called_from nat 99 ops 1 cb ok v I) as (s & J). unfold ops in J. cbn [app In] in J.
    destruct J as [J|[J|[J|J]]]; try discriminate. exact (H s ok v J). }
  split; [exact NC|]. apply (inv_waiting nat _ 1 11 (run_inv nat 99 ops)). split; [|exact NC].
  unfold ops. clear. induction later as [|o later IH] using rev_ind; [cbn; auto|].
  rewrite !app_assoc, run_snoc. rewrite <- !app_assoc.
  set (c := run nat 99 ([Register nat 4 true; Call nat 4 11 7 100] ++ [Deregister nat 4] ++ later)) in *.
  assert (I : inv nat c) by apply run_inv. destruct o as [s b|s|s cb' sv a|s sv a|s id' ok' v']; unfold step.
  - exact IH.
  - destruct (deregister_spec nat 99 s c I) as (_ & _ & E & _). rewrite E. exact IH.
  - destruct (invoke_spec nat s cb' sv a c I) as (_ & _ & E). rewrite E. right. exact IH.
  - exact IH.
  - destruct (dispatch_spec nat s id' ok' v' c I) as (_ & E & _). rewrite E. exact IH.
Qed.
Print Assumptions C91_lost_connection_refuted.

(** A result from another connection is taken for the answer. *)
Theorem C91_other_connection_refuted : exists (ops : list (op nat)) asked other id cb,
  asked <> other /\ In (Wrote nat asked (MCall nat (Some id) 7 100)) (log nat (run nat 99 ops)) /\
  ~ In (Wrote nat other (MCall nat (Some id) 7 100)) (log nat (run nat 99 ops)) /\
  called nat (log nat (run nat 99 (ops ++ [Result nat other id true 66]))) = [(id, cb, (true, 66))].
Proof.
  exists [Register nat 4 true; Register nat 5 true; Call nat 4 11 7 100], 4, 5, 1, 11.
  split; [discriminate|]. split; [cbn; auto|]. split; [cbn; intros [E|[E|[]]]; discriminate|reflexivity].
Qed.
Print Assumptions C91_other_connection_refuted.

(** A call on a connection that is not registered fails before anything is written, but its
    callback has been entered and stays. *)
Theorem C91_failed_call_refuted : exists (ops : list (op nat)) id cb,
  wrote nat (log nat (run nat 99 ops)) = [] /\ tref id (table nat (run nat 99 ops)) = Some cb.
Proof. exists [Call nat 4 11 7 100], 1, 11. split; reflexivity. Qed.
Print Assumptions C91_failed_call_refuted.
