(** Proofs about calls and answers. *)

From Coq Require Import List Bool Arith Lia Permutation.
From Verif Require Import Calls_Model Calls_Spec.
Import ListNotations.

(** ** Tables *)
Lemma tref_In {A} k (t : list (nat * A)) a : tref k t = Some a -> In (k, a) t.
Proof.
  induction t as [|[k' a'] t IH]; cbn [tref]; [discriminate|]. destruct (Nat.eqb_spec k k') as [->|N].
  - intros E. injection E as ->. left. reflexivity.
  - intros E. right. apply IH, E.
Qed.
Lemma tref_None {A} k (t : list (nat * A)) : tref k t = None <-> ~ In k (map fst t).
Proof.
  induction t as [|[k' a'] t IH]; cbn [tref map fst In]; [split; auto|]. destruct (Nat.eqb_spec k k') as [->|N].
  - split; [discriminate|]. intros H. exfalso. apply H. left. reflexivity.
  - rewrite IH. split; [intros H [E|I]; [congruence|auto]|auto].
Qed.
Lemma tunset_fresh {A} k (t : list (nat * A)) : ~ In k (map fst t) -> tunset k t = t.
Proof.
  induction t as [|[k' a'] t IH]; intros N; [reflexivity|]. unfold tunset in *. cbn [filter fst].
  cbn [map fst In] in N. destruct (Nat.eqb_spec k k') as [->|NE]; [exfalso; auto|]. cbn [negb]. f_equal. apply IH. auto.
Qed.
Lemma tunset_perm {A} k (t : list (nat * A)) a : NoDup (map fst t) -> tref k t = Some a ->
  Permutation t ((k, a) :: tunset k t).
Proof.
  induction t as [|[k' a'] t IH]; cbn [tref map fst]; [discriminate|]. intros ND E. inversion ND; subst.
  unfold tunset. cbn [filter fst]. fold (tunset k t). destruct (Nat.eqb_spec k k') as [->|N].
  - injection E as ->. cbn [negb]. fold (@tunset A k' t). rewrite tunset_fresh by auto. reflexivity.
  - cbn [negb]. rewrite (IH H2 E) at 1. apply perm_swap.
Qed.
Lemma tunset_fst {A} k (t : list (nat * A)) : map fst (tunset k t) = delq k (map fst t).
Proof.
  induction t as [|[k' a'] t IH]; [reflexivity|]. unfold tunset, delq in *. cbn [filter map fst].
  destruct (Nat.eqb k k'); cbn [negb map fst]; [exact IH|f_equal; exact IH].
Qed.
Lemma tref_tset {A} k (a : A) t : tref k (tset k a t) = Some a.
Proof. unfold tset. cbn [tref]. now rewrite Nat.eqb_refl. Qed.
Lemma tref_tunset {A} k (t : list (nat * A)) : tref k (tunset k t) = None.
Proof.
  apply tref_None. rewrite tunset_fst. unfold delq. rewrite filter_In. intros [_ H]. rewrite Nat.eqb_refl in H. discriminate.
Qed.

Section Proofs.
  Variable V : Type.
  Variable lost_value : V.
  Variable no_such : nat -> V.
  Notation client := (client V).
  Notation noted := (noted V).
  Notation called := (called V).
  Notation wrote := (wrote V).

  (** ** The client *)

  Definition pairs (l : list (event V)) : list (nat * nat) := map fst (called l).
  Definition inv (c : client) : Prop :=
    Permutation (noted (log V c)) (table V c ++ pairs (log V c)) /\
    NoDup (map fst (noted (log V c))) /\ Forall (fun x => fst x <= counter V c) (noted (log V c)).

  Lemma inv_table c : inv c -> NoDup (map fst (table V c)).
  Proof.
    intros (P & N & _). apply (Permutation_map fst) in P. rewrite map_app in P.
    apply (Permutation_NoDup P) in N. clear - N. induction (map fst (table V c)) as [|x l IH]; [constructor|].
    cbn [app] in N. inversion N; subst. constructor; [|auto]. intros I. apply H1. apply in_or_app. auto.
  Qed.
  Lemma inv_fresh c : inv c -> ~ In (S (counter V c)) (map fst (table V c)).
  Proof.
    intros (P & _ & F) I. apply in_map_iff in I. destruct I as ([i cb] & E & I). cbn [fst] in E. subst i.
    assert (J : In (S (counter V c), cb) (noted (log V c))).
    { eapply Permutation_in; [apply Permutation_sym, P|]. apply in_or_app. auto. }
    rewrite Forall_forall in F. specialize (F _ J). cbn [fst] in F. lia.
  Qed.
  Lemma inv_new c : inv c -> ~ In (S (counter V c)) (map fst (noted (log V c))).
  Proof.
    intros (_ & _ & F) I. apply in_map_iff in I. destruct I as ([i cb] & E & I). cbn [fst] in E. subst i.
    rewrite Forall_forall in F. specialize (F _ I). cbn [fst] in F. lia.
  Qed.

  Lemma inv_start : inv (start V).
  Proof. split; [reflexivity|]. split; constructor. Qed.

  Lemma dispatch_spec sock id ok v c : inv c ->
    let c' := state_of V (dispatch_pending_call V sock id ok v c) in
    inv c' /\ noted (log V c') = noted (log V c) /\ wrote (log V c') = wrote (log V c) /\
    (called (log V c') = called (log V c) \/
     exists cb, tref id (table V c) = Some cb /\ called (log V c') = (id, cb, (ok, v)) :: called (log V c)).
  Proof.
    intros I. unfold dispatch_pending_call. destruct (tref sock (datas V c)) as [[cls l]|]; [|cbn; auto].
    cbn [table]. destruct (tref id (table V c)) as [cb|] eqn:E.
    - cbn [state_of note log counter table datas]. split; [|split; [reflexivity|split; [reflexivity|right; exists cb; split; [reflexivity|reflexivity]]]].
      pose proof (inv_table c I) as ND. destruct I as (P & N & F). split; [|split; [exact N|exact F]].
      cbn [log table]. unfold pairs. cbn [Calls_Spec.called flat_map app map fst].
      change (flat_map _ (log V c)) with (called (log V c)). 
      change (noted (Called V id cb ok v :: log V c)) with (noted (log V c)). rewrite P.
      rewrite (tunset_perm id (table V c) cb ND E) at 1. cbn [app]. apply Permutation_middle.
    - cbn [state_of log]. split; [exact I|]. auto.
  Qed.

  Lemma dispatch_no_data sock id ok v c : tref sock (datas V c) = None ->
    dispatch_pending_call V sock id ok v c = Err V c.
  Proof. intros E. unfold dispatch_pending_call. now rewrite E. Qed.

  Lemma fail_out_none sock l c : tref sock (datas V c) = None ->
    fail_out V lost_value sock l c = match l with [] => Fine V c | _ => Err V c end.
  Proof. intros E. destruct l as [|id l]; [reflexivity|]. cbn [fail_out]. now rewrite dispatch_no_data. Qed.

  Lemma invoke_spec sock cb sv args c : inv c ->
    let c' := state_of V (fst (invoke V sock cb sv args c)) in
    inv c' /\ called (log V c') = called (log V c) /\
    noted (log V c') = (S (counter V c), cb) :: noted (log V c).
  Proof.
    intros I. unfold invoke, record_pending_call. cbn [counter table datas log].
    assert (B : forall c' : client, table V c' = tset (S (counter V c)) cb (table V c) -> counter V c' = S (counter V c) ->
      noted (log V c') = (S (counter V c), cb) :: noted (log V c) -> called (log V c') = called (log V c) -> inv c').
    { intros c' T C N K. pose proof (inv_fresh c I) as FR. pose proof (inv_new c I) as NW. destruct I as (P & ND & F).
      unfold inv, pairs. rewrite T, C, N, K. unfold tset. rewrite tunset_fresh by exact FR. cbn [app]. split; [|split].
      - constructor. exact P.
      - cbn [map fst]. constructor; [exact NW|exact ND].
      - constructor; [cbn [fst]; lia|]. eapply Forall_impl; [|exact F]. cbn beta. intros; lia. }
    destruct (tref sock (datas V c)) as [[cls l]|].
    - cbn [fst state_of note log counter table datas]. split; [apply B; reflexivity|]. split; reflexivity.
    - cbn [fst state_of log]. split; [apply B; reflexivity|]. split; reflexivity.
  Qed.

  Lemma deregister_spec sock c : inv c -> let c' := state_of V (deregister V lost_value sock c) in
    inv c' /\ called (log V c') = called (log V c) /\ noted (log V c') = noted (log V c) /\ table V c' = table V c.
  Proof.
    intros I. unfold deregister. destruct (tref sock (datas V c)) as [[cls l]|].
    - set (c1 := if cls then note V (Closed V sock) c else c).
      assert (H : called (log V c1) = called (log V c) /\ noted (log V c1) = noted (log V c) /\ table V c1 = table V c /\ counter V c1 = counter V c)
        by (unfold c1; destruct cls; auto).
      destruct H as (H1 & H2 & H3 & H4). rewrite fail_out_none by (cbn [datas]; apply tref_tunset).
      destruct l; cbn [state_of log table]; (split; [unfold inv, pairs; cbn [log table counter]; rewrite H1, H2, H3, H4; exact I|auto]).
    - cbn. split; [exact I|auto].
  Qed.

  Lemma step_inv o c : inv c -> inv (step V lost_value o c).
  Proof.
    intros I. destruct o as [s b|s|s cb sv a|s sv a|s id ok v]; unfold step.
    - exact I.
    - apply deregister_spec, I.
    - apply invoke_spec, I.
    - exact I.
    - apply dispatch_spec, I.
  Qed.
  Lemma run_inv ops : inv (run V lost_value ops).
  Proof.
    unfold run. generalize inv_start. generalize (start V). induction ops as [|o ops IH]; intros c I; [exact I|].
    cbn [fold_left]. apply IH, step_inv, I.
  Qed.

  Lemma run_snoc ops o : run V lost_value (ops ++ [o]) = step V lost_value o (run V lost_value ops).
  Proof. unfold run. rewrite fold_left_app. reflexivity. Qed.

  Lemma called_ids_pairs l : called_ids V l = map fst (pairs l).
  Proof. unfold called_ids, pairs. rewrite map_map. reflexivity. Qed.
  Lemma inv_called c : inv c -> NoDup (called_ids V (log V c)).
  Proof.
    intros (P & N & _). apply (Permutation_map fst) in P. rewrite map_app in P.
    apply (Permutation_NoDup P) in N. rewrite called_ids_pairs. clear - N.
    induction (map fst (table V c)) as [|x l IH]; [exact N|]. cbn [app] in N. inversion N; auto.
  Qed.
  Lemma inv_called_noted c id cb o : inv c -> In (id, cb, o) (called (log V c)) -> In (id, cb) (noted (log V c)).
  Proof.
    intros (P & _) I. eapply Permutation_in; [apply Permutation_sym, P|]. apply in_or_app. right.
    unfold pairs. apply in_map_iff. exists (id, cb, o). auto.
  Qed.
  Lemma inv_waiting c id cb : inv c ->
    (In (id, cb) (noted (log V c)) /\ ~ In id (called_ids V (log V c)) <-> tref id (table V c) = Some cb).
  Proof.
    intros I. pose proof I as (P & N & _). split.
    - intros [J K]. apply (Permutation_in _ P) in J. apply in_app_or in J. destruct J as [J|J].
      + destruct (tref id (table V c)) as [cb'|] eqn:E.
        * apply tref_In in E. pose proof (inv_table c I) as ND. f_equal.
          clear - J E ND. induction (table V c) as [|[i b] t IH]; [destruct J|]. cbn [map fst] in ND. inversion ND; subst.
          destruct J as [J|J], E as [E|E]; try congruence; [exfalso; apply H1|exfalso; apply H1|auto].
          -- injection J as -> ->. change id with (fst (id, cb')). apply in_map, E.
          -- injection E as -> ->. change id with (fst (id, cb)). apply in_map, J.
        * apply tref_None in E. exfalso. apply E. change id with (fst (id, cb)). apply in_map, J.
      + exfalso. apply K. rewrite called_ids_pairs. change id with (fst (id, cb)). apply in_map, J.
    - intros E. apply tref_In in E. split.
      + eapply Permutation_in; [apply Permutation_sym, P|]. apply in_or_app. auto.
      + intros K. rewrite called_ids_pairs in K. apply (Permutation_map fst) in P. rewrite map_app in P.
        apply (Permutation_NoDup P) in N. apply (in_map fst) in E. cbn [fst] in E.
        apply in_split in E. destruct E as (a & b & E). rewrite E, <- app_assoc in N. cbn [app] in N.
        apply NoDup_remove_2 in N. apply N. apply in_or_app. right. apply in_or_app. auto.
  Qed.

  (** The value of a callback is that of a result received for its id. *)
  Lemma called_from ops : forall id cb ok v, In (id, cb, (ok, v)) (called (log V (run V lost_value ops))) ->
    exists sock, In (Result V sock id ok v) ops.
  Proof.
    induction ops as [|o ops IH] using rev_ind; intros id cb ok v I; [destruct I|].
    rewrite run_snoc in I. pose proof (run_inv ops) as INV. set (c := run V lost_value ops) in *.
    assert (OLD : In (id, cb, (ok, v)) (called (log V c)) -> exists sock, In (Result V sock id ok v) (ops ++ [o])).
    { intros J. destruct (IH id cb ok v J) as (s & K). exists s. apply in_or_app. auto. }
    destruct o as [s b|s|s cb' sv a|s sv a|s id' ok' v']; unfold step in I.
    - apply OLD, I.
    - apply OLD. destruct (deregister_spec s c INV) as (_ & E & _). rewrite E in I. exact I.
    - apply OLD. destruct (invoke_spec s cb' sv a c INV) as (_ & E & _). rewrite E in I. exact I.
    - apply OLD, I.
    - destruct (dispatch_spec s id' ok' v' c INV) as (_ & _ & _ & [E|(cb2 & _ & E)]); rewrite E in I; [apply OLD, I|].
      destruct I as [I|I]; [|apply OLD, I]. injection I as -> -> -> ->. exists s. apply in_or_app. right. left. reflexivity.
  Qed.
End Proofs.
