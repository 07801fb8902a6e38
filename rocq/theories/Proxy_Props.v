(** C99: calls to an object behind a thread are like calls one after the other *)

From Coq Require Import List Bool Arith Lia Permutation.
From Verif Require Import Proxy_Model Proxy_Spec Proxy_Proofs.
Import ListNotations.

Section Props.
Context {S A V E : Type}.
Variable f : S -> A -> S * (V + E).

(** However threads interleave: the messages dealt with are the first ones sent, in order;
    the state is that of dealing with them one after the other; the answers, fetched or
    waiting, are theirs, each for its own call and once *)
Theorem C99_serial : forall o l, exists served, sent 0 l = served ++ queue (run f o l) /\
  obj (run f o l) = after f o served /\
  Permutation (ports (run f o l) ++ taken (run f o l)) (answers f o served) /\
  NoDup (map fst (ports (run f o l) ++ taken (run f o l))).
Proof.
  intros o l. destruct (inv_run f o l) as (served & H1 & H2 & H3 & H4 & H5). exists served. split; [exact H1|]. split; [exact H3|]. split; [exact H4|].
  apply (Permutation_NoDup (l := map fst (answers f o served))); [apply Permutation_map; symmetry; exact H4|].
  exact (prefix_nodup f o l served _ H1).
Qed.

(** What a caller gets is the result or the exception of their own arguments, after all that
    was sent before *)
Theorem C99_answer : forall o l p r, In (p, r) (taken (run f o l)) ->
  exists before a behind, sent 0 l = before ++ Sync p a :: behind /\ r = snd (f (after f o before) a).
Proof.
  intros o l p r I. destruct (inv_run f o l) as (served & H1 & H2 & H3 & H4 & H5).
  assert (J : In (p, r) (answers f o served)) by (apply (Permutation_in _ H4), in_or_app; right; exact I).
  destruct (answers_in f served o p r J) as (b & a & c & -> & R). exists b, a, (c ++ queue (run f o l)).
  split; [|exact R]. rewrite H1, <- app_assoc. reflexivity.
Qed.

(** As long as the thread lives and no asynchronous call that waits raises an exception,
    every call gets its answer *)
Theorem C99_all_answered : forall o l, alive (run f o l) = true -> calm f (obj (run f o l)) (queue (run f o l)) ->
  exists n, let s := run f o (l ++ repeat Serve n) in queue s = [] /\
  forall before p a behind, sent 0 l = before ++ Sync p a :: behind ->
  In (p, snd (f (after f o before) a)) (ports s ++ taken s).
Proof.
  intros o l Al C. exists (length (queue (run f o l))). cbv zeta.
  destruct (serve_all f (queue (run f o l)) (run f o l) Al eq_refl C) as (Q & _).
  assert (R : run f o (l ++ repeat Serve (length (queue (run f o l)))) = fold_left (step f) (repeat Serve (length (queue (run f o l)))) (run f o l)) by (unfold run; rewrite fold_left_app; reflexivity).
  split; [rewrite R; exact Q|]. intros before p a behind H.
  destruct (inv_run f o (l ++ repeat Serve (length (queue (run f o l))))) as (served & H1 & _ & _ & H4 & _).
  rewrite R, Q, app_nil_r in H1.
  assert (N : forall n k, sent k (repeat (@Serve A) n) = []) by (induction n as [|n IH]; intros k; [reflexivity|apply IH]).
  rewrite sent_app, N, app_nil_r, H in H1. subst served.
  apply (Permutation_in _ (Permutation_sym H4)). apply answers_of.
Qed.

(** When the thread is dead nothing is answered any more *)
Theorem C99_dead : forall o l, alive (run f o l) = false -> forall l' p,
  In p (map fst (taken (run f o (l ++ l')))) -> In p (map fst (ports (run f o l) ++ taken (run f o l))).
Proof.
  intros o l D l' p I. apply (dead_forever f l' (run f o l) D). unfold run in *. rewrite fold_left_app in I.
  rewrite map_app. apply in_or_app. right. exact I.
Qed.
End Props.
Print Assumptions C99_serial.
Print Assumptions C99_answer.
Print Assumptions C99_all_answered.
Print Assumptions C99_dead.

(** It is false that callers always get an answer or an exception: an exception in somebody
    else's asynchronous call lets them wait for ever, though nobody deleted the thread *)
Definition divide (s : nat) (a : nat) : nat * (nat + nat) := match a with O => (s, inr s) | _ => (s + a, inl (s / a)) end.
Theorem C99_waits_refuted : exists l : list (event nat), ~ In Delete l /\ In (Call 1) l /\
  forall l', ~ In 0 (map fst (taken (run divide 6 (l ++ l')))).
Proof.
  exists [Cast 0; Call 1; Serve]. split; [cbn; intuition discriminate|]. split; [cbn; auto|]. intros l' I.
  apply (C99_dead divide 6 [Cast 0; Call 1; Serve] eq_refl l' 0) in I. exact I.
Qed.
Print Assumptions C99_waits_refuted.

(** Two callers and an asynchronous call between them; the second fetches first *)
Example interleaved : taken (run divide 6 [Call 2; Cast 4; Serve; Call 0; Serve; Serve; Fetch 1; Call 3; Fetch 0; Fetch 1]) = [(1, inr 12); (0, inl 3)].
Proof. reflexivity. Qed.
Example it_is_calm : alive (run divide 6 [Call 2; Cast 4; Serve; Call 0]) = true /\ calm divide (obj (run divide 6 [Call 2; Cast 4; Serve; Call 0])) (queue (run divide 6 [Call 2; Cast 4; Serve; Call 0])).
Proof. split; [reflexivity|]. cbn. split; [eexists; reflexivity|exact I]. Qed.
