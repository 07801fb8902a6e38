(** Proofs about objects behind threads *)

From Coq Require Import List Bool Arith Lia Permutation.
From Verif Require Import Proxy_Model Proxy_Spec.
Import ListNotations.

Section Proofs.
Context {S A V E : Type}.
Variable f : S -> A -> S * (V + E).

Fixpoint calls (l : list (event A)) : nat :=
  match l with [] => 0 | Call _ :: l => 1 + calls l | _ :: l => calls l end.
Lemma sent_app : forall l n m, sent n (l ++ m) = sent n l ++ sent (calls l + n) m.
Proof.
  induction l as [|e l IH]; intros n m; [reflexivity|]. destruct e; cbn [app sent calls]; rewrite IH; try reflexivity.
  cbn. do 3 f_equal. lia.
Qed.
Lemma calls_app : forall l m, calls (l ++ m) = calls l + calls m.
Proof. induction l as [|e l IH]; intros m; [reflexivity|]. destruct e; cbn; rewrite IH; reflexivity. Qed.
Lemma after_app : forall l m o, after f o (l ++ m) = after f (after f o l) m.
Proof. induction l as [|x l IH]; intros m o; [reflexivity|]. cbn. apply IH. Qed.
Lemma answers_app : forall l m o, answers f o (l ++ m) = answers f o l ++ answers f (after f o l) m.
Proof. induction l as [|x l IH]; intros m o; [reflexivity|]. destruct x; cbn; rewrite IH; reflexivity. Qed.
Lemma calm_app : forall l m o, calm f o l -> calm f (after f o l) m -> calm f o (l ++ m).
Proof.
  induction l as [|x l IH]; intros m o H1 H2; [exact H2|]. destruct x; cbn in *; [apply IH; assumption|].
  destruct H1 as (v & H1). split; [exact v|]. apply IH; assumption.
Qed.
Lemma take_perm : forall p l r l', @take V E p l = Some (r, l') -> Permutation l ((p, r) :: l').
Proof.
  intros p. induction l as [|(q, r0) l IH]; intros r l' H; [discriminate|]. cbn in H. destruct (Nat.eqb q p) eqn:Q.
  - apply Nat.eqb_eq in Q. injection H as <- <-. subst. reflexivity.
  - destruct (take p l) as [(r1, l1)|]; [|discriminate]. injection H as <- <-.
    rewrite (IH r1 l1 eq_refl). apply perm_swap.
Qed.

Definition inv (o : S) (l : list (event A)) (s : sys S A V E) (served : list (msg A)) : Prop :=
  sent 0 l = served ++ queue s /\ made s = calls l /\ obj s = after f o served /\
  Permutation (ports s ++ taken s) (answers f o served) /\ (alive s = true -> calm f o served).
Lemma inv_run : forall o l, exists served, inv o l (run f o l) served.
Proof.
  intros o l. induction l as [|e l IH] using rev_ind.
  - exists []. unfold inv. cbn. repeat split; constructor.
  - destruct IH as (served & H1 & H2 & H3 & H4 & H5). unfold run in *. rewrite fold_left_app. cbn [fold_left].
    set (s := fold_left (step f) l (start o)) in *. unfold inv. rewrite sent_app, calls_app, H1, Nat.add_0_r.
    destruct e as [a|a| |p|]; cbn [step calls sent].
    + exists served. cbn. rewrite H2, <- app_assoc, Nat.add_1_r. auto.
    + exists served. cbn. rewrite <- app_assoc, Nat.add_0_r. auto.
    + rewrite app_nil_r, Nat.add_0_r. unfold serve. destruct (alive s) eqn:Al; [|exists served; rewrite Al; auto].
      destruct (queue s) as [|m q] eqn:Q; [exists served; rewrite Al, Q; auto|]. exists (served ++ [m]).
      assert (R : sent 0 l = (served ++ [m]) ++ q) by (rewrite <- app_assoc; exact H1).
      rewrite after_app, answers_app, <- H3. specialize (H5 eq_refl).
      assert (C : calm f (obj s) [m] -> calm f o (served ++ [m])) by (intros C; apply calm_app; [exact H5|rewrite <- H3; exact C]).
      destruct m as [p a|a]; cbn [after answers arg calm] in *; destruct (f (obj s) a) as (o', r) eqn:F; cbn [fst snd queue made obj ports taken alive] in *.
      * split; [rewrite <- app_assoc; reflexivity|]. split; [exact H2|]. split; [reflexivity|]. split; [|auto].
        rewrite <- H4. rewrite <- (app_assoc (ports s)). cbn [app]. etransitivity; [symmetry; apply Permutation_middle|]. apply Permutation_cons_append.
      * rewrite app_nil_r. split; [rewrite <- app_assoc; reflexivity|]. split; [exact H2|]. split; [reflexivity|]. split; [exact H4|]. intros X. apply C. split; [|exact I].
        destruct r as [v|x]; [exists v; reflexivity|discriminate].
    + rewrite app_nil_r, Nat.add_0_r. exists served. destruct (take p (ports s)) as [(r, l')|] eqn:T; [|auto].
      cbn. repeat split; auto. rewrite <- H4. rewrite (take_perm _ _ _ _ T). rewrite app_assoc.
      etransitivity; [symmetry; apply Permutation_cons_append|]. reflexivity.
    + rewrite app_nil_r, Nat.add_0_r. exists served. cbn. repeat split; auto. discriminate.
Qed.

Lemma answers_in : forall l o p r, In (p, r) (answers f o l) -> exists b a c, l = b ++ Sync p a :: c /\ r = snd (f (after f o b) a).
Proof.
  induction l as [|m l IH]; intros o p r I; [destruct I|]. destruct m as [q a|a]; cbn [answers] in I.
  - destruct I as [[= <- <-]|I]; [exists [], a, l; auto|]. destruct (IH _ _ _ I) as (b & a' & c & -> & R). exists (Sync q a :: b), a', c. auto.
  - destruct (IH _ _ _ I) as (b & a' & c & -> & R). exists (Async a :: b), a', c. auto.
Qed.
Lemma answers_of : forall b o p a c, In (p, snd (f (after f o b) a)) (answers f o (b ++ Sync p a :: c)).
Proof.
  intros b o p a c. rewrite answers_app. apply in_or_app. right. left. reflexivity.
Qed.
Lemma answers_ports : forall l n o, exists k, map fst (answers f o (sent n l)) = seq n k.
Proof.
  induction l as [|e l IH]; intros n o; [exists 0; reflexivity|]. destruct e as [a|a| | |]; cbn [sent answers map fst]; try apply IH.
  destruct (IH (1 + n) (fst (f o a))) as (k & ->). exists (1 + k). reflexivity.
Qed.
Lemma prefix_nodup : forall o l served q, sent 0 l = served ++ q -> NoDup (map fst (answers f o served)).
Proof.
  intros o l served q H. destruct (answers_ports l 0 o) as (k & K). rewrite H, answers_app, map_app in K.
  assert (N := seq_NoDup k 0). rewrite <- K in N. clear K. revert N. generalize (map fst (answers f (after f o served) q)). intros m.
  induction (map fst (answers f o served)) as [|x u IH]; intros N; [constructor|]. inversion N as [|? ? N1 N2]; subst.
  constructor; [intros X; apply N1, in_or_app; left; exact X|apply IH, N2].
Qed.

Lemma serve_all : forall q s, alive s = true -> queue s = q -> calm f (obj s) q ->
  queue (fold_left (step f) (repeat Serve (length q)) s) = [] /\ alive (fold_left (step f) (repeat Serve (length q)) s) = true.
Proof.
  induction q as [|m q IH]; intros s Al Q C; [auto|]. cbn [length repeat fold_left].
  assert (X : alive (step f s Serve) = true /\ queue (step f s Serve) = q /\ calm f (obj (step f s Serve)) q).
  { cbn [step]. unfold serve. rewrite Al, Q.
    destruct m as [p a|a]; cbn [calm] in C; destruct (f (obj s) a) as (o', r) eqn:F; cbn [fst snd] in C.
    - cbn. auto.
    - destruct C as ((v & ->) & C). cbn. auto. }
  destruct X as (X1 & X2 & X3). apply IH; assumption.
Qed.
Lemma dead_step : forall s e, alive s = false -> alive (step f s e) = false /\ (forall p, In p (map fst (ports (step f s e) ++ taken (step f s e))) <-> In p (map fst (ports s ++ taken s))).
Proof.
  intros s e D. destruct e as [a|a| |p|]; cbn [step]; try (cbn; tauto).
  - unfold serve. rewrite D. tauto.
  - destruct (take p (ports s)) as [(r, l')|] eqn:T; [|tauto]. cbn. split; [exact D|]. intros q.
    assert (P : Permutation (l' ++ taken s ++ [(p, r)]) (ports s ++ taken s)).
    { rewrite (take_perm _ _ _ _ T), app_assoc. symmetry. apply Permutation_cons_append. }
    apply (Permutation_map fst) in P. split; apply Permutation_in; [exact P|symmetry; exact P].
Qed.
Lemma dead_forever : forall l s, alive s = false -> forall p, In p (map fst (ports (fold_left (step f) l s) ++ taken (fold_left (step f) l s))) <-> In p (map fst (ports s ++ taken s)).
Proof.
  induction l as [|e l IH]; intros s D p; [tauto|]. cbn [fold_left]. destruct (dead_step s e D) as (D' & X). rewrite (IH _ D'). apply X.
Qed.
End Proofs.
