From Coq Require Import List ZArith Bool Lia PeanoNat.
Import ListNotations.
From Verif Require Import Control_Model Control_Spec Control_Proofs Control_Machine.
Open Scope Z_scope.

Section World.
  Variable world : Type.
  Variable ext : nat -> list val -> world -> outcome * world.
  Notation lworld := (list nat * world)%type.
  Notation eval := (eval lworld (logged ext)).
  Notation eval_list := (eval_list lworld (logged ext)).
  Notation eval_handlers := (eval_handlers lworld (logged ext)).
  Hint Rewrite ev_quote ev_var ev_set ev_let ev_progn ev_if ev_call ev_throw ev_catch ev_unwind ev_cond
    ev_fnil ev_fcons ev_hnil ev_hcons : ev.

  Definition grows (f : nat) (w w' : lworld) : Prop := exists l, fst w' = l ++ fst w /\ ~ In f l.
  Lemma grows_refl f w : grows f w w.
  Proof. exists []. split; auto. Qed.
  Lemma grows_trans f a b c : grows f a b -> grows f b c -> grows f a c.
  Proof.
    intros (l & E & N) (m & F & M). exists (m ++ l). rewrite F, E, app_assoc. split; auto.
    rewrite in_app_iff. tauto.
  Qed.
  Definition quiet (f : nat) (t : thunk lworld) : Prop := forall s o s', t s = (o, s') -> grows f (snd s) (snd s').
  Lemma binding_quiet f v t : quiet f t -> quiet f (with_binding lworld v t).
  Proof.
    intros H s o s'. unfold with_binding. destruct (t (v :: fst s, snd s)) as [o1 [env w]] eqn:E.
    intros [= <- <-]. apply H in E. exact E.
  Qed.
  Lemma pick_quiet f type x l : Forall (fun h => forall d, quiet f (snd h d)) l -> quiet f (pick lworld type x l).
  Proof.
    induction 1 as [|[h g] l Hf _ IH]; intros s o s'; cbn [pick].
    - intros [= <- <-]; apply grows_refl.
    - destruct (_ || _); [apply Hf | apply IH].
  Qed.
  Lemma quiet_all f :
    (forall e, calls f e = false -> forall names, quiet f (eval names e)) /\
    (forall l, calls_list f l = false -> forall names s r s', eval_list names l s = (r, s') -> grows f (snd s) (snd s')) /\
    (forall hs, calls_handlers f hs = false -> forall names y, Forall (fun h => forall d, quiet f (snd h d)) (eval_handlers names y hs)).
  Proof.
    apply forms_ind_all; unfold quiet; intros; autorewrite with ev in *;
      try match goal with H : calls _ _ = false |- _ => cbn in H; rewrite ?orb_false_iff in H end;
      try match goal with H : calls_list _ _ = false |- _ => cbn in H; rewrite ?orb_false_iff in H end;
      try match goal with H : calls_handlers _ _ = false |- _ => cbn in H; rewrite ?orb_false_iff in H end.
    - injection H0 as <- <-. apply grows_refl.
    - injection H0 as <- <-. apply grows_refl.
    - destruct (eval names e s) as [[v|ex] s1] eqn:E; injection H1 as <- <-; apply H in E; auto.
      destruct (index x names); auto.
    - destruct H1 as [S1 S2].
      destruct (eval names e s) as [[v|ex] s1] eqn:E; apply H in E; auto; [|injection H2 as <- <-; auto].
      eapply binding_quiet in H2; [eapply grows_trans; eauto|]. intros ? ? ?. apply H0; auto.
    - destruct H1 as [S1 S2].
      destruct (eval names a s) as [[v|ex] s1] eqn:E; apply H in E; auto; [|injection H2 as <- <-; auto].
      apply H0 in H2; auto. eapply grows_trans; eauto.
    - destruct H2 as [[S1 S2] S3].
      destruct (eval names c s) as [[v|ex] s1] eqn:E; apply H in E; auto; [|injection H3 as <- <-; auto].
      destruct (nilp v); [apply H1 in H3 | apply H0 in H3]; auto; eapply grows_trans; eauto.
    - destruct H0 as [N S1].
      destruct (eval_list names args s) as [[vs|ex] s1] eqn:E; apply H in E; auto; [|injection H1 as <- <-; auto].
      unfold logged in H1. destruct (ext f0 vs (snd (snd s1))) as [o1 w1]. injection H1 as <- <-.
      eapply grows_trans; [exact E|]. exists [f0]. split; [reflexivity|]. intros [->|[]]. rewrite Nat.eqb_refl in N. discriminate.
    - destruct H1 as [S1 S2].
      destruct (eval names tag s) as [[v|ex] s1] eqn:E; apply H in E; auto; [|injection H2 as <- <-; auto].
      destruct (eval names value s1) as [[v'|ex] s2] eqn:E'; apply H0 in E'; auto; injection H2 as <- <-; eapply grows_trans; eauto.
    - destruct H1 as [S1 S2].
      destruct (eval names tag s) as [[v|ex] s1] eqn:E; apply H in E; auto; [|injection H2 as <- <-; auto].
      unfold call_with_catch, call_with_exception_handler, raise_exception in H2.
      destruct (eval names body s1) as [[v'|ex] s2] eqn:E'; apply H0 in E'; auto; [injection H2 as <- <-; eapply grows_trans; eauto|].
      destruct (eq_ _ _); injection H2 as <- <-; eapply grows_trans; eauto.
    - destruct H1 as [S1 S2].
      unfold call_with_unwind_protect, raise_exception in H2.
      destruct (eval names body s) as [[v'|ex] s2] eqn:E'; apply H in E'; auto;
        destruct (eval names cleanup s2) as [[v''|ex'] s3] eqn:E''; apply H0 in E''; auto; injection H2 as <- <-; eapply grows_trans; eauto.
    - destruct H1 as [S1 S2].
      unfold call_with_error_handlers, call_with_exception_handler, raise_exception in H2.
      destruct (eval names body s) as [[v'|ex] s2] eqn:E'; apply H in E'; auto; [injection H2 as <- <-; auto|].
      destruct (negb _); [injection H2 as <- <-; auto|].
      apply (pick_quiet f _ _ _ (H0 S2 names x)) in H2. eapply grows_trans; eauto.
    - injection H0 as <- <-. apply grows_refl.
    - destruct H1 as [S1 S2].
      destruct (eval names e s) as [[v|ex] s1] eqn:E; apply H in E; auto; [|injection H2 as <- <-; auto].
      destruct (eval_list names l s1) as [[vs|ex] s2] eqn:E'; apply H0 in E'; auto; injection H2 as <- <-; eapply grows_trans; eauto.
    - constructor.
    - destruct H1 as [S1 S2]. constructor; [|apply H0; auto]. intro d. apply binding_quiet. intros ? ? ?. apply H; auto.
  Qed.

  Lemma cleanup_once names e f s o s' :
    calls f e = false -> eval names (Unwind e (Call f FNil)) s = (o, s') ->
    exists l, fst (snd s') = f :: l ++ fst (snd s) /\ ~ In f l.
  Proof.
    intros N. rewrite ev_unwind. unfold call_with_unwind_protect, raise_exception.
    destruct (eval names e s) as [[v|x] s1] eqn:E; apply (proj1 (quiet_all f) e N) in E as (l & L & M); cbv beta iota;
      rewrite ev_call, ev_fnil; unfold logged; destruct (ext f [] (snd (snd s1))) as [[v1|x1] w1]; intros [= <- <-];
      exists l; cbn; rewrite L; auto.
  Qed.
End World.

Section Run.
  Variable world : Type.
  Variable ext : nat -> list val -> world -> outcome * world.
  Notation runs := (runs world ext).

  Lemma runs_det names e s o s1 o' s2 : runs names e s o s1 -> runs names e s o' s2 -> o = o' /\ s1 = s2.
  Proof. rewrite !runs_eval. intros -> [= <- <-]. auto. Qed.
  Lemma runs_total names e s : exists o s', runs names e s o s'.
  Proof.
    destruct (eval world ext names e s) as [o s'] eqn:E. exists o, s'. apply runs_eval. exact E.
  Qed.
  Lemma machine_iff names e s o s' :
    functions_proper world ext -> plain e -> (machine world ext (compile names 0 e) s o s' <-> runs names e s o s').
  Proof.
    intros FP P. rewrite runs_eval. split.
    - intros M. destruct (eval world ext names e s) as [o1 s1] eqn:E.
      pose proof (compile_machine world ext FP names e s o1 s1 P E) as M1.
      assert (N : forall st b s, step world ext (compile names 0 e) (Run world (length (compile names 0 e)) st b s) = None).
      { intros. cbn [step]. rewrite (proj2 (nth_error_None _ _)); auto. }
      unfold machine in *. destruct o as [v|x], o1 as [v1|x1]; try (destruct M as [st M]); try (destruct M1 as [st1 M1]);
        pose proof (steps_det world ext _ _ _ _ M M1) as D; repeat (specialize (D ltac:(auto))); congruence.
    - intros E. apply compile_machine; auto.
  Qed.
End Run.
