(** C68: non-local exits do what the manual says.
    C69: compiled code does what interpreted code does. *)
From Coq Require Import List ZArith Bool Lia.
Import ListNotations.
From Verif Require Import Control_Model Control_Spec Control_Proofs Control_Machine Control_Laws.
Open Scope Z_scope.

(** A world for the examples: the list of the values noted, latest first.
    Function 0 notes its argument and returns it; function 1 signals an error
    whose symbol is its argument; function 2 returns the number of values
    noted; anything else returns nil. *)
Definition demo (f : nat) (vs : list val) (w : list val) : outcome * list val :=
  match f, vs with
  | 0%nat, [v] => (Ret v, v :: w)
  | 1%nat, [Atom n] => (Exit (error_, Cons 900 (Atom n) nil_), w)
  | 2%nat, _ => (Ret (Atom (Z.of_nat (length w))), w)
  | _, _ => (Ret nil_, w)
  end.
Definition note (n : Z) : form := Call 0 (FCons (Quote (Atom n)) FNil).
Definition signal (n : Z) : form := Call 1 (FCons (Quote (Atom n)) FNil).
Lemma demo_proper : functions_proper (list val) demo.
Proof.
  intros f vs w x w'. unfold demo. destruct f as [|[|[|f]]]; destruct vs as [|v [|v' vs]]; try discriminate;
    destruct v; try discriminate. intros [= <- <-] _. repeat eexists.
Qed.

(** The interpreter runs every form as the rules of the specification say. *)
Theorem C68_interpreter : forall world ext names e s o s',
  eval world ext names e s = (o, s') <-> runs world ext names e s o s'.
Proof. intros. symmetry. apply runs_eval. Qed.
Print Assumptions C68_interpreter.
Example interpreter_ex :
  (* (catch 7 (unwind-protect (progn (note 10) (throw 7 (note 11)) (note 12)) (note 13))) *)
  runs (list val) demo []
    (Catch (Quote (Atom 7)) (Unwind (Progn (note 10) (Progn (Throw (Quote (Atom 7)) (note 11)) (note 12))) (note 13)))
    ([], []) (Ret (Atom 11)) ([], [Atom 13; Atom 11; Atom 10]).
Proof. apply C68_interpreter. reflexivity. Qed.

(** Every form ends in exactly one way. *)
Theorem C68_one_outcome : forall world ext names e s,
  exists o s', runs world ext names e s o s' /\
    forall o1 s1, runs world ext names e s o1 s1 -> o1 = o /\ s1 = s'.
Proof.
  intros. destruct (runs_total world ext names e s) as (o & s' & R). exists o, s'. split; auto.
  intros o1 s1 R1. apply (runs_det _ _ _ _ _ _ _ _ _ R1 R).
Qed.
Print Assumptions C68_one_outcome.
Example one_outcome_ex : exists s', runs (list val) demo [] (signal 5) ([], []) (Exit (error_, Cons 900 (Atom 5) nil_)) s'.
Proof. eexists. apply C68_interpreter. reflexivity. Qed.

(** An exit that nothing on the way catches runs the cleanup forms on its way,
    innermost first, and is then still the same exit. *)
Theorem C68_unwinding : forall world ext names ks e s x s1 s2,
  runs world ext names e s (Exit x) s1 -> Forall (lets_through x) ks -> cleanups world ext names ks s1 s2 ->
  runs world ext names (within ks e) s (Exit x) s2.
Proof. intros. eapply within_exit; eauto. Qed.
Print Assumptions C68_unwinding.

(** A throw gives its value to the nearest catch of its tag, after the cleanup
    forms between them. *)
Theorem C68_catch : forall world ext names ks e s t t' v s1 s2,
  runs world ext names e s (Exit (t, v)) s1 -> Forall (lets_through (t, v)) ks ->
  cleanups world ext names ks s1 s2 -> same t t' ->
  runs world ext names (Catch (Quote t') (within ks e)) s (Ret v) s2.
Proof.
  intros. eapply R_catch_caught; [constructor | eapply within_exit; eauto | auto].
Qed.
Print Assumptions C68_catch.

(** An error goes to the nearest condition-case with a handler for it, and to
    its first such handler, after the cleanup forms between them; the handler
    has the variable bound to the error and is not protected by its own
    condition-case. *)
Theorem C68_condition_case : forall world ext names ks e s t d env w s1 y hs h o d' env' w',
  runs world ext names e s (Exit (t, d)) s1 -> same t error_ -> Forall (lets_through (t, d)) ks ->
  cleanups world ext names ks s1 (env, w) -> first_handler hs d h ->
  runs world ext (y :: names) h (d :: env, w) o (d' :: env', w') ->
  runs world ext names (Cond y (within ks e) hs) s o (env', w').
Proof. intros. eapply R_cond_handled; eauto. eapply within_exit; eauto. Qed.
Print Assumptions C68_condition_case.

(** Two cleanups and handlers for other things between an error and its handler *)
Definition between : list frame :=
  [In_progn (note 20); In_unwind (note 21); In_cond 0 (HCons (Atom 6) (note 22) HNil); In_catch (Atom 7); In_unwind (note 23)].
Lemma between_through : Forall (lets_through (error_, Cons 900 (Atom 5) nil_)) between.
Proof.
  unfold between. repeat (apply Forall_cons || apply Forall_nil); simpl; auto; try discriminate.
  intros _. constructor; [|constructor]. unfold handles. simpl. intuition discriminate.
Qed.
Lemma between_cleanups : cleanups (list val) demo [] between ([], []) ([], [Atom 23; Atom 21]).
Proof.
  apply Cl_other; [discriminate|]. eapply Cl_unwind; [apply C68_interpreter; reflexivity|].
  apply Cl_other; [discriminate|]. apply Cl_other; [discriminate|].
  eapply Cl_unwind; [apply C68_interpreter; reflexivity|]. constructor.
Qed.
Example unwinding_ex :
  runs (list val) demo [] (within between (signal 5)) ([], []) (Exit (error_, Cons 900 (Atom 5) nil_)) ([], [Atom 23; Atom 21]).
Proof.
  eapply C68_unwinding; [apply C68_interpreter; reflexivity | apply between_through | apply between_cleanups].
Qed.
Example catch_ex :
  runs (list val) demo [] (Catch (Quote (Atom 9)) (within [In_catch (Atom 7); In_unwind (note 23)] (Throw (Quote (Atom 9)) (note 1))))
    ([], []) (Ret (Atom 1)) ([], [Atom 23; Atom 1]).
Proof.
  eapply C68_catch with (t := Atom 9).
  - apply C68_interpreter; reflexivity.
  - repeat constructor. simpl. discriminate.
  - apply Cl_other; [discriminate|]. eapply Cl_unwind; [apply C68_interpreter; reflexivity|]. constructor.
  - reflexivity.
Qed.
Example condition_case_ex :
  runs (list val) demo []
    (Cond 3 (within between (signal 5)) (HCons (Atom 6) (note 1) (HCons (Cons 901 (Atom 4) (Cons 902 (Atom 5) nil_)) (Var 3) (HCons error_ (note 2) HNil))))
    ([], []) (Ret (Cons 900 (Atom 5) nil_)) ([], [Atom 23; Atom 21]).
Proof.
  eapply C68_condition_case with (h := Var 3).
  - apply C68_interpreter; reflexivity.
  - reflexivity.
  - apply between_through.
  - apply between_cleanups.
  - exists [(Atom 6, note 1)], (Cons 901 (Atom 4) (Cons 902 (Atom 5) nil_)), [(error_, note 2)].
    split; [reflexivity|]. split; [right; right; right; left; reflexivity|].
    constructor; [|constructor]. unfold handles. simpl. intuition discriminate.
  - apply C68_interpreter; reflexivity.
Qed.

(** The cleanup of an unwind-protect is called once, after everything that its
    form does, however the form ends.  [f] stands for the cleanup: it is not
    called by the form itself. *)
Theorem C68_cleanup_once : forall world (ext : nat -> list val -> world -> outcome * world) names e f s o s',
  calls f e = false -> runs (list nat * world) (logged ext) names (Unwind e (Call f FNil)) s o s' ->
  exists l, fst (snd s') = f :: l ++ fst (snd s) /\ ~ In f l.
Proof. intros world ext names e f s o s' N R. apply runs_eval in R. eapply cleanup_once; eauto. Qed.
Print Assumptions C68_cleanup_once.
Example cleanup_once_ex :
  exists s', runs (list nat * list val) (logged demo) []
    (Unwind (Progn (note 1) (signal 5)) (Call 7 FNil)) ([], ([], [])) (Exit (error_, Cons 900 (Atom 5) nil_)) s' /\
    fst (snd s') = [7; 1; 0]%nat.
Proof. eexists. split; [apply C68_interpreter; reflexivity | reflexivity]. Qed.

(** However a form ends, the variables around it are those that were there, and
    one that the form does not set has its value. *)
Theorem C68_variables : forall world ext names e s o s',
  runs world ext names e s o s' ->
  length (fst s') = length (fst s) /\
  forall x p, nth_error names p = Some x -> sets x e = false -> nth p (fst s') nil_ = nth p (fst s) nil_.
Proof.
  intros world ext names e s o s' R. apply runs_eval in R. split; [eapply eval_length; eauto|].
  intros x p N S1. eapply (proj1 (unset_all world ext x) e names p N S1); eauto.
Qed.
Print Assumptions C68_variables.
Example variables_ex :
  runs (list val) demo [0; 1]%nat (Let 2 (Quote (Atom 5)) (Progn (Set_ 1 (Var 2)) (Throw (Quote (Atom 7)) (Var 0))))
    ([Atom 3; Atom 4], []) (Exit (Atom 7, Atom 3)) ([Atom 3; Atom 5], []).
Proof. apply C68_interpreter. reflexivity. Qed.

(** A finding.  The symbol error stands for all errors when it is the handler,
    but not when it is in a list of symbols: ((error foo) ...) handles neither
    what (error ...) handles. *)
Theorem C68_error_in_list_refuted : exists (e : form) (s s' : state (list val)) x,
  runs (list val) demo [] (Cond 0 e (HCons error_ (Quote (Atom 9)) HNil)) s (Ret (Atom 9)) s' /\
  runs (list val) demo [] (Cond 0 e (HCons (Cons 901 error_ nil_) (Quote (Atom 9)) HNil)) s (Exit x) s'.
Proof.
  exists (signal 5), ([], []), ([], []). eexists. split; apply C68_interpreter; reflexivity.
Qed.
Print Assumptions C68_error_in_list_refuted.

(** A finding.  A catch may be left by what no throw gave it: (catch 'error ...)
    takes every error for a throw to it. *)
Theorem C68_catch_error_refuted : exists (e : form) (s s' : state (list val)) v,
  runs (list val) demo [] e s (Exit (error_, v)) s' /\
  runs (list val) demo [] (Catch (Quote error_) e) s (Ret v) s'.
Proof.
  exists (signal 5), ([], []), ([], []). eexists. split; apply C68_interpreter; reflexivity.
Qed.
Print Assumptions C68_catch_error_refuted.

(** Compiled code ends as interpreted code does, in the same state, and with
    its stack and its bindings as they were.  Partial: tags of catch are
    constants or variables that the body does not set, tags of throw are
    constants other than error, functions signal errors of the form (error
    SYMBOL . DATA), every condition-case has a handler. *)
Theorem C69_compiled_partial : forall world ext names e s o s',
  functions_proper world ext -> plain e ->
  (machine world ext (compile names 0 e) s o s' <-> runs world ext names e s o s').
Proof. intros. apply machine_iff; auto. Qed.
Print Assumptions C69_compiled_partial.
Definition program : form :=
  (* (let ((tag 7))
       (catch tag
         (condition-case err
             (unwind-protect (progn (note 10) (signal 5)) (note 11))
           (6 (note 12))
           ((4 5) (unwind-protect (throw 7 err) (note 13)))))) *)
  Let 0 (Quote (Atom 7))
    (Catch (Var 0)
      (Cond 1 (Unwind (Progn (note 10) (signal 5)) (note 11))
        (HCons (Atom 6) (note 12)
          (HCons (Cons 901 (Atom 4) (Cons 902 (Atom 5) nil_)) (Unwind (Throw (Quote (Atom 7)) (Var 1)) (note 13)) HNil)))).
Example compiled_ex :
  functions_proper (list val) demo /\ plain program /\
  machine (list val) demo (compile [] 0 program) ([], []) (Ret (Cons 900 (Atom 5) nil_)) ([], [Atom 13; Atom 11; Atom 10]).
Proof.
  assert (P : plain program) by (repeat split; simpl; discriminate).
  split; [apply demo_proper|]. split; [exact P|].
  apply C69_compiled_partial; [apply demo_proper | exact P | apply C68_interpreter; reflexivity].
Qed.

(** The same of code inside other code: with whatever is on the stack and
    whatever bindings and handlers there are.  If the form exits, the machine
    comes to look for a handler among the bindings that were there before, with
    what was on the stack still there. *)
Theorem C69_in_context_partial : forall world ext names e s o s' pre post st bs,
  functions_proper world ext -> plain e -> runs world ext names e s o s' ->
  let c := compile names (length pre) e in
  match o with
  | Ret v => steps world ext (pre ++ c ++ post)
               (Run world (length pre) st bs s) (Run world (length pre + length c) (V v :: st) bs s')
  | Exit x => exists rest, steps world ext (pre ++ c ++ post)
               (Run world (length pre) st bs s) (Error world x (rest ++ st) bs s')
  end.
Proof.
  intros world ext names e s o s' pre post st bs FP P R c. apply runs_eval in R.
  pose proof (proj1 (sim_all world ext FP) e P names (pre ++ c ++ post) (length pre)) as H.
  specialize (H (ex_intro _ pre (ex_intro _ post (conj eq_refl eq_refl))) st bs s).
  rewrite R in H. destruct o; exact H.
Qed.
Print Assumptions C69_in_context_partial.
Example in_context_ex : exists rest,
  steps (list val) demo ([POP] ++ compile [] 1 (Unwind (signal 5) (note 11)) ++ [POP])
    (Run (list val) 1 [V (Atom 3)] [Handler 0 1] ([], []))
    (Error (list val) (error_, Cons 900 (Atom 5) nil_) (rest ++ [V (Atom 3)]) [Handler 0 1] ([], [Atom 11])).
Proof.
  apply (C69_in_context_partial (list val) demo [] (Unwind (signal 5) (note 11)) ([], [])
           (Exit (error_, Cons 900 (Atom 5) nil_)) ([], [Atom 11]) [POP] [POP]).
  - apply demo_proper.
  - repeat split.
  - apply C68_interpreter. reflexivity.
Qed.

Ltac run := repeat (eapply S_step; [reflexivity|]); apply S_refl.
(** A finding.  The compiled catch evaluates its tag after the body, and only if
    something was thrown: (catch (note 7) (note 8)) compiled does not note 7. *)
Theorem C69_tag_evaluated_refuted : exists (e : form) (s s1 s2 : state (list val)) v,
  runs (list val) demo [] e s (Ret v) s1 /\ machine (list val) demo (compile [] 0 e) s (Ret v) s2 /\ s1 <> s2.
Proof.
  exists (Catch (note 7) (note 8)), ([], []). do 3 eexists. split; [apply C68_interpreter; reflexivity|].
  split; [unfold machine; run | discriminate].
Qed.
Print Assumptions C69_tag_evaluated_refuted.

(** A finding.  So a catch whose tag is a variable that the body sets misses the
    throw that it is there for: (let ((x 7)) (catch x (setq x 8) (throw 7 1))). *)
Theorem C69_tag_variable_refuted : exists (e : form) (s s1 s2 : state (list val)) v x,
  runs (list val) demo [] e s (Ret v) s1 /\ machine (list val) demo (compile [] 0 e) s (Exit x) s2.
Proof.
  exists (Let 0 (Quote (Atom 7)) (Catch (Var 0) (Progn (Set_ 0 (Quote (Atom 8))) (Throw (Quote (Atom 7)) (Quote (Atom 1)))))), ([], []).
  do 4 eexists. split; [apply C68_interpreter; reflexivity|]. unfold machine. eexists. run.
Qed.
Print Assumptions C69_tag_variable_refuted.

(** A finding.  (condition-case nil (throw 'error 5) (error 9)) is 9 interpreted;
    compiled, the throw passes the handler. *)
Theorem C69_improper_error_refuted : exists (e : form) (s s1 s2 : state (list val)) v x,
  runs (list val) demo [] e s (Ret v) s1 /\ machine (list val) demo (compile [] 0 e) s (Exit x) s2.
Proof.
  exists (Cond 0 (Throw (Quote error_) (Quote (Atom 5))) (HCons error_ (Quote (Atom 9)) HNil)), ([], []).
  do 4 eexists. split; [apply C68_interpreter; reflexivity|]. unfold machine. eexists. run.
Qed.
Print Assumptions C69_improper_error_refuted.
