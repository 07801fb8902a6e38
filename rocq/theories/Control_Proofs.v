From Coq Require Import List ZArith Bool Lia PeanoNat.
Import ListNotations.
From Verif Require Import Control_Model Control_Spec.
Open Scope Z_scope.

Scheme form_mut := Induction for form Sort Prop
  with forms_mut := Induction for forms Sort Prop
  with handlers_mut := Induction for handlers Sort Prop.
Combined Scheme forms_ind_all from form_mut, forms_mut, handlers_mut.

Lemma eq_same a b : eq_ a b = true <-> same a b.
Proof. destruct a, b; simpl; rewrite ?Z.eqb_eq; intuition discriminate. Qed.
Lemma eq_not_same a b : eq_ a b = false <-> ~ same a b.
Proof. rewrite <- eq_same. destruct (eq_ a b); intuition discriminate. Qed.
Lemma same_sym a b : same a b -> same b a.
Proof. destruct a, b; simpl; congruence. Qed.
Lemma eq_sym_ a b : eq_ a b = eq_ b a.
Proof. destruct a, b; simpl; auto using Z.eqb_sym. Qed.
Lemma memq_member x l : memq x l = true <-> member x l.
Proof.
  induction l; simpl; [intuition discriminate|].
  destruct (eq_ l1 x) eqn:E; [rewrite eq_same in E; tauto|].
  rewrite eq_not_same in E. tauto.
Qed.
Lemma memq_atom x n : memq x (Atom n) = false.
Proof. reflexivity. Qed.
Lemma set_nth_length l : forall n v, length (set_nth l n v) = length l.
Proof. induction l; destruct n; simpl; auto. Qed.
Lemma nth_set_nth_other l : forall i j v, i <> j -> nth i (set_nth l j v) nil_ = nth i l nil_.
Proof. induction l; destruct i, j; simpl; intros; try congruence; auto. Qed.

Lemma picks_iff spec d :
  (listp spec && memq (nth1 d) spec) || eq_ spec error_ || eq_ spec (nth1 d) = true <-> handles spec d.
Proof.
  unfold handles. change (error_type d) with (nth1 d). rewrite !orb_true_iff, andb_true_iff, !eq_same, memq_member.
  split; [tauto|]. intros [H|[H|H]]; auto. left; left. split; auto. destruct spec; [destruct H | reflexivity].
Qed.

Section World.
  Variable world : Type.
  Variable ext : nat -> list val -> world -> outcome * world.
  Notation eval := (eval world ext).
  Notation eval_list := (eval_list world ext).
  Notation eval_handlers := (eval_handlers world ext).
  Notation runs := (runs world ext).
  Notation runs_list := (runs_list world ext).

  Lemma ev_quote names v s : eval names (Quote v) s = (Ret v, s). Proof. reflexivity. Qed.
  Lemma ev_var names x s :
    eval names (Var x) s = (Ret (match index x names with Some i => nth i (fst s) nil_ | None => nil_ end), s).
  Proof. reflexivity. Qed.
  Lemma ev_set names x e s :
    eval names (Set_ x e) s =
    match eval names e s with
    | (Ret v, s) => (Ret v, match index x names with Some i => (set_nth (fst s) i v, snd s) | None => s end)
    | r => r
    end.
  Proof. reflexivity. Qed.
  Lemma ev_let names x e body s :
    eval names (Let x e body) s =
    match eval names e s with (Ret v, s) => with_binding world v (eval (x :: names) body) s | r => r end.
  Proof. reflexivity. Qed.
  Lemma ev_progn names a b s :
    eval names (Progn a b) s = match eval names a s with (Ret _, s) => eval names b s | r => r end.
  Proof. reflexivity. Qed.
  Lemma ev_if names c a b s :
    eval names (If c a b) s =
    match eval names c s with (Ret v, s) => if nilp v then eval names b s else eval names a s | r => r end.
  Proof. reflexivity. Qed.
  Lemma ev_call names f args s :
    eval names (Call f args) s =
    match eval_list names args s with
    | (inl vs, s) => let '(o, w) := ext f vs (snd s) in (o, (fst s, w))
    | (inr x, s) => (Exit x, s)
    end.
  Proof. reflexivity. Qed.
  Lemma ev_throw names tag value s :
    eval names (Throw tag value) s =
    match eval names tag s with
    | (Ret t, s) => match eval names value s with (Ret v, s) => (Exit (t, v), s) | r => r end
    | r => r
    end.
  Proof. reflexivity. Qed.
  Lemma ev_catch names tag body s :
    eval names (Catch tag body) s =
    match eval names tag s with (Ret t, s) => call_with_catch world t (eval names body) s | r => r end.
  Proof. reflexivity. Qed.
  Lemma ev_unwind names body cleanup s :
    eval names (Unwind body cleanup) s = call_with_unwind_protect world (eval names body) (eval names cleanup) s.
  Proof. reflexivity. Qed.
  Lemma ev_cond names x body hs s :
    eval names (Cond x body hs) s = call_with_error_handlers world (eval names body) (eval_handlers names x hs) s.
  Proof. reflexivity. Qed.
  Lemma ev_fnil names s : eval_list names FNil s = (inl [], s). Proof. reflexivity. Qed.
  Lemma ev_fcons names e l s :
    eval_list names (FCons e l) s =
    match eval names e s with
    | (Ret v, s) => match eval_list names l s with (inl vs, s) => (inl (v :: vs), s) | r => r end
    | (Exit x, s) => (inr x, s)
    end.
  Proof. reflexivity. Qed.
  Lemma ev_hnil names x : eval_handlers names x HNil = []. Proof. reflexivity. Qed.
  Lemma ev_hcons names x spec body hs :
    eval_handlers names x (HCons spec body hs) =
    (spec, fun d => with_binding world d (eval (x :: names) body)) :: eval_handlers names x hs.
  Proof. reflexivity. Qed.
  Hint Rewrite ev_quote ev_var ev_set ev_let ev_progn ev_if ev_call ev_throw ev_catch ev_unwind ev_cond
    ev_fnil ev_fcons ev_hnil ev_hcons : ev.

  (** * Evaluation keeps the number of variables, and those that are not set *)
  Definition keeps (p : nat) (env env' : list val) : Prop := nth p env' nil_ = nth p env nil_.
  Definition good_thunk (t : thunk world) : Prop := forall s o s', t s = (o, s') -> length (fst s') = length (fst s).
  Definition good_handlers (l : list (val * (val -> thunk world))) : Prop :=
    Forall (fun h => forall d, good_thunk (snd h d)) l.

  Lemma binding_good v t : good_thunk t -> good_thunk (with_binding world v t).
  Proof.
    intros H s o s'. unfold with_binding. destruct (t (v :: fst s, snd s)) as [o1 [env w]] eqn:E.
    intros [= <- <-]. apply H in E. simpl in *. destruct env; simpl in *; lia.
  Qed.
  Lemma pick_good type x l : good_handlers l -> good_thunk (pick world type x l).
  Proof.
    induction 1 as [|[h f] l Hf _ IH]; intros s o s'; simpl.
    - intros [= <- <-]; auto.
    - destruct (_ || _); eauto. apply Hf.
  Qed.
  Lemma length_all :
    (forall e names, good_thunk (eval names e)) /\
    (forall l names s r s', eval_list names l s = (r, s') -> length (fst s') = length (fst s)) /\
    (forall hs names x, good_handlers (eval_handlers names x hs)).
  Proof.
    apply forms_ind_all; unfold good_thunk; intros; autorewrite with ev in *.
    - congruence.
    - congruence.
    - destruct (eval names e s) as [[v|ex] s1] eqn:E; injection H0 as <- <-; apply H in E; auto.
      destruct (index x names); simpl; rewrite ?set_nth_length; auto.
    - destruct (eval names e s) as [[v|ex] s1] eqn:E; [|injection H1 as <- <-; eauto].
      apply (binding_good _ _ (H0 _)) in H1. apply H in E. congruence.
    - destruct (eval names a s) as [[v|ex] s1] eqn:E; [|injection H1 as <- <-; eauto].
      apply H0 in H1. apply H in E. congruence.
    - destruct (eval names c s) as [[v|ex] s1] eqn:E; [|injection H2 as <- <-; eauto].
      apply H in E. destruct (nilp v); [apply H1 in H2 | apply H0 in H2]; congruence.
    - destruct (eval_list names args s) as [[vs|ex] s1] eqn:E; apply H in E.
      + destruct (ext f vs (snd s1)) as [o1 w1] eqn:X. injection H0 as <- <-. auto.
      + injection H0 as <- <-. auto.
    - destruct (eval names tag s) as [[v|ex] s1] eqn:E; apply H in E; [|injection H1 as <- <-; auto].
      destruct (eval names value s1) as [[v'|ex] s2] eqn:E'; apply H0 in E'; injection H1 as <- <-; congruence.
    - destruct (eval names tag s) as [[v|ex] s1] eqn:E; apply H in E; [|injection H1 as <- <-; auto].
      unfold call_with_catch, call_with_exception_handler, raise_exception in H1.
      destruct (eval names body s1) as [[v'|ex] s2] eqn:E'; apply H0 in E'; [injection H1 as <- <-; congruence|].
      destruct (eq_ _ _); injection H1 as <- <-; congruence.
    - unfold call_with_unwind_protect, raise_exception in H1.
      destruct (eval names body s) as [[v'|ex] s2] eqn:E'; apply H in E';
        destruct (eval names cleanup s2) as [[v''|ex'] s3] eqn:E''; apply H0 in E''; injection H1 as <- <-; congruence.
    - unfold call_with_error_handlers, call_with_exception_handler, raise_exception in H1.
      destruct (eval names body s) as [[v'|ex] s2] eqn:E'; apply H in E'; [injection H1 as <- <-; auto|].
      destruct (negb _); [injection H1 as <- <-; auto|].
      apply (pick_good _ _ _ (H0 names x)) in H1. congruence.
    - congruence.
    - destruct (eval names e s) as [[v|ex] s1] eqn:E; apply H in E; [|injection H1 as <- <-; auto].
      destruct (eval_list names l s1) as [[vs|ex] s2] eqn:E'; apply H0 in E'; injection H1 as <- <-; congruence.
    - constructor.
    - constructor; [|apply H0]. intro d. apply binding_good. intros ? ? ?; apply H.
  Qed.
  Lemma eval_length names e s o s' : eval names e s = (o, s') -> length (fst s') = length (fst s).
  Proof. apply (proj1 length_all). Qed.

  (** * The interpreter runs forms as the semantics says *)
  Lemma binding_cons names e v env w o env' w' :
    with_binding world v (eval names e) (env, w) = (o, (env', w')) ->
    exists v', eval names e (v :: env, w) = (o, (v' :: env', w')).
  Proof.
    unfold with_binding. simpl. destruct (eval names e (v :: env, w)) as [o1 [env1 w1]] eqn:E.
    intros [= <- <- <-]. apply eval_length in E as L. simpl in L. destruct env1 as [|v' env1]; [discriminate|].
    exists v'. auto.
  Qed.
  Lemma binding_of names e v env w o v' env' w' :
    eval names e (v :: env, w) = (o, (v' :: env', w')) -> with_binding world v (eval names e) (env, w) = (o, (env', w')).
  Proof. unfold with_binding. simpl. intros ->. reflexivity. Qed.

  (** What pick does *)
  Lemma pick_spec names x ex hs s :
    (unhandled hs (snd ex) /\ pick world (nth1 (snd ex)) ex (eval_handlers names x hs) s = (Exit ex, s)) \/
    (exists h, first_handler hs (snd ex) h /\
       pick world (nth1 (snd ex)) ex (eval_handlers names x hs) s = with_binding world (snd ex) (eval (x :: names) h) s).
  Proof.
    induction hs as [|spec body hs IH]; [left; split; [constructor | reflexivity]|].
    rewrite ev_hcons. cbn [pick].
    destruct ((listp spec && memq (nth1 (snd ex)) spec) || eq_ spec error_ || eq_ spec (nth1 (snd ex))) eqn:E.
    - right. exists body. split; [|reflexivity]. exists [], spec, (handler_list hs).
      split; [reflexivity|]. split; [apply picks_iff; exact E | constructor].
    - assert (N : ~ handles spec (snd ex)) by (rewrite <- picks_iff; congruence).
      destruct IH as [[U P]|(h & (be & sp & af & L & Hh & F) & P)].
      + left. split; [constructor; auto | exact P].
      + right. exists h. split; [|exact P]. exists ((spec, body) :: be), sp, af.
        split; [simpl; rewrite L; reflexivity|]. split; auto.
  Qed.

  Lemma first_handler_not_unhandled hs d h : first_handler hs d h -> unhandled hs d -> False.
  Proof.
    intros (be & sp & af & L & H & _) U. unfold unhandled in U. rewrite L in U.
    apply Forall_app in U as [_ U]. inversion U; subst. auto.
  Qed.
  Lemma first_unique {A} (P : A -> Prop) (l l' : list A) a a' r r' :
    l ++ a :: r = l' ++ a' :: r' -> P a -> P a' -> Forall (fun x => ~ P x) l -> Forall (fun x => ~ P x) l' -> a = a'.
  Proof.
    revert l'. induction l as [|y l IH]; intros [|y' l'] E Pa Pa' F F'; simpl in E; injection E as E1 E2; subst; auto.
    - inversion F'; contradiction.
    - inversion F; contradiction.
    - inversion F; inversion F'; subst. eapply IH; eauto.
  Qed.
  Lemma first_handler_unique hs d h h' : first_handler hs d h -> first_handler hs d h' -> h = h'.
  Proof.
    intros (be & sp & af & L & H & F) (be' & sp' & af' & L' & H' & F'). rewrite L in L'.
    eapply (first_unique (fun p => handles (fst p) d)) in L'; simpl; eauto. congruence.
  Qed.

  Lemma sound_all :
    (forall e names s o s', eval names e s = (o, s') -> runs names e s o s') /\
    (forall l names s r s', eval_list names l s = (r, s') -> runs_list names l s r s') /\
    (forall hs spec h, In (spec, h) (handler_list hs) -> forall names s o s', eval names h s = (o, s') -> runs names h s o s').
  Proof.
    apply forms_ind_all; intros; autorewrite with ev in *.
    - injection H as <- <-. constructor.
    - injection H as <- <-. destruct (index x names) eqn:E; [apply R_var | apply R_unbound]; auto.
    - destruct (eval names e s) as [[v|ex] [env w]] eqn:E; injection H0 as <- <-; apply H in E; [|constructor; auto].
      destruct (index x names) eqn:I; [eapply R_set | eapply R_set_unbound]; eauto.
    - destruct (eval names e s) as [[v|ex] [env w]] eqn:E; [|injection H1 as <- <-; apply R_let_exit; auto].
      destruct s' as [env' w']. apply binding_cons in H1 as [v' H1]. eapply R_let; eauto.
    - destruct (eval names a s) as [[v|ex] s1] eqn:E; [|injection H1 as <- <-; apply R_progn_exit; auto].
      eapply R_progn; eauto.
    - destruct (eval names c s) as [[v|ex] s1] eqn:E; [|injection H2 as <- <-; apply R_if_exit; auto].
      unfold nilp in H2. destruct (eq_ v nil_) eqn:N.
      + eapply R_if_false; eauto. apply eq_same; auto.
      + eapply R_if_true; eauto. apply eq_not_same; auto.
    - destruct (eval_list names args s) as [[vs|ex] [env w]] eqn:E; apply H in E.
      + destruct (ext f vs (snd (env, w))) as [o1 w1] eqn:X. injection H0 as <- <-. simpl in *. eapply R_call; eauto.
      + injection H0 as <- <-. apply R_call_exit; auto.
    - destruct (eval names tag s) as [[v|ex] s1] eqn:E; apply H in E; [|injection H1 as <- <-; apply R_throw_tag; auto].
      destruct (eval names value s1) as [[v'|ex] s2] eqn:E'; apply H0 in E'; injection H1 as <- <-;
        [eapply R_throw | eapply R_throw_value]; eauto.
    - destruct (eval names tag s) as [[v|ex] s1] eqn:E; apply H in E; [|injection H1 as <- <-; apply R_catch_tag; auto].
      unfold call_with_catch, call_with_exception_handler, raise_exception in H1.
      destruct (eval names body s1) as [[v'|[t' d]] s2] eqn:E'; apply H0 in E';
        [injection H1 as <- <-; eapply R_catch_normal; eauto|]. simpl in H1.
      destruct (eq_ t' v) eqn:T; injection H1 as <- <-.
      + eapply R_catch_caught; eauto. apply eq_same; auto.
      + eapply R_catch_passes; eauto. apply eq_not_same; auto.
    - unfold call_with_unwind_protect, raise_exception in H1.
      destruct (eval names body s) as [[v'|ex] s2] eqn:E'; apply H in E';
        destruct (eval names cleanup s2) as [[v''|ex'] s3] eqn:E''; apply H0 in E''; injection H1 as <- <-;
        first [eapply R_unwind; eassumption | eapply R_unwind_exit; eassumption].
    - unfold call_with_error_handlers, call_with_exception_handler, raise_exception in H1.
      destruct (eval names body s) as [[v'|[t d]] s2] eqn:E'; apply H in E'; [injection H1 as <- <-; apply R_cond_normal; auto|].
      simpl in H1. destruct (eq_ t error_) eqn:T; simpl in H1.
      + rewrite eq_same in T. destruct (pick_spec names x (t, d) hs s2) as [[U P]|(h & F & P)]; simpl in P; rewrite P in H1.
        * injection H1 as <- <-. apply R_cond_unhandled; auto.
        * destruct s2 as [env w], s' as [env' w']. apply binding_cons in H1 as [d' H1].
          eapply R_cond_handled; eauto. destruct F as (be & sp & af & L & _).
          eapply (H0 sp h); eauto. rewrite L. apply in_or_app; right; left; auto.
      + injection H1 as <- <-. apply R_cond_throw; auto. apply eq_not_same; auto.
    - injection H as <- <-. constructor.
    - destruct (eval names e s) as [[v|ex] s1] eqn:E; apply H in E; [|injection H1 as <- <-; apply L_first; auto].
      destruct (eval_list names l s1) as [[vs|ex] s2] eqn:E'; apply H0 in E'; injection H1 as <- <-;
        [eapply L_cons | eapply L_rest]; eauto.
    - destruct H.
    - destruct H1 as [[= <- <-]|H1]; [auto | eapply H0; eauto].
  Qed.
  Lemma eval_runs names e s o s' : eval names e s = (o, s') -> runs names e s o s'.
  Proof. apply (proj1 sound_all). Qed.

  Scheme runs_mut := Induction for Control_Spec.runs Sort Prop
    with runs_list_mut := Induction for Control_Spec.runs_list Sort Prop.
  Combined Scheme runs_ind_all from runs_mut, runs_list_mut.

  Ltac rw := repeat match goal with H : Control_Model.eval _ _ _ _ _ = _ |- _ => rewrite H end.
  Lemma complete_all :
    (forall names e s o s', runs names e s o s' -> eval names e s = (o, s')) /\
    (forall names l s r s', runs_list names l s r s' -> eval_list names l s = (r, s')).
  Proof.
    apply (runs_ind_all world ext (fun names e s o s' _ => eval names e s = (o, s'))
             (fun names l s r s' _ => eval_list names l s = (r, s')));
      intros; autorewrite with ev;
      unfold call_with_catch, call_with_unwind_protect, call_with_error_handlers, call_with_exception_handler, raise_exception;
      try (rewrite H); try (rewrite H0); try (rewrite H1); auto.
    all: repeat match goal with
      | H : index _ _ = _ |- _ => rewrite H
      | H : ext _ _ _ = _ |- _ => simpl; rewrite H
      | H : same ?a ?b |- context [eq_ ?a ?b] => rewrite (proj2 (eq_same a b) H)
      | H : ~ same ?a ?b |- context [eq_ ?a ?b] => rewrite (proj2 (eq_not_same a b) H)
      | H : ~ same ?a nil_ |- context [nilp ?a] => unfold nilp
      | H : same ?a nil_ |- context [nilp ?a] => unfold nilp
      | _ => progress cbn [fst snd negb]
      end; auto.
    - eapply binding_of; eauto.
    - destruct o; rewrite H0; auto.
    - destruct o; rewrite H0; auto.
    - destruct (pick_spec names x (t, d) hs s1) as [[U P]|(h & F & P)]; simpl in P; auto.
      destruct (first_handler_not_unhandled _ _ _ F u).
    - destruct (pick_spec names x (t, d) hs (env, w)) as [[U P]|(h' & F & P)]; simpl in P; auto.
      + destruct (first_handler_not_unhandled _ _ _ f U).
      + rewrite P. rewrite (first_handler_unique _ _ _ _ F f). eapply binding_of; eauto.
  Qed.
  Lemma runs_eval names e s o s' : runs names e s o s' <-> eval names e s = (o, s').
  Proof. split; [apply (proj1 complete_all) | apply eval_runs]. Qed.

  (** * Unwinding *)
  Lemma put_exit names k e s x s1 :
    runs names e s (Exit x) s1 -> lets_through x k -> (forall c, k <> In_unwind c) -> runs names (put k e) s (Exit x) s1.
  Proof.
    destruct k; simpl; intros R L N; destruct x as [t0 d0].
    - eapply R_catch_passes; eauto. constructor.
    - destruct (N cleanup); auto.
    - destruct (eq_ t0 error_) eqn:E.
      + apply R_cond_unhandled; auto. apply eq_same; auto. apply L, eq_same; auto.
      + apply R_cond_throw; auto. apply eq_not_same; auto.
    - apply R_set_exit; auto.
    - apply R_progn_exit; auto.
    - apply R_if_exit; auto.
    - apply R_throw_tag; auto.
    - apply R_let_exit; auto.
    - apply R_call_exit, L_first; auto.
  Qed.
  Lemma within_exit names ks : forall e s x s1 s2,
    runs names e s (Exit x) s1 -> Forall (lets_through x) ks -> cleanups world ext names ks s1 s2 ->
    runs names (within ks e) s (Exit x) s2.
  Proof.
    induction ks as [|k ks IH]; intros e s x s1 s2 R F C; inversion F; subst; inversion C; subst; simpl; auto.
    - eapply IH; eauto. simpl. eapply R_unwind; eauto.
    - eapply IH; eauto. apply put_exit; auto.
  Qed.
End World.
