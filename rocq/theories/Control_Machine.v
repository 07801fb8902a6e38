From Coq Require Import List ZArith Bool Lia PeanoNat.
Import ListNotations.
From Verif Require Import Control_Model Control_Spec Control_Proofs.
Open Scope Z_scope.

(** * The code of each form *)
Lemma co_let names b x e body :
  compile names b (Let x e body) =
  compile names b e ++ [INIT_BIND; BIND] ++ compile (x :: names) (b + length (compile names b e) + 2) body ++ [UNBIND].
Proof. reflexivity. Qed.
Lemma co_set names b x e :
  compile names b (Set_ x e) = compile names b e ++ [DUP; match index x names with Some i => SETN i | None => POP end].
Proof. reflexivity. Qed.
Lemma co_progn names b x y :
  compile names b (Progn x y) = compile names b x ++ [POP] ++ compile names (b + length (compile names b x) + 1) y.
Proof. reflexivity. Qed.
Definition if_code names b c x y : list insn :=
  let cc := compile names b c in
  let cx := compile names (b + length cc + 1) x in
  let els := (b + length cc + 1 + length cx + 1)%nat in
  let cy := compile names els y in
  cc ++ [JN els] ++ cx ++ [JMP (els + length cy)] ++ cy.
Lemma co_if names b c x y :
  (exists v, c = Quote v /\ compile names b (If c x y) = if nilp v then compile names b y else compile names b x) \/
  ((forall v, c <> Quote v) /\ compile names b (If c x y) = if_code names b c x y).
Proof. destruct c; try (right; split; [congruence | reflexivity]). left. eexists; split; reflexivity. Qed.
Lemma co_call names b f args : compile names b (Call f args) = compile_list names b args ++ [CALL f (count args)].
Proof. reflexivity. Qed.
Lemma co_throw names b tag value :
  compile names b (Throw tag value) =
  compile names b tag ++ compile names (b + length (compile names b tag)) value ++ [THROW].
Proof. reflexivity. Qed.
Definition catch_code names b tag body : list insn :=
  let t := compile names (b + 1) tag in
  let start := (b + 1 + length t + 2)%nat in
  let c := compile names (start + 2) body in
  let end_ := (start + 2 + length c + 1)%nat in
  [JMP start] ++ t ++ [CATCH; EJMP end_] ++ [PUSH_LABEL (b + 1); BINDERR] ++ c ++ [UNBIND].
Lemma co_catch names b tag body : compile names b (Catch tag body) = catch_code names b tag body.
Proof. reflexivity. Qed.
Definition unwind_code names b body cleanup : list insn :=
  let p := compile names (b + 1) cleanup in
  let start := (b + 1 + length p + 2)%nat in
  let c := compile names (start + 2) body in
  let end_ := (start + 2 + length c + 3)%nat in
  [JMP start] ++ p ++ [POP; EJMP end_] ++ [PUSH_LABEL (b + 1); BINDERR] ++ c ++ [UNBIND; PUSH nil_; JMP (b + 1)].
Lemma co_unwind names b body cleanup : compile names b (Unwind body cleanup) = unwind_code names b body cleanup.
Proof. reflexivity. Qed.
Definition cond_code names b x body hs : list insn :=
  let start := (b + 1 + handlers_length names x hs)%nat in
  let c := compile names (start + 2) body in
  let end_ := (start + 2 + length c)%nat in
  [JMP start] ++ compile_handlers names x (b + 1) end_ hs ++ [PUSH_LABEL (b + 1); BINDERR] ++ c ++ [UNBIND].
Lemma co_cond names b x body hs : compile names b (Cond x body hs) = cond_code names b x body hs.
Proof. reflexivity. Qed.
Lemma co_fcons names b e l :
  compile_list names b (FCons e l) = compile names b e ++ compile_list names (b + length (compile names b e)) l.
Proof. reflexivity. Qed.
Definition handler_code names x b end_ spec body (hs : handlers) : list insn :=
  let c := compile (x :: names) (b + 3) body in
  let next := (b + 3 + length c + 1)%nat in
  match hs with
  | HNil => [PUSH spec; ERRORPRO; EJMP (b + 3)] ++ c ++ [JMP end_]
  | HCons _ _ _ => [PUSH spec; ERRORPRO; JTP next] ++ c ++ [JMP end_] ++ compile_handlers names x next end_ hs
  end.
Lemma co_hcons names x b end_ spec body hs :
  compile_handlers names x b end_ (HCons spec body hs) = handler_code names x b end_ spec body hs.
Proof. destruct hs; reflexivity. Qed.
Lemma co_hlen names x spec body hs :
  handlers_length names x (HCons spec body hs) =
  (3 + length (compile (x :: names) 0 body) + 1 + handlers_length names x hs)%nat.
Proof. reflexivity. Qed.

(** * Lengths do not depend on the address *)
Lemma lengths_all :
  (forall e names b b', length (compile names b e) = length (compile names b' e)) /\
  (forall l names b b', length (compile_list names b l) = length (compile_list names b' l)) /\
  (forall hs names x b end_, length (compile_handlers names x b end_ hs) = handlers_length names x hs).
Proof.
  apply forms_ind_all; intros; auto.
  - rewrite !co_set, !app_length, (H names b b'). reflexivity.
  - rewrite !co_let, !app_length, (H names b b'), (H0 (x :: names) _ (b' + length (compile names b' e) + 2)%nat). reflexivity.
  - rewrite !co_progn, !app_length, (H names b0 b'), (H0 names _ (b' + length (compile names b' a) + 1)%nat). reflexivity.
  - destruct (co_if names b0 c a b) as [(v & -> & ->)|(N & ->)].
    + cbn [compile]. destruct (nilp v); [apply H1 | apply H0].
    + destruct (co_if names b' c a b) as [(v & E & _)|(_ & ->)]; [destruct (N v E)|].
      unfold if_code. cbv zeta. rewrite !app_length. cbn [length].
      rewrite (H names b0 b'), (H0 names _ (b' + length (compile names b' c) + 1)%nat),
        (H1 names _ (b' + length (compile names b' c) + 1 + length (compile names (b' + length (compile names b' c) + 1) a) + 1)%nat).
      reflexivity.
  - rewrite !co_call, !app_length, (H names b b'). reflexivity.
  - rewrite !co_throw, !app_length, (H names b b'), (H0 names _ (b' + length (compile names b' tag))%nat). reflexivity.
  - rewrite !co_catch. unfold catch_code. cbv zeta. rewrite !app_length. cbn [length].
    rewrite (H names (b + 1)%nat (b' + 1)%nat), (H0 names _ (b' + 1 + length (compile names (b' + 1) tag) + 2 + 2)%nat). reflexivity.
  - rewrite !co_unwind. unfold unwind_code. cbv zeta. rewrite !app_length. cbn [length].
    rewrite (H0 names (b + 1)%nat (b' + 1)%nat), (H names _ (b' + 1 + length (compile names (b' + 1) cleanup) + 2 + 2)%nat). reflexivity.
  - rewrite !co_cond. unfold cond_code. cbv zeta. rewrite !app_length, !H0. cbn [length].
    rewrite (H names _ (b' + 1 + handlers_length names x hs + 2)%nat). reflexivity.
  - rewrite !co_fcons, !app_length, (H names b b'), (H0 names _ (b' + length (compile names b' e))%nat). reflexivity.
  - rewrite co_hcons, co_hlen. unfold handler_code. cbv zeta.
    rewrite (H (x :: names) 0%nat (b + 3)%nat).
    destruct hs; rewrite !app_length, ?H0; cbn [length]; [|lia]. cbn [handlers_length]. lia.
Qed.
Lemma handlers_len names x b end_ hs : length (compile_handlers names x b end_ hs) = handlers_length names x hs.
Proof. apply lengths_all. Qed.

(** * Where code is *)
Definition at_ (code : list insn) (b : nat) (c : list insn) : Prop :=
  exists pre post, code = pre ++ c ++ post /\ length pre = b.
Lemma at_app code b c1 c2 : at_ code b (c1 ++ c2) -> at_ code b c1 /\ at_ code (b + length c1) c2.
Proof.
  intros (pre & post & E & L). split.
  - exists pre, (c2 ++ post). rewrite E, <- app_assoc. auto.
  - exists (pre ++ c1), post. rewrite app_length, E, L, <- !app_assoc. auto.
Qed.
Lemma at_cons code b i c : at_ code b (i :: c) -> nth_error code b = Some i /\ at_ code (S b) c.
Proof.
  intros (pre & post & E & L). split.
  - rewrite E, nth_error_app2 by lia. replace (b - length pre)%nat with O by lia. reflexivity.
  - exists (pre ++ [i]), post. rewrite app_length, <- app_assoc. simpl. split; [exact E | lia].
Qed.
Lemma at_eq code b b' c : at_ code b c -> b = b' -> at_ code b' c.
Proof. congruence. Qed.
Lemma nth_eq (code : list insn) b b' i : nth_error code b = Some i -> b = b' -> nth_error code b' = Some i.
Proof. congruence. Qed.

Lemma cut_app n (j s : list sitem) : length s = n -> cut n (j ++ s) = s.
Proof.
  intros <-. unfold cut. rewrite app_length. replace (length j + length s - length s)%nat with (length j) by lia.
  rewrite skipn_app, skipn_all, Nat.sub_diag. reflexivity.
Qed.
Lemma index_nth x names : forall i, index x names = Some i -> nth_error names i = Some x.
Proof.
  induction names as [|y names IH]; simpl; intros i; [discriminate|].
  destruct (Nat.eqb x y) eqn:E; [intros [= <-]; apply Nat.eqb_eq in E; subst; reflexivity|].
  destruct (index x names); [|discriminate]. intros [= <-]. simpl. auto.
Qed.
Lemma nth_tl (l : list val) p : nth p (tl l) nil_ = nth (S p) l nil_.
Proof. destruct l; [destruct p|]; reflexivity. Qed.

Section World.
  Variable world : Type.
  Variable ext : nat -> list val -> world -> outcome * world.
  Notation eval := (eval world ext).
  Notation eval_list := (eval_list world ext).
  Notation eval_handlers := (eval_handlers world ext).
  Notation steps := (steps world ext).
  Notation Run := (Run world).
  Notation Error := (Error world).

  Hint Rewrite ev_quote ev_var ev_set ev_let ev_progn ev_if ev_call ev_throw ev_catch ev_unwind ev_cond
    ev_fnil ev_fcons ev_hnil ev_hcons : ev.

  (** * A variable that is not set keeps its value *)
  Definition keeps (p : nat) (t : thunk world) : Prop :=
    forall s o s', t s = (o, s') -> nth p (fst s') nil_ = nth p (fst s) nil_.
  Lemma binding_keeps p v t : keeps (S p) t -> keeps p (with_binding world v t).
  Proof.
    intros H s o s'. unfold with_binding. destruct (t (v :: fst s, snd s)) as [o1 [env w]] eqn:E.
    intros [= <- <-]. apply H in E. cbn [fst] in *. rewrite nth_tl, E. reflexivity.
  Qed.
  Lemma pick_keeps p type x l :
    Forall (fun h => forall d, keeps p (snd h d)) l -> keeps p (pick world type x l).
  Proof.
    induction 1 as [|[h f] l Hf _ IH]; intros s o s'; cbn [pick].
    - intros [= <- <-]; auto.
    - destruct (_ || _); [apply Hf | apply IH].
  Qed.
  Lemma unset_all x :
    (forall e names p, nth_error names p = Some x -> sets x e = false -> keeps p (eval names e)) /\
    (forall l names p, nth_error names p = Some x -> sets_list x l = false ->
       forall s r s', eval_list names l s = (r, s') -> nth p (fst s') nil_ = nth p (fst s) nil_) /\
    (forall hs names p y, nth_error names p = Some x -> sets_handlers x hs = false ->
       Forall (fun h => forall d, keeps p (snd h d)) (eval_handlers names y hs)).
  Proof.
    apply forms_ind_all; unfold keeps; intros; autorewrite with ev in *;
      try match goal with H : sets _ _ = false |- _ => cbn in H; rewrite ?orb_false_iff in H end;
      try match goal with H : sets_list _ _ = false |- _ => cbn in H; rewrite ?orb_false_iff in H end;
      try match goal with H : sets_handlers _ _ = false |- _ => cbn in H; rewrite ?orb_false_iff in H end.
    - congruence.
    - congruence.
    - destruct H1 as [N S1]. specialize (H _ _ H0 S1).
      destruct (eval names e s) as [[v|ex] s1] eqn:E; injection H2 as <- <-; apply H in E; auto.
      destruct (index x0 names) as [i|] eqn:I; auto. cbn [fst]. rewrite nth_set_nth_other; auto.
      intros ->. apply index_nth in I. rewrite H0 in I. injection I as ->. rewrite Nat.eqb_refl in N. discriminate.
    - destruct H2 as [S1 S2]. specialize (H _ _ H1 S1).
      destruct (eval names e s) as [[v|ex] s1] eqn:E; apply H in E; [|injection H3 as <- <-; auto].
      apply (binding_keeps p v _ (H0 (x0 :: names) (S p) H1 S2)) in H3. congruence.
    - destruct H2 as [S1 S2]. specialize (H _ _ H1 S1). specialize (H0 _ _ H1 S2).
      destruct (eval names a s) as [[v|ex] s1] eqn:E; apply H in E; [|injection H3 as <- <-; auto].
      apply H0 in H3. congruence.
    - destruct H3 as [[S1 S2] S3]. specialize (H _ _ H2 S1). specialize (H0 _ _ H2 S2). specialize (H1 _ _ H2 S3).
      destruct (eval names c s) as [[v|ex] s1] eqn:E; apply H in E; [|injection H4 as <- <-; auto].
      destruct (nilp v); [apply H1 in H4 | apply H0 in H4]; congruence.
    - specialize (H _ _ H0 H1).
      destruct (eval_list names args s) as [[vs|ex] s1] eqn:E; apply H in E; [|injection H2 as <- <-; auto].
      destruct (ext f vs (snd s1)). injection H2 as <- <-. auto.
    - destruct H2 as [S1 S2]. specialize (H _ _ H1 S1). specialize (H0 _ _ H1 S2).
      destruct (eval names tag s) as [[v|ex] s1] eqn:E; apply H in E; [|injection H3 as <- <-; auto].
      destruct (eval names value s1) as [[v'|ex] s2] eqn:E'; apply H0 in E'; injection H3 as <- <-; congruence.
    - destruct H2 as [S1 S2]. specialize (H _ _ H1 S1). specialize (H0 _ _ H1 S2).
      destruct (eval names tag s) as [[v|ex] s1] eqn:E; apply H in E; [|injection H3 as <- <-; auto].
      unfold call_with_catch, call_with_exception_handler, raise_exception in H3.
      destruct (eval names body s1) as [[v'|ex] s2] eqn:E'; apply H0 in E'; [injection H3 as <- <-; congruence|].
      destruct (eq_ _ _); injection H3 as <- <-; congruence.
    - destruct H2 as [S1 S2]. specialize (H _ _ H1 S1). specialize (H0 _ _ H1 S2).
      unfold call_with_unwind_protect, raise_exception in H3.
      destruct (eval names body s) as [[v'|ex] s2] eqn:E'; apply H in E';
        destruct (eval names cleanup s2) as [[v''|ex'] s3] eqn:E''; apply H0 in E''; injection H3 as <- <-; congruence.
    - destruct H2 as [S1 S2]. specialize (H _ _ H1 S1). specialize (H0 _ _ x0 H1 S2).
      unfold call_with_error_handlers, call_with_exception_handler, raise_exception in H3.
      destruct (eval names body s) as [[v'|ex] s2] eqn:E'; apply H in E'; [injection H3 as <- <-; auto|].
      destruct (negb _); [injection H3 as <- <-; auto|].
      apply (pick_keeps p _ _ _ H0) in H3. congruence.
    - congruence.
    - destruct H2 as [S1 S2]. specialize (H _ _ H1 S1). specialize (H0 _ _ H1 S2).
      destruct (eval names e s) as [[v|ex] s1] eqn:E; apply H in E; [|injection H3 as <- <-; auto].
      destruct (eval_list names l s1) as [[vs|ex] s2] eqn:E'; apply H0 in E'; injection H3 as <- <-; congruence.
    - constructor.
    - destruct H2 as [S1 S2]. constructor; [|apply H0; auto]. intro d. apply binding_keeps. exact (H (y :: names) (S p) H1 S1).
  Qed.

  (** * Steps *)
  Lemma steps_trans code a b c : steps code a b -> steps code b c -> steps code a c.
  Proof. induction 1; auto. intros. econstructor; eauto. Qed.
  Lemma steps_one code a b : step world ext code a = Some b -> steps code a b.
  Proof. intros. econstructor; [eassumption | constructor]. Qed.

  (** What a stretch of code must do, given what the interpreter does *)
  Definition reaches (code : list insn) (b e : nat) (st : list sitem) (bs : list bitem) (s : state world) (r : outcome * state world) : Prop :=
    match r with
    | (Ret v, s') => steps code (Run b st bs s) (Run e (V v :: st) bs s')
    | (Exit x, s') => exists j, steps code (Run b st bs s) (Error x (j ++ st) bs s')
    end.
  Definition sim (names : list nat) (e : form) : Prop :=
    forall code b, at_ code b (compile names b e) -> forall st bs s,
      reaches code b (b + length (compile names b e)) st bs s (eval names e s).

  (** Exceptions that the code may raise are proper *)
  Definition raises_proper (t : thunk world) : Prop := forall s x s', t s = (Exit x, s') -> proper x.
  Lemma binding_proper v t : raises_proper t -> raises_proper (with_binding world v t).
  Proof.
    intros H s x s'. unfold with_binding. destruct (t (v :: fst s, snd s)) as [o1 [env w]] eqn:E.
    intros [= -> <-]. eauto.
  Qed.
  Lemma pick_proper type x l :
    proper x -> Forall (fun h => forall d, raises_proper (snd h d)) l -> raises_proper (pick world type x l).
  Proof.
    intros Px. induction 1 as [|[h f] l Hf _ IH]; intros s y s'; cbn [pick].
    - intros [= <- <-]; auto.
    - destruct (_ || _); [apply Hf | apply IH].
  Qed.
  Hypothesis FP : functions_proper world ext.
  Lemma proper_all :
    (forall e, plain e -> forall names, raises_proper (eval names e)) /\
    (forall l, plain_list l -> forall names s x s', eval_list names l s = (inr x, s') -> proper x) /\
    (forall hs, plain_handlers hs -> forall names y, Forall (fun h => forall d, raises_proper (snd h d)) (eval_handlers names y hs)).
  Proof.
    apply forms_ind_all; unfold raises_proper; intros; autorewrite with ev in *;
      try match goal with H : plain _ |- _ => cbn in H end;
      try match goal with H : plain_list _ |- _ => cbn in H end;
      try match goal with H : plain_handlers _ |- _ => cbn in H end.
    - congruence.
    - congruence.
    - destruct (eval names e s) as [[v|ex] s1] eqn:E; [discriminate|]. injection H1 as <- <-. eauto.
    - destruct H1 as [P1 P2]. destruct (eval names e s) as [[v|ex] s1] eqn:E; [|injection H2 as <- <-; eauto].
      eapply binding_proper in H2; eauto. intros ? ? ?; apply H0; auto.
    - destruct H1 as [P1 P2]. destruct (eval names a s) as [[v|ex] s1] eqn:E; [|injection H2 as <- <-; eauto]. eauto.
    - destruct H2 as (P1 & P2 & P3). destruct (eval names c s) as [[v|ex] s1] eqn:E; [|injection H3 as <- <-; eauto].
      destruct (nilp v); eauto.
    - destruct (eval_list names args s) as [[vs|ex] s1] eqn:E; [|injection H1 as <- <-; eauto].
      destruct (ext f vs (snd s1)) as [o w] eqn:X. injection H1 as -> <-. eapply FP; eauto.
    - destruct H1 as [P1 P2]. destruct tag; try contradiction. rewrite ev_quote in H2.
      destruct (eval names value s) as [[v'|ex] s2] eqn:E'; injection H2 as <- <-; [|eauto].
      intro Q. destruct (P1 Q).
    - destruct H1 as [P1 P2]. destruct (eval names tag s) as [[v|ex] s1] eqn:E.
      + unfold call_with_catch, call_with_exception_handler, raise_exception in H2.
        destruct (eval names body s1) as [[v'|ex] s2] eqn:E'; [discriminate|].
        destruct (eq_ _ _); [discriminate|]. injection H2 as <- <-. eauto.
      + destruct tag; try contradiction; autorewrite with ev in E; discriminate.
    - destruct H1 as [P1 P2]. unfold call_with_unwind_protect, raise_exception in H2.
      destruct (eval names body s) as [[v'|ex] s2] eqn:E';
        destruct (eval names cleanup s2) as [[v''|ex'] s3] eqn:E''; try discriminate; injection H2 as <- <-; eauto.
    - destruct H1 as (P1 & P2 & P3). unfold call_with_error_handlers, call_with_exception_handler, raise_exception in H2.
      destruct (eval names body s) as [[v'|ex] s2] eqn:E'; [discriminate|].
      destruct (negb _); [injection H2 as <- <-; eauto|]. eapply pick_proper in H2; eauto.
    - discriminate.
    - destruct H1 as [P1 P2]. destruct (eval names e s) as [[v|ex] s1] eqn:E; [|injection H2 as <- <-; eauto].
      destruct (eval_list names l s1) as [[vs|ex] s2] eqn:E'; [discriminate|]. injection H2 as <- <-. eauto.
    - constructor.
    - destruct H1 as [P1 P2]. constructor; [|auto]. intro d. apply binding_proper. intros ? ? ?. apply H; auto.
  Qed.

  (** * The tests of the interpreter and of the machine *)
  Lemma tests_agree spec a n d :
    (listp spec && memq (nth1 (Cons a (Atom n) d)) spec) || eq_ spec error_ || eq_ spec (nth1 (Cons a (Atom n) d)) =
    compare_error (Cons a (Atom n) d) spec.
  Proof.
    cbn [nth1 compare_error]. destruct spec as [m|q x y].
    - rewrite memq_atom, andb_false_r. cbn [orb]. rewrite (eq_sym_ (Atom n) (Atom m)). apply orb_comm.
    - cbn [listp eq_ error_ andb]. rewrite !orb_false_r. reflexivity.
  Qed.

  Ltac start := eapply S_step; [cbn [step]; match goal with H : nth_error _ _ = Some _ |- _ => rewrite H end; reflexivity|].
  Ltac go H := eapply steps_trans; [apply steps_one; cbn [step]; rewrite H; reflexivity|].
  Ltac pc e := match goal with |- Control_Spec.steps _ _ _ (Control_Model.Run _ ?p _ _ _) _ => replace p with e by lia end.

  Definition sim_list (names : list nat) (l : forms) : Prop :=
    forall code b, at_ code b (compile_list names b l) -> forall st bs s,
      match eval_list names l s with
      | (inl vs, s') => length vs = count l /\
          steps code (Run b st bs s) (Run (b + length (compile_list names b l)) (rev (map V vs) ++ st) bs s')
      | (inr x, s') => exists j, steps code (Run b st bs s) (Error x (j ++ st) bs s')
      end.
  (** The handlers, entered with the exception x on the stack *)
  Definition sim_handlers (names : list nat) (y : nat) (hs : handlers) : Prop :=
    hs <> HNil -> forall code b end_, at_ code b (compile_handlers names y b end_ hs) -> nth_error code end_ = Some UNBIND ->
    forall x st bs s, proper x ->
      let r := if negb (eq_ (fst x) error_) then (Exit x, s) else pick world (nth1 (snd x)) x (eval_handlers names y hs) s in
      match r with
      | (Ret v, s') => steps code (Run b (X x :: st) bs s) (Run (S end_) (V v :: st) bs s')
      | (Exit z, s') => exists j, steps code (Run b (X x :: st) bs s) (Error z (j ++ st) bs s')
      end.

  Lemma pop_values_rev vs : forall st, pop_values (length vs) (rev (map V vs) ++ st) = Some (vs, st).
  Proof.
    induction vs as [|v vs IH] using rev_ind; intros st; [reflexivity|].
    rewrite app_length, Nat.add_comm, map_app, rev_app_distr. cbn. rewrite IH. reflexivity.
  Qed.

  (** A handler's body, entered in a frame of one variable *)
  Lemma handler_body names y body code c end_ (x : exn) st bs s :
    sim (y :: names) body -> at_ code c (compile (y :: names) c body) ->
    nth_error code (c + length (compile (y :: names) c body)) = Some (JMP end_) -> nth_error code end_ = Some UNBIND ->
    match with_binding world (snd x) (eval (y :: names) body) s with
    | (Ret v, s') => steps code (Run c st (Frame 1 :: bs) (snd x :: fst s, snd s)) (Run (S end_) (V v :: st) bs s')
    | (Exit z, s') => exists j, steps code (Run c st (Frame 1 :: bs) (snd x :: fst s, snd s)) (Error z (j ++ st) bs s')
    end.
  Proof.
    intros S1 A J U. unfold with_binding. specialize (S1 code c A st (Frame 1 :: bs) (snd x :: fst s, snd s)).
    unfold reaches in S1. destruct (eval (y :: names) body (snd x :: fst s, snd s)) as [[v|z] [env w]].
    - eapply steps_trans; [exact S1|]. go J. go U. destruct env; constructor.
    - destruct S1 as [j S1]. exists j. eapply steps_trans; [exact S1|]. apply steps_one. cbn [step]. destruct env; reflexivity.
  Qed.

  Lemma sim_all :
    (forall e, plain e -> forall names, sim names e) /\
    (forall l, plain_list l -> forall names, sim_list names l) /\
    (forall hs, plain_handlers hs -> forall names y, sim_handlers names y hs).
  Proof.
    apply forms_ind_all.
    - (* Quote *) intros v _ names code b A st bs s. destruct (at_cons _ _ _ _ A) as [I _].
      rewrite ev_quote. cbn [reaches]. go I. cbn. rewrite Nat.add_1_r. constructor.
    - (* Var *) intros x _ names code b A st bs s. destruct (at_cons _ _ _ _ A) as [I _].
      rewrite ev_var. cbn [reaches compile length] in *. rewrite Nat.add_1_r.
      destruct (index x names); go I; constructor.
    - (* Set *) intros x e IH P names code b A st bs s. rewrite co_set in *. cbn in P. specialize (IH P names).
      apply at_app in A as [A1 A2]. apply at_cons in A2 as [I1 A2]. apply at_cons in A2 as [I2 _].
      specialize (IH code b A1 st bs s). rewrite ev_set, app_length. cbn [length]. unfold reaches in IH.
      destruct (eval names e s) as [[v|ex] s1]; cbn [reaches]; [|exact IH].
      eapply steps_trans; [exact IH|]. go I1.
      destruct (index x names); go I2; pc (b + (length (compile names b e) + 2))%nat; constructor.
    - (* Let *) intros x e IHe body IHb [P1 P2] names code b A st bs s. rewrite co_let in *.
      specialize (IHe P1 names). specialize (IHb P2 (x :: names)).
      apply at_app in A as [A1 A2]. cbn [app] in A2. apply at_cons in A2 as [I1 A2]. apply at_cons in A2 as [I2 A2].
      apply at_app in A2 as [A2 A3]. apply at_cons in A3 as [I3 _].
      specialize (IHe code b A1 st bs s). rewrite ev_let, !app_length. cbn [length]. unfold reaches in IHe.
      destruct (eval names e s) as [[v|ex] s1]; cbn [reaches]; [|exact IHe].
      set (d := (b + length (compile names b e) + 2)%nat) in *.
      apply (at_eq _ _ d) in A2; [|lia].
      specialize (IHb code d A2 st (Frame 1 :: bs) (v :: fst s1, snd s1)). unfold with_binding. unfold reaches in IHb.
      assert (B : steps code (Run b st bs s) (Run d st (Frame 1 :: bs) (v :: fst s1, snd s1))).
      { eapply steps_trans; [exact IHe|]. go I1. go I2. pc d. constructor. }
      destruct (eval (x :: names) body (v :: fst s1, snd s1)) as [[v'|ex] [env w]]; cbn [reaches].
      + eapply steps_trans; [exact B|]. eapply steps_trans; [exact IHb|].
        apply (nth_eq _ _ (d + length (compile (x :: names) d body))) in I3; [|lia].
        go I3. pc (b + (length (compile names b e) + (2 + (length (compile (x :: names) d body) + 1))))%nat.
        destruct env; constructor.
      + destruct IHb as [j IHb]. exists j. eapply steps_trans; [exact B|]. eapply steps_trans; [exact IHb|].
        apply steps_one. cbn [step]. destruct env; reflexivity.
    - (* Progn *) intros x IHx y IHy [P1 P2] names code b A st bs s. rewrite co_progn in *.
      specialize (IHx P1 names). specialize (IHy P2 names).
      apply at_app in A as [A1 A2]. cbn [app] in A2. apply at_cons in A2 as [I1 A2].
      specialize (IHx code b A1 st bs s). rewrite ev_progn, !app_length. cbn [length]. unfold reaches in IHx.
      destruct (eval names x s) as [[v|ex] s1]; cbn [reaches]; [|exact IHx].
      set (d := (b + length (compile names b x) + 1)%nat) in *. apply (at_eq _ _ d) in A2; [|lia].
      specialize (IHy code d A2 st bs s1). unfold reaches in IHy.
      assert (B : steps code (Run b st bs s) (Run d st bs s1)).
      { eapply steps_trans; [exact IHx|]. go I1. pc d. constructor. }
      destruct (eval names y s1) as [[v'|ex] s2]; cbn [reaches].
      + eapply steps_trans; [exact B|].
        replace (b + (length (compile names b x) + (1 + length (compile names d y))))%nat with (d + length (compile names d y))%nat by lia.
        exact IHy.
      + destruct IHy as [j IHy]. exists j. eapply steps_trans; eauto.
    - (* If *) intros c IHc x IHx y IHy (P1 & P2 & P3) names code b A st bs s.
      specialize (IHc P1 names). specialize (IHx P2 names). specialize (IHy P3 names). rewrite ev_if.
      destruct (co_if names b c x y) as [(v & -> & E)|(N & E)]; rewrite E in *; clear E.
      + rewrite ev_quote. destruct (nilp v); auto.
      + clear N. unfold if_code in *. cbv zeta in *. set (cc := compile names b c) in *.
        set (d := (b + length cc + 1)%nat) in *. set (cx := compile names d x) in *.
        set (f := (d + length cx + 1)%nat) in *. set (cy := compile names f y) in *.
        apply at_app in A as [A1 A2]. cbn [app] in A2. apply at_cons in A2 as [I1 A2].
        apply at_app in A2 as [A2 A3]. cbn [app] in A3. apply at_cons in A3 as [I2 A3].
        apply (at_eq _ _ d) in A2; [|lia]. apply (at_eq _ _ f) in A3; [|lia].
        apply (nth_eq _ _ (d + length cx)) in I2; [|lia].
        specialize (IHc code b A1 st bs s). unfold reaches in IHc. fold cc in IHc.
        destruct (eval names c s) as [[v|ex] s1]; [|exact IHc].
        rewrite !app_length. cbn [length].
        replace (b + (length cc + (1 + (length cx + (1 + length cy)))))%nat with (f + length cy)%nat by lia.
        destruct (nilp v) eqn:Nv.
        * assert (B : steps code (Run b st bs s) (Run f st bs s1)).
          { eapply steps_trans; [exact IHc|]. apply steps_one. cbn [step]. rewrite I1. cbn [is_nil]. rewrite Nv. reflexivity. }
          specialize (IHy code f A3 st bs s1). unfold reaches in *. fold cy in IHy.
          destruct (eval names y s1) as [[v'|ex] s2]; [eapply steps_trans; eauto|].
          destruct IHy as [j IHy]. exists j. eapply steps_trans; eauto.
        * assert (B : steps code (Run b st bs s) (Run d st bs s1)).
          { eapply steps_trans; [exact IHc|]. eapply steps_trans.
            - apply steps_one. cbn [step]. rewrite I1. cbn [is_nil]. rewrite Nv. reflexivity.
            - pc d. constructor. }
          specialize (IHx code d A2 st bs s1). unfold reaches in *. fold cx in IHx.
          destruct (eval names x s1) as [[v'|ex] s2].
          -- eapply steps_trans; [exact B|]. eapply steps_trans; [exact IHx|]. go I2. constructor.
          -- destruct IHx as [j IHx]. exists j. eapply steps_trans; eauto.
    - (* Call *) intros f args IH P names code b A st bs s. rewrite co_call in *. cbn in P. specialize (IH P names).
      apply at_app in A as [A1 A2]. apply at_cons in A2 as [I _].
      specialize (IH code b A1 st bs s). rewrite ev_call, app_length. cbn [length].
      destruct (eval_list names args s) as [[vs|ex] s1]; [|exact IH]. destruct IH as [L IH]. unfold reaches.
      pose proof (pop_values_rev vs st) as PV. rewrite L in PV.
      destruct (ext f vs (snd s1)) as [[v|ex] w] eqn:E.
      + eapply steps_trans; [exact IH|]. eapply steps_trans.
        * apply steps_one. cbn [step]. rewrite I, PV, E. reflexivity.
        * pc (b + (length (compile_list names b args) + 1))%nat. constructor.
      + exists []. eapply steps_trans; [exact IH|]. apply steps_one. cbn [step]. rewrite I, PV, E. reflexivity.
    - (* Throw *) intros tag _ value IHv [P1 P2] names code b A st bs s. rewrite co_throw in *.
      destruct tag as [t| | | | | | | | | |]; try contradiction. specialize (IHv P2 names).
      apply at_app in A as [A1 A2]. apply at_app in A2 as [A2 A3]. apply at_cons in A3 as [I2 _].
      apply at_cons in A1 as [I1 _]. cbn [compile length] in *.
      specialize (IHv code _ A2 (V t :: st) bs s). rewrite ev_throw, ev_quote. unfold reaches in *.
      destruct (eval names value s) as [[v|ex] s1].
      + exists [V t]. go I1. pc (b + 1)%nat. eapply steps_trans; [exact IHv|]. apply steps_one. cbn [step]. rewrite I2. reflexivity.
      + destruct IHv as [j IHv]. exists (j ++ [V t]). go I1. pc (b + 1)%nat. rewrite <- app_assoc. exact IHv.
    - (* Catch *) intros tag IHt body IHb [P1 P2] names code b A st bs s. rewrite co_catch in *. specialize (IHb P2 names).
      assert (T : plain tag) by (destruct tag; try contradiction; exact I). specialize (IHt T names).
      unfold catch_code in *. cbv zeta in *. set (t := compile names (b + 1) tag) in *.
      set (sa := (b + 1 + length t + 2)%nat) in *. set (c := compile names (sa + 2) body) in *.
      cbn [app] in A. apply at_cons in A as [I0 A]. apply at_app in A as [A1 A]. apply at_cons in A as [I1 A].
      apply at_cons in A as [I2 A]. apply at_cons in A as [I3 A]. apply at_cons in A as [I4 A].
      apply at_app in A as [A2 A]. apply at_cons in A as [I5 _].
      apply (at_eq _ _ (b + 1)) in A1; [|lia]. apply (nth_eq _ _ (b + 1 + length t)) in I1; [|lia].
      apply (nth_eq _ _ (S (b + 1 + length t))) in I2; [|lia]. apply (nth_eq _ _ sa) in I3; [|lia].
      apply (nth_eq _ _ (S sa)) in I4; [|lia]. apply (at_eq _ _ (sa + 2)) in A2; [|lia].
      apply (nth_eq _ _ (sa + 2 + length c)) in I5; [|lia].
      rewrite !app_length. cbn [length].
      replace (b + (1 + (length t + (2 + (2 + (length c + 1))))))%nat with (sa + 2 + length c + 1)%nat by lia.
      set (en := (sa + 2 + length c + 1)%nat) in *.
      assert (B : steps code (Run b st bs s) (Run (sa + 2) st (Handler (b + 1) (length st) :: bs) s)).
      { go I0. go I3. go I4. pc (sa + 2)%nat. constructor. }
      (* the tag is the same before and after *)
      assert (Tg : exists tv, (forall s0, eval names tag s = (Ret tv, s) /\
                     (forall o, eval names body s = (o, s0) -> eval names tag s0 = (Ret tv, s0)))).
      { destruct tag; try contradiction.
        - exists v. intro s0. rewrite !ev_quote. auto.
        - exists (match index x names with Some i => nth i (fst s) nil_ | None => nil_ end). intro s0. rewrite !ev_var.
          split; auto. intros o E. destruct (index x names) eqn:Ix; auto.
          rewrite (proj1 (unset_all x) body names n (index_nth _ _ _ Ix) P1 _ _ _ E). reflexivity. }
      destruct Tg as [tv Tg]. rewrite ev_catch, (proj1 (Tg s)).
      unfold call_with_catch, call_with_exception_handler, raise_exception.
      specialize (IHb code _ A2 st (Handler (b + 1) (length st) :: bs) s). unfold reaches in IHb. fold c in IHb.
      destruct (eval names body s) as [[v|[t' d]] s1] eqn:Eb; cbn [reaches].
      + eapply steps_trans; [exact B|]. eapply steps_trans; [exact IHb|]. go I5. pc en. constructor.
      + destruct IHb as [j IHb]. pose proof (proj2 (Tg s1) _ eq_refl) as Et.
        specialize (IHt code _ A1 (X (t', d) :: st) bs s1). rewrite Et in IHt. cbn [reaches] in IHt. fold t in IHt.
        assert (C : steps code (Run b st bs s) (Run (b + 1 + length t) (V tv :: X (t', d) :: st) bs s1)).
        { eapply steps_trans; [exact B|]. eapply steps_trans; [exact IHb|]. eapply steps_trans; [|exact IHt].
          apply steps_one. cbn [step]. rewrite cut_app; reflexivity. }
        cbn [fst snd]. destruct (eq_ t' tv) eqn:Q; cbn [reaches].
        * eapply steps_trans; [exact C|]. eapply steps_trans.
          -- apply steps_one. cbn [step]. rewrite I1. cbn [fst]. rewrite Q. reflexivity.
          -- apply steps_one. cbn [step]. rewrite I2. reflexivity.
        * exists []. eapply steps_trans; [exact C|]. eapply steps_trans.
          -- apply steps_one. cbn [step]. rewrite I1. cbn [fst]. rewrite Q. reflexivity.
          -- apply steps_one. cbn [step]. rewrite I2. reflexivity.
    - (* Unwind *) intros body IHb cl IHc [P1 P2] names code b A st bs s. rewrite co_unwind in *.
      specialize (IHb P1 names). specialize (IHc P2 names).
      unfold unwind_code in *. cbv zeta in *. set (p := compile names (b + 1) cl) in *.
      set (sa := (b + 1 + length p + 2)%nat) in *. set (c := compile names (sa + 2) body) in *.
      cbn [app] in A. apply at_cons in A as [I0 A]. apply at_app in A as [A1 A]. apply at_cons in A as [I1 A].
      apply at_cons in A as [I2 A]. apply at_cons in A as [I3 A]. apply at_cons in A as [I4 A].
      apply at_app in A as [A2 A]. apply at_cons in A as [I5 A]. apply at_cons in A as [I6 A]. apply at_cons in A as [I7 _].
      apply (at_eq _ _ (b + 1)) in A1; [|lia]. apply (nth_eq _ _ (b + 1 + length p)) in I1; [|lia].
      apply (nth_eq _ _ (S (b + 1 + length p))) in I2; [|lia]. apply (nth_eq _ _ sa) in I3; [|lia].
      apply (nth_eq _ _ (S sa)) in I4; [|lia]. apply (at_eq _ _ (sa + 2)) in A2; [|lia].
      apply (nth_eq _ _ (sa + 2 + length c)) in I5; [|lia]. apply (nth_eq _ _ (S (sa + 2 + length c))) in I6; [|lia].
      apply (nth_eq _ _ (S (S (sa + 2 + length c)))) in I7; [|lia].
      rewrite !app_length. cbn [length].
      replace (b + (1 + (length p + (2 + (2 + (length c + 3))))))%nat with (sa + 2 + length c + 3)%nat by lia.
      set (en := (sa + 2 + length c + 3)%nat) in *.
      assert (B : steps code (Run b st bs s) (Run (sa + 2) st (Handler (b + 1) (length st) :: bs) s)).
      { go I0. go I3. go I4. pc (sa + 2)%nat. constructor. }
      rewrite ev_unwind. unfold call_with_unwind_protect, raise_exception.
      specialize (IHb code _ A2 st (Handler (b + 1) (length st) :: bs) s). unfold reaches in IHb. fold c in IHb.
      destruct (eval names body s) as [[v|x] s1]; cbv beta iota.
      + assert (C : steps code (Run b st bs s) (Run (b + 1) (V nil_ :: V v :: st) bs s1)).
        { eapply steps_trans; [exact B|]. eapply steps_trans; [exact IHb|]. go I5. go I6. go I7. constructor. }
        specialize (IHc code _ A1 (V nil_ :: V v :: st) bs s1). unfold reaches in IHc. fold p in IHc.
        destruct (eval names cl s1) as [[v2|x2] s2]; cbn [reaches].
        * eapply steps_trans; [exact C|]. eapply steps_trans; [exact IHc|]. go I1. go I2. constructor.
        * destruct IHc as [j IHc]. exists (j ++ [V nil_; V v]). rewrite <- app_assoc. cbn [app].
          eapply steps_trans; [exact C|exact IHc].
      + destruct IHb as [j IHb].
        assert (C : steps code (Run b st bs s) (Run (b + 1) (X x :: st) bs s1)).
        { eapply steps_trans; [exact B|]. eapply steps_trans; [exact IHb|].
          apply steps_one. cbn [step]. rewrite cut_app; reflexivity. }
        specialize (IHc code _ A1 (X x :: st) bs s1). unfold reaches in IHc. fold p in IHc.
        destruct (eval names cl s1) as [[v2|x2] s2]; cbn [reaches].
        * exists []. eapply steps_trans; [exact C|]. eapply steps_trans; [exact IHc|]. go I1. go I2. constructor.
        * destruct IHc as [j2 IHc]. exists (j2 ++ [X x]). rewrite <- app_assoc. cbn [app].
          eapply steps_trans; [exact C|exact IHc].
    - (* Cond *) intros y body IHb hs IHh (N & P1 & P2) names code b A st bs s. rewrite co_cond in *.
      pose proof (proj1 proper_all body P1 names) as PB.
      specialize (IHb P1 names). specialize (IHh P2 names y N).
      unfold cond_code in *. cbv zeta in *. set (hl := handlers_length names y hs) in *.
      set (sa := (b + 1 + hl)%nat) in *. set (c := compile names (sa + 2) body) in *.
      set (en := (sa + 2 + length c)%nat) in *.
      cbn [app] in A. apply at_cons in A as [I0 A]. apply at_app in A as [A1 A]. rewrite handlers_len in A. fold hl in A.
      apply at_cons in A as [I3 A]. apply at_cons in A as [I4 A].
      apply at_app in A as [A2 A]. apply at_cons in A as [I5 _].
      apply (at_eq _ _ (b + 1)) in A1; [|lia]. apply (nth_eq _ _ sa) in I3; [|lia].
      apply (nth_eq _ _ (S sa)) in I4; [|lia]. apply (at_eq _ _ (sa + 2)) in A2; [|lia].
      apply (nth_eq _ _ en) in I5; [|lia].
      rewrite !app_length, handlers_len. fold hl. cbn [length].
      replace (b + (1 + (hl + (2 + (length c + 1)))))%nat with (S en) by lia.
      assert (B : steps code (Run b st bs s) (Run (sa + 2) st (Handler (b + 1) (length st) :: bs) s)).
      { go I0. go I3. go I4. pc (sa + 2)%nat. constructor. }
      rewrite ev_cond. unfold call_with_error_handlers, call_with_exception_handler, raise_exception.
      specialize (IHb code _ A2 st (Handler (b + 1) (length st) :: bs) s). unfold reaches in IHb. fold c en in IHb.
      destruct (eval names body s) as [[v|x] s1] eqn:Eb; cbv beta iota.
      + cbn [reaches]. eapply steps_trans; [exact B|]. eapply steps_trans; [exact IHb|]. go I5. constructor.
      + destruct IHb as [j IHb].
        assert (C : steps code (Run b st bs s) (Run (b + 1) (X x :: st) bs s1)).
        { eapply steps_trans; [exact B|]. eapply steps_trans; [exact IHb|].
          apply steps_one. cbn [step]. rewrite cut_app; reflexivity. }
        specialize (IHh code (b + 1)%nat en A1 I5 x st bs s1 (PB _ _ _ Eb)). cbv zeta in IHh.
        destruct (negb (eq_ (fst x) error_)); unfold reaches.
        * destruct IHh as [j2 IHh]. exists j2. eapply steps_trans; eauto.
        * destruct (pick world (nth1 (snd x)) x (eval_handlers names y hs) s1) as [[v|z] s2].
          -- eapply steps_trans; eauto.
          -- destruct IHh as [j2 IHh]. exists j2. eapply steps_trans; eauto.
    - (* FNil *) intros _ names code b A st bs s. rewrite ev_fnil. cbn. split; auto. rewrite Nat.add_0_r. constructor.
    - (* FCons *) intros e IHe l IHl [P1 P2] names code b A st bs s. rewrite co_fcons in *.
      specialize (IHe P1 names). specialize (IHl P2 names). apply at_app in A as [A1 A2].
      specialize (IHe code b A1 st bs s). rewrite ev_fcons. unfold reaches in IHe.
      destruct (eval names e s) as [[v|ex] s1]; [|exact IHe].
      specialize (IHl code _ A2 (V v :: st) bs s1).
      destruct (eval_list names l s1) as [[vs|ex] s2].
      + destruct IHl as [L IHl]. split; [cbn; lia|]. rewrite app_length, Nat.add_assoc. cbn [map rev]. rewrite <- app_assoc. cbn [app].
        eapply steps_trans; eauto.
      + destruct IHl as [j IHl]. exists (j ++ [V v]). rewrite <- app_assoc. cbn [app]. eapply steps_trans; eauto.
    - (* HNil *) intros _ names y N. destruct N; reflexivity.
    - (* HCons *) intros spec body IHb hs IHh [P1 P2] names y _ code b en A U x st bs s Px. rewrite co_hcons in A.
      specialize (IHb P1 (y :: names)). specialize (IHh P2 names y).
      unfold handler_code in A. cbv zeta in *. set (c := compile (y :: names) (b + 3) body) in *.
      assert (H : exists i3 rest,
                nth_error code b = Some (PUSH spec) /\ nth_error code (S b) = Some ERRORPRO /\
                nth_error code (S (S b)) = Some i3 /\ at_ code (b + 3) c /\
                nth_error code (b + 3 + length c) = Some (JMP en) /\
                at_ code (b + 3 + length c + 1) rest /\
                ((hs = HNil /\ i3 = EJMP (b + 3)) \/
                 (hs <> HNil /\ i3 = JTP (b + 3 + length c + 1) /\ rest = compile_handlers names y (b + 3 + length c + 1) en hs))).
      { destruct hs as [|sp2 bd2 hs2]; cbn [app] in A; apply at_cons in A as [I0 A]; apply at_cons in A as [I1 A];
          apply at_cons in A as [I2 A]; apply at_app in A as [A1 A]; cbn [app] in A; apply at_cons in A as [I3 A];
          apply (at_eq _ _ (b + 3)) in A1; try lia; apply (nth_eq _ _ (b + 3 + length c)) in I3; try lia;
          apply (at_eq _ _ (b + 3 + length c + 1)) in A; try lia; eexists; eexists;
          (split; [exact I0|split; [exact I1|split; [exact I2|split; [exact A1|split; [exact I3|split; [exact A|]]]]]]).
        - left; split; reflexivity.
        - right; split; [discriminate | split; reflexivity]. }
      destruct H as (i3 & rest & I0 & I1 & I2 & A1 & I3 & A2 & K).
      rewrite ev_hcons. cbn [pick].
      (* the test *)
      assert (T : eq_ (fst x) error_ = true ->
                  (listp spec && memq (nth1 (snd x)) spec) || eq_ spec error_ || eq_ spec (nth1 (snd x)) = compare_error (snd x) spec).
      { intro Q. apply eq_same in Q. destruct (Px Q) as (a & n & d & ->). apply tests_agree. }
      destruct (eq_ (fst x) error_ && compare_error (snd x) spec) eqn:M.
      + apply andb_true_iff in M as [M1 M2]. rewrite M1, (T M1), M2. cbn [negb].
        pose proof (handler_body names y body code (b + 3) en x st bs s IHb A1 I3 U) as HB.
        assert (C : steps code (Run b (X x :: st) bs s) (Run (b + 3) st (Frame 1 :: bs) (snd x :: fst s, snd s))).
        { go I0. eapply steps_trans; [apply steps_one; cbn [step]; rewrite I1, M1, M2; cbn [andb]; reflexivity|]. cbv iota.
          destruct K as [[_ ->]|(_ & -> & _)]; go I2; cbv [is_nil nilp eq_ nil_ Z.eqb]; cbv iota; pc (b + 3)%nat; constructor. }
        destruct (with_binding world (snd x) (eval (y :: names) body) s) as [[v|z] s2].
        * eapply steps_trans; eauto.
        * destruct HB as [j HB]. exists j. eapply steps_trans; eauto.
      + assert (C : steps code (Run b (X x :: st) bs s) (Run (S (S b)) (X x :: st) bs s)).
        { go I0. apply steps_one. cbn [step]. rewrite I1, M. reflexivity. }
        assert (R : (if negb (eq_ (fst x) error_) then (Exit x, s)
                     else (if (listp spec && memq (nth1 (snd x)) spec) || eq_ spec error_ || eq_ spec (nth1 (snd x))
                           then with_binding world (snd x) (eval (y :: names) body)
                           else pick world (nth1 (snd x)) x (eval_handlers names y hs)) s) =
                    (if negb (eq_ (fst x) error_) then (Exit x, s) else pick world (nth1 (snd x)) x (eval_handlers names y hs) s)).
        { destruct (eq_ (fst x) error_); cbn [negb]; auto. rewrite T by auto. cbn in M. rewrite M. reflexivity. }
        rewrite R. clear R. destruct K as [[-> ->]|(N & -> & ->)].
        * rewrite ev_hnil. cbn [pick raise_exception].
          replace (if negb (eq_ (fst x) error_) then (Exit x, s) else raise_exception world x s) with (Exit x, s) by (destruct (negb _); reflexivity).
          exists []. eapply steps_trans; [exact C|]. go I2. constructor.
        * specialize (IHh N code _ en A2 U x st bs s Px). cbv zeta in IHh.
          assert (D : steps code (Run b (X x :: st) bs s) (Run (b + 3 + length c + 1) (X x :: st) bs s)).
          { eapply steps_trans; [exact C|]. go I2. constructor. }
          destruct (if negb (eq_ (fst x) error_) then (Exit x, s) else pick world (nth1 (snd x)) x (eval_handlers names y hs) s) as [[v|z] s2].
          -- eapply steps_trans; eauto.
          -- destruct IHh as [j IHh]. exists j. eapply steps_trans; eauto.
  Qed.

  Lemma compile_machine names e s o s' :
    plain e -> eval names e s = (o, s') -> machine world ext (compile names 0 e) s o s'.
  Proof.
    intros P E. pose proof (proj1 sim_all e P names (compile names 0 e) 0%nat) as H.
    specialize (H (ex_intro _ [] (ex_intro _ [] (conj (eq_sym (app_nil_r _)) eq_refl))) [] [] s).
    rewrite E in H. unfold machine. destruct o; cbn in *; [exact H|]. destruct H as [j H]. eexists; exact H.
  Qed.
End World.

(** * The machine does one thing *)
Section Det.
  Variable world : Type.
  Variable ext : nat -> list val -> world -> outcome * world.
  Lemma steps_det code a b c :
    steps world ext code a b -> steps world ext code a c ->
    step world ext code b = None -> step world ext code c = None -> b = c.
  Proof.
    intros H. revert c. induction H; intros d K Nb Nd; inversion K; subst; try congruence. 
    rewrite H in H1. injection H1 as <-. auto.
  Qed.
End Det.
