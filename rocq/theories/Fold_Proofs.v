From Coq Require Import String List Bool.
Import ListNotations.
From Verif Require Import Fold_Model Fold_Spec.

Section Proofs.
Variables V S : Type.
Variable is_nil : V -> bool.
Variable apply : V -> list V -> S -> option (V * S).
Variable global : sym -> S -> option V.
Variable C : comp V S.
Hypothesis R : right apply global C.

Notation ev := (eval is_nil apply global).
Notation fold := (fold_arg apply C).
Notation comp_ := (compile apply C).

Fixpoint evlis (env : list (sym * V)) (s : S) (l : list (form V)) : option (list V * S) :=
  match l with
  | [] => Some ([], s)
  | x :: r =>
      match ev env s x with
      | Some (v, s) => match evlis env s r with Some (vs, s) => Some (v :: vs, s) | None => None end
      | None => None
      end
  end.

Lemma eval_call env s f args :
  ev env s (Call f args) =
  match (match assq f env with Some v => Some v | None => global f s end) with
  | None => None
  | Some fv => match evlis env s args with Some (vs, s) => apply fv vs s | None => None end
  end.
Proof.
  cbn [eval]. destruct (match assq f env with Some v => Some v | None => global f s end) as [fv|]; auto.
  match goal with |- match ?F s args with _ => _ end = _ => assert (E : forall l s, F s l = evlis env s l) end.
  { clear. induction l as [|x r IH]; intros s; auto. cbn [evlis].
    destruct (ev env s x) as [[v s']|]; auto. rewrite IH. auto. }
  rewrite E. auto.
Qed.

Fixpoint fold_args (locals : list sym) (l : list (form V)) : outcome (list V) :=
  match l with
  | [] => Got []
  | x :: r =>
      match fold locals x with
      | Got v => match fold_args locals r with Got vs => Got (v :: vs) | Stop => Stop | Fail => Fail end
      | Stop => Stop
      | Fail => Fail
      end
  end.

Lemma fold_call locals f args :
  fold locals (Call f args) =
  if foldablep locals f then
    match fold_args locals args with
    | Got vs =>
        match function_value C f with
        | Some fv => match apply fv vs (s0 C) with Some (v, _) => Got v | None => Fail end
        | None => Fail
        end
    | Stop => Stop
    | Fail => Fail
    end
  else Stop.
Proof.
  cbn [fold_arg]. destruct (foldablep locals f); auto.
  match goal with |- match ?F args with _ => _ end = _ => assert (E : forall l, F l = fold_args locals l) end.
  { clear. induction l as [|x r IH]; auto. cbn [fold_args].
    destruct (fold locals x); auto. rewrite IH. auto. }
  rewrite E. auto.
Qed.

Fixpoint compile_args (locals : list sym) (l : list (form V)) : option (list (form V)) :=
  match l with
  | [] => Some []
  | x :: r =>
      match comp_ locals x with
      | Some x => match compile_args locals r with Some r => Some (x :: r) | None => None end
      | None => None
      end
  end.

Lemma compile_call locals f args :
  comp_ locals (Call f args) =
  match (if foldablep locals f then fold locals (Call f args) else Stop) with
  | Got v => Some (Quote v)
  | Fail => None
  | Stop => match compile_args locals args with Some args => Some (Call f args) | None => None end
  end.
Proof.
  unfold compile at 1; fold (compile apply C).
  destruct (if foldablep locals f then fold locals (Call f args) else Stop); auto.
  match goal with |- match ?F args with _ => _ end = _ => assert (E : forall l, F l = compile_args locals l) end.
  { clear. induction l as [|x r IH]; auto. cbn [compile_args].
    destruct (comp_ locals x); auto. rewrite IH. auto. }
  rewrite E. auto.
Qed.

Section Ind.
Variable P : form V -> Prop.
Hypothesis HS : forall v, P (Self v).
Hypothesis HQ : forall v, P (Quote v).
Hypothesis HV : forall x, P (Var x).
Hypothesis HC : forall f args, Forall P args -> P (Call f args).
Hypothesis HI : forall c a b, P c -> P a -> P b -> P (If c a b).
Hypothesis HL : forall x e b, P e -> P b -> P (Let x e b).
Hypothesis HP : forall a b, P a -> P b -> P (Progn a b).
Hypothesis HM : forall b, P b -> P (Macro b).
Fixpoint form_ind' (e : form V) : P e :=
  match e with
  | Self v => HS v
  | Quote v => HQ v
  | Var x => HV x
  | Call f args => HC f args ((fix go l : Forall P l := match l with [] => Forall_nil P | x :: r => Forall_cons x (form_ind' x) (go r) end) args)
  | If c a b => HI c a b (form_ind' c) (form_ind' a) (form_ind' b)
  | Let x e b => HL x e b (form_ind' e) (form_ind' b)
  | Progn a b => HP a b (form_ind' a) (form_ind' b)
  | Macro b => HM b (form_ind' b)
  end.
End Ind.

Lemma assq_none {A} x (env : list (sym * A)) : assq x env = None <-> memq x (map fst env) = false.
Proof.
  unfold memq. induction env as [|[y v] r IH]; cbn; [split; auto|].
  rewrite (String.eqb_sym y x). destruct (String.eqb x y); cbn; [split; discriminate|auto].
Qed.

Definition clear_ (locals : list sym) : Prop := forall x, In x locals -> assq x (const_env C) = None.

Lemma memq_in x l : memq x l = true <-> In x l.
Proof.
  unfold memq. rewrite existsb_exists. split.
  - intros [y [A B]]. apply String.eqb_eq in B. subst; auto.
  - intro H. exists x. split; auto. apply String.eqb_refl.
Qed.

Lemma clear_cons x locals : clear_ locals -> assq x (const_env C) = None -> clear_ (x :: locals).
Proof. intros H N y [<-|Y]; auto. Qed.

Lemma const_ok locals env s x v : clear_ locals -> map fst env = locals ->
  assq x (const_env C) = Some v -> ev env s (Var x) = Some (v, s).
Proof.
  intros L E H. cbn. destruct (assq x env) eqn:A.
  - assert (M : memq x (map fst env) = true).
    { destruct (memq x (map fst env)) eqn:M; auto. apply assq_none in M. congruence. }
    apply memq_in in M. rewrite E in M. apply L in M. congruence.
  - rewrite (right_consts _ _ _ _ _ R _ _ s H). auto.
Qed.

Lemma immutable_ok locals env s x v : map fst env = locals ->
  binding_immutable V S C locals x = Some v -> ev env s (Var x) = Some (v, s).
Proof.
  intros E H. unfold binding_immutable in H. destruct (memq x locals) eqn:M; [discriminate|].
  cbn. rewrite <- E in M. apply assq_none in M. rewrite M, (right_immutable _ _ _ _ _ R _ _ s H). auto.
Qed.

Lemma fold_ok e : forall locals env, clear_ locals -> map fst env = locals ->
  match fold locals e with
  | Got v => forall s, ev env s e = Some (v, s)
  | Fail => forall s, ev env s e = None
  | Stop => True
  end.
Proof.
  induction e using form_ind'; intros locals env L E.
  - cbn; auto.
  - cbn; auto.
  - cbn [fold_arg constant_value]. destruct (binding_immutable V S C locals x) as [v|] eqn:B.
    + intro s. eapply immutable_ok; eauto.
    + destruct (assq x (const_env C)) as [v|] eqn:A; auto. intro s. eapply const_ok; eauto.
  - rewrite fold_call. destruct (foldablep locals f) eqn:F; auto.
    unfold foldablep in F. apply andb_prop in F. destruct F as [F1 F2].
    apply memq_in in F2. destruct (right_functions _ _ _ _ _ R _ F2) as (fv & FV & G & PU).
    assert (N : assq f env = None).
    { apply assq_none. rewrite E. destruct (memq f locals); auto; discriminate. }
    assert (A : match fold_args locals args with
                | Got vs => forall s, evlis env s args = Some (vs, s)
                | Fail => forall s, evlis env s args = None
                | Stop => True
                end).
    { clear F2 FV G PU N. induction H as [|x r P Q IH]; cbn [fold_args evlis]; auto.
      specialize (P locals env L E). destruct (fold locals x) as [v| |]; auto.
      - destruct (fold_args locals r) as [vs| |]; auto.
        + intro s. rewrite P, IH. auto.
        + intro s. rewrite P, IH. auto.
      - intro s. rewrite P. auto. }
    destruct (fold_args locals args) as [vs| |]; auto.
    + rewrite FV. destruct (PU vs) as [[v PV]|PV].
      * rewrite PV. intro s. rewrite eval_call, N, G, A. auto.
      * rewrite PV. intro s. rewrite eval_call, N, G, A. auto.
    + intro s. rewrite eval_call, N, G, A. auto.
  - cbn. auto.
  - cbn. auto.
  - cbn. auto.
  - cbn [fold_arg]. apply (IHe locals env L E).
Qed.

Definition unshadowed_all (l : list (form V)) : Prop :=
  (fix all l := match l with [] => True | x :: r => unshadowed C x /\ all r end) l.

Lemma compile_ok e : forall locals e', clear_ locals -> unshadowed C e -> comp_ locals e = Some e' ->
  forall env s, map fst env = locals -> ev env s e' = ev env s e.
Proof.
  induction e using form_ind'; intros locals e' L U K env s E.
  - cbn in K. injection K as K; subst; auto.
  - cbn in K. injection K as K; subst; auto.
  - cbn in K. destruct (assq x (const_env C)) as [v|] eqn:A.
    + injection K as K; subst e'. symmetry. eapply const_ok; eauto.
    + destruct (binding_immutable V S C locals x) as [v|] eqn:B; injection K as K; subst e'; auto.
      symmetry. eapply immutable_ok; eauto.
  - rewrite compile_call in K.
    assert (FO : match (if foldablep locals f then fold locals (Call f args) else Stop) with
                 | Got v => forall s, ev env s (Call f args) = Some (v, s)
                 | _ => True
                 end).
    { destruct (foldablep locals f); auto. pose proof (fold_ok (Call f args) locals env L E) as X.
      destruct (fold locals (Call f args)); auto. }
    destruct (if foldablep locals f then fold locals (Call f args) else Stop) as [v| |].
    + injection K as K; subst e'. rewrite FO. auto.
    + destruct (compile_args locals args) as [args'|] eqn:CA; [|discriminate]. injection K as K; subst e'.
      assert (EQ : forall s, evlis env s args' = evlis env s args).
      { clear FO. revert args' CA. change (unshadowed_all args) in U. induction H as [|x r P Q IH]; intros args' CA; cbn [compile_args] in CA.
        - injection CA as CA; subst args'; auto.
        - destruct U as [U1 U2]. destruct (comp_ locals x) as [x'|] eqn:X; [|discriminate].
          destruct (compile_args locals r) as [r'|] eqn:Y; [|discriminate]. injection CA as CA; subst args'.
          intro s1. cbn [evlis]. rewrite (P _ _ L U1 X env s1 E).
          destruct (ev env s1 x) as [[v s2]|]; auto. rewrite (IH U2 _ eq_refl). auto. }
      rewrite !eval_call. destruct (match assq f env with Some v => Some v | None => global f s end); auto.
      rewrite EQ. auto.
    + discriminate.
  - destruct U as (U1 & U2 & U3). cbn in K.
    destruct (comp_ locals e1) as [c'|] eqn:K1; [|discriminate].
    destruct (comp_ locals e2) as [a'|] eqn:K2; [|discriminate].
    destruct (comp_ locals e3) as [b'|] eqn:K3; [|discriminate]. injection K as K; subst e'.
    cbn. rewrite (IHe1 _ _ L U1 K1 env s E). destruct (ev env s e1) as [[v s1]|]; auto.
    destruct (is_nil v); eauto.
  - destruct U as (U1 & U2 & U3). cbn in K.
    destruct (comp_ locals e1) as [c'|] eqn:K1; [|discriminate].
    destruct (comp_ (x :: locals) e2) as [b'|] eqn:K2; [|discriminate]. injection K as K; subst e'.
    cbn. rewrite (IHe1 _ _ L U2 K1 env s E). destruct (ev env s e1) as [[v s1]|]; auto.
    apply (IHe2 (x :: locals)); auto; [apply clear_cons; auto|cbn; congruence].
  - destruct U as (U1 & U2). cbn in K.
    destruct (comp_ locals e1) as [a'|] eqn:K1; [|discriminate].
    destruct (comp_ locals e2) as [b'|] eqn:K2; [|discriminate]. injection K as K; subst e'.
    cbn. rewrite (IHe1 _ _ L U1 K1 env s E). destruct (ev env s e1) as [[v s1]|]; eauto.
  - cbn in *. eauto.
Qed.

Lemma compile_fails e : forall locals, clear_ locals -> unshadowed C e -> comp_ locals e = None ->
  exists l' f args, within locals e l' (Call f args) /\ In f constant_functions /\
    forall env s, map fst env = l' -> ev env s (Call f args) = None.
Proof.
  induction e using form_ind'; intros locals L U K.
  - discriminate.
  - discriminate.
  - cbn in K. destruct (assq x (const_env C)); [discriminate|].
    destruct (binding_immutable V S C locals x); discriminate.
  - rewrite compile_call in K. destruct (foldablep locals f) eqn:F.
    + destruct (fold locals (Call f args)) eqn:FO.
      * discriminate.
      * destruct (compile_args locals args) as [args'|] eqn:CA; [discriminate|].
        assert (X : exists x, In x args /\ unshadowed C x /\ comp_ locals x = None).
        { clear K FO H. change (unshadowed_all args) in U. induction args as [|x r IH]; cbn in CA; [discriminate|].
          destruct U as [U1 U2]. destruct (comp_ locals x) eqn:X.
          - destruct (compile_args locals r) eqn:Y; [discriminate|]. destruct (IH U2 eq_refl) as (z & Z1 & Z2).
            exists z. split; [right; auto|auto].
          - exists x. split; [left; auto|auto]. }
        destruct X as (x & X1 & X2 & X3). rewrite Forall_forall in H.
        destruct (H x X1 locals L X2 X3) as (l' & g & args' & W & Z). exists l', g, args'. split; auto.
        eapply w_arg; eauto.
      * exists locals, f, args. split; [constructor|]. split.
        -- unfold foldablep in F. apply andb_prop in F. apply memq_in. apply F.
        -- intros env s E. pose proof (fold_ok (Call f args) locals env L E) as X. rewrite FO in X. auto.
    + destruct (compile_args locals args) as [args'|] eqn:CA; [discriminate|].
      assert (X : exists x, In x args /\ unshadowed C x /\ comp_ locals x = None).
      { clear K H. change (unshadowed_all args) in U. induction args as [|x r IH]; cbn in CA; [discriminate|].
        destruct U as [U1 U2]. destruct (comp_ locals x) eqn:X.
        - destruct (compile_args locals r) eqn:Y; [discriminate|]. destruct (IH U2 eq_refl) as (z & Z1 & Z2).
          exists z. split; [right; auto|auto].
        - exists x. split; [left; auto|auto]. }
      destruct X as (x & X1 & X2 & X3). rewrite Forall_forall in H.
      destruct (H x X1 locals L X2 X3) as (l' & g & args' & W & Z). exists l', g, args'. split; auto.
      eapply w_arg; eauto.
  - destruct U as (U1 & U2 & U3). cbn in K.
    destruct (comp_ locals e1) as [c'|] eqn:K1.
    2:{ destruct (IHe1 _ L U1 K1) as (l' & f & args & W & Z). exists l', f, args. split; auto. constructor; auto. }
    destruct (comp_ locals e2) as [a'|] eqn:K2.
    2:{ destruct (IHe2 _ L U2 K2) as (l' & f & args & W & Z). exists l', f, args. split; auto. apply w_if2; auto. }
    destruct (comp_ locals e3) as [b'|] eqn:K3; [discriminate|].
    destruct (IHe3 _ L U3 K3) as (l' & f & args & W & Z). exists l', f, args. split; auto. apply w_if3; auto.
  - destruct U as (U1 & U2 & U3). cbn in K.
    destruct (comp_ locals e1) as [c'|] eqn:K1.
    2:{ destruct (IHe1 _ L U2 K1) as (l' & f & args & W & Z). exists l', f, args. split; auto. constructor; auto. }
    destruct (comp_ (x :: locals) e2) as [b'|] eqn:K2; [discriminate|].
    destruct (IHe2 _ (clear_cons _ _ L U1) U3 K2) as (l' & f & args & W & Z). exists l', f, args. split; auto. apply w_let2; auto.
  - destruct U as (U1 & U2). cbn in K.
    destruct (comp_ locals e1) as [c'|] eqn:K1.
    2:{ destruct (IHe1 _ L U1 K1) as (l' & f & args & W & Z). exists l', f, args. split; auto. constructor; auto. }
    destruct (comp_ locals e2) as [b'|] eqn:K2; [discriminate|].
    destruct (IHe2 _ L U2 K2) as (l' & f & args & W & Z). exists l', f, args. split; auto. apply w_progn2; auto.
  - cbn in *. destruct (IHe _ L U K) as (l' & f & args & W & Z). exists l', f, args. split; auto. constructor; auto.
Qed.

End Proofs.
