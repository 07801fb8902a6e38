From Coq Require Import String ZArith List Bool Arith Lia.
From Verif Require Import Syntax_Model Syntax_Spec.
Import ListNotations.

Lemma atom_eqb_refl : forall x, symbolp x = true -> atom_eqb x x = true.
Proof. intros [] H; cbn in *; try discriminate; [apply String.eqb_refl|apply Nat.eqb_refl]. Qed.
Lemma atom_eqb_eq : forall x y, symbolp y = true -> atom_eqb x y = true -> x = y.
Proof.
  intros [] [] H E; cbn in *; try discriminate.
  - apply String.eqb_eq in E. congruence.
  - apply Nat.eqb_eq in E. congruence.
Qed.

Section P.
  Variable world : Type.
  Variable call_prim : nat -> list value -> world -> world * (sexp + sexp).
  Notation state := (state world).
  Notation eval := (eval call_prim). Notation progn := (progn call_prim). Notation evcond := (evcond call_prim).
  Notation evsetq := (evsetq call_prim). Notation evargs := (evargs call_prim). Notation apply := (apply call_prim).
  Notation ev := (ev world call_prim). Notation evs := (evs world call_prim).

  (** ** Unfolding *)
  Lemma eval_S : forall n e s f, eval (S n) e s f =
     match f with
      | Sym _ | Gen _ => Some (s, value_of e s f)
      | Cons fn args =>
        match eval n e s fn with
        | None => None
        | Some (s, Exit x) => Some (s, Exit x)
        | Some (s, Ret (Special SQuote)) => Some (s, Ret (quoted (car args)))
        | Some (s, Ret (Special SLambda)) =>
          if consp args then Some (s, Ret (Clo args e)) else Some (s, Exit missing_arg)
        | Some (s, Ret (Special SCond)) => evcond n e s args
        | Some (s, Ret (Special SProgn)) => progn n e s args
        | Some (s, Ret (Special SSetq)) => evsetq n e s args (VAtom Nil)
        | Some (s, Ret (Macro m)) =>
          eval n e (if uses_gensym m then gensym s else s) (expand m (Gen (next_gen s)) args)
        | Some (s, Ret fv) =>
          match evargs n e s args with
          | None => None
          | Some (s, inl x) => Some (s, Exit x)
          | Some (s, inr vs) => apply n s fv vs
          end
        end
      | _ => Some (s, Ret (VAtom f))
      end.
  Proof. reflexivity. Qed.
  Lemma progn_S : forall n e s fs, progn (S n) e s fs =
     match fs with
      | Cons f fs' =>
        match eval n e s f with
        | Some (s', Ret v) => if consp fs' then progn n e s' fs' else Some (s', Ret v)
        | x => x
        end
      | _ => Some (s, Ret (VAtom Nil))
      end.
  Proof. reflexivity. Qed.
  Lemma evcond_S : forall n e s cls, evcond (S n) e s cls =
     match cls with
      | Cons (Cons c b) cls' =>
        match eval n e s c with
        | Some (s', Ret v) =>
          if nilp v then evcond n e s' cls'
          else if consp b then progn n e s' b else Some (s', Ret v)
        | x => x
        end
      | _ => Some (s, Ret (VAtom Nil))
      end.
  Proof. reflexivity. Qed.
  Lemma evsetq_S : forall n e s args last, evsetq (S n) e s args last =
     match args with
      | Cons x (Cons f args') =>
        if symbolp x then
          match eval n e s f with
          | Some (s', Ret v) =>
            match assign e s' x v with
            | (s'', Ret _) => evsetq n e s'' args' v
            | (s'', Exit y) => Some (s'', Exit y)
            end
          | x => x
          end
        else Some (s, Ret last)
      | _ => Some (s, Ret last)
      end.
  Proof. reflexivity. Qed.
  Lemma evargs_S : forall n e s args, evargs (S n) e s args =
     match args with
      | Cons f args' =>
        match eval n e s f with
        | None => None
        | Some (s', Exit x) => Some (s', inl x)
        | Some (s', Ret v) =>
          match evargs n e s' args' with
          | None => None
          | Some (s'', inl x) => Some (s'', inl x)
          | Some (s'', inr vs) => Some (s'', inr (v :: vs))
          end
        end
      | _ => Some (s, inr [])
      end.
  Proof. reflexivity. Qed.
  Lemma apply_S : forall n s fv vs, apply (S n) s fv vs =
     match fv with
      | Clo lam e =>
        match bind (car lam) vs e (store s) with
        | None => None
        | Some None => Some (s, Exit missing_arg)
        | Some (Some (e', st)) => progn n e' (set_store s st) (cdr lam)
        end
      | Prim PEql => Some (s, Ret (truth (eql (nth_arg 0 vs) (nth_arg 1 vs))))
      | Prim PMemql => Some (s, Ret (memql (nth_arg 0 vs) (nth_arg 1 vs)))
      | Prim PNot => Some (s, Ret (truth (nilp (nth_arg 0 vs))))
      | Prim (POther k) =>
        let (w, r) := call_prim k vs (outside s) in
        Some (mk_state (store s) (globals s) (next_gen s) w,
              match r with inl d => Ret (quoted d) | inr d => Exit (quoted d) end)
      | _ => Some (s, Exit invalid_function)
      end.
  Proof. reflexivity. Qed.

  (** ** Budget *)
  Lemma mono : forall n,
    (forall e s f x, eval n e s f = Some x -> eval (S n) e s f = Some x) /\
    (forall e s f x, progn n e s f = Some x -> progn (S n) e s f = Some x) /\
    (forall e s f x, evcond n e s f = Some x -> evcond (S n) e s f = Some x) /\
    (forall e s f v x, evsetq n e s f v = Some x -> evsetq (S n) e s f v = Some x) /\
    (forall e s f x, evargs n e s f = Some x -> evargs (S n) e s f = Some x) /\
    (forall s f vs x, apply n s f vs = Some x -> apply (S n) s f vs = Some x).
  Proof.
    induction n as [|n (I1 & I2 & I3 & I4 & I5 & I6)]; [repeat split; intros; discriminate|].
    repeat split.
    - intros e s f x H. rewrite eval_S in H. rewrite eval_S.
      destruct f; auto. destruct (eval n e s f1) as [[s1 r]|] eqn:E; [|discriminate].
      rewrite (I1 _ _ _ _ E). destruct r as [v|v]; auto.
      destruct v; auto; try (destruct (evargs n e s1 f2) as [[s2 ar]|] eqn:E2; [|discriminate]; rewrite (I5 _ _ _ _ E2);
        destruct ar; auto; fail).
      match goal with sp : special |- _ => destruct sp; auto end.
    - intros e s f x H. rewrite progn_S in H. rewrite progn_S.
      destruct f; auto. destruct (eval n e s f1) as [[s1 r]|] eqn:E; [|discriminate].
      rewrite (I1 _ _ _ _ E). destruct r as [v|v]; auto. destruct (consp f2); auto.
    - intros e s f x H. rewrite evcond_S in H. rewrite evcond_S.
      destruct f; auto. destruct f1; auto. destruct (eval n e s f1_1) as [[s1 r]|] eqn:E; [|discriminate].
      rewrite (I1 _ _ _ _ E). destruct r as [v|v]; auto. destruct (nilp v); auto. destruct (consp f1_2); auto.
    - intros e s f v x H. rewrite evsetq_S in H. rewrite evsetq_S.
      destruct f; auto. destruct f2; auto. destruct (symbolp f1); auto.
      destruct (eval n e s f2_1) as [[s1 r]|] eqn:E; [|discriminate].
      rewrite (I1 _ _ _ _ E). destruct r as [w|w]; auto. destruct (assign e s1 f1 w) as [s2 []]; auto.
    - intros e s f x H. rewrite evargs_S in H. rewrite evargs_S.
      destruct f; auto. destruct (eval n e s f1) as [[s1 r]|] eqn:E; [|discriminate].
      rewrite (I1 _ _ _ _ E). destruct r as [v|v]; auto.
      destruct (evargs n e s1 f2) as [[s2 a]|] eqn:E2; [|discriminate]. rewrite (I5 _ _ _ _ E2). auto.
    - intros s f vs x H. rewrite apply_S in H. rewrite apply_S.
      destruct f as [ | |lam env0| | | ]; auto. destruct (bind (car lam) vs env0 (store s)) as [[[e' st]|]|]; auto.
  Qed.
  Lemma eval_le : forall m n, n <= m -> forall e s f x, eval n e s f = Some x -> eval m e s f = Some x.
  Proof. induction 1; auto. intros. apply (mono m). auto. Qed.
  Lemma progn_le : forall m n, n <= m -> forall e s f x, progn n e s f = Some x -> progn m e s f = Some x.
  Proof. induction 1; auto. intros. apply (mono m). auto. Qed.
  Lemma evcond_le : forall m n, n <= m -> forall e s f x, evcond n e s f = Some x -> evcond m e s f = Some x.
  Proof. induction 1; auto. intros. apply (mono m). auto. Qed.
  Lemma evsetq_le : forall m n, n <= m -> forall e s f v x, evsetq n e s f v = Some x -> evsetq m e s f v = Some x.
  Proof. induction 1; auto. intros. apply (mono m). auto. Qed.
  Lemma evargs_le : forall m n, n <= m -> forall e s f x, evargs n e s f = Some x -> evargs m e s f = Some x.
  Proof. induction 1; auto. intros. apply (mono m). auto. Qed.
  Lemma apply_le : forall m n, n <= m -> forall s f vs x, apply n s f vs = Some x -> apply m s f vs = Some x.
  Proof. induction 1; auto. intros. apply (mono m). auto. Qed.

  Lemma ev_fun : forall e s f s1 r1 s2 r2, ev e s f s1 r1 -> ev e s f s2 r2 -> s1 = s2 /\ r1 = r2.
  Proof.
    intros e s f s1 r1 s2 r2 (n & A) (m & B). apply (eval_le (n + m)) in A; [|lia]. apply (eval_le (n + m)) in B; [|lia].
    rewrite A in B. inversion B. auto.
  Qed.

  (** ** The evaluator by its rules *)
  Definition evc e s cls s' r := exists n, evcond n e s cls = Some (s', r).
  Definition evq e s args v s' r := exists n, evsetq n e s args v = Some (s', r).
  Definition eva e s args s' r := exists n, evargs n e s args = Some (s', r).
  Definition app s f vs s' r := exists n, apply n s f vs = Some (s', r).

  Lemma ev_var : forall e s x s' r, symbolp x = true -> (ev e s x s' r <-> s' = s /\ r = value_of e s x).
  Proof.
    intros e s x s' r H. split.
    - intros ([|n] & E); [discriminate|]. destruct x; try discriminate; cbn in E; inversion E; auto.
    - intros (-> & ->). exists 1. destruct x; try discriminate; reflexivity.
  Qed.
  Lemma ev_nil : forall e s s' r, ev e s Nil s' r <-> s' = s /\ r = Ret (VAtom Nil).
  Proof.
    intros. split.
    - intros ([|n] & E); [discriminate|]. cbn in E. inversion E; auto.
    - intros (-> & ->). exists 1. reflexivity.
  Qed.

  Lemma std_sym : forall x v, std x = Some v -> exists t, x = Sym t.
  Proof. intros [] v H; try discriminate. eauto. Qed.
  Lemma value_std : forall e (s : state) x v, lookup e x = None -> std x = Some v -> value_of e s x = Ret v.
  Proof. intros e s x v L SD. unfold value_of. rewrite L, SD. reflexivity. Qed.

  Lemma eval_head : forall e s x v, lookup e x = None -> std x = Some v -> eval 1 e s x = Some (s, Ret v).
  Proof.
    intros e s x v L SD. destruct (std_sym x v SD) as (t & ->). rewrite eval_S. rewrite (value_std e s _ v L SD). reflexivity.
  Qed.
  Lemma eval_head_le : forall n e s x v y, lookup e x = None -> std x = Some v -> eval n e s x = Some y -> y = (s, Ret v).
  Proof.
    intros n e s x v y L SD E. destruct n as [|n]; [discriminate|].
    pose proof (eval_le (S n) 1 ltac:(lia) _ _ _ _ (eval_head e s x v L SD)) as E1. congruence.
  Qed.

  Lemma ev_special : forall e s x args s' r sp, lookup e x = None -> std x = Some (Special sp) ->
    (ev e s (Cons x args) s' r <->
     match sp with
     | SQuote => s' = s /\ r = Ret (quoted (car args))
     | SLambda => s' = s /\ r = (if consp args then Ret (Clo args e) else Exit missing_arg)
     | SCond => evc e s args s' r
     | SProgn => evs e s args s' r
     | SSetq => evq e s args (VAtom Nil) s' r
     end).
  Proof.
    intros e s x args s' r sp L SD. split.
    - intros ([|n] & E); [discriminate|]. rewrite eval_S in E.
      destruct (eval n e s x) as [y|] eqn:H; [|discriminate].
      rewrite (eval_head_le _ _ _ _ _ _ L SD H) in E. destruct sp.
      + inversion E; auto.
      + destruct (consp args); inversion E; auto.
      + exists n; auto.
      + exists n; auto.
      + exists n; auto.
    - intros H.
      assert (G : exists n, match sp with
         | SQuote => Some (s, Ret (quoted (car args)))
         | SLambda => if consp args then Some (s, Ret (Clo args e)) else Some (s, Exit missing_arg)
         | SCond => evcond (S n) e s args
         | SProgn => progn (S n) e s args
         | SSetq => evsetq (S n) e s args (VAtom Nil) end = Some (s', r)).
      { destruct sp.
        - exists 0. destruct H as (-> & ->). auto.
        - exists 0. destruct H as (-> & ->). destruct (consp args); auto.
        - destruct H as (n & H). exists n. apply (evcond_le (S n) n); auto.
        - destruct H as (n & H). exists n. apply (progn_le (S n) n); auto.
        - destruct H as (n & H). exists n. apply (evsetq_le (S n) n); auto. }
      destruct G as (n & G). exists (S (S n)). rewrite eval_S. remember (S n) as m.
      rewrite (eval_le m 1 ltac:(lia) _ _ _ _ (eval_head e s x _ L SD)). destruct sp; auto.
  Qed.

  Lemma ev_macro : forall e s x args s' r m, lookup e x = None -> std x = Some (Macro m) ->
    (ev e s (Cons x args) s' r <->
     ev e (if uses_gensym m then gensym s else s) (expand m (Gen (next_gen s)) args) s' r).
  Proof.
    intros e s x args s' r m L SD. split.
    - intros ([|n] & E); [discriminate|]. rewrite eval_S in E.
      destruct (eval n e s x) as [y|] eqn:H; [|discriminate].
      rewrite (eval_head_le _ _ _ _ _ _ L SD H) in E. exists n; auto.
    - intros (n & H). exists (S (S n)). remember (S n) as k. rewrite eval_S.
      rewrite (eval_le k 1 ltac:(lia) _ _ _ _ (eval_head e s x _ L SD)). apply (eval_le k n); auto. lia.
  Qed.

  (** A function call *)
  Definition function (v : value) : Prop := match v with Special _ | Macro _ => False | _ => True end.
  Lemma ev_call : forall e s fn args s' r s1 fv, ev e s fn s1 (Ret fv) -> function fv ->
    (ev e s (Cons fn args) s' r <->
     exists s2 a, eva e s1 args s2 a /\
       match a with inl x => s' = s2 /\ r = Exit x | inr vs => app s2 fv vs s' r end).
  Proof.
    intros e s fn args s' r s1 fv H F. split.
    - intros ([|n] & E); [discriminate|]. rewrite eval_S in E.
      destruct (eval n e s fn) as [[s0 r0]|] eqn:H1; [|discriminate].
      destruct (ev_fun e s fn s1 (Ret fv) s0 r0 H (ex_intro _ n H1)) as (<- & <-).
      assert (G : match evargs n e s1 args with
          | None => None
          | Some (s, inl x) => Some (s, Exit x)
          | Some (s, inr vs) => apply n s fv vs
          end = Some (s', r)) by (destruct fv; auto; contradiction).
      clear E. destruct (evargs n e s1 args) as [[s2 a]|] eqn:H2; [|discriminate]. exists s2, a. split; [exists n; auto|].
      destruct a; [inversion G; auto|exists n; auto].
    - intros (s2 & a & (n2 & H2) & H3). destruct H as (n1 & H1).
      assert (G : exists n, match a with inl x => Some (s2, Exit x) | inr vs => apply n s2 fv vs end = Some (s', r)).
      { destruct a; [exists 0; destruct H3 as (-> & ->); auto|exact H3]. }
      destruct G as (n3 & G). set (k := n1 + n2 + n3). exists (S k). rewrite eval_S.
      rewrite (eval_le k n1 ltac:(unfold k; lia) _ _ _ _ H1).
      assert (G2 : match evargs k e s1 args with
          | None => None
          | Some (s, inl x) => Some (s, Exit x)
          | Some (s, inr vs) => apply k s fv vs
          end = Some (s', r)).
      { rewrite (evargs_le k n2 ltac:(unfold k; lia) _ _ _ _ H2). destruct a; auto.
        apply (apply_le k n3); auto. unfold k; lia. }
      destruct fv; auto; contradiction.
  Qed.

  Lemma eva_nil : forall e s s' a, eva e s Nil s' a <-> s' = s /\ a = inr [].
  Proof.
    intros. split.
    - intros ([|n] & E); [discriminate|]. cbn in E. inversion E; auto.
    - intros (-> & ->). exists 1. reflexivity.
  Qed.
  Lemma eva_cons : forall e s f args s' a, eva e s (Cons f args) s' a <->
    (exists x, ev e s f s' (Exit x) /\ a = inl x) \/
    (exists s1 v, ev e s f s1 (Ret v) /\
       ((exists x, eva e s1 args s' (inl x) /\ a = inl x) \/ (exists vs, eva e s1 args s' (inr vs) /\ a = inr (v :: vs)))).
  Proof.
    intros e s f args s' a. split.
    - intros ([|n] & E); [discriminate|]. rewrite evargs_S in E.
      destruct (eval n e s f) as [[s1 r]|] eqn:H; [|discriminate]. destruct r as [v|x].
      + right. exists s1, v. split; [exists n; auto|].
        destruct (evargs n e s1 args) as [[s2 [x|vs]]|] eqn:H2; inversion E; subst; [left|right]; eexists; split; eauto; exists n; auto.
      + left. inversion E; subst. exists x. split; auto. exists n; auto.
    - intros [(x & (n & H) & ->)|(s1 & v & (n & H) & [(x & (m & H2) & ->)|(vs & (m & H2) & ->)])].
      + exists (S n). rewrite evargs_S. rewrite H. reflexivity.
      + exists (S (n + m)). rewrite evargs_S. rewrite (eval_le (n + m) n ltac:(lia) _ _ _ _ H).
        rewrite (evargs_le (n + m) m ltac:(lia) _ _ _ _ H2). reflexivity.
      + exists (S (n + m)). rewrite evargs_S. rewrite (eval_le (n + m) n ltac:(lia) _ _ _ _ H).
        rewrite (evargs_le (n + m) m ltac:(lia) _ _ _ _ H2). reflexivity.
  Qed.

  Lemma evs_atom : forall e s fs s' r, consp fs = false -> (evs e s fs s' r <-> s' = s /\ r = Ret (VAtom Nil)).
  Proof.
    intros e s fs s' r C. split.
    - intros ([|n] & E); [discriminate|]. destruct fs; try discriminate; cbn in E; inversion E; auto.
    - intros (-> & ->). exists 1. destruct fs; try discriminate; reflexivity.
  Qed.
  Lemma evs_cons : forall e s f fs s' r, evs e s (Cons f fs) s' r <->
    (exists x, ev e s f s' (Exit x) /\ r = Exit x) \/
    (exists s1 v, ev e s f s1 (Ret v) /\ if consp fs then evs e s1 fs s' r else s' = s1 /\ r = Ret v).
  Proof.
    intros e s f fs s' r. split.
    - intros ([|n] & E); [discriminate|]. rewrite progn_S in E.
      destruct (eval n e s f) as [[s1 q]|] eqn:H; [|discriminate]. destruct q as [v|x].
      + right. exists s1, v. split; [exists n; auto|]. destruct (consp fs); [exists n; auto|inversion E; auto].
      + left. inversion E; subst. exists x. split; auto. exists n; auto.
    - intros [(x & (n & H) & ->)|(s1 & v & (n & H) & H2)].
      + exists (S n). rewrite progn_S. rewrite H. reflexivity.
      + destruct (consp fs) eqn:C.
        * destruct H2 as (m & H2). exists (S (n + m)). rewrite progn_S. rewrite (eval_le (n + m) n ltac:(lia) _ _ _ _ H), C.
          apply (progn_le (n + m) m ltac:(lia) _ _ _ _ H2).
        * destruct H2 as (-> & ->). exists (S n). rewrite progn_S. rewrite H, C. reflexivity.
  Qed.
  Lemma evs_one : forall e s f s' r, evs e s (Cons f Nil) s' r <-> ev e s f s' r.
  Proof.
    intros. rewrite evs_cons. cbn [consp]. split.
    - intros [(x & H & ->)|(s1 & v & H & -> & ->)]; auto.
    - intros H. destruct r as [v|x]; [right; exists s', v; auto|left; exists x; auto].
  Qed.

  Lemma evc_atom : forall e s cls s' r, consp (car cls) = false -> (evc e s cls s' r <-> s' = s /\ r = Ret (VAtom Nil)).
  Proof.
    intros e s cls s' r C. split.
    - intros ([|n] & E); [discriminate|]. destruct cls; try (cbn in E; inversion E; auto; fail).
      destruct cls1; try discriminate; cbn in E; inversion E; auto.
    - intros (-> & ->). exists 1. destruct cls; try reflexivity. destruct cls1; try discriminate; reflexivity.
  Qed.
  Lemma evc_cons : forall e s c b cls s' r, evc e s (Cons (Cons c b) cls) s' r <->
    (exists x, ev e s c s' (Exit x) /\ r = Exit x) \/
    (exists s1 v, ev e s c s1 (Ret v) /\
       if nilp v then evc e s1 cls s' r else if consp b then evs e s1 b s' r else s' = s1 /\ r = Ret v).
  Proof.
    intros e s c b cls s' r. split.
    - intros ([|n] & E); [discriminate|]. rewrite evcond_S in E.
      destruct (eval n e s c) as [[s1 q]|] eqn:H; [|discriminate]. destruct q as [v|x].
      + right. exists s1, v. split; [exists n; auto|]. destruct (nilp v); [exists n; auto|].
        destruct (consp b); [exists n; auto|inversion E; auto].
      + left. inversion E; subst. exists x. split; auto. exists n; auto.
    - intros [(x & (n & H) & ->)|(s1 & v & (n & H) & H2)].
      + exists (S n). rewrite evcond_S. rewrite H. reflexivity.
      + destruct (nilp v) eqn:N.
        * destruct H2 as (m & H2). exists (S (n + m)). rewrite evcond_S. rewrite (eval_le (n + m) n ltac:(lia) _ _ _ _ H), N.
          apply (evcond_le (n + m) m ltac:(lia) _ _ _ _ H2).
        * destruct (consp b) eqn:C.
          -- destruct H2 as (m & H2). exists (S (n + m)). rewrite evcond_S.
             rewrite (eval_le (n + m) n ltac:(lia) _ _ _ _ H), N, C. apply (progn_le (n + m) m ltac:(lia) _ _ _ _ H2).
          -- destruct H2 as (-> & ->). exists (S n). rewrite evcond_S. rewrite H, N, C. reflexivity.
  Qed.

  Lemma evq_one : forall e s x f w s' r, symbolp x = true ->
    (evq e s (form_list [x; f]) w s' r <->
     (exists y, ev e s f s' (Exit y) /\ r = Exit y) \/ (exists s1 v, ev e s f s1 (Ret v) /\ (s', r) = assign e s1 x v)).
  Proof.
    intros e s x f w s' r X. split.
    - intros ([|n] & E); [discriminate|]. cbn [form_list] in E. rewrite evsetq_S in E. rewrite X in E.
      destruct (eval n e s f) as [[s1 q]|] eqn:H; [|discriminate]. destruct q as [v|y].
      + right. exists s1, v. split; [exists n; auto|]. destruct (assign e s1 x v) as [s2 q] eqn:A.
        assert (V : q = Ret v \/ exists y, q = Exit y).
        { unfold assign in A. destruct (lookup e x); [inversion A; auto|]. destruct (std x); inversion A; eauto. }
        destruct q as [u|y]; [|inversion E; auto].
        destruct V as [V|(y & V)]; [|discriminate]. inversion V; subst.
        destruct n as [|n]; [discriminate|]. cbn in E. inversion E; auto.
      + left. inversion E; subst. exists y. split; auto. exists n; auto.
    - intros [(y & (n & H) & ->)|(s1 & v & (n & H) & H2)].
      + exists (S n). cbn [form_list]. rewrite evsetq_S. rewrite X, H. reflexivity.
      + exists (S (S n)). remember (S n) as m. cbn [form_list]. rewrite evsetq_S. rewrite X.
        rewrite (eval_le m n ltac:(lia) _ _ _ _ H). destruct (assign e s1 x v) as [s2 q] eqn:A. inversion H2; subst s2 q.
        unfold assign in A. destruct r as [u|y]; [|reflexivity]. subst m. rewrite evsetq_S.
        destruct (lookup e x); [inversion A; auto|]. destruct (std x); inversion A; auto.
  Qed.

  Lemma app_clo : forall s params body e vs s' r, app s (Clo (Cons params body) e) vs s' r <->
    match bind params vs e (store s) with
    | None => False
    | Some None => s' = s /\ r = Exit missing_arg
    | Some (Some (e', st)) => evs e' (set_store s st) body s' r
    end.
  Proof.
    intros s params body e vs s' r. split.
    - intros ([|n] & E); [discriminate|]. rewrite apply_S in E. cbn [car cdr] in E.
      destruct (bind params vs e (store s)) as [[[e' st]|]|]; [exists n; auto|inversion E; auto|discriminate].
    - destruct (bind params vs e (store s)) as [[[e' st]|]|] eqn:B; [intros (n & H)|intros (-> & ->)|contradiction].
      + exists (S n). rewrite apply_S. cbn [car cdr]. rewrite B. auto.
      + exists 1. rewrite apply_S. cbn [car cdr]. rewrite B. auto.
  Qed.

  Lemma bind_all : forall xs vs e st, Forall (fun x => symbolp x = true) xs -> length xs = length vs ->
    bind (form_list xs) vs e st = Some (Some (names e (length st) xs, (st ++ vs)%list)).
  Proof.
    induction xs as [|x xs IH]; intros vs e st F L; destruct vs as [|v vs]; try discriminate.
    - cbn. rewrite app_nil_r. reflexivity.
    - inversion F; subst. cbn [form_list bind names]. rewrite H1. rewrite IH; auto.
      rewrite app_length. cbn [length]. rewrite Nat.add_1_r, <- app_assoc. reflexivity.
  Qed.
End P.
