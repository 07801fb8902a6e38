From Coq Require Import String ZArith List Bool Arith Lia.
From Verif Require Import Syntax_Model Syntax_Spec Syntax_Proofs Syntax_Forms.
Import ListNotations.

(** ** The expansion of a form without the symbol is without it *)
Section Absent.
  Variable g : nat.
  Notation absent := (absent g).
  Lemma ab_car : forall f, absent f -> absent (car f).
  Proof. intros []; cbn; tauto. Qed.
  Lemma ab_cdr : forall f, absent f -> absent (cdr f).
  Proof. intros []; cbn; tauto. Qed.
  Lemma ab_mapcar : forall h l, (forall x, absent x -> absent (h x)) -> absent l -> absent (mapcar h l).
  Proof. intros h l H. induction l; cbn; auto. intros (A & B). auto. Qed.
  Lemma ab_append : forall a b, absent a -> absent b -> absent (append a b).
  Proof. intros a b. induction a; cbn; auto. intros (A & B) C. auto. Qed.
  Lemma ab_reverse_onto : forall l out, absent l -> absent out -> absent (reverse_onto l out).
  Proof. induction l; cbn; auto. intros out (A & B) C. apply IHl2; cbn; auto. Qed.
  Lemma ab_reverse : forall l, absent l -> absent (reverse l).
  Proof. intros. apply ab_reverse_onto; cbn; auto. Qed.
  Lemma ab_let_star : forall l body, absent l -> absent body -> absent (let_star_loop l body).
  Proof. induction l; cbn [let_star_loop]; auto. intros body (A & B) C. apply IHl2; auto. cbn. auto. Qed.
  Lemma ab_and : forall l body, absent l -> absent body -> absent (and_loop l body).
  Proof. induction l; cbn [and_loop]; auto. intros body (A & B) C. apply IHl2; auto. destruct (null body); cbn; auto. Qed.
  Lemma ab_clause : forall tem c, absent tem -> absent c -> absent (case_clause tem c).
  Proof.
    intros tem c T C. unfold case_clause. pose proof (ab_car _ C). pose proof (ab_cdr _ C). pose proof (ab_car _ H).
    destruct (atom_eqb _ _); [cbn; auto|]. destruct (negb _); cbn [form_list Syntax_Spec.absent]; tauto.
  Qed.
  Lemma ab_case_loop : forall tem rest body, absent tem -> absent rest -> absent body -> absent (case_loop tem body rest).
  Proof.
    intros tem rest. induction rest; intros body T R B; cbn [case_loop]; try (apply ab_reverse; auto).
    destruct R as (R1 & R2). apply IHrest2; auto. split; auto. apply ab_clause; auto.
  Qed.
  Lemma ab_expand : forall m tem args, absent tem -> absent args -> absent (expand m tem args).
  Proof.
    intros m tem args T A.
    pose proof (ab_car _ A) as A1. pose proof (ab_cdr _ A) as A2. pose proof (ab_car _ A2) as A3. pose proof (ab_cdr _ A2) as A4.
    assert (VARS : forall l, absent l -> absent (mapcar (fun x => if consp x then car x else x) l)).
    { intros. apply ab_mapcar; auto. intros x X. destruct (consp x); auto. apply ab_car; auto. }
    assert (VALS : forall l, absent l -> absent (mapcar (fun x => if consp x then Cons (Sym "progn") (cdr x) else Nil) l)).
    { intros. apply ab_mapcar; auto. intros x X. destruct (consp x); cbn; auto. split; auto. apply ab_cdr; auto. }
    destruct m; cbn [expand].
    - unfold let_macro. destruct (symbolp (car args)).
      + pose proof (VARS _ A3). pose proof (VALS _ A3). cbn [form_list Syntax_Spec.absent]. tauto.
      + pose proof (VARS _ A1). pose proof (VALS _ A1). cbn [form_list Syntax_Spec.absent]. tauto.
    - apply ab_let_star; [apply ab_reverse; auto|cbn; auto].
    - unfold letrec_macro. pose proof (VARS _ A1). cbn [form_list Syntax_Spec.absent]. repeat split; auto. apply ab_append; auto.
      apply ab_mapcar; auto. intros x X. pose proof (ab_car _ X). pose proof (ab_cdr _ X). destruct (consp x); cbn [form_list Syntax_Spec.absent]; tauto.
    - unfold if_macro. unfold cadr, cddr in *. destruct (null _); cbn [form_list Syntax_Spec.absent]; tauto.
    - unfold case_macro. pose proof (ab_case_loop tem (cdr args) Nil T A2 I). cbn [form_list Syntax_Spec.absent]. tauto.
    - unfold when_macro. cbn [form_list Syntax_Spec.absent]. tauto.
    - unfold unless_macro. cbn [form_list Syntax_Spec.absent]. tauto.
    - unfold or_macro. destruct (null args); cbn; auto. split; auto. apply ab_mapcar; auto. cbn. tauto.
    - unfold and_macro. destruct (null args); cbn; auto. apply ab_and; [apply ab_reverse; auto|exact I].
    - unfold do_macro, cadr, cddr in *.
      pose proof (ab_car _ A3). pose proof (ab_cdr _ A3).
      assert (absent (mapcar (fun var => form_list [car var; car (cdr var)]) (car args))).
      { apply ab_mapcar; auto. intros x X. pose proof (ab_car _ X). pose proof (ab_car _ (ab_cdr _ X)). cbn [form_list Syntax_Spec.absent]. tauto. }
      assert (absent (mapcar (fun var => if null (cdr (cdr var)) then car var else caddr var) (car args))).
      { apply ab_mapcar; auto. intros x X. destruct (null _); [apply ab_car; auto|]. unfold caddr, cddr. apply ab_car, ab_cdr, ab_cdr; auto. }
      assert (absent (append (cdr (cdr args)) (form_list [Cons tem (mapcar (fun var => if null (cdr (cdr var)) then car var else caddr var) (car args))]))).
      { apply ab_append; auto. cbn [form_list Syntax_Spec.absent]. tauto. }
      cbn [form_list Syntax_Spec.absent]. tauto.
    - unfold while_macro. cbn [form_list Syntax_Spec.absent]. tauto.
    - unfold prog1_macro. cbn [form_list Syntax_Spec.absent]. repeat split; auto. apply ab_append; auto. cbn; auto.
    - unfold prog2_macro. cbn [form_list Syntax_Spec.absent]. tauto.
  Qed.
End Absent.

Section K.
  Variable world : Type.
  Variable call_prim : nat -> list value -> world -> world * (sexp + sexp).
  Notation state := (state world).
  Variable g : nat.
  Variable hid : option nat.
  Notation absent := (absent g).

  (** Text that mentions the symbol only to call it or to return its value *)
  Inductive quiet : sexp -> Prop :=
  | Q_absent : forall f, absent f -> quiet f
  | Q_var : quiet (Gen g)
  | Q_call : forall args, absent args -> quiet (Cons (Gen g) args)
  | Q_cond : forall cls, quiet_clauses cls -> quiet (Cons (Sym "cond") cls)
  | Q_if : forall c a b, absent c -> absent a -> quiet_body b -> quiet (Cons (Sym "if") (Cons c (Cons a b)))
  with quiet_clauses : sexp -> Prop :=
  | QC_absent : forall f, absent f -> quiet_clauses f
  | QC_cons : forall c b cls, absent c -> quiet_body b -> quiet_clauses cls -> quiet_clauses (Cons (Cons c b) cls)
  with quiet_body : sexp -> Prop :=
  | QB_absent : forall f, absent f -> quiet_body f
  | QB_one : forall f, quiet f -> quiet_body (Cons f Nil)
  | QB_cons : forall f fs, absent f -> quiet_body fs -> quiet_body (Cons f fs).

  Definition qf (e : env) (f : sexp) : Prop := absent f \/ plain e /\ quiet f.
  Definition qb (e : env) (f : sexp) : Prop := absent f \/ plain e /\ quiet_body f.
  Definition qc (e : env) (f : sexp) : Prop := absent f \/ plain e /\ quiet_clauses f.

  Definition okenv (k : nat) (e : env) : Prop := forall x p, In (x, p) e -> p < k /\ (hid = Some p -> x = Gen g).
  Definition plain_params (l : sexp) : Prop := forall vs e st e' st', bind l vs e st = Some (Some (e', st')) -> plain e -> plain e'.
  Fixpoint okval (k : nat) (v : value) : Prop :=
    match v with
    | VPair a d => okval k a /\ okval k d
    | Clo lam e => okenv k e /\ absent (car lam) /\
                   (absent (cdr lam) \/ (plain e /\ plain_params (car lam) /\ quiet_body (cdr lam)))
    | _ => True
    end.
  Definition okres (k : nat) (r : res) : Prop := match r with Ret v | Exit v => okval k v end.
  Definition oks (s : state) : Prop :=
    (forall v, In v (store s) -> okval (here world s) v) /\
    (forall x v, globals s x = Some v -> okval (here world s) v) /\ g < next_gen s /\
    (forall l, hid = Some l -> l < here world s).
  Definition ext (s s' : state) : Prop :=
    here world s <= here world s' /\ (forall l, hid = Some l -> nth_error (store s') l = nth_error (store s) l).

  Lemma okenv_le : forall k k' e, k <= k' -> okenv k e -> okenv k' e.
  Proof. intros k k' e L O x p I. destruct (O x p I). split; auto. lia. Qed.
  Lemma okval_le : forall k k' v, k <= k' -> okval k v -> okval k' v.
  Proof.
    clear world call_prim. intros k k' v L. induction v; cbn; auto; [intros (A & B); auto|]. intros (O & A). split; auto. eapply okenv_le; eauto.
  Qed.
  Lemma ext_refl : forall s, ext s s.
  Proof. split; auto. Qed.
  Lemma ext_trans : forall a b c, ext a b -> ext b c -> ext a c.
  Proof. intros a b c (L1 & H1) (L2 & H2). split; [lia|]. intros l HL. rewrite H2, H1; auto. Qed.
  Lemma okval_quoted : forall k f, okval k (quoted f).
  Proof. induction f; cbn; auto. Qed.
  Lemma okval_memql : forall k v l, okval k l -> okval k (memql v l).
  Proof. induction l; cbn; auto. intros (A & B). destruct (eql v l1); cbn; auto. Qed.
  Lemma okval_nth : forall k vs n, Forall (okval k) vs -> okval k (nth_arg n vs).
  Proof.
    intros k vs n F. unfold nth_arg. destruct (nth_in_or_default n vs (VAtom Nil)) as [I|E]; [|rewrite E; exact I].
    rewrite Forall_forall in F. auto.
  Qed.
  Lemma okval_truth : forall k b, okval k (truth b).
  Proof. intros k []; exact I. Qed.

  Lemma oks_push : forall s vs, oks s -> Forall (okval (here world s)) vs ->
    oks (push world s vs) /\ ext s (push world s vs).
  Proof.
    intros s vs (O1 & O2 & O3 & O4) F.
    assert (L : here world (push world s vs) = here world s + length vs).
    { unfold here, push. cbn [set_store store]. apply app_length. }
    split.
    - repeat split.
      + intros v I. rewrite L. apply okval_le with (here world s); [lia|]. unfold push in I. cbn [set_store store] in I.
        apply in_app_or in I. destruct I as [I|I]; auto. rewrite Forall_forall in F. auto.
      + intros x v H. rewrite L. apply okval_le with (here world s); [lia|]. eapply O2; eauto.
      + exact O3.
      + intros l HL. rewrite L. specialize (O4 l HL). lia.
    - split; [lia|]. intros l HL. unfold push. cbn [set_store store]. apply nth_error_app1. exact (O4 l HL).
  Qed.

  Lemma bind_push : forall params vs e s e' st, bind params vs e (store s) = Some (Some (e', st)) ->
    exists ws xs, (exists rest, vs = (ws ++ rest)%list) /\ st = store (push world s ws) /\
      e' = names e (here world s) xs /\ length xs = length ws.
  Proof.
    induction params as [|t|k|z|t|params1 IHparams1 params2 IHparams2]; intros vs e s e' st H; cbn [bind] in H; try discriminate.
    - inversion H; subst. exists [], []. repeat split; [exists vs; auto|]. unfold push. cbn. rewrite app_nil_r. auto.
    - destruct (symbolp params1); [|discriminate]. destruct vs as [|v vs]; [discriminate|].
      change (store s ++ [v])%list with (store (push world s [v])) in H.
      apply IHparams2 in H. destruct H as (ws & xs & (rest & ->) & -> & -> & L). exists (v :: ws), (params1 :: xs).
      repeat split; [exists rest; auto| | |cbn; lia].
      + unfold push. cbn [set_store store]. rewrite <- app_assoc. reflexivity.
      + cbn [names]. f_equal. unfold here, push. cbn [set_store store]. rewrite app_length. cbn. lia.
  Qed.
  Lemma okenv_names : forall xs e k, okenv k e -> (forall l, hid = Some l -> l < k) -> okenv (k + length xs) (names e k xs).
  Proof.
    induction xs as [|x xs IH]; intros e k O H; cbn [names length].
    - rewrite Nat.add_0_r. auto.
    - replace (k + S (length xs)) with (S k + length xs) by lia. apply IH.
      + intros y p [E|I]; [inversion E; subst|].
        * split; [lia|]. intros HL. specialize (H p HL). lia.
        * destruct (O y p I). split; auto.
      + intros l HL. specialize (H l HL). lia.
  Qed.

  Lemma lookup_in : forall e x p, symbolp x = true -> lookup e x = Some p -> In (x, p) e.
  Proof.
    induction e as [|[y q] e IH]; intros x p SY H; [discriminate|]. cbn [lookup] in H. destruct (atom_eqb y x) eqn:E.
    - inversion H; subst. apply (atom_eqb_eq y x SY) in E. subst. left. auto.
    - right. auto.
  Qed.

  Lemma ok_value_of : forall e s x, oks s -> okres (here world s) (value_of e s x).
  Proof.
    intros e s x (O1 & O2 & _). unfold value_of. destruct (lookup e x).
    - cbn. destruct (nth_in_or_default n (store s) (VAtom Nil)) as [I|E]; [auto|rewrite E; exact I].
    - destruct (std x) eqn:SD.
      + cbn. unfold std in SD. destruct x; try discriminate.
        repeat match type of SD with context [if ?b then _ else _] => destruct b; [inversion SD; exact I|] end. discriminate.
      + destruct (globals s x) eqn:G; cbn; auto. eapply O2; eauto.
  Qed.

  Lemma update_in : forall l v st w, In w (update l v st) -> w = v \/ In w st.
  Proof.
    intros l v st. revert l. induction st as [|a st IH]; intros [|l] w H; cbn in *; auto.
    - destruct H as [->|H]; auto.
    - destruct H as [->|H]; auto. apply IH in H. destruct H; auto.
  Qed.
  Lemma update_length : forall l v st, length (update l v st) = length st.
  Proof. intros l v st. revert l. induction st; intros [|l]; cbn; auto. Qed.
  Lemma update_nth : forall l v st k, k <> l -> nth_error (update l v st) k = nth_error st k.
  Proof. intros l v st. revert l. induction st; intros [|l] [|k] H; cbn; auto; congruence. Qed.

  Lemma ok_assign : forall e s x v s' r, oks s -> okenv (here world s) e -> symbolp x = true -> absent x -> okval (here world s) v ->
    assign e s x v = (s', r) -> ext s s' /\ oks s' /\ okres (here world s') r.
  Proof.
    intros e s x v s' r O OE SY A V H. unfold assign in H. destruct O as (O1 & O2 & O3 & O4).
    destruct (lookup e x) as [p|] eqn:L.
    - inversion H; subst. apply lookup_in in L; auto. destruct (OE x p L) as (_ & HP).
      assert (HL : here world (set_store s (update p v (store s))) = here world s).
      { unfold here. cbn [set_store store]. apply update_length. }
      split; [|split].
      + split; [lia|]. intros l E. cbn [set_store store]. apply update_nth. intros ->. specialize (HP E). subst. cbn in A. congruence.
      + repeat split.
        * intros w I. rewrite HL. cbn [set_store store] in I. apply update_in in I. destruct I as [->|I]; auto.
        * intros y w E. rewrite HL. eapply O2; eauto.
        * exact O3.
        * intros l E. rewrite HL. auto.
      + rewrite HL. exact V.
    - destruct (std x); inversion H; subst.
      + split; [apply ext_refl|split; [split; auto|exact I]].
      + split; [split; auto|]. split; [|exact V]. repeat split; auto. intros y w E. cbn [globals] in E.
        destruct (atom_eqb x y); [inversion E; subst; auto|eapply O2; eauto].
  Qed.

  Lemma oks_gensym : forall s, oks s -> oks (gensym s).
  Proof. intros s (O1 & O2 & O3 & O4). repeat split; auto. cbn. lia. Qed.

  Definition keeps (s s' : state) (r : res) : Prop := ext s s' /\ oks s' /\ okres (here world s') r.

  Lemma qf_absent : forall e f, absent f -> qf e f.
  Proof. left; auto. Qed.
  Lemma here_le : forall s s' e, ext s s' -> okenv (here world s) e -> okenv (here world s') e.
  Proof. intros s s' e (L & _). apply okenv_le. exact L. Qed.

  Definition args_ok (k : nat) (a : value + list value) : Prop :=
    match a with inl x => okval k x | inr vs => Forall (okval k) vs end.

  Lemma keep : forall n,
    (forall e s f s' r, oks s -> okenv (here world s) e -> qf e f -> eval call_prim n e s f = Some (s', r) -> keeps s s' r) /\
    (forall e s f s' r, oks s -> okenv (here world s) e -> qb e f -> progn call_prim n e s f = Some (s', r) -> keeps s s' r) /\
    (forall e s f s' r, oks s -> okenv (here world s) e -> qc e f -> evcond call_prim n e s f = Some (s', r) -> keeps s s' r) /\
    (forall e s f s' r v, oks s -> okenv (here world s) e -> absent f -> okval (here world s) v -> evsetq call_prim n e s f v = Some (s', r) -> keeps s s' r) /\
    (forall e s f s' a, oks s -> okenv (here world s) e -> absent f -> evargs call_prim n e s f = Some (s', a) ->
        ext s s' /\ oks s' /\ args_ok (here world s') a) /\
    (forall s fv vs s' r, oks s -> okval (here world s) fv -> Forall (okval (here world s)) vs -> apply call_prim n s fv vs = Some (s', r) -> keeps s s' r).
  Proof.
    induction n as [|n (EV & PR & CO & SE & AR & AP)]; [repeat split; intros; discriminate|].
    (* a call whose arguments do not mention the symbol *)
    assert (CALL : forall e s fn args s' r, oks s -> okenv (here world s) e -> qf e fn -> absent args ->
      eval call_prim (S n) e s (Cons fn args) = Some (s', r) -> keeps s s' r).
    { intros e s fn args s' r O OE Q A H. rewrite eval_S in H. destruct (eval call_prim n e s fn) as [[s1 [v|x]]|] eqn:E1; [| |discriminate].
      2: { inversion H; subst. eapply EV; eauto. }
      destruct (EV _ _ _ _ _ O OE Q E1) as (X1 & O1 & R1). pose proof (here_le _ _ _ X1 OE) as OE1.
      assert (K : forall s2 q, keeps s1 s2 q -> keeps s s2 q).
      { intros s2 q (X2 & O2 & R2). split; [eapply ext_trans; eauto|auto]. }
      assert (GEN : match evargs call_prim n e s1 args with
                    | None => None | Some (s2, inl x) => Some (s2, Exit x) | Some (s2, inr vs) => apply call_prim n s2 v vs end = Some (s', r) -> keeps s s' r).
      { intros H'. destruct (evargs call_prim n e s1 args) as [[s2 [x|vs]]|] eqn:E2; [| |discriminate];
          destruct (AR _ _ _ _ _ O1 OE1 A E2) as (X2 & O2 & R2); apply K.
        - inversion H'; subst. split; auto.
        - assert (V : okval (here world s2) v) by (eapply okval_le; [apply X2|exact R1]).
          destruct (AP _ _ _ _ _ O2 V R2 H') as (X3 & O3 & R3). split; [eapply ext_trans; eauto|auto]. }
      destruct v as [a|a d|lam e0|p|x|m]; try (apply GEN; exact H).
      - apply K. destruct x.
        + inversion H; subst. split; [apply ext_refl|split; auto]. apply okval_quoted.
        + destruct (consp args); inversion H; subst; (split; [apply ext_refl|split; auto]); try exact I.
          cbn. split; auto. split; [apply ab_car; auto|left; apply ab_cdr; auto].
        + eapply CO; eauto. left; auto.
        + eapply PR; eauto. left; auto.
        + apply (SE _ _ _ _ _ _ O1 OE1 A (I : okval (here world s1) (VAtom Nil)) H).
      - apply K. assert (T : absent (Gen (next_gen s1))) by (destruct O1 as (_ & _ & O1 & _); cbn; lia).
        assert (O2 : oks (if uses_gensym m then gensym s1 else s1)) by (destruct (uses_gensym m); auto; apply oks_gensym; auto).
        assert (HE : here world (if uses_gensym m then gensym s1 else s1) = here world s1) by (destruct (uses_gensym m); auto).
        destruct (EV e _ _ _ _ O2 ltac:(rewrite HE; exact OE1) (qf_absent e _ (ab_expand g m _ args T A)) H) as (X3 & O3 & R3).
        split; auto. destruct X3 as (X3 & X4). split; [lia|]. intros l HL. rewrite X4 by auto. destruct (uses_gensym m); auto. }
    assert (ATOM : forall e s f s' r, oks s -> (forall a d, f <> Cons a d) -> eval call_prim (S n) e s f = Some (s', r) -> keeps s s' r).
    { intros e s f s' r O NC H. rewrite eval_S in H. destruct f; try (inversion H; subst; split; [apply ext_refl|split; auto]; try exact I; apply ok_value_of; auto).
      exfalso. eapply NC; eauto. }
    assert (PLAIN : forall e s t v, plain e -> std (Sym t) = Some v -> forall q, eval call_prim n e s (Sym t) = Some q -> q = (s, Ret v)).
    { intros e s t v P SD q H. destruct n as [|k]; [discriminate|]. rewrite eval_S in H. inversion H.
      rewrite (value_std world e s (Sym t) v); auto. eapply plain_std; eauto. }
    split; [|split; [|split; [|split; [|split]]]].
    - intros e s f s' r O OE Q H. destruct f as [| | | | |fn args]; try (eapply ATOM; eauto; congruence).
      destruct Q as [Q|(P & Q)]; [destruct Q as (Q1 & Q2); eapply CALL; eauto; apply qf_absent; auto|].
      inversion Q as [f' A|A|args' A|cls A|c a b A1 A2 A3]; subst.
      + destruct A as (Q1 & Q2). eapply CALL; eauto. apply qf_absent; auto.
      + apply (CALL e s (Gen g) args s' r); auto. right. split; auto. apply Q_var.
      + rewrite eval_S in H. destruct (eval call_prim n e s (Sym "cond")) as [q|] eqn:E1; [|discriminate].
        rewrite (PLAIN e s "cond" (Special SCond) P eq_refl q E1) in H.
        eapply CO; eauto. right; auto.
      + rewrite eval_S in H. destruct (eval call_prim n e s (Sym "if")) as [q|] eqn:E1; [|discriminate].
        rewrite (PLAIN e s "if" (Macro MIf) P eq_refl q E1) in H. cbn [uses_gensym expand] in H.
        eapply EV; eauto. right. split; auto.
        unfold if_macro, cadr, cddr. cbn [car cdr]. destruct (null b); cbn [form_list]; apply Q_cond; apply QC_cons; auto;
          try (apply QB_absent; cbn; auto); try (apply QC_absent; exact I). apply QC_cons; auto; [exact I|apply QC_absent; exact I].
    - intros e s f s' r O OE Q H. rewrite progn_S in H.
      destruct f as [| | | | |f fs]; try (inversion H; subst; split; [apply ext_refl|split; auto; exact I]).
      assert (Q' : qf e f /\ qb e fs).
      { destruct Q as [(Q1 & Q2)|(P & Q)]; [split; left; auto|]. inversion Q as [f' A|f' A|f' fs' A1 A2]; subst.
        - destruct A. split; left; auto.
        - split; [right; auto|left; exact I].
        - split; [left; auto|right; auto]. }
      destruct Q' as (Q1 & Q2). destruct (eval call_prim n e s f) as [[s1 [v|x]]|] eqn:E1; [| |discriminate];
        destruct (EV _ _ _ _ _ O OE Q1 E1) as (X1 & O1 & R1).
      + destruct (consp fs); [|inversion H; subst; split; auto].
        destruct (PR _ _ _ _ _ O1 (here_le _ _ _ X1 OE) Q2 H) as (X2 & O2 & R2). split; [eapply ext_trans; eauto|auto].
      + inversion H; subst. split; auto.
    - intros e s f s' r O OE Q H. rewrite evcond_S in H.
      destruct f as [| | | | |cl cls]; try (inversion H; subst; split; [apply ext_refl|split; auto; exact I]).
      destruct cl as [| | | | |c b]; try (inversion H; subst; split; [apply ext_refl|split; auto; exact I]).
      assert (Q' : absent c /\ qb e b /\ qc e cls).
      { destruct Q as [((Q1 & Q2) & Q3)|(P & Q)]; [repeat split; auto; left; auto|]. inversion Q as [f' A|c' b' cls' A1 A2 A3]; subst.
        - destruct A as ((Q1 & Q2) & Q3). repeat split; auto; left; auto.
        - repeat split; auto; right; auto. }
      destruct Q' as (Q1 & Q2 & Q3). destruct (eval call_prim n e s c) as [[s1 [v|x]]|] eqn:E1; [| |discriminate];
        destruct (EV _ _ _ _ _ O OE (qf_absent e c Q1) E1) as (X1 & O1 & R1).
      + destruct (nilp v); [|destruct (consp b)].
        * destruct (CO _ _ _ _ _ O1 (here_le _ _ _ X1 OE) Q3 H) as (X2 & O2 & R2). split; [eapply ext_trans; eauto|auto].
        * destruct (PR _ _ _ _ _ O1 (here_le _ _ _ X1 OE) Q2 H) as (X2 & O2 & R2). split; [eapply ext_trans; eauto|auto].
        * inversion H; subst; split; auto.
      + inversion H; subst. split; auto.
    - intros e s f s' r v O OE Q V H. rewrite evsetq_S in H.
      destruct f as [| | | | |x [| | | | |f fs]]; try (inversion H; subst; split; [apply ext_refl|split; auto; exact V]).
      destruct (symbolp x) eqn:SY; [|inversion H; subst; split; [apply ext_refl|split; auto; exact V]].
      destruct Q as (Q1 & Q2 & Q3).
      destruct (eval call_prim n e s f) as [[s1 [w|y]]|] eqn:E1; [| |discriminate];
        destruct (EV _ _ _ _ _ O OE (qf_absent e f Q2) E1) as (X1 & O1 & R1).
      + destruct (assign e s1 x w) as [s2 q] eqn:E2.
        destruct (ok_assign _ _ _ _ _ _ O1 (here_le _ _ _ X1 OE) SY Q1 R1 E2) as (X2 & O2 & R2).
        pose proof (ext_trans _ _ _ X1 X2) as X3. destruct q as [u|y].
        * assert (W : okval (here world s2) w) by (eapply okval_le; [apply X2|exact R1]).
          destruct (SE _ _ _ _ _ _ O2 (here_le _ _ _ X3 OE) Q3 W H) as (X4 & O4 & R4). split; [eapply ext_trans; eauto|auto].
        * inversion H; subst. split; auto.
      + inversion H; subst. split; auto.
    - intros e s f s' a O OE Q H. rewrite evargs_S in H.
      destruct f as [| | | | |f fs]; try (inversion H; subst; split; [apply ext_refl|split; auto; constructor]).
      destruct Q as (Q1 & Q2).
      destruct (eval call_prim n e s f) as [[s1 [w|y]]|] eqn:E1; [| |discriminate];
        destruct (EV _ _ _ _ _ O OE (qf_absent e f Q1) E1) as (X1 & O1 & R1).
      + destruct (evargs call_prim n e s1 fs) as [[s2 [x|vs]]|] eqn:E2; [| |discriminate];
          destruct (AR _ _ _ _ _ O1 (here_le _ _ _ X1 OE) Q2 E2) as (X2 & O2 & R2); inversion H; subst;
          (split; [eapply ext_trans; eauto|split; auto]). constructor; auto. eapply okval_le; [apply X2|exact R1].
      + inversion H; subst. split; auto.
    - intros s fv vs s' r O V F H. rewrite apply_S in H.
      destruct fv as [a|a d|lam e0|p|x|m]; try (inversion H; subst; split; [apply ext_refl|split; auto; exact I]).
      + destruct (bind (car lam) vs e0 (store s)) as [[[e1 st]|]|] eqn:B; [| |discriminate].
        * destruct V as (OE & AB & BODY). pose proof B as B2. apply bind_push in B. destruct B as (ws & xs & (rest & ->) & -> & -> & L).
          apply Forall_app in F. destruct F as (F & _).
          destruct (oks_push s ws O F) as (O1 & X1).
          assert (OE1 : okenv (here world (push world s ws)) (names e0 (here world s) xs)).
          { replace (here world (push world s ws)) with (here world s + length xs).
            - apply okenv_names; auto. apply O.
            - unfold here, push. cbn [set_store store]. rewrite app_length. lia. }
          destruct (PR (names e0 (here world s) xs) (push world s ws) (cdr lam) s' r O1 OE1) as (X2 & O2 & R2).
          -- destruct BODY as [A|(P & PP & Q)]; [left; auto|right; split; auto]. eapply PP; eauto.
          -- exact H.
          -- split; [eapply ext_trans; eauto|auto].
        * inversion H; subst. split; [apply ext_refl|split; auto; exact I].
      + destruct p as [| | |k].
        * inversion H; subst. split; [apply ext_refl|split; auto]. apply okval_truth.
        * inversion H; subst. split; [apply ext_refl|split; auto]. apply okval_memql, okval_nth; auto.
        * inversion H; subst. split; [apply ext_refl|split; auto]. apply okval_truth.
        * destruct (call_prim k vs (outside s)) as [w q]. inversion H; subst. split; [split; auto|split].
          -- destruct O as (O1 & O2 & O3 & O4). repeat split; auto.
          -- destruct q; apply okval_quoted.
  Qed.
End K.
