From Coq Require Import String ZArith List Bool Arith Lia.
From Verif Require Import Syntax_Model Syntax_Spec Syntax_Proofs.
Import ListNotations.

Lemma plain_std : forall e t v, plain e -> std (Sym t) = Some v -> lookup e (Sym t) = None.
Proof. intros e t v P SD. apply P. congruence. Qed.
Lemma plain_cons : forall x k e, variable x -> plain e -> plain ((x, k) :: e).
Proof.
  intros x k e (V1 & V2) P y SD. cbn [lookup]. destruct (atom_eqb x y) eqn:E; [|apply P; auto].
  exfalso. assert (symbolp y = true) as Y by (destruct y; cbn in *; congruence).
  apply (atom_eqb_eq x y Y) in E. subst. contradiction.
Qed.
Lemma plain_names : forall xs e k, Forall variable xs -> plain e -> plain (names e k xs).
Proof.
  induction xs as [|x xs IH]; intros e k F P; cbn [names]; auto. inversion F; subst. apply IH; auto. apply plain_cons; auto.
Qed.
Lemma variables_symbols : forall xs, Forall variable xs -> Forall (fun x => symbolp x = true) xs.
Proof. intros xs. apply Forall_impl. intros x (H & _). exact H. Qed.

Lemma consp_list : forall l, consp (form_list l) = negb (match l with [] => true | _ => false end).
Proof. intros [|]; reflexivity. Qed.
Lemma mapcar_list : forall h l, mapcar h (form_list l) = form_list (map h l).
Proof. induction l; cbn; congruence. Qed.
Lemma append_list : forall l m, append (form_list l) (form_list m) = form_list (l ++ m)%list.
Proof. induction l; cbn; congruence. Qed.
Lemma reverse_list : forall l, reverse (form_list l) = form_list (rev l).
Proof.
  assert (G : forall l m, reverse_onto (form_list l) (form_list m) = form_list (rev l ++ m)%list).
  { induction l as [|a l IH]; intros m; cbn [form_list reverse_onto rev]; auto.
    change (Cons a (form_list m)) with (form_list (a :: m)). rewrite IH, <- app_assoc. reflexivity. }
  intros l. unfold reverse. change Nil with (form_list []). rewrite G, app_nil_r. reflexivity.
Qed.

Section F.
  Variable world : Type.
  Variable call_prim : nat -> list value -> world -> world * (sexp + sexp).
  Notation state := (state world).
  Notation ev := (ev world call_prim). Notation evs := (evs world call_prim).
  Notation evc := (evc world call_prim). Notation eva := (eva world call_prim). Notation app := (app world call_prim).
  Notation inits := (inits world call_prim). Notation init := (init world call_prim).

  Lemma ev_cond : forall e s cls s' r, plain e -> (ev e s (Cons (Sym "cond") cls) s' r <-> evc e s cls s' r).
  Proof. intros. rewrite (ev_special _ _ e s _ _ _ _ SCond) by (try apply (plain_std e _ (Special SCond)); auto). reflexivity. Qed.
  Lemma ev_progn : forall e s fs s' r, plain e -> (ev e s (Cons (Sym "progn") fs) s' r <-> evs e s fs s' r).
  Proof. intros. rewrite (ev_special _ _ e s _ _ _ _ SProgn) by (try apply (plain_std e _ (Special SProgn)); auto). reflexivity. Qed.
  Lemma ev_t : forall e s s' r, plain e -> (ev e s (Sym "t") s' r <-> s' = s /\ r = Ret (VAtom (Sym "t"))).
  Proof.
    intros. rewrite ev_var by reflexivity. rewrite (value_std world e s (Sym "t") (VAtom (Sym "t"))); [reflexivity| |reflexivity].
    eapply plain_std; eauto. reflexivity.
  Qed.
  Ltac macro m := rewrite (ev_macro _ _ _ _ _ _ _ _ m) by (try reflexivity; eapply plain_std; eauto; reflexivity);
    cbn [uses_gensym expand].

  (** ** Conditionals *)
  Lemma evc_else : forall e s b s' r, plain e ->
    (evc e s (form_list (match b with [] => [] | _ => [Cons (Sym "t") (form_list b)] end)) s' r <-> evs e s (form_list b) s' r).
  Proof.
    intros e s b s' r P. destruct b as [|f b].
    - cbn [form_list]. rewrite evc_atom, evs_atom by reflexivity. reflexivity.
    - cbn [form_list]. rewrite evc_cons. split.
      + intros [(x & H & _)|(s1 & v & H & H2)]; apply (ev_t e s) in H; auto; destruct H as (H & H'); [discriminate|].
        inversion H'; subst. cbn in H2. exact H2.
      + intros H. right. exists s, (VAtom (Sym "t")). split; [apply ev_t; auto|]. cbn. exact H.
  Qed.
  Lemma if_ok : forall e s c a b s' r, plain e ->
    (ev e s (Cons (Sym "if") (Cons c (Cons a (form_list b)))) s' r <-> if_means world call_prim e s c a (form_list b) s' r).
  Proof.
    intros e s c a b s' r P. macro MIf.
    assert (E : if_macro (Cons c (Cons a (form_list b))) = Cons (Sym "cond") (Cons (form_list [c; a])
      (form_list (match b with [] => [] | _ => [Cons (Sym "t") (form_list b)] end)))).
    { destruct b; reflexivity. }
    rewrite E, ev_cond by auto. cbn [form_list]. rewrite evc_cons. cbn [consp]. split.
    - intros [(x & H & ->)|(s1 & v & H & H2)]; [apply If_exit; auto|].
      destruct (nilp v) eqn:N; [|rewrite evs_one in H2; eapply If_true; eauto].
      apply evc_else in H2; auto. eapply If_false; eauto.
    - intros [s1 x H|s1 v s2 q H N H2|s1 v s2 q H N H2]; [left; eauto|right|right]; exists s1, v; split; auto; rewrite N.
      + apply evs_one. exact H2.
      + apply evc_else; auto.
  Qed.

  Lemma or_ok : forall e l s s' r, plain e ->
    (ev e s (Cons (Sym "or") (form_list l)) s' r <-> or_means world call_prim e s l s' r).
  Proof.
    intros e l s s' r P. macro MOr.
    assert (G : forall l s, evc e s (form_list (map (fun a => form_list [a]) l)) s' r <-> or_means world call_prim e s l s' r).
    { clear l s. induction l as [|a l IH]; intros s; cbn [map form_list].
      - rewrite evc_atom by reflexivity. split; [intros (-> & ->); constructor|inversion 1; auto].
      - rewrite evc_cons. cbn [consp]. split.
        + intros [(x & H & ->)|(s1 & v & H & H2)]; [apply Or_exit; auto|]. destruct (nilp v) eqn:N.
          * eapply Or_next; eauto. apply IH; auto.
          * destruct H2 as (-> & ->). apply Or_true; auto.
        + intros H. inversion H; subst; [left; eauto|right|right].
          * match goal with V : nilp ?v = false |- _ => exists s', v; rewrite V end. auto.
          * match goal with V : nilp ?v = true, K : ev e s a ?s1 (Ret ?v) |- _ => exists s1, v; rewrite V end. split; auto. apply IH; auto. }
    destruct l as [|a l].
    - cbn. rewrite ev_var by reflexivity. rewrite (value_std world e s (Sym "nil") (VAtom Nil)); [|eapply plain_std; eauto; reflexivity|reflexivity].
      rewrite <- (G [] s). cbn [map form_list]. rewrite evc_atom by reflexivity. reflexivity.
    - replace (or_macro (form_list (a :: l))) with (Cons (Sym "cond") (mapcar (fun a => form_list [a]) (form_list (a :: l)))) by reflexivity.
      rewrite ev_cond by auto. rewrite mapcar_list. apply G.
  Qed.

  Fixpoint and_nest (l : list sexp) (body : sexp) : sexp :=
    match l with
    | [] => body
    | a :: l' => let b := and_nest l' body in
                 if null b then form_list [Sym "cond"; form_list [a]] else form_list [Sym "cond"; form_list [a; b]]
    end.
  Lemma and_loop_list : forall l body, and_loop (form_list l) body = and_nest (rev l) body.
  Proof.
    induction l as [|a l IH]; intros body; cbn [form_list and_loop rev]; auto. rewrite IH.
    generalize (rev l). clear. induction l as [|b l IH]; cbn [and_nest List.app]; auto. rewrite <- IH. reflexivity.
  Qed.
  Lemma and_nest_consp : forall l a, null (and_nest (a :: l) Nil) = false.
  Proof. intros. cbn [and_nest]. destruct (null (and_nest l Nil)); reflexivity. Qed.
  Lemma and_ok : forall e l s s' r, plain e ->
    (ev e s (Cons (Sym "and") (form_list l)) s' r <-> and_means world call_prim e s l s' r).
  Proof.
    intros e l s s' r P. macro MAnd. destruct l as [|a l].
    - change (and_macro (form_list [])) with (Sym "t"). rewrite ev_t by auto.
      split; [intros (-> & ->); constructor|inversion 1; auto].
    - replace (and_macro (form_list (a :: l))) with (and_loop (reverse (form_list (a :: l))) Nil) by reflexivity.
      rewrite reverse_list, and_loop_list, rev_involutive.
      revert a s. induction l as [|b l IH]; intros a s.
      + change (and_nest [a] Nil) with (form_list [Sym "cond"; form_list [a]]). cbn [form_list]. rewrite ev_cond, evc_cons by auto. cbn [consp]. split.
        * intros [(x & H & ->)|(s1 & v & H & H2)]; [apply And_exit; auto|]. destruct (nilp v) eqn:N.
          -- rewrite evc_atom in H2 by reflexivity. destruct H2 as (-> & ->). destruct v as [[]| | | | | ]; try discriminate. apply And_last. auto.
          -- destruct H2 as (-> & ->). apply And_last. auto.
        * intros H. inversion H; subst; [left; eauto|right|right].
          -- exists s', v. split; auto. match goal with V : nilp v = true |- _ => rewrite V; rewrite evc_atom by reflexivity; destruct v as [[]| | | | | ]; try discriminate; auto end.
          -- exists s', v. split; auto. destruct (nilp v) eqn:N; auto. rewrite evc_atom by reflexivity. destruct v as [[]| | | | | ]; try discriminate; auto.
      + assert (E : and_nest (a :: b :: l) Nil = form_list [Sym "cond"; form_list [a; and_nest (b :: l) Nil]]).
        { change (and_nest (a :: b :: l) Nil) with (if null (and_nest (b :: l) Nil) then form_list [Sym "cond"; form_list [a]] else form_list [Sym "cond"; form_list [a; and_nest (b :: l) Nil]]).
          rewrite and_nest_consp. reflexivity. }
        rewrite E. cbn [form_list]. rewrite ev_cond, evc_cons by auto. cbn [consp]. split.
        * intros [(x & H & ->)|(s1 & v & H & H2)]; [apply And_exit; auto|]. destruct (nilp v) eqn:N.
          -- rewrite evc_atom in H2 by reflexivity. destruct H2 as (-> & ->). destruct v as [[]| | | | | ]; try discriminate. apply And_false; auto.
          -- rewrite evs_one in H2. eapply And_next; eauto. apply IH; auto.
        * intros H. inversion H; subst; [left; eauto|right|right].
          -- exists s', v. split; auto. match goal with V : nilp v = true |- _ => rewrite V; rewrite evc_atom by reflexivity; destruct v as [[]| | | | | ]; try discriminate; auto end.
          -- exists s1, v. split; auto. match goal with V : nilp v = false |- _ => rewrite V end. apply evs_one. apply IH; auto.
  Qed.

  Lemma when_ok : forall e s c fs s' r, plain e ->
    (ev e s (Cons (Sym "when") (Cons c fs)) s' r <-> if_means world call_prim e s c (Cons (Sym "progn") fs) Nil s' r).
  Proof. intros e s c fs s' r P. macro MWhen. exact (if_ok e s c _ [] s' r P). Qed.

  Lemma not_ok : forall e s c s' r, plain e -> (ev e s (form_list [Sym "not"; c]) s' r <->
    (exists x, ev e s c s' (Exit x) /\ r = Exit x) \/ (exists v, ev e s c s' (Ret v) /\ r = Ret (truth (nilp v)))).
  Proof.
    intros e s c s' r P. cbn [form_list].
    rewrite (ev_call world call_prim e s (Sym "not") _ s' r s (Prim PNot)); [|apply ev_var; [reflexivity|split; auto; symmetry; apply value_std; [eapply plain_std; eauto; reflexivity|reflexivity]]|exact I].
    split.
    - intros (s2 & a & H & H2). rewrite eva_cons in H. destruct H as [(x & H & ->)|(s1 & v & H & [(x & H1 & _)|(vs & H1 & ->)])].
      + left. destruct H2 as (-> & ->). eauto.
      + rewrite eva_nil in H1. destruct H1; discriminate.
      + rewrite eva_nil in H1. destruct H1 as (-> & E). inversion E; subst. right. destruct H2 as ([|n] & H2); [discriminate|].
        cbn in H2. inversion H2; subst. eauto.
    - intros [(x & H & ->)|(v & H & ->)].
      + exists s', (inl x). split; auto. apply eva_cons. left. eauto.
      + exists s', (inr [v]). split; [|exists 1; reflexivity]. apply eva_cons. right. exists s', v. split; auto. right. exists []. split; auto. apply eva_nil. auto.
  Qed.

  Lemma unless_ok : forall e s c fs s' r, plain e ->
    (ev e s (Cons (Sym "unless") (Cons c fs)) s' r <-> if_means world call_prim e s c Nil fs s' r).
  Proof.
    intros e s c fs s' r P. macro MUnless.
    change (unless_macro (Cons c fs)) with (Cons (Sym "if") (Cons (form_list [Sym "not"; c]) (Cons (Cons (Sym "progn") fs) (form_list [])))).
    rewrite (if_ok e s _ _ [] s' r P). split.
    - intros [s1 x H|s1 v s2 q H N H2|s1 v s2 q H N H2]; apply not_ok in H; auto;
        destruct H as [(y & H & E)|(w & H & E)]; try discriminate; inversion E; subst.
      + apply If_exit; auto.
      + apply ev_progn in H2; auto. eapply If_false; eauto. destruct (nilp w); auto; discriminate.
      + cbn [form_list] in H2. rewrite evs_atom in H2 by reflexivity. destruct H2 as (-> & ->).
        eapply If_true; eauto; [destruct (nilp w); auto; discriminate|]. apply ev_nil. auto.
    - intros [s1 x H|s1 v s2 q H N H2|s1 v s2 q H N H2].
      + apply If_exit. apply not_ok; auto. left. eauto.
      + apply ev_nil in H2. destruct H2 as (-> & ->). eapply If_false; [apply not_ok; auto; right; eauto|rewrite N; reflexivity|]. apply evs_atom; auto.
      + eapply If_true; [apply not_ok; auto; right; eauto|rewrite N; reflexivity|]. apply ev_progn; auto.
  Qed.

  (** ** Bindings *)
  Definition value_form (b : binding) : sexp := match snd b with Some fs => Cons (Sym "progn") fs | None => Nil end.
  Lemma init_form : forall e s b s' r, plain e -> (ev e s (value_form b) s' r <-> init e s b s' r).
  Proof.
    intros e s [x [fs|]] s' r P; unfold value_form, Syntax_Spec.init; cbn [snd]; [apply ev_progn; auto|apply ev_nil].
  Qed.
  Lemma eva_inits : forall e bs s s' a, plain e -> (eva e s (form_list (map value_form bs)) s' a <-> inits e s bs s' a).
  Proof.
    intros e bs s s' a P. revert s s' a. induction bs as [|b bs IH]; intros s s' a; cbn [map form_list].
    - rewrite eva_nil. split; [intros (-> & ->); constructor|inversion 1; auto].
    - rewrite eva_cons. split.
      + intros [(x & H & ->)|(s1 & v & H & [(x & H1 & ->)|(vs & H1 & ->)])]; rewrite init_form in H by auto.
        * apply Inits_exit; auto.
        * eapply Inits_later; eauto. apply IH; auto.
        * eapply Inits_value; eauto. apply IH; auto.
      + intros H. inversion H; subst; [left; exists x; split; auto; apply init_form; auto|right|right]; exists s1, v; (split; [apply init_form; auto|]).
        * left. exists x. split; auto. apply IH; auto.
        * right. exists vs. split; auto. apply IH; auto.
  Qed.
  Lemma inits_length : forall e bs s s' vs, inits e s bs s' (inr vs) -> length vs = length bs.
  Proof.
    intros e bs s s' vs H. remember (inr vs) as a eqn:E. revert vs E.
    induction H; intros ws E; inversion E; subst; cbn; auto.
  Qed.

  Lemma binding_vars : forall bs, Forall variable (map fst bs) ->
    mapcar (fun x => if consp x then car x else x) (form_list (map binding_form bs)) = form_list (map fst bs).
  Proof.
    intros bs F. rewrite mapcar_list, map_map. f_equal. apply map_ext_in. intros [x [fs|]] I; auto.
    unfold binding_form. cbn [snd fst]. rewrite Forall_forall in F.
    destruct (F x) as (V & _); [apply in_map_iff; exists (x, None); auto|]. destruct x; auto; discriminate.
  Qed.
  Lemma binding_values : forall bs, Forall variable (map fst bs) ->
    mapcar (fun x => if consp x then Cons (Sym "progn") (cdr x) else Nil) (form_list (map binding_form bs)) = form_list (map value_form bs).
  Proof.
    intros bs F. rewrite mapcar_list, map_map. f_equal. apply map_ext_in. intros [x [fs|]] I; auto.
    unfold binding_form. cbn [snd fst]. rewrite Forall_forall in F.
    destruct (F x) as (V & _); [apply in_map_iff; exists (x, None); auto|]. destruct x; auto; discriminate.
  Qed.

  Lemma ev_lambda : forall e s params body, plain e ->
    ev e s (Cons (Sym "lambda") (Cons params body)) s (Ret (Clo (Cons params body) e)).
  Proof.
    intros e s params body P. apply (ev_special world call_prim e s (Sym "lambda") _ _ _ SLambda); auto.
    - eapply plain_std; eauto. reflexivity.
  Qed.

  Lemma call_clo : forall e s params bs body e0 s0 fn s' r, plain e -> Forall variable params -> length params = length bs ->
    ev e s fn s0 (Ret (Clo (Cons (form_list params) body) e0)) ->
    (ev e s (Cons fn (form_list (map value_form bs))) s' r <->
     (exists x, inits e s0 bs s' (inl x) /\ r = Exit x) \/
     (exists s1 vs, inits e s0 bs s1 (inr vs) /\ evs (names e0 (here world s1) params) (push world s1 vs) body s' r)).
  Proof.
    intros e s params bs body e0 s0 fn s' r P F L H. rewrite (ev_call _ _ _ _ _ _ _ _ _ _ H I). split.
    - intros (s2 & a & A & H2). rewrite eva_inits in A by auto. destruct a as [x|vs].
      + left. destruct H2 as (-> & ->). eauto.
      + right. exists s2, vs. split; auto. rewrite app_clo in H2. rewrite bind_all in H2; auto.
        * apply variables_symbols; auto.
        * rewrite (inits_length _ _ _ _ _ A). auto.
    - intros [(x & A & ->)|(s1 & vs & A & H2)].
      + exists s', (inl x). split; auto. apply eva_inits; auto.
      + exists s1, (inr vs). split; [apply eva_inits; auto|]. rewrite app_clo, bind_all; auto.
        * apply variables_symbols; auto.
        * rewrite (inits_length _ _ _ _ _ A). auto.
  Qed.

  Lemma let_ok : forall e s bs body s' r, plain e -> Forall variable (map fst bs) ->
    (ev e s (Cons (Sym "let") (Cons (form_list (map binding_form bs)) body)) s' r <-> let_means world call_prim e s bs body s' r).
  Proof.
    intros e s bs body s' r P F. macro MLet.
    assert (E : let_macro (Cons (form_list (map binding_form bs)) body) =
      Cons (Cons (Sym "lambda") (Cons (form_list (map fst bs)) body)) (form_list (map value_form bs))).
    { unfold let_macro. cbn [car cdr].
      assert (N : symbolp (form_list (map binding_form bs)) = false) by (destruct bs; reflexivity). rewrite N.
      cbn [car cdr]. rewrite binding_vars, binding_values by auto. reflexivity. }
    rewrite E. rewrite (call_clo e s (map fst bs) bs body e s _ s' r P F (map_length fst bs) (ev_lambda e s _ _ P)). split.
    - intros [(x & H & ->)|(s1 & vs & H & H2)]; [apply Let_exit; auto|eapply Let_body; eauto].
    - intros [s1 x H|s1 vs s2 q H H2]; [left; eauto|right; eauto].
  Qed.

  Definition lets_nest (bs : list sexp) (body : sexp) : sexp :=
    fold_right (fun b acc => form_list [Sym "let"; form_list [b]; acc]) body bs.
  Lemma lets_loop : forall bs body, let_star_loop (reverse (form_list bs)) body = lets_nest bs body.
  Proof.
    assert (G : forall l body, let_star_loop (form_list l) body = fold_left (fun acc b => form_list [Sym "let"; form_list [b]; acc]) l body).
    { induction l as [|a l IH]; intros body; cbn [form_list let_star_loop fold_left]; auto. }
    intros bs body. rewrite reverse_list, G. unfold lets_nest. rewrite <- fold_left_rev_right, rev_involutive. reflexivity.
  Qed.
  Lemma lets_ok : forall e s bs body s' r, plain e -> Forall variable (map fst bs) ->
    (ev e s (Cons (Sym "let*") (Cons (form_list (map binding_form bs)) body)) s' r <-> lets_means world call_prim body e s bs s' r).
  Proof.
    intros e s bs body s' r P F. macro MLetStar. unfold let_star_macro. cbn [car cdr]. rewrite lets_loop. revert e s s' r P F.
    induction bs as [|b bs IH]; intros e s s' r P F; cbn [map lets_nest fold_right].
    - rewrite ev_progn by auto. split; [apply Lets_body|inversion 1; auto].
    - inversion F; subst. fold (lets_nest (map binding_form bs) (Cons (Sym "progn") body)).
      change (form_list [Sym "let"; form_list [binding_form b]; lets_nest (map binding_form bs) (Cons (Sym "progn") body)])
        with (Cons (Sym "let") (Cons (form_list (map binding_form [b])) (Cons (lets_nest (map binding_form bs) (Cons (Sym "progn") body)) Nil))).
      rewrite let_ok by (auto; constructor; auto). split.
      + intros [s1 x H|s1 vs s2 q H H3].
        * inversion H; subst; [apply Lets_exit; auto|]. match goal with K : inits _ _ [] _ _ |- _ => inversion K end.
        * inversion H; subst. match goal with K : inits _ _ [] _ _ |- _ => inversion K; subst end.
          rewrite evs_one in H3. cbn [map names] in H3. eapply Lets_next; eauto. apply IH; auto. apply plain_cons; auto.
      + intros H. inversion H; subst.
        * apply Let_exit. apply Inits_exit. auto.
        * eapply Let_body; [eapply Inits_value; [eassumption|constructor]|]. rewrite evs_one. cbn [map names]. apply IH; auto. apply plain_cons; auto.
  Qed.

  Lemma lookup_names : forall xs e k x, symbolp x = true -> In x xs -> exists p, lookup (names e k xs) x = Some p.
  Proof.
    assert (G : forall xs e k x, (exists p, lookup e x = Some p) -> exists p, lookup (names e k xs) x = Some p).
    { induction xs as [|y xs IH]; intros e k x H; cbn [names]; auto. apply IH. cbn [lookup]. destruct (atom_eqb y x); eauto. }
    induction xs as [|y xs IH]; intros e k x SY I; [contradiction|]. cbn [names]. destruct I as [->|I]; [|auto].
    apply G. cbn [lookup]. rewrite atom_eqb_refl by auto. eauto.
  Qed.

  Definition setter (b : binding) : sexp := form_list [Sym "setq"; fst b; value_form b].
  Lemma setters : forall bs, Forall variable (map fst bs) ->
    mapcar (fun x => if consp x then form_list [Sym "setq"; car x; Cons (Sym "progn") (cdr x)] else form_list [Sym "setq"; x; Nil])
      (form_list (map binding_form bs)) = form_list (map setter bs).
  Proof.
    intros bs F. rewrite mapcar_list, map_map. f_equal. apply map_ext_in. intros [x [fs|]] I; auto.
    unfold binding_form. cbn [snd fst]. rewrite Forall_forall in F.
    destruct (F x) as (V & _); [apply in_map_iff; exists (x, None); auto|]. destruct x; auto; discriminate.
  Qed.
  Lemma setter_ok : forall e s b s' r p, plain e -> variable (fst b) -> lookup e (fst b) = Some p ->
    (ev e s (setter b) s' r <->
     (exists y, init e s b s' (Exit y) /\ r = Exit y) \/
     (exists s1 v, init e s b s1 (Ret v) /\ s' = set_store s1 (update p v (store s1)) /\ r = Ret v)).
  Proof.
    intros e s b s' r p P (V & _) L. unfold setter. cbn [form_list].
    rewrite (ev_special _ _ _ _ _ _ _ _ SSetq) by (try reflexivity; eapply plain_std; eauto; reflexivity).
    change (Cons (fst b) (Cons (value_form b) Nil)) with (form_list [fst b; value_form b]). rewrite evq_one by auto. split.
    - intros [(y & H & ->)|(s1 & v & H & A)]; rewrite init_form in H by auto; [left; eauto|right]. exists s1, v. split; auto.
      unfold assign in A. rewrite L in A. inversion A; auto.
    - intros [(y & H & ->)|(s1 & v & H & -> & ->)]; [left; exists y|right; exists s1, v]; (split; [apply init_form; auto|auto]).
      unfold assign. rewrite L. reflexivity.
  Qed.

  Lemma inits_nil : forall e bs s s' a, inits e s (map (fun b : binding => (fst b, None)) bs) s' a <->
    s' = s /\ a = inr (map (fun _ => VAtom Nil) bs).
  Proof.
    intros e bs. induction bs as [|b bs IH]; intros s s' a; cbn [map].
    - split; [inversion 1; auto|intros (-> & ->); constructor].
    - split.
      + intros H. inversion H; subst; cbn in *.
        * match goal with K : _ /\ _ |- _ => destruct K; discriminate end.
        * match goal with K : _ /\ _ |- _ => destruct K; subst end. match goal with K : inits _ _ _ _ _ |- _ => apply IH in K; destruct K; discriminate end.
        * match goal with K : _ /\ _ |- _ => destruct K as (-> & K); inversion K; subst end.
          match goal with K : inits _ _ _ _ _ |- _ => apply IH in K; destruct K as (-> & K); inversion K; subst; auto end.
      + intros (-> & ->). eapply Inits_value; [cbn; auto|]. apply IH. auto.
  Qed.

  Lemma sets_ok : forall e body bs s s' r, plain e -> consp body = true ->
    Forall (fun b => variable (fst b) /\ exists p, lookup e (fst b) = Some p) bs ->
    (evs e s (append (form_list (map setter bs)) body) s' r <-> sets world call_prim e body s bs s' r).
  Proof.
    intros e body bs s s' r P C F. revert s. induction bs as [|b bs IH]; intros s; cbn [map form_list append].
    - split; [apply Sets_body|inversion 1; auto].
    - inversion F as [|? ? (V & p & L) F']; subst.
      assert (C2 : consp (append (form_list (map setter bs)) body) = true) by (destruct bs; auto).
      rewrite evs_cons, C2. split.
      + intros [(x & H & ->)|(s1 & v & H & H2)]; apply (setter_ok e s b _ _ p) in H; auto;
          destruct H as [(y & H & E)|(s2 & w & H & E & E2)]; try discriminate.
        * inversion E; subst. apply Sets_exit; auto.
        * subst. inversion E2; subst. eapply Sets_next; eauto. apply IH; auto.
      + intros H. inversion H; subst.
        * left. exists x. split; auto. apply (setter_ok e s b _ _ p); auto. left. eauto.
        * right. match goal with K : lookup e (fst b) = Some ?q |- _ => assert (q = p) by congruence; subst end.
          eexists. exists v. split; [apply (setter_ok e s b _ _ p); auto; right; eauto|]. apply IH; auto.
  Qed.

  Lemma letrec_ok : forall e s bs body s' r, plain e -> Forall variable (map fst bs) -> consp body = true ->
    (ev e s (Cons (Sym "letrec") (Cons (form_list (map binding_form bs)) body)) s' r <-> letrec_means world call_prim e s bs body s' r).
  Proof.
    intros e s bs body s' r P F C. macro MLetrec. unfold letrec_macro. cbn [car cdr]. rewrite binding_vars, setters by auto.
    replace (form_list (map fst bs)) with (form_list (map binding_form (map (fun b : binding => (fst b, None)) bs)))
      by (rewrite map_map; reflexivity).
    assert (EQ : map fst (map (fun b : binding => (fst b, @None sexp)) bs) = map fst bs) by (rewrite map_map; reflexivity).
    rewrite let_ok by (auto; rewrite EQ; auto). unfold letrec_means.
    rewrite <- sets_ok.
    - split.
      + intros [s1 x H|s1 vs s2 q H H2]; apply inits_nil in H; destruct H as (-> & E); inversion E; subst. rewrite EQ in H2. exact H2.
      + intros H. eapply Let_body; [apply inits_nil; auto|]. rewrite EQ. exact H.
    - apply plain_names; auto.
    - exact C.
    - rewrite Forall_forall in *. intros b I. split; [apply F; apply in_map; auto|].
      apply lookup_names; [|apply in_map; auto]. destruct (F (fst b)) as (V & _); [apply in_map; auto|auto].
  Qed.

  Lemma update_last : forall (st : list value) v w, update (length st) w (st ++ [v]) = (st ++ [w])%list.
  Proof. induction st; intros; cbn; congruence. Qed.

  Lemma named_let_ok : forall e s fn bs body s' r, plain e -> variable fn -> Forall variable (map fst bs) ->
    (ev e s (Cons (Sym "let") (Cons fn (Cons (form_list (map binding_form bs)) body))) s' r <->
     named_let_means world call_prim e s fn bs body s' r).
  Proof.
    intros e s fn bs body s' r P V F. macro MLet.
    set (lam := Cons (Sym "lambda") (Cons (form_list (map fst bs)) body)).
    assert (E : let_macro (Cons fn (Cons (form_list (map binding_form bs)) body)) =
      Cons (Sym "letrec") (Cons (form_list (map binding_form [(fn, Some (form_list [lam]))])) (form_list [Cons fn (form_list (map value_form bs))]))).
    { unfold let_macro. cbn [car cdr]. destruct V as (V & _). rewrite V. cbn [car cdr]. rewrite binding_vars, binding_values by auto. reflexivity. }
    rewrite E, letrec_ok by (auto; constructor; auto). unfold letrec_means, named_let_means. cbn [map fst names].
    set (e' := (fn, here world s) :: e). assert (P' : plain e') by (apply plain_cons; auto).
    assert (L : lookup e' fn = Some (here world s)) by (unfold e'; cbn [lookup]; rewrite atom_eqb_refl by apply V; auto).
    set (clo := Clo (Cons (form_list (map fst bs)) body) e').
    assert (B : sets world call_prim e' (form_list [Cons fn (form_list (map value_form bs))])
                  (push world s [VAtom Nil]) [(fn, Some (form_list [lam]))] s' r <->
                evs e' (push world s [clo]) (form_list [Cons fn (form_list (map value_form bs))]) s' r).
    { assert (I1 : forall s1 q, init e' (push world s [VAtom Nil]) (fn, Some (form_list [lam])) s1 q <-> s1 = push world s [VAtom Nil] /\ q = Ret clo).
      { intros s1 q. unfold Syntax_Spec.init. cbn [snd form_list]. rewrite evs_one. split.
        - intros H. destruct (ev_fun _ _ _ _ _ _ _ _ _ H (ev_lambda e' _ _ _ P')) as (-> & ->). auto.
        - intros (-> & ->). apply ev_lambda; auto. }
      assert (UP : set_store (push world s [VAtom Nil]) (update (here world s) clo (store (push world s [VAtom Nil]))) = push world s [clo]).
      { unfold push, here, set_store. cbn [store globals next_gen outside]. rewrite update_last. reflexivity. }
      split.
      - intros H. inversion H; subst.
        + match goal with K : init _ _ _ _ _ |- _ => apply I1 in K; destruct K; discriminate end.
        + match goal with K : init _ _ _ _ _ |- _ => apply I1 in K; destruct K as (-> & K); inversion K; subst end.
          match goal with K : lookup e' _ = Some ?p |- _ => cbn [fst] in K; rewrite L in K; inversion K; subst end.
          rewrite UP in *. match goal with K : sets _ _ _ _ _ [] _ _ |- _ => inversion K; auto end.
      - intros H. eapply Sets_next; [apply I1; auto|exact L|]. rewrite UP. apply Sets_body. exact H. }
    rewrite B. cbn [form_list]. rewrite evs_one.
    assert (VAL : ev e' (push world s [clo]) fn (push world s [clo]) (Ret clo)).
    { apply ev_var; [apply V|]. split; auto. unfold value_of. rewrite L. unfold push, here. cbn [set_store store].
      rewrite app_nth2, Nat.sub_diag by lia. reflexivity. }
    rewrite (call_clo e' _ (map fst bs) bs body e' _ fn s' r P' F (map_length fst bs) VAL). split.
    - intros [(x & H & ->)|(s1 & vs & H & H2)]; [apply Let_exit; auto|eapply Let_body; eauto].
    - intros [s1 x H|s1 vs s2 q H H2]; [left; eauto|right; eauto].
  Qed.

  (** ** case *)
  Lemma case_loop_list : forall tem l, case_loop tem Nil (form_list l) = form_list (map (case_clause tem) l).
  Proof.
    assert (G : forall tem l m, case_loop tem (form_list m) (form_list l) = form_list (rev m ++ map (case_clause tem) l)%list).
    { intros tem l. induction l as [|c l IH]; intros m; cbn [form_list case_loop map].
      - rewrite reverse_list, app_nil_r. reflexivity.
      - change (Cons (case_clause tem c) (form_list m)) with (form_list (case_clause tem c :: m)). rewrite IH. cbn [rev].
        rewrite <- app_assoc. reflexivity. }
    intros tem l. exact (G tem l []).
  Qed.

  Lemma memql_list : forall v items, nilp (memql v (quoted (form_list items))) = negb (existsb (fun i => eql v (quoted i)) items).
  Proof.
    induction items as [|i items IH]; cbn [form_list quoted memql existsb]; auto. destruct (eql v (quoted i)); auto.
  Qed.

  Lemma ev_quote : forall e s f, plain e -> ev e s (form_list [Sym "quote"; f]) s (Ret (quoted f)).
  Proof.
    intros e s f P. apply (ev_special world call_prim e s (Sym "quote") _ _ _ SQuote); auto. eapply plain_std; eauto. reflexivity.
  Qed.
  Lemma ev_prim2 : forall e s t p a b va vb, plain e -> std (Sym t) = Some (Prim p) ->
    (forall s vs, Syntax_Proofs.app world call_prim s (Prim p) vs s (Ret (match p with PEql => truth (eql (nth_arg 0 vs) (nth_arg 1 vs)) | PMemql => memql (nth_arg 0 vs) (nth_arg 1 vs) | _ => VAtom Nil end))) ->
    ev e s a s (Ret va) -> ev e s b s (Ret vb) ->
    ev e s (form_list [Sym t; a; b]) s (Ret (match p with PEql => truth (eql va vb) | PMemql => memql va vb | _ => VAtom Nil end)).
  Proof.
    intros e s t p a b va vb P SD A Ha Hb. cbn [form_list].
    apply (ev_call world call_prim e s (Sym t) _ s _ s (Prim p)); [|exact I|].
    - apply ev_var; [reflexivity|]. split; auto. symmetry. apply value_std; auto. eapply plain_std; eauto.
    - exists s, (inr [va; vb]). split; [|apply (A s [va; vb])].
      apply eva_cons. right. exists s, va. split; auto. right. exists [vb]. split; auto.
      apply eva_cons. right. exists s, vb. split; auto. right. exists []. split; auto. apply eva_nil. auto.
  Qed.

  Lemma evc_case : forall e cs s s' r g p v, plain e -> lookup e (Gen g) = Some p -> nth p (store s) (VAtom Nil) = v ->
    Forall (fun c => fst c <> Some [] /\ consp (snd c) = true) cs ->
    (evc e s (form_list (map (case_clause (Gen g)) (map clause_form cs))) s' r <->
     (s' = s /\ r = Ret (VAtom Nil) /\ (forall c, In c cs -> matches v c = false)) \/
     (exists before c after, cs = (before ++ c :: after)%list /\ (forall d, In d before -> matches v d = false) /\
        matches v c = true /\ evs e s (snd c) s' r)).
  Proof.
    intros e cs s s' r g p v P L N F.
    assert (G : ev e s (Gen g) s (Ret v)).
    { apply ev_var; auto. split; auto. unfold value_of. rewrite L, N. reflexivity. }
    induction cs as [|[items body] cs IH].
    - cbn [map form_list]. rewrite evc_atom by reflexivity. split.
      + intros (-> & ->). left. repeat split; auto. intros c [].
      + intros [(-> & -> & _)|([|? ?] & c & after & E & _)]; auto; discriminate.
    - inversion F as [|? ? (NE & C) F']; subst. cbn [fst snd] in NE, C. cbn [map form_list].
      set (v := nth p (store s) (VAtom Nil)) in *.
      assert (T : exists test tv, case_clause (Gen g) (clause_form (items, body)) = Cons test body /\ ev e s test s (Ret tv) /\
                  nilp tv = negb (matches v (items, body))).
      { unfold matches. destruct items as [[|i [|j items]]|]; cbn [fst].
        - congruence.
        - eexists. eexists. split; [reflexivity|]. split.
          + apply (ev_prim2 e s "eql" PEql _ _ v (quoted i)); auto; [|apply ev_quote; auto]. intros. exists 1. reflexivity.
          + cbn [existsb]. rewrite orb_false_r. destruct (eql v (quoted i)); reflexivity.
        - eexists. eexists. split; [reflexivity|]. split.
          + apply (ev_prim2 e s "memql" PMemql _ _ v (quoted (form_list (i :: j :: items)))); auto; [|apply ev_quote; auto]. intros. exists 1. reflexivity.
          + apply memql_list.
        - exists (Sym "t"), (VAtom (Sym "t")). split; [reflexivity|]. split; [apply ev_t; auto|reflexivity]. }
      destruct T as (test & tv & -> & T & NT). rewrite evc_cons, C. split.
      + intros [(x & H & _)|(s1 & w & H & H2)]; destruct (ev_fun _ _ _ _ _ _ _ _ _ H T) as (-> & E); [discriminate|].
        inversion E; subst. rewrite NT in H2. destruct (matches v (items, body)) eqn:M; cbn [negb] in H2.
        * right. exists [], (items, body), cs. repeat split; auto. intros d [].
        * apply IH in H2; auto. destruct H2 as [(-> & -> & H2)|(before & c & after & -> & H2 & H3 & H4)].
          -- left. repeat split; auto. intros c [<-|I]; auto.
          -- right. exists ((items, body) :: before), c, after. repeat split; auto. intros d [<-|I]; auto.
      + intros H. right. exists s, tv. split; auto. rewrite NT. destruct (matches v (items, body)) eqn:M; cbn [negb].
        * destruct H as [(_ & _ & H)|(before & c & after & E & H2 & H3 & H4)].
          -- rewrite (H (items, body)) in M by (left; auto). discriminate.
          -- destruct before as [|d before]; inversion E; subst; auto. rewrite (H2 (items, body)) in M by (left; auto). discriminate.
        * apply IH; auto. destruct H as [(-> & -> & H)|(before & c & after & E & H2 & H3 & H4)].
          -- left. repeat split; auto. intros c I. apply H. right. auto.
          -- destruct before as [|d before]; inversion E; subst; [congruence|]. right. exists before, c, after. repeat split; auto.
             intros d' I. apply H2. right. auto.
  Qed.

  Lemma case_ok : forall e s key cs s' r, plain e -> Forall (fun c => fst c <> Some [] /\ consp (snd c) = true) cs ->
    (ev e s (Cons (Sym "case") (Cons key (form_list (map clause_form cs)))) s' r <-> case_means world call_prim e s key cs s' r).
  Proof.
    intros e s key cs s' r P F. macro MCase.
    set (g := next_gen s).
    assert (E : case_macro (Gen g) (Cons key (form_list (map clause_form cs))) =
      Cons (Sym "let") (Cons (form_list (map binding_form [(Gen g, Some (form_list [key]))]))
        (form_list [Cons (Sym "cond") (form_list (map (case_clause (Gen g)) (map clause_form cs)))]))).
    { unfold case_macro. cbn [car cdr]. rewrite case_loop_list. reflexivity. }
    assert (V : variable (Gen g)) by (split; reflexivity).
    rewrite E, let_ok by (auto; constructor; auto). clear E.
    assert (I1 : forall s1 q, init e (gensym s) (Gen g, Some (form_list [key])) s1 q <-> ev e (gensym s) key s1 q).
    { intros. unfold Syntax_Spec.init. cbn [snd form_list]. apply evs_one. }
    assert (B : forall s1 v s' r, evs ((Gen g, here world s1) :: e) (push world s1 [v])
        (form_list [Cons (Sym "cond") (form_list (map (case_clause (Gen g)) (map clause_form cs)))]) s' r <->
      (s' = push world s1 [v] /\ r = Ret (VAtom Nil) /\ (forall c, In c cs -> matches v c = false)) \/
      (exists before c after, cs = (before ++ c :: after)%list /\ (forall d, In d before -> matches v d = false) /\
        matches v c = true /\ evs ((Gen g, here world s1) :: e) (push world s1 [v]) (snd c) s' r)).
    { clear s' r. intros s1 v s' r. cbn [form_list]. rewrite evs_one, ev_cond by (apply plain_cons; auto).
      apply (evc_case _ cs _ s' r g (here world s1) v); auto.
      - apply plain_cons; auto.
      - cbn [lookup]. rewrite atom_eqb_refl; auto.
      - unfold push, here. cbn [set_store store]. rewrite app_nth2, Nat.sub_diag by lia. reflexivity. }
    split.
    - intros [s1 x H|s1 vs s2 q H H2].
      + inversion H; subst; [|match goal with K : Syntax_Spec.inits _ _ _ _ [] _ _ |- _ => inversion K end].
        apply Case_exit. apply I1. auto.
      + inversion H; subst. match goal with K : Syntax_Spec.inits _ _ _ _ [] _ _ |- _ => inversion K; subst end.
        match goal with K : Syntax_Spec.init _ _ _ _ _ _ _ |- _ => apply I1 in K; rename K into HK end.
        cbn [map fst names] in H2. apply B in H2. destruct H2 as [(-> & -> & H2)|(before & c & after & EQ & H2 & H3 & H4)].
        * eapply Case_none; eauto.
        * eapply Case_body; eauto.
    - intros [s1 x H|s1 v H H2|s1 v before c after s2 q H EQ H2 H3 H4].
      + apply Let_exit. apply Inits_exit. apply I1. auto.
      + eapply Let_body; [eapply Inits_value; [apply I1; eassumption|constructor]|]. cbn [map fst names]. apply B. left. auto.
      + eapply Let_body; [eapply Inits_value; [apply I1; eassumption|constructor]|]. cbn [map fst names]. apply B. right.
        exists before, c, after. auto.
  Qed.

  Lemma prog2_ok : forall e s a b fs s' r, plain e ->
    (ev e s (Cons (Sym "prog2") (Cons a (Cons b fs))) s' r <->
     (exists x, ev e s a s' (Exit x) /\ r = Exit x) \/
     (exists s1 v, ev e s a s1 (Ret v) /\ ev e s1 (Cons (Sym "prog1") (Cons b fs)) s' r)).
  Proof.
    intros e s a b fs s' r P. macro MProg2. unfold prog2_macro. cbn [car cdr form_list]. rewrite ev_progn, evs_cons by auto.
    cbn [consp]. split; (intros [H|(s1 & v & H & H2)]; [left; auto|right; exists s1, v; split; auto]); apply evs_one; auto.
  Qed.
End F.
