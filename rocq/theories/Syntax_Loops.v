From Coq Require Import String ZArith List Bool Arith Lia.
From Verif Require Import Syntax_Model Syntax_Spec Syntax_Proofs Syntax_Forms Syntax_Keep.
Import ListNotations.

Section L.
  Variable world : Type.
  Variable call_prim : nat -> list value -> world -> world * (sexp + sexp).
  Notation state := (state world).
  Notation ev := (ev world call_prim). Notation evs := (evs world call_prim).
  Notation evc := (evc world call_prim). Notation eva := (eva world call_prim). Notation app := (app world call_prim).
  Notation inits := (inits world call_prim). Notation init := (init world call_prim).
  Notation here := (here world). Notation push := (push world).

  Lemma set_same : forall s : state, set_store s (store s) = s.
  Proof. intros []; reflexivity. Qed.
  Lemma push_nil : forall s : state, push s [] = s.
  Proof. intros s. unfold Syntax_Spec.push. rewrite app_nil_r. apply set_same. Qed.

  (** ** From fresh states to the invariant *)
  Lemma fresh_env : forall g k e, env_fresh g k e -> okenv g None k e.
  Proof. intros g k e F x p I. destruct (F x p I). split; auto. discriminate. Qed.
  Lemma fresh_val : forall g k v, value_fresh g k v -> okval g None k v.
  Proof.
    intros g k v. induction v; cbn; auto; [tauto|]. intros (A & B). split; [apply fresh_env; auto|].
    split; [apply ab_car; auto|left; apply ab_cdr; auto].
  Qed.
  Lemma fresh_state : forall s, state_fresh world s -> oks world (next_gen s) None (gensym s).
  Proof.
    intros s (A & B). repeat split.
    - intros v I. apply fresh_val. apply A. auto.
    - intros x v H. apply fresh_val. eapply B; eauto.
    - cbn. lia.
    - discriminate.
  Qed.
  Lemma hide_env : forall g k e, okenv g None k e -> okenv g (Some k) k e.
  Proof. intros g k e O x p I. destruct (O x p I). split; auto. intros E. inversion E. lia. Qed.
  Lemma hide_env_new : forall g k e, okenv g None k e -> okenv g (Some k) (S k) ((Gen g, k) :: e).
  Proof.
    intros g k e O x p [E|I]; [inversion E; subst; split; auto; lia|]. destruct (hide_env _ _ _ O x p I). split; auto; lia.
  Qed.
  Lemma hide_val : forall g k v, okval g None k v -> okval g (Some k) k v.
  Proof. intros g k v. induction v; cbn; auto; [tauto|]. intros (A & B). split; auto. apply hide_env; auto. Qed.
  Lemma hide_state : forall g s v, oks world g None s -> okval g (Some (here s)) (S (here s)) v -> oks world g (Some (here s)) (push s [v]).
  Proof.
    intros g s v (A & B & C & D) V.
    assert (L : here (push s [v]) = S (here s)).
    { unfold Syntax_Spec.here, Syntax_Spec.push. cbn [set_store store]. rewrite app_length. cbn. lia. }
    repeat split; auto.
    - intros w I. rewrite L. unfold Syntax_Spec.push in I. cbn [set_store store] in I. apply in_app_or in I.
      destruct I as [I|[<-|[]]]; auto. apply okval_le with (k := here s); [lia|apply hide_val; apply A; auto].
    - intros x w H. rewrite L. apply okval_le with (k := here s); [lia|apply hide_val; eapply B; eauto].
    - intros l E. inversion E; subst. rewrite L. lia.
  Qed.
  Lemma push_nth : forall (s : state) v, nth_error (store (push s [v])) (here s) = Some v.
  Proof. intros. unfold Syntax_Spec.push, Syntax_Spec.here. cbn [set_store store]. rewrite nth_error_app2, Nat.sub_diag by lia. reflexivity. Qed.

  Lemma keep_ev : forall g hid e s f s' r, oks world g hid s -> okenv g hid (here s) e -> absent g f -> ev e s f s' r -> keeps world g hid s s' r.
  Proof. intros g hid e s f s' r O OE A (n & H). destruct (keep world call_prim g hid n) as (K & _). eapply K; eauto. left; auto. Qed.
  Lemma keep_evs : forall g hid e s f s' r, oks world g hid s -> okenv g hid (here s) e -> absent g f -> evs e s f s' r -> keeps world g hid s s' r.
  Proof. intros g hid e s f s' r O OE A (n & H). destruct (keep world call_prim g hid n) as (_ & K & _). eapply K; eauto. left; auto. Qed.
  Lemma keep_inits : forall g hid e bs s s' a, oks world g hid s -> okenv g hid (here s) e ->
    Forall (fun b => match snd b with Some fs => absent g fs | None => True end) bs -> inits e s bs s' a ->
    ext world hid s s' /\ oks world g hid s' /\ args_ok g hid (here s') a.
  Proof.
    intros g hid e bs s s' a O OE F H. revert O OE F. induction H as [s|s b l s1 x H|s b l s1 v s2 x H H2 IH|s b l s1 v s2 vs H H2 IH]; intros O OE F.
    - split; [apply ext_refl|split; auto]. constructor.
    - inversion F; subst. destruct b as [y [fs|]]; cbn in H.
      + destruct (keep_evs g hid e s fs s1 (Exit x)) as (X & O1 & R); auto.
      + destruct H; discriminate.
    - inversion F; subst. assert (K : keeps world g hid s s1 (Ret v)).
      { destruct b as [y [fs|]]; cbn in *; [eapply keep_evs; eauto|]. destruct H as (-> & E). inversion E; subst. split; [apply ext_refl|split; auto; exact I]. }
      destruct K as (X & O1 & R). destruct IH as (X2 & O2 & R2); auto; [eapply here_le; eauto|]. split; [eapply ext_trans; eauto|auto].
    - inversion F; subst. assert (K : keeps world g hid s s1 (Ret v)).
      { destruct b as [y [fs|]]; cbn in *; [eapply keep_evs; eauto|]. destruct H as (-> & E). inversion E; subst. split; [apply ext_refl|split; auto; exact I]. }
      destruct K as (X & O1 & R). destruct IH as (X2 & O2 & R2); auto; [eapply here_le; eauto|]. split; [eapply ext_trans; eauto|split; auto].
      constructor; auto. apply okval_le with (k := here s1); [apply X2|exact R].
  Qed.

  (** ** A list of forms and one more *)
  Lemma evs_then : forall l e s f fs s' r, evs e s (append (form_list l) (Cons f fs)) s' r <->
    (exists x, evs e s (form_list l) s' (Exit x) /\ r = Exit x) \/
    (exists s1 v, evs e s (form_list l) s1 (Ret v) /\ evs e s1 (Cons f fs) s' r).
  Proof.
    induction l as [|a l IH]; intros e s f fs s' r; cbn [form_list append].
    - split.
      + intros H. right. exists s, (VAtom Nil). split; auto. apply evs_atom; auto.
      + intros [(x & H & _)|(s1 & v & H & H2)]; rewrite evs_atom in H by reflexivity; destruct H as (-> & E); [discriminate|auto].
    - rewrite (evs_cons _ _ e s a (append (form_list l) (Cons f fs))).
      replace (consp (append (form_list l) (Cons f fs))) with true by (destruct l; reflexivity).
      split.
      + intros [(x & H & ->)|(s1 & v & H & H2)].
        * left. exists x. split; auto. apply evs_cons. left. eauto.
        * apply IH in H2. destruct H2 as [(x & H2 & ->)|(s2 & w & H2 & H3)].
          -- left. exists x. split; auto. apply evs_cons. right. exists s1, v. split; auto. destruct l; auto.
             rewrite evs_atom in H2 by reflexivity. destruct H2; discriminate.
          -- right. destruct l.
             ++ rewrite evs_atom in H2 by reflexivity. destruct H2 as (-> & E). exists s1, v. split; auto. apply evs_one. auto.
             ++ exists s2, w. split; auto. apply evs_cons. right. exists s1, v. auto.
      + intros [(x & H & ->)|(s1 & v & H & H2)]; rewrite evs_cons in H.
        * destruct H as [(y & H & E)|(s2 & w & H & H3)]; [left; inversion E; subst; eauto|]. destruct l; [destruct H3; discriminate|].
          right. exists s2, w. split; auto. apply IH. left. exists x. split; [exact H3|auto].
        * destruct H as [(y & _ & E)|(s2 & w & H & H3)]; [discriminate|]. right. exists s2, w. split; auto. apply IH. right. destruct l.
          -- cbn [consp form_list] in H3. destruct H3 as (-> & E). exists s2, (VAtom Nil). split; [apply evs_atom; auto|auto].
          -- exists s1, v. auto.
  Qed.

  (** ** prog1 *)
  Lemma prog1_ok : forall e s f l s' r, plain e -> state_fresh world s -> env_fresh (next_gen s) (here s) e ->
    absent (next_gen s) f -> absent (next_gen s) (form_list l) ->
    (ev e s (Cons (Sym "prog1") (Cons f (form_list l))) s' r <-> prog1_means world call_prim e s f (form_list l) s' r).
  Proof.
    intros e s f l s' r P SF EF A1 A2.
    rewrite (ev_macro _ _ _ _ _ _ _ _ MProg1) by (try reflexivity; eapply plain_std; eauto; reflexivity). cbn [uses_gensym expand].
    set (g := next_gen s) in *. unfold prog1_macro. cbn [car cdr form_list].
    set (body := append (form_list l) (Cons (Gen g) Nil)).
    rewrite (ev_call _ _ _ _ _ _ _ _ _ _ (ev_lambda world call_prim e (gensym s) (Cons (Gen g) Nil) body P) I).
    assert (V : variable (Gen g)) by (split; reflexivity).
    assert (O0 : oks world g None (gensym s)) by (apply fresh_state; auto).
    assert (OE0 : okenv g None (here (gensym s)) e) by (apply fresh_env; auto).
    assert (B : forall s1 v s' r, ev e (gensym s) f s1 (Ret v) ->
      (app s1 (Clo (Cons (Cons (Gen g) Nil) body) e) [v] s' r <->
       (exists x, evs ((Gen g, here s1) :: e) (push s1 [v]) (form_list l) s' (Exit x) /\ r = Exit x) \/
       (exists w, evs ((Gen g, here s1) :: e) (push s1 [v]) (form_list l) s' (Ret w) /\ r = Ret v))).
    { clear s' r. intros s1 v s' r H.
      destruct (keep_ev g None e (gensym s) f s1 (Ret v)) as (X & O1 & R); auto.
      pose proof (here_le _ _ _ _ _ _ X OE0) as OE1.
      assert (O2 : oks world g (Some (here s1)) (push s1 [v])).
      { apply hide_state; auto. apply okval_le with (k := here s1); [lia|apply hide_val; exact R]. }
      assert (OE2 : okenv g (Some (here s1)) (here (push s1 [v])) ((Gen g, here s1) :: e)).
      { replace (here (push s1 [v])) with (S (here s1)). - apply hide_env_new; auto.
        - unfold Syntax_Spec.here, Syntax_Spec.push. cbn [set_store store]. rewrite app_length. cbn. lia. }
      rewrite app_clo. change (Cons (Gen g) Nil) with (form_list [Gen g]). rewrite bind_all by (auto; repeat constructor).
      unfold body. rewrite evs_then. cbn [names]. split; intros [K|K]; [left; auto|right|left; auto|right].
      - destruct K as (s2 & w & K & K2). rewrite evs_one in K2. apply ev_var in K2; [|reflexivity]. destruct K2 as (-> & ->).
        exists w. split; auto. destruct (keep_evs g (Some (here s1)) _ _ _ _ _ O2 OE2 A2 K) as ((_ & X2) & _).
        unfold value_of. cbn [lookup]. rewrite atom_eqb_refl by reflexivity. f_equal. apply nth_error_nth. rewrite X2 by auto. apply push_nth.
      - destruct K as (w & K & ->). exists s', w. split; auto. rewrite evs_one. apply ev_var; [reflexivity|]. split; auto.
        destruct (keep_evs g (Some (here s1)) _ _ _ _ _ O2 OE2 A2 K) as ((_ & X2) & _).
        unfold value_of. cbn [lookup]. rewrite atom_eqb_refl by reflexivity. f_equal. symmetry. apply nth_error_nth. rewrite X2 by auto. apply push_nth. }
    split.
    - intros (s2 & a & H & H2). rewrite eva_cons in H. destruct H as [(x & H & ->)|(s1 & v & H & H3)].
      + destruct H2 as (-> & ->). apply Prog1_exit; auto.
      + destruct H3 as [(x & K & _)|(vs & K & ->)]; rewrite eva_nil in K; destruct K as (-> & K); [discriminate|]. inversion K; subst.
        apply B in H2; auto. destruct H2 as [(x & H2 & ->)|(w & H2 & ->)]; [eapply Prog1_later; eauto|eapply Prog1_value; eauto].
    - intros [s1 x H|s1 v s2 x H H2|s1 v s2 w H H2].
      + exists s1, (inl x). split; auto. apply eva_cons. left. eauto.
      + exists s1, (inr [v]). split; [apply eva_cons; right; exists s1, v; split; auto; right; exists []; split; auto; apply eva_nil; auto|].
        apply B; auto. left. eauto.
      + exists s1, (inr [v]). split; [apply eva_cons; right; exists s1, v; split; auto; right; exists []; split; auto; apply eva_nil; auto|].
        apply B; auto. right. eauto.
  Qed.

  (** ** Evaluations within one step less *)
  Lemma F_one : forall n e s f q, progn call_prim n e s (Cons f Nil) = Some q -> exists m, m < n /\ eval call_prim m e s f = Some q.
  Proof.
    intros [|n] e s f q H; [discriminate|]. rewrite progn_S in H. exists n. split; [lia|].
    destruct (eval call_prim n e s f) as [[s1 [v|x]]|]; auto.
  Qed.
  Lemma F_std : forall n e s t v q, plain e -> std (Sym t) = Some v -> eval call_prim n e s (Sym t) = Some q -> q = (s, Ret v).
  Proof.
    intros [|n] e s t v q P SD H; [discriminate|]. rewrite eval_S in H. inversion H. rewrite (value_std world e s (Sym t) v); auto. eapply plain_std; eauto.
  Qed.
  Lemma F_cond : forall n e s cls q, plain e -> eval call_prim n e s (Cons (Sym "cond") cls) = Some q -> exists m, m < n /\ evcond call_prim m e s cls = Some q.
  Proof.
    intros [|n] e s cls q P H; [discriminate|]. rewrite eval_S in H. destruct (eval call_prim n e s (Sym "cond")) as [p|] eqn:E; [|discriminate].
    rewrite (F_std n e s "cond" (Special SCond) p P eq_refl E) in H. exists n. split; auto.
  Qed.
  Lemma F_clause : forall n e s c b cls s' r, evcond call_prim n e s (Cons (Cons c b) cls) = Some (s', r) -> consp b = true ->
    (exists x, ev e s c s' (Exit x) /\ r = Exit x) \/
    (exists s1 v m, m < n /\ ev e s c s1 (Ret v) /\ (if nilp v then evcond call_prim m e s1 cls else progn call_prim m e s1 b) = Some (s', r)).
  Proof.
    intros [|n] e s c b cls s' r H C; [discriminate|]. rewrite evcond_S in H.
    destruct (eval call_prim n e s c) as [[s1 [v|x]]|] eqn:E; [| |discriminate].
    - right. exists s1, v, n. split; [lia|]. split; [exists n; auto|]. destruct (nilp v); auto. rewrite C in H. auto.
    - left. inversion H; subst. exists x. split; auto. exists n; auto.
  Qed.
  Lemma F_call : forall n e s x args s' r fv, symbolp x = true -> value_of e s x = Ret fv -> function fv ->
    eval call_prim n e s (Cons x args) = Some (s', r) ->
    (exists y, eva e s args s' (inl y) /\ r = Exit y) \/
    (exists s1 vs m, m < n /\ eva e s args s1 (inr vs) /\ apply call_prim m s1 fv vs = Some (s', r)).
  Proof.
    intros [|n] e s x args s' r fv SY V FN H; [discriminate|]. rewrite eval_S in H. destruct (eval call_prim n e s x) as [p|] eqn:E; [|discriminate].
    assert (p = (s, Ret fv)).
    { destruct n as [|k]; [discriminate|]. rewrite eval_S in E. destruct x; try discriminate; inversion E; subst; rewrite V; auto. }
    subst p. assert (H' : match evargs call_prim n e s args with
                    | None => None | Some (s2, inl x) => Some (s2, Exit x) | Some (s2, inr vs) => apply call_prim n s2 fv vs end = Some (s', r)).
    { destruct fv; auto; contradiction. }
    destruct (evargs call_prim n e s args) as [[s2 [y|vs]]|] eqn:E2; [| |discriminate].
    - left. inversion H'; subst. exists y. split; auto. exists n; auto.
    - right. exists s2, vs, n. split; [lia|]. split; [exists n; auto|auto].
  Qed.
  Lemma F_apply : forall n s params body e vs e' st q, bind params vs e (store s) = Some (Some (e', st)) ->
    apply call_prim n s (Clo (Cons params body) e) vs = Some q -> exists m, m < n /\ progn call_prim m e' (set_store s st) body = Some q.
  Proof.
    intros [|n] s params body e vs e' st q B H; [discriminate|]. rewrite apply_S in H. cbn [car cdr] in H. rewrite B in H. exists n. split; auto.
  Qed.
  Lemma F_then : forall l n e s f s' r, progn call_prim n e s (append (form_list l) (Cons f Nil)) = Some (s', r) ->
    (exists x, evs e s (form_list l) s' (Exit x) /\ r = Exit x) \/
    (exists s1 v m, m < n /\ evs e s (form_list l) s1 (Ret v) /\ eval call_prim m e s1 f = Some (s', r)).
  Proof.
    induction l as [|a l IH]; intros n e s f s' r H; cbn [form_list append] in H.
    - apply F_one in H. destruct H as (m & L & H). right. exists s, (VAtom Nil), m. split; auto. split; auto. apply evs_atom; auto.
    - destruct n as [|n]; [discriminate|]. rewrite progn_S in H.
      destruct (eval call_prim n e s a) as [[s1 [v|x]]|] eqn:E; [| |discriminate].
      + replace (consp (append (form_list l) (Cons f Nil))) with true in H by (destruct l; reflexivity).
        apply IH in H. destruct H as [(x & H & ->)|(s2 & w & m & L & H & H2)].
        * left. exists x. split; auto. cbn [form_list]. apply evs_cons. right. exists s1, v. split; [exists n; auto|]. destruct l; auto.
          rewrite evs_atom in H by reflexivity. destruct H; discriminate.
        * right. destruct l.
          -- rewrite evs_atom in H by reflexivity. destruct H as (-> & EQ). exists s1, v, m. split; [lia|]. split; auto.
             cbn [form_list]. apply evs_one. exists n; auto.
          -- exists s2, w, m. split; [lia|]. split; auto. cbn [form_list]. apply evs_cons. right. exists s1, v. split; [exists n; auto|auto].
      + left. inversion H; subst. exists x. split; auto. cbn [form_list]. apply evs_cons. left. exists x. split; auto. exists n; auto.
  Qed.

  (** ** The loops: the function behind the symbol stays *)
  Section Loop.
    Variable g k : nat.
    Variable e : env.
    Variable params : list sexp.
    Variable body : sexp.
    Let e' : env := (Gen g, k) :: e.
    Let clo := Clo (Cons (form_list params) body) e'.
    Hypothesis PE : plain e.
    Hypothesis OE : okenv g None k e.
    Hypothesis VP : Forall variable params.
    Hypothesis AP : absent g (form_list params).
    Hypothesis QB : quiet_body g body.

    Lemma plain_e' : plain e'.
    Proof. apply plain_cons; auto. split; reflexivity. Qed.
    Lemma plain_params_ok : plain_params (form_list params).
    Proof.
      intros vs a st a' st' H P. revert vs a st H P VP. clear. induction params as [|x xs IH]; intros vs a st H P F; cbn in H.
      - inversion H; subst; auto.
      - inversion F; subst. destruct (symbolp x); [|discriminate]. destruct vs as [|v vs]; [discriminate|].
        eapply IH; eauto. apply plain_cons; auto.
    Qed.
    Lemma clo_ok : okval g (Some k) (S k) clo.
    Proof.
      split; [apply hide_env_new; auto|]. cbn [car cdr]. split; auto. right. split; [apply plain_e'|]. split; auto. apply plain_params_ok.
    Qed.
    Definition inv (s : state) : Prop := oks world g (Some k) s /\ nth_error (store s) k = Some clo.
    Lemma inv_env : forall s, inv s -> okenv g (Some k) (here s) e'.
    Proof. intros s (O & N). apply okenv_le with (k := S k); [|apply hide_env_new; auto]. destruct O as (_ & _ & _ & O). specialize (O k eq_refl). unfold Syntax_Spec.here in *. lia. Qed.
    Lemma inv_ext : forall s s', inv s -> ext world (Some k) s s' -> oks world g (Some k) s' -> inv s'.
    Proof. intros s s' (O & N) (X & X2) O2. split; auto. rewrite X2; auto. Qed.
    Lemma inv_value : forall s xs l, inv s -> ~ In (Gen g) xs -> value_of (names e' l xs) s (Gen g) = Ret clo.
    Proof.
      intros s xs l (O & N) NI. unfold value_of.
      assert (L : lookup (names e' l xs) (Gen g) = Some k).
      { assert (G : forall xs l a, ~ In (Gen g) xs -> lookup a (Gen g) = Some k -> lookup (names a l xs) (Gen g) = Some k).
        { clear. induction xs as [|x xs IH]; intros l a NI L; cbn [names]; auto. apply IH; [intros I; apply NI; right; auto|].
          cbn [lookup]. destruct (atom_eqb x (Gen g)) eqn:E; auto. apply atom_eqb_eq in E; auto. subst. exfalso. apply NI. left; auto. }
        apply G; auto. unfold e'. cbn [lookup]. rewrite atom_eqb_refl; auto. }
      rewrite L. f_equal. apply nth_error_nth. auto.
    Qed.
  End Loop.

  (** ** while *)
  Lemma while_loop : forall g k e c b, plain e -> okenv g None k e -> absent g c -> absent g b ->
    let cls := Cons (form_list [c; Cons (Sym "progn") b; form_list [Gen g]]) Nil in
    let body := form_list [Cons (Sym "cond") cls] in
    forall s s' r, inv g k e [] body s ->
    (evc ((Gen g, k) :: e) s cls s' r <-> while_means world call_prim ((Gen g, k) :: e) c b s s' r).
  Proof.
    intros g k e c b P OE A1 A2 cls body s s' r IN. set (e' := (Gen g, k) :: e).
    assert (QB : quiet_body g body).
    { apply QB_one, Q_cond, QC_cons; auto; [|apply QC_absent; exact I]. apply QB_cons; [cbn; auto|]. apply QB_one. apply Q_call. exact I. }
    assert (P' : plain e') by (apply plain_cons; auto; split; reflexivity).
    assert (KEEP : forall s f s1 q, inv g k e [] body s -> absent g f -> ev e' s f s1 q -> inv g k e [] body s1).
    { intros s0 f s1 q IN0 A H. destruct (keep_ev g (Some k) e' s0 f s1 q) as (X & O & _); auto; [apply IN0|apply (inv_env g k e [] body); auto|].
      apply (inv_ext g k e [] body s0); auto. }
    assert (KEEPS : forall s f s1 q, inv g k e [] body s -> absent g f -> evs e' s f s1 q -> inv g k e [] body s1).
    { intros s0 f s1 q IN0 A H. destruct (keep_evs g (Some k) e' s0 f s1 q) as (X & O & _); auto; [apply IN0|apply (inv_env g k e [] body); auto|].
      apply (inv_ext g k e [] body s0); auto. }
    split.
    - intros (n & H). revert s s' r IN H. induction n as [n IH] using lt_wf_ind. intros s s' r IN H.
      unfold cls in H. cbn [form_list] in H. apply F_clause in H; [|reflexivity].
      destruct H as [(x & H & ->)|(s1 & v & m & L & H & H2)]; [apply While_exit; auto|]. pose proof (KEEP _ _ _ _ IN A1 H) as IN1.
      destruct (nilp v) eqn:N.
      + destruct m; [discriminate|]. rewrite evcond_S in H2. inversion H2; subst. eapply While_end; eauto.
      + change (Cons (Cons (Sym "progn") b) (Cons (Cons (Gen g) Nil) Nil)) with (append (form_list [Cons (Sym "progn") b]) (Cons (Cons (Gen g) Nil) Nil)) in H2.
        apply F_then in H2. destruct H2 as [(x & H2 & ->)|(s2 & w & m2 & L2 & H2 & H3)]; cbn [form_list] in H2; rewrite evs_one in H2; apply ev_progn in H2; auto.
        * eapply While_body; eauto.
        * pose proof (KEEPS _ _ _ _ IN1 A2 H2) as IN2. eapply While_again; eauto.
          apply F_call with (fv := Clo (Cons (form_list []) body) e') in H3; auto; [|apply (inv_value g k e [] body s2 [] 0); auto|exact I].
          destruct H3 as [(y & H3 & _)|(s3 & vs & m3 & L3 & H3 & H4)]; rewrite eva_nil in H3; destruct H3 as (-> & E); [discriminate|]. inversion E; subst.
          apply F_apply with (e' := e') (st := store s2) in H4; [|reflexivity]. destruct H4 as (m4 & L4 & H4). rewrite set_same in H4.
          apply F_one in H4. destruct H4 as (m5 & L5 & H4). apply F_cond in H4; auto. destruct H4 as (m6 & L6 & H4).
          apply (IH m6); auto. lia.
    - intros H. induction H as [s s1 x H|s s1 v H N|s s1 v s2 x H N H2|s s1 v s2 w s3 r H N H2 H3 IH]; unfold cls; cbn [form_list]; apply evc_cons.
      + left. eauto.
      + right. exists s1, v. split; auto. rewrite N. apply evc_atom; auto.
      + right. exists s1, v. split; auto. rewrite N. cbn [consp]. apply evs_cons. left. exists x. split; auto. apply ev_progn; auto.
      + right. exists s1, v. split; auto. rewrite N. cbn [consp]. apply evs_cons. right. exists s2, w. split; [apply ev_progn; auto|]. cbn [consp].
        pose proof (KEEPS _ _ _ _ (KEEP _ _ _ _ IN A1 H) A2 H2) as IN2. apply evs_one.
        apply (ev_call world call_prim e' s2 (Gen g) Nil s3 r s2 (Clo (Cons (form_list []) body) e')); [|exact I|].
        * apply ev_var; auto. split; auto. symmetry. apply (inv_value g k e [] body s2 [] 0); auto.
        * exists s2, (inr []). split; [apply eva_nil; auto|]. apply app_clo. cbn [form_list bind]. rewrite set_same.
          unfold body. apply evs_one. apply ev_cond; auto.
  Qed.

  Lemma while_ok : forall e s c b, plain e -> state_fresh world s -> env_fresh (next_gen s) (here s) e ->
    absent (next_gen s) c -> absent (next_gen s) b ->
    exists hidden, forall s' r, ev e s (Cons (Sym "while") (Cons c b)) s' r <->
      while_means world call_prim ((Gen (next_gen s), here s) :: e) c b (push (gensym s) [hidden]) s' r.
  Proof.
    intros e s c b P SF EF A1 A2. set (g := next_gen s) in *.
    set (cls := Cons (form_list [c; Cons (Sym "progn") b; form_list [Gen g]]) Nil).
    set (body := form_list [Cons (Sym "cond") cls]). set (e' := (Gen g, here s) :: e).
    exists (Clo (Cons (form_list []) body) e'). intros s' r.
    rewrite (ev_macro _ _ _ _ _ _ _ _ MWhile) by (try reflexivity; eapply plain_std; eauto; reflexivity). cbn [uses_gensym expand].
    assert (V : variable (Gen g)) by (split; reflexivity).
    change (while_macro (Gen (next_gen s)) (Cons c b)) with (Cons (Sym "let") (Cons (Gen g) (Cons (form_list (map binding_form [])) body))).
    rewrite named_let_ok by (auto; constructor). unfold named_let_means. cbn [map].
    change (Syntax_Spec.here world (gensym s)) with (here s). fold e'.
    assert (P' : plain e') by (apply plain_cons; auto).
    assert (OE : okenv g None (here s) e) by (apply fresh_env; auto).
    assert (QB : quiet_body g body).
    { apply QB_one, Q_cond, QC_cons; auto; [|apply QC_absent; exact I]. apply QB_cons; [cbn; auto|]. apply QB_one. apply Q_call. exact I. }
    set (s0 := push (gensym s) [Clo (Cons (form_list []) body) e']).
    assert (IN : inv g (here s) e [] body s0).
    { split; [|apply (push_nth (gensym s))]. apply (hide_state g (gensym s)); [apply fresh_state; auto|]. apply (clo_ok g (here s) e [] body); auto. exact I. }
    pose proof (while_loop g (here s) e c b P OE A1 A2 s0 s' r IN) as W. fold cls e' in W. rewrite <- W. clear W. split.
    - intros [s1 x H|s1 vs s2 q H H2]; inversion H; subst. cbn [map names] in H2. rewrite push_nil in H2.
      unfold body in H2. cbn [form_list] in H2. rewrite evs_one in H2. apply ev_cond in H2; auto.
    - intros H. eapply Let_body; [constructor|]. cbn [map names]. rewrite push_nil. unfold body. cbn [form_list]. apply evs_one. apply ev_cond; auto.
  Qed.

  (** ** do *)
  Definition steps (vs : list do_var) : list sexp := map (fun v => match snd v with Some st => st | None => fst (fst v) end) vs.
  Lemma eva_steps : forall e vs s s' a, eva e s (form_list (steps vs)) s' a <-> inits e s (do_steps vs) s' a.
  Proof.
    intros e vs. induction vs as [|[[x i] st] vs IH]; intros s s' a; cbn [steps do_steps map form_list].
    - rewrite eva_nil. split; [intros (-> & ->); constructor|inversion 1; auto].
    - cbn [fst snd] in *. set (f := match st with Some st => st | None => x end).
      assert (I1 : forall s1 q, init e s (x, Some (form_list [f])) s1 q <-> ev e s f s1 q).
      { intros. unfold Syntax_Spec.init. cbn [snd form_list]. apply evs_one. }
      rewrite eva_cons. split.
      + intros [(y & H & ->)|(s1 & v & H & [(y & H1 & ->)|(us & H1 & ->)])]; apply I1 in H.
        * apply Inits_exit; auto.
        * eapply Inits_later; eauto. apply IH; auto.
        * eapply Inits_value; eauto. apply IH; auto.
      + intros H. inversion H; subst; match goal with K : init _ _ _ _ _ |- _ => apply I1 in K end; [left; eauto|right|right]; exists s1, v; (split; [auto|]).
        * left. exists x0. split; auto. apply IH; auto.
        * right. exists vs0. split; auto. apply IH; auto.
  Qed.

  Lemma absent_in : forall g l x, absent g (form_list l) -> In x l -> absent g x.
  Proof. induction l as [|a l IH]; intros x A I; [destruct I|]. destruct I as [->|I]; destruct A; auto. Qed.
  Lemma absent_list : forall g l, (forall x, In x l -> absent g x) -> absent g (form_list l).
  Proof. induction l as [|a l IH]; intros H; cbn; auto. split; [apply H; left; auto|apply IH; intros; apply H; right; auto]. Qed.
  Lemma quiet_then : forall g l args, absent g (form_list l) -> absent g args -> quiet_body g (append (form_list l) (form_list [Cons (Gen g) args])).
  Proof.
    induction l as [|a l IH]; intros args A B; cbn [form_list append]; [apply QB_one, Q_call; auto|]. destruct A. apply QB_cons; auto. apply IH; auto.
  Qed.
  Lemma F_macro_if : forall n e s args q, plain e -> eval call_prim n e s (Cons (Sym "if") args) = Some q -> exists m, m < n /\ eval call_prim m e s (if_macro args) = Some q.
  Proof.
    intros [|n] e s cls q P H; [discriminate|]. rewrite eval_S in H. destruct (eval call_prim n e s (Sym "if")) as [p|] eqn:E; [|discriminate].
    rewrite (F_std n e s "if" (Macro MIf) p P eq_refl E) in H. exists n. split; auto.
  Qed.

  Lemma do_loop : forall g k e vs c ends bl, plain e -> okenv g None k e -> Forall variable (do_names vs) ->
    absent g (form_list (map do_var_form vs)) -> absent g c -> absent g ends -> absent g (form_list bl) ->
    let body := form_list [Cons (Sym "if") (Cons c (Cons (Cons (Sym "progn") ends)
                  (append (form_list bl) (form_list [Cons (Gen g) (form_list (steps vs))]))))] in
    forall s us s' r, inv g k e (do_names vs) body s -> Forall (okval g (Some k) (here s)) us -> length us = length vs ->
    (evs (names ((Gen g, k) :: e) (here s) (do_names vs)) (push s us) body s' r <->
     do_means world call_prim ((Gen g, k) :: e) vs c ends (form_list bl) s us s' r).
  Proof.
    intros g k e vs c ends bl P OE VV AV A1 A2 A3 body s us s' r IN OU LU. set (e' := (Gen g, k) :: e). set (xs := do_names vs) in *.
    assert (P' : plain e') by (apply plain_cons; auto; split; reflexivity).
    assert (AX : forall v, In v vs -> absent g (fst (fst v)) /\ absent g (snd (fst v)) /\ match snd v with Some st => absent g st | None => True end).
    { intros [[x i] st] I. pose proof (absent_in g _ (do_var_form (x, i, st)) AV (in_map do_var_form _ _ I)) as A.
      destruct st; cbn in *; tauto. }
    assert (NG : ~ In (Gen g) xs).
    { unfold xs, do_names. intros I. apply in_map_iff in I. destruct I as (v & E & I). destruct (AX v I) as (A & _). rewrite E in A. cbn in A. congruence. }
    assert (LX : length xs = length vs) by apply map_length.
    assert (AS : absent g (form_list (steps vs))).
    { apply absent_list. intros f I. apply in_map_iff in I. destruct I as (v & <- & I). destruct (AX v I) as (A & _ & B). destruct (snd v); auto. }
    assert (ADO : Forall (fun b : binding => match snd b with Some fs => absent g fs | None => True end) (do_steps vs)).
    { rewrite Forall_forall. intros b I. apply in_map_iff in I. destruct I as (v & <- & I). cbn. destruct (AX v I) as (A & _ & B). destruct (snd v); auto. }
    assert (QB : quiet_body g body).
    { apply QB_one, Q_if; auto; [cbn; auto|]. apply quiet_then; auto. }
    assert (ROUND : forall s us, inv g k e xs body s -> Forall (okval g (Some k) (here s)) us -> length us = length vs ->
      inv g k e xs body (push s us) /\ okenv g (Some k) (here (push s us)) (names e' (here s) xs) /\ plain (names e' (here s) xs)).
    { clear s us s' r IN OU LU. intros s us IN OU LU. destruct (oks_push world g (Some k) s us) as (O & X); [apply IN|auto|]. split; [|split].
      - apply (inv_ext g k e xs body s); auto.
      - replace (here (push s us)) with (here s + length xs).
        + apply (okenv_names g (Some k)); [apply (inv_env g k e xs body); auto|]. apply IN.
        + unfold Syntax_Spec.here, Syntax_Spec.push. cbn [set_store store]. rewrite app_length. lia.
      - apply plain_names; auto. }
    assert (BL : forall s3 us', inits e' s3 [] s3 (inr us') -> True) by auto. clear BL.
    assert (CB : consp (append (form_list bl) (form_list [Cons (Gen g) (form_list (steps vs))])) = true) by (destruct bl; reflexivity).
    assert (IFM : if_macro (Cons c (Cons (Cons (Sym "progn") ends) (append (form_list bl) (form_list [Cons (Gen g) (form_list (steps vs))])))) =
      Cons (Sym "cond") (Cons (Cons c (Cons (Cons (Sym "progn") ends) Nil)) (Cons (Cons (Sym "t") (append (form_list bl) (form_list [Cons (Gen g) (form_list (steps vs))]))) Nil))).
    { unfold if_macro, cadr, cddr. cbn [car cdr]. destruct bl; reflexivity. }
    assert (BIND : forall s us, length us = length vs -> bind (form_list xs) us e' (store s) = Some (Some (names e' (here s) xs, store (push s us)))).
    { intros s1 us1 L1. apply bind_all; [apply variables_symbols; auto|lia]. }
    split.
    - intros (n & H). revert s us s' r IN OU LU H. induction n as [n IH] using lt_wf_ind. intros s us s' r IN OU LU H.
      destruct (ROUND s us IN OU LU) as (IN1 & OE1 & P1). set (e1 := names e' (here s) xs) in *.
      unfold body in H. cbn [form_list] in H. apply F_one in H. destruct H as (m1 & L1 & H). apply F_macro_if in H; auto. destruct H as (m2 & L2 & H).
      change (Cons (Cons (Gen g) (form_list (steps vs))) Nil) with (form_list [Cons (Gen g) (form_list (steps vs))]) in H. rewrite IFM in H.
      apply F_cond in H; auto. destruct H as (m3 & L3 & H). apply F_clause in H; [|reflexivity].
      destruct H as [(x & H & ->)|(s1 & v & m4 & L4 & H & H2)]; [apply Do_exit; auto|].
      destruct (keep_ev g (Some k) e1 (push s us) c s1 (Ret v)) as (X2 & O2 & _); auto; [apply IN1|].
      pose proof (inv_ext g k e xs body _ s1 IN1 X2 O2) as IN2. pose proof (here_le _ _ _ _ _ _ X2 OE1) as OE2.
      destruct (nilp v) eqn:N.
      2: { apply F_one in H2. destruct H2 as (m5 & L5 & H2). eapply Do_end; eauto. apply ev_progn; [auto|]. exists m5; auto. }
      apply F_clause in H2; [|exact CB].
      destruct H2 as [(x & H2 & _)|(s1' & v' & m5 & L5 & H2 & H3)]; apply ev_t in H2; auto; destruct H2 as (-> & E); [discriminate|]. inversion E; subst v'.
      cbn [nilp] in H3. cbn [form_list] in H3. apply F_then in H3. destruct H3 as [(x & H3 & ->)|(s2 & w & m6 & L6 & H3 & H4)]; [eapply Do_body; eauto|].
      destruct (keep_evs g (Some k) e1 _ _ s2 (Ret w) O2 OE2 A3 H3) as (X3 & O3 & _).
      pose proof (inv_ext g k e xs body _ s2 IN2 X3 O3) as IN3. pose proof (here_le _ _ _ _ _ _ X3 OE2) as OE3.
      apply F_call with (fv := Clo (Cons (form_list xs) body) e') in H4; auto; [|apply (inv_value g k e xs body s2 xs (here s)); auto|exact I].
      destruct H4 as [(y & H4 & ->)|(s3 & us' & m7 & L7 & H4 & H5)]; apply eva_steps in H4; [eapply Do_step; eauto|].
      destruct (keep_inits g (Some k) e1 _ _ _ _ O3 OE3 ADO H4) as (X4 & O4 & R4). cbn in R4.
      assert (LU' : length us' = length vs) by (rewrite (inits_length _ _ _ _ _ _ _ H4); apply map_length).
      apply F_apply with (e' := names e' (here s3) xs) (st := store (push s3 us')) in H5; [|apply BIND; auto]. destruct H5 as (m8 & L8 & H5).
      eapply Do_again; eauto. apply (IH m8); auto; [lia|]. apply (inv_ext g k e xs body s2); auto.
    - assert (IFOK : forall a s s' r, plain a ->
        (evs a s body s' r <-> if_means world call_prim a s c (Cons (Sym "progn") ends) (append (form_list bl) (form_list [Cons (Gen g) (form_list (steps vs))])) s' r)).
      { intros a s0 s0' r0 PA. unfold body. cbn [form_list]. rewrite evs_one.
        change (Cons (Cons (Gen g) (form_list (steps vs))) Nil) with (form_list [Cons (Gen g) (form_list (steps vs))]). rewrite append_list. apply if_ok; auto. }
      assert (NEXT : forall s us s1 v s2 w s3 q, inv g k e xs body s -> Forall (okval g (Some k) (here s)) us -> length us = length vs ->
        ev (names e' (here s) xs) (push s us) c s1 (Ret v) -> evs (names e' (here s) xs) s1 (form_list bl) s2 (Ret w) ->
        inits (names e' (here s) xs) s2 (do_steps vs) s3 q ->
        value_of (names e' (here s) xs) s2 (Gen g) = Ret (Clo (Cons (form_list xs) body) e') /\ inv g k e xs body s3 /\ args_ok g (Some k) (here s3) q).
      { clear s us s' r IN OU LU. intros s us s1 v s2 w s3 q IN OU LU H H2 H3. destruct (ROUND s us IN OU LU) as (IN1 & OE1 & P1).
        destruct (keep_ev g (Some k) _ (push s us) c s1 (Ret v) ltac:(apply IN1) OE1 A1 H) as (X2 & O2 & _).
        pose proof (inv_ext g k e xs body _ s1 IN1 X2 O2) as IN2. pose proof (here_le _ _ _ _ _ _ X2 OE1) as OE2.
        destruct (keep_evs g (Some k) _ _ _ s2 (Ret w) O2 OE2 A3 H2) as (X3 & O3 & _).
        pose proof (inv_ext g k e xs body _ s2 IN2 X3 O3) as IN3. pose proof (here_le _ _ _ _ _ _ X3 OE2) as OE3.
        destruct (keep_inits g (Some k) _ _ _ _ _ O3 OE3 ADO H3) as (X4 & O4 & R4).
        split; [apply (inv_value g k e xs body s2 xs (here s)); auto|split; auto]. apply (inv_ext g k e xs body s2); auto. }
      intros H. induction H as [s us s1 x H|s us s1 v s2 r H N H2|s us s1 v s2 x H N H2|s us s1 v s2 w s3 x H N H2 H3|s us s1 v s2 w s3 us' s4 r H N H2 H3 H4 IH];
        destruct (ROUND s us IN OU LU) as (IN1 & OE1 & P1); set (e1 := names e' (here s) xs) in *; apply IFOK; auto.
      + apply If_exit; auto.
      + eapply If_true; eauto. apply ev_progn; auto.
      + eapply If_false; eauto. cbn [form_list]. apply evs_then. left. eauto.
      + eapply If_false; eauto. cbn [form_list]. apply evs_then. right. exists s2, w. split; auto. apply evs_one.
        destruct (NEXT s us s1 v s2 w s3 _ IN OU LU H H2 H3) as (VO & _).
        apply (ev_call world call_prim e1 s2 (Gen g) _ s3 _ s2 (Clo (Cons (form_list xs) body) e')); [apply ev_var; auto|exact I|].
        exists s3, (inl x). split; auto. apply eva_steps; auto.
      + eapply If_false; eauto. cbn [form_list]. apply evs_then. right. exists s2, w. split; auto. apply evs_one.
        destruct (NEXT s us s1 v s2 w s3 _ IN OU LU H H2 H3) as (VO & IN3 & R3). cbn in R3.
        assert (LU' : length us' = length vs) by (rewrite (inits_length _ _ _ _ _ _ _ H3); apply map_length).
        apply (ev_call world call_prim e1 s2 (Gen g) _ s4 _ s2 (Clo (Cons (form_list xs) body) e')); [apply ev_var; auto|exact I|].
        exists s3, (inr us'). split; [apply eva_steps; auto|]. apply app_clo. rewrite BIND by auto. apply IH; auto.
  Qed.

  Lemma do_ok : forall e s vs c ends bl, plain e -> state_fresh world s -> env_fresh (next_gen s) (here s) e -> Forall variable (do_names vs) ->
    absent (next_gen s) (form_list (map do_var_form vs)) -> absent (next_gen s) c -> absent (next_gen s) ends -> absent (next_gen s) (form_list bl) ->
    exists hidden, forall s' r,
      ev e s (Cons (Sym "do") (Cons (form_list (map do_var_form vs)) (Cons (Cons c ends) (form_list bl)))) s' r <->
      (let e' := (Gen (next_gen s), here s) :: e in
       (exists x, inits e' (push (gensym s) [hidden]) (do_inits vs) s' (inl x) /\ r = Exit x) \/
       (exists s1 us, inits e' (push (gensym s) [hidden]) (do_inits vs) s1 (inr us) /\
          do_means world call_prim e' vs c ends (form_list bl) s1 us s' r)).
  Proof.
    intros e s vs c ends bl P SF EF VV AV A1 A2 A3. set (g := next_gen s) in *.
    set (body := form_list [Cons (Sym "if") (Cons c (Cons (Cons (Sym "progn") ends)
                  (append (form_list bl) (form_list [Cons (Gen g) (form_list (steps vs))]))))]).
    set (e' := (Gen g, here s) :: e). exists (Clo (Cons (form_list (do_names vs)) body) e'). intros s' r.
    rewrite (ev_macro _ _ _ _ _ _ _ _ MDo) by (try reflexivity; eapply plain_std; eauto; reflexivity). cbn [uses_gensym expand].
    assert (V : variable (Gen g)) by (split; reflexivity).
    assert (DN : map fst (do_inits vs) = do_names vs) by (unfold do_inits, do_names; rewrite map_map; reflexivity).
    assert (E : do_macro (Gen g) (Cons (form_list (map do_var_form vs)) (Cons (Cons c ends) (form_list bl))) =
      Cons (Sym "let") (Cons (Gen g) (Cons (form_list (map binding_form (do_inits vs))) body))).
    { unfold do_macro, body, cadr, cddr. cbn [car cdr]. rewrite !mapcar_list, !map_map.
      assert (E1 : map (fun x => form_list [car (do_var_form x); car (cdr (do_var_form x))]) vs = map binding_form (do_inits vs)).
      { unfold do_inits. rewrite map_map. apply map_ext. intros [[x i] [st|]]; reflexivity. }
      assert (E2 : map (fun x => if null (cdr (cdr (do_var_form x))) then car (do_var_form x) else caddr (do_var_form x)) vs = steps vs).
      { unfold steps. apply map_ext. intros [[x i] [st|]]; reflexivity. }
      rewrite E1, E2. reflexivity. }
    fold g. rewrite E. rewrite named_let_ok by (auto; rewrite DN; auto). unfold named_let_means. rewrite DN.
    change (Syntax_Spec.here world (gensym s)) with (here s). fold e'.
    assert (P' : plain e') by (apply plain_cons; auto).
    assert (OE : okenv g None (here s) e) by (apply fresh_env; auto).
    assert (AX : forall v, In v vs -> absent g (fst (fst v)) /\ absent g (snd (fst v)) /\ match snd v with Some st => absent g st | None => True end).
    { intros [[x i] st] I. pose proof (absent_in g _ (do_var_form (x, i, st)) AV (in_map do_var_form _ _ I)) as A.
      destruct st; cbn in *; tauto. }
    assert (AS : absent g (form_list (steps vs))).
    { apply absent_list. intros f I. apply in_map_iff in I. destruct I as (v & <- & I). destruct (AX v I) as (A & _ & B). destruct (snd v); auto. }
    assert (AN : absent g (form_list (do_names vs))).
    { apply absent_list. intros f I. apply in_map_iff in I. destruct I as (v & <- & I). apply AX; auto. }
    assert (AI : Forall (fun b : binding => match snd b with Some fs => absent g fs | None => True end) (do_inits vs)).
    { rewrite Forall_forall. intros b I. apply in_map_iff in I. destruct I as (v & <- & I). cbn. destruct (AX v I) as (A & B & _). auto. }
    assert (QB : quiet_body g body).
    { apply QB_one, Q_if; auto; [cbn; auto|]. apply quiet_then; auto. }
    set (s0 := push (gensym s) [Clo (Cons (form_list (do_names vs)) body) e']).
    assert (IN : inv g (here s) e (do_names vs) body s0).
    { split; [|apply (push_nth (gensym s))]. apply (hide_state g (gensym s)); [apply fresh_state; auto|]. apply (clo_ok g (here s) e (do_names vs) body); auto. }
    assert (LOOP : forall s1 us s' r, inits e' s0 (do_inits vs) s1 (inr us) ->
      (evs (names e' (here s1) (do_names vs)) (push s1 us) body s' r <-> do_means world call_prim e' vs c ends (form_list bl) s1 us s' r)).
    { clear s' r. intros s1 us s' r H. pose proof IN as (O0 & _).
      destruct (keep_inits g (Some (here s)) e' _ _ _ _ O0 (inv_env g (here s) e (do_names vs) body OE s0 IN) AI H) as (X & O1 & R).
      apply (do_loop g (here s) e vs c ends bl P OE VV AV A1 A2 A3 s1 us s' r); auto.
      - apply (inv_ext g (here s) e (do_names vs) body s0); auto.
      - rewrite (inits_length _ _ _ _ _ _ _ H). unfold do_inits. apply map_length. }
    cbv zeta. split.
    - intros [s1 x H|s1 us s2 q H H2]; [left; eauto|right]. rewrite DN in H2. exists s1, us. split; auto. apply LOOP; auto.
    - intros [(x & H & ->)|(s1 & us & H & H2)]; [apply Let_exit; auto|]. eapply Let_body; eauto. rewrite DN. apply LOOP; auto.
  Qed.
End L.
