(** Proofs for Objects_Props. *)

From Coq Require Import List Arith Bool ZArith Lia.
Import ListNotations.
Require Import Verif.Objects_Model Verif.Objects_Spec.

(** * Parameters *)
Lemma assq_rev_cons x y w L T : assq x (rev ((y, w) :: L) ++ T) = assq x (rev L ++ (y, w) :: T).
Proof. cbn [rev]. rewrite <- app_assoc. reflexivity. Qed.

Lemma bindings_last x args rest params : forall i T,
  (rest = Some x -> assq x (rev (bindings params rest i args) ++ T) = Some (Lst (skipn (i + length params) args))) /\
  (rest <> Some x -> forall j, nth_error params j = Some x -> (forall j', j < j' -> nth_error params j' <> Some x) ->
     assq x (rev (bindings params rest i args) ++ T) = Some (nth (i + j) args Nil)) /\
  (rest <> Some x -> ~ In x params -> assq x (rev (bindings params rest i args) ++ T) = assq x T).
Proof.
  induction params as [|y params IH]; intros i T.
  - split; [|split].
    + intros ->. cbn. rewrite Nat.eqb_refl, Nat.add_0_r. reflexivity.
    + intros _ [|j] H; discriminate.
    + intros R _. destruct rest as [z|]; cbn; [|reflexivity]. destruct (Nat.eqb_spec x z); [congruence|reflexivity].
  - cbn [bindings]. rewrite assq_rev_cons. destruct (IH (S i) ((y, nth i args Nil) :: T)) as (A & B & C). split; [|split].
    + intros R. rewrite (A R). cbn [length]. do 3 f_equal. lia.
    + intros R [|j] H L.
      * cbn in H. injection H as ->. rewrite C; [|exact R|].
        -- cbn. rewrite Nat.eqb_refl, Nat.add_0_r. reflexivity.
        -- intros I. apply In_nth_error in I as (j & I). apply (L (S j)); [lia|exact I].
      * cbn in H. rewrite (B R j H); [do 2 f_equal; lia|]. intros j' L'. apply (L (S j')). lia.
    + intros R N. rewrite C; [|exact R|intros I; apply N; right; exact I]. cbn. destruct (Nat.eqb_spec x y) as [->|D]; [|reflexivity].
      exfalso. apply N. left. reflexivity.
Qed.
Lemma bound_sees p r args v : sees p r args v (rev (bindings p r 0 args) ++ [(self_name, v)]).
Proof.
  intros x. destruct (bindings_last x args r p 0 [(self_name, v)]) as (A & B & C). split.
  - intros w [[R ->]|(R & i & H & -> & L)]; [exact (A R)|exact (B R i H L)].
  - intros R N. rewrite (C R N). cbn. reflexivity.
Qed.
Lemma last_place (x : nat) l : In x l -> exists i, nth_error l i = Some x /\ forall j, i < j -> nth_error l j <> Some x.
Proof.
  induction l as [|y l IH]; [intros []|]. intros I. destruct (in_dec Nat.eq_dec x l) as [J|J].
  - destruct (IH J) as (i & A & B). exists (S i). split; [exact A|]. intros [|j] L; [lia|]. apply B. lia.
  - destruct I as [->|I]; [|contradiction]. exists 0. split; [reflexivity|]. intros [|j] L H; [lia|]. cbn in H. apply nth_error_In in H. contradiction.
Qed.
Lemma sees_same p r args v E E' : sees p r args v E -> sees p r args v E' -> forall x, assq x E = assq x E'.
Proof.
  intros S S' x. destruct (S x) as [A B]. destruct (S' x) as [A' B'].
  assert (D : {r = Some x} + {r <> Some x}) by (decide equality; apply Nat.eq_dec). destruct D as [->|R].
  - rewrite (A (Lst (skipn (length p) args))), (A' (Lst (skipn (length p) args))); [reflexivity|left; auto|left; auto].
  - destruct (in_dec Nat.eq_dec x p) as [I|I].
    + destruct (last_place x p I) as (i & H & L). assert (Q : is_param p r args x (nth i args Nil)) by (right; split; [exact R|exists i; auto]).
      rewrite (A _ Q), (A' _ Q). reflexivity.
    + rewrite (B R I), (B' R I). reflexivity.
Qed.

(** * No keyword *)
Definition free_env (E : env) : Prop := Forall (fun b => free (snd b)) E.
Lemma take_free args : Forall free args -> take_self args = (None, args).
Proof. induction 1 as [|v l F _ IH]; [reflexivity|]. cbn. rewrite IH. destruct F; reflexivity. Qed.
Lemma free_nth args i : Forall free args -> free (nth i args Nil).
Proof. intros F. revert i. induction F as [|v l Fv _ IH]; intros [|i]; cbn; auto; constructor. Qed.
Lemma free_skipn args i : Forall free args -> Forall free (skipn i args).
Proof. intros F. revert i. induction F as [|v l Fv F IH]; intros [|i]; cbn; auto. Qed.
Lemma free_bindings p r args : Forall free args -> forall i, free_env (bindings p r i args).
Proof.
  intros F. induction p as [|x p IH]; intros i; cbn.
  - destruct r; repeat constructor. apply free_skipn; exact F.
  - constructor; [apply free_nth; exact F|apply IH].
Qed.
Lemma free_bound p r args v : Forall free args -> free v -> free_env (rev (bindings p r 0 args) ++ [(self_name, v)]).
Proof. intros F V. apply Forall_app. split; [apply Forall_rev, free_bindings, F|repeat constructor; exact V]. Qed.
Lemma assq_free x E v : free_env E -> assq x E = Some v -> free v.
Proof.
  induction 1 as [|[y w] E F _ IH]; cbn; [discriminate|]. destruct (Nat.eqb x y); [intros [= <-]; exact F|exact IH].
Qed.
Lemma free_set st c v : Forall free st -> free v -> Forall free (set_nth st c v).
Proof. intros F V. revert c. induction F as [|a l A F IH]; intros [|c]; cbn; constructor; auto. Qed.
Lemma find_method_in op l m : find_method op l = Some m -> exists n, In (n, m) l.
Proof.
  induction l as [|[n m'] l IH]; cbn; [discriminate|]. destruct (eql op n); [intros [= ->]; exists n; left; reflexivity|].
  intros H. destruct (IH H) as (k & I). exists k. right. exact I.
Qed.

Section Run.
  Variable objects : list object.
  Variable prim : nat -> list val -> option val.
  Hypothesis MA : made_after objects.
  Hypothesis FO : free_objects objects.
  Hypothesis FP : free_prim prim.
  Notation evl := (eval objects prim).
  Notation means_ := (means objects prim).
  Notation means_list_ := (means_list objects prim).
  Notation answers_ := (answers objects prim).

  Lemma has_method_fun o op m m' : has_method objects o op m -> has_method objects o op m' -> m = m'.
  Proof.
    intros H. revert m'. induction H as [o op m F|o b op m F B H IH]; intros m' H'.
    - inversion H' as [? ? ? F'|? ? ? ? F' B' H'']; subst; congruence.
    - inversion H' as [? ? ? F'|? ? ? ? F' B' H'']; subst; [congruence|]. rewrite B in B'. injection B' as <-. auto.
  Qed.

  Definition run_method (ev : env -> expr -> list val -> res) (m : method) (self : val) (args st : list val) : res :=
    match m with
    | Body p r e => ev (rev (bindings p r 0 args) ++ [(self_name, self)]) e st
    | Function p => match prim p args with Some v => Done v st | None => Err Bad st end
    end.

  Lemma get_out o : length objects <= o -> get_obj objects o = mko Nil [].
  Proof. intros L. unfold get_obj. apply nth_overflow. exact L. Qed.

  Lemma call_finds ev op self args st n : forall o pre,
    (pre = args /\ self = Obj o /\ Forall free args) \/ pre = KwSelf :: self :: args ->
    (o < length objects -> o <= n) ->
    (exists m, has_method objects o op m /\ call objects prim ev n o op pre st = run_method ev m self args st) \/
    ((forall m, ~ has_method objects o op m) /\ call objects prim ev n o op pre st = Err (Unknown op) st).
  Proof.
    induction n as [|n IH]; intros o pre PRE LE.
    all: assert (T : exists s, take_self pre = (s, args) /\ (match s with Some v => v | None => Obj o end) = self)
      by (destruct PRE as [(-> & -> & F)| ->]; [exists None; rewrite (take_free _ F); auto|exists (Some self); split; reflexivity]).
    all: destruct T as (s & T1 & T2); cbn [call]; rewrite T1, T2.
    all: destruct (find_method op (methods (get_obj objects o))) as [m|] eqn:F;
      [left; exists m; split; [apply own; exact F|destruct m; reflexivity]|].
    all: assert (B : base (get_obj objects o) = Nil \/ (exists b, base (get_obj objects o) = Obj b /\ b < o /\ o < length objects))
      by (destruct (Nat.lt_ge_cases o (length objects)) as [L|L];
          [destruct (MA o L) as [N|(b & N & Lb)]; [left; exact N|right; exists b; auto]|left; rewrite get_out by exact L; reflexivity]).
    all: destruct B as [B|(b & B & Lb & Lo)]; rewrite B;
      [right; split; [|reflexivity]; intros m H; inversion H as [? ? ? F'|? ? ? ? F' B' H']; subst; congruence|].
    - specialize (LE Lo). lia.
    - destruct (IH b (KwSelf :: self :: args) (or_intror eq_refl)) as [(m & H & E)|(H & E)].
      + intros _. specialize (LE Lo). lia.
      + left. exists m. split; [eapply inherited; eauto|exact E].
      + right. split; [|exact E]. intros m H'. inversion H' as [? ? ? F'|? ? ? ? F' B' H'']; subst; [congruence|].
        rewrite B in B'. injection B' as <-. exact (H m H'').
  Qed.
  Lemma call_start ev op args st o : Forall free args ->
    (exists m, has_method objects o op m /\ call objects prim ev (length objects) o op args st = run_method ev m (Obj o) args st) \/
    ((forall m, ~ has_method objects o op m) /\ call objects prim ev (length objects) o op args st = Err (Unknown op) st).
  Proof. intros F. apply call_finds; [left; auto|lia]. Qed.
  Lemma method_free o op p r e : has_method objects o op (Body p r e) -> free_expr e.
  Proof.
    intros H. remember (Body p r e) as m eqn:E. induction H as [o op m F|]; [|auto]. subst. apply find_method_in in F as (k & I). eapply FO, I.
  Qed.

  (** * What runs is what is meant *)
  Definition sound (o : res) (P : out -> list val -> Prop) : Prop :=
    match o with
    | Done v st => P (Value v) st /\ free v /\ Forall free st
    | Err x st => P (Error x) st /\ Forall free st
    | NoFuel => True
    end.

  Section Level.
    Variable ev : env -> expr -> list val -> res.
    Hypothesis IH : forall E e st, free_env E -> free_expr e -> Forall free st -> sound (ev E e st) (means_ E e st).

    Lemma evals_sound E l : free_env E -> Forall free_expr l -> forall st k, Forall free st ->
      (exists vs st', means_list_ E l st (inl vs) st' /\ Forall free vs /\ Forall free st' /\ evals ev E l st k = k vs st') \/
      (exists x st', means_list_ E l st (inr x) st' /\ Forall free st' /\ evals ev E l st k = Err x st') \/
      evals ev E l st k = NoFuel.
    Proof.
      intros FE. induction 1 as [|e l Fe Fl IHl]; intros st k FS; cbn [evals].
      - left. exists [], st. repeat split; auto. constructor.
      - assert (S := IH E e st FE Fe FS). destruct (ev E e st) as [v st1|x st1|]; cbn in S.
        + destruct S as (M & Fv & FS1). destruct (IHl st1 (fun vs st => k (v :: vs) st) FS1) as [(vs & st' & M' & Fvs & FS' & E')|[(x & st' & M' & FS' & E')|E']].
          * left. exists (v :: vs), st'. split; [econstructor; eauto|]. auto.
          * right. left. exists x, st'. split; [eapply l_cons_err; eauto|]. auto.
          * right. right. exact E'.
        + right. left. destruct S as [M FS1]. exists x, st1. split; [constructor; exact M|]. auto.
        + right. right. reflexivity.
    Qed.
    Lemma call_sound o op args st : Forall free args -> Forall free st -> free op ->
      sound (call objects prim ev (length objects) o op args st) (answers_ (Obj o) op args st).
    Proof.
      intros FA FS Fop. destruct (call_start ev op args st o FA) as [(m & H & ->)|(H & ->)].
      - destruct m as [p r e|p]; cbn [run_method].
        + assert (S := IH (rev (bindings p r 0 args) ++ [(self_name, Obj o)]) e st (free_bound p r args (Obj o) FA (fr_obj o)) (method_free _ _ _ _ _ H) FS).
          destruct (ev _ e st) as [v st'|x st'|]; cbn in *; [| |exact I].
          * destruct S as (M & A & B). split; [|auto]. eapply a_body; [exact H|apply bound_sees|exact M].
          * destruct S as (M & B). split; [|auto]. eapply a_body; [exact H|apply bound_sees|exact M].
        + destruct (prim p args) as [v|] eqn:E; cbn.
          * split; [eapply a_fun; eauto|]. split; [exact (FP _ _ _ FA E)|exact FS].
          * split; [eapply a_fun_err; eauto|exact FS].
      - cbn. split; [apply a_unknown; exact H|exact FS].
    Qed.
  End Level.

  Lemma eval_sound fuel : forall E e st, free_env E -> free_expr e -> Forall free st -> sound (evl fuel E e st) (means_ E e st).
  Proof.
    induction fuel as [|fuel IH]; intros E e st FE Fe FS; [exact I|]. cbn [eval].
    destruct Fe as [v Fv|x|c|c e Fe|a b Fa Fb|o op args Fo Fop Fargs].
    - cbn. repeat split; auto. constructor.
    - destruct (assq x E) as [v|] eqn:A; cbn; [|split; [constructor; exact A|exact FS]].
      split; [constructor; exact A|]. split; [eapply assq_free; eauto|exact FS].
    - cbn. split; [constructor|]. split; [apply free_nth, FS|exact FS].
    - assert (S := IH E e st FE Fe FS). destruct (evl fuel E e st) as [v st1|x st1|]; cbn in *; [| |exact I].
      + destruct S as (M & A & B). split; [constructor; exact M|]. split; [exact A|apply free_set; auto].
      + destruct S as (M & B). split; [constructor; exact M|exact B].
    - assert (S := IH E a st FE Fa FS). destruct (evl fuel E a st) as [v st1|x st1|]; cbn in S; [| |exact I].
      + destruct S as (M & A & B). assert (S2 := IH E b st1 FE Fb B). destruct (evl fuel E b st1) as [v2 st2|x st2|]; cbn in *; [| |exact I].
        * destruct S2 as (M2 & A2 & B2). split; [econstructor; eauto|]. auto.
        * destruct S2 as (M2 & B2). split; [econstructor; eauto|]. auto.
      + destruct S as (M & B). cbn. split; [apply m_progn_err; exact M|exact B].
    - assert (S := IH E o st FE Fo FS). destruct (evl fuel E o st) as [f st1|x st1|]; cbn in S; [| |exact I].
      2: { destruct S as (M & B). cbn. split; [apply m_send_o; exact M|exact B]. }
      destruct S as (M1 & Ff & FS1).
      assert (S := IH E op st1 FE Fop FS1). destruct (evl fuel E op st1) as [n st2|x st2|]; cbn in S; [| |exact I].
      2: { destruct S as (M & B). cbn. split; [eapply m_send_op; eauto|exact B]. }
      destruct S as (M2 & Fn & FS2).
      destruct (evals_sound (evl fuel) IH E args FE Fargs st2 (fun vs st => match f with Obj i => call objects prim (evl fuel) (length objects) i n vs st | _ => Err NotFunction st end) FS2)
        as [(vs & st3 & M3 & Fvs & FS3 & ->)|[(x & st3 & M3 & FS3 & ->)| ->]]; [| |exact I].
      + destruct f as [|z|s| |i|l];
          try (cbn; split; [eapply m_send; eauto; apply a_other; discriminate|exact FS3]).
        assert (S := call_sound (evl fuel) IH i n vs st3 Fvs FS3 Fn).
        destruct (call _ _ _ _ _ _ _ _) as [v st4|x st4|]; cbn in *; [| |exact I].
        * destruct S as (A & B & C). split; [eapply m_send; eauto|auto].
        * destruct S as (A & C). split; [eapply m_send; eauto|auto].
      + cbn. split; [eapply m_send_args; eauto|exact FS3].
  Qed.

  (** * What is meant runs *)
  Scheme means_mut := Minimality for means Sort Prop
    with means_list_mut := Minimality for means_list Sort Prop
    with answers_mut := Minimality for answers Sort Prop.
  Combined Scheme means_all from means_mut, means_list_mut, answers_mut.

  Definition to_res (r : out) (st : list val) : res := match r with Value v => Done v st | Error x => Err x st end.
  Definition free_out (r : out) : Prop := match r with Value v => free v | Error _ => True end.
  Definition same_env (E E' : env) : Prop := forall x, assq x E = assq x E'.

  Definition P1 (E : env) (e : expr) (st : list val) (r : out) (st' : list val) : Prop :=
    forall E', same_env E E' -> free_env E' -> free_expr e -> Forall free st ->
    free_out r /\ Forall free st' /\ exists f0, forall f, f0 <= f -> evl f E' e st = to_res r st'.
  Definition P2 (E : env) (l : list expr) (st : list val) (r : list val + error) (st' : list val) : Prop :=
    forall E', same_env E E' -> free_env E' -> Forall free_expr l -> Forall free st ->
    match r with
    | inl vs => Forall free vs /\ Forall free st' /\ exists f0, forall f k, f0 <= f -> evals (evl f) E' l st k = k vs st'
    | inr x => Forall free st' /\ exists f0, forall f k, f0 <= f -> evals (evl f) E' l st k = Err x st'
    end.
  Definition P3 (f : val) (n : val) (vs : list val) (st : list val) (r : out) (st' : list val) : Prop :=
    Forall free vs -> Forall free st ->
    free_out r /\ Forall free st' /\ exists f0, forall fuel, f0 <= fuel ->
      match f with Obj i => call objects prim (evl fuel) (length objects) i n vs st | _ => Err NotFunction st end = to_res r st'.

  Ltac fuel1 f0 := exists (S f0); intros f L; destruct f as [|f]; [lia|]; cbn [eval].

  Lemma complete : (forall E e st r st', means_ E e st r st' -> P1 E e st r st') /\
    (forall E l st r st', means_list_ E l st r st' -> P2 E l st r st') /\
    (forall f n vs st r st', answers_ f n vs st r st' -> P3 f n vs st r st').
  Proof.
    apply means_all.
    - intros E v st E' SE FE Fe FS. inversion Fe; subst. split; [assumption|]. split; [exact FS|]. fuel1 0. reflexivity.
    - intros E x v st A E' SE FE Fe FS. rewrite (SE x) in A. split; [exact (assq_free x E' v FE A)|]. split; [exact FS|]. fuel1 0. rewrite A. reflexivity.
    - intros E x st A E' SE FE Fe FS. rewrite (SE x) in A. split; [exact I|]. split; [exact FS|]. fuel1 0. rewrite A. reflexivity.
    - intros E c st E' SE FE Fe FS. split; [apply free_nth, FS|]. split; [exact FS|]. fuel1 0. reflexivity.
    - intros E c e st v st' _ H E' SE FE Fe FS. inversion Fe; subst. destruct (H E' SE FE ltac:(assumption) FS) as (A & B & f0 & C).
      split; [exact A|]. split; [apply free_set; auto|]. fuel1 f0. rewrite C by lia. reflexivity.
    - intros E c e st x st' _ H E' SE FE Fe FS. inversion Fe; subst. destruct (H E' SE FE ltac:(assumption) FS) as (A & B & f0 & C).
      split; [exact I|]. split; [exact B|]. fuel1 f0. rewrite C by lia. reflexivity.
    - intros E a b st v st' r st'' _ H1 _ H2 E' SE FE Fe FS. inversion Fe; subst. destruct (H1 E' SE FE ltac:(assumption) FS) as (A & B & f0 & C).
      destruct (H2 E' SE FE ltac:(assumption) B) as (A2 & B2 & f2 & C2).
      split; [exact A2|]. split; [exact B2|]. fuel1 (f0 + f2). rewrite C by lia. cbn [to_res]. apply C2. lia.
    - intros E a b st x st' _ H E' SE FE Fe FS. inversion Fe; subst. destruct (H E' SE FE ltac:(assumption) FS) as (A & B & f0 & C).
      split; [exact I|]. split; [exact B|]. fuel1 f0. rewrite C by lia. reflexivity.
    - intros E o op args st x st' _ H E' SE FE Fe FS. inversion Fe; subst. destruct (H E' SE FE ltac:(assumption) FS) as (A & B & f0 & C).
      split; [exact I|]. split; [exact B|]. fuel1 f0. rewrite C by lia. reflexivity.
    - intros E o op args st fv st1 x st2 _ H1 _ H2 E' SE FE Fe FS. inversion Fe; subst. destruct (H1 E' SE FE ltac:(assumption) FS) as (A & B & f0 & C).
      destruct (H2 E' SE FE ltac:(assumption) B) as (A2 & B2 & f2 & C2).
      split; [exact I|]. split; [exact B2|]. fuel1 (f0 + f2). rewrite C by lia. cbn [to_res]. rewrite C2 by lia. reflexivity.
    - intros E o op args st fv st1 n st2 x st3 _ H1 _ H2 _ H3 E' SE FE Fe FS. inversion Fe; subst. destruct (H1 E' SE FE ltac:(assumption) FS) as (A & B & f0 & C).
      destruct (H2 E' SE FE ltac:(assumption) B) as (A2 & B2 & f2 & C2). destruct (H3 E' SE FE ltac:(assumption) B2) as (B3 & f3 & C3).
      split; [exact I|]. split; [exact B3|]. fuel1 (f0 + f2 + f3). rewrite C by lia. cbn [to_res]. rewrite C2 by lia. cbn [to_res]. apply C3. lia.
    - intros E o op args st fv st1 n st2 vs st3 r st4 _ H1 _ H2 _ H3 _ H4 E' SE FE Fe FS. inversion Fe; subst. destruct (H1 E' SE FE ltac:(assumption) FS) as (A & B & f0 & C).
      destruct (H2 E' SE FE ltac:(assumption) B) as (A2 & B2 & f2 & C2). destruct (H3 E' SE FE ltac:(assumption) B2) as (A3 & B3 & f3 & C3).
      destruct (H4 A3 B3) as (A4 & B4 & f4 & C4).
      split; [exact A4|]. split; [exact B4|]. fuel1 (f0 + f2 + f3 + f4). rewrite C by lia. cbn [to_res]. rewrite C2 by lia. cbn [to_res]. rewrite C3 by lia. apply C4. lia.
    - intros E st E' SE FE Fe FS. split; [constructor|]. split; [exact FS|]. exists 0. reflexivity.
    - intros E e l st x st' _ H E' SE FE Fe FS. inversion Fe; subst. destruct (H E' SE FE ltac:(assumption) FS) as (A & B & f0 & C).
      split; [exact B|]. exists f0. intros f k L. cbn [evals]. rewrite C by lia. reflexivity.
    - intros E e l st v st' vs st'' _ H1 _ H2 E' SE FE Fe FS. inversion Fe; subst. destruct (H1 E' SE FE ltac:(assumption) FS) as (A & B & f0 & C).
      destruct (H2 E' SE FE ltac:(assumption) B) as (A2 & B2 & f2 & C2). split; [constructor; auto|]. split; [exact B2|].
      exists (f0 + f2). intros f k L. cbn [evals]. rewrite C by lia. cbn [to_res]. rewrite C2 by lia. reflexivity.
    - intros E e l st v st' x st'' _ H1 _ H2 E' SE FE Fe FS. inversion Fe; subst. destruct (H1 E' SE FE ltac:(assumption) FS) as (A & B & f0 & C).
      destruct (H2 E' SE FE ltac:(assumption) B) as (B2 & f2 & C2). split; [exact B2|].
      exists (f0 + f2). intros f k L. cbn [evals]. rewrite C by lia. cbn [to_res]. rewrite C2 by lia. reflexivity.
    - intros o n vs st p r e E res st' HM SE _ H FV FS.
      destruct (H (rev (bindings p r 0 vs) ++ [(self_name, Obj o)]) (sees_same _ _ _ _ _ _ SE (bound_sees p r vs (Obj o))) (free_bound p r vs (Obj o) FV (fr_obj o)) (method_free _ _ _ _ _ HM) FS) as (A & B & f0 & C).
      split; [exact A|]. split; [exact B|]. exists f0. intros fuel L. destruct (call_start (evl fuel) n vs st o FV) as [(m & HM' & ->)|(HM' & _)].
      + rewrite (has_method_fun _ _ _ _ HM' HM). cbn [run_method]. apply C. exact L.
      + exfalso. exact (HM' _ HM).
    - intros o n vs st p v HM Q FV FS. split; [exact (FP _ _ _ FV Q)|]. split; [exact FS|]. exists 0. intros fuel L.
      destruct (call_start (evl fuel) n vs st o FV) as [(m & HM' & ->)|(HM' & _)]; [|exfalso; exact (HM' _ HM)].
      rewrite (has_method_fun _ _ _ _ HM' HM). cbn [run_method]. rewrite Q. reflexivity.
    - intros o n vs st p HM Q FV FS. split; [exact I|]. split; [exact FS|]. exists 0. intros fuel L.
      destruct (call_start (evl fuel) n vs st o FV) as [(m & HM' & ->)|(HM' & _)]; [|exfalso; exact (HM' _ HM)].
      rewrite (has_method_fun _ _ _ _ HM' HM). cbn [run_method]. rewrite Q. reflexivity.
    - intros o n vs st HM FV FS. split; [exact I|]. split; [exact FS|]. exists 0. intros fuel L.
      destruct (call_start (evl fuel) n vs st o FV) as [(m & HM' & _)|(_ & ->)]; [exfalso; exact (HM _ HM')|reflexivity].
    - intros f n vs st N FV FS. split; [exact I|]. split; [exact FS|]. exists 0. intros fuel L. destruct f; try reflexivity. exfalso. eapply N. reflexivity.
  Qed.
End Run.
