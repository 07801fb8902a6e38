(** Proofs for Gaol_Props: what restricted code learns; variables of its own. *)
From Coq Require Import List ZArith Bool Lia PeanoNat.
Import ListNotations.
From Verif Require Import Gaol_Model Gaol_Spec Gaol_Proofs.

Section Secret.
  Variable imports : id -> sym -> option Z.
  Variable set_binds : id -> bool.
  Variable user : option id.
  Variable autoload : Z -> bool.
  Notation step := (step imports set_binds user autoload).
  Notation run := (run imports set_binds user autoload).
  Notation defvar := (defvar imports set_binds user autoload).
  Notation do_set := (do_set set_binds).

  Section X.
  Variable x : sym.
  Notation alike := (alike x).

  Lemma al_search s1 s2 i y : alike s1 s2 -> search s1 i y = search s2 i y.
  Proof. intros (_ & _ & _ & _ & _ & E & _). unfold search. rewrite E. reflexivity. Qed.
  Lemma al_flag s1 s2 y : alike s1 s2 -> flag s1 y = flag s2 y.
  Proof. intros (F & _). apply F. Qed.
  Lemma al_ref s1 s2 i y : alike s1 s2 -> structure_ref imports s1 i y = structure_ref imports s2 i y.
  Proof. intros (_ & _ & _ & _ & O & _). unfold structure_ref. rewrite O. reflexivity. Qed.
  Lemma al_binding b1 b2 y : y <> x -> Forall2 (same_but x) b1 b2 -> binding b1 y = binding b2 y.
  Proof.
    intros N. induction 1 as [|[z v] [z' w] b1 b2 (A & B & _) _ IH]; [reflexivity|]. cbn [binding fst snd] in *. subst z'. destruct (Nat.eqb_spec z y) as [->|]; [rewrite (B N); reflexivity|exact IH].
  Qed.
  Lemma al_value s1 s2 y : y <> x -> alike s1 s2 -> special_value s1 y = special_value s2 y.
  Proof. intros N (_ & S & _ & B & _). unfold special_value. rewrite (al_binding _ _ y N B). destruct (binding (bound s2) y); [reflexivity|apply S; exact N]. Qed.
  Lemma al_some s1 s2 : alike s1 s2 -> is_some (special_value s1 x) = true /\ is_some (special_value s2 x) = true.
  Proof.
    intros (_ & _ & (v & w & E1 & E2) & B & _). unfold special_value. induction B as [|[z a] [z' b] b1 b2 (A & _ & C) _ IH]; cbn [binding].
    - rewrite E1, E2. split; reflexivity.
    - cbn [fst snd] in *. subst z'. destruct (Nat.eqb_spec z x) as [->|]; [|exact IH]. destruct (C eq_refl) as (p & q & -> & ->). split; reflexivity.
  Qed.
  Lemma al_set_binding b1 b2 y v : y <> x -> Forall2 (same_but x) b1 b2 -> Forall2 (same_but x) (set_binding b1 y v) (set_binding b2 y v).
  Proof.
    intros N. induction 1 as [|[z a] [z' b] b1 b2 H F IH]; [constructor|]. cbn [set_binding]. assert (E : z = z') by apply H. subst z'. destruct (Nat.eqb_spec z y) as [->|].
    - constructor; [|exact F]. split; [reflexivity|]. split; [reflexivity|]. intros E. cbn in E. contradiction.
    - constructor; [exact H|exact IH].
  Qed.
  Lemma al_set_special s1 s2 y v : y <> x -> alike s1 s2 -> alike (set_special s1 y v) (set_special s2 y v).
  Proof.
    intros N (F & S & (a & b & E1 & E2) & B & O & E & P). split; [exact F|]. split.
    - intros z NZ. cbn. unfold upd. destruct (Nat.eqb z y); [reflexivity|apply S; exact NZ].
    - split; [exists a, b; cbn; rewrite !upd_other by auto; auto|]. repeat split; assumption.
  Qed.
  Lemma al_set_value s1 s2 y v : y <> x -> alike s1 s2 -> alike (set_special_value s1 y v) (set_special_value s2 y v).
  Proof.
    intros N A. unfold set_special_value. destruct A as (F & S & X & B & O & E & P). rewrite (al_binding _ _ y N B). destruct (binding (bound s2) y).
    - repeat split; try assumption. cbn. apply al_set_binding; assumption.
    - apply al_set_special; [exact N|repeat split; assumption].
  Qed.
  Lemma al_set_flag s1 s2 y f : alike s1 s2 -> alike (set_flag s1 y f) (set_flag s2 y f).
  Proof. intros (F & R). split; [|exact R]. intros z. cbn. unfold upd. destruct (Nat.eqb z y); [reflexivity|apply F]. Qed.
  Lemma al_set_own s1 s2 i y v : alike s1 s2 -> alike (set_own s1 i y v) (set_own s2 i y v).
  Proof.
    intros (F & S & X & B & O & E & P). repeat split; try assumption. intros j z. cbn. unfold upd. destruct (Nat.eqb j i); [|apply O]. destruct (Nat.eqb z y); [reflexivity|apply O].
  Qed.
  Lemma al_set_env s1 s2 i e : alike s1 s2 -> alike (set_env s1 i e) (set_env s2 i e).
  Proof. intros (F & S & X & B & O & E & P). repeat split; try assumption. intros j. cbn. unfold upd. destruct (Nat.eqb j i); [reflexivity|apply E]. Qed.
  Lemma al_set_plist s1 s2 y l : alike s1 s2 -> alike (set_plist s1 y l) (set_plist s2 y l).
  Proof. intros (F & S & X & B & O & E & P). repeat split; try assumption. intros j. cbn. unfold upd. destruct (Nat.eqb j y); [reflexivity|apply P]. Qed.

  (** two results *)
  Definition both {A} (r1 r2 : state * A) : Prop := alike (fst r1) (fst r2) /\ snd r1 = snd r2.
  Definition both_opt (o1 o2 : option state) : Prop :=
    match o1, o2 with Some a, Some b => alike a b | None, None => True | _, _ => False end.
  Lemma al_structure_set s1 s2 i y v : alike s1 s2 -> both_opt (structure_set set_binds s1 i y v) (structure_set set_binds s2 i y v).
  Proof.
    intros A. unfold structure_set. assert (O : own s1 i y = own s2 i y) by apply A. rewrite O. destruct v; [|apply al_set_own; exact A]. destruct (set_binds i); [apply al_set_own; exact A|].
    destruct (own s2 i y); [apply al_set_own; exact A|exact I].
  Qed.
  Lemma al_do_set s1 s2 i y v : y <> x -> alike s1 s2 -> both_opt (do_set s1 i y v) (do_set s2 i y v).
  Proof.
    intros N A. unfold Gaol_Model.do_set. rewrite (al_flag s1 s2 y A), (al_search s1 s2 i y A). destruct (special (flag s2 y)); [|apply al_structure_set; exact A].
    destruct (search s2 i y); [| |exact I]; [|destruct (weak_mod (flag s2 y)); [exact I|]]; apply al_set_value; assumption.
  Qed.
  Lemma al_symbol_value s1 s2 i y : y <> x -> alike s1 s2 -> symbol_value imports s1 i y = symbol_value imports s2 i y.
  Proof. intros N A. unfold symbol_value. rewrite (al_flag s1 s2 y A), (al_search s1 s2 i y A), (al_value s1 s2 y N A), (al_ref s1 s2 i y A). reflexivity. Qed.
  Lemma al_default_boundp s1 s2 i y : y <> x -> alike s1 s2 -> default_boundp imports s1 i y = default_boundp imports s2 i y.
  Proof. intros N A. unfold default_boundp. rewrite (al_flag s1 s2 y A), (al_value s1 s2 y N A), (al_ref s1 s2 i y A). reflexivity. Qed.
  Lemma al_initial s1 s2 y : alike s1 s2 -> match get_initial imports user s1 y, get_initial imports user s2 y with Some (v, a), Some (w, b) => v = w /\ alike a b | None, None => True | _, _ => False end.
  Proof. intros A. unfold get_initial. destruct user as [u|]; [|exact I]. rewrite (al_ref s1 s2 u y A). destruct (structure_ref imports s2 u y); [|exact I]. split; [reflexivity|apply al_set_own; exact A]. Qed.
  Lemma al_defvar s1 s2 i y v : y <> x -> alike s1 s2 -> both (defvar s1 i y v) (defvar s2 i y v).
  Proof.
    intros N A. unfold Gaol_Model.defvar. rewrite (al_default_boundp s1 s2 i y N A), (al_symbol_value s1 s2 i y N A).
    set (r1 := if default_boundp imports s2 i y then match symbol_value imports s2 i y with Some w => if autoload w then (match do_set s1 i y None with Some st' => st' | None => s1 end, false) else (s1, true) | None => (s1, true) end else (s1, false)).
    set (r2 := if default_boundp imports s2 i y then match symbol_value imports s2 i y with Some w => if autoload w then (match do_set s2 i y None with Some st' => st' | None => s2 end, false) else (s2, true) | None => (s2, true) end else (s2, false)).
    assert (R : both r1 r2).
    { unfold r1, r2. destruct (default_boundp imports s2 i y); [|split; [exact A|reflexivity]]. destruct (symbol_value imports s2 i y) as [w|]; [|split; [exact A|reflexivity]]. destruct (autoload w); [|split; [exact A|reflexivity]].
      assert (D := al_do_set s1 s2 i y None N A). split; [|reflexivity]. cbn [fst]. destruct (do_set s1 i y None), (do_set s2 i y None); try contradiction; [exact D|exact A]. }
    destruct r1 as [t1 b1], r2 as [t2 b2]. destruct R as [R Rb]. cbn [fst snd] in R, Rb. subst b2. clear s1 s2 A. rewrite (al_search t1 t2 i y R), (al_flag t1 t2 y R).
    destruct (match search t2 i y with Unlisted => _ | _ => _ end); [split; [exact R|reflexivity]|].
    assert (G := al_initial t1 t2 y R).
    set (q1 := if special (flag t2 y) then (t1, v, b1) else match get_initial imports user t1 y with Some (w, st') => (st', w, false) | None => (t1, v, b1) end).
    set (q2 := if special (flag t2 y) then (t2, v, b1) else match get_initial imports user t2 y with Some (w, st') => (st', w, false) | None => (t2, v, b1) end).
    assert (Q : alike (fst (fst q1)) (fst (fst q2)) /\ snd (fst q1) = snd (fst q2) /\ snd q1 = snd q2).
    { unfold q1, q2. destruct (special (flag t2 y)); [auto|]. destruct (get_initial imports user t1 y) as [[w1 u1]|], (get_initial imports user t2 y) as [[w2 u2]|]; try contradiction; cbn [fst snd]; [destruct G; auto|auto]. }
    destruct q1 as [[u1 v1] c1], q2 as [[u2 v2] c2]. cbn [fst snd] in Q. destruct Q as (Q & -> & ->). assert (E : env u1 i = env u2 i) by apply Q. rewrite E.
    set (c := (negb c2 || _)%bool). set (z1 := if c then set_special u1 y (Some v2) else u1). set (z2 := if c then set_special u2 y (Some v2) else u2).
    assert (ZA : alike z1 z2) by (unfold z1, z2; destruct c; [apply al_set_special; assumption|exact Q]).
    destruct (search t2 i y); [split; [apply al_set_flag; exact ZA|reflexivity]|split; [apply al_set_flag; exact ZA|reflexivity]|].
    split; [|reflexivity]. cbn [fst]. assert (EZ : env z1 i = env z2 i) by apply ZA. cbn [env set_flag]. rewrite EZ. apply al_set_env, al_set_flag. exact ZA.
  Qed.
  Lemma al_if_listed s1 s2 i y r1 r2 : alike s1 s2 -> both r1 r2 -> both (if_listed s1 i y r1) (if_listed s2 i y r2).
  Proof. intros A B. unfold if_listed. rewrite (al_search s1 s2 i y A). destruct (search s2 i y); [exact B|exact B|split; [exact A|reflexivity]]. Qed.
  Lemma al_or_error s1 s2 o1 o2 : alike s1 s2 -> both_opt o1 o2 -> both (or_error s1 o1) (or_error s2 o2).
  Proof. intros A B. unfold or_error. destruct o1, o2; try contradiction; split; auto. Qed.
  Lemma al_step s1 s2 i o : trusted x s1 -> outside x i s1 -> alike s1 s2 -> both (step s1 i o) (step s2 i o).
  Proof.
    intros T O A. destruct (Nat.eq_dec (subject o) x) as [E|N].
    - assert (T2 : trusted x s2) by (unfold trusted in *; rewrite <- (al_flag s1 s2 x A); exact T). assert (O2 : outside x i s2) by (apply search_outside; rewrite <- (al_search s1 s2 i x A); apply search_outside; exact O).
      rewrite <- E in T, O, T2, O2. rewrite (at_x imports set_binds user autoload s1 i o T O), (at_x imports set_binds user autoload s2 i o T2 O2). split; [exact A|]. cbn [snd]. destruct (al_some s1 s2 A) as [V1 V2].
      destruct o; cbn [refused subject] in *; try reflexivity; [subst x; rewrite V1, V2; reflexivity|]. assert (P : plist s1 x0 = plist s2 x0) by apply A. rewrite P. reflexivity.
    - destruct o as [y v|y|y|y v|y v|y|y|y|y l|y p v|y|y p|y|y]; cbn [subject Gaol_Model.step] in *.
      + apply al_defvar; assumption.
      + unfold or_void. rewrite (al_symbol_value s1 s2 i y N A). split; [exact A|reflexivity].
      + unfold or_void. change (default_value imports) with (symbol_value imports). rewrite (al_symbol_value s1 s2 i y N A). split; [exact A|reflexivity].
      + apply al_or_error; [exact A|]. apply al_do_set; assumption.
      + apply al_or_error; [exact A|]. unfold set_default. rewrite (al_flag s1 s2 y A), (al_search s1 s2 i y A). destruct (special (flag s2 y)).
        * destruct (search s2 i y); [| |exact I]; [|destruct (weak_mod (flag s2 y)); [exact I|]]; apply al_set_value; assumption.
        * assert (D := al_structure_set s1 s2 i y (Some v) A). destruct (structure_set set_binds s1 i y (Some v)), (structure_set set_binds s2 i y (Some v)); try contradiction; exact D.
      + apply al_or_error; [exact A|]. apply al_do_set; assumption.
      + rewrite (al_symbol_value s1 s2 i y N A). split; [exact A|reflexivity].
      + rewrite (al_default_boundp s1 s2 i y N A). split; [exact A|reflexivity].
      + apply al_if_listed; [exact A|]. split; [apply al_set_plist; exact A|reflexivity].
      + apply al_if_listed; [exact A|]. assert (P : plist s1 y = plist s2 y) by apply A. rewrite P. split; [apply al_set_plist; exact A|reflexivity].
      + apply al_if_listed; [exact A|]. assert (P : plist s1 y = plist s2 y) by apply A. rewrite P. split; [exact A|reflexivity].
      + assert (P : plist s1 y = plist s2 y) by apply A. rewrite P. split; [exact A|reflexivity].
      + unfold make_special. rewrite (al_search s1 s2 i y A), (al_flag s1 s2 y A). assert (G := al_initial s1 s2 y A).
        destruct (search s2 i y); [| |split; [exact A|reflexivity]]; (split; [|reflexivity]); cbn [fst]; apply al_set_flag; (destruct (special (flag s2 y)); [exact A|]);
          destruct (get_initial imports user s1 y) as [[w1 u1]|], (get_initial imports user s2 y) as [[w2 u2]|]; try contradiction; try exact A; destruct G as [-> G]; apply al_set_special; assumption.
      + rewrite (al_flag s1 s2 y A). split; [exact A|reflexivity].
  Qed.
  Lemma al_push s1 s2 y v : y <> x -> alike s1 s2 -> alike (set_bound s1 ((y, v) :: bound s1)) (set_bound s2 ((y, v) :: bound s2)).
  Proof.
    intros N (F & S & X & B & O & E & P). repeat split; try assumption. cbn. constructor; [|exact B]. split; [reflexivity|]. split; [reflexivity|]. intros H. cbn in H. contradiction.
  Qed.
  Lemma al_pop s1 s2 : alike s1 s2 -> alike (set_bound s1 (tl (bound s1))) (set_bound s2 (tl (bound s2))).
  Proof. intros (F & S & X & B & O & E & P). repeat split; try assumption. cbn. destruct B; [constructor|assumption]. Qed.
  Lemma secret (ok : id -> Prop) p : forall i s1 s2, trusted x s1 -> ok i -> (forall j, ok j -> outside x j s1) -> confined ok p -> alike s1 s2 -> both (run i s1 p) (run i s2 p).
  Proof.
    induction p as [a|o k IH|y v body IHb k IH|j body IHb k IH]; intros i s1 s2 T I O C A; cbn [Gaol_Model.run].
    - split; [exact A|reflexivity].
    - assert (K := al_step s1 s2 i o T (O i I) A). assert (L := lasting_step imports set_binds user autoload x s1 i o T). destruct (step s1 i o) as [t1 a1], (step s2 i o) as [t2 a2]. destruct K as [K Ka]. cbn [fst snd] in *. subst a2. apply IH; [apply L; exact T|exact I| |apply C|exact K]. intros j Oj. apply L. auto.
    - destruct C as [Cb Ck]. rewrite (al_flag s1 s2 y A), (al_search s1 s2 i y A). destruct (special (flag s2 y)) eqn:SP.
      + destruct (search s2 i y) eqn:SE; [| |apply IH; auto].
        all: assert (N : y <> x) by (intros ->; assert (OO := O i I); apply search_outside in OO; rewrite (al_search s1 s2 i x A) in OO; congruence).
        all: assert (K := IHb i (set_bound s1 ((y, Some v) :: bound s1)) (set_bound s2 ((y, Some v) :: bound s2)) T I O Cb (al_push s1 s2 y (Some v) N A)).
        all: assert (L := lasting imports set_binds user autoload x body i (set_bound s1 ((y, Some v) :: bound s1)) T).
        all: destruct (run i (set_bound s1 ((y, Some v) :: bound s1)) body) as [t1 a1], (run i (set_bound s2 ((y, Some v) :: bound s2)) body) as [t2 a2]; destruct K as [K Ka]; cbn [fst snd] in *; subst a2; apply IH; [apply L; exact T|exact I| |apply Ck|apply al_pop; exact K]; intros j Oj; apply L; apply O; exact Oj.
      + assert (K := IHb i s1 s2 T I O Cb A). assert (L := lasting imports set_binds user autoload x body i s1 T). destruct (run i s1 body) as [t1 a1], (run i s2 body) as [t2 a2]. destruct K as [K Ka]. cbn [fst snd] in *. subst a2. apply IH; [apply L; exact T|exact I| |apply Ck|exact K]. intros j Oj. apply L. auto.
    - destruct C as (Cj & Cb & Ck). assert (K := IHb j s1 s2 T Cj O Cb A). assert (L := lasting imports set_binds user autoload x body j s1 T). destruct (run j s1 body) as [t1 a1], (run j s2 body) as [t2 a2]. destruct K as [K Ka]. cbn [fst snd] in *. subst a2. apply IH; [apply L; exact T|exact I| |apply Ck|exact K]. intros m Om. apply L. auto.
  Qed.
  End X.

  (** * A variable that was weak and then declared by trusted code *)
  Definition reclaimed (x : sym) (v : Z) (st : state) : Prop :=
    special (flag st x) = true /\ defvard (flag st x) = true /\ weak (flag st x) = false /\ weak_mod (flag st x) = true /\
    specials st x = Some v /\ bindings_of x st = [].
  Lemma no_binding x st : bindings_of x st = [] -> binding (bound st) x = None.
  Proof.
    unfold bindings_of. induction (bound st) as [|[z w] b IH]; [reflexivity|]. cbn [filter fst binding]. destruct (Nat.eqb z x); [discriminate|exact IH].
  Qed.
  Definition rec_kept (x : sym) (v : Z) (st st' : state) : Prop :=
    reclaimed x v st' /\ (forall i, (restricted i st -> restricted i st') /\ (env st i = All -> env st' i = All)) /\ map fst (bound st') = map fst (bound st).
  Lemma kept_restricted x a b i : kept x a b -> restricted i a -> restricted i b.
  Proof. intros (_ & _ & _ & E) (l & L). unfold restricted. destruct (env b i) as [|m] eqn:B; [|exists m; reflexivity]. apply E in B. congruence. Qed.
  Lemma kept_rec x v a b : kept x a b -> reclaimed x v a -> rec_kept x v a b.
  Proof.
    intros K R. split; [|split; [intros i; split; [apply (kept_restricted x a b i K)|apply K]|apply K]]. destruct K as ((K1 & K2 & K3 & _) & _). unfold reclaimed in *. rewrite K1, K2, K3. exact R.
  Qed.
  Lemma rec_step x v st i o : reclaimed x v st -> restricted i st -> rec_kept x v st (fst (step st i o)).
  Proof.
    intros R Ri. destruct (Nat.eq_dec (subject o) x) as [E|N]; [|apply kept_rec; [apply elsewhere; exact N|exact R]].
    assert (SAME : rec_kept x v st st) by (split; [exact R|split; auto]).
    assert (R' := R). destruct R' as (F1 & F2 & F3 & F4 & V & B). destruct (search st i x) eqn:SE.
    - destruct Ri as (l & L). unfold search in SE. rewrite L in SE. destruct (existsb (Nat.eqb x) l); discriminate.
    - assert (SV : symbol_value imports st i x = None) by (unfold symbol_value; rewrite F1, SE, F4; reflexivity).
      assert (DS : forall w, do_set st i x w = None) by (intros w; unfold Gaol_Model.do_set; rewrite F1, SE, F4; reflexivity).
      destruct Ri as (l & L).
      destruct o as [y w|y|y|y w|y w|y|y|y|y m|y p w|y|y p|y|y]; cbn [subject] in E; subst y; cbn [Gaol_Model.step]; try exact SAME.
      + unfold Gaol_Model.defvar, default_boundp, special_value. rewrite F1, (no_binding x st B), V. cbn [is_some]. rewrite SV, SE, F1, L. cbn [negb orb andb].
        replace (weak (flag st x) && negb (weak_mod (flag st x)) && false)%bool with false by (rewrite andb_false_r; reflexivity).
        split; [|split; [intros j; split; intros Rj; exact Rj|reflexivity]]. unfold reclaimed. cbn [flag set_flag specials fst]. rewrite upd_same, F3, F4. repeat split; assumption.
      + rewrite DS. exact SAME.
      + unfold set_default. rewrite F1, SE, F4. exact SAME.
      + rewrite DS. exact SAME.
      + unfold if_listed. rewrite SE. split; [exact R|split; auto].
      + unfold if_listed. rewrite SE. split; [exact R|split; auto].
      + unfold if_listed. rewrite SE. exact SAME.
      + unfold make_special. rewrite SE, F1. split; [|split; [intros j; split; intros Rj; exact Rj|reflexivity]]. unfold reclaimed. cbn [flag set_flag specials fst]. rewrite upd_same, F2, F3, F4. repeat split; assumption.
    - subst x. rewrite at_x; [exact SAME|repeat split; assumption|apply search_outside; exact SE].
  Qed.
  Lemma rec_trans x v a b c : rec_kept x v a b -> rec_kept x v b c -> rec_kept x v a c.
  Proof. intros (A1 & A2 & A3) (B1 & B2 & B3). split; [exact B1|]. split; [|congruence]. intros i. split; intros H; apply B2, A2, H. Qed.
  Lemma rec_run x v (ok : id -> Prop) p : forall i st, reclaimed x v st -> ok i -> (forall j, ok j -> restricted j st) -> confined ok p -> no_let x p -> rec_kept x v st (fst (run i st p)).
  Proof.
    induction p as [a|o k IH|y w body IHb k IH|j body IHb k IH]; intros i st R I O C NL; cbn [Gaol_Model.run].
    - split; [exact R|split; auto].
    - assert (K := rec_step x v st i o R (O i I)). destruct (step st i o) as [s a]. cbn [fst] in K. apply (rec_trans x v st s _ K). apply IH; [apply K|exact I| |apply C|apply NL]. intros j Oj. apply K. auto.
    - destruct C as [Cb Ck], NL as (N & NLb & NLk).
      assert (L : rec_kept x v st (fst (let '(st0, a) := run i (set_bound st ((y, Some w) :: bound st)) body in run i (set_bound st0 (tl (bound st0))) (k a)))).
      { assert (R' : reclaimed x v (set_bound st ((y, Some w) :: bound st))).
        { destruct R as (F1 & F2 & F3 & F4 & V & B). unfold reclaimed. rewrite bindings_cons by exact N. repeat split; assumption. }
        assert (K := IHb i _ R' I O Cb NLb). destruct (run i (set_bound st ((y, Some w) :: bound st)) body) as [s a]. cbn [fst] in K. destruct K as ((F1 & F2 & F3 & F4 & V & B) & K2 & K3).
        cbn [bound set_bound map] in K3. assert (P : rec_kept x v st (set_bound s (tl (bound s)))).
        { unfold bindings_of in B. destruct (bound s) as [|[z u] b] eqn:Eb; [discriminate|]. cbn [map fst] in K3. injection K3 as -> K3. cbn [filter fst] in B. destruct (Nat.eqb_spec y x); [contradiction|].
          split; [repeat split; assumption|]. split; [exact K2|exact K3]. }
        apply (rec_trans x v st _ _ P). apply IH; [apply P|exact I| |apply Ck|apply NLk]. intros j Oj. apply P. auto. }
      destruct (special (flag st y)); [destruct (search st i y); [exact L|exact L|apply IH; auto]|].
      assert (K := IHb i st R I O Cb NLb). destruct (run i st body) as [s a]. cbn [fst] in K. apply (rec_trans x v st s _ K). apply IH; [apply K|exact I| |apply Ck|apply NLk]. intros j Oj. apply K. auto.
    - destruct C as (Cj & Cb & Ck), NL as (NLb & NLk). assert (K := IHb j st R Cj O Cb NLb). destruct (run j st body) as [s a]. cbn [fst] in K. apply (rec_trans x v st s _ K). apply IH; [apply K|exact I| |apply Ck|apply NLk]. intros m Om. apply K. auto.
  Qed.
End Secret.
