From Coq Require Import List Bool Arith Lia.
From Verif Require Import Memo_Model Memo_Spec.
Import ListNotations.

Section Proofs.
  Context {K V : Type}.
  Variables (eqb : K -> K -> bool) (nilp : V -> bool) (nil_ : V).
  Hypothesis T : tells eqb nilp nil_.
  Variable f : K -> prog K V.

  Notation table_ref := (table_ref K V eqb nil_).
  Notation call := (call K V eqb nilp nil_ f).
  Notation run := (run K V eqb nilp nil_ f).

  Lemma ends_fun : forall h p o, ends f h p o -> forall h' o', ends f h' p o' -> h = h' /\ o = o'.
  Proof.
    intros h p o H. induction H as [v| |h1 h2 a k v o H1 IH1 H2 IH2|h a k H IH]; intros h' o' H'.
    - inversion H'; subst; auto.
    - inversion H'; subst; auto.
    - inversion H' as [| |x1 x2 a' k' v' z A B|x a' k' A]; subst.
      + destruct (IH1 _ _ A) as (-> & E). inversion E; subst. destruct (IH2 _ _ B) as (-> & ->). auto.
      + destruct (IH1 _ _ A) as (_ & E). discriminate.
    - inversion H' as [| |x1 x2 a' k' v' z A B|x a' k' A]; subst.
      + destruct (IH _ _ A) as (_ & E). discriminate.
      + destruct (IH _ _ A) as (-> & _). auto.
  Qed.

  Definition cache_ok (c : list (K * V)) : Prop := forall a, nilp (table_ref c a) = false -> computes f a (Ret (table_ref c a)).

  Lemma cache_ok_nil : cache_ok [].
  Proof. intros a H. cbn in H. assert (nilp nil_ = true) by (apply T; auto). congruence. Qed.
  Lemma cache_ok_set : forall c a v, cache_ok c -> computes f a (Ret v) -> cache_ok (table_set K V c a v).
  Proof.
    intros c a v H C b. cbn. destruct (eqb a b) eqn:E; [|apply H]. apply T in E. subst. auto.
  Qed.

  Lemma call_S : forall n s a, call (S n) s a =
    if negb (nilp (table_ref (fst s) a)) then Some (s, Ret (table_ref (fst s) a))
    else match run n (fst s, a :: snd s) (f a) with
         | Some (s', Ret v) => Some ((table_set K V (fst s') a v, snd s'), Ret v)
         | Some (s', Thrown) => Some (s', Thrown)
         | None => None
         end.
  Proof. reflexivity. Qed.
  Lemma run_S : forall n s p, run (S n) s p =
    match p with
    | Give v => Some (s, Ret v)
    | Throw => Some (s, Thrown)
    | Self a k => match call n s a with Some (s', Ret v) => run n s' (k v) | x => x end
    end.
  Proof. reflexivity. Qed.

  Lemma sound : forall n,
    (forall s a s' o, cache_ok (fst s) -> call n s a = Some (s', o) -> computes f a o /\ cache_ok (fst s')) /\
    (forall s p s' o, cache_ok (fst s) -> run n s p = Some (s', o) -> (exists h, ends f h p o) /\ cache_ok (fst s')).
  Proof.
    induction n as [|n (IHc & IHr)]; [split; discriminate|]. split.
    - intros s a s' o C R. rewrite call_S in R. destruct (nilp (table_ref (fst s) a)) eqn:N; cbn [negb] in R.
      + destruct (run n (fst s, a :: snd s) (f a)) as [[s1 [v|]]|] eqn:E; try discriminate; inversion R; subst;
          destruct (IHr (fst s, a :: snd s) _ _ _ C E) as (H & C1).
        * split; auto. apply cache_ok_set; auto.
        * split; auto.
      + inversion R; subst. split; auto.
    - intros s p s' o C R. rewrite run_S in R. destruct p as [v| |a k].
      + inversion R; subst. split; auto. exists 0. constructor.
      + inversion R; subst. split; auto. exists 0. constructor.
      + destruct (call n s a) as [[s1 [v|]]|] eqn:E; try discriminate.
        * destruct (IHc _ _ _ _ C E) as ((h1 & H1) & C1). destruct (IHr _ _ _ _ C1 R) as ((h2 & H2) & C2). split; auto.
          exists (S (h1 + h2)). econstructor; eauto.
        * inversion R; subst. destruct (IHc _ _ _ _ C E) as ((h1 & H1) & C1). split; auto. exists (S h1). constructor; auto.
  Qed.

  Lemma mono : forall n,
    (forall m s a x, call n s a = Some x -> n <= m -> call m s a = Some x) /\
    (forall m s p x, run n s p = Some x -> n <= m -> run m s p = Some x).
  Proof.
    induction n as [|n (IHc & IHr)]; [split; discriminate|]. split; intros [|m] s y x R L; try lia.
    - rewrite call_S in *. destruct (negb (nilp (table_ref (fst s) y))); auto.
      destruct (run n (fst s, y :: snd s) (f y)) as [z|] eqn:E; [|discriminate]. rewrite (IHr m _ _ _ E) by lia. auto.
    - rewrite run_S in *. destruct y as [v| |a k]; auto. destruct (call n s a) as [z|] eqn:E; [|discriminate].
      rewrite (IHc m _ _ _ E) by lia. destruct z as [s1 [v|]]; auto. apply IHr; auto. lia.
  Qed.

  Lemma complete : forall h p o, ends f h p o -> forall s, cache_ok (fst s) -> exists n s', run n s p = Some (s', o).
  Proof.
    assert (CALL : forall h a o, ends f h (f a) o -> (forall s, cache_ok (fst s) -> exists n s', run n s (f a) = Some (s', o)) ->
      forall s, cache_ok (fst s) -> exists n s', call n s a = Some (s', o)).
    { intros h a o H R s C. destruct (nilp (table_ref (fst s) a)) eqn:N.
      - destruct (R (fst s, a :: snd s) C) as (n & s' & E). exists (S n). rewrite call_S, N. cbn [negb]. rewrite E.
        destruct o; eauto.
      - exists 1, s. rewrite call_S, N. cbn [negb]. destruct (C a N) as (h' & H'). destruct (ends_fun _ _ _ H _ _ H') as (_ & ->). auto. }
    intros h p o H. induction H as [v| |h1 h2 a k v o H1 IH1 H2 IH2|h a k H IH]; intros s C.
    - exists 1, s. reflexivity.
    - exists 1, s. reflexivity.
    - destruct (CALL _ _ _ H1 IH1 s C) as (n1 & s1 & E1).
      destruct (proj1 (sound n1) _ _ _ _ C E1) as (_ & C1). destruct (IH2 s1 C1) as (n2 & s2 & E2).
      exists (S (n1 + n2)), s2. rewrite run_S. rewrite (proj1 (mono n1) (n1 + n2) _ _ _ E1) by lia.
      apply (proj2 (mono n2)); auto. lia.
    - destruct (CALL _ _ _ H IH s C) as (n1 & s1 & E1). exists (S n1), s1. rewrite run_S, E1. reflexivity.
  Qed.
  Lemma call_complete : forall a o s, computes f a o -> cache_ok (fst s) -> exists n s', call n s a = Some (s', o).
  Proof.
    intros a o s (h & H) C. destruct (nilp (table_ref (fst s) a)) eqn:N.
    - destruct (complete h (f a) o H (fst s, a :: snd s) C) as (n & s' & E). exists (S n). rewrite call_S, N. cbn [negb].
      rewrite E. destruct o; eauto.
    - exists 1, s. rewrite call_S, N. cbn [negb]. destruct (C a N) as (h' & H'). destruct (ends_fun _ _ _ H _ _ H') as (_ & ->). auto.
  Qed.

  (** ** Once *)
  Hypothesis NN : forall a o, computes f a o -> exists v, o = Ret v /\ v <> nil_.

  Definition inv (st : list K) (s : state K V) : Prop :=
    NoDup (snd s) /\ forall x, In x (snd s) -> In x st \/ nilp (table_ref (fst s) x) = false.
  Definition above (st : list K) (h : nat) : Prop := forall x, In x st -> exists hx ox, ends f hx (f x) ox /\ h < hx.

  Lemma once : forall n,
    (forall st s a s' o h, cache_ok (fst s) -> call n s a = Some (s', o) -> ends f h (f a) o -> above st h ->
       inv st s -> inv st s' /\ (forall x, nilp (table_ref (fst s) x) = false -> nilp (table_ref (fst s') x) = false)) /\
    (forall st s p s' o h, cache_ok (fst s) -> run n s p = Some (s', o) -> ends f h p o -> (forall x, In x st -> exists hx ox, ends f hx (f x) ox /\ h <= hx) ->
       inv st s -> inv st s' /\ (forall x, nilp (table_ref (fst s) x) = false -> nilp (table_ref (fst s') x) = false)).
  Proof.
    induction n as [|n (IHc & IHr)]; [split; discriminate|]. split.
    - intros st s a s' o h C R H A I. rewrite call_S in R. destruct (nilp (table_ref (fst s) a)) eqn:N; cbn [negb] in R.
      + assert (NI : ~ In a (snd s)).
        { intros J. destruct (proj2 I a J) as [J'|J']; [|congruence]. destruct (A a J') as (hx & ox & Hx & Lx).
          destruct (ends_fun _ _ _ H _ _ Hx). lia. }
        assert (I1 : inv (a :: st) (fst s, a :: snd s)).
        { split; cbn.
          - constructor; auto. apply I.
          - intros x [->|J]; [auto|]. destruct (proj2 I x J); auto. }
        assert (A1 : forall x, In x (a :: st) -> exists hx ox, ends f hx (f x) ox /\ h <= hx).
        { intros x [<-|J]; [eauto|]. destruct (A x J) as (hx & ox & Hx & Lx). exists hx, ox. split; auto. lia. }
        destruct (run n (fst s, a :: snd s) (f a)) as [[s1 [v|]]|] eqn:E; try discriminate;
          [assert (o = Ret v) by (inversion R; auto)|assert (o = Thrown) by (inversion R; auto)]; subst o;
          destruct (IHr (a :: st) (fst s, a :: snd s) (f a) s1 _ h C E H A1 I1) as ((I2 & I3) & M); inversion R; subst.
        * assert (Nv : nilp v = false).
          { destruct (NN a (Ret v)) as (v' & Ev & Nv); [exists h; auto|]. inversion Ev; subst.
            destruct (nilp v') eqn:X; auto. apply T in X. congruence. }
          split; [split; cbn; auto|].
          -- intros x J. destruct (eqb a x) eqn:Ex; [auto|]. destruct (I3 x J) as [[<-|J']|J']; auto.
             assert (eqb a a = true) by (apply T; auto). congruence.
          -- intros x Hx. cbn. destruct (eqb a x); auto.
        * destruct (NN a Thrown) as (v' & Ev & _); [exists h; auto|discriminate].
      + inversion R; subst. auto.
    - intros st s p s' o h C R H A I. rewrite run_S in R. destruct p as [v| |a k].
      + inversion R; subst. auto.
      + inversion R; subst. auto.
      + inversion H as [| |h1 h2 a' k' v' z H1 H2|h1 a' k' H1]; subst.
        * destruct (call n s a) as [[s1 [v|]]|] eqn:E; try discriminate.
          -- destruct (proj1 (sound n) _ _ _ _ C E) as ((h1' & H1') & C1).
             destruct (ends_fun _ _ _ H1 _ _ H1') as (<- & Ev). inversion Ev; subst v'.
             destruct (IHc st s a s1 (Ret v) h1 C E H1) as (I1 & M1); auto.
             { intros x J. destruct (A x J) as (hx & ox & Hx & Lx). exists hx, ox. split; auto. lia. }
             destruct (IHr st s1 (k v) s' o h2 C1 R H2) as (I2 & M2); auto.
             { intros x J. destruct (A x J) as (hx & ox & Hx & Lx). exists hx, ox. split; auto. lia. }
          -- destruct (proj1 (sound n) _ _ _ _ C E) as (Th & _). destruct (NN _ _ Th) as (? & X & _). discriminate.
        * destruct (NN a Thrown) as (v' & Ev & _); [exists h1; auto|discriminate].
  Qed.
End Proofs.
