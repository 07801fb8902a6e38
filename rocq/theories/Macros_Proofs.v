From Coq Require Import List Bool Arith Lia.
From Verif Require Import Macros_Model Macros_Spec.
Import ListNotations.

Lemma stands_held : forall s v t, stands s v t -> held s v = true.
Proof. intros s v t H. inversion H; subst; cbn; auto. Qed.

Lemma stands_mem : forall s s' v t, mem s' = mem s -> used s' = used s -> stands s v t -> stands s' v t.
Proof. intros s s' v t M U H. induction H; constructor; rewrite ?M, ?U; auto. Qed.

Lemma val_eqb_eq : forall a b, val_eqb a b = true <-> a = b.
Proof.
  intros [m|p] [n|q]; cbn; split; intros H; try discriminate; try (apply Nat.eqb_eq in H; congruence);
    inversion H; apply Nat.eqb_refl.
Qed.

(** ** Allocation *)
Lemma alloc_stands : forall s p a d v t, used s p = false -> stands s v t -> stands (alloc s p a d) v t.
Proof.
  intros s p a d v t U H. induction H; [constructor|]. assert (p0 <> p) by congruence.
  constructor; cbn.
  - rewrite H. apply orb_true_r.
  - destruct (Nat.eqb_spec p0 p); [contradiction|auto].
  - destruct (Nat.eqb_spec p0 p); [contradiction|auto].
Qed.
Lemma alloc_held : forall s p a d v, held s v = true -> held (alloc s p a d) v = true.
Proof. intros s p a d [n|q] H; cbn in *; auto. rewrite H. apply orb_true_r. Qed.
Lemma alloc_back : forall s p a d v t, sound_memory s -> used s p = false -> held s v = true ->
  stands (alloc s p a d) v t -> stands s v t.
Proof.
  intros s p a d v t (W & _) U Hv H. induction H; [constructor|].
  cbn in Hv. assert (p0 <> p) by congruence. destruct (W p0 Hv) as (W1 & W2).
  cbn in IHstands1, IHstands2. destruct (Nat.eqb_spec p0 p); [contradiction|].
  constructor; auto.
Qed.

(** ** Collection *)
Lemma inside_in : forall keep p, existsb (Nat.eqb p) keep = true <-> In p keep.
Proof.
  intros keep p. rewrite existsb_exists. split.
  - intros (x & I & E). apply Nat.eqb_eq in E. subst. auto.
  - intros I. exists p. split; auto. apply Nat.eqb_refl.
Qed.
Lemma collect_stands : forall s keep v t, closed s keep = true -> inside keep v = true ->
  stands s v t -> stands (collect s keep) v t.
Proof.
  intros s keep v t C I H. induction H; [constructor|].
  apply andb_prop in C. destruct C as (C1 & C2). cbn in I.
  rewrite forallb_forall in C2. pose proof (C2 p (proj1 (inside_in keep p) I)) as C3. apply andb_prop in C3. destruct C3.
  constructor; cbn; auto. rewrite H, I. reflexivity.
Qed.
Lemma collect_back : forall s keep v t, stands (collect s keep) v t -> stands s v t.
Proof.
  intros s keep v t H. induction H; [constructor|]. cbn in H. apply andb_prop in H. destruct H. constructor; auto.
Qed.

(** ** What is kept *)
Definition keeps (s s' : state) : Prop :=
  roots s' = roots s /\ forall v, In v (roots s) -> held s' v = true /\ forall t, stands s v t <-> stands s' v t.

Lemma keeps_refl : forall s, sound_memory s -> keeps s s.
Proof. intros s (_ & R). split; auto. intros v I. split; auto. tauto. Qed.
Lemma keeps_trans : forall a b c, keeps a b -> keeps b c -> keeps a c.
Proof.
  intros a b c (R1 & K1) (R2 & K2). split; [congruence|]. intros v I. destruct (K1 v I) as (_ & E1).
  rewrite <- R1 in I. destruct (K2 v I) as (H2 & E2). split; auto. intros t. rewrite E1. apply E2.
Qed.

Lemma good_hist : forall mean s s', mem s' = mem s -> used s' = used s -> hist s' = hist s ->
  remembers_truth mean s -> remembers_truth mean s'.
Proof.
  intros mean s s' M U H G i p v I. rewrite H in I. destruct (G i p v I) as (G1 & G2 & G3).
  split; [congruence|]. split.
  - destruct v; cbn in *; auto. congruence.
  - intros t Ht. apply (stands_mem s' s) in Ht; auto. destruct (G3 t Ht) as (t' & E & St). exists t'. split; auto.
    eapply stands_mem; [| |exact St]; auto.
Qed.

Lemma good_alloc : forall mean s p a d, good mean s -> used s p = false -> held s a = true -> held s d = true ->
  good mean (alloc s p a d) /\ keeps s (alloc s p a d).
Proof.
  intros mean s p a d (W & G) U Ha Hd. pose proof W as (W1 & W2). split; [split; [split|]|split].
  - intros q. cbn. destruct (Nat.eqb_spec q p).
    + intros _. cbn. split; apply alloc_held; auto.
    + cbn. intros Hq. destruct (W1 q Hq). split; apply alloc_held; auto.
  - intros v I. apply alloc_held. apply W2. exact I.
  - intros i q v I. destruct (G i q v I) as (G1 & G2 & G3). split; [cbn; rewrite G1; apply orb_true_r|].
    split; [apply alloc_held; auto|]. intros t Ht. apply alloc_back in Ht; auto.
    destruct (G3 t Ht) as (t' & E & St). exists t'. split; auto. apply alloc_stands; auto.
  - reflexivity.
  - intros v I. split; [apply alloc_held; auto|]. intros t. split; [apply alloc_stands; auto|apply alloc_back; auto].
Qed.

Lemma good_collect : forall mean s keep, good mean s -> closed s keep = true ->
  good mean (collect s keep) /\ keeps s (collect s keep).
Proof.
  intros mean s keep (W & G) C. pose proof W as (W1 & W2).
  assert (HI : forall v, inside keep v = true -> held s v = true -> held (collect s keep) v = true).
  { intros [n|q] I Hv; cbn in *; auto. rewrite Hv, I. reflexivity. }
  pose proof C as C0. apply andb_prop in C. destruct C as (C1 & C2). rewrite forallb_forall in C1, C2.
  split; [split; [split|]|split].
  - intros p Hp. cbn in Hp. apply andb_prop in Hp. destruct Hp as (Hp & Kp). destruct (W1 p Hp).
    apply inside_in in Kp. specialize (C2 p Kp). apply andb_prop in C2. destruct C2. split; apply HI; auto.
  - intros v I. apply HI; auto.
  - intros i p v [].
  - reflexivity.
  - intros v I. split; [apply HI; auto|]. intros t. split; [apply collect_stands; auto|apply collect_back].
Qed.

(** ** Protection *)
Lemma sound_push : forall s v, sound_memory s -> held s v = true -> sound_memory (push_root s v).
Proof. intros s v (W1 & W2) H. split; [exact W1|]. intros u [<-|I]; [exact H|exact (W2 u I)]. Qed.
Lemma good_push : forall mean s v, good mean s -> held s v = true -> good mean (push_root s v).
Proof. intros mean s v (W & G) H. split; [apply sound_push; auto|]. apply (good_hist mean s); auto. Qed.
Lemma good_pop : forall mean s v r, good mean s -> roots s = v :: r -> good mean (pop_root s).
Proof.
  intros mean s v r ((W1 & W2) & G) E. split; [|apply (good_hist mean s); auto]. split; [exact W1|].
  intros u I. cbn in I. rewrite E in I. apply W2. rewrite E. right. exact I.
Qed.
Lemma stands_push : forall s r v t, stands (push_root s r) v t <-> stands s v t.
Proof. intros. split; apply stands_mem; auto. Qed.
Lemma stands_pop : forall s v t, stands (pop_root s) v t <-> stands s v t.
Proof. intros. split; apply stands_mem; auto. Qed.

Lemma keeps_pop : forall s v s', keeps (push_root s v) s' -> keeps s (pop_root s').
Proof.
  intros s v s' (R & K). cbn in R. split; [cbn; rewrite R; reflexivity|]. intros u I.
  destruct (K u (or_intror I)) as (H & E). split; [exact H|]. intros t. rewrite stands_pop, <- E, stands_push. tauto.
Qed.

(** ** The history *)
Lemma search_in : forall h p v, search h p = Some v -> In (p, v) h.
Proof.
  induction h as [|[q u] h IH]; intros p v H; cbn in *; [discriminate|].
  destruct (Nat.eqb_spec q p); [inversion H; subst; auto|right; auto].
Qed.

Lemma good_remember : forall mean s p v, good mean s -> used s p = true -> held s v = true ->
  (forall t, stands s (Ptr p) t -> exists t', expands mean t t' /\ stands s v t') -> good mean (remember s p v).
Proof.
  intros mean s p v (W & G) U H T.
  assert (E : forall u t, stands (remember s p v) u t <-> stands s u t) by (intros; split; apply stands_mem; auto).
  split; [exact W|]. intros i q u I. cbn [remember hist] in I.
  assert (J : (q, u) = (p, v) \/ In (q, u) (hist s i)).
  { destruct (i =? hist_hash p); [destruct I as [I|I]; auto|auto]. }
  destruct J as [J|J].
  - inversion J; subst. split; auto. split; auto. intros t Ht. apply E in Ht. destruct (T t Ht) as (t' & A & B).
    exists t'. split; auto. apply E; auto.
  - destruct (G i q u J) as (G1 & G2 & G3). split; auto. split; auto. intros t Ht. apply E in Ht.
    destruct (G3 t Ht) as (t' & A & B). exists t'. split; auto. apply E; auto.
Qed.

(** ** Expansion *)
Section Expansion.
  Variable macro : nat -> option (val -> prog).
  Variable mean : meaning.

  Lemma exec_S : forall n s c, exec macro (S n) s c =
    match c with
    | Done v => if held s v then Some (s, v) else None
    | Fail => None
    | Read p k => if used s p then exec macro n s (k (mem s p)) else None
    | New p a d k => if used s p || negb (held s a && held s d) then None else exec macro n (alloc s p a d) (k (Ptr p))
    | Collect keep k => if closed s keep then exec macro n (collect s keep) k else None
    | Expand v k => if held s v then match expand macro n s v with
                      | Some (s', v') => exec macro n s' (k v') | None => None end else None
    end.
  Proof. reflexivity. Qed.
  Lemma expand_1_S : forall n s form, expand_1 macro (S n) s form =
    match form with
    | Sym _ => Some (s, form)
    | Ptr p => match fst (mem s p) with
               | Ptr _ => Some (s, form)
               | Sym m => match macro m with
                          | None => Some (s, form)
                          | Some f => exec macro n s (f (snd (mem s p)))
                          end
               end
    end.
  Proof. reflexivity. Qed.
  Lemma expand_loop_S : forall n s pred, expand_loop macro (S n) s pred =
    match expand_1 macro n (push_root s pred) pred with
    | None => None
    | Some (s', form) => if val_eqb form pred then Some (pop_root s', form) else expand_loop macro n (pop_root s') form
    end.
  Proof. reflexivity. Qed.
  Lemma expand_S : forall n s form, expand macro (S n) s form =
    match form with
    | Sym _ => Some (s, form)
    | Ptr p => match search (hist s (hist_hash p)) p with
               | Some v => Some (s, v)
               | None => match expand_loop macro n (push_root s form) form with
                         | None => None
                         | Some (s', v) => Some (remember (pop_root s') p v, v)
                         end
               end
    end.
  Proof. reflexivity. Qed.

  Lemma all_ok : forall n, macros_mean_below n macro mean ->
    (forall s c s' v, good mean s -> exec macro n s c = Some (s', v) -> good mean s' /\ keeps s s' /\ held s' v = true) /\
    (forall s form s' v, good mean s -> In form (roots s) -> expand_1 macro n s form = Some (s', v) ->
       good mean s' /\ keeps s s' /\ held s' v = true /\
       forall t, stands s form t ->
         (v = form /\ once mean t = None) \/ exists u, once mean t = Some u /\ stands s' v u) /\
    (forall s pred s' v, good mean s -> held s pred = true -> expand_loop macro n s pred = Some (s', v) ->
       good mean s' /\ keeps s s' /\ held s' v = true /\
       forall t, stands s pred t -> exists t', expands mean t t' /\ stands s' v t') /\
    (forall s form s' v, good mean s -> held s form = true -> expand macro n s form = Some (s', v) ->
       good mean s' /\ keeps s s' /\ held s' v = true /\
       forall t, stands s form t -> exists t', expands mean t t' /\ stands s' v t').
  Proof.
    induction n as [|n IH]; intros MM; [repeat split; discriminate|].
    assert (MM' : macros_mean_below n macro mean).
    { intros m. specialize (MM m). destruct (macro m), (mean m); auto. intros n0 s q u s' v' Ln Hg Hi Hs He. apply (MM n0 s q u s' v'); auto. }
    destruct (IH MM') as (Ie & I1 & Il & Ix). split; [|split; [|split]].
    - intros s c s' v G R. rewrite exec_S in R. destruct c as [u| |p k|p a d k|keep k|u k].
      + destruct (held s u) eqn:Hu; [|discriminate]. inversion R; subst. split; auto. split; auto. apply keeps_refl, G.
      + discriminate.
      + destruct (used s p); [eauto|discriminate].
      + destruct (used s p) eqn:U; [discriminate|]. cbn [orb] in R. destruct (held s a) eqn:Ha; [|discriminate].
        destruct (held s d) eqn:Hd; [|discriminate]. cbn [andb negb] in R.
        destruct (good_alloc mean s p a d G U Ha Hd) as (G1 & K1). destruct (Ie _ _ _ _ G1 R) as (G2 & K2 & H2).
        split; auto. split; auto. eapply keeps_trans; eauto.
      + destruct (closed s keep) eqn:C; [|discriminate]. destruct (good_collect mean s keep G C) as (G1 & K1).
        destruct (Ie _ _ _ _ G1 R) as (G2 & K2 & H2). split; auto. split; auto. eapply keeps_trans; eauto.
      + destruct (held s u) eqn:Hu; [|discriminate]. destruct (expand macro n s u) as [[s1 v1]|] eqn:E; [|discriminate].
        destruct (Ix _ _ _ _ G Hu E) as (G1 & K1 & _ & _). destruct (Ie _ _ _ _ G1 R) as (G2 & K2 & H2).
        split; auto. split; auto. eapply keeps_trans; eauto.
    - intros s form s' v G I R. pose proof (proj2 (proj1 G) form I) as Hf.
      rewrite expand_1_S in R. destruct form as [m|p].
      + inversion R; subst. split; auto. split; [apply keeps_refl, G|]. split; auto. intros t St. left. split; auto.
        inversion St; subst. reflexivity.
      + destruct (fst (mem s p)) as [m|q] eqn:Ef.
        * pose proof (MM m) as Mm. destruct (macro m) as [f|] eqn:Em; destruct (mean m) as [g|] eqn:Eg; try contradiction.
          -- destruct (Ie _ _ _ _ G R) as (G1 & K1 & H1). split; auto. split; auto. split; auto.
             intros t St. right. inversion St as [|? a d U Sa Sd]; subst. rewrite Ef in Sa. inversion Sa; subst.
             cbn. rewrite Eg. exists (g d). split; auto. apply (Mm n s p d s' v); auto.
          -- inversion R; subst. split; auto. split; [apply keeps_refl, G|]. split; auto. intros t St. left. split; auto.
             inversion St as [|? a d U Sa Sd]; subst. rewrite Ef in Sa. inversion Sa; subst. cbn. rewrite Eg. reflexivity.
        * inversion R; subst. split; auto. split; [apply keeps_refl, G|]. split; auto. intros t St. left. split; auto.
          inversion St as [|? a d U Sa Sd]; subst. rewrite Ef in Sa. inversion Sa; subst. reflexivity.
    - intros s pred s' v G Hp R. rewrite expand_loop_S in R.
      pose proof (good_push mean s pred G Hp) as G1.
      destruct (expand_1 macro n (push_root s pred) pred) as [[s1 form]|] eqn:E; [|discriminate].
      destruct (I1 _ _ _ _ G1 (or_introl eq_refl) E) as (G2 & K2 & H2 & T2).
      pose proof (keeps_pop s pred s1 K2) as K3.
      assert (G3 : good mean (pop_root s1)) by (eapply good_pop; [exact G2|exact (proj1 K2)]).
      destruct (val_eqb form pred) eqn:Ev.
      + apply val_eqb_eq in Ev. subst form. inversion R; subst. split; auto. split; auto. split; auto.
        intros t St. destruct (T2 t (proj2 (stands_push s v v t) St)) as [(_ & On)|(u & On & Su)].
        * exists t. split; [constructor; auto|]. apply stands_pop. apply (proj2 (proj2 K2 v (or_introl eq_refl))). apply stands_push. auto.
        * (* expanded into itself *)
          exists u. split; [|apply stands_pop; auto].
          assert (u = t).
          { assert (St' : stands s1 v t). { apply (proj2 (proj2 K2 v (or_introl eq_refl))). apply stands_push. auto. }
            clear - St' Su. revert u Su. induction St'; intros u Su; inversion Su; subst; auto.
            f_equal; auto. }
          subst u. apply Same. auto.
      + assert (Hf : held (pop_root s1) form = true) by exact H2.
        destruct (Il _ _ _ _ G3 Hf R) as (G4 & K4 & H4 & T4). split; auto. split; [eapply keeps_trans; eauto|]. split; auto.
        intros t St. destruct (T2 t (proj2 (stands_push s pred pred t) St)) as [(Ef & _)|(u & On & Su)].
        * subst form. rewrite (proj2 (val_eqb_eq pred pred) eq_refl) in Ev. discriminate.
        * destruct (T4 u (proj2 (stands_pop s1 form u) Su)) as (t' & E' & St'). exists t'. split; auto.
          eapply Goes; eauto.
    - intros s form s' v G Hf R. rewrite expand_S in R. destruct form as [m|p].
      + inversion R; subst. split; auto. split; [apply keeps_refl, G|]. split; auto. intros t St. exists t. split; auto.
        inversion St; subst. apply Stays. reflexivity.
      + destruct (search (hist s (hist_hash p)) p) as [u|] eqn:Es.
        * inversion R; subst. apply search_in in Es. destruct (proj2 G _ _ _ Es) as (X & Y & Z).
          split; auto. split; [apply keeps_refl, G|]. split; auto.
        * destruct (expand_loop macro n (push_root s (Ptr p)) (Ptr p)) as [[s1 u]|] eqn:E; [|discriminate].
          inversion R; subst. pose proof (good_push mean s (Ptr p) G Hf) as G1.
          destruct (Il (push_root s (Ptr p)) (Ptr p) s1 v G1 Hf E) as (G2 & K2 & H2 & T2).
          pose proof (keeps_pop s (Ptr p) s1 K2) as K3.
          assert (G3 : good mean (pop_root s1)) by (eapply good_pop; [exact G2|exact (proj1 K2)]).
          destruct (proj2 K2 (Ptr p) (or_introl eq_refl)) as (Hp & Ep).
          assert (G4 : good mean (remember (pop_root s1) p v)).
          { apply good_remember; auto. intros t St. apply (proj1 (stands_pop s1 (Ptr p) t)) in St. apply Ep in St.
            destruct (T2 t St) as (t' & A & B). exists t'. split; auto. apply stands_pop; auto. }
          split; auto. split.
          { destruct K3 as (R3 & K3). split; [exact R3|]. intros w Iw. destruct (K3 w Iw) as (Hw & Ew). split; [exact Hw|].
            intros t. rewrite Ew. split; apply stands_mem; auto. }
          split; [exact H2|]. intros t St. destruct (T2 t (proj2 (stands_push s (Ptr p) (Ptr p) t) St)) as (t' & A & B).
          exists t'. split; auto. eapply stands_mem; [| |exact B]; auto.
  Qed.
End Expansion.

Lemma fresh_good : forall mean s, fresh s -> good mean s.
Proof. intros mean s (W & H). split; auto. intros i p v I. rewrite H in I. destruct I. Qed.

Lemma once_fun : forall mean t a b, once mean t = Some a -> once mean t = Some b -> a = b.
Proof. congruence. Qed.
Lemma expands_same : forall mean t t', expands mean t t' -> once mean t = Some t -> t' = t.
Proof. intros mean t t' H. induction H; intros E; try congruence. rewrite E in H. inversion H; subst. auto. Qed.
Lemma expands_fun : forall mean t a b, expands mean t a -> expands mean t b -> a = b.
Proof.
  intros mean t a b H. revert b. induction H as [t E|t E|t u t' E H IH]; intros b Hb.
  - inversion Hb; subst; congruence.
  - symmetry. eapply expands_same; eauto.
  - inversion Hb as [x E'|x E'|x u' y E' H']; subst.
    + congruence.
    + rewrite E in E'. inversion E'; subst. eapply expands_same; eauto.
    + rewrite E in E'. inversion E'; subst. auto.
Qed.
