(** Every operation does what it means. *)
From Coq Require Import List ZArith Bool Arith Lia Permutation.
From Verif Require Import Modules_Model Modules_Spec Modules_Proofs Modules_Steps.
Import ListNotations.
Open Scope nat_scope.

(** Equal universes *)
Definition meq (a b : module) : Prop :=
  named a = named b /\ (forall v, defs a v = defs b v) /\ reexports a = reexports b /\ everything a = everything b /\
  binds a = binds b /\ opens a = opens b /\ accesses a = accesses b.
Definition ueq (U U' : universe) : Prop :=
  count U = count U' /\ (forall n, called U n = called U' n) /\
  forall s, match mods U s, mods U' s with Some a, Some b => meq a b | None, None => True | _, _ => False end.
Lemma meq_refl m : meq m m.
Proof. repeat split. Qed.

Section Hash.
Variable hash : sym -> nat.
Notation line_ok := (line_ok hash).
Notation cache_ok := (cache_ok hash).
Notation R := (R hash).
Notation rel := (rel hash).
Notation table_ok := (table_ok hash).

Lemma rel_meq w x a b : rel w x a -> meq a b -> rel w x b.
Proof.
  intros RL (E1 & E2 & E3 & E4 & E5 & E6 & E7). destruct RL. split; try congruence.
  - intros n nd O G. rewrite <- E2. exact (r_def n nd O G).
  - intros v e. rewrite <- E2. apply r_undef.
Qed.
Lemma rel_nodes w w' x m : nodes w' = nodes w -> rel w x m -> rel w' x m.
Proof.
  intros E RL. assert (G : forall n, get_node w' n = get_node w n) by (intros n; unfold get_node; rewrite E; reflexivity).
  destruct RL. split; auto.
  - eapply table_ext; [eassumption|]. intros n nd _ H. exists nd. rewrite G. auto.
  - intros n nd O H. rewrite G in H. exact (r_def n nd O H).
  - intros v e D. destruct (r_undef v e D) as (n & nd & O & H & V). exists n, nd. rewrite G. auto.
Qed.
Lemma ueq_alive U U' s : ueq U U' -> mods U s <> None <-> mods U' s <> None.
Proof. intros (_ & _ & H). specialize (H s). destruct (mods U s), (mods U' s); try contradiction; split; intros; congruence. Qed.
Lemma ueq_get U U' s m' : ueq U U' -> mods U' s = Some m' -> exists m, mods U s = Some m /\ meq m m'.
Proof. intros (_ & _ & H) E. specialize (H s). rewrite E in H. destruct (mods U s) as [m|]; [eauto|contradiction]. Qed.
Lemma R_ext w U U' : R w U -> ueq U U' -> R w U'.
Proof.
  intros RW E. pose proof E as (E1 & E2 & E3). split.
  - rewrite <- E1. exact (R_count _ _ _ RW).
  - intros s m' M'. destruct (ueq_get _ _ _ _ E M') as (m & M & ME). destruct (R_mod _ _ _ RW s m M) as (x & GX & RL). exists x.
    split; [exact GX|exact (rel_meq _ _ _ _ RL ME)].
  - intros s x GX. apply (ueq_alive _ _ _ E). exact (R_struct _ _ _ RW s x GX).
  - intros n. rewrite <- E2. exact (R_called _ _ _ RW n).
  - intros n s. rewrite <- E2. intros C. apply (ueq_alive _ _ _ E). exact (R_names _ _ _ RW n s C).
  - intros s m' t M' I. destruct (ueq_get _ _ _ _ E M') as (m & M & ME). apply (ueq_alive _ _ _ E). apply (R_objs _ _ _ RW s m t M).
    destruct ME as (_ & _ & _ & _ & _ & O & _). rewrite O. exact I.
  - exact (R_own _ _ _ RW).
Qed.
Lemma the_ueq U U' i : ueq U U' -> the U' i = the U i.
Proof. intros (_ & H & _). destruct i; cbn [the]; [symmetry; apply H|reflexivity]. Qed.
Lemma cache_ext w U U' c : cache_ok w U c -> ueq U U' -> cache_ok w U' c.
Proof.
  intros (L & A) E. split; [exact L|]. intros j s n H.
  assert (G : forall a m, mods U a = Some m -> exists m', mods U' a = Some m' /\ meq m m').
  { intros a m M. destruct E as (_ & _ & E). specialize (E a). rewrite M in E. destruct (mods U' a) as [m'|]; [eauto|contradiction]. }
  apply (line_keep hash w w U U' j s n (fun _ => True) (fun _ => True)); auto.
  - intros a m _ M. destruct (G a m M) as (m' & M' & ME). exists m'. split; [exact M'|]. destruct ME as (_ & _ & _ & _ & _ & O & _). symmetry. exact O.
  - intros a m i _ M I. split; [exact (the_ueq _ _ i E)|auto].
  - intros nd a m m' _ _ M M'. destruct (G a m M) as (m2 & M2 & ME). rewrite M' in M2. injection M2 as <-.
    destruct ME as (_ & D & X & Y & _). unfold shape, passes. rewrite <- D, X, Y. destruct (defs m (nsym nd)); reflexivity.
  - intros o x nd _ GX O GN. exists x, nd. auto.
Qed.
Lemma ueq_at2 U s m1 m2 m3 : meq m2 m3 -> ueq (at_mod (at_mod U s m1) s m2) (at_mod U s m3).
Proof.
  intros M. split; [reflexivity|]. split; [reflexivity|]. intros t. cbn [mods at_mod].
  destruct (Nat.eqb t s); [exact M|]. destruct (mods U t); [apply meq_refl|exact I].
Qed.
Lemma ueq_at1 U s m1 m2 : meq m1 m2 -> ueq (at_mod U s m1) (at_mod U s m2).
Proof.
  intros M. split; [reflexivity|]. split; [reflexivity|]. intros t. cbn [mods at_mod].
  destruct (Nat.eqb t s); [exact M|]. destruct (mods U t); [apply meq_refl|exact I].
Qed.
Lemma ueq_self U s m m' : mods U s = Some m -> meq m m' -> ueq U (at_mod U s m').
Proof.
  intros M ME. split; [reflexivity|]. split; [reflexivity|]. intros t. cbn [mods at_mod].
  destruct (Nat.eqb t s) eqn:E; [apply Nat.eqb_eq in E; subst t; rewrite M; exact ME|]. destruct (mods U t); [apply meq_refl|exact I].
Qed.

Notation good := (good hash).
Notation Inv := (Inv hash).
Ltac start :=
  match goal with IV : Inv ?st ?U, M : mods ?U ?s = Some ?m |- _ =>
    destruct IV as (RW & C); destruct (R_mod _ _ _ RW s m M) as (x & GX & RL) end.

(** Assigning *)
Lemma store_spec w U c s x m n nd a :
  R w U -> cache_ok w U c -> get_struct w s = Some x -> mods U s = Some m -> owns x n -> get_node w n = Some nd ->
  exists w', store w n a = Ok (if nconst nd then Error else Value (Some a), w') /\
    R w' (at_mod U s (if nconst nd then m else with_def m (nsym nd) (Some (mke a false (nexp nd))) (reexports m))) /\
    cache_ok w' (at_mod U s (if nconst nd then m else with_def m (nsym nd) (Some (mke a false (nexp nd))) (reexports m))) c.
Proof.
  intros RW C GX M O G. unfold store. rewrite G. destruct (nconst nd).
  - exists w. split; [reflexivity|]. pose proof (ueq_self U s m m M (meq_refl m)) as E. split; [exact (R_ext _ _ _ RW E)|exact (cache_ext _ _ _ _ C E)].
  - destruct (change_node hash w U c s x m n nd (mkn (nsym nd) a false (nexp nd)) RW C GX M O G eq_refl) as (H1 & H2 & _).
    eexists. split; [reflexivity|]. split; [exact H1|exact (H2 eq_refl)].
Qed.

Lemma define_old w x m c v s n nd : rel w x m -> owns x n -> get_node w n = Some nd -> nsym nd = v ->
  lookup_or_add hash w c s x v = Ok (n, w, c).
Proof.
  intros RL O G V. unfold lookup_or_add. rewrite <- V, (lookup_owned hash w x n nd (r_table _ _ _ _ RL) O G). reflexivity.
Qed.

Lemma define_spec st U s m v a : Inv st U -> mods U s = Some m ->
  exists x w1 c1 n r w2, get_struct (wd st) s = Some x /\ lookup_or_add hash (wd st) (ca st) s x v = Ok (n, w1, c1) /\ store w1 n a = Ok (r, w2) /\
    r = match defs m v with Some (mke _ true _) => Error | _ => Value (Some a) end /\
    R w2 (at_mod U s (define m v a)) /\ cache_ok w2 (at_mod U s (define m v a)) c1.
Proof.
  intros IV M. start. exists x. destruct (rel_lookup _ _ _ _ v RL) as (r & LK & P). destruct r as [n|].
  - destruct P as (O & nd & G & V & D).
    destruct (store_spec _ _ _ s x m n nd a RW C GX M O G) as (w2 & ST & R2 & C2).
    exists (wd st), (ca st), n, (if nconst nd then Error else Value (Some a)), w2.
    split; [exact GX|]. split; [exact (define_old _ _ _ _ _ _ _ _ RL O G V)|]. split; [exact ST|].
    split; [rewrite D; unfold entry_of; destruct (nconst nd); reflexivity|].
    assert (E : define m v a = if nconst nd then m else with_def m (nsym nd) (Some (mke a false (nexp nd))) (reexports m))
      by (unfold define; rewrite D, V; reflexivity).
    rewrite E. split; [exact R2|exact C2].
  - destruct (add_spec hash _ _ _ s x m v RW C GX M P) as (n & w1 & c1 & x1 & E & R1 & C1 & GX1 & O & G).
    assert (M1 : mods (at_mod U s (add_def m v)) s = Some (add_def m v)) by (cbn; rewrite Nat.eqb_refl; reflexivity).
    destruct (store_spec _ _ _ s x1 _ n _ a R1 C1 GX1 M1 O G) as (w2 & ST & R2 & C2). cbn [nconst nsym nexp] in *.
    exists w1, c1, n, (Value (Some a)), w2. split; [exact GX|]. split; [exact E|]. split; [exact ST|]. split; [rewrite P; reflexivity|].
    match type of R2 with R _ ?X => assert (UE : ueq X (at_mod U s (define m v a))) end.
    { apply ueq_at2. unfold define. rewrite P. unfold add_def. destruct (passes m v); cbn [with_def reexports]; split; try reflexivity;
      (split; [|repeat split]); intros u; cbn [with_def defs]; destruct (Nat.eqb u v); reflexivity. }
    split; [exact (R_ext _ _ _ R2 UE)|exact (cache_ext _ _ _ _ C2 UE)].
Qed.
Lemma good_define st U s v a : Inv st U -> mods U s <> None -> good st U (Define s v a).
Proof.
  intros IV A. destruct (mods U s) as [m|] eqn:M; [|congruence].
  destruct (define_spec st U s m v a IV M) as (x & w1 & c1 & n & r & w2 & GX & E & ST & ER & R2 & C2).
  exists r, (mkst w2 c1), (at_mod U s (define m v a)). cbn [step]. unfold on_struct. rewrite GX, E. cbn [bind]. rewrite ST. cbn [bind wd ca].
  split; [reflexivity|]. split; [rewrite ER; apply does_define; exact M|]. split; [exact R2|exact C2].
Qed.
Lemma good_set st U s v a : Inv st U -> mods U s <> None -> good st U (Set_ s v a).
Proof.
  intros IV A. destruct (mods U s) as [m|] eqn:M; [|congruence].
  destruct (define_spec st U s m v a IV M) as (x & w1 & c1 & n & r & w2 & GX & E & ST & ER & R2 & C2).
  destruct IV as (RW & C). destruct (R_get _ _ _ _ _ RW GX) as (m0 & M0 & RL). rewrite M in M0. injection M0 as <-.
  destruct (rel_lookup _ _ _ _ v RL) as (r0 & LK & P).
  unfold Modules_Steps.good. cbn [step]. unfold on_struct. rewrite GX, (r_binds _ _ _ _ RL). destruct r0 as [k|].
  - destruct P as (O & nd & G & V & D).
    pose proof (define_old _ _ _ (ca st) _ s _ _ RL O G V) as E'. rewrite E in E'. injection E' as -> -> ->.
    exists r, (mkst w2 (ca st)), (at_mod U s (define m v a)). split.
    + destruct (binds m).
      * rewrite E. cbn [bind]. rewrite ST. reflexivity.
      * rewrite LK. cbn [bind]. rewrite ST. reflexivity.
    + split; [|split; [exact R2|exact C2]]. rewrite ER, D. destruct (entry_of nd) as [va co ex] eqn:EE.
      replace (if co then Error else Value (Some a)) with (if constant (mke va co ex) then Error else Value (Some a)) by reflexivity.
      apply does_set; assumption.
  - destruct (binds m) eqn:BM.
    + exists r, (mkst w2 c1), (at_mod U s (define m v a)). rewrite E. cbn [bind]. rewrite ST. cbn [bind].
      split; [reflexivity|]. split; [|split; [exact R2|exact C2]]. rewrite ER, P.
      pose proof (does_set_new U s v a m M P) as DS. rewrite BM in DS. exact DS.
    + exists Error, (mkst (wd st) (ca st)), U. rewrite LK. cbn [bind]. split; [reflexivity|]. split; [|split; [exact RW|exact C]].
      pose proof (does_set_new U s v a m M P) as DS. rewrite BM in DS. exact DS.
Qed.

(** Looking up *)
Lemma ref_spec st U s m v : Inv st U -> mods U s = Some m ->
  exists x r0 r c', get_struct (wd st) s = Some x /\ lookup hash (wd st) x v = Ok r0 /\
    match r0 with Some n => Ok (Some n, ca st) | None => search_imports hash (wd st) v s (ca st) end = Ok (r, c') /\
    cache_ok (wd st) U c' /\
    (forall n, r = Some n -> exists nd, get_node (wd st) n = Some nd) /\
    (grounded U s -> exists ro, denotes U s v ro /\ agrees (wd st) v r ro).
Proof.
  intros IV M. start. exists x. destruct (rel_lookup _ _ _ _ v RL) as (r0 & LK & P). exists r0.
  destruct r0 as [n|].
  - destruct P as (O & nd & G & V & D). exists (Some n), (ca st). split; [exact GX|]. split; [exact LK|]. split; [reflexivity|]. split; [exact C|].
    split; [intros k E; injection E as <-; eauto|]. intros _. exists (Some s). split.
    + exists m. split; [exact M|]. rewrite D. reflexivity.
    + exists nd, x. auto.
  - destruct (imports_spec hash (wd st) U v RW s m (ca st) M C) as (r & c' & E & C' & F1 & F2).
    exists r, c'. split; [exact GX|]. split; [exact LK|]. split; [exact E|]. split; [exact C'|]. split.
    + intros k K. destruct (F1 k K) as (o & t & (nd & _ & G & _) & _). eauto.
    + intros GR. destruct (F2 GR) as (ro & A & AG). exists ro. split; [|exact AG]. exists m. split; [exact M|]. rewrite P. exact A.
Qed.
Lemma agrees_entry w U v r ro : R w U -> agrees w v r ro ->
  entry_at U ro v = match r with Some n => option_map entry_of (get_node w n) | None => None end.
Proof.
  intros RW AG. destruct r as [n|], ro as [o|]; try contradiction; [|reflexivity].
  destruct AG as (nd & x & G & V & GX & O). destruct (R_get _ _ _ _ _ RW GX) as (m & M & RL). cbn [entry_at]. rewrite M, G.
  rewrite <- V. exact (r_def _ _ _ _ RL n nd O G).
Qed.
Lemma good_ref st U s v : Inv st U -> mods U s <> None -> good st U (Ref s v).
Proof.
  intros IV A. destruct (mods U s) as [m|] eqn:M; [|congruence].
  destruct (ref_spec st U s m v IV M) as (x & r0 & r & c' & GX & LK & E & C' & AL & DN). destruct IV as (RW & C).
  set (a := match r with Some n => option_map nval (get_node (wd st) n) | None => None end).
  exists (Value a), (mkst (wd st) c'), U. cbn [step]. unfold on_struct. rewrite GX, LK. cbn [bind]. rewrite E. cbn [bind]. split.
  - unfold value_of, a. destruct r as [n|]; [|reflexivity]. destruct (AL n eq_refl) as (nd & G). rewrite G. reflexivity.
  - split; [|split; [exact RW|exact C']]. eapply does_ref; [exact M|]. intros GR. destruct (DN GR) as (ro & D & AG). exists ro. split; [exact D|].
    rewrite (agrees_entry _ _ _ _ _ RW AG). unfold a. destruct r as [n|]; [|reflexivity]. destruct (get_node (wd st) n); reflexivity.
Qed.
Lemma good_immutable_p st U s v : Inv st U -> mods U s <> None -> good st U (ImmutableP s v).
Proof.
  intros IV A. destruct (mods U s) as [m|] eqn:M; [|congruence].
  destruct (ref_spec st U s m v IV M) as (x & r0 & r & c' & GX & LK & E & C' & AL & DN). destruct IV as (RW & C).
  set (b := match r with Some n => match get_node (wd st) n with Some nd => nconst nd | None => false end | None => false end).
  exists (Flag b), (mkst (wd st) c'), U. cbn [step]. unfold on_struct. rewrite GX, LK. cbn [bind]. rewrite E. cbn [bind]. split.
  - unfold b. destruct r as [n|]; [|reflexivity]. destruct (AL n eq_refl) as (nd & G). rewrite G. reflexivity.
  - split; [|split; [exact RW|exact C']]. eapply does_immutable_p; [exact M|]. intros GR. destruct (DN GR) as (ro & D & AG). exists ro. split; [exact D|].
    rewrite (agrees_entry _ _ _ _ _ RW AG). unfold b. destruct r as [n|]; [|reflexivity]. destruct (get_node (wd st) n); reflexivity.
Qed.
Lemma good_extref st U s nm v : Inv st U -> mods U s <> None -> good st U (ExtRef s nm v).
Proof.
  intros IV A. destruct (mods U s) as [m|] eqn:M; [|congruence]. start. unfold Modules_Steps.good. cbn [step]. unfold on_struct. rewrite GX.
  destruct (memq nm (accessible x) || existsb (imp_eqb (ByName nm)) (imports x)) eqn:K.
  - destruct (recursively_top hash (wd st) U v RW (ByName nm) (ca st) C) as (r & c' & E & C' & F1 & F2).
    { intros t T. exact (R_names _ _ _ RW nm t T). }
    rewrite E. cbn [bind].
    set (a := match r with Some n => match get_node (wd st) n with Some nd => Value (Some (nval nd)) | None => Error end | None => Error end).
    exists a, (mkst (wd st) c'), U. split.
    + unfold value_of, a. destruct r as [n|]; [|reflexivity]. destruct (F1 n eq_refl) as (o & t & (nd & y & G & _) & _). rewrite G. reflexivity.
    + split; [|split; [exact RW|exact C']]. eapply does_extref; [exact M| | |].
      * apply orb_true_iff in K. rewrite memq_in, imp_in, (r_acc _ _ _ _ RL), (r_opens _ _ _ _ RL) in K. exact K.
      * intros t T GR. destruct F2 as (ro & OF & AG).
        { intros t' T'. cbn [the] in T'. rewrite T in T'. injection T' as <-. exact GR. }
        exists ro. split; [exact OF|]. rewrite (agrees_entry _ _ _ _ _ RW AG). unfold a. destruct r as [n|]; [|reflexivity]. destruct (get_node (wd st) n); reflexivity.
      * intros T. unfold a. destruct r as [n|]; [|reflexivity]. destruct (F1 n eq_refl) as (o & t & _ & T' & _). cbn [the] in T'. congruence.
  - exists Error, st, U. split; [reflexivity|]. split; [|split; [exact RW|exact C]].
    apply orb_false_iff in K. destruct K as (K1 & K2). apply does_extref_not with (m := m); [exact M| |].
    + rewrite <- (r_acc _ _ _ _ RL). intros I. apply memq_in in I. congruence.
    + rewrite <- (r_opens _ _ _ _ RL). intros I. apply imp_in in I. congruence.
Qed.
Lemma good_exports_p st U s v : Inv st U -> mods U s <> None -> good st U (ExportsP s v).
Proof.
  intros IV A. destruct (mods U s) as [m|] eqn:M; [|congruence]. start. unfold Modules_Steps.good. cbn [step]. unfold on_struct. rewrite GX.
  destruct (rel_lookup _ _ _ _ v RL) as (r0 & LK & P). rewrite LK. cbn [bind].
  pose proof (does_exports_p U s v m M) as D. destruct r0 as [n|].
  - destruct P as (O & nd & G & V & DD). rewrite G, DD in *. eexists; exists st, U. split; [reflexivity|]. split; [exact D|split; [exact RW|exact C]].
  - rewrite P in D. eexists; exists st, U. split; [reflexivity|]. rewrite (rel_passes _ _ _ _ _ RL). split; [exact D|split; [exact RW|exact C]].
Qed.

(** Flags and exports *)
Lemma good_immutable st U s v : Inv st U -> mods U s <> None -> good st U (Immutable s v).
Proof.
  intros IV A. destruct (mods U s) as [m|] eqn:M; [|congruence]. start. unfold Modules_Steps.good. cbn [step]. unfold on_struct. rewrite GX.
  destruct (rel_lookup _ _ _ _ v RL) as (r0 & LK & P). rewrite LK. cbn [bind].
  pose proof (does_immutable U s v m M) as D. destruct r0 as [n|].
  - destruct P as (O & nd & G & V & DD). rewrite DD in D. rewrite G.
    destruct (change_node hash _ _ _ s x m n nd (mkn (nsym nd) (nval nd) true (nexp nd)) RW C GX M O G eq_refl) as (H1 & H2 & _).
    rewrite V in H1, H2 |- *. eexists; eexists; eexists. split; [reflexivity|]. split; [exact D|]. split; [exact H1|exact (H2 eq_refl)].
  - rewrite P in D. exists Error, st, U. split; [reflexivity|]. split; [exact D|split; [exact RW|exact C]].
Qed.
Lemma good_export st U s v : Inv st U -> mods U s <> None -> good st U (Export s v).
Proof.
  intros IV A. destruct (mods U s) as [m|] eqn:M; [|congruence]. start. unfold Modules_Steps.good. cbn [step]. unfold on_struct. rewrite GX.
  destruct (rel_lookup _ _ _ _ v RL) as (r0 & LK & P). rewrite LK. cbn [bind]. destruct r0 as [n|].
  - destruct P as (O & nd & G & V & DD). rewrite G. pose proof (does_export U s v m _ M DD) as D. destruct (nexp nd) eqn:X.
    + eexists; exists st; eexists. split; [reflexivity|]. split; [exact D|].
      assert (E : ueq U (at_mod U s (with_def m v (Some (mke (value (entry_of nd)) (constant (entry_of nd)) true)) (reexports m)))).
      { apply (ueq_self _ _ m _ M). split; [reflexivity|]. split; [|repeat split]. intros u. cbn. destruct (Nat.eqb u v) eqn:F; [|reflexivity].
        apply Nat.eqb_eq in F. subst u. rewrite DD. unfold entry_of. rewrite X. reflexivity. }
      split; [exact (R_ext _ _ _ RW E)|exact (cache_ext _ _ _ _ C E)].
    + destruct (change_node hash _ _ _ s x m n nd (mkn (nsym nd) (nval nd) (nconst nd) true) RW C GX M O G eq_refl) as (H1 & _ & c' & H3 & H4).
      rewrite V in H1, H3, H4 |- *. rewrite H3. cbn [bind]. eexists; eexists; eexists. split; [reflexivity|]. split; [exact D|]. split; [exact H1|exact H4].
  - pose proof (does_export_other U s v m M P) as D. rewrite (rel_passes _ _ _ _ _ RL). destruct (passes m v) eqn:PS.
    + exists Done, st, U. split; [reflexivity|]. split; [exact D|split; [exact RW|exact C]].
    + destruct (change_struct hash _ _ _ s x m (with_inherited x (v :: inherited x))
        (mkm (named m) (defs m) (v :: reexports m) (everything m) (binds m) (opens m) (accesses m)) RW C GX M) as (H1 & _ & H3); try (destruct RL; cbn; congruence).
      * intros t I. exact (R_objs _ _ _ RW s m t M I).
      * destruct (H3 v eq_refl) as (c' & E & C').
        { intros u NE. unfold passes. cbn. apply Nat.eqb_neq in NE. rewrite NE. reflexivity. }
        rewrite E. cbn [bind]. eexists; eexists; eexists. split; [reflexivity|]. split; [exact D|]. split; [exact H1|exact C'].
Qed.
Lemma good_export_all st U s : Inv st U -> mods U s <> None -> unopened U s -> good st U (ExportAll s).
Proof.
  intros IV A UN. destruct (mods U s) as [m|] eqn:M; [|congruence]. start. unfold Modules_Steps.good. cbn [step]. unfold on_struct. rewrite GX.
  match goal with |- context [put_struct _ s ?y] => destruct (change_struct hash _ _ _ s x m y
    (mkm (named m) (defs m) (reexports m) true (binds m) (opens m) (accesses m)) RW C GX M) as (H1 & H2 & _) end; try (destruct RL; cbn; congruence).
  - intros t I. exact (R_objs _ _ _ RW s m t M I).
  - eexists; eexists; eexists. split; [reflexivity|]. split; [apply does_export_all; exact M|]. split; [exact H1|]. apply H2; [reflexivity|left; exact UN].
Qed.
Lemma good_set_binds st U s : Inv st U -> mods U s <> None -> good st U (SetBinds s).
Proof.
  intros IV A. destruct (mods U s) as [m|] eqn:M; [|congruence]. start. unfold Modules_Steps.good. cbn [step]. unfold on_struct. rewrite GX.
  match goal with |- context [put_struct _ s ?y] => destruct (change_struct hash _ _ _ s x m y
    (mkm (named m) (defs m) (reexports m) (everything m) true (opens m) (accesses m)) RW C GX M) as (H1 & H2 & _) end; try (destruct RL; cbn; congruence).
  - intros t I. exact (R_objs _ _ _ RW s m t M I).
  - eexists; eexists; eexists. split; [reflexivity|]. split; [apply does_set_binds; exact M|]. split; [exact H1|]. apply H2; [reflexivity|right; reflexivity].
Qed.

(** Opening *)
Lemma open_loop_spec w U l : R w U -> (forall t, In (ByObj t) l -> mods U t <> None) ->
  forall o, (forall t, In (ByObj t) o -> mods U t <> None) ->
  exists b r, open_loop w l o = (b, r) /\ opening U l o b r /\ (forall t, In (ByObj t) r -> mods U t <> None).
Proof.
  intros RW. induction l as [|i l IH]; intros HL o HO; cbn [open_loop].
  - exists true, o. split; [reflexivity|]. split; [constructor|exact HO].
  - assert (HL' : forall t, In (ByObj t) l -> mods U t <> None) by (intros t I; apply HL; right; exact I).
    destruct (existsb (imp_eqb i) o) eqn:X.
    + apply imp_in in X. destruct (IH HL' o HO) as (b & r & E & P & Q). exists b, r. split; [exact E|]. split; [apply opening_old; assumption|exact Q].
    + assert (NI : ~ In i o) by (intros I; apply imp_in in I; congruence).
      rewrite (R_resolve _ _ _ _ RW). destruct (the U i) as [s|] eqn:T.
      * destruct (get_struct w s) as [x|] eqn:GX.
        -- destruct (R_get _ _ _ _ _ RW GX) as (m & M & _).
           destruct (IH HL' (i :: o)) as (b & r & E & P & Q).
           { intros t [->|I]; [apply HL; left; reflexivity|exact (HO t I)]. }
           exists b, r. split; [exact E|]. split; [eapply opening_new; eassumption|exact Q].
        -- exists false, o. split; [reflexivity|]. split; [|exact HO]. apply opening_fail; [exact NI|]. intros t T'. rewrite T in T'. injection T' as <-.
           destruct (mods U s) as [m|] eqn:M; [|reflexivity]. destruct (R_mod _ _ _ RW s m M) as (y & GY & _). congruence.
      * exists false, o. split; [reflexivity|]. split; [|exact HO]. apply opening_fail; [exact NI|]. intros t T'. congruence.
Qed.
Lemma access_loop_spec w U l : R w U -> forall o, exists b r, access_loop w l o = (b, r) /\ opening U (map ByName l) (map ByName o) b (map ByName r).
Proof.
  intros RW. induction l as [|i l IH]; intros o; cbn [access_loop map].
  - exists true, o. split; [reflexivity|constructor].
  - assert (NN : In (ByName i) (map ByName o) <-> In i o).
    { rewrite in_map_iff. split; [intros (k & E & I); injection E as ->; exact I|intros I; eauto]. }
    destruct (memq i o) eqn:X.
    + apply memq_in in X. destruct (IH o) as (b & r & E & P). exists b, r. split; [exact E|]. apply opening_old; [apply NN; exact X|exact P].
    + assert (NI : ~ In (ByName i) (map ByName o)) by (rewrite NN; intros I; apply memq_in in I; congruence).
      rewrite (R_called _ _ _ RW). destruct (called U i) as [s|] eqn:T.
      * destruct (get_struct w s) as [x|] eqn:GX.
        -- destruct (R_get _ _ _ _ _ RW GX) as (m & M & _). destruct (IH (i :: o)) as (b & r & E & P).
           exists b, r. split; [exact E|]. eapply opening_new; eauto.
        -- exists false, o. split; [reflexivity|]. apply opening_fail; [exact NI|]. intros t T'. cbn [the] in T'. rewrite T in T'. injection T' as <-.
           destruct (mods U s) as [m|] eqn:M; [|reflexivity]. destruct (R_mod _ _ _ RW s m M) as (y & GY & _). congruence.
      * exists false, o. split; [reflexivity|]. apply opening_fail; [exact NI|]. intros t T'. cbn [the] in T'. congruence.
Qed.
Lemma good_open st U s l : Inv st U -> mods U s <> None -> (forall t, In (ByObj t) l -> mods U t <> None) -> good st U (Open s l).
Proof.
  intros IV A HL. destruct (mods U s) as [m|] eqn:M; [|congruence]. start. unfold Modules_Steps.good. cbn [step]. unfold on_struct. rewrite GX.
  destruct (open_loop_spec (wd st) U l RW HL (imports x)) as (b & r & E & P & Q).
  { rewrite (r_opens _ _ _ _ RL). intros t I. exact (R_objs _ _ _ RW s m t M I). }
  rewrite E. rewrite (r_opens _ _ _ _ RL) in P.
  destruct (change_struct hash _ _ _ s x m (with_imports x r)
    (mkm (named m) (defs m) (reexports m) (everything m) (binds m) r (accesses m)) RW C GX M) as (H1 & _); try (destruct RL; cbn; congruence); [exact Q|].
  eexists; eexists; eexists. split; [reflexivity|]. split; [exact (does_open U s l m b r M P)|]. split; [exact H1|apply cache_flush_ok].
Qed.
Lemma good_access st U s l : Inv st U -> mods U s <> None -> good st U (Access s l).
Proof.
  intros IV A. destruct (mods U s) as [m|] eqn:M; [|congruence]. start. unfold Modules_Steps.good. cbn [step]. unfold on_struct. rewrite GX.
  destruct (access_loop_spec (wd st) U l RW (accessible x)) as (b & r & E & P).
  rewrite E. rewrite (r_acc _ _ _ _ RL) in P.
  match goal with |- context [put_struct _ s ?y] => destruct (change_struct hash _ _ _ s x m y
    (mkm (named m) (defs m) (reexports m) (everything m) (binds m) (opens m) r) RW C GX M) as (H1 & _) end; try (destruct RL; cbn; congruence).
  - intros t I. exact (R_objs _ _ _ RW s m t M I).
  - eexists; eexists; eexists. split; [reflexivity|]. split; [exact (does_access U s l m b r M P)|]. split; [exact H1|apply cache_flush_ok].
Qed.

(** Names *)
Lemma get_set_name w n r k : get_structure (set_name w n r) k = if Nat.eqb k n then r else get_structure w k.
Proof. unfold get_structure, set_name. cbn [names find fst]. rewrite (Nat.eqb_sym n k). destruct (Nat.eqb k n); reflexivity. Qed.
Lemma R_call w U n r : R w U -> (forall s, r = Some s -> mods U s <> None) -> R (set_name w n r) (call U n r).
Proof.
  intros RW H. split.
  - exact (R_count _ _ _ RW).
  - intros s m M. destruct (R_mod _ _ _ RW s m M) as (x & GX & RL). exists x. split; [exact GX|]. apply (rel_nodes w); [reflexivity|exact RL].
  - exact (R_struct _ _ _ RW).
  - intros k. rewrite get_set_name. cbn [called call]. rewrite (R_called _ _ _ RW k). reflexivity.
  - intros k s. cbn [called call mods]. destruct (Nat.eqb k n); [intros E; exact (H s E)|exact (R_names _ _ _ RW k s)].
  - exact (R_objs _ _ _ RW).
  - exact (R_own _ _ _ RW).
Qed.
Lemma good_name st U s nm : Inv st U -> mods U s <> None -> good st U (Name s nm).
Proof.
  intros IV A. destruct (mods U s) as [m|] eqn:M; [|congruence]. start. unfold Modules_Steps.good. cbn [step]. unfold on_struct. rewrite GX.
  unfold name_structure. destruct nm as [n|].
  - pose proof (does_name U s n m M) as D. rewrite (r_name _ _ _ _ RL). destruct (named m) as [k|] eqn:NM.
    + eexists; eexists; eexists. split; [reflexivity|]. split; [exact D|]. cbn [wd ca]. split; [|apply cache_flush_ok].
      apply R_call.
      * eapply R_ext; [exact RW|]. apply (ueq_self _ _ m _ M). repeat split. symmetry in NM. cbn. congruence.
      * intros t E. injection E as <-. cbn. rewrite Nat.eqb_refl. discriminate.
    + eexists; eexists; eexists. split; [reflexivity|]. split; [exact D|]. cbn [wd ca]. split; [|apply cache_flush_ok].
      match goal with |- R (put_struct _ s ?y) _ => destruct (change_struct hash _ _ _ s x m y
        (mkm (Some n) (defs m) (reexports m) (everything m) (binds m) (opens m) (accesses m)) RW C GX M) as (H1 & _) end; try (destruct RL; cbn; congruence).
      * intros t I. exact (R_objs _ _ _ RW s m t M I).
      * apply (R_call _ _ n (Some s)) in H1; [exact H1|]. intros t E. injection E as <-. cbn. rewrite Nat.eqb_refl. discriminate.
  - pose proof (does_unname U s m M) as D. rewrite (r_name _ _ _ _ RL). destruct (named m) as [k|] eqn:NM.
    + eexists; eexists; eexists. split; [reflexivity|]. split; [exact D|]. cbn [wd ca]. split; [|apply cache_flush_ok].
      apply R_call; [exact RW|discriminate].
    + eexists; eexists; eexists. split; [reflexivity|]. split; [exact D|]. cbn [wd ca]. split; [exact RW|apply cache_flush_ok].
Qed.

(** Making *)
Lemma good_make st U sig nm : Inv st U -> good st U (Make sig nm).
Proof.
  intros (RW & C). unfold Modules_Steps.good. cbn [step].
  set (x := mks nm [] 0 sig [] [] false false). set (s := length (structs (wd st))).
  set (w' := mkw (structs (wd st) ++ [Some x]) (names (wd st)) (nodes (wd st))).
  set (m := mkm nm (fun _ => None) sig false false [] []).
  set (U' := mku (S (count U)) (fun t => if Nat.eqb t (count U) then Some m else mods U t) (called U)).
  assert (SC : s = count U) by exact (R_count _ _ _ RW).
  assert (GS : forall t, get_struct w' t = if Nat.eqb t s then Some x else get_struct (wd st) t).
  { intros t. unfold get_struct, w'. cbn [structs]. destruct (Nat.eqb t s) eqn:E.
    - apply Nat.eqb_eq in E. subst t. unfold s. rewrite app_nth2 by lia. rewrite Nat.sub_diag. reflexivity.
    - apply Nat.eqb_neq in E. destruct (Nat.lt_ge_cases t s) as [L|L]; [apply app_nth1; exact L|].
      rewrite !nth_overflow; [reflexivity|unfold s in *; lia|rewrite app_length; cbn [length]; unfold s in *; lia]. }
  assert (FRESH : mods U (count U) = None).
  { destruct (mods U (count U)) as [y|] eqn:Y; [|reflexivity]. destruct (R_mod _ _ _ RW _ _ Y) as (z & GZ & _). apply nth_error_nth_none in GZ.
    rewrite (R_count _ _ _ RW) in GZ. lia. }
  assert (AL : forall t, mods U t <> None -> mods U' t <> None) by (intros t H; cbn; destruct (Nat.eqb t (count U)); [discriminate|exact H]).
  assert (NEW : forall t, mods U t <> None -> Nat.eqb t (count U) = false) by (intros t H; apply Nat.eqb_neq; intros ->; congruence).
  assert (R1 : R w' U').
  { split.
    - unfold w'. cbn [structs count U']. rewrite app_length. cbn [length]. fold s. lia.
    - intros t mt. cbn [mods U']. rewrite GS, SC. destruct (Nat.eqb t (count U)).
      + intros E. injection E as <-. exists x. split; [reflexivity|]. split; try reflexivity.
        * exact (proj1 (table_empty hash w' 0)).
        * intros n nd [].
        * intros v e D. discriminate D.
      + intros MT. destruct (R_mod _ _ _ RW t mt MT) as (y & GY & RY). exists y. split; [exact GY|]. destruct RY. split; auto.
        eapply table_ext; [eassumption|]. intros k d _ G. exists d. split; [exact G|reflexivity].
    - intros t y. rewrite GS, SC. cbn [mods U']. destruct (Nat.eqb t (count U)); [discriminate|]. exact (R_struct _ _ _ RW t y).
    - exact (R_called _ _ _ RW).
    - intros n t T. apply AL. exact (R_names _ _ _ RW n t T).
    - intros t mt u. cbn [mods U']. intros MT I. change (mods U' u <> None). destruct (Nat.eqb t (count U)).
      + injection MT as <-. contradiction.
      + apply AL. exact (R_objs _ _ _ RW t mt u MT I).
    - intros t t' y y' n. rewrite !GS. destruct (Nat.eqb t s), (Nat.eqb t' s).
      + intros E _ O _. injection E as <-. contradiction.
      + intros E _ O _. injection E as <-. contradiction.
      + intros _ E _ O. injection E as <-. contradiction.
      + exact (R_own _ _ _ RW t t' y y' n). }
  assert (C1 : cache_ok w' U' (ca st)).
  { destruct C as (CL & CA). split; [exact CL|]. intros j t n H.
    apply (line_keep hash (wd st) w' U U' j t n (fun t => mods U t <> None) (fun t => mods U t <> None)); auto.
    - destruct (CA _ _ _ H) as [(nd & o & y & mt & u & _ & _ & _ & _ & MT & _)]. congruence.
    - intros a ma QA MA. exists ma. cbn [mods U']. rewrite (NEW a QA). auto.
    - intros a ma i QA MA I. split; [destruct i; reflexivity|]. intros u T. exact (R_edge _ _ _ a ma i u RW MA I T).
    - intros nd a ma ma' _ PA MA. cbn [mods U']. rewrite (NEW a PA), MA. intros E. injection E as <-. unfold shape. destruct (defs ma (nsym nd)); reflexivity.
    - intros o y nd PO GO O G. exists y, nd. rewrite GS, SC, (NEW o PO). auto. }
  pose proof (does_make U sig nm) as D. cbn zeta in D. fold m U' in D. rewrite <- SC in D at 1.
  destruct nm as [n|].
  - eexists; eexists; eexists. split; [reflexivity|]. split; [exact D|]. unfold name_structure. cbn [wd ca sname x]. split; [|apply cache_flush_ok].
    rewrite SC. apply R_call; [exact R1|]. intros t E. injection E as <-. cbn. rewrite Nat.eqb_refl. discriminate.
  - eexists; eexists; eexists. split; [reflexivity|]. split; [exact D|]. split; [exact R1|exact C1].
Qed.

(** Taking a definition away *)
Lemma good_undefine st U s v : Inv st U -> mods U s <> None -> unopened U s -> good st U (Undefine s v).
Proof.
  intros IV A UN. destruct (mods U s) as [m|] eqn:M; [|congruence]. start. unfold Modules_Steps.good. cbn [step]. unfold on_struct. rewrite GX.
  unfold remove_binding. destruct (rel_lookup _ _ _ _ v RL) as (r0 & LK & P). rewrite LK. cbn [bind].
  pose proof (does_undefine U s v m M) as D. destruct r0 as [n|].
  2: { eexists; eexists; eexists. split; [reflexivity|]. split; [exact D|]. cbn [wd ca].
       assert (E : ueq U (at_mod U s (with_def m v None (reexports m)))).
       { apply (ueq_self _ _ m _ M). split; [reflexivity|]. split; [|repeat split]. intros u. cbn. destruct (Nat.eqb u v) eqn:F; [|reflexivity].
         apply Nat.eqb_eq in F. subst u. exact P. }
       split; [exact (R_ext _ _ _ RW E)|exact (cache_ext _ _ _ _ C E)]. }
  destruct P as (O & nd & G & V & DD). pose proof (r_table _ _ _ _ RL) as T. pose proof (nth_error_nth_none _ _ _ GX) as LS.
  assert (NB : buckets x <> []) by (intros E; unfold owns in O; rewrite E in O; contradiction).
  destruct (table_remove hash _ _ n nd T NB O G) as (T' & PB). rewrite V in T', PB. cbn zeta in T', PB.
  set (b' := set_nth (buckets x) (slot hash v (buckets x)) (remove1 n (nth (slot hash v (buckets x)) (buckets x) []))) in *.
  set (x' := with_buckets x b' (total x)).
  set (w' := put_node (put_struct (wd st) s x') n None).
  assert (GN : forall k, get_node w' k = if Nat.eqb k n then None else get_node (wd st) k).
  { intros k. unfold w'. rewrite get_put_node; [reflexivity|]. exact (node_lt _ _ _ G). }
  assert (NIN : ~ In n (concat b')).
  { pose proof (Permutation_NoDup PB (t_nodup _ _ _ T)) as ND. inversion ND; assumption. }
  assert (OWN : forall k, owns x' k <-> owns x k /\ k <> n).
  { intros k. unfold owns at 1. change (buckets x') with b'. split.
    - intros I. split; [apply (Permutation_in _ (Permutation_sym PB)); right; exact I|intros ->; exact (NIN I)].
    - intros (I & NE). apply (Permutation_in _ PB) in I. destruct I as [->|I]; [congruence|exact I]. }
  assert (OTHER : forall t y k, t <> s -> get_struct (wd st) t = Some y -> owns y k -> k <> n).
  { intros t y k NE GY OY ->. apply NE. exact (R_own _ _ _ RW t s y x n GY GX OY O). }
  assert (R1 : R w' (at_mod U s (with_def m v None (reexports m)))).
  { eapply R_update with (x := x) (m := m) (x' := x'); eauto.
    - intros t y k NE GY OY. rewrite GN. pose proof (OTHER t y k NE GY OY) as K. apply Nat.eqb_neq in K. rewrite K. reflexivity.
    - destruct RL. split; auto.
      + change (buckets x') with b'. eapply table_ext; [exact T'|]. intros k d I Gk. exists d. split; [|reflexivity]. rewrite GN.
        destruct (Nat.eqb k n) eqn:E; [apply Nat.eqb_eq in E; subst k; contradiction|exact Gk].
      + intros k d Ok Gk. apply OWN in Ok. destruct Ok as (Ok & NE). rewrite GN in Gk. apply Nat.eqb_neq in NE. rewrite NE in Gk.
        cbn [with_def defs]. destruct (Nat.eqb (nsym d) v) eqn:F; [|exact (r_def k d Ok Gk)]. apply Nat.eqb_eq in F. apply Nat.eqb_neq in NE.
        exfalso. apply NE. apply (t_uniq _ _ _ T k n d nd Ok O Gk G). congruence.
      + intros u e. cbn [with_def defs]. destruct (Nat.eqb u v) eqn:F; [discriminate|]. intros E. destruct (r_undef u e E) as (k & d & Ok & Gk & Vk).
        assert (NE : k <> n) by (intros ->; apply Nat.eqb_neq in F; congruence).
        exists k, d. split; [apply OWN; auto|]. split; [|exact Vk]. rewrite GN. apply Nat.eqb_neq in NE. rewrite NE. exact Gk.
    - intros t y k NE GY OY O'. apply OWN in O'. apply NE. exact (R_own _ _ _ RW t s y x k GY GX OY (proj1 O')).
    - intros t I. exact (R_objs _ _ _ RW s m t M I). }
  assert (LINES : forall j t k, has (ca st) j t k -> k <> n).
  { intros j t k H ->. destruct (proj2 C _ _ _ H) as [(d & o & y & mt & u & _ & _ & GO & OO & _ & ED & B & _)].
    pose proof (R_own _ _ _ RW o s y x n GO GX OO O) as ->. inversion B as [?|? u1 ? E1 B1]; subst; [exact (UN t ED)|].
    clear - UN E1 B1. revert u E1. induction B1 as [s|a b c E2 B2 IH]; intros u E1; [exact (UN u E1)|exact (IH UN a E2)]. }
  destruct (inval_spec hash w' (ca st) v) as (c' & E & CL & PI).
  { exact (proj1 C). }
  { intros j t k H. destruct (has_node _ _ _ _ _ _ _ C H) as (d & Gd & J). exists d. split; [|exact J]. rewrite GN.
    pose proof (LINES _ _ _ H) as NE. apply Nat.eqb_neq in NE. rewrite NE. exact Gd. }
  rewrite E. cbn [bind]. eexists; eexists; eexists. split; [reflexivity|]. split; [exact D|]. split; [exact R1|]. cbn [wd ca].
  split; [exact CL|]. intros j t k H. destruct (PI _ _ _ H) as (H' & _). pose proof (LINES _ _ _ H') as NE.
  eapply keep_at with (x := x) (m := m) (x' := x'); eauto; [|exact (proj2 C _ _ _ H')].
  intros o y d _ GO OO Gd. split.
  - intros ->. rewrite GX in GO. injection GO as <-. apply OWN. auto.
  - exists d. split; [|reflexivity]. rewrite GN. apply Nat.eqb_neq in NE. rewrite NE. exact Gd.
Qed.

(** Setting the interface *)
Definition syms (w : world) (l : list nat) : list sym := map (fun n => match get_node w n with Some nd => nsym nd | None => 0 end) l.
Lemma reexport_spec l : forall w inh, NoDup l -> (forall n, In n l -> exists nd, get_node w n = Some nd) -> NoDup (syms w l) ->
  exists w' inh', reexport w l inh = Ok (w', inh') /\ structs w' = structs w /\ names w' = names w /\
    (forall n nd, get_node w n = Some nd -> get_node w' n = Some (if existsb (Nat.eqb n) l then mkn (nsym nd) (nval nd) (nconst nd) (memq (nsym nd) inh) else nd)) /\
    inh' = filter (fun v => negb (memq v (syms w l))) inh.
Proof.
  induction l as [|n l IH]; intros w inh ND AL NS; cbn [reexport].
  - exists w, inh. split; [reflexivity|]. split; [reflexivity|]. split; [reflexivity|]. split; [intros n nd G; exact G|].
    symmetry. clear. induction inh as [|a l IH]; [reflexivity|]. cbn [filter syms map memq existsb negb]. f_equal. exact IH.
  - destruct (AL n (or_introl eq_refl)) as (nd & G). rewrite G. inversion ND as [|? ? N1 N2]; subst.
    cbn [syms map] in NS. rewrite G in NS. inversion NS as [|? ? S1 S2]; subst. fold (syms w l) in S1, S2.
    set (w1 := put_node w n (Some (mkn (nsym nd) (nval nd) (nconst nd) (memq (nsym nd) inh)))).
    assert (GN : forall k, get_node w1 k = if Nat.eqb k n then Some (mkn (nsym nd) (nval nd) (nconst nd) (memq (nsym nd) inh)) else get_node w k)
      by (intros k; apply get_put_node; exact (node_lt _ _ _ G)).
    assert (SY : syms w1 l = syms w l).
    { unfold syms. apply map_ext. intros k. rewrite GN. destruct (Nat.eqb k n) eqn:E; [|reflexivity]. apply Nat.eqb_eq in E. subst k. rewrite G. reflexivity. }
    set (inh1 := if memq (nsym nd) inh then delq (nsym nd) inh else inh).
    destruct (IH w1 inh1 N2) as (w' & inh' & E & E1 & E2 & E3 & E4).
    { intros k I. rewrite GN. destruct (Nat.eqb k n); [eauto|]. apply AL. right. exact I. }
    { rewrite SY. exact S2. }
    exists w', inh'. split; [exact E|]. split; [exact E1|]. split; [exact E2|].
    assert (INH : forall u, u <> nsym nd -> memq u inh1 = memq u inh).
    { intros u NE. unfold inh1. destruct (memq (nsym nd) inh); [|reflexivity]. clear - NE. unfold delq, memq. induction inh as [|a l IH]; [reflexivity|].
      cbn [filter existsb]. destruct (Nat.eqb (nsym nd) a) eqn:F; cbn [negb].
      - apply Nat.eqb_eq in F. subst a. apply Nat.eqb_neq in NE. rewrite NE. exact IH.
      - cbn [existsb]. rewrite IH. reflexivity. }
    split.
    + intros k d Gk. specialize (E3 k). rewrite GN in E3. cbn [existsb]. destruct (Nat.eqb k n) eqn:F.
      * apply Nat.eqb_eq in F. subst k. rewrite G in Gk. injection Gk as <-. cbn [orb]. rewrite (E3 _ eq_refl). f_equal.
        replace (existsb (Nat.eqb n) l) with false; [reflexivity|]. symmetry. apply not_true_is_false. intros X. apply (memq_in n l) in X. contradiction.
      * cbn [orb]. rewrite (E3 d Gk). f_equal. destruct (existsb (Nat.eqb k) l) eqn:X; [|reflexivity]. f_equal. apply INH.
        intros EQ. apply S1. rewrite <- EQ. apply (memq_in k l) in X. unfold syms. apply in_map_iff. exists k. rewrite Gk. auto.
    + rewrite E4, SY. cbn [syms map]. rewrite G. fold (syms w l).
      assert (FF : forall p, filter (fun v => negb (memq v (nsym nd :: p))) inh = filter (fun v => negb (memq v p)) (delq (nsym nd) inh)).
      { intros p. unfold delq. clear. induction inh as [|a l IH]; [reflexivity|]. cbn [filter]. unfold memq in *. cbn [existsb] in *.
        rewrite (Nat.eqb_sym a (nsym nd)). destruct (Nat.eqb (nsym nd) a); cbn [negb orb].
        - exact IH.
        - cbn [filter]. destruct (negb (existsb (Nat.eqb a) p)); [f_equal|]; exact IH. }
      rewrite FF. f_equal. unfold inh1. destruct (memq (nsym nd) inh) eqn:X; [reflexivity|].
      clear - X. unfold delq, memq in *. induction inh as [|a l IH]; [reflexivity|]. cbn [existsb] in X. apply orb_false_iff in X. destruct X as (X1 & X2).
      cbn [filter]. rewrite X1. cbn [negb]. f_equal. exact (IH X2).
Qed.
Lemma good_interface st U s sig : Inv st U -> mods U s <> None -> good st U (Interface s sig).
Proof.
  intros IV A. destruct (mods U s) as [m|] eqn:M; [|congruence]. start. unfold Modules_Steps.good. cbn [step]. unfold on_struct. rewrite GX.
  pose proof (r_table _ _ _ _ RL) as T. set (L := concat (buckets x)).
  assert (INS : forall v, memq v (syms (wd st) L) = match defs m v with Some _ => true | None => false end).
  { intros v. destruct (defs m v) as [e|] eqn:D.
    - destruct (r_undef _ _ _ _ RL v e D) as (n & nd & O & G & V). apply memq_in. unfold syms. apply in_map_iff. exists n. rewrite G. auto.
    - apply not_true_is_false. intros X. apply memq_in in X. unfold syms in X. apply in_map_iff in X. destruct X as (n & E & I).
      destruct (t_alive _ _ _ _ T I) as (nd & G). rewrite G in E. pose proof (r_def _ _ _ _ RL n nd I G). congruence. }
  destruct (reexport_spec L (wd st) sig) as (w' & inh' & E & E1 & E2 & E3 & E4).
  { exact (t_nodup _ _ _ T). }
  { intros n I. exact (t_alive _ _ _ _ T I). }
  { unfold syms. clear INS. assert (H : forall n n' nd nd', In n L -> In n' L -> get_node (wd st) n = Some nd -> get_node (wd st) n' = Some nd' -> nsym nd = nsym nd' -> n = n')
      by exact (t_uniq _ _ _ T). assert (AA : forall n, In n L -> exists nd, get_node (wd st) n = Some nd) by (intros n I; exact (t_alive _ _ _ _ T I)).
    pose proof (t_nodup _ _ _ T) as ND. fold L in ND. clear - H AA ND. induction L as [|n l IH]; [constructor|]. inversion ND; subst. cbn [map]. constructor.
    - intros I. apply in_map_iff in I. destruct I as (k & E & I). destruct (AA n (or_introl eq_refl)) as (d & G). destruct (AA k (or_intror I)) as (d' & G').
      rewrite G, G' in E. rewrite (H k n d' d (or_intror I) (or_introl eq_refl) G' G E) in I. contradiction.
    - apply IH; [intros a b c d I I'; apply H; right; assumption|intros k I; apply AA; right; exact I|assumption]. }
  rewrite E. cbn [bind].
  set (x' := mks (sname x) (buckets x) (total x) inh' (imports x) (accessible x) false (set_binds x)).
  eexists; eexists; eexists. split; [reflexivity|]. split; [exact (does_interface U s sig m M)|]. cbn [wd ca]. split; [|apply cache_flush_ok].
  assert (SAME : forall n nd, get_node (wd st) n = Some nd -> exists nd', get_node (put_struct w' s x') n = Some nd' /\ nsym nd' = nsym nd).
  { intros n nd G. change (get_node (put_struct w' s x') n) with (get_node w' n). rewrite (E3 n nd G). destruct (existsb (Nat.eqb n) L); eauto. }
  eapply R_update with (x := x) (m := m) (x' := x'); eauto.
  - cbn. rewrite E1. reflexivity.
  - intros t y n NE GY OY. change (get_node (put_struct w' s x') n) with (get_node w' n). destruct (R_get _ _ _ _ _ RW GY) as (my & _ & RY).
    destruct (t_alive _ _ _ _ (r_table _ _ _ _ RY) OY) as (d & G). rewrite (E3 n d G), G. f_equal.
    destruct (existsb (Nat.eqb n) L) eqn:X; [|reflexivity]. apply (memq_in n L) in X. exfalso. apply NE. exact (R_own _ _ _ RW t s y x n GY GX OY X).
  - split; try (destruct RL; cbn; congruence).
    + cbn [inherited x' reexports]. rewrite E4. apply filter_ext. intros v. rewrite INS. destruct (defs m v); reflexivity.
    + eapply table_ext; [exact T|]. intros n nd _ G. exact (SAME n nd G).
    + intros n nd O G. change (get_node (put_struct w' s x') n) with (get_node w' n) in G.
      destruct (t_alive _ _ _ _ T O) as (d & Gd). rewrite (E3 n d Gd) in G.
      assert (X : existsb (Nat.eqb n) L = true) by (apply (memq_in n L); exact O). rewrite X in G. injection G as <-.
      cbn [nsym defs]. rewrite (r_def _ _ _ _ RL n d O Gd). reflexivity.
    + intros v e. cbn [defs]. destruct (defs m v) as [e0|] eqn:D; [|discriminate]. intros _.
      destruct (r_undef _ _ _ _ RL v e0 D) as (n & nd & O & G & V). destruct (SAME n nd G) as (d & Gd & Vd). exists n, d. split; [exact O|]. split; [exact Gd|congruence].
  - intros t y n NE GY OY O'. apply NE. exact (R_own _ _ _ RW t s y x n GY GX OY O').
  - intros t I. exact (R_objs _ _ _ RW s m t M I).
Qed.

(** Collecting *)
Lemma free_fold l : forall ns : list (option node), (forall n, In n l -> n < length ns) ->
  length (fold_left (fun l n => set_nth l n None) l ns) = length ns /\
  forall k, nth k (fold_left (fun l n => set_nth l n None) l ns) None = if existsb (Nat.eqb k) l then None else nth k ns None.
Proof.
  induction l as [|n l IH]; intros ns H; cbn [fold_left].
  - split; [reflexivity|intros k; reflexivity].
  - assert (LN : n < length ns) by (apply H; left; reflexivity).
    destruct (IH (set_nth ns n None)) as (L & N).
    { intros k I. rewrite set_nth_length by exact LN. apply H. right. exact I. }
    split; [rewrite L; apply set_nth_length; exact LN|]. intros k. rewrite N. cbn [existsb]. rewrite nth_set_nth by exact LN.
    destruct (Nat.eqb k n); cbn [orb]; [destruct (existsb (Nat.eqb k) l); reflexivity|reflexivity].
Qed.
Lemma drop_has s c j t n : has (invalidate_struct s c) j t n -> has c j t n /\ t <> s.
Proof.
  intros (l & x & E & I & S & N). cbn [invalidate_struct sets] in E. rewrite nth_error_map in E. destruct (nth_error (sets c) j) as [l0|] eqn:E0; [|discriminate].
  injection E as <-. apply in_map_iff in I. destruct I as (y & Y & I). unfold drop in Y. destruct (ls y) as [u|] eqn:SY.
  - destruct (Nat.eqb u s) eqn:F; [subst x; discriminate|]. subst y. rewrite S in SY. injection SY as <-. apply Nat.eqb_neq in F. split; [|exact F].
    exists l0, x. auto.
  - subst y. congruence.
Qed.
Lemma sweep_spec l : forall st, NoDup l -> (forall s, In s l -> get_struct (wd st) s <> None) ->
  (forall s x n, get_struct (wd st) s = Some x -> owns x n -> exists nd, get_node (wd st) n = Some nd) ->
  (forall s s' x x' n, get_struct (wd st) s = Some x -> get_struct (wd st) s' = Some x' -> owns x n -> owns x' n -> s = s') ->
  exists st', sweep st l = Ok st' /\ length (structs (wd st')) = length (structs (wd st)) /\ names (wd st') = names (wd st) /\
    (forall s, get_struct (wd st') s = if existsb (Nat.eqb s) l then None else get_struct (wd st) s) /\
    (forall s x n, ~ In s l -> get_struct (wd st) s = Some x -> owns x n -> get_node (wd st') n = get_node (wd st) n) /\
    length (sets (ca st')) = length (sets (ca st)) /\
    (forall j s n, has (ca st') j s n -> has (ca st) j s n /\ ~ In s l).
Proof.
  induction l as [|a l IH]; intros st ND AL NA OW; cbn [sweep].
  - exists st. split; [reflexivity|]. split; [reflexivity|]. split; [reflexivity|]. split; [reflexivity|]. split; [reflexivity|]. split; [reflexivity|].
    intros j s n H. split; [exact H|intros []].
  - inversion ND as [|? ? N1 N2]; subst. unfold free_structure. destruct (get_struct (wd st) a) as [x|] eqn:GX; [|exfalso; exact (AL a (or_introl eq_refl) GX)].
    cbn [bind]. pose proof (nth_error_nth_none _ _ _ GX) as LA.
    match goal with |- context [sweep ?z l] => set (st1 := z) end.
    destruct (free_fold (concat (buckets x)) (nodes (wd st))) as (FL & FN).
    { intros n I. destruct (NA a x n GX I) as (nd & G). exact (node_lt _ _ _ G). }
    assert (GS : forall t, get_struct (wd st1) t = if Nat.eqb t a then None else get_struct (wd st) t).
    { intros t. unfold get_struct, st1. cbn [wd structs]. apply nth_set_nth. exact LA. }
    assert (KEEP : forall t y n, t <> a -> get_struct (wd st) t = Some y -> owns y n -> get_node (wd st1) n = get_node (wd st) n).
    { intros t y n NE GY O. unfold get_node, st1. cbn [wd nodes]. rewrite FN. destruct (existsb (Nat.eqb n) (concat (buckets x))) eqn:X; [|reflexivity].
      apply (memq_in n) in X. exfalso. apply NE. exact (OW t a y x n GY GX O X). }
    destruct (IH st1 N2) as (st' & E & E1 & E2 & E3 & E4 & E5 & E6).
    { intros t I. rewrite GS. destruct (Nat.eqb t a) eqn:F; [apply Nat.eqb_eq in F; subst t; contradiction|]. apply AL. right. exact I. }
    { intros t y n. rewrite GS. destruct (Nat.eqb t a) eqn:F; [discriminate|]. apply Nat.eqb_neq in F. intros GY O. rewrite (KEEP t y n F GY O). exact (NA t y n GY O). }
    { intros t t' y y' n. rewrite !GS. destruct (Nat.eqb t a); [discriminate|]. destruct (Nat.eqb t' a); [discriminate|]. exact (OW t t' y y' n). }
    exists st'. split; [exact E|]. split; [rewrite E1; unfold st1; cbn [wd structs]; apply set_nth_length; exact LA|]. split; [rewrite E2; reflexivity|]. split; [|split; [|split]].
    + intros t. rewrite E3, GS. cbn [existsb]. destruct (Nat.eqb t a); cbn [orb]; [destruct (existsb (Nat.eqb t) l); reflexivity|reflexivity].
    + intros t y n NI GY O. assert (NE : t <> a) by (intros ->; apply NI; left; reflexivity).
      rewrite <- (KEEP t y n NE GY O). apply (E4 t y n); [intros I; apply NI; right; exact I| |exact O].
      rewrite GS. apply Nat.eqb_neq in NE. rewrite NE. exact GY.
    + rewrite E5. unfold st1. cbn [ca invalidate_struct sets]. apply map_length.
    + intros j t n H. destruct (E6 j t n H) as (H1 & NI). apply drop_has in H1. destruct H1 as (H1 & NE). split; [exact H1|].
      intros [->|I]; [congruence|exact (NI I)].
Qed.
Lemma good_collect st U l : Inv st U -> allowed U (Collect l) -> good st U (Collect l).
Proof.
  intros (RW & C) (ND & AL & NC & NE). unfold Modules_Steps.good. cbn [step].
  destruct (sweep_spec l st ND) as (st' & E & E1 & E2 & E3 & E4 & E5 & E6).
  { intros s I G. specialize (AL s I). destruct (mods U s) as [m|] eqn:M; [|congruence]. destruct (R_mod _ _ _ RW s m M) as (x & GX & _). congruence. }
  { intros s x n GX O. destruct (R_get _ _ _ _ _ RW GX) as (m & _ & RL). exact (t_alive _ _ _ _ (r_table _ _ _ _ RL) O). }
  { exact (R_own _ _ _ RW). }
  rewrite E. cbn [bind]. eexists; eexists; eexists. split; [reflexivity|]. split; [apply does_collect|].
  assert (IL : forall s, existsb (Nat.eqb s) l = true <-> In s l) by (intros s; apply (memq_in s l)).
  assert (OUT : forall s, ~ In s l -> existsb (Nat.eqb s) l = false) by (intros s H; apply not_true_is_false; rewrite IL; exact H).
  assert (ALIVE : forall s, ~ In s l -> mods U s <> None -> mods (mku (count U) (fun t => if existsb (Nat.eqb t) l then None else mods U t) (called U)) s <> None)
    by (intros s H M; cbn; rewrite (OUT s H); exact M).
  assert (SAME : forall s x n nd, ~ In s l -> get_struct (wd st) s = Some x -> owns x n -> get_node (wd st) n = Some nd -> get_node (wd st') n = Some nd)
    by (intros s x n nd H GX O G; rewrite (E4 s x n H GX O); exact G).
  split.
  - split.
    + cbn [count]. rewrite E1. exact (R_count _ _ _ RW).
    + intros s m. cbn [mods]. rewrite E3. destruct (existsb (Nat.eqb s) l) eqn:X; [discriminate|]. intros M.
      assert (NI : ~ In s l) by (rewrite <- IL, X; discriminate).
      destruct (R_mod _ _ _ RW s m M) as (x & GX & RL). exists x. split; [exact GX|]. destruct RL. split; auto.
      * eapply table_ext; [eassumption|]. intros n nd I G. exists nd. split; [exact (SAME s x n nd NI GX I G)|reflexivity].
      * intros n nd I G. apply (r_def n nd I). rewrite <- G. symmetry. exact (E4 s x n NI GX I).
      * intros v e D. destruct (r_undef v e D) as (n & nd & O & G & V). exists n, nd. split; [exact O|]. split; [exact (SAME s x n nd NI GX O G)|exact V].
    + intros s x. cbn [mods]. rewrite E3. destruct (existsb (Nat.eqb s) l); [discriminate|]. exact (R_struct _ _ _ RW s x).
    + intros n. cbn [called]. rewrite <- (R_called _ _ _ RW n). unfold get_structure. rewrite E2. reflexivity.
    + intros n s T. apply ALIVE; [exact (NC n s T)|exact (R_names _ _ _ RW n s T)].
    + intros s m t. cbn [mods]. destruct (existsb (Nat.eqb s) l) eqn:X; [discriminate|]. intros M I. apply ALIVE; [|exact (R_objs _ _ _ RW s m t M I)].
      apply (NE s t); [exists m, (ByObj t); auto|rewrite <- IL, X; discriminate].
    + intros s s' x x' n. rewrite !E3. destruct (existsb (Nat.eqb s) l); [discriminate|]. destruct (existsb (Nat.eqb s') l); [discriminate|]. exact (R_own _ _ _ RW s s' x x' n).
  - split; [rewrite E5; exact (proj1 C)|]. intros j s n H. destruct (E6 j s n H) as (H1 & NI). pose proof (proj2 C _ _ _ H1) as LO.
    apply (line_keep hash (wd st) (wd st') U _ j s n (fun t => ~ In t l) (fun t => ~ In t l)); auto.
    + intros a m QA M. exists m. cbn [mods]. rewrite (OUT a QA). auto.
    + intros a m i QA M I. split; [destruct i; reflexivity|]. intros t T. apply (NE a t); [exists m, i; auto|exact QA].
    + intros nd a m m' _ PA M. cbn [mods]. rewrite (OUT a PA), M. intros X. injection X as <-. unfold shape. destruct (defs m (nsym nd)); reflexivity.
    + intros o x nd PO GX O G. exists x, nd. rewrite E3, (OUT o PO). split; [exact GX|]. split; [exact O|]. split; [exact (SAME o x n nd PO GX O G)|reflexivity].
Qed.

(** * Programs *)
Lemma step_good st U o : Inv st U -> allowed U o -> good st U o.
Proof.
  intros IV A. destruct o; cbn [allowed] in A.
  - apply good_make; assumption.
  - apply good_name; assumption.
  - apply good_define; assumption.
  - apply good_set; assumption.
  - apply good_undefine; tauto.
  - apply good_interface; assumption.
  - apply good_export; assumption.
  - apply good_open; tauto.
  - apply good_access; assumption.
  - apply good_immutable; assumption.
  - apply good_export_all; tauto.
  - apply good_set_binds; assumption.
  - apply good_ref; assumption.
  - apply good_extref; assumption.
  - apply good_immutable_p; assumption.
  - apply good_exports_p; assumption.
  - contradiction.
  - contradiction.
  - apply good_collect; assumption.
Qed.
Lemma run_good ops : forall st U, Inv st U -> proper U ops ->
  exists l st' U', run hash st ops = Ok (l, st') /\ meaning U ops l U' /\ Inv st' U'.
Proof.
  induction ops as [|o ops IH]; intros st U IV P; cbn [run].
  - exists [], st, U. split; [reflexivity|]. split; [constructor|exact IV].
  - inversion P as [|? ? A N]; subst. destruct (step_good st U o IV A) as (a & st1 & U1 & E & D & R1 & C1).
    destruct (IH st1 U1 (conj R1 C1) (N a U1 D)) as (l & st2 & U2 & E2 & M & IV2).
    rewrite E. cbn [bind]. rewrite E2. cbn [bind]. exists (a :: l), st2, U2. split; [reflexivity|]. split; [econstructor; eassumption|exact IV2].
Qed.
Lemma init_inv : Inv initial nothing.
Proof.
  split.
  - split.
    + reflexivity.
    + intros s m M. discriminate M.
    + intros s x G. unfold get_struct in G. cbn in G. destruct s; discriminate G.
    + reflexivity.
    + intros n s H. discriminate H.
    + intros s m t M. discriminate M.
    + intros s s' x x' n G. unfold get_struct in G. cbn in G. destruct s; discriminate G.
  - split; [reflexivity|]. intros j s n H. exfalso. exact (has_flush (mkc [] 0%Z) j s n H).
Qed.
End Hash.
