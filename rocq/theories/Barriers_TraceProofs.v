(* Entering and leaving alternate. *)
From Coq Require Import ZArith List Bool Lia ZifyBool Sorted.
Import ListNotations.
From Verif Require Import Barriers_Model Barriers_Spec Barriers_Proofs.
Open Scope Z_scope.

Definition alternates (tr : list obs) : Prop := forall x o y, tr = x ++ o :: y -> allowed y o.
Lemma alternates_cons : forall o tr, alternates tr -> allowed tr o -> alternates (o :: tr).
Proof. intros o tr A H x p y E. destruct x as [| z x]; injection E as <- E; [subst; auto | eapply A; eauto]. Qed.

Definition mem (n : nat) (l : list barrier) : bool := existsb (fun b => Nat.eqb (bid b) n) l.
Lemma mem_in : forall n l, mem n l = true <-> exists b, In b l /\ bid b = n.
Proof. intros. unfold mem. rewrite existsb_exists. split; intros (b & I & E); exists b; split; auto; now apply Nat.eqb_eq. Qed.

Lemma outs_alt : forall l tr, NoDup (map bid l) -> alternates tr -> (forall b, In b l -> full b = true -> inside tr (bid b) = true) ->
  alternates (rev (map OOut l) ++ tr) /\ forall n, inside (rev (map OOut l) ++ tr) n = if mem n l then false else inside tr n.
Proof.
  induction l as [| b l IH]; intros tr ND A H; [auto |]. cbn [map rev]. rewrite <- app_assoc. cbn [app]. inversion ND as [| ? ? N1 N2]; subst.
  destruct (IH (OOut b :: tr)) as [I1 I2]; auto.
  - apply alternates_cons; auto. cbn. apply H. left; auto.
  - intros c I F. cbn. destruct (Nat.eqb_spec (bid b) (bid c)) as [E | E]; [exfalso; apply N1; rewrite E; apply in_map; auto | apply H; [right |]; auto].
  - split; auto. intros n. rewrite I2. cbn. unfold mem. cbn. destruct (existsb _ l); [now rewrite orb_true_r |]. rewrite orb_false_r. reflexivity.
Qed.
Lemma ins_alt : forall l tr, NoDup (map bid l) -> alternates tr -> (forall b, In b l -> full b = true -> inside tr (bid b) = false) ->
  alternates (rev (map OIn l) ++ tr) /\ forall n, inside (rev (map OIn l) ++ tr) n = if mem n l then true else inside tr n.
Proof.
  induction l as [| b l IH]; intros tr ND A H; [auto |]. cbn [map rev]. rewrite <- app_assoc. cbn [app]. inversion ND as [| ? ? N1 N2]; subst.
  destruct (IH (OIn b :: tr)) as [I1 I2]; auto.
  - apply alternates_cons; auto. cbn. apply H. left; auto.
  - intros c I F. cbn. destruct (Nat.eqb_spec (bid b) (bid c)) as [E | E]; [exfalso; apply N1; rewrite E; apply in_map; auto | apply H; [right |]; auto].
  - split; auto. intros n. rewrite I2. cbn. unfold mem. cbn. destruct (existsb _ l); [now rewrite orb_true_r |]. rewrite orb_false_r. reflexivity.
Qed.

Record alt (s : st) : Prop := mkAlt {
  a_alt : alternates (trace s);
  a_in : forall l b, In l (lists s) -> In b l -> full b = true -> (inside (trace s) (bid b) = true <-> In b (cur s));
  a_new : forall n, (next s <= n)%nat -> inside (trace s) n = false
}.

Lemma own_nodup : forall l, own l l -> NoDup (map bid l).
Proof.
  induction l as [| b l IH]; intros O; constructor.
  - intros I. apply in_map_iff in I. destruct I as (c & E & I). apply in_split in I. destruct I as (x & y & I).
    pose proof (O [] b l (b :: x) c y eq_refl ltac:(now rewrite I) (eq_sym E)) as X. injection X as _ X. rewrite X in I.
    apply (f_equal (@length barrier)) in I. rewrite app_length in I. cbn in I. lia.
  - apply IH. apply own_tl with b. apply own_sym. apply own_tl with b. auto.
Qed.
Lemma nodup_sub : forall (f : barrier -> bool) l, NoDup (map bid l) -> NoDup (map bid (filter f l)).
Proof.
  induction l as [| b l IH]; intros N; cbn; auto. inversion N as [| ? ? N1 N2]; subst. destruct (f b); auto. cbn. constructor; auto.
  intros I. apply N1. apply in_map_iff in I. destruct I as (c & E & I). apply filter_In in I. apply in_map_iff. exists c. tauto.
Qed.
Lemma nodup_app : forall (a b : list nat), NoDup (a ++ b) -> NoDup a.
Proof. induction a as [| x a IH]; intros b N; [constructor |]. inversion N as [| ? ? N1 N2]; subst. constructor; [rewrite in_app_iff in N1; tauto | eauto]. Qed.

Lemma alt_init : alt init.
Proof. constructor; cbn; auto; [intros x o y E; destruct x; discriminate | intros l b [<- | []] []]. Qed.

Lemma alt_log : forall s o cs br, alt s -> map chain cs = map chain (conts s) -> match o with ORefused _ | OInvalid _ | ONoRoot => True | _ => False end ->
  alt (mkSt (cur s) cs (next s) (o :: trace s) br).
Proof.
  intros s o cs br [A1 A2 A3] E O. constructor; cbn.
  - apply alternates_cons; auto. destruct o; cbn; auto; contradiction.
  - unfold lists. cbn. rewrite E. intros l b I J F. rewrite <- (A2 l b I J F). destruct o; try contradiction; reflexivity.
  - intros n L. rewrite <- (A3 n L). destruct o; try contradiction; reflexivity.
Qed.

Lemma alt_step : forall s e, inv s -> fits s e -> honest s e -> alt s -> alt (step s e).
Proof.
  intros s e V F H A. unfold step. destruct (broken s) eqn:BR; auto. destruct e.
  - set (b := mkB (next s) p cl i o). destruct A as [A1 A2 A3]. constructor; cbn [trace next cur].
    + apply alternates_cons; auto. intros _. apply A3. cbn. lia.
    + intros l x I J FX. cbn [inside]. change (bid b) with (next s). destruct (Nat.eqb_spec (next s) (bid x)) as [E | E].
      * split; auto. intros _. left. destruct I as [<- | I].
        -- destruct J as [<- | J]; auto. pose proof (v_next _ V (cur s) x ltac:(left; auto) J). lia.
        -- pose proof (v_next _ V l x ltac:(right; auto) J). lia.
      * assert (K : inside (trace s) (bid x) = true <-> In x (cur s)).
        { destruct I as [<- | I]; [destruct J as [<- | J]; [contradiction E; auto |]; apply (A2 (cur s)); auto; left; auto | apply (A2 l); auto; right; auto]. }
        rewrite K. split; [right; auto |]. intros [X | X]; [subst x; contradiction E; auto | auto].
    + intros n L. cbn. destruct (Nat.eqb_spec (next s) n); [lia |]. apply A3. lia.
  - destruct (cur s) as [| b r] eqn:E; auto.
    assert (CH : map chain (if closed b then map (invalidate b) (conts s) else conts s) = map chain (conts s)).
    { destruct (closed b); auto. rewrite map_map. apply map_ext. apply invalidate_chain. }
    assert (IC : In (b :: r) (lists s)) by (rewrite <- E; left; auto).
    destruct A as [A1 A2 A3]. rewrite E in A2. constructor; unfold lists; cbn [trace next cur conts].
    + apply alternates_cons; auto. intros FB. apply (A2 (b :: r) b); auto; left; auto.
    + rewrite CH. intros l x I J FX. cbn [inside].
      assert (K : inside (trace s) (bid x) = true <-> In x (b :: r)).
      { destruct I as [<- | I]; [apply (A2 (b :: r)); auto; right; auto | apply (A2 l); auto; right; auto]. }
      assert (NB : ~ In b r). { intros X. pose proof (v_sorted _ V _ IC) as S. inversion S as [| ? ? H1 H2]; subst. rewrite Forall_forall in H2. specialize (H2 b X). lia. }
      destruct (Nat.eqb_spec (bid b) (bid x)) as [EB | EB].
      * split; [discriminate |]. intros X. exfalso. apply NB.
        assert (b = x); [| subst; auto]. apply (own_in (b :: r) (b :: r)); auto; [apply (v_own _ V); auto | left; auto | right; auto].
      * rewrite K. split; [| right; auto]. intros [<- | X]; [contradiction EB; auto | auto].
    + intros n L. cbn. destruct (Nat.eqb (bid b) n); auto.
  - destruct (root (cur s)) as [r |] eqn:R.
    + destruct A as [A1 A2 A3]. constructor; cbn [trace next cur conts]; auto. unfold lists. cbn [cur conts].
      intros l x I J FX. assert (IL : In l (lists s)).
      { destruct I as [<- | I]; [left; auto |]. rewrite map_app, in_app_iff in I. destruct I as [I | [<- | []]]; [right; auto | left; auto]. }
      eauto.
    + apply alt_log; cbn; auto.
  - cbn in H. destruct (nth_error (conts s) k) as [c |] eqn:N; auto. assert (I : In c (conts s)) by (eapply nth_error_In; eauto).
    destruct (valid c) eqn:C; [| unfold invoke; rewrite C; apply alt_log; cbn; auto].
    destruct (jump_route s k c V I C (H eq_refl)) as (a & b & m & anc & (R1 & R2 & R3 & R4) & EB & ->). destruct (existsb closed a) eqn:EA; [apply alt_log; cbn; auto |].
    assert (OC : forall x, In x a \/ In x b -> closed x = false).
    { intros x X. destruct (closed x) eqn:Y; auto. destruct X as [X | X]; [assert (existsb closed a = true) by (apply existsb_exists; eauto) | assert (existsb closed b = true) by (apply existsb_exists; eauto)]; congruence. }
    assert (IC : In (cur s) (lists s)) by (left; auto). assert (ID : In (chain c) (lists s)) by (apply chain_in; auto).
    assert (IA : forall x, In x a -> In x (cur s)) by (intros x X; rewrite R1, in_app_iff; auto).
    assert (IB : forall x, In x b -> In x (chain c)) by (intros x X; rewrite R2, in_app_iff; auto).
    assert (ND1 : NoDup (map bid a)). { apply (nodup_app _ (map bid (anc :: m))). rewrite <- map_app, <- R1. apply own_nodup. apply (v_own _ V); auto. }
    assert (ND2 : NoDup (map bid b)). { apply (nodup_app _ (map bid (anc :: m))). rewrite <- map_app, <- R2. apply own_nodup. apply (v_own _ V); auto. }
    destruct A as [A1 A2 A3].
    destruct (outs_alt (filter fout a) (trace s)) as [O1 O2]; auto using nodup_sub.
    { intros x X FX. apply filter_In in X. apply (A2 (cur s)); auto; apply IA; apply X. }
    set (t1 := rev (map OOut (filter fout a)) ++ trace s) in *.
    destruct (ins_alt (filter fin (rev b)) (OJump k :: t1)) as [P1 P2].
    { apply nodup_sub. rewrite map_rev. apply NoDup_rev. auto. }
    { apply alternates_cons; auto. }
    { intros x X FX. apply filter_In in X. destruct X as [X _]. rewrite <- in_rev in X. cbn. rewrite O2. destruct (mem (bid x) _); auto.
      destruct (inside (trace s) (bid x)) eqn:Y; auto. apply (A2 (chain c)) in Y; auto. destruct (R4 x X Y). }
    constructor; cbn [trace next cur conts lists]; auto.
    + intros l x J JX FX. rewrite P2. cbn [inside]. rewrite O2.
      assert (JL : In l (lists s)) by (destruct J as [<- | J]; [auto | right; auto]).
      assert (UN : forall l' y, In l' (lists s) -> In y l' -> bid y = bid x -> y = x) by (intros l' y Y1 Y2 Y3; apply (own_in l' l); auto; apply (v_own _ V); auto).
      destruct (mem (bid x) (filter fin (rev b))) eqn:M1.
      { split; auto. intros _. apply mem_in in M1. destruct M1 as (y & Y & E). apply filter_In in Y. destruct Y as [Y _]. rewrite <- in_rev in Y.
        rewrite <- (UN (chain c) y); auto. }
      destruct (mem (bid x) (filter fout a)) eqn:M2.
      { split; [discriminate |]. intros X. exfalso. apply mem_in in M2. destruct M2 as (y & Y & E). apply filter_In in Y. destruct Y as [Y _].
        apply (R3 y Y). rewrite (UN (cur s) y); auto. }
      rewrite (A2 l x JL JX FX). rewrite R1, R2, !in_app_iff.
      assert (NA : ~ In x a).
      { intros X. assert (M : mem (bid x) (filter fout a) = true); [| congruence]. apply mem_in. exists x. split; auto. apply filter_In. split; auto.
        unfold full in FX. rewrite OC in FX by auto. destruct (fin x), (fout x); auto; discriminate. }
      assert (NB : ~ In x b).
      { intros X. assert (M : mem (bid x) (filter fin (rev b)) = true); [| congruence]. apply mem_in. exists x. split; auto. apply filter_In. rewrite <- in_rev. split; auto.
        unfold full in FX. rewrite OC in FX by auto. destruct (fin x), (fout x); auto; discriminate. }
      tauto.
    + intros n L. rewrite P2. cbn [inside]. rewrite O2. destruct (mem n (filter fin (rev b))) eqn:M1.
      { apply mem_in in M1. destruct M1 as (y & Y & E). apply filter_In in Y. destruct Y as [Y _]. rewrite <- in_rev in Y. pose proof (v_next _ V (chain c) y ID (IB y Y)). lia. }
      destruct (mem n (filter fout a)); auto.
Qed.

Lemma alt_run : forall es s, inv s -> broken s = false -> alt s -> along (fun s e => fits s e /\ honest s e) s es -> alt (run s es).
Proof.
  induction es as [| e es IH]; intros s V B A AL; auto. destruct AL as [[A1 A2] A3]. cbn. apply IH; auto using inv_step, broken_step, alt_step.
Qed.

(* a continuation is invalid exactly when the barrier it needs is gone *)
Definition gone (s : st) : Prop := forall c r, In c (conts s) -> valid c = false -> root (chain c) = Some r -> ~ In r (cur s).
Lemma gone_step : forall s e, inv s -> fits s e -> honest s e -> gone s -> gone (step s e).
Proof.
  intros s e V F H G. unfold step. destruct (broken s) eqn:BR; auto. destruct e.
  - intros c r I C R [X | X]; [| apply (G c r); auto]. apply root_in in R. destruct R as [R _].
    pose proof (v_next _ V (chain c) r (chain_in s c I) R). subst r. cbn in *. lia.
  - destruct (cur s) as [| b l] eqn:E; auto. assert (IC : In (b :: l) (lists s)) by (rewrite <- E; left; auto).
    pose proof (v_sorted _ V _ IC) as S. unfold gone in *. rewrite E in G. cbn [conts cur].
    assert (OLD : forall c r, In c (conts s) -> valid c = false -> root (chain c) = Some r -> ~ In r l) by (intros c r I C R X; apply (G c r I C R); right; auto).
    intros c r I C R. destruct (closed b); [| eauto]. apply in_map_iff in I. destruct I as (d & <- & I). rewrite invalidate_chain in R.
    unfold invalidate in C. rewrite R in C. destruct (Z.eqb_spec (point r) (point b)) as [EP | EP]; [| eauto].
    intros X. inversion S as [| ? ? S1 S2]; subst. rewrite Forall_forall in S2. specialize (S2 r X). lia.
  - destruct (root (cur s)) as [r |] eqn:R; auto. intros c q I C Q. cbn in *. rewrite in_app_iff in I. destruct I as [I | [<- | []]]; [eauto | discriminate].
  - cbn in H. destruct (nth_error (conts s) k) as [c |] eqn:N; auto. assert (I : In c (conts s)) by (eapply nth_error_In; eauto).
    destruct (valid c) eqn:C; [| unfold invoke; rewrite C; exact G].
    destruct (jump_route s k c V I C (H eq_refl)) as (a & b & m & anc & (R1 & R2 & R3 & R4) & EB & ->). destruct (existsb closed a) eqn:EA; [exact G |].
    intros d r J D R. cbn [cur conts] in *. rewrite R2, in_app_iff. intros [X | X]; [| apply (G d r J D R); rewrite R1, in_app_iff; auto].
    apply root_in in R. assert (existsb closed b = true) by (apply existsb_exists; exists r; split; [auto | apply R]). congruence.
Qed.
Lemma gone_run : forall es s, inv s -> gone s -> along (fun s e => fits s e /\ honest s e) s es -> gone (run s es).
Proof. induction es as [| e es IH]; intros s V G A; auto. destruct A as [[A1 A2] A3]. cbn. apply IH; auto using inv_step, gone_step. Qed.

Lemma nested_honest : forall s e, inv s -> nested s e -> honest s e.
Proof.
  intros s e V N. destruct e; auto. cbn in *. destruct (nth_error (conts s) k) as [c |] eqn:E; auto. intros C b d B D P.
  assert (I : In (chain c) (lists s)) by (apply chain_in; eapply nth_error_In; eauto).
  apply near_incl in B. apply near_incl in D. destruct (N C) as [[a X] | [a X]].
  - rewrite (sorted_point (cur s) b d); auto; [apply (v_sorted _ V); left; auto | rewrite X, in_app_iff; auto].
  - rewrite (sorted_point (chain c) b d); auto; [apply (v_sorted _ V); auto | rewrite X, in_app_iff; auto].
Qed.
Lemma nested_plain : forall es s, inv s -> along (fun s e => fits s e /\ nested s e) s es -> along (fun s e => fits s e /\ honest s e) s es.
Proof.
  induction es as [| e es IH]; intros s V A; auto. destruct A as [[A1 A2] A3]. pose proof (nested_honest s e V A2). split; auto. apply IH; auto using inv_step.
Qed.

Lemma jump_thm : forall es k c, plain es -> nth_error (conts (run init es)) k = Some c -> valid c = true -> honest (run init es) (Invoke k) ->
  exists a b common, route (cur (run init es)) (chain c) a b common /\ common <> [] /\ (forall x, In x b -> closed x = false) /\
  let s := run init es in
  let s' := step s (Invoke k) in
  if existsb closed a then cur s' = cur s /\ trace s' = ORefused k :: trace s
  else cur s' = chain c /\ trace s' = rev (map OOut (filter fout a) ++ OJump k :: map OIn (filter fin (rev b))) ++ trace s.
Proof.
  intros es k c P N C H. destruct (inv_run es init inv_init eq_refl P) as [V B]. cbn in H. rewrite N in H.
  destruct (jump_route _ k c V (nth_error_In _ _ N) C (H C)) as (a & b & m & anc & R & EB & J).
  exists a, b, (anc :: m). split; auto. split; [discriminate |]. split.
  { intros x X. destruct (closed x) eqn:Y; auto. assert (existsb closed b = true) by (apply existsb_exists; eauto). congruence. }
  cbn zeta. unfold step. rewrite B, N, J. destruct (existsb closed a); cbn [cur trace]; split; auto.
  rewrite rev_app_distr. cbn [rev]. rewrite <- !app_assoc. reflexivity.
Qed.
Lemma callable_thm : forall es k c, plain es -> nth_error (conts (run init es)) k = Some c ->
  let s := run init es in
  let s' := step s (Invoke k) in
  if callable s c then cur s' = chain c /\ exists x y, trace s' = x ++ OJump k :: y ++ trace s
  else cur s' = cur s /\ (trace s' = ORefused k :: trace s \/ trace s' = OInvalid k :: trace s).
Proof.
  intros es k c P N. destruct (inv_run es init inv_init eq_refl P) as [V B]. cbn zeta. unfold step. rewrite B, N. unfold callable, invoke.
  destruct (valid c) eqn:C; cbn [andb]; [| split; auto]. rewrite (live_true _ c V (nth_error_In _ _ N) C). unfold jump.
  destruct (common_ancestor _ _ _) as [anc |]; cbn [cur trace]; split; eauto.
Qed.
