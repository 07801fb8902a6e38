(** Rewrites of labels and jumps. *)
From Coq Require Import List Arith Bool ZArith Lia.
From Verif Require Import Peephole_Model Peephole_Spec Peephole_SimProofs.
Import ListNotations.

Section Jumps.
Variable sm : sem.
Variable lax : bool.
Local Notation state := (st sm).

(** ** Two labels become one *)
Section Merge.
Variable P R : code.
Variable x y : nat.
Local Notation c1 := (P ++ Lbl x :: Lbl y :: R).
Hypothesis ND : NoDup (labels c1).
Definition rho (l : nat) : nat := if Nat.eqb l y then x else l.
Local Notation ren := (map (ren_i rho)).
Local Notation c2 := (ren P ++ Lbl x :: ren R).

Inductive mm : code -> code -> Prop :=
| mm_p t p : P = p ++ t -> mm (t ++ Lbl x :: Lbl y :: R) (ren t ++ Lbl x :: ren R)
| mm_y : mm (Lbl y :: R) (ren R)
| mm_r t p : R = p ++ t -> mm t (ren t).

Lemma find_ren l (c : code) : find l (ren c) = option_map ren (find l c).
Proof.
  induction c as [|[z|k z|i] c IH]; cbn; auto. destruct (Nat.eqb l z); auto.
Qed.

Lemma merge_find l r1 : find l c1 = Some r1 ->
  exists r2, find (rho l) c2 = Some r2 /\ mm r1 r2.
Proof.
  assert (NX : find x P = None /\ find y P = None /\ find x R = None /\ find y R = None /\ x <> y).
  { rewrite labels_app in ND. cbn in ND.
    assert (ND1 := NoDup_remove_2 _ _ _ ND). rewrite in_app_iff in ND1. cbn in ND1.
    assert (ND2 := NoDup_remove_1 _ _ _ ND). apply NoDup_remove_2 in ND2.
    rewrite in_app_iff in ND2. fold (labels R) in *.
    rewrite !find_none. repeat split; try tauto. intros ->. tauto. }
  destruct NX as (PX & PY & RX & RY & XY).
  unfold rho. rewrite find_app. cbn [find].
  destruct (find l P) as [t|] eqn:FP; intro H.
  - inversion H; subst r1. destruct (Nat.eqb_spec l y) as [->|NY]; [congruence|].
    rewrite find_app, find_ren, FP. cbn [option_map].
    eexists; split; [reflexivity|]. destruct (find_suffix _ _ _ FP) as [p E].
    apply mm_p with (p := p ++ [Lbl l]). rewrite <- app_assoc. exact E.
  - destruct (Nat.eqb_spec l x) as [->|NX].
    + inversion H; subst r1. destruct (Nat.eqb_spec x y) as [|_]; [contradiction|].
      rewrite find_app, find_ren, FP. cbn. rewrite Nat.eqb_refl.
      eexists; split; [reflexivity|]. apply mm_y.
    + destruct (Nat.eqb_spec l y) as [->|NY].
      * inversion H; subst r1. rewrite find_app, find_ren, PX. cbn. rewrite Nat.eqb_refl.
        eexists; split; [reflexivity|]. apply mm_r with (p := []). reflexivity.
      * rewrite find_app, find_ren, FP. cbn. destruct (Nat.eqb_spec l x) as [|_]; [contradiction|].
        rewrite find_ren, H. cbn. eexists; split; [reflexivity|].
        destruct (find_suffix _ _ _ H) as [p E].
        apply mm_r with (p := p ++ [Lbl l]). rewrite <- app_assoc. exact E.
Qed.

Lemma merge_targets r1 r2 : mm r1 r2 -> incl (targets r1) (targets c1).
Proof.
  intros [t p E| |t p E] l; rewrite ?E, !targets_app; cbn; rewrite ?targets_app, !in_app_iff; tauto.
Qed.

Lemma merge_keeps : keeps sm lax c1 c2.
Proof.
  apply general with (rho := rho) (M := mm).
  - apply mm_p with (p := []). reflexivity.
  - apply merge_targets.
  - intros l r1 _. apply merge_find.
  - intros r1 r2 H. destruct H as [[|i t] p E| |[|i t] p E].
    + right. left. exists (Lbl x), (Lbl y :: R), (ren R). repeat split; auto. apply mm_y.
    + right. left. exists i, (t ++ Lbl x :: Lbl y :: R), (ren t ++ Lbl x :: ren R).
      repeat split; auto. apply mm_p with (p := p ++ [i]). rewrite <- app_assoc. exact E.
    + right. right. intros s Hs. destruct R as [|i R'] eqn:ER.
      * exists 2, 1. split; [lia|split; [lia|]]. cbn. constructor.
      * rewrite <- ER in *.
        exists 2, 1. split; [lia|split; [lia|]]. cbn [fst snd]. rewrite ER.
        cbn [map go next step after].
        assert (C : csim sm (rel sm c1 rho mm)
                      (after sm c1 R' (step sm lax i s))
                      (after sm c2 (ren R') (step sm lax (ren_i rho i) (ren_s sm rho s)))).
        { rewrite ren_step. apply after_rel.
          - intros l r1 _. apply merge_find.
          - apply mm_r with (p := [i]). exact ER.
          - apply hok_step; auto. destruct i; cbn [tok]; auto.
            rewrite targets_app, in_app_iff. cbn. rewrite ER. cbn. auto. }
        rewrite ER in C. cbn [map] in C.
        destruct C as [|o|[] [] HR]; [constructor|constructor|constructor; exact HR].
    + left. reflexivity.
    + right. left. exists i, t, (ren t). repeat split; auto.
      apply mm_r with (p := p ++ [i]). rewrite <- app_assoc. exact E.
Qed.
End Merge.

(** ** Jumps to jumps *)
Lemma jump_cases k x y (s : state) : jmp_insn k = true ->
  (exists s', jump sm k x s = Goto x s' /\ jump sm k y s = Goto y s') \/
  jump sm k x s = jump sm k y s.
Proof.
  intro H. destruct s as [[|v st0] ev fs sl w]; destruct k; try discriminate; cbn; eauto;
    destruct (nilp v); eauto.
Qed.

Section Thread.
Variable P R : code.
Variable k : jk.
Variable x : nat.
Local Notation c1 := (P ++ J k x :: R).

Lemma tl_find b l r : is_label b = false -> find l c1 = Some r ->
  exists r2, find l (P ++ b :: R) = Some r2 /\ mloc P [J k x] [b] R r r2.
Proof.
  intros Hb F. apply (loc_find P [J k x] [b] R l r); auto. destruct b; [discriminate|reflexivity|reflexivity].
Qed.

Lemma tl_after b r e : is_label b = false ->
  (exists p, R = p ++ r) -> hok_e sm (fun l => In l (targets c1)) e ->
  csim sm (lrel sm P [J k x] [b] R) (after sm c1 r e) (after sm (P ++ b :: R) r e).
Proof.
  intros Hb [p E] He. rewrite <- (ren_id_e sm e) at 2. apply after_rel; auto.
  - intros l r1 _. apply tl_find, Hb.
  - apply ml_r with (p := p). exact E.
Qed.

Lemma thread_jmp y t : jmp_insn k = true -> find x c1 = Some (J Jmp y :: t) ->
  keeps sm lax c1 (P ++ J k y :: R).
Proof.
  intros Hk F. apply local_jump; [|reflexivity]. intros s Hs.
  assert (Ty : In y (targets c1)).
  { destruct (find_suffix _ _ _ F) as [p E]. rewrite E, targets_app. cbn.
    rewrite in_app_iff. cbn. auto. }
  cbn [step]. destruct (jump_cases k x y s Hk) as [(s' & E1 & E2)|E].
  - exists 1. rewrite E1, E2. cbn [after]. rewrite F. cbn [go next step jump after].
    assert (Hs' : hok sm (fun l => In l (targets c1)) s').
    { assert (G := hok_step sm lax (fun l => In l (targets c1)) (J k x) s).
      cbn [step tok] in G. rewrite E1 in G. apply G; auto.
      rewrite targets_app, in_app_iff. cbn. auto. }
    destruct (find y c1) as [r|] eqn:Fy; [|constructor].
    destruct (tl_find (J k y) _ _ eq_refl Fy) as (r2 & F2 & HM). rewrite F2.
    constructor. repeat split; cbn; auto. symmetry. apply ren_id_s.
  - exists 0. rewrite <- E.
    assert (C := tl_after (J k y) R (jump sm k x s) eq_refl (ex_intro _ [] eq_refl)).
    assert (He : hok_e sm (fun l => In l (targets c1)) (jump sm k x s)).
    { apply (hok_step sm lax _ (J k x) s); auto. cbn.
      rewrite targets_app, in_app_iff. cbn. auto. }
    specialize (C He). cbn [go] in *.
    destruct C as [|o|[] [] HR]; [constructor|constructor|constructor; exact HR].
Qed.

Lemma thread_return t : k = Jmp -> find x c1 = Some (I Return :: t) ->
  keeps sm lax c1 (P ++ I Return :: R).
Proof.
  intros -> F. apply local_jump; [|reflexivity]. intros s Hs. exists 1.
  cbn [step jump after]. rewrite F. cbn [go next step exec].
  destruct (stk s); cbn [after]; constructor.
Qed.

(** {jnp,jtp} X; ... X: <cond. jmp> Y *)
Lemma thread_sem k' y nk new (s : state) :
  (k = Jnp \/ k = Jtp) -> cond_jmp k' = true -> thread k k' = (nk, new) ->
  ~ (k = Jtp /\ k' = Jpn) ->
  jump sm k x s = Done Stuck \/
  (exists s', jump sm k x s = Fall s' /\ frs s' = frs s /\
     forall l, jump sm nk l s = Fall s') \/
  (exists s', jump sm k x s = Goto x s /\ frs s' = frs s /\
     (forall l, jump sm nk l s = Goto l s') /\
     jump sm k' y s = if new then Fall s' else Goto y s').
Proof.
  intros Hk Hk' Ht Hbad. destruct s as [[|v st0] ev fs sl w].
  { left. destruct Hk as [-> | ->]; reflexivity. }
  right. destruct Hk as [-> | ->]; destruct k'; try discriminate;
    try (destruct Hbad; split; reflexivity);
    inversion Ht; subst nk new; unfold jump; cbn [stk];
    destruct (nilp v);
    (left; eexists; split; [reflexivity|split; [reflexivity|intro; reflexivity]]) ||
    (right; eexists; split; [reflexivity|split;
       [|split; [intro; reflexivity|reflexivity]]]; reflexivity).
Qed.

Lemma thread_cond k' y t nk new z T :
  (k = Jnp \/ k = Jtp) -> cond_jmp k' = true ->
  find x c1 = Some (J k' y :: t) ->
  thread k k' = (nk, new) ->
  ~ (k = Jtp /\ k' = Jpn) ->
  (new = true -> t = Lbl z :: T /\ find z c1 = Some T) ->
  keeps sm lax c1 (P ++ J nk (if new then z else y) :: R).
Proof.
  intros Hk Hk' F Ht Hbad Hnew. apply local_jump; [|reflexivity]. intros s Hs.
  set (b := J nk (if new then z else y)).
  assert (GOTO : forall l s', hok sm (fun l => In l (targets c1)) s' ->
     csim sm (lrel sm P [J k x] [b] R)
       (after sm c1 R (Goto l s')) (after sm (P ++ b :: R) R (Goto l s'))).
  { intros l s' Hs'. cbn [after]. destruct (find l c1) as [r|] eqn:Fl; [|constructor].
    destruct (tl_find b _ _ eq_refl Fl) as (r2 & F2 & HM). rewrite F2.
    constructor. repeat split; cbn; auto. symmetry. apply ren_id_s. }
  cbn [step].
  destruct (thread_sem k' y nk new s Hk Hk' Ht Hbad)
    as [E|[(s' & E & Fs & En)|(s' & E & Fs & En & E')]].
  - exists 0. rewrite E. constructor.
  - exists 0. rewrite E. unfold b. cbn [step]. rewrite En. cbn [after go].
    constructor. split; [apply ml_r with (p := []); reflexivity|]. split.
    + symmetry. apply ren_id_s.
    + unfold hok in *. cbn. rewrite Fs. exact Hs.
  - assert (Hs' : hok sm (fun l => In l (targets c1)) s')
      by (unfold hok in *; rewrite Fs; exact Hs).
    destruct new.
    + destruct (Hnew eq_refl) as [-> Fz]. exists 2. rewrite E. cbn [after]. rewrite F.
      cbn [go next step]. rewrite E'. cbn [after next step].
      specialize (GOTO z s' Hs'). cbn [after] in GOTO. rewrite Fz in GOTO.
      unfold b in *. cbn [step]. rewrite En. exact GOTO.
    + exists 1. rewrite E. cbn [after]. rewrite F.
      cbn [go next step]. rewrite E'. specialize (GOTO y s' Hs').
      unfold b in *. cbn [step]. rewrite En. cbn [after] in *.
      destruct (find y c1); exact GOTO.
Qed.
End Thread.
End Jumps.
