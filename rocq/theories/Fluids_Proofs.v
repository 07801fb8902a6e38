(* The list of bindings implements putting back the old values. *)
From Coq Require Import ZArith List Bool Lia ZifyBool.
Import ListNotations.
From Verif Require Import Fluids_Model Fluids_Spec.
Open Scope Z_scope.

(* the cells of l hold the values of g; without the first, those of g with the first saved put back, etc. *)
Fixpoint agree (m : nat -> Z) (gl : nat -> Z) (l : list (nat * nat)) (g : vals) (sv : list (nat * Z)) : Prop :=
  match l, sv with
  | [], [] => forall x, g x = gl x
  | (k, a) :: l, (k', old) :: sv => k = k' /\ g k = m a /\ agree m gl l (set g k old) sv
  | _, _ => False
  end.
Lemma set_same : forall g x v, set g x v x = v.
Proof. intros. unfold set. now rewrite Nat.eqb_refl. Qed.
Lemma set_other : forall g x v y, y <> x -> set g x v y = g y.
Proof. intros. unfold set. apply Nat.eqb_neq in H. now rewrite H. Qed.
Lemma agree_ext : forall m gl l g g' sv, (forall x, g x = g' x) -> agree m gl l g sv -> agree m gl l g' sv.
Proof.
  induction l as [| [k a] l IH]; intros g g' [| [k' o] sv] E A; cbn in *; auto; [intros x; rewrite <- E; auto |].
  destruct A as (A1 & A2 & A3). split; auto. split; [rewrite <- E; auto |]. apply (IH (set g k o)); auto. intros x. unfold set. destruct (Nat.eqb x k); auto.
Qed.
Lemma agree_store : forall m m' gl l g sv, (forall a, In a (map snd l) -> m' a = m a) -> agree m gl l g sv -> agree m' gl l g sv.
Proof.
  induction l as [| [k a] l IH]; intros g [| [k' o] sv] E A; cbn in *; auto. destruct A as (A1 & A2 & A3). split; auto. split; [rewrite E; auto |]. apply IH; auto.
Qed.
Lemma agree_value : forall m gl l g sv x, agree m gl l g sv -> g x = match search l x with Some a => m a | None => gl x end.
Proof.
  induction l as [| [k a] l IH]; intros g [| [k' o] sv] x A; cbn in *; auto; try contradiction. destruct A as (A1 & A2 & A3).
  destruct (Nat.eqb_spec k x) as [E | E]; [subst; auto |]. rewrite <- (IH _ _ x A3). rewrite set_other; auto.
Qed.
Lemma agree_put : forall m gl l g sv x v, NoDup (map snd l) -> agree m gl l g sv ->
  match search l x with Some a => agree (upd m a v) gl l (set g x v) sv /\ In a (map snd l) | None => agree m (upd gl x v) l (set g x v) sv end.
Proof.
  induction l as [| [k a] l IH]; intros g [| [k' o] sv] x v N A; cbn in *; try contradiction.
  - intros y. unfold set, upd. destruct (Nat.eqb y x); auto.
  - destruct A as (A1 & A2 & A3). inversion N as [| ? ? N1 N2]; subst. destruct (Nat.eqb_spec k' x) as [E | E].
    + subst. split; auto. split; auto. split; [rewrite set_same; unfold upd; now rewrite Nat.eqb_refl |].
      apply (agree_store m). { intros b I. unfold upd. destruct (Nat.eqb_spec b a); auto. subst; contradiction. }
      eapply agree_ext; [| exact A3]. intros y. unfold set. destruct (Nat.eqb y x); auto.
    + specialize (IH _ _ x v N2 A3). assert (EX : forall y, set (set g k' o) x v y = set (set g x v) k' o y).
      { intros y. unfold set. destruct (Nat.eqb_spec y x), (Nat.eqb_spec y k'); auto. congruence. }
      destruct (search l x) as [b |].
      * destruct IH as [IH I]. split; auto. split; auto. split; [| eapply agree_ext; eauto].
        rewrite set_other by auto. unfold upd. destruct (Nat.eqb_spec a b); auto. subst; contradiction.
      * split; auto. split; [rewrite set_other by auto; auto | eapply agree_ext; eauto].
Qed.
Lemma agree_undo : forall m gl p l g svp sv, agree m gl (p ++ l) g (svp ++ sv) -> length p = length svp -> agree m gl l (undo g svp) sv.
Proof.
  induction p as [| [k a] p IH]; intros l g [| [k' o] svp] sv A L; try discriminate; auto. cbn in *. destruct A as (A1 & A2 & A3). subst. apply IH; auto.
Qed.

Record good (s : st) : Prop := mkGood { g_nodup : NoDup (map snd (spec s)); g_lt : forall a, In a (map snd (spec s)) -> (a < nxt s)%nat }.
Definition models (s : st) (l : list (nat * nat)) (g : vals) (sv : list (nat * Z)) : Prop := agree (store s) (glob s) l g sv.

Lemma good_suffix : forall s l m, good s -> spec s = m ++ l -> NoDup (map snd l) /\ forall a, In a (map snd l) -> (a < nxt s)%nat.
Proof.
  intros s l m [G1 G2] E. rewrite E, map_app in G1, G2. split.
  - clear - G1. induction (map snd m) as [| x y IH]; auto. inversion G1; auto.
  - intros a I. apply G2. rewrite in_app_iff. auto.
Qed.
Lemma good_nxt : forall s s', good s -> spec s' = spec s -> (nxt s <= nxt s')%nat -> good s'.
Proof. intros s s' [G1 G2] E L. constructor; rewrite E; auto. intros a I. specialize (G2 a I). lia. Qed.
Lemma good_cut : forall s s' l m, good s -> spec s = m ++ l -> spec s' = l -> (nxt s <= nxt s')%nat -> good s'.
Proof. intros s s' l m G E E' L. destruct (good_suffix s l m G E) as [H1 H2]. constructor; rewrite E'; auto. intros a I. specialize (H2 a I). lia. Qed.
Lemma value_models : forall s g sv x, models s (spec s) g sv -> value s x = g x.
Proof. intros. unfold value. symmetry. eapply agree_value; eauto. Qed.
Lemma assign_models : forall s g sv x v, good s -> models s (spec s) g sv -> models (assign s x v) (spec s) (set g x v) sv /\
  spec (assign s x v) = spec s /\ env_of (assign s x v) = env_of s /\ nxt (assign s x v) = nxt s.
Proof.
  intros s g sv x v G M. pose proof (agree_put _ _ _ _ _ x v (g_nodup _ G) M) as P. unfold assign. destruct (search (spec s) x); auto.
  destruct P; auto.
Qed.
Lemma push_models : forall s g sv x v, good s -> models s (spec s) g sv -> models (push s x v) (spec (push s x v)) (set g x v) ((x, g x) :: sv) /\ good (push s x v).
Proof.
  intros s g sv x v [G1 G2] M. split.
  - cbn. split; auto. split; [rewrite set_same; unfold upd; now rewrite Nat.eqb_refl |].
    apply (agree_ext _ _ _ g). { intros y. unfold set. destruct (Nat.eqb_spec y x); subst; auto. }
    apply (agree_store (store s)); auto. intros a I. unfold upd. destruct (Nat.eqb_spec a (nxt s)); auto. specialize (G2 a I). lia.
  - constructor; cbn.
    + constructor; auto. intros I. specialize (G2 _ I). lia.
    + intros a [<- | I]; [lia |]. specialize (G2 a I). lia.
Qed.

(* pushing several *)
Definition undoes (svm : list (nat * Z)) (l : list (nat * Z)) (g : vals) : Prop := forall g' x, undo g' svm x = restore l g g' x.
Lemma bind_app : forall a b g, bind g (a ++ b) = bind (bind g a) b.
Proof. induction a as [| [x v] a IH]; intros; cbn; auto. Qed.
Lemma undoes_cons : forall svm l g x v, undoes svm l (set g x v) -> undoes (svm ++ [(x, g x)]) ((x, v) :: l) g.
Proof.
  intros svm l g x v U g' y. unfold undo. rewrite bind_app. cbn [bind]. fold (undo g' svm). unfold restore. cbn [existsb fst].
  unfold set at 1. rewrite (Nat.eqb_sym y x). destruct (Nat.eqb_spec x y) as [E | E]; cbn [orb]; [subst; auto |]. rewrite U. unfold restore.
  destruct (existsb _ l); auto. apply set_other; auto.
Qed.
(* s1 has m pushed onto s *)
Definition pushed (s s1 : st) (g : vals) (sv : list (nat * Z)) (l : list (nat * Z)) : Prop :=
  good s1 /\ glob s1 = glob s /\ (nxt s <= nxt s1)%nat /\
  exists m svm, spec s1 = m ++ spec s /\ length m = length svm /\ length m = length l /\ undoes svm l g /\ models s1 (spec s1) (bind g l) (svm ++ sv).
Lemma pushed_nil : forall s g sv, good s -> models s (spec s) g sv -> pushed s s g sv [].
Proof. intros s g sv G M. split; auto. split; auto. split; auto. exists [], []. repeat split; auto. Qed.
Lemma pushed_cons : forall s s1 g sv l x v, pushed (push s x v) s1 (set g x v) ((x, g x) :: sv) l -> pushed s s1 g sv ((x, v) :: l).
Proof.
  intros s s1 g sv l x v (G & GL & N & m & svm & E1 & E2 & E3 & U & M). cbn in GL, N, E1. split; auto. split; auto. split; [lia |].
  exists (m ++ [(x, nxt s)]), (svm ++ [(x, g x)]). rewrite <- !app_assoc. cbn [app]. split; auto. rewrite !app_length. cbn. split; [lia |]. split; [lia |]. split; auto using undoes_cons.
Qed.
Lemma push_all_pushed : forall fs vs l s g sv, fluids fs vs = Some l -> good s -> models s (spec s) g sv ->
  exists s1, push_all s fs vs = (s1, true) /\ pushed s s1 g sv l /\ env_of s1 = env_of s.
Proof.
  induction fs as [| [f |] fs IH]; intros [| v vs] l s g sv F G M; try discriminate; cbn [fluids] in F.
  - injection F as <-. exists s. split; auto. split; auto using pushed_nil.
  - destruct (fluids fs vs) as [l' |] eqn:E; [| discriminate]. injection F as <-. destruct (push_models s g sv f v G M) as [M1 G1].
    destruct (IH vs l' (push s f v) (set g f v) ((f, g f) :: sv) E G1 M1) as (s1 & P1 & P2 & P3). exists s1. cbn. split; auto. split; auto using pushed_cons.
Qed.
Lemma bind_all_pushed : forall ps s x g sv, good s -> models s (spec s) g sv ->
  exists s1, bind_all s x ps = (s1, x + Z.of_nat (lexicals ps) + 65536 * Z.of_nat (length (specials ps))) /\ pushed s s1 g sv (specials ps) /\
  exists e, env_of s1 = e ++ env_of s /\ length e = lexicals ps.
Proof.
  induction ps as [| [[sp y] v] ps IH]; intros s x g sv G M.
  - exists s. cbn. split; [f_equal; lia |]. split; [apply pushed_nil; auto |]. exists []. auto.
  - cbn [bind_all]. destruct sp.
    + destruct (push_models s g sv y v G M) as [M1 G1]. destruct (IH (push s y v) (mark_spec x) _ _ G1 M1) as (s1 & P1 & P2 & P3).
      exists s1. split; [rewrite P1; f_equal; unfold mark_spec, lexicals, specials; cbn [filter fst snd negb map length]; lia |]. split; auto.
      unfold specials. cbn [filter fst snd map]. apply pushed_cons. auto.
    + assert (G1 : good (push_lex s)) by (destruct G; constructor; auto).
      destruct (IH (push_lex s) (mark_lex x) g sv G1 M) as (s1 & P1 & P2 & e & P3 & P4).
      exists s1. split; [rewrite P1; f_equal; unfold mark_lex, lexicals, specials; cbn [filter fst snd negb map length]; lia |]. split; [exact P2 |].
      exists (e ++ [0%nat]). rewrite P3, <- app_assoc, app_length, P4. unfold lexicals. cbn. split; auto. lia.
Qed.

(* taking them off *)
Lemma tail_app : forall A (a b : list A), tail (a ++ b) (length a) = Some b.
Proof. induction a; intros; cbn; auto; try (destruct b; reflexivity). Qed.
Lemma tail_le : forall A n (l : list A), (n <= length l)%nat -> tail l n = Some (skipn n l).
Proof. induction n as [| n IH]; intros [| x l] L; cbn in *; auto; [lia | apply IH; lia]. Qed.
Lemma frame_counts : forall a b, fits a b = true -> lex_bindings (Z.of_nat a + 65536 * Z.of_nat b) = Z.of_nat a /\ spec_bindings (Z.of_nat a + 65536 * Z.of_nat b) = Z.of_nat b.
Proof.
  intros a b F. unfold fits in F. unfold lex_bindings, spec_bindings.
  replace (Z.of_nat a + 65536 * Z.of_nat b) with (Z.of_nat a + Z.of_nat b * 65536) by lia.
  rewrite Z_mod_plus_full, Z_div_plus_full, Z.mod_small, Z.div_small by lia. split; auto. rewrite Z.mod_small by lia. lia.
Qed.
Lemma unbind_frame : forall s a b m l, fits a b = true -> spec s = m ++ l -> length m = b -> (a <= length (env_of s))%nat ->
  unbind s (Z.of_nat a + 65536 * Z.of_nat b) = Some (mkSt l (store s) (glob s) (skipn a (env_of s)) (nxt s) (deep s)).
Proof.
  intros s a b m l F E L A. unfold unbind. destruct (frame_counts a b F) as [-> ->]. rewrite !Nat2Z.id, tail_le by auto. rewrite E, <- L, tail_app. reflexivity.
Qed.

(* the stack of frames *)
Inductive frames : list item -> list sitem -> Prop :=
| frames_nil : frames [] []
| frames_frame : forall a sv bs fr, fits a (length sv) = true -> frames bs fr -> frames (Frame (Z.of_nat a + 65536 * Z.of_nat (length sv)) :: bs) (SFrame a sv :: fr)
| frames_handler : forall h bs fr, frames bs fr -> frames (Handler h :: bs) (SHandler h :: fr).
Fixpoint flat (fr : list sitem) : list (nat * Z) :=
  match fr with [] => [] | SFrame _ sv :: r => sv ++ flat r | SHandler _ :: r => flat r end.
Fixpoint lex (fr : list sitem) : nat := match fr with [] => 0 | SFrame a _ :: r => a + lex r | SHandler _ :: r => lex r end%nat.
Fixpoint weight (fr : list sitem) : Z := match fr with [] => 0 | SFrame _ sv :: r => Z.of_nat (length sv) + weight r | SHandler _ :: r => 1 + weight r end.

Record vrel (s : st) (bs : list item) (fr : list sitem) (g : vals) (l : list (nat * nat)) (sv : list (nat * Z)) : Prop := mkV {
  v_frames : frames bs fr;
  v_good : good s;
  v_lex : (lex fr <= length (env_of s))%nat;
  v_spec : exists m, spec s = m ++ l /\ length m = length (flat fr);
  v_models : models s (spec s) g (flat fr ++ sv)
}.

Lemma vrel_unbind : forall s x bs a b fr g l sv, vrel s (Frame x :: bs) (SFrame a b :: fr) g l sv ->
  exists s', unbind s x = Some s' /\ vrel s' bs fr (undo g b) l sv /\ nxt s' = nxt s /\ spec_bindings x = Z.of_nat (length b).
Proof.
  intros s x bs a b fr g l sv [F G L (m & E & LM) M]. inversion F; subst. cbn [flat lex] in *. rewrite app_length in LM.
  assert (E1 : firstn (length b) m ++ (skipn (length b) m ++ l) = spec s) by (rewrite app_assoc, firstn_skipn; auto).
  assert (LF : length (firstn (length b) m) = length b) by (rewrite firstn_length; lia).
  eexists. split; [apply (unbind_frame s a (length b) (firstn (length b) m) (skipn (length b) m ++ l)); auto; lia |]. split; [| split; [reflexivity | apply frame_counts; auto]].
  constructor; cbn [env_of spec nxt store glob]; auto.
  - apply (good_cut s _ (skipn (length b) m ++ l) (firstn (length b) m)); auto.
  - rewrite skipn_length. lia.
  - exists (skipn (length b) m). split; auto. rewrite skipn_length. lia.
  - unfold models in *. cbn [store glob]. rewrite <- E1, <- app_assoc in M. eapply agree_undo; [exact M | auto].
Qed.
Lemma vrel_handler : forall s h bs fr g l sv, vrel s (Handler h :: bs) (SHandler h :: fr) g l sv -> vrel s bs fr g l sv.
Proof. intros s h bs fr g l sv [F G L S M]. inversion F; subst. constructor; auto. Qed.
Lemma vrel_end : forall s g l sv, vrel s [] [] g l sv -> spec s = l /\ models s l g sv.
Proof. intros s g l sv [F G L (m & E & LM) M]. cbn in LM. destruct m; [| discriminate]. cbn in E. rewrite E in M. auto. Qed.
Lemma vrel_unbind_n : forall fr s bs g l sv, vrel s bs fr g l sv ->
  exists s', unbind_n s bs = Some s' /\ vrel s' [] [] (undo_all g fr) l sv /\ nxt s' = nxt s.
Proof.
  induction fr as [| [a b | h] fr IH]; intros s bs g l sv V; pose proof (v_frames _ _ _ _ _ _ V) as F; inversion F; subst; cbn [unbind_n undo_all].
  - exists s. auto.
  - apply vrel_unbind in V. destruct V as (s1 & -> & V & N & _). apply IH in V. destruct V as (s2 & U & V & N'). exists s2. split; auto. split; auto. congruence.
  - apply vrel_handler in V. apply IH in V. auto.
Qed.
Lemma vrel_esc : forall s bs fr g l sv, vrel s bs fr g l sv -> models s l (undo_all g fr) sv.
Proof.
  intros s bs fr g l sv [F G L (m & E & LM) M]. rewrite E in M.
  assert (U : forall fr g, undo_all g fr = undo g (flat fr)).
  { induction fr0 as [| [a b | h] fr0 IH]; intros g0; cbn; auto. rewrite IH. unfold undo. now rewrite bind_app. }
  rewrite U. eapply agree_undo; eauto.
Qed.
Lemma vrel_unwind : forall fr s bs imp g l sv, vrel s bs fr g l sv -> weight fr <= imp ->
  exists s' o, unwind s bs imp = Some (s', o) /\ nxt s' = nxt s /\
  match to_handler g fr with
  | (g', None) => o = None /\ vrel s' [] [] g' l sv
  | (g', Some (h, fr')) => exists bs' imp', o = Some (h, bs', imp') /\ vrel s' bs' fr' g' l sv /\ weight fr' <= imp'
  end.
Proof.
  induction fr as [| [a b | h] fr IH]; intros s bs imp g l sv V W; pose proof (v_frames _ _ _ _ _ _ V) as F; inversion F; subst; cbn [unwind to_handler].
  - exists s, None. auto.
  - apply vrel_unbind in V. destruct V as (s1 & -> & V & N & C). rewrite C. cbn [weight] in W.
    destruct (IH s1 bs0 (imp - Z.of_nat (length b)) _ _ _ V ltac:(lia)) as (s2 & o & U & N' & R). exists s2, o. split; auto. split; [congruence | auto].
  - eexists s, _. split; [reflexivity |]. split; auto. exists bs0, (imp - 1). split; auto. split; [eapply vrel_handler; eauto |]. cbn [weight] in W. lia.
Qed.
Lemma vrel_bottom : forall fr s bs g l sv f, vrel s bs fr g l sv -> first_frame fr = Some f ->
  exists x a b, f = SFrame a b /\ bottom bs = Some (Frame x) /\ spec_bindings x = Z.of_nat (length b) /\
  exists s', unbind_n s (removelast bs) = Some s' /\ vrel s' [Frame x] [f] (undo_all g (removelast fr)) l sv /\ nxt s' = nxt s.
Proof.
  induction fr as [| i fr IH]; intros s bs g l sv f V FF; [discriminate |].
  destruct fr as [| i' fr].
  - destruct i as [a b | h]; [| discriminate]. injection FF as <-. pose proof (v_frames _ _ _ _ _ _ V) as F. inversion F as [| ? ? ? ? F1 F2 |]; subst. inversion F2; subst.
    do 3 eexists. split; [reflexivity |]. split; [reflexivity |]. split; [apply frame_counts; auto |]. exists s. auto.
  - assert (FF' : first_frame (i' :: fr) = Some f) by (destruct i; exact FF).
    pose proof (v_frames _ _ _ _ _ _ V) as F. inversion F as [| a b bs0 fr0 F1 F2 | h bs0 fr0 F2]; subst.
    + apply vrel_unbind in V. destruct V as (s1 & U & V & N & _). destruct (IH _ _ _ _ _ _ V FF') as (x & a' & b' & E1 & E2 & E3 & s2 & E4 & E5 & E6).
      inversion F2; subst; exists x, a', b'; (split; [auto |]; split; [exact E2 |]; split; [auto |]; exists s2; split; [| split; [exact E5 | congruence]]);
        (match goal with |- unbind_n _ (removelast (?a :: ?r)) = _ => change (removelast (a :: r)) with (a :: removelast r) end; cbn [unbind_n]; rewrite U; exact E4).
    + apply vrel_handler in V. destruct (IH _ _ _ _ _ _ V FF') as (x & a' & b' & E1 & E2 & E3 & s2 & E4 & E5 & E6).
      inversion F2; subst; exists x, a', b'; (split; [auto |]; split; [exact E2 |]; split; [auto |]; exists s2; split; [exact E4 | split; [exact E5 | congruence]]).
Qed.

(* outcomes *)
Definition esc (r : result) : bool := match r with Esc _ _ => true | _ => false end.
Definition ends (s : st) (sv : list (nat * Z)) (o : out) (g : vals) (r : result) : Prop :=
  exists s', o = Ok s' r /\ models s' (spec s) g sv /\ (nxt s <= nxt s')%nat /\ (esc r = false -> spec s' = spec s /\ env_of s' = env_of s).
Definition vends (n0 : nat) (l : list (nat * nat)) (sv : list (nat * Z)) (o : out) (g : vals) (r : result) : Prop :=
  exists s', o = Ok s' r /\ models s' l g sv /\ (n0 <= nxt s')%nat /\ (esc r = false -> spec s' = l).

Lemma weight_nonneg : forall fr, 0 <= weight fr.
Proof. induction fr as [| [a b | h] fr IH]; cbn [weight]; lia. Qed.
Lemma weight_zero : forall fr, weight fr <= 0 -> flat fr = [] /\ forall g, undo_all g fr = g /\ to_handler g fr = (g, None).
Proof.
  induction fr as [| [a b | h] fr IH]; cbn [weight]; intros W; [auto | | pose proof (weight_nonneg fr); lia].
  pose proof (weight_nonneg fr). destruct b as [| p b]; [| cbn [length] in W; lia]. destruct IH as [I1 I2]; [cbn [length] in W; lia |]. split; auto.
Qed.

(* a callee's end brings us back *)
Lemma vrel_back : forall s bs fr g l sv s1 g1, vrel s bs fr g l sv -> models s1 (spec s) g1 (flat fr ++ sv) -> spec s1 = spec s -> (nxt s <= nxt s1)%nat ->
  vrel (s_env s1 (env_of s)) bs fr g1 l sv.
Proof.
  intros s bs fr g l sv s1 g1 [F G L (m & E & LM) M] M1 E1 N. constructor; auto.
  - apply (good_nxt s); auto.
  - exists m. cbn. rewrite E1. auto.
  - cbn. rewrite E1. exact M1.
Qed.
Lemma vrel_back_esc : forall s bs fr g l sv s1 g1, vrel s bs fr g l sv -> models s1 (spec s) g1 (flat fr ++ sv) -> (nxt s <= nxt s1)%nat -> models s1 l (undo_all g1 fr) sv.
Proof.
  intros s bs fr g l sv s1 g1 [F G L (m & E & LM) M] M1 N.
  apply (vrel_esc (s_spec (s_env s1 (env_of s)) (spec s)) bs). constructor; auto.
  - apply (good_nxt s); auto.
  - exists m. auto.
Qed.

Lemma start_vrel : forall s g sv e d, good s -> models s (spec s) g sv -> vrel (s_deep (s_env s e) d) [Frame 0] [SFrame 0 []] g (spec s) sv.
Proof.
  intros s g sv e d [G1 G2] M. constructor; cbn; auto.
  - apply (frames_frame 0 [] [] []); [reflexivity | constructor].
  - constructor; auto.
  - lia.
  - exists []. auto.
Qed.

Theorem simulation : forall n,
  (forall d s g sv p g' r, good s -> models s (spec s) g sv -> srun n g p = Some (g', r) -> ends s sv (run n d s p) g' r) /\
  (forall d s bs fr imp g l sv c g' r, vrel s bs fr g l sv -> weight fr <= imp -> vsrun n g fr c = Some (g', r) -> vends (nxt s) l sv (vrun n d s bs imp c) g' r).
Proof.
  induction n as [| n [IH IV]]; [split; intros; discriminate |]. split.
  - intros d s g sv p g' r G M R. destruct p; cbn [srun] in R; cbn [run].
    + injection R as <- <-. exists s. auto.
    + rewrite (value_models s g sv) by auto. eapply IH; eauto.
    + destruct (assign_models s g sv x v G M) as (A1 & A2 & A3 & A4).
      assert (G1 : good (assign s x v)) by (apply (good_nxt s); auto; lia). rewrite <- A2 in A1. destruct (IH d _ _ _ _ _ _ G1 A1 R) as (s' & B1 & B2 & B3 & B4).
      exists s'. rewrite A2 in B2. rewrite A2, A3 in B4. split; auto. split; auto. split; [lia | auto].
    + destruct (Nat.eqb (length fs) (length vs)) eqn:EL; [| eapply IH; eauto].
      assert (CASE : (exists fs', fs = None :: fs' /\ srun n g (k (Throw bad_arg)) = Some (g', r)) \/
        exists l, fluids fs vs = Some l /\ match srun n (bind g l) p with
          | Some (g1, Esc m v) => Some (restore l g g1, Esc m v) | Some (g1, q) => srun n (restore l g g1) (k q) | None => None end = Some (g', r)).
      { destruct fs as [| [f |] fs]; [right | right | left; exists fs; auto]; (destruct (fluids _ vs) as [l |]; [| discriminate]; exists l; split; auto). }
      clear R. destruct CASE as [(fs' & -> & R) | (l & FL & R)].
      * apply Nat.eqb_eq in EL. destruct vs as [| v vs]; [discriminate |]. cbn [push_all]. eapply IH; eauto.
      * destruct (push_all_pushed fs vs l s g sv FL G M) as (s1 & -> & (G1 & GL & N1 & m & svm & E1 & E2 & E3 & U & M1) & EE).
        destruct (srun n (bind g l) p) as [[g2 q] |] eqn:SB; [| discriminate].
        destruct (IH d s1 _ _ _ _ _ G1 M1 SB) as (s2 & -> & M2 & N2 & S2).
        assert (MR : models s2 (spec s) (restore l g g2) sv).
        { rewrite E1 in M2. apply (agree_ext _ _ _ (undo g2 svm)); [apply U |]. eapply agree_undo; eauto. }
        destruct q as [v | v | m' v].
        1, 2: destruct (S2 eq_refl) as [S3 S4];
          assert (G2 : good (s_spec (s_env s2 (env_of s)) (spec s))) by (apply (good_nxt s); auto; cbn; lia);
          destruct (IH d _ _ _ _ _ _ G2 MR R) as (s3 & B1 & B2 & B3 & B4); exists s3; cbn in *; split; [exact B1 |]; split; auto; split; [lia | auto].
        injection R as <- <-. exists s2. split; auto. split; auto. split; [lia | discriminate].
    + destruct (fits (lexicals ps) (length (specials ps))) eqn:FT; [| discriminate].
      assert (G0 : good (s_env s e)) by (destruct G; constructor; auto).
      destruct (bind_all_pushed ps (s_env s e) 0 g sv G0 M) as (s1 & -> & (G1 & GL & N1 & m & svm & E1 & E2 & E3 & U & M1) & el & EE & EL).
      destruct (srun n (bind g (specials ps)) p) as [[g2 q] |] eqn:SB; [| discriminate].
      destruct (IH d s1 _ _ _ _ _ G1 M1 SB) as (s2 & -> & M2 & N2 & S2). cbn in E1, N1.
      assert (MR : models s2 (spec s) (restore (specials ps) g g2) sv).
      { rewrite E1 in M2. apply (agree_ext _ _ _ (undo g2 svm)); [apply U |]. eapply agree_undo; eauto. }
      destruct q as [v | v | m' v].
      1, 2: destruct (S2 eq_refl) as [S3 S4]; rewrite E1 in S3; rewrite EE in S4; rewrite Z.add_0_l;
        rewrite (unbind_frame s2 _ _ m (spec s) FT S3 E3) by (rewrite S4, app_length; lia);
        (assert (G2 : good (mkSt (spec s) (store s2) (glob s2) (env_of s) (nxt s2) (deep s2))) by (apply (good_nxt s); auto; cbn; lia));
        destruct (IH d _ _ _ _ _ _ G2 MR R) as (s3 & B1 & B2 & B3 & B4); exists s3; cbn in *; split; [exact B1 |]; split; auto; split; [lia | auto].
      injection R as <- <-. exists s2. split; auto. split; auto. split; [lia | discriminate].
    + destruct (srun n g p) as [[g2 q] |] eqn:SB; [| discriminate].
      destruct (IH d s _ _ _ _ _ G M SB) as (s2 & -> & M2 & N2 & S2).
      assert (CONT : forall s3 q', s3 = s_env (s_spec s2 (spec s)) (env_of s) -> srun n g2 (k q') = Some (g', r) -> ends s sv (run n d s3 (k q')) g' r).
      { intros s3 q' -> R'. assert (G2 : good (s_env (s_spec s2 (spec s)) (env_of s))) by (apply (good_nxt s); auto; cbn; lia).
        destruct (IH d _ _ _ _ _ _ G2 M2 R') as (s3 & B1 & B2 & B3 & B4). exists s3. cbn in *. split; [exact B1 |]. split; auto. split; [lia | auto]. }
      destruct q as [v | v | m v].
      1, 2: destruct (S2 eq_refl) as [S3 S4]; apply CONT; auto; unfold s_env, s_spec; cbn; rewrite <- S3; reflexivity.
      destruct (Nat.eqb l m); [apply CONT; auto |]. injection R as <- <-. exists s2. auto.
    + destruct (vsrun n g [SFrame 0 []] c) as [[g2 q] |] eqn:SB; [| discriminate].
      pose proof (start_vrel s g sv e (S d) G M) as V. destruct (IV (S d) _ _ _ 0 _ _ _ _ _ _ V ltac:(cbn; lia) SB) as (s2 & -> & M2 & N2 & S2). cbn in N2.
      destruct q as [v | v | m v].
      1, 2: specialize (S2 eq_refl); (assert (G2 : good (s_env s2 (env_of s))) by (apply (good_nxt s); auto; cbn; lia));
        (assert (M3 : models (s_env s2 (env_of s)) (spec (s_env s2 (env_of s))) g2 sv) by (cbn; rewrite S2; exact M2));
        destruct (IH d _ _ _ _ _ _ G2 M3 R) as (s3 & B1 & B2 & B3 & B4); exists s3; cbn in *; rewrite S2 in *; split; [exact B1 |]; split; auto; split; [lia | auto].
      injection R as <- <-. exists s2. split; auto. split; auto. split; [lia | discriminate].
  - intros d s bs fr imp g l sv c g' r V W R.
    assert (ERR : forall s1 g1 v, vrel s1 bs fr g1 l sv -> (nxt s <= nxt s1)%nat ->
      match to_handler g1 fr with (g2, None) => Some (g2, Throw v) | (g2, Some (h, fr')) => vsrun n g2 fr' (h v) end = Some (g', r) ->
      vends (nxt s) l sv (match unwind s1 bs imp with
        | Some (s2, None) => Ok s2 (Throw v) | Some (s2, Some (h, bs', imp')) => vrun n d s2 bs' imp' (h v) | None => Crash end) g' r).
    { intros s1 g1 v V1 N1 R1. destruct (vrel_unwind fr s1 bs imp g1 l sv V1 W) as (s2 & o & -> & N2 & H).
      destruct (to_handler g1 fr) as [g2 [[h fr'] |]].
      - destruct H as (bs' & imp' & -> & V2 & W2). destruct (IV d _ _ _ _ _ _ _ _ _ _ V2 W2 R1) as (s3 & B1 & B2 & B3 & B4). exists s3. split; auto. split; auto. split; [lia | auto].
      - destruct H as [-> V2]. injection R1 as <- <-. apply vrel_end in V2. destruct V2. exists s2. split; auto. split; auto. split; [lia | auto]. }
    assert (STEP : forall s1 bs1 fr1 imp1 g1 c1, vrel s1 bs1 fr1 g1 l sv -> weight fr1 <= imp1 -> (nxt s <= nxt s1)%nat -> vsrun n g1 fr1 c1 = Some (g', r) ->
      vends (nxt s) l sv (vrun n d s1 bs1 imp1 c1) g' r).
    { intros s1 bs1 fr1 imp1 g1 c1 V1 W1 N1 R1. destruct (IV d _ _ _ _ _ _ _ _ _ _ V1 W1 R1) as (s3 & B1 & B2 & B3 & B4). exists s3. split; auto. split; auto. split; [lia | auto]. }
    assert (NEXT : forall s1 g1 q (ks : vals -> Z -> option (vals * result)) (k : st -> Z -> out), models s1 (spec s) g1 (flat fr ++ sv) -> (nxt s <= nxt s1)%nat -> (esc q = false -> spec s1 = spec s) ->
      (forall s2 v, vrel s2 bs fr g1 l sv -> (nxt s <= nxt s2)%nat -> ks g1 v = Some (g', r) -> vends (nxt s) l sv (k s2 v) g' r) ->
      match q with Val v => ks g1 v | Throw v => match to_handler g1 fr with (g2, None) => Some (g2, Throw v) | (g2, Some (h, fr')) => vsrun n g2 fr' (h v) end
        | Esc m v => Some (undo_all g1 fr, Esc m v) end = Some (g', r) ->
      vends (nxt s) l sv (match q with Val v => k (s_env s1 (env_of s)) v
        | Throw v => match unwind (s_env s1 (env_of s)) bs imp with
          | Some (s2, None) => Ok s2 (Throw v) | Some (s2, Some (h, bs', imp')) => vrun n d s2 bs' imp' (h v) | None => Crash end
        | Esc m v => Ok s1 (Esc m v) end) g' r).
    { intros s1 g1 q ks k M1 N1 E1 K R1. destruct q as [v | v | m v].
      - apply K; auto. apply (vrel_back s _ _ g); auto.
      - apply (ERR (s_env s1 (env_of s)) g1 v); auto. apply (vrel_back s _ _ g); auto.
      - injection R1 as <- <-. exists s1. split; auto. split; [eapply vrel_back_esc; eauto |]. split; [auto | discriminate]. }
    destruct c; cbn [vsrun] in R; cbn [vrun].
    + destruct (srun n g p) as [[g2 q] |] eqn:SB; [| discriminate].
      destruct (IH d s _ _ _ _ _ (v_good _ _ _ _ _ _ V) (v_models _ _ _ _ _ _ V) SB) as (s2 & -> & M2 & N2 & S2).
      assert (X := NEXT s2 g2 q (fun g v => vsrun n g fr (k v)) (fun s v => vrun n d s bs imp (k v)) M2 N2 (fun e => proj1 (S2 e))).
      destruct q; apply X; auto; intros; eapply STEP; eauto.
    + apply (STEP s (Frame 0 :: bs) (SFrame 0 [] :: fr) imp g); auto. destruct V as [F G L SP MM]. constructor; auto. apply (frames_frame 0 [] bs fr); auto.
    + destruct fr as [| [a b | h] fr]; try discriminate. destruct (fits (S a) (length b)) eqn:FT; [| discriminate].
      pose proof (v_frames _ _ _ _ _ _ V) as F. inversion F; subst.
      apply (STEP (push_lex s) _ (SFrame (S a) b :: fr) imp g); auto. destruct V as [_ G L SP MM]. constructor; auto.
      * replace (mark_lex _) with (Z.of_nat (S a) + 65536 * Z.of_nat (length b)) by (unfold mark_lex; lia). constructor; auto.
      * destruct G; constructor; auto.
      * cbn in *. lia.
    + destruct fr as [| [a b | h] fr]; try discriminate. destruct (fits a (S (length b))) eqn:FT; [| discriminate].
      pose proof (v_frames _ _ _ _ _ _ V) as F. inversion F; subst.
      destruct V as [_ G L (m & E & LM) MM]. destruct (push_models s g _ x v G MM) as [M1 G1].
      apply (STEP (push s x v) _ (SFrame a ((x, g x) :: b) :: fr) (imp + 1) (set g x v)); auto; [| cbn [weight length] in *; lia | cbn; lia].
      constructor; auto.
      * replace (mark_spec _) with (Z.of_nat a + 65536 * Z.of_nat (length ((x, g x) :: b))) by (unfold mark_spec; cbn [length]; lia). constructor; auto.
      * exists ((x, nxt s) :: m). cbn. rewrite E. cbn in LM. auto.
    + destruct fr as [| [a b | h] fr]; try discriminate. destruct (fits a (S (length b))) eqn:FT; [| discriminate].
      pose proof (v_frames _ _ _ _ _ _ V) as F. inversion F; subst.
      destruct V as [_ G L (m & E & LM) MM]. destruct (push_models s g _ x v G MM) as [M1 G1].
      apply (STEP (push s x v) _ (SFrame a ((x, g x) :: b) :: fr) (imp + 1) (set g x v)); auto; [| cbn [weight length] in *; lia | cbn; lia].
      constructor; auto.
      * replace (mark_spec _) with (Z.of_nat a + 65536 * Z.of_nat (length ((x, g x) :: b))) by (unfold mark_spec; cbn [length]; lia). constructor; auto.
      * exists ((x, nxt s) :: m). cbn. rewrite E. cbn in LM. auto.
    + destruct fr as [| [a b | h] fr]; try discriminate; pose proof (v_frames _ _ _ _ _ _ V) as F; inversion F; subst.
      * apply vrel_unbind in V. destruct V as (s1 & -> & V & N & ->). apply (STEP s1 _ fr _ (undo g b)); auto; [cbn [weight] in W; lia | lia].
      * apply vrel_handler in V. apply (STEP s _ fr imp g); auto. cbn [weight] in W. lia.
    + destruct (first_frame fr) as [f |] eqn:FF; [| discriminate]. destruct (vrel_bottom fr s bs g l sv f V FF) as (x & a & b & -> & -> & C & s1 & -> & V1 & N1).
      rewrite C. apply (STEP s1 _ [SFrame a b] _ (undo_all g (removelast fr))); auto; [cbn [weight]; lia | lia].
    + destruct (vrel_unbind_n fr s bs g l sv V) as (s1 & -> & V1 & N1). apply (STEP s1 [] [] 0 (undo_all g fr)); auto; [cbn; lia | lia].
    + apply (STEP s (Handler h :: bs) (SHandler h :: fr) (imp + 1) g); auto; [| cbn [weight]; lia]. destruct V as [F G L SP MM]. constructor; auto. constructor; auto.
    + apply (ERR s g v); auto.
    + injection R as <- <-. destruct (vrel_unbind_n fr s bs g l sv V) as (s1 & -> & V1 & N1). apply vrel_end in V1. destruct V1 as [E1 E2]. exists s1. split; auto. split; auto. split; [lia | auto].
    + destruct (vsrun n g [SFrame 0 []] c) as [[g2 q] |] eqn:SB; [| discriminate].
      pose proof (start_vrel s g _ e (S d) (v_good _ _ _ _ _ _ V) (v_models _ _ _ _ _ _ V)) as V1.
      destruct (IV (S d) _ _ _ 0 _ _ _ _ _ _ V1 ltac:(cbn; lia) SB) as (s2 & -> & M2 & N2 & S2).
      assert (X := NEXT s2 g2 q (fun g v => vsrun n g fr (k v)) (fun s v => vrun n d s bs imp (k v)) M2 N2 S2).
      destruct q; apply X; auto; intros; eapply STEP; eauto.
    + destruct (vsrun n g [SFrame 0 []] c) as [[g2 q] |] eqn:SB; [| discriminate].
      pose proof (start_vrel s g _ e (S d) (v_good _ _ _ _ _ _ V) (v_models _ _ _ _ _ _ V)) as V1.
      destruct (Z.eqb_spec imp 0) as [I0 | I0].
      * destruct (weight_zero fr ltac:(lia)) as [FL UN].
        assert (V2 : vrel (s_env s e) [Frame 0] [SFrame 0 []] g (spec s) (flat fr ++ sv)).
        { pose proof (start_vrel s g _ e 0 (v_good _ _ _ _ _ _ V) (v_models _ _ _ _ _ _ V)) as X. destruct X; constructor; auto. }
        destruct (IV d _ _ _ 0 _ _ _ _ _ _ V2 ltac:(cbn; lia) SB) as (s2 & -> & M2 & N2 & S2). rewrite FL in M2.
        assert (EL : spec s = l). { destruct (v_spec _ _ _ _ _ _ V) as (m & E & LM). rewrite FL in LM. destruct m; [exact E | discriminate]. }
        exists s2. cbn in N2. rewrite EL in *. destruct (UN g2) as [U1 U2]. rewrite U1, U2 in R.
        destruct q; injection R as <- <-; (split; [reflexivity |]; split; [exact M2 |]; split; [lia | auto]).
      * destruct (IV (S d) _ _ _ 0 _ _ _ _ _ _ V1 ltac:(cbn; lia) SB) as (s2 & -> & M2 & N2 & S2).
        assert (X := NEXT s2 g2 q (fun g v => Some (undo_all g fr, Val v)) (fun s v => match unbind_n s bs with Some s => Ok s (Val v) | None => Crash end) M2 N2 S2).
        assert (KK : forall s3 v3, vrel s3 bs fr g2 l sv -> (nxt s <= nxt s3)%nat -> Some (undo_all g2 fr, Val v3) = Some (g', r) ->
          vends (nxt s) l sv (match unbind_n s3 bs with Some s => Ok s (Val v3) | None => Crash end) g' r).
        { intros s3 v3 V3 N3 R3. injection R3 as <- <-. destruct (vrel_unbind_n fr s3 bs g2 l sv V3) as (s4 & -> & V4 & N4). apply vrel_end in V4. destruct V4 as [E1 E2].
          exists s4. split; auto. split; auto. split; [lia | auto]. }
        destruct q; apply X; auto.
Qed.

Lemma models_exist : forall m gl l g, (forall x, g x = match search l x with Some a => m a | None => gl x end) -> exists sv, agree m gl l g sv.
Proof.
  induction l as [| [k a] l IH]; intros g H; [exists []; exact H |].
  destruct (IH (set g k (match search l k with Some a => m a | None => gl k end))) as [sv A].
  - intros x. unfold set. destruct (Nat.eqb_spec x k) as [E | E]; [subst; auto |]. rewrite H. cbn. destruct (Nat.eqb_spec k x); [congruence | auto].
  - eexists ((k, _) :: sv). cbn. split; auto. split; [| exact A]. rewrite H. cbn. now rewrite Nat.eqb_refl.
Qed.
Lemma wf_good : forall s, wf s -> good s.
Proof. intros s [A B]. constructor; auto. Qed.
Lemma undone : forall n d s p g' r, wf s -> srun n (value s) p = Some (g', r) ->
  exists s', run n d s p = Ok s' r /\ (finished r -> spec s' = spec s /\ env_of s' = env_of s /\ wf s' /\ forall x, value s' x = g' x).
Proof.
  intros n d s p g' r W R. destruct (models_exist (store s) (glob s) (spec s) (value s)) as [sv M]; [reflexivity |].
  destruct (proj1 (simulation n) d s _ sv p g' r (wf_good s W) M R) as (s' & E & M' & N & H). exists s'. split; auto. intros F.
  assert (ES : esc r = false) by (destruct r; [auto | auto | destruct F]). destruct (H ES) as [H1 H2]. split; auto. split; auto. split.
  - destruct W as [W1 W2]. split; rewrite H1; auto. intros a I. specialize (W2 a I). lia.
  - intros x. apply (value_models s' g' sv). rewrite H1. auto.
Qed.

Lemma unbind0 : forall s, unbind s 0 = Some s.
Proof. intros []. reflexivity. Qed.
Lemma loop_run : forall k x n d s, (7 * k < n)%nat ->
  exists s', vrun n d s [Frame 0] 0 (loop false x k) = Ok s' (Val 0) /\ deep s' = deep s.
Proof.
  induction k as [| k IH]; intros x n d s L.
  - destruct n; [lia |]. cbn [loop vrun unbind_n]. rewrite unbind0. eexists. split; reflexivity.
  - do 7 (destruct n as [| n]; [lia |]). cbn [loop]. remember (loop false x k) as lp. remember (S (S n)) as m.
    change (vrun (S (S (S (S (S m))))) d s [Frame 0] 0 (Init (Bind (Do (Get x (fun v => Done (Val v))) (fun _ => Unbind (Tail [] lp))))))
      with (match unbind (s_env (push_lex s) (env_of (push_lex s))) (mark_lex 0) with Some s1 => vrun (S m) d s1 [Frame 0] (0 - spec_bindings (mark_lex 0)) (Tail [] lp) | None => Crash end).
    replace (unbind (s_env (push_lex s) (env_of (push_lex s))) (mark_lex 0)) with (Some s) by (destruct s; reflexivity).
    change (0 - spec_bindings (mark_lex 0)) with 0. cbn [vrun]. destruct (IH x m d (s_env s []) ltac:(lia)) as (s' & E & D).
    exists s'. subst lp. split; auto.
Qed.
(* with a handler before, each call is nested *)
Lemma loop_handler : forall k x n d s, (9 * k < n)%nat -> (d <= deep s)%nat ->
  exists s', vrun n d s [Frame 0] 0 (loop true x k) = Ok s' (Val 0) /\ (d + k <= deep s')%nat.
Proof.
  induction k as [| k IH]; intros x n d s L D.
  - destruct n; [lia |]. cbn [loop vrun unbind_n]. rewrite unbind0. eexists. split; [reflexivity | lia].
  - do 9 (destruct n as [| n]; [lia |]). cbn [loop]. remember (loop true x k) as lp. remember (S (S n)) as m.
    change (vrun (S (S (S (S (S (S (S m))))))) d s [Frame 0] 0 (BindErr (fun w => Raise w) (Unbind (Init (Bind (Do (Get x (fun v => Done (Val v))) (fun _ => Unbind (Tail [] lp))))))))
      with (match unbind (s_env (push_lex s) (env_of (push_lex s))) (mark_lex 0) with Some s1 => vrun (S m) d s1 [Frame 0] (1 - spec_bindings (mark_lex 0)) (Tail [] lp) | None => Crash end).
    replace (unbind (s_env (push_lex s) (env_of (push_lex s))) (mark_lex 0)) with (Some s) by (destruct s; reflexivity).
    change (1 - spec_bindings (mark_lex 0)) with 1. cbn [vrun Z.eqb]. destruct (IH x m (S d) (s_deep (s_env s []) (S d)) ltac:(lia) ltac:(cbn [deep s_deep]; lia)) as (s' & E & H).
    subst lp. rewrite E. cbn [unbind_n]. rewrite unbind0. eexists. split; [reflexivity |]. cbn. lia.
Qed.
