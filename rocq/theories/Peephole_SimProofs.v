(** A simulation argument for programs that differ in one place. *)
From Coq Require Import List Arith Bool ZArith Lia.
From Verif Require Import Peephole_Model Peephole_Spec.
Import ListNotations.

Section Sim.
Variable sm : sem.
Variable lax : bool.
Local Notation state := (st sm).
Local Notation conf := (code * state)%type.

Definition after (c r : code) (e : exit sm) : conf + out sm :=
  match e with
  | Fall s => inl (r, s)
  | Goto l s => match find l c with Some r => inl (r, s) | None => inr Stuck end
  | Done o => inr o
  end.
Definition next (c r : code) (s : state) : conf + out sm :=
  match r with
  | [] => inr Stuck
  | i :: r => after c r (step sm lax i s)
  end.
Fixpoint go (c : code) (k : nat) (r : code) (s : state) : conf + out sm :=
  match k with
  | O => inl (r, s)
  | Datatypes.S k =>
      match next c r s with inl (r, s) => go c k r s | inr o => inr o end
  end.

Lemma run_go n c r s :
  run sm lax n c r s = match go c n r s with inr o => Some o | inl _ => None end.
Proof.
  revert r s. induction n as [|n IH]; intros r s; [reflexivity|].
  cbn [run go next]. destruct r as [|i r]; [reflexivity|].
  cbn [next]. destruct (step sm lax i s) as [s'|l s'|o]; cbn [after]; auto.
  destruct (find l c); auto.
Qed.

Lemma go_add c n m r s :
  go c (n + m) r s = match go c n r s with inl (r, s) => go c m r s | inr o => inr o end.
Proof.
  revert r s. induction n as [|n IH]; intros r s; [reflexivity|].
  cbn [go Nat.add]. destruct (next c r s) as [[r' s']|o]; auto.
Qed.

Lemma go_out c n m r s o : n <= m -> go c n r s = inr o -> go c m r s = inr o.
Proof.
  intros L H. replace m with (n + (m - n)) by lia. rewrite go_add, H. reflexivity.
Qed.

Lemma go_det c n m r s o o' : go c n r s = inr o -> go c m r s = inr o' -> o = o'.
Proof.
  intros H H'. destruct (le_ge_dec n m) as [L|L].
  - rewrite (go_out _ _ _ _ _ _ L H) in H'. congruence.
  - rewrite (go_out _ _ _ _ _ _ L H') in H. congruence.
Qed.

Lemma behaves_go c s o : behaves sm lax c s o <-> exists n, go c n c s = inr o.
Proof.
  unfold behaves. split; intros [n H]; exists n; rewrite run_go in *;
    destruct (go c n c s); congruence.
Qed.

(** ** Related configurations *)
Section Rel.
Variable c1 c2 : code.
Variable R : conf -> conf -> Prop.

Inductive csim : conf + out sm -> conf + out sm -> Prop :=
| cs_stuck y : csim (inr Stuck) y
| cs_out o : csim (inr o) (inr o)
| cs_conf a b : R a b -> csim (inl a) (inl b).

Definition adv (a b : conf) : Prop :=
  exists n1 n2, 1 <= n1 /\ 1 <= n2 /\
  csim (go c1 n1 (fst a) (snd a)) (go c2 n2 (fst b) (snd b)).

Hypothesis Radv : forall a b, R a b -> adv a b.

Definition dead (a : conf) := exists n, go c1 n (fst a) (snd a) = inr Stuck.

Lemma sim_forth n : forall a b o, R a b -> go c1 n (fst a) (snd a) = inr o ->
  dead a \/ exists m, go c2 m (fst b) (snd b) = inr o.
Proof.
  induction n as [n IH] using lt_wf_ind. intros a b o H G.
  destruct (Radv _ _ H) as (n1 & n2 & L1 & L2 & C).
  destruct (le_gt_dec n n1) as [L|L].
  - rewrite (go_out _ _ _ _ _ _ L G) in C. inversion C; subst.
    + left. exists n. exact G.
    + right. exists n2. congruence.
  - replace n with (n1 + (n - n1)) in G by lia. rewrite go_add in G.
    inversion C as [y E1 E2|o' E1 E2|a' b' HR E1 E2].
    + left. exists n1. auto.
    + rewrite <- E1 in G. inversion G; subst. right. exists n2. auto.
    + rewrite <- E1 in G. destruct a' as [r1 s1].
      destruct (IH (n - n1) ltac:(lia) _ _ _ HR G) as [[m D]|[m D]].
      * left. exists (n1 + m). rewrite go_add, <- E1. exact D.
      * right. exists (n2 + m). rewrite go_add, <- E2. destruct b'. exact D.
Qed.

Lemma sim_back n : forall a b o, R a b -> go c2 n (fst b) (snd b) = inr o ->
  dead a \/ exists m, go c1 m (fst a) (snd a) = inr o.
Proof.
  induction n as [n IH] using lt_wf_ind. intros a b o H G.
  destruct (Radv _ _ H) as (n1 & n2 & L1 & L2 & C).
  destruct (le_gt_dec n n2) as [L|L].
  - rewrite (go_out _ _ _ _ _ _ L G) in C.
    inversion C as [y E1 E2|o' E1 E2|a' b' HR E1 E2]; subst.
    + left. exists n1. auto.
    + right. exists n1. congruence.
  - replace n with (n2 + (n - n2)) in G by lia. rewrite go_add in G.
    inversion C as [y E1 E2|o' E1 E2|a' b' HR E1 E2].
    + left. exists n1. auto.
    + rewrite <- E2 in G. inversion G; subst. right. exists n1. auto.
    + rewrite <- E2 in G. destruct b' as [r2 s2].
      destruct (IH (n - n2) ltac:(lia) _ _ _ HR G) as [[m D]|[m D]].
      * left. exists (n1 + m). rewrite go_add, <- E1. destruct a'. exact D.
      * right. exists (n1 + m). rewrite go_add, <- E1. destruct a'. exact D.
Qed.

Lemma sim_iff s1 s2 o :
  R (c1, s1) (c2, s2) -> ~ behaves sm lax c1 s1 Stuck ->
  (behaves sm lax c1 s1 o <-> behaves sm lax c2 s2 o).
Proof.
  intros H D. rewrite !behaves_go. rewrite behaves_go in D.
  split; intros [n G].
  - destruct (sim_forth n _ _ _ H G) as [E|E]; [contradiction (D E)|exact E].
  - destruct (sim_back n _ _ _ H G) as [E|E]; [contradiction (D E)|exact E].
Qed.
End Rel.

Lemma csim_mono (R R' : conf -> conf -> Prop) x y :
  (forall a b, R a b -> R' a b) -> csim R x y -> csim R' x y.
Proof. intros H C. destruct C; constructor; auto. Qed.

(** ** Renaming the labels jumps go to *)
Section Rename.
Variable rho : nat -> nat.
Definition ren_i (i : item) : item := match i with J k l => J k (rho l) | _ => i end.
Definition ren_f (f : frame) : frame := match f with Hd l h => Hd (rho l) h | _ => f end.
Definition ren_s (s : state) : state :=
  {| stk := stk s; env := env s; frs := map ren_f (frs s); slots := slots s; wd := wd s |}.
Definition ren_e (e : exit sm) : exit sm :=
  match e with
  | Fall s => Fall (ren_s s)
  | Goto l s => Goto (rho l) (ren_s s)
  | Done o => Done o
  end.

Lemma ren_unwind v fs : forall ev k sl w,
  unwind sm v (map ren_f fs) ev k sl w = ren_e (unwind sm v fs ev k sl w).
Proof. induction fs as [|[n us|l h] fs IH]; intros; cbn; auto. Qed.

Lemma ren_raise v s : raise sm v (ren_s s) = ren_e (raise sm v s).
Proof. unfold raise. cbn. apply ren_unwind. Qed.

Lemma ren_fail v s : fail sm lax v (ren_s s) = ren_e (fail sm lax v s).
Proof. unfold fail. destruct lax; [reflexivity|apply ren_raise]. Qed.

Lemma ren_unbind1 f ev w : unbind1 sm (ren_f f) ev w = unbind1 sm f ev w.
Proof. destruct f; reflexivity. Qed.

Lemma ren_unbind_all fs : forall ev w,
  unbind_all sm (map ren_f fs) ev w = unbind_all sm fs ev w.
Proof.
  induction fs as [|f fs IH]; intros ev w; [reflexivity|].
  cbn [map unbind_all]. rewrite ren_unbind1.
  destruct (unbind1 sm f ev w). apply IH.
Qed.

Lemma ren_unbind_but fs : forall ev w,
  unbind_but sm (map ren_f fs) ev w =
  match unbind_but sm fs ev w with
  | Some (fs, ev, w) => Some (map ren_f fs, ev, w) | None => None end.
Proof.
  induction fs as [|f [|g fs] IH]; intros ev w; [reflexivity|reflexivity|].
  cbn [map unbind_but] in *. rewrite ren_unbind1.
  destruct (unbind1 sm f ev w). apply IH.
Qed.

Lemma ren_exec i s : exec sm lax i (ren_s s) = ren_e (exec sm lax i s).
Proof.
  destruct s as [k ev fs sl w].
  destruct i; cbn [exec]; unfold op0, op1, op2, op1e, op2e; cbn [stk env frs slots wd ren_s];
  try (repeat match goal with
       | |- context [match ?x with _ => _ end] =>
           match type of x with
           | list val => destruct x
           | option val => destruct x
           | bool => destruct x
           end end; try reflexivity;
       (etransitivity; [|apply ren_fail]; reflexivity)).
  - destruct k as [|x k]; [reflexivity|].
    destruct fs as [|[]]; reflexivity.
  - destruct fs; reflexivity.
  - destruct fs as [|f fs]; [reflexivity|]. cbn [map]. rewrite ren_unbind1.
    destruct (unbind1 sm f ev w). reflexivity.
  - rewrite ren_unbind_but. destruct (unbind_but sm fs ev w) as [[[fs' ev'] w']|]; reflexivity.
  - destruct k; [reflexivity|]. rewrite ren_unbind_all. reflexivity.
  - destruct (other sm k0 k ev sl w) as [k' ev' sl' w' us|v ev' sl' w'].
    + destruct fs as [|[n u0|l h] fs]; destruct us; reflexivity.
    + destruct fs as [|[n u0|l h] fs]; cbn; rewrite ?ren_unwind; reflexivity.
Qed.

Lemma ren_jump k l s : jump sm k (rho l) (ren_s s) = ren_e (jump sm k l s).
Proof.
  destruct s as [[|x st0] ev fs sl w]; destruct k; cbn; try reflexivity;
    destruct (nilp x); try reflexivity.
  unfold raise. cbn. apply ren_unwind.
Qed.

Lemma ren_step i s : step sm lax (ren_i i) (ren_s s) = ren_e (step sm lax i s).
Proof. destruct i; cbn; [reflexivity|apply ren_jump|apply ren_exec]. Qed.
End Rename.

(** ** Handlers point into the program *)
Definition targets (c : code) : list nat :=
  flat_map (fun i => match i with J _ l => [l] | _ => [] end) c.
Section Hok.
Variable T : nat -> Prop.
Definition hok_f (f : frame) : Prop := match f with Hd l _ => T l | _ => True end.
Definition hok (s : state) : Prop := Forall hok_f (frs s).
Definition hok_e (e : exit sm) : Prop :=
  match e with
  | Fall s => hok s
  | Goto l s => T l /\ hok s
  | Done _ => True
  end.
Definition tok (i : item) : Prop := match i with J _ l => T l | _ => True end.

Lemma hok_unwind v fs : forall ev k sl w,
  Forall hok_f fs -> hok_e (unwind sm v fs ev k sl w).
Proof.
  induction fs as [|[n us|l h] fs IH]; intros ev k sl w H; cbn; auto;
    inversion H; subst; auto.
Qed.
Lemma hok_fail v s : hok s -> hok_e (fail sm lax v s).
Proof. intro H. unfold fail. destruct lax; [exact Logic.I|]. apply hok_unwind, H. Qed.

Lemma hok_unbind_but fs : forall ev w, Forall hok_f fs ->
  match unbind_but sm fs ev w with Some (fs, _, _) => Forall hok_f fs | None => True end.
Proof.
  induction fs as [|f [|g fs] IH]; intros ev w H; [exact Logic.I|exact H|].
  inversion H; subst. cbn [unbind_but]. destruct (unbind1 sm f ev w) as [ev' w'].
  apply (IH ev' w'). assumption.
Qed.

Lemma hok_exec i s : hok s -> hok_e (exec sm lax i s).
Proof.
  unfold hok. intro H. destruct s as [k ev fs sl w]. cbn in H.
  destruct i; cbn [exec]; unfold op0, op1, op2, op1e, op2e; cbn [stk env frs slots wd];
  try (repeat match goal with
       | |- context [match ?x with _ => _ end] =>
           match type of x with
           | list val => destruct x
           | option val => destruct x
           | bool => destruct x
           end end; try exact Logic.I; try exact H; apply hok_fail; exact H).
  - destruct k as [|x k]; [exact Logic.I|]. destruct fs as [|[]]; cbn; auto.
    unfold hok; cbn. inversion H; subst. constructor; cbn; auto.
  - destruct fs; [exact Logic.I|]. unfold hok_e, hok; cbn. constructor; cbn; auto.
  - destruct fs as [|f fs]; [exact Logic.I|].
    destruct (unbind1 sm f ev w). inversion H; subst. assumption.
  - pose proof (hok_unbind_but fs ev w H) as B.
    destruct (unbind_but sm fs ev w) as [[[fs' ev'] w']|]; [exact B|exact Logic.I].
  - destruct (other sm k0 k ev sl w) as [k' ev' sl' w' us|v ev' sl' w'].
    + destruct fs as [|[n u0|l h] fs]; destruct us; cbn; auto; unfold hok; cbn;
        inversion H; subst; constructor; cbn; auto.
    + destruct fs as [|[n u0|l h] fs]; apply hok_unwind; exact H.
Qed.

Lemma hok_step i s : tok i -> hok s -> hok_e (step sm lax i s).
Proof.
  intros Ht H. destruct i as [l|k l|i]; [exact H| |apply hok_exec, H].
  cbn in Ht. destruct s as [[|x st0] ev fs sl w]; destruct k; cbn; auto;
    try (unfold hok in *; cbn in *; constructor; cbn; auto; fail);
    destruct (nilp x); cbn; auto.
  apply hok_unwind, H.
Qed.
End Hok.

(** ** The general argument *)
Section General.
Variable c1 c2 : code.
Variable rho : nat -> nat.
Variable M : code -> code -> Prop.
Local Notation T := (fun l => In l (targets c1)).

Definition rel (a b : conf) : Prop :=
  M (fst a) (fst b) /\ snd b = ren_s rho (snd a) /\ hok T (snd a).

Hypothesis M0 : M c1 c2.
Hypothesis Mtargets : forall r1 r2, M r1 r2 -> incl (targets r1) (targets c1).
Hypothesis Mfind : forall l r1, T l -> find l c1 = Some r1 ->
  exists r2, find (rho l) c2 = Some r2 /\ M r1 r2.

Lemma after_rel r1 r2 e : M r1 r2 -> hok_e T e ->
  csim rel (after c1 r1 e) (after c2 r2 (ren_e rho e)).
Proof.
  intros H He. destruct e as [s|l s|o]; cbn [after ren_e].
  - constructor. repeat split; auto.
  - destruct He as [Tl Hs]. destruct (find l c1) as [r|] eqn:F; [|constructor].
    destruct (Mfind _ _ Tl F) as (r' & F' & HM). rewrite F'.
    constructor. repeat split; auto.
  - constructor.
Qed.

Lemma tok_head i r r2 : M (i :: r) r2 -> tok T i.
Proof.
  intro H. destruct i; cbn; auto. apply (Mtargets _ _ H). cbn. auto.
Qed.

Lemma head_adv i t1 t2 s : M (i :: t1) (ren_i rho i :: t2) -> M t1 t2 -> hok T s ->
  adv c1 c2 rel (i :: t1, s) (ren_i rho i :: t2, ren_s rho s).
Proof.
  intros Hi Ht Hs. exists 1, 1. split; [lia|split; [lia|]]. cbn [fst snd go next].
  assert (C : csim rel (after c1 t1 (step sm lax i s))
                (after c2 t2 (step sm lax (ren_i rho i) (ren_s rho s)))).
  { rewrite ren_step. apply after_rel; auto. apply hok_step; auto.
    eapply tok_head; eauto. }
  destruct C as [y|o|[] []]; [constructor|constructor|constructor; auto].
Qed.

Hypothesis Mstep : forall r1 r2, M r1 r2 ->
  r1 = [] \/
  (exists i t1 t2, r1 = i :: t1 /\ r2 = ren_i rho i :: t2 /\ M t1 t2) \/
  (forall s, hok T s -> adv c1 c2 rel (r1, s) (r2, ren_s rho s)).

Lemma rel_adv a b : rel a b -> adv c1 c2 rel a b.
Proof.
  destruct a as [r1 s], b as [r2 s2]. intros (H & E & Hs). cbn in H, E, Hs. subst s2.
  destruct (Mstep _ _ H) as [->|[(i & t1 & t2 & -> & -> & Ht)|Hw]]; auto.
  - exists 1, 1. split; [lia|split; [lia|]]. cbn. constructor.
  - apply head_adv; auto.
Qed.

Lemma ren_start s : start sm s -> ren_s rho s = s.
Proof.
  intro H. destruct s as [k ev fs sl w]. unfold ren_s, start in *. cbn in *. f_equal.
  induction H as [|[] fs H _ IH]; cbn in *; [reflexivity| |contradiction].
  f_equal. exact IH.
Qed.
Lemma hok_start s : start sm s -> hok T s.
Proof.
  intro H. unfold hok, start in *. eapply Forall_impl; [|exact H]. intros [] ?; cbn; auto.
  contradiction.
Qed.

Lemma general : keeps sm lax c1 c2.
Proof.
  intros s Hs D o. eapply sim_iff; [apply rel_adv| |exact D].
  repeat split; cbn; auto.
  - symmetry. apply ren_start, Hs.
  - apply hok_start, Hs.
Qed.
End General.

Lemma keeps_refl c : keeps sm lax c c.
Proof. intros s _ _ o. reflexivity. Qed.
Lemma keeps_trans a b c : keeps sm lax a b -> keeps sm lax b c -> keeps sm lax a c.
Proof.
  intros H1 H2 s Hs D o. rewrite (H1 s Hs D o). apply H2; auto.
  rewrite <- (H1 s Hs D Stuck). exact D.
Qed.

(** ** Windows *)
Fixpoint wx (A : code) (s : state) : exit sm :=
  match A with
  | [] => Fall s
  | i :: A => match step sm lax i s with Fall s => wx A s | e => e end
  end.

Lemma wx_app A B s : wx (A ++ B) s = match wx A s with Fall s => wx B s | e => e end.
Proof.
  revert s. induction A as [|i A IH]; intro s; [reflexivity|].
  cbn. destruct (step sm lax i s); auto.
Qed.

Lemma go_wx c R A : forall s, A <> [] -> exists n, 1 <= n /\
  go c n (A ++ R) s = after c R (wx A s).
Proof.
  induction A as [|i A IH]; intros s H; [contradiction|].
  destruct (step sm lax i s) as [s'|l s'|o] eqn:E.
  - destruct A as [|j A].
    + exists 1. split; [lia|]. cbn. rewrite E. reflexivity.
    + destruct (IH s' ltac:(discriminate)) as (n & L & G). exists (S n). split; [lia|].
      cbn [app go next]. rewrite E. cbn [after]. change (j :: A ++ R) with ((j :: A) ++ R).
      rewrite G. cbn [wx]. rewrite E. reflexivity.
  - exists 1. split; [lia|]. cbn. rewrite E. cbn. destruct (find l c); reflexivity.
  - exists 1. split; [lia|]. cbn. rewrite E. reflexivity.
Qed.

Lemma find_app l A B : find l (A ++ B) =
  match find l A with Some t => Some (t ++ B) | None => find l B end.
Proof.
  induction A as [|[x|k x|i] A IH]; cbn; auto. destruct (Nat.eqb l x); auto.
Qed.

Lemma targets_app a b : targets (a ++ b) = targets a ++ targets b.
Proof. unfold targets. apply flat_map_app. Qed.
Lemma labels_app a b : labels (a ++ b) = labels a ++ labels b.
Proof. unfold labels. apply flat_map_app. Qed.

Definition free (A : code) : Prop := labels A = [].
Lemma find_free l A : free A -> find l A = None.
Proof.
  unfold free. induction A as [|[x|k x|i] A IH]; cbn; auto. discriminate.
Qed.
Lemma find_none l A : find l A = None <-> ~ In l (labels A).
Proof.
  induction A as [|[x|k x|i] A IH]; cbn; [tauto| |tauto|tauto].
  destruct (Nat.eqb_spec l x) as [->|N].
  - split; [discriminate|tauto].
  - rewrite IH. intuition.
Qed.
Lemma find_suffix l A r : find l A = Some r -> exists p, A = p ++ Lbl l :: r.
Proof.
  revert r. induction A as [|[x|k x|i] A IH]; cbn; intros r H; try discriminate.
  - destruct (Nat.eqb_spec l x) as [->|N].
    + inversion H; subst. exists []. reflexivity.
    + destruct (IH _ H) as [p ->]. exists (Lbl x :: p). reflexivity.
  - destruct (IH _ H) as [p ->]. exists (J k x :: p). reflexivity.
  - destruct (IH _ H) as [p ->]. exists (I i :: p). reflexivity.
Qed.

Lemma ren_id_s s : ren_s (fun l => l) s = s.
Proof.
  destruct s as [k ev fs sl w]. unfold ren_s. cbn. f_equal.
  induction fs as [|[] fs IH]; cbn; congruence.
Qed.
Lemma ren_id_e e : ren_e (fun l => l) e = e.
Proof. destruct e; cbn; rewrite ?ren_id_s; reflexivity. Qed.
Lemma ren_id_i i : ren_i (fun l => l) i = i.
Proof. destruct i; reflexivity. Qed.

Section Local.
Variable P A B R : code.
Local Notation c1 := (P ++ A ++ R).
Local Notation c2 := (P ++ B ++ R).

Inductive mloc : code -> code -> Prop :=
| ml_p t p : P = p ++ t -> mloc (t ++ A ++ R) (t ++ B ++ R)
| ml_r t p : R = p ++ t -> mloc t t.

Definition lrel := rel c1 (fun l => l) mloc.

Hypothesis Hfind : forall l, In l (targets c1) -> find l A = None /\ find l B = None.
Hypothesis Hwin : forall s, hok (fun l => In l (targets c1)) s ->
  adv c1 c2 lrel (A ++ R, s) (B ++ R, s).

Lemma loc_targets r1 r2 : mloc r1 r2 -> incl (targets r1) (targets c1).
Proof.
  intros [t p ->|t p ->] l; rewrite !targets_app, !in_app_iff; tauto.
Qed.
Lemma loc_find l r1 : find l A = None -> find l B = None -> find l c1 = Some r1 ->
  exists r2, find l c2 = Some r2 /\ mloc r1 r2.
Proof.
  intros FA FB. rewrite !find_app, FA, FB.
  destruct (find l P) as [t|] eqn:FP; intro H.
  - inversion H; subst. eexists; split; [reflexivity|].
    destruct (find_suffix _ _ _ FP) as [p E].
    apply ml_p with (p := p ++ [Lbl l]). rewrite <- app_assoc. exact E.
  - exists r1. split; [exact H|]. destruct (find_suffix _ _ _ H) as [p E].
    apply ml_r with (p := p ++ [Lbl l]). rewrite <- app_assoc. exact E.
Qed.

Lemma local_gen : keeps sm lax c1 c2.
Proof.
  apply general with (rho := fun l => l) (M := mloc).
  - apply ml_p with (p := []). reflexivity.
  - apply loc_targets.
  - intros l r1 Tl F. destruct (Hfind _ Tl). apply loc_find; auto.
  - intros r1 r2 H. destruct H as [[|i t] p E|[|i t] p E].
    + right. right. intros s Hs. rewrite ren_id_s. apply Hwin, Hs.
    + right. left. exists i, (t ++ A ++ R), (t ++ B ++ R). rewrite ren_id_i.
      repeat split; auto. apply ml_p with (p := p ++ [i]). rewrite <- app_assoc. exact E.
    + left. reflexivity.
    + right. left. exists i, t, t. rewrite ren_id_i. repeat split; auto.
      apply ml_r with (p := p ++ [i]). rewrite <- app_assoc. exact E.
Qed.
End Local.

(** the windows do the same *)
Lemma hok_wx (T : nat -> Prop) A : forall s, (forall l, In l (targets A) -> T l) -> hok T s -> hok_e T (wx A s).
Proof.
  induction A as [|i A IH]; intros s H Hs; [exact Hs|]. cbn.
  assert (Hi : hok_e T (step sm lax i s)).
  { apply hok_step; auto. destruct i; cbn; auto. apply H. cbn. auto. }
  destruct (step sm lax i s); auto. apply IH; auto.
  intros l Hl. apply H. cbn. apply in_app_iff. auto.
Qed.

Lemma local_win P A B R :
  (forall l, In l (targets (P ++ A ++ R)) -> find l A = None /\ find l B = None) ->
  (forall s, wx A s = Done Stuck \/ wx A s = wx B s) ->
  keeps sm lax (P ++ A ++ R) (P ++ B ++ R).
Proof.
  intros Hf Hw. apply local_gen; auto. intros s Hs.
  destruct R as [|i R'].
  - (* the end of the code: undefined unless the window leaves it *)
    destruct A as [|a A'].
    { exists 1, 1. split; [lia|split; [lia|]]. cbn. constructor. }
    destruct (go_wx (P ++ (a :: A') ++ []) [] (a :: A') s ltac:(discriminate)) as (n1 & L1 & G1).
    destruct B as [|b B'].
    { exists (n1 + 1), 1. split; [lia|split; [lia|]]. cbn [fst snd].
      rewrite go_add, G1. destruct (Hw s) as [E|E]; rewrite E; cbn; constructor. }
    destruct (go_wx (P ++ (b :: B') ++ []) [] (b :: B') s ltac:(discriminate)) as (n2 & L2 & G2).
    exists n1, n2. split; [exact L1|split; [exact L2|]]. cbn [fst snd]. rewrite G1, G2.
    destruct (Hw s) as [E|E]; [rewrite E; constructor|]. rewrite <- E.
    rewrite <- (ren_id_e (wx (a :: A') s)) at 2.
    apply after_rel.
    + intros l r Tl F. destruct (Hf _ Tl). apply loc_find; auto.
    + apply ml_r with (p := []). reflexivity.
    + apply hok_wx; auto. intros l Hl. rewrite !targets_app, !in_app_iff. auto.
  - assert (Hw' : wx (A ++ [i]) s = Done Stuck \/ wx (A ++ [i]) s = wx (B ++ [i]) s).
    { rewrite !wx_app. destruct (Hw s) as [E|E]; rewrite E; auto. }
    assert (NA : A ++ [i] <> []) by (intro Q; apply app_eq_nil in Q; destruct Q; discriminate).
    assert (NB : B ++ [i] <> []) by (intro Q; apply app_eq_nil in Q; destruct Q; discriminate).
    destruct (go_wx (P ++ A ++ i :: R') R' (A ++ [i]) s NA) as (n1 & L1 & G1).
    destruct (go_wx (P ++ B ++ i :: R') R' (B ++ [i]) s NB) as (n2 & L2 & G2).
    exists n1, n2. split; [exact L1|split; [exact L2|]]. cbn [fst snd].
    rewrite <- app_assoc in G1, G2. cbn [app] in G1, G2. rewrite G1, G2.
    destruct Hw' as [E|E]; [rewrite E; constructor|]. rewrite <- E.
    rewrite <- (ren_id_e (wx (A ++ [i]) s)) at 2.
    apply after_rel.
    + intros l r Tl F. destruct (Hf _ Tl). apply loc_find; auto.
    + apply ml_r with (p := [i]). reflexivity.
    + apply hok_wx; auto. intros l Hl. rewrite !targets_app, !in_app_iff in *.
      cbn in *. rewrite ?app_nil_r in Hl. rewrite in_app_iff. tauto.
Qed.

Lemma local_free P A B R : free A -> free B ->
  (forall s, wx A s = Done Stuck \/ wx A s = wx B s) ->
  keeps sm lax (P ++ A ++ R) (P ++ B ++ R).
Proof.
  intros FA FB. apply local_win. intros l _. split; apply find_free; auto.
Qed.

(** a label no jump goes to *)
Lemma del_label P x R : ~ In x (targets (P ++ R)) ->
  keeps sm lax (P ++ Lbl x :: R) (P ++ R).
Proof.
  intro H. apply (local_win P [Lbl x] [] R); [|intro s; right; reflexivity].
  intros l Hl. split; [|reflexivity]. cbn. destruct (Nat.eqb_spec l x) as [->|N]; auto.
  destruct H. rewrite !targets_app in *. cbn in Hl. exact Hl.
Qed.
Lemma ins_label P x R : ~ In x (targets (P ++ R)) ->
  keeps sm lax (P ++ R) (P ++ Lbl x :: R).
Proof.
  intro H. apply (local_win P [] [Lbl x] R); [|intro s; right; reflexivity].
  intros l Hl. split; [reflexivity|]. cbn. destruct (Nat.eqb_spec l x) as [->|N]; auto.
  destruct H. exact Hl.
Qed.

(** windows before a label: leaving the window at its end is going to it *)
Definition norm (x : nat) (e : exit sm) : exit sm :=
  match e with Fall s => Goto x s | _ => e end.

Lemma find_after P x R : NoDup (labels (P ++ Lbl x :: R)) -> find x (P ++ Lbl x :: R) = Some R.
Proof.
  intro H. rewrite find_app. replace (find x P) with (@None code).
  - cbn. rewrite Nat.eqb_refl. reflexivity.
  - symmetry. apply find_none. rewrite labels_app in H. cbn in H.
    apply NoDup_remove_2 in H. rewrite in_app_iff in H. tauto.
Qed.

Lemma go_norm P A x R : A <> [] -> free A -> NoDup (labels (P ++ A ++ Lbl x :: R)) ->
  forall s, exists n, 1 <= n /\
  go (P ++ A ++ Lbl x :: R) n (A ++ Lbl x :: R) s
  = after (P ++ A ++ Lbl x :: R) R (norm x (wx A s)).
Proof.
  intros NA FA ND s.
  destruct (go_wx (P ++ A ++ Lbl x :: R) (Lbl x :: R) A s NA) as (n & L & G).
  assert (F : find x (P ++ A ++ Lbl x :: R) = Some R).
  { rewrite app_assoc in *. apply find_after, ND. }
  destruct (wx A s) as [s'|l s'|o] eqn:E.
  - exists (n + 1). split; [lia|]. rewrite go_add, G. cbn. rewrite F. reflexivity.
  - exists n. split; [exact L|]. rewrite G. reflexivity.
  - exists n. split; [exact L|]. rewrite G. reflexivity.
Qed.
Lemma go_norm0 P A x R : free A -> NoDup (labels (P ++ A ++ Lbl x :: R)) ->
  forall s, exists n, 1 <= n /\
  go (P ++ A ++ Lbl x :: R) n (A ++ Lbl x :: R) s
  = after (P ++ A ++ Lbl x :: R) R (norm x (wx A s)).
Proof.
  intros FA ND s. destruct A as [|a A].
  - exists 1. split; [lia|]. cbn. cbn in ND. rewrite find_after; auto.
  - apply go_norm; auto. discriminate.
Qed.

Lemma free_nodup P A B R : free A -> free B -> NoDup (labels (P ++ A ++ R)) ->
  NoDup (labels (P ++ B ++ R)).
Proof. unfold free. rewrite !labels_app. intros -> ->. auto. Qed.

Lemma local_norm P A B x R : free A -> free B -> NoDup (labels (P ++ A ++ Lbl x :: R)) ->
  In x (targets (P ++ A ++ Lbl x :: R)) ->
  (forall s, wx A s = Done Stuck \/ norm x (wx A s) = norm x (wx B s)) ->
  keeps sm lax (P ++ A ++ Lbl x :: R) (P ++ B ++ Lbl x :: R).
Proof.
  intros FA FB ND Tx Hw. apply local_gen.
  { intros l _. split; apply find_free; auto. }
  intros s Hs. pose proof (free_nodup _ _ _ _ FA FB ND) as ND2.
  destruct (go_norm0 P A x R FA ND s) as (n1 & L1 & G1).
  destruct (go_norm0 P B x R FB ND2 s) as (n2 & L2 & G2).
  exists n1, n2. split; [exact L1|split; [exact L2|]]. cbn [fst snd]. rewrite G1, G2.
  destruct (Hw s) as [E|E]; [rewrite E; constructor|]. rewrite <- E.
  rewrite <- (ren_id_e (norm x (wx A s))) at 2.
  apply after_rel.
  - intros l r Tl F. apply loc_find; auto; apply find_free; auto.
  - apply ml_r with (p := [Lbl x]). reflexivity.
  - assert (He : hok_e (fun l => In l (targets (P ++ A ++ Lbl x :: R))) (wx A s)).
    { apply hok_wx; auto. intros l Hl. rewrite !targets_app, !in_app_iff. auto. }
    destruct (wx A s); cbn in *; auto.
Qed.

(** a jump to a place where something follows *)
Lemma local_jump P k x b R :
  (forall s, hok (fun l => In l (targets (P ++ J k x :: R))) s ->
   exists m, csim (lrel P [J k x] [b] R)
     (match after (P ++ J k x :: R) R (step sm lax (J k x) s) with
      | inl (r, s) => go (P ++ J k x :: R) m r s | inr o => inr o end)
     (after (P ++ b :: R) R (step sm lax b s))) ->
  is_label b = false ->
  keeps sm lax (P ++ J k x :: R) (P ++ b :: R).
Proof.
  intros H Hb. apply (local_gen P [J k x] [b] R).
  { intros l _. split; apply find_free; [reflexivity|]. destruct b; [discriminate|reflexivity|reflexivity]. }
  intros s Hs. destruct (H s Hs) as [m C]. exists (1 + m), 1.
  split; [lia|split; [lia|]]. cbn [fst snd app go Nat.add next].
  destruct (after (P ++ b :: R) R (step sm lax b s)) as [[]|]; exact C.
Qed.
End Sim.
