(** The rewrites of a few adjacent instructions. *)
From Coq Require Import List Arith Bool ZArith Lia.
From Verif Require Import Peephole_Model Peephole_Spec Peephole_SimProofs.
Import ListNotations.

Lemma resolve_app h a b : resolve h (a ++ b) = resolve h a ++ resolve h b.
Proof. apply map_app. Qed.
Lemma labels_resolve h c : labels (resolve h c) = labels c.
Proof. unfold labels, resolve. induction c as [|[] c IH]; cbn in *; congruence. Qed.
Lemma cells_app a b : cells (a ++ b) = cells a ++ cells b.
Proof. apply flat_map_app. Qed.
Lemma targets_resolve h c : targets (resolve h c) = map h (cells c).
Proof.
  unfold targets, cells, resolve. induction c as [|[] c IH]; cbn in *; congruence.
Qed.

Lemma equalv_eq v : forall v', has_str v = false -> equalv v v' = true -> v = v'.
Proof.
  induction v as [| | | |z|i n|a IHa d IHd|n]; intros [| | | |z'|i' n'|a' d'|n'] H E;
    cbn in *; try discriminate; auto.
  - apply Z.eqb_eq in E. congruence.
  - apply orb_false_iff in H. destruct H. apply andb_prop in E. destruct E.
    f_equal; auto.
  - apply Nat.eqb_eq in E. congruence.
Qed.

Lemma set_nth_same n : forall l x, nth_error l n = Some x -> set_nth n x l = l.
Proof.
  induction n as [|n IH]; intros [|y l] x H; cbn in *; try discriminate.
  - congruence.
  - f_equal. auto.
Qed.
Lemma nth_set_nth n : forall l x, n <? length l = true -> nth_error (set_nth n x l) n = Some x.
Proof.
  intros l x H. apply Nat.ltb_lt in H. revert l H.
  induction n as [|n IH]; intros [|y l] H; cbn in *; try lia; auto. apply IH. lia.
Qed.
Lemma nth_some_lt n : forall (l : list val) x, nth_error l n = Some x -> n <? length l = true.
Proof.
  intros l x H. apply Nat.ltb_lt. apply nth_error_Some. congruence.
Qed.

Section Win.
Variable sm : sem.
Variable lax : bool.
Local Notation state := (st sm).
Local Notation wx := (wx sm lax).
Local Notation same A B := (forall s : state, wx A s = Done Stuck \/ wx A s = wx B s).

Ltac ww :=
  let k := fresh "k" in
  intros [k ev fs sl w];
  cbn [Peephole_SimProofs.wx step exec]; unfold op0, op1, op2, op1e, op2e, jump, with_stk;
  cbn [stk env frs slots wd].

Ltac dm :=
  repeat (cbn [stk env frs slots wd nth_error]; rewrite ?nth_set_nth by assumption;
    match goal with
    | |- context [match ?x with _ => _ end] =>
        match type of x with
        | list val => destruct x
        | option val => destruct x
        | list frame => destruct x as [|[] ?]
        | bool => destruct x eqn:?
        end
    end); cbn [stk env frs slots wd nth_error]; rewrite ?nth_set_nth by assumption.

Definition laxness i := lax || negb (may_fail i) = true.

Lemma w1 i : side_effect_free i = true -> laxness i ->
  same [I i; I Pop]
       (match stack_delta i with
        | Plus => [] | Same => [I Pop] | Minus => [I Pop; I Pop] end).
Proof.
  unfold laxness. intros H L. destruct i; try discriminate; cbn [stack_delta];
    cbn [may_fail negb] in L; rewrite ?orb_true_r, ?orb_false_r in L;
    ww; unfold fail; try rewrite L; dm; auto.
Qed.

Lemma w2 a b c : set_then_ref b c = true ->
  (match a with Dup | Push _ => true | _ => false end) = true ->
  same [I a; I b; I c] [I a; I b; I a].
Proof.
  intros H Ha. destruct b, c; try discriminate; cbn in H; apply Nat.eqb_eq in H; subst;
    destruct a; try discriminate; ww;
    dm; auto.
Qed.

Lemma w3 a b : set_then_ref a b = true -> same [I a; I b] [I Dup; I a].
Proof.
  intros H. destruct a, b; try discriminate; cbn in H; apply Nat.eqb_eq in H; subst; ww;
    dm; auto.
Qed.

Lemma w4 b : varset_or_bind b = true -> same [I Dup; I b; I Pop] [I b].
Proof.
  intros H. destruct b; try discriminate; ww;
    dm; auto.
Qed.

Lemma insn_equal_varref a b : varref a = true -> insn_equal a b = true -> b = a.
Proof.
  destruct a; try discriminate; destruct b; try discriminate; intros _ H;
    cbn in H; apply Nat.eqb_eq in H; congruence.
Qed.

Lemma unwind_leaves v fs : forall ev k sl w,
  match unwind sm v fs ev k sl w with Fall _ => False | _ => True end.
Proof.
  induction fs as [|[n us|l h] fs IH]; intros; cbn [unwind]; [exact Logic.I| |exact Logic.I].
  apply IH.
Qed.

(** a reference pushes one value, and the same one again *)
Definition again (a : insn) : bool := match a with Push _ => true | _ => varref a end.
Lemma again_push a : again a = true -> forall s : state,
  (exists v, forall k, exec sm lax a (with_stk sm s k) = Fall (with_stk sm s (v :: k))) \/
  (match exec sm lax a s with Fall _ => False | _ => True end).
Proof.
  intros H s. destruct a; try discriminate; cbn [exec]; unfold op0.
  - left. exists v. reflexivity.
  - destruct (nth_error (env s) n) as [v|] eqn:E; [left; exists v|right; exact Logic.I].
    intro k. cbn [with_stk env]. rewrite E. reflexivity.
  - destruct (nth_error (slots s) n) as [v|] eqn:E; [left; exists v|right; exact Logic.I].
    intro k. cbn [with_stk slots]. rewrite E. reflexivity.
  - destruct (getg sm (wd s) n) as [v|] eqn:E; [left; exists v|right].
    + intro k. cbn [with_stk wd]. rewrite E. reflexivity.
    + unfold fail, raise. destruct lax; [exact Logic.I|].
      apply unwind_leaves.
Qed.

Lemma with_stk_id (s : state) : with_stk sm s (stk s) = s.
Proof. destruct s; reflexivity. Qed.

Definition again_of (a : insn) (i : item) : Prop := i = I Dup \/ i = I a.
Lemma wagain a (X : code) : again a = true -> Forall (again_of a) X ->
  forall s : state, wx (I a :: X) s = wx (I a :: repeat (I Dup) (length X)) s.
Proof.
  intros Ha HX s. cbn [Peephole_SimProofs.wx step].
  destruct (again_push a Ha s) as [[v Hv]|N].
  - rewrite <- (with_stk_id s), Hv. generalize (stk s) as k.
    induction HX as [|i X Hi HX IH]; intro k; [reflexivity|].
    cbn [length repeat Peephole_SimProofs.wx step].
    assert (E : step sm lax i (with_stk sm s (v :: k)) = Fall (with_stk sm s (v :: v :: k))).
    { destruct Hi as [-> | ->]; cbn [step]; [reflexivity|apply Hv]. }
    rewrite E. cbn [exec stk with_stk].
    change {| stk := v :: v :: k; env := env s; frs := frs s; slots := slots s; wd := wd s |}
      with (with_stk sm s (v :: v :: k)). apply IH.
  - destruct (exec sm lax a s); [contradiction|reflexivity|reflexivity].
Qed.

Lemma w5 a b : varref a && insn_equal a b = true -> same [I a; I b] [I a; I Dup].
Proof.
  intros H s. right. apply andb_prop in H. destruct H as [Ha E].
  apply insn_equal_varref in E; auto. subst b.
  apply (wagain a [I a]); [destruct a; auto; discriminate|].
  constructor; [right; reflexivity|constructor].
Qed.

Lemma w6 a b : (match a, b with
  | Refn n, Setn m | SlotRef n, SlotSet m => Nat.eqb n m | _, _ => false end) = true ->
  same [I a; I b] [].
Proof.
  intros H. destruct a, b; try discriminate; apply Nat.eqb_eq in H; subst; ww.
  - destruct (nth_error ev n0) eqn:E; auto. cbn [stk env frs slots wd].
    rewrite (nth_some_lt _ _ _ E), (set_nth_same _ _ _ E). auto.
  - destruct (nth_error sl n0) eqn:E; auto. cbn [stk env frs slots wd].
    rewrite (nth_some_lt _ _ _ E), (set_nth_same _ _ _ E). auto.
Qed.

Lemma w7 a b c : (match a, b, c with
  | Car, Car, Caar | Car, Cdr, Cdar | Cdr, Car, Cadr | Cdr, Cdr, Cddr => true
  | _, _, _ => false end) = true -> same [I a; I b] [I c].
Proof.
  intros H. destruct a; try discriminate; destruct b; try discriminate;
    destruct c; try discriminate; ww; destruct k as [|v k]; auto; right;
    destruct v as [| | | | | |[] []|]; reflexivity.
Qed.

Lemma w8 k l : (match k with Jn | Jt => true | _ => false end) = true ->
  same [I TestScm; I ScmTest; J k l] [J k l].
Proof.
  intros H. destruct k; try discriminate; ww; destruct k as [|v k]; auto; right;
    destruct v; reflexivity.
Qed.

Lemma w9 z a b : (match a, b with
  | Sub, Dec | Add, Inc => Z.eqb z 1 | Sub, Inc | Add, Dec => Z.eqb z (-1)
  | _, _ => false end) = true -> same [I (Push (Num z)); I a] [I b].
Proof.
  intros H. destruct a; try discriminate; destruct b; try discriminate;
    apply Z.eqb_eq in H; subst z; ww; destruct k as [|v k]; auto; right;
    destruct v; cbn [addv subv incv decv]; try reflexivity;
    unfold with_stk; cbn [stk env frs slots wd]; repeat f_equal; lia.
Qed.

Lemma w10 a : lax = true -> (match a with Add | Sub => true | _ => false end) = true ->
  same [I (Push (Num 0)); I a] [].
Proof.
  intros L H. destruct a; try discriminate; ww; destruct k as [|v k]; auto;
    destruct v; cbn [addv subv]; unfold fail; rewrite ?L; auto;
    right; repeat f_equal; lia.
Qed.

Lemma w11 : same [I (Push (Num 0)); I NumEq] [I Zerop].
Proof. ww. destruct k as [|v k]; auto. right. destruct v; reflexivity. Qed.
Lemma w12 : same [I Zerop; I Not] [I NotZerop].
Proof.
  ww. destruct k as [|v k]; auto. right. destruct v; try reflexivity.
  cbn. destruct (Z.eqb z 0); reflexivity.
Qed.
Lemma w13 x s : norm sm x (wx [J Jmp x] s) = norm sm x (wx [] s).
Proof. reflexivity. Qed.
Lemma w14 k x : (match k with Jn | Jt => true | _ => false end) = true ->
  forall s, wx [J k x] s = Done Stuck \/ norm sm x (wx [J k x] s) = norm sm x (wx [I Pop] s).
Proof.
  intros H. destruct k; try discriminate; ww; destruct k as [|v k]; auto; right;
    destruct (nilp v); reflexivity.
Qed.
Lemma w15 k k' x : (match k, k' with Jpt, Jt | Jpn, Jn => true | _, _ => false end) = true ->
  same [J k x; I Pop] [J k' x].
Proof.
  intros H. destruct k, k'; try discriminate; ww; destruct k as [|v k]; auto; right;
    destruct (nilp v); reflexivity.
Qed.
Lemma w16 k k' x : (match k, k' with Jn, Jt | Jt, Jn => true | _, _ => false end) = true ->
  same [I Not; J k x] [J k' x].
Proof.
  intros H. destruct k, k'; try discriminate; ww; destruct k as [|v k]; auto; right;
    unfold notv; destruct (nilp v); reflexivity.
Qed.
Lemma w17 x : same [J Jt x; I (Push Nil)] [J Jpt x].
Proof.
  ww; destruct k as [|v k]; auto; right. destruct v; reflexivity.
Qed.
Lemma w18 k k' x y : (match k, k' with
  | Jn, Jt | Jt, Jn | Jpt, Jnp | Jpn, Jtp | Jtp, Jpn | Jnp, Jpt => true
  | _, _ => false end) = true ->
  forall s, wx [J k x; J Jmp y] s = Done Stuck \/
            norm sm x (wx [J k x; J Jmp y] s) = norm sm x (wx [J k' y] s).
Proof.
  intros H. destruct k, k'; try discriminate; ww; destruct k as [|v k]; auto; right;
    destruct (nilp v); reflexivity.
Qed.
Lemma w19 v k x : cond_jmp k = true ->
  same [I (Push v); J k x]
    (match k, nilp v with
     | Jn, true | Jt, false | Jpn, true | Jpt, false => [J Jmp x]
     | Jt, true | Jn, false | Jnp, false | Jtp, true => []
     | Jnp, true | Jtp, false => [I (Push v); J Jmp x]
     | _, _ => [I (Push v)]
     end).
Proof.
  intros H s. right. destruct s as [k0 ev fs sl w].
  destruct (nilp v) eqn:E; destruct k; try discriminate;
    cbn [Peephole_SimProofs.wx step exec]; unfold op0, jump, with_stk; cbn [stk env frs slots wd];
    rewrite ?E; reflexivity.
Qed.

Hypothesis BF : binding_free sm.
Lemma undos_unT k us : forall w x, unT sm k (undos sm us w) x = unT sm k w x.
Proof. destruct BF as [B _]. induction us; intros; cbn; auto. rewrite IHus. apply B. Qed.
Lemma undos_biT k us : forall w x y, biT sm k (undos sm us w) x y = biT sm k w x y.
Proof. destruct BF as [_ B]. induction us; intros; cbn; auto. rewrite IHus. apply B. Qed.

Lemma w20 a : varref_free a = true -> same [I a; I Unbind] [I Unbind; I a].
Proof.
  intros H. destruct a; try discriminate; ww;
    (destruct fs as [|[n us|l0 h0] fs]; dm; cbn [unbind1]; dm;
     rewrite ?undos_unT, ?undos_biT; auto).
Qed.
Lemma w21 : same [I Bind; I Unbind] [I Pop; I Unbind].
Proof.
  ww. destruct k; auto. destruct fs as [|[n us|l0 h0] fs]; auto.
Qed.
Lemma w22 : same [I InitBind; I Unbind] [].
Proof. ww. destruct fs; auto. Qed.
Lemma w23 a : (match a with Return | Unbindall => true | _ => false end) = true ->
  same [I InitBind; I a] [I a].
Proof.
  intros H. destruct a; try discriminate; ww; destruct fs as [|f fs]; auto.
Qed.
Lemma w24 : same [I Unbind; I Return] [I Return].
Proof.
  ww. destruct fs as [|f fs]; auto.
  destruct (unbind1 sm f ev w) as [ev' w'] eqn:E. destruct k; auto.
  right. cbn [stk env frs slots wd unbind_all]. rewrite E. reflexivity.
Qed.
Lemma w28 i X : (match i with J Jmp _ | J Ejmp _ | I Return => true | _ => false end) = true ->
  same (i :: X) [i].
Proof.
  intros H s. right. cbn [Peephole_SimProofs.wx].
  assert (N : match step sm lax i s with Fall _ => False | _ => True end).
  { destruct i as [|[]|[]]; try discriminate; cbn; auto.
    - destruct (stk s) as [|x k]; auto. destruct (nilp x); auto. apply unwind_leaves.
    - destruct (stk s); auto. }
  destruct (step sm lax i s); [contradiction|reflexivity|reflexivity].
Qed.
Lemma w33 v b : varset_or_bind b = true ->
  same [I (Push v); I b; I (Push v)] [I (Push v); I Dup; I b].
Proof.
  intros H. destruct b; try discriminate; ww; auto;
    try destruct (_ <? _); auto. destruct fs as [|[] fs]; auto.
Qed.
End Win.
