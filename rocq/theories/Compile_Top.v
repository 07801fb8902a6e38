(** Compiled code simulates the interpreter: whole programs. *)
From Coq Require Import List Arith Bool ZArith Lia ZifyBool.
From Verif Require Import Compile_Model Compile_Spec Compile_Proofs Compile_Sim.
Import ListNotations.
Open Scope Z_scope.

Lemma form_inv d inl e a t :
  form_at d inl e = Some (a, t) -> exists s,
  with_lambda None no_params 1 false [] (fun lr =>
    emit (ILbl (llabel lr)) ;; comp inl d [lr] true e ;; emiti Return) cst0 = Some s /\
  a = Asm (rev (code s)) (mx s) (bmx s) /\ t = tags s.
Proof.
  unfold form_at. generalize (with_lambda None no_params 1 false [] (fun lr =>
      emit (ILbl (llabel lr)) ;; comp inl d [lr] true e ;; emiti Return) cst0).
  intros [s|] H; [|discriminate]. injection H as <- <-. now exists s.
Qed.
Lemma compile_inv unsafe inl e f :
  compile unsafe inl e = Some f -> small inl e = true -> exists d c m b t,
  form_at d inl e = Some (Asm c m b, t) /\ small_asm (Asm c m b) = true /\
  alloc_asm (heap_binding unsafe t (captured c)) [] (Asm c m b) = Some f.
Proof.
  unfold compile, small, compile_form. generalize max_inline. intros d H Sm. exists d. revert H Sm.
  generalize (form_at d inl e). intros [[[c m b] t]|] H Sm; [|discriminate].
  exists c, m, b, t. split; [reflexivity|split; [exact Sm|exact H]].
Qed.

Lemma compile_sim P unsafe eff e f gs :
  plain None eff true e = true -> small [] e = true -> compile unsafe [] e = Some f ->
  forall n, agrees eff P f gs n (eval P n e [] (initial gs)).
Proof.
  intros Hp Sm C. destruct (compile_inv _ _ _ _ C Sm) as [d [c [m [b [t [F [Sm' A]]]]]]]. clear C Sm.
  destruct (form_inv _ _ _ _ _ F) as [s [E [Ea ->]]]. injection Ea as -> -> ->. clear F.
  apply (form_sim P (heap_binding unsafe (tags s) (captured (rev (code s)))) d eff e s f gs E Hp Sm'); [|exact A].
  intros c I. unfold heap_binding. apply orb_true_iff. left. apply existsb_exists. exists c.
  split; [assumption|apply Nat.eqb_refl].
Qed.

(** * Consequences of determinism *)
Lemma run_more P o m : forall s k, run P m s = inr o -> run P (m + k) s = inr o.
Proof.
  induction m as [|m IH]; intros s k H; cbn [run Nat.add] in *; [discriminate|].
  destruct (step P s) as [s'|o']; [now apply IH|exact H].
Qed.
Lemma run_one P m k s o o' : run P m s = inr o -> run P k s = inr o' -> o = o'.
Proof.
  intros H K. apply (run_more _ _ _ _ k) in H. apply (run_more _ _ _ _ m) in K.
  rewrite Nat.add_comm in K. congruence.
Qed.
Lemma run_less P m k s s' : run P m s = inl s' -> (k <= m)%nat -> exists s'', run P k s = inl s''.
Proof.
  intros H L. destruct (run P k s) as [s''|o] eqn:E; [now exists s''|].
  apply (run_more _ _ _ _ (m - k)) in E. replace (k + (m - k))%nat with m in E by lia. congruence.
Qed.
(** what the interpreter does with as much fuel as the machine took steps *)
Lemma agrees_stop eff P f gs n r o :
  agrees eff P f gs n r -> run P n (start f (data_globs gs)) = inr o ->
  match r with
  | RVal v s => exists v' h g, o = Ret v' h g /\ (eff = false -> same v v') /\ same_globs (globs s) g
  | RErr e s => is_unset e = true \/ exists h g, o = Err e h g /\ same_globs (globs s) g
  | ROut => False
  end.
Proof.
  intros A R. destruct r as [v s|e s|]; cbn [agrees] in A.
  - destruct A as [m [v' [h [g [A [B C]]]]]]. exists v', h, g.
    split; [|split; assumption]. exact (run_one _ _ _ _ _ _ R A).
  - destruct A as [U|[m [h [g [A C]]]]]; [now left|right]. exists h, g.
    split; [|assumption]. exact (run_one _ _ _ _ _ _ R A).
  - destruct A as [s A]. congruence.
Qed.

(** a state that comes back *)
Lemma run_split P m : forall k s s', run P m s = inl s' -> run P (m + k) s = run P k s'.
Proof.
  induction m as [|m IH]; intros k s s' H; cbn [run Nat.add] in *; [congruence|].
  destruct (step P s) as [s1|o]; [now apply IH|discriminate].
Qed.
Lemma run_loop P a b s s' :
  run P a s = inl s' -> run P (S b) s' = inl s' -> forall m, exists s'', run P m s = inl s''.
Proof.
  intros A B m.
  assert (L : forall k, exists n, (k <= n)%nat /\ run P n s' = inl s').
  { induction k as [|k [n [L R]]]; [exists O; split; [lia|reflexivity]|].
    exists (n + S b)%nat. split; [lia|]. now rewrite (run_split _ _ _ _ _ R). }
  destruct (L m) as [n [Ln R]]. apply (run_less _ (a + n) _ _ s'); [|lia].
  now rewrite (run_split _ _ _ _ _ A).
Qed.
