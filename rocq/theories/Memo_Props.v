(** Memoized functions: the theorems. *)
From Coq Require Import List Bool Arith Lia.
From Verif Require Import Memo_Model Memo_Spec Memo_Proofs.
Import ListNotations.

(** The function of the examples: Fibonacci numbers from 1, and an exit at 40;
    nil is 0. *)
Definition fib (n : nat) : prog nat nat :=
  match n with
  | 0 | 1 => Give 1
  | 40 => Throw
  | S (S m as n1) => Self n1 (fun x => Self m (fun y => Give (x + y)))
  end.
Definition zerop (n : nat) : bool := n =? 0.
Example fib_tells : tells Nat.eqb zerop 0.
Proof. split; intros; [apply Nat.eqb_eq|unfold zerop; apply Nat.eqb_eq]. Qed.

Lemma calls_sound : forall {K V} eqb nilp nil_ (f : K -> prog K V), tells eqb nilp nil_ ->
  forall n l s s' os, cache_ok eqb nilp nil_ f (fst s) -> calls K V eqb nilp nil_ f n s l = Some (s', os) ->
  Forall2 (computes f) l os /\ cache_ok eqb nilp nil_ f (fst s').
Proof.
  intros K V eqb nilp nil_ f T n l. induction l as [|a l IH]; intros s s' os C R; cbn in R.
  - inversion R; subst. split; auto.
  - destruct (call K V eqb nilp nil_ f n s a) as [[s1 o]|] eqn:E; [|discriminate].
    destruct (calls K V eqb nilp nil_ f n s1 l) as [[s2 os2]|] eqn:E2; [|discriminate]. inversion R; subst.
    destruct (proj1 (sound eqb nilp nil_ T f n) _ _ _ _ C E) as (H & C1). destruct (IH _ _ _ C1 E2). split; auto.
Qed.

(** A memoized function gives what the function computes: each of any sequence
    of calls, and any call after them - and it gives an answer whenever the
    function has one. *)
Theorem C72_same : forall K V eqb nilp nil_ (f : K -> prog K V), tells eqb nilp nil_ ->
  forall n l s os, calls K V eqb nilp nil_ f n ([], []) l = Some (s, os) ->
  Forall2 (computes f) l os /\
  forall a o, computes f a o <-> exists m s', call K V eqb nilp nil_ f m s a = Some (s', o).
Proof.
  intros K V eqb nilp nil_ f T n l s os R.
  destruct (calls_sound eqb nilp nil_ f T n l ([], []) s os (cache_ok_nil eqb nilp nil_ T f) R) as (H & C).
  split; auto. intros a o. split.
  - intros Hc. apply (call_complete eqb nilp nil_ T f a o s Hc C).
  - intros (m & s' & E). exact (proj1 (proj1 (sound eqb nilp nil_ T f m) _ _ _ _ C E)).
Qed.
Print Assumptions C72_same.
Example C72_same_case : exists s, calls nat nat Nat.eqb zerop 0 fib 60 ([], []) [10; 11; 41; 5] =
  Some (s, [Ret 89; Ret 144; Thrown; Ret 8]).
Proof. eexists. vm_compute. reflexivity. Qed.

(** When no answer is nil and nothing exits, the function is applied at most once
    to each argument list, recursive calls included. *)
Theorem C72_once : forall K V eqb nilp nil_ (f : K -> prog K V), tells eqb nilp nil_ ->
  (forall a o, computes f a o -> exists v, o = Ret v /\ v <> nil_) ->
  forall n l s os, calls K V eqb nilp nil_ f n ([], []) l = Some (s, os) -> NoDup (snd s).
Proof.
  intros K V eqb nilp nil_ f T NN n l s os R.
  assert (G : forall l s0 s os, cache_ok eqb nilp nil_ f (fst s0) -> inv eqb nilp nil_ [] s0 ->
    calls K V eqb nilp nil_ f n s0 l = Some (s, os) -> inv eqb nilp nil_ [] s).
  { clear - T NN. intros l. induction l as [|a l IH]; intros s0 s os C I R; cbn in R; [inversion R; subst; auto|].
    destruct (call K V eqb nilp nil_ f n s0 a) as [[s1 o]|] eqn:E; [|discriminate].
    destruct (calls K V eqb nilp nil_ f n s1 l) as [[s2 os2]|] eqn:E2; [|discriminate]. inversion R; subst.
    destruct (proj1 (sound eqb nilp nil_ T f n) _ _ _ _ C E) as ((h & H) & C1).
    destruct (proj1 (once eqb nilp nil_ T f NN n) [] s0 a s1 o h C E H) as (I1 & _); auto.
    - intros x [].
    - eapply IH; eauto. }
  apply (G l ([], []) s os (cache_ok_nil eqb nilp nil_ T f)); auto. split; [constructor|intros x []].
Qed.
Print Assumptions C72_once.
(** Fibonacci numbers without the exit meet the hypothesis; ten calls of the
    function for the tenth. *)
Definition fib' (n : nat) : prog nat nat :=
  match n with
  | 0 | 1 => Give 1
  | S (S m as n1) => Self n1 (fun x => Self m (fun y => Give (x + y)))
  end.
Lemma fib_pos : forall h p o, ends fib' h p o ->
  (forall n, p = fib' n -> exists v, o = Ret v /\ v <> 0) /\
  (forall n x, p = Self n (fun y => Give (x + y)) -> x <> 0 -> exists v, o = Ret v /\ v <> 0).
Proof.
  intros h p o H. induction H as [v| |h1 h2 a k v o H1 (IH1 & _) H2 (IH2a & IH2b)|h a k H (IH & _)].
  - split; [|discriminate]. intros [|[|n]] E; cbn in E; inversion E; subst; eauto.
  - split; [|discriminate]. intros [|[|n]] E; cbn in E; inversion E.
  - destruct (IH1 a eq_refl) as (v' & Ev & Nv). inversion Ev; subst v'. split.
    + intros [|[|n]] E; cbn in E; inversion E; subst. eapply IH2b; eauto.
    + intros n x E Nx. inversion E; subst. inversion H2; subst. eexists. split; [reflexivity|]. lia.
  - destruct (IH a eq_refl) as (v' & Ev & Nv). discriminate.
Qed.
Example C72_once_case : (forall a o, computes fib' a o -> exists v, o = Ret v /\ v <> 0) /\
  exists s, calls nat nat Nat.eqb zerop 0 fib' 60 ([], []) [9; 10; 3] = Some (s, [Ret 55; Ret 89; Ret 3]) /\
    snd s = [10; 0; 1; 2; 3; 4; 5; 6; 7; 8; 9].
Proof.
  split.
  - intros a o (h & H). exact (proj1 (fib_pos h _ o H) a eq_refl).
  - eexists. split; vm_compute; reflexivity.
Qed.

(** An answer of nil is not remembered: the function is applied again. *)
Definition never (n : nat) : prog nat nat := Give 0.
Theorem C72_nil_refuted : exists (f : nat -> prog nat nat) s a, calls nat nat Nat.eqb zerop 0 f 9 ([], []) [a; a] =
  Some (s, [Ret 0; Ret 0]) /\ snd s = [a; a].
Proof. exists never. eexists. exists 7. split; reflexivity. Qed.
Print Assumptions C72_nil_refuted.
