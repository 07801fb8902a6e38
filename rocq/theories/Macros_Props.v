(** Macro expansion: the theorems. *)
From Coq Require Import List Bool Arith Lia.
From Verif Require Import Macros_Model Macros_Spec Macros_Proofs.
Import ListNotations.

(** The macros of the examples.  Symbols 1, 3 and 5 name macros: (1 . x) expands
    into (2 . x); (3 . x) expands into (2 . y), y being the expansion of x, which
    the macro gets by calling macroexpand; (5 . x) lets the collector run and
    expands into (1 . x). *)
Definition mx_addr (v : val) : nat := match v with Ptr p => 200 + p | Sym n => 300 + 16 * n end.
Definition mx_macro (m : nat) : option (val -> prog) :=
  match m with
  | 1 => Some (fun args => New (mx_addr args) (Sym 2) args Done)
  | 3 => Some (fun args => Expand args (fun v => New (600 + mx_addr args) (Sym 2) v Done))
  | 5 => Some (fun args => Collect [0; 16; 32] (New (1200 + mx_addr args) (Sym 1) args Done))
  | _ => None
  end.
Fixpoint mx_expand (t : tree) : tree :=
  match t with
  | Node (Leaf 1) x => Node (Leaf 2) x
  | Node (Leaf 3) x => Node (Leaf 2) (mx_expand x)
  | Node (Leaf 5) x => Node (Leaf 2) x
  | _ => t
  end.
Definition mx_mean : meaning := fun m =>
  match m with
  | 1 => Some (fun t => Node (Leaf 2) t)
  | 3 => Some (fun t => Node (Leaf 2) (mx_expand t))
  | 5 => Some (fun t => Node (Leaf 1) t)
  | _ => None
  end.
Lemma mx_expands : forall t, expands mx_mean t (mx_expand t).
Proof.
  intros [n|[m|a1 a2] x]; try (apply Stays; reflexivity).
  destruct m as [|[|[|[|[|[|m]]]]]]; try (apply Stays; reflexivity).
  - eapply Goes; [reflexivity|]. apply Stays. reflexivity.
  - eapply Goes; [reflexivity|]. apply Stays. reflexivity.
  - eapply Goes; [reflexivity|]. eapply Goes; [reflexivity|]. apply Stays. reflexivity.
Qed.
Lemma new_done : forall macro n s p a d s' v, exec macro n s (New p a d Done) = Some (s', v) ->
  used s p = false /\ s' = alloc s p a d /\ v = Ptr p.
Proof.
  intros macro [|n] s p a d s' v R; [discriminate|]. rewrite exec_S in R. destruct (used s p) eqn:U; [discriminate|].
  cbn [orb] in R. destruct (negb (held s a && held s d)); [discriminate|]. destruct n; [discriminate|].
  rewrite exec_S in R. destruct (held (alloc s p a d) (Ptr p)); [|discriminate]. inversion R; auto.
Qed.
Lemma stands_new : forall s p m d t, used s p = false -> stands s d t ->
  stands (alloc s p (Sym m) d) (Ptr p) (Node (Leaf m) t).
Proof.
  intros s p m d t U S. constructor; cbn; rewrite ?Nat.eqb_refl; auto; [constructor|]. cbn. apply alloc_stands; auto.
Qed.
Lemma mx_means : macros_mean mx_macro mx_mean.
Proof.
  intros b. induction b as [|b IH].
  - intros [|[|[|[|[|[|m]]]]]]; cbn; auto; intros; lia.
  - intros m. destruct m as [|[|[|[|[|[|m]]]]]]; cbn [mx_macro mx_mean]; auto.
    + intros n s p t s' v L G I S R. apply new_done in R. destruct R as (U & -> & ->). apply stands_new; auto.
    + intros n s p t s' v L G I S R. destruct n as [|n]; [discriminate|]. rewrite exec_S in R.
      destruct (held s (snd (mem s p))) eqn:Hx; [|discriminate].
      destruct (expand mx_macro n s (snd (mem s p))) as [[s1 v1]|] eqn:E; [|discriminate].
      assert (IHn : macros_mean_below n mx_macro mx_mean).
      { intros m. specialize (IH m). destruct (mx_macro m), (mx_mean m); auto.
        intros n0 s0 q u s2 v2 Ln. apply IH. lia. }
      destruct (all_ok mx_macro mx_mean n IHn) as (_ & _ & _ & Ix).
      destruct (Ix _ _ _ _ G Hx E) as (_ & _ & _ & T). destruct (T t S) as (t' & X & S').
      rewrite (expands_fun _ _ _ _ X (mx_expands t)) in S'.
      apply new_done in R. destruct R as (U & -> & ->). apply stands_new; auto.
    + intros n s p t s' v L G I S R. destruct n as [|n]; [discriminate|]. rewrite exec_S in R.
      destruct (closed s [0; 16; 32]) eqn:C; [|discriminate].
      pose proof (proj1 (andb_prop _ _ C)) as C1. rewrite forallb_forall in C1. specialize (C1 _ I).
      pose proof (proj2 (andb_prop _ _ C)) as C2. rewrite forallb_forall in C2.
      specialize (C2 p (proj1 (inside_in _ _) C1)). apply andb_prop in C2.
      apply new_done in R. destruct R as (U & -> & ->). apply stands_new; auto. apply collect_stands; tauto.
Qed.

(** Cells 0, 16 and 32: (3 1 . 9) and (5 . 8). *)
Definition mx_state : state :=
  mk_state (fun p => match p with 0 => (Sym 3, Ptr 16) | 16 => (Sym 1, Sym 9) | _ => (Sym 5, Sym 8) end)
    (fun p => (p =? 0) || (p =? 16) || (p =? 32)) (fun _ => []) [].
Example mx_fresh : fresh mx_state.
Proof.
  split; [split|reflexivity].
  - intros p. cbn. destruct (Nat.eqb_spec p 0); [subst; cbn; auto|]. destruct (Nat.eqb_spec p 16); [subst; cbn; auto|].
    destruct (Nat.eqb_spec p 32); [subst; cbn; auto|discriminate].
  - intros v [].
Qed.
Example mx_stands : stands mx_state (Ptr 0) (Node (Leaf 3) (Node (Leaf 1) (Leaf 9))) /\ stands mx_state (Ptr 32) (Node (Leaf 5) (Leaf 8)).
Proof. repeat constructor. Qed.

(** Whatever a program has done since memory was empty - expansions, nested
    expansions, allocations at any addresses, collections of any cells that are
    not protected - macroexpand gives the full expansion of the form it is given,
    and the state stays such that this goes on being so. *)
Theorem C71_expansion : forall macro mean, macros_mean macro mean ->
  forall n s0 c s u, fresh s0 -> exec macro n s0 c = Some (s, u) ->
  forall m form t s' v, stands s form t -> expand macro m s form = Some (s', v) ->
  exists t', expands mean t t' /\ stands s' v t'.
Proof.
  intros macro mean MM n s0 c s u F R m form t s' v S E.
  destruct (all_ok macro mean n (MM n)) as (Ie & _). destruct (Ie _ _ _ _ (fresh_good mean s0 F) R) as (G & _ & _).
  destruct (all_ok macro mean m (MM m)) as (_ & _ & _ & Ix).
  destruct (Ix _ _ _ _ G (stands_held _ _ _ S) E) as (_ & _ & _ & T). auto.
Qed.
Print Assumptions C71_expansion.
Example C71_expansion_case : exists s s' u v,
  exec mx_macro 30 mx_state (Expand (Ptr 16) (fun _ => Expand (Ptr 32) (fun _ => Done (Sym 0)))) = Some (s, u) /\
  expand mx_macro 30 s (Ptr 0) = Some (s', v) /\
  stands s' v (Node (Leaf 2) (Node (Leaf 2) (Leaf 9))) /\ map (fun i => length (hist s' i)) [0; 1; 2] = [1; 1; 1].
Proof.
  eexists _, _, _, _. split; [vm_compute; reflexivity|]. split; [vm_compute; reflexivity|].
  split; [repeat constructor|vm_compute; reflexivity].
Qed.

(** Expanding is also safe: protected values stand for what they stood for. *)
Theorem C71_protected : forall macro mean, macros_mean macro mean ->
  forall n s0 c s u, fresh s0 -> exec macro n s0 c = Some (s, u) ->
  roots s = roots s0 /\ forall v t, In v (roots s0) -> stands s0 v t -> stands s v t.
Proof.
  intros macro mean MM n s0 c s u F R.
  destruct (all_ok macro mean n (MM n)) as (Ie & _). destruct (Ie _ _ _ _ (fresh_good mean s0 F) R) as (_ & (K1 & K2) & _).
  split; auto. intros v t I S. apply (proj2 (K2 v I)). exact S.
Qed.
Print Assumptions C71_protected.
Example C71_protected_case : let s0 := push_root mx_state (Ptr 16) in
  fresh s0 /\ exists s u, exec mx_macro 9 s0 (Collect [16] (New 0 (Sym 1) (Ptr 16) (fun v => Expand v Done))) = Some (s, u) /\
  stands s u (Node (Leaf 2) (Node (Leaf 1) (Leaf 9))) /\ used s 32 = false.
Proof.
  cbv zeta. split.
  - split; [|reflexivity]. apply sound_push; [apply mx_fresh|reflexivity].
  - eexists _, _. split; [vm_compute; reflexivity|]. split; [repeat constructor|reflexivity].
Qed.

(** A form that has just been expanded is not expanded again: whatever the
    macros are, the same object is returned, and nothing happens. *)
Theorem C71_remembered : forall macro macro' n m s p s' v, expand macro n s (Ptr p) = Some (s', v) ->
  expand macro' (S m) s' (Ptr p) = Some (s', v).
Proof.
  intros macro macro' [|n] m s p s' v R; [discriminate|]. rewrite expand_S in R. rewrite expand_S.
  destruct (search (hist s (hist_hash p)) p) as [u|] eqn:E.
  - inversion R; subst. rewrite E. reflexivity.
  - destruct (expand_loop macro n (push_root s (Ptr p)) (Ptr p)) as [[s1 u]|]; [|discriminate]. inversion R; subst.
    cbn [remember hist]. rewrite Nat.eqb_refl. cbn [search]. rewrite Nat.eqb_refl. reflexivity.
Qed.
Print Assumptions C71_remembered.
Example C71_remembered_case : exists s' v, expand mx_macro 30 mx_state (Ptr 0) = Some (s', v) /\ v = Ptr 816.
Proof. eexists _, _. split; vm_compute; reflexivity. Qed.

(** So a macro that is defined anew, or looked up in another ENVIRONMENT, makes
    no difference to a form that was expanded before. *)
Definition mx_macro2 (m : nat) : option (val -> prog) :=
  match m with 1 => Some (fun args => New (mx_addr args) (Sym 7) args Done) | _ => None end.
Theorem C71_redefined_refuted : exists macro1 macro2 s form s1 v1 s2 v2 s3 v3,
  fresh s /\ expand macro1 9 s form = Some (s1, v1) /\ expand macro2 9 s1 form = Some (s2, v2) /\
  expand macro2 9 s form = Some (s3, v3) /\
  stands s2 v2 (Node (Leaf 2) (Leaf 9)) /\ stands s3 v3 (Node (Leaf 7) (Leaf 9)).
Proof.
  exists mx_macro, mx_macro2, mx_state, (Ptr 16). eexists _, _, _, _, _, _. split; [exact mx_fresh|].
  split; [vm_compute; reflexivity|]. split; [vm_compute; reflexivity|]. split; [vm_compute; reflexivity|].
  split; repeat constructor.
Qed.
Print Assumptions C71_redefined_refuted.

(** Nor does changing the form in place. *)
Definition mx_write (s : state) (p : nat) (c : val * val) : state :=
  mk_state (fun q => if q =? p then c else mem s q) (used s) (hist s) (roots s).
Theorem C71_changed_refuted : exists macro mean s form p c s1 v1 s2 v2,
  macros_mean macro mean /\ fresh s /\ expand macro 9 s form = Some (s1, v1) /\
  expand macro 9 (mx_write s1 p c) form = Some (s2, v2) /\
  stands (mx_write s1 p c) form (Node (Leaf 1) (Leaf 8)) /\ stands s2 v2 (Node (Leaf 2) (Leaf 9)) /\
  ~ expands mean (Node (Leaf 1) (Leaf 8)) (Node (Leaf 2) (Leaf 9)).
Proof.
  exists mx_macro, mx_mean, mx_state, (Ptr 16), 16, (Sym 1, Sym 8). eexists _, _, _, _. split; [exact mx_means|].
  split; [exact mx_fresh|]. split; [vm_compute; reflexivity|]. split; [vm_compute; reflexivity|].
  split; [repeat constructor|]. split; [repeat constructor|].
  intros X. pose proof (expands_fun _ _ _ _ X (mx_expands _)) as E. discriminate E.
Qed.
Print Assumptions C71_changed_refuted.
