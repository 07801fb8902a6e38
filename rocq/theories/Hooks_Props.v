(** Hooks: the theorems. *)
From Coq Require Import ZArith List Bool Arith Lia.
From Verif Require Import Lists_Model Lists_Spec Lists_Proofs Hooks_Model Hooks_Spec Hooks_Proofs Hooks_Run.
Import ListNotations.

Lemma elems_putL : forall L k l k', elems (putL L k l k') = put (fun i => elems (L i)) k (elems l) k'.
Proof. intros. unfold putL, put. destruct (k' =? k); reflexivity. Qed.

Lemma elems_keep : forall del l, elems (filter (keep del) l) = filter (fun g => negb (del g)) (elems l).
Proof.
  intros del l. induction l as [|[p x] l IH]; cbn; auto. unfold keep at 1. cbn. destruct (del x); cbn; [exact IH|].
  f_equal. exact IH.
Qed.

Lemma put_ext : forall H H' k l l' i, (forall j, H j = H' j) -> l = l' -> put H k l i = put H' k l' i.
Proof. intros H H' k l l' i E ->. unfold put. destruct (i =? k); auto. Qed.

Lemma make_ok : forall name_of fuel w H c, holds w H -> (forall k, length (H k) + 1 < fuel) ->
  exists w', make name_of fuel w c = Did w' /\ holds w' (changed name_of H c).
Proof.
  intros name_of fuel w H c (L & HL & E) F.
  assert (F' : forall k, length (L k) + 1 < fuel).
  { intros k. specialize (F k). rewrite E in F. unfold elems in F. rewrite map_length in F. exact F. }
  destruct c as [k f []|k f|k n]; cbn [make changed].
  - destruct (add_end_ok fuel w k f L HL (F' k)) as (w' & R & _ & H' & _). exists w'. split; auto.
    eexists. split; [exact H'|]. intros i. rewrite elems_putL. apply put_ext; auto. rewrite elems_app, E. reflexivity.
  - destruct (add_front_ok fuel w k f L HL) as (w' & R & _ & H' & _). exists w'. split; auto.
    eexists. split; [exact H'|]. intros i. rewrite elems_putL. apply put_ext; auto. cbn. rewrite E. reflexivity.
  - specialize (F' k). destruct (remove_ok fuel w k (val_eqb f) L HL ltac:(lia)) as (w' & R & _ & H' & _). exists w'. split; auto.
    eexists. split; [exact H'|]. intros i. rewrite elems_putL. apply put_ext; auto. rewrite elems_keep, E. reflexivity.
  - specialize (F' k). destruct (remove_ok fuel w k (fun g => Z.eqb (name_of g) n) L HL ltac:(lia)) as (w' & R & _ & H' & _).
    exists w'. split; auto.
    eexists. split; [exact H'|]. intros i. rewrite elems_putL. apply put_ext; auto. rewrite elems_keep, E. reflexivity.
Qed.

(** The state of the examples: hook 0 holds f1 f2 f3, hook 1 holds f4, hook 2 is
    unbound.  The name of a function is its number. *)
Definition hk_mem (p : nat) : val * val :=
  match p with
  | 0 => (Atom 1, Cell 1) | 1 => (Atom 2, Cell 2) | 2 => (Atom 3, Nil) | _ => (Atom 4, Nil)
  end.
Definition hk_world : world :=
  mk_world (mk_heap hk_mem 4) (fun k => match k with 0 => Some (Cell 0) | 1 => Some (Cell 3) | _ => None end) [].
Definition hk_lists (k : nat) : list (nat * val) :=
  match k with
  | 0 => [(0, Atom 1); (1, Atom 2); (2, Atom 3)]
  | 1 => [(3, Atom 4)]
  | _ => []
  end.
Definition hk_name (v : val) : Z := match v with Atom z => z | _ => 0 end.
Example hk_are : hooks_are hk_world hk_lists.
Proof.
  split; [|split].
  - intros [|[|k]]; cbn; repeat split; try (intros p; discriminate).
  - intros [|[|k]]; repeat constructor.
  - intros [|[|k]] [|[|k']] p N; cbn; intuition lia.
Qed.
Example hk_holds : holds hk_world (fun k => elems (hk_lists k)).
Proof. exists hk_lists. split; [exact hk_are|auto]. Qed.

(** Any sequence of add-hook, remove-hook and remove-hook-by-name leaves in
    every hook the functions that the same operations on lists leave: in front
    or at the end as asked, all equal or so named removed, the others in order,
    no other hook touched.  The budget only has to exceed the longest list. *)
Theorem C70_changes : forall name_of cs fuel w H, holds w H ->
  (forall k, length (H k) + length cs + 1 < fuel) ->
  exists w', make_all name_of fuel w cs = Did w' /\ holds w' (fold_left (changed name_of) cs H).
Proof.
  intros name_of cs. induction cs as [|c cs IH]; intros fuel w H HH F.
  - exists w. auto.
  - destruct (make_ok name_of fuel w H c HH) as (w1 & R & H1).
    { intros k. specialize (F k). cbn in F. lia. }
    cbn [make_all fold_left]. rewrite R. apply IH; auto. intros k.
    assert (X : length (changed name_of H c k) <= S (length (H k))).
    { destruct c as [j f []|j f|j n]; cbn; unfold put; destruct (Nat.eqb_spec k j); subst; cbn; try lia.
      - rewrite app_length. cbn. lia.
      - pose proof (filter_shorter (fun g => negb (val_eqb f g)) (H j)). lia.
      - pose proof (filter_shorter (fun g => negb (Z.eqb (name_of g) n)) (H j)). lia. }
    specialize (F k). cbn in F. lia.
Qed.
Print Assumptions C70_changes.
Example C70_changes_case :
  let cs := [CAdd 0 (Atom 5) true; CRemove 0 (Atom 2); CAdd 2 (Atom 1) false; CRemoveNamed 1 4; CAdd 0 (Atom 1) false] in
  exists w', make_all hk_name 20 hk_world cs = Did w' /\
    holds w' (fold_left (changed hk_name) cs (fun k => elems (hk_lists k))) /\
    map (fold_left (changed hk_name) cs (fun k => elems (hk_lists k))) [0; 1; 2] =
    [[Atom 1; Atom 1; Atom 3; Atom 5]; []; [Atom 1]].
Proof.
  cbv zeta.
  destruct (C70_changes hk_name [CAdd 0 (Atom 5) true; CRemove 0 (Atom 2); CAdd 2 (Atom 1) false; CRemoveNamed 1 4; CAdd 0 (Atom 1) false]
    20 hk_world _ hk_holds) as (w' & R & HH).
  { intros [|[|k]]; cbn; lia. }
  exists w'. split; [exact R|]. split; [exact HH|reflexivity].
Qed.

(** in-hook-p is true just of the functions of the hook. *)
Theorem C70_member : forall fuel w H k f, holds w H -> length (H k) < fuel ->
  exists v, in_hook_p fuel w k f = Some v /\ (v <> Nil <-> In f (H k)).
Proof.
  intros fuel w H k f (L & (V & _ & _) & E) F. unfold in_hook_p. specialize (V k). rewrite E in *.
  unfold elems in F. rewrite map_length in F. destruct (var w k) as [v|].
  - assert (EQ : forall x, val_eqb f x = true <-> x = f).
    { intros x. destruct f as [|p|z], x as [|q|y]; cbn; split; intros Z; try discriminate; auto; try congruence.
      - apply Nat.eqb_eq in Z. congruence.
      - inversion Z. apply Nat.eqb_refl.
      - apply Z.eqb_eq in Z. congruence.
      - inversion Z. apply Z.eqb_refl. }
    destruct V as (V1 & V2).
    destruct (member_ok (val_eqb f) (L k) fuel (hp w) v Nil V1 V2 F) as [(l1 & l2 & p & x & EL & F1 & T & R)|(F1 & R)].
    + exists (Cell p). split; auto. split; [|discriminate]. intros _. rewrite EL, elems_app. apply in_app_iff. right. left.
      apply EQ. exact T.
    + exists Nil. split; auto. split; [congruence|]. intros I _. rewrite Forall_forall in F1. specialize (F1 f I).
      assert (val_eqb f f = true) by (apply EQ; auto). congruence.
  - exists Nil. split; auto. rewrite V. cbn. split; [congruence|tauto].
Qed.
Print Assumptions C70_member.
Example C70_member_case : in_hook_p 5 hk_world 0 (Atom 3) = Some (Cell 2) /\ in_hook_p 5 hk_world 1 (Atom 3) = Some Nil.
Proof. split; reflexivity. Qed.

(** call-hook, whatever the functions do to this and other hooks meanwhile,
    running hooks included.  Let P be functions that nothing removes from the
    hook or adds to its end.  Then those of P that were in the hook are called
    once each in the order of the hook, up to the call whose answer ends the run;
    no answer but the last ends it; without such an answer all were called.  The
    answer of call-hook is that of the last function, nil when there is none. *)
Theorem C70_run : forall does name_of P n w k ty w' calls r H, holds w H ->
  (forall f lg, Forall (spares name_of P k) (fst (does f lg))) ->
  call_hook does name_of n w k ty = Some (w', calls, r) ->
  (exists rest, filter P (H k) = filter P (map fst calls) ++ rest /\
     (rest = [] \/ (calls <> [] /\ ends_run ty r))) /\
  (forall before x after, calls = before ++ x :: after -> after <> [] -> ~ ends_run ty (snd x)) /\
  r = last_answer calls.
Proof.
  intros does name_of P n w k ty w' calls r H (L & HL & E) S R. unfold call_hook in R.
  assert (EV : hook_value w k = match L k with [] => Nil | c :: _ => Cell (fst c) end).
  { destruct HL as (V & _). specialize (V k). unfold hook_value. destruct (var w k); [|rewrite V; auto].
    destruct V as (C & _). destruct (L k) as [|[p x] l]; cbn in *; tauto. }
  rewrite EV in R.
  destruct (run_ok does name_of P (fun _ => True) k S
     (fun f lg => proj2 (Forall_forall _ _) (fun a _ => appends_any k a)) n w ty (Ret Nil) w' calls r L (L k) HL (cursor_all _ _ _ HL) R)
    as (_ & (rest & R1 & R2 & R3 & R4) & _).
  split; [exists rest; rewrite E; auto|]. split; auto.
Qed.
Print Assumptions C70_run.
(** f1 removes f2 and itself and adds f5 in front and f6 at the end, f6 runs
    hook 1, whose function exits; nothing removes f3. *)
Definition hk_does (f : val) (lg : list val) : list act * ans :=
  match f with
  | Atom 1 => ([Remove 0 (Atom 2); Remove 0 (Atom 1); Add 0 (Atom 5) false; Add 0 (Atom 6) true], Ret (Atom 10))
  | Atom 6 => ([Run 1 TNil], Ret (Atom 60))
  | Atom 4 => ([], Thrown)
  | _ => ([], Ret Nil)
  end.
Definition hk_P (f : val) : bool := match f with Atom 3 => true | _ => false end.
Example C70_run_case :
  (forall f lg, Forall (spares hk_name hk_P 0) (fst (hk_does f lg))) /\
  exists w', call_hook hk_does hk_name 30 hk_world 0 TNil =
    Some (w', [(Atom 1, Ret (Atom 10)); (Atom 3, Ret Nil); (Atom 6, Thrown)], Thrown).
Proof.
  split.
  - intros f lg. unfold hk_does. destruct f as [|p|[|[[[]|[]|]|[[]|[]|]|]|]]; repeat constructor; cbn; intros; auto;
      try (destruct g as [|q|[|[[[]|[]|]|[[]|[]|]|]|]]; cbn in *; congruence).
  - eexists. vm_compute. reflexivity.
Qed.

(** Nothing is called that was neither in the hook nor added at its end
    meanwhile, and the hooks are separate lists again when call-hook is left, in
    whatever way. *)
Theorem C70_only : forall does name_of (Q : val -> Prop) n w k ty w' calls r H, holds w H ->
  (forall f lg, Forall (appends_only Q k) (fst (does f lg))) -> (forall f, In f (H k) -> Q f) ->
  call_hook does name_of n w k ty = Some (w', calls, r) ->
  (forall f a, In (f, a) calls -> Q f) /\ exists H', holds w' H'.
Proof.
  intros does name_of Q n w k ty w' calls r H (L & HL & E) S I R. unfold call_hook in R.
  assert (EV : hook_value w k = match L k with [] => Nil | c :: _ => Cell (fst c) end).
  { destruct HL as (V & _). specialize (V k). unfold hook_value. destruct (var w k); [|rewrite V; auto].
    destruct V as (C & _). destruct (L k) as [|[p x] l]; cbn in *; tauto. }
  rewrite EV in R.
  assert (SP : forall f lg, Forall (spares name_of (fun _ => false) k) (fst (does f lg))).
  { intros f lg. apply Forall_forall. intros [j g []|j g|j m|j t] _; cbn; auto. }
  destruct (run_ok does name_of (fun _ => false) Q k SP S n w ty (Ret Nil) w' calls r L (L k) HL (cursor_all _ _ _ HL) R)
    as ((L' & HL') & _ & RQ).
  split.
  - intros f a J. assert (F : Forall Q (map fst calls)).
    { apply RQ. apply Forall_forall. intros x Hx. apply I. rewrite E. exact Hx. }
    rewrite Forall_forall in F. apply F. apply in_map_iff. exists (f, a). auto.
  - exists (fun i => elems (L' i)), L'. auto.
Qed.
Print Assumptions C70_only.
Example C70_only_case : forall f lg, Forall (appends_only (fun g => In g [Atom 1; Atom 2; Atom 3; Atom 6]) 0) (fst (hk_does f lg)).
Proof.
  intros f lg. unfold hk_does. destruct f as [|p|[|[[[]|[]|]|[[]|[]|]|]|]]; repeat constructor; cbn; intros; auto; tauto.
Qed.

(** A run ends if the functions add nothing at the end of the hook being run and
    run no hooks. *)
Theorem C70_ends : forall does name_of w k ty H, holds w H ->
  (forall f lg, Forall (fun a => (forall g, a <> Add k g true) /\ forall i t, a <> Run i t) (fst (does f lg))) ->
  exists n x, call_hook does name_of n w k ty = Some x.
Proof.
  intros does name_of w k ty H (L & HL & E) NE. unfold call_hook.
  assert (EV : hook_value w k = match L k with [] => Nil | c :: _ => Cell (fst c) end).
  { destruct HL as (V & _). specialize (V k). unfold hook_value. destruct (var w k); [|rewrite V; auto].
    destruct V as (C & _). destruct (L k) as [|[p x] l]; cbn in *; tauto. }
  rewrite EV. eapply (run_finishes does name_of k NE (length (L k))); eauto. apply cursor_all; auto.
Qed.
Print Assumptions C70_ends.
Definition hk_quiet (f : val) (lg : list val) : list act * ans :=
  match f with
  | Atom 1 => ([Add 0 (Atom 1) false; Add 1 (Atom 1) true], Ret Nil)
  | _ => ([Remove 0 f], Ret (Atom 1))
  end.
Example C70_ends_case :
  (forall f lg, Forall (fun a => (forall g, a <> Add 0 g true) /\ forall i t, a <> Run i t) (fst (hk_quiet f lg))) /\
  exists w', call_hook hk_quiet hk_name 30 hk_world 0 TOr = Some (w', [(Atom 1, Ret Nil); (Atom 2, Ret (Atom 1))], Ret (Atom 1)).
Proof.
  split.
  - intros f lg. unfold hk_quiet. destruct f as [|p|[|[[[]|[]|]|[[]|[]|]|]|]]; repeat constructor; congruence.
  - eexists. vm_compute. reflexivity.
Qed.

(** It need not end otherwise: a function that adds itself at the end again is
    called for ever. *)
Definition hk_again (f : val) (lg : list val) : list act * ans := ([Add 1 f true], Ret Nil).
Lemma hk_again_loop : forall n w res L pre p x l, hooks_are w L -> L 1 = pre ++ (p, x) :: l ->
  call_loop hk_again hk_name n w (Cell p) TNil res = None.
Proof.
  induction n as [|n IH]; intros w res L pre p x l HL EL; [reflexivity|].
  rewrite call_loop_S. cbv zeta. cbn [hk_again].
  assert (V1 : is_list (hp w) (hook_value w 1) (L 1) Nil).
  { destruct HL as (V & _). specialize (V 1). unfold hook_value. destruct (var w 1); auto.
    rewrite V in EL. destruct pre; discriminate. }
  assert (EX : fst (mem (hp w) p) = x).
  { destruct V1 as (V1 & _). rewrite EL in V1. apply chain_app in V1. destruct V1 as (m & _ & V1). apply V1. }
  rewrite EX. destruct n as [|n]; [reflexivity|]. rewrite do_acts_prim by discriminate. cbn [prim].
  destruct (add_hook n (note_call w x) 1 x true) as [|w1|w1] eqn:Ea; [reflexivity| |];
  destruct (add_end_ok (n + S (S (length (L 1)))) (note_call w x) 1 x L HL ltac:(lia)) as (w2 & R & _ & H1 & C1);
  rewrite (add_hook_mono n (n + S (S (length (L 1)))) (note_call w x) 1 x true _ Ea) in R by (congruence || lia); [discriminate|].
  inversion R; subst w2. destruct n as [|n]; [reflexivity|]. rewrite do_acts_nil. cbn [stops].
  set (L1 := putL L 1 (L 1 ++ [(next (hp (note_call w x)), x)])) in *.
  assert (EL1 : L1 1 = (pre ++ [(p, x)]) ++ (l ++ [(next (hp (note_call w x)), x)])).
  { unfold L1, putL. rewrite Nat.eqb_refl, EL, <- !app_assoc. reflexivity. }
  assert (V2 : is_list (hp w1) (hook_value w1 1) (L1 1) Nil).
  { destruct H1 as (V & _). specialize (V 1). unfold hook_value. destruct (var w1 1); auto.
    rewrite V in EL1. destruct pre; discriminate. }
  destruct V2 as (V2 & _). rewrite EL1 in V2. rewrite <- app_assoc in V2. apply chain_app in V2. destruct V2 as (m & _ & V2).
  cbn [app chain] in V2. destruct V2 as (_ & _ & V2).
  destruct (l ++ [(next (hp (note_call w x)), x)]) as [|[q y] l1] eqn:El; [destruct l; discriminate|].
  cbn in V2. destruct V2 as (-> & _). rewrite (IH w1 (Ret Nil) L1 (pre ++ [(p, x)]) q y l1 H1 EL1). reflexivity.
Qed.
Theorem C70_endless_refuted : exists does name_of w k H, holds w H /\ H k <> [] /\
  forall n, call_hook does name_of n w k TNil = None.
Proof.
  exists hk_again, hk_name, hk_world, 1, (fun k => elems (hk_lists k)). split; [exact hk_holds|]. split; [discriminate|].
  intros n. unfold call_hook. exact (hk_again_loop n hk_world (Ret Nil) hk_lists [] 3 (Atom 4) [] hk_are eq_refl).
Qed.
Print Assumptions C70_endless_refuted.

(** A function that has been removed before its turn may still be called: the
    function being called removes itself and then the next one, whose cell is
    still reached through its own. *)
Definition hk_both (f : val) (lg : list val) : list act * ans :=
  match f with
  | Atom 1 => ([Remove 0 (Atom 1); Remove 0 (Atom 2)], Ret Nil)
  | _ => ([], Ret Nil)
  end.
Theorem C70_removed_refuted : exists does name_of w k H f g w', holds w H /\ H k = [f; g; Atom 3] /\ f <> g /\
  does f [] = ([Remove k f; Remove k g], Ret Nil) /\
  call_hook does name_of 30 w k TNil = Some (w', [(f, Ret Nil); (g, Ret Nil); (Atom 3, Ret Nil)], Ret Nil) /\
  holds w' (put H k [Atom 3]).
Proof.
  exists hk_both, hk_name, hk_world, 0, (fun k => elems (hk_lists k)), (Atom 1), (Atom 2).
  eexists. split; [exact hk_holds|]. split; [reflexivity|]. split; [discriminate|]. split; [reflexivity|].
  split; [vm_compute; reflexivity|].
  exists (fun k => match k with 0 => [(2, Atom 3)] | _ => hk_lists k end). split.
  - split; [|split].
    + intros [|[|k]]; cbn; repeat split; try (intros p; discriminate).
    + intros [|[|k]]; repeat constructor.
    + intros [|[|k]] [|[|k']] p N; cbn; intuition lia.
  - intros [|k]; reflexivity.
Qed.
Print Assumptions C70_removed_refuted.

(** Whether a function added at the end is called in the same run depends on
    whether the last function has removed itself. *)
Definition hk_last (remove : bool) (f : val) (lg : list val) : list act * ans :=
  match f with
  | Atom 4 => ((if remove then [Remove 1 (Atom 4)] else []) ++ [Add 1 (Atom 9) true], Ret Nil)
  | _ => ([], Ret Nil)
  end.
Theorem C70_added_refuted : exists w k H f g, holds w H /\ H k = [f] /\
  (forall r, In (Add k g true) (fst (hk_last r f []))) /\
  option_map (fun x => map fst (snd (fst x))) (call_hook (hk_last false) hk_name 30 w k TNil) = Some [f; g] /\
  option_map (fun x => map fst (snd (fst x))) (call_hook (hk_last true) hk_name 30 w k TNil) = Some [f].
Proof.
  exists hk_world, 1, (fun k => elems (hk_lists k)), (Atom 4), (Atom 9).
  split; [exact hk_holds|]. split; [reflexivity|]. split; [intros []; cbn; tauto|]. split; vm_compute; reflexivity.
Qed.
Print Assumptions C70_added_refuted.

(** The lists must be separate: when two hooks hold the same list, adding at the
    end of one adds to the other. *)
Definition hk_shared : world :=
  mk_world (mk_heap hk_mem 4) (fun k => match k with 0 => Some (Cell 0) | 1 => Some (Cell 0) | _ => None end) [].
Theorem C70_shared_refuted : exists w w' v f l, var w 0 = Some v /\ var w 1 = Some v /\
  is_list (hp w) v l Nil /\ ~ In f (elems l) /\
  add_hook 20 w 0 f true = Did w' /\ in_hook_p 20 w' 1 f <> Some Nil /\ var w' 1 = Some v.
Proof.
  exists hk_shared. eexists. exists (Cell 0), (Atom 9), (hk_lists 0). split; [reflexivity|]. split; [reflexivity|].
  split; [repeat split; intros p; discriminate|]. split; [cbn; intuition discriminate|].
  split; [vm_compute; reflexivity|]. split; [vm_compute; discriminate|reflexivity].
Qed.
Print Assumptions C70_shared_refuted.
