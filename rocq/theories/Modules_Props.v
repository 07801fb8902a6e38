From Coq Require Import List ZArith Bool Arith Lia.
From Verif Require Import Modules_Model Modules_Spec Modules_Proofs Modules_Steps Modules_Run Modules_Shared.
Import ListNotations.
Open Scope nat_scope.

(** C48.  Whatever a program does with modules, each answer is the one the
    current modules give: the cache cannot be noticed, and no freed binding
    is used.  Missing (partial): definitions may be taken away from, and
    everything exported by, only modules that nobody has opened (see the
    refutations), the answers are said only for modules that do not import
    themselves, directly or not, and the header of make-structure is left out. *)
Theorem C48_modules_partial : forall hash ops, proper nothing ops ->
  exists l st U, run hash initial ops = Ok (l, st) /\ meaning nothing ops l U.
Proof.
  intros hash ops P. destruct (run_good hash ops initial nothing (init_inv hash) P) as (l & st & U & E & M & _). eauto.
Qed.
Print Assumptions C48_modules_partial.

(** The meaning of a symbol in a module is one thing *)
Theorem C48_one_meaning : forall U s v r r', denotes U s v r -> denotes U s v r' -> r = r'.
Proof. exact denotes_fun. Qed.
Print Assumptions C48_one_meaning.

(** ... and where no module is below itself there is always one *)
Theorem C48_has_meaning_partial : forall hash ops, proper nothing ops ->
  exists l st U, run hash initial ops = Ok (l, st) /\ meaning nothing ops l U /\
    forall s v, mods U s <> None -> grounded U s -> exists r, denotes U s v r.
Proof.
  intros hash ops P. destruct (run_good hash ops initial nothing (init_inv hash) P) as (l & st & U & E & M & IV).
  exists l, st, U. split; [exact E|]. split; [exact M|]. intros s v A G.
  destruct (mods U s) as [m|] eqn:MS; [|congruence].
  destruct (ref_spec hash st U s m v IV MS) as (x & r0 & r & c' & _ & _ & _ & _ & _ & D). destruct (D G) as (ro & D1 & _). eauto.
Qed.
Print Assumptions C48_has_meaning_partial.

(** A program for the theorems: module 0 exports 5 and opens nothing, module
    1 opens it and passes 5 on, module 2 sees it, and its changes *)
Definition demo : list op :=
  [Make [5] (Some 10); Define 0 5 7%Z; Make [5] (Some 11); Open 1 [ByName 10]; Make [] None; Open 2 [ByName 11];
   Ref 2 5; Define 0 5 8%Z; Ref 2 5; Ref 2 6; Define 1 5 9%Z; Ref 2 5; Ref 0 5].
Example C48_example : exists st, run (fun v => v) initial demo =
  Ok ([New 0; Value (Some 7%Z); New 1; Done; New 2; Done; Value (Some 7%Z); Value (Some 8%Z); Value (Some 8%Z); Value None;
       Value (Some 9%Z); Value (Some 9%Z); Value (Some 8%Z)], st).
Proof. eexists. vm_compute. reflexivity. Qed.
Example C48_example_proper : proper nothing demo.
Proof.
  unfold demo.
  repeat (apply proper_cons;
    [cbn; repeat (match goal with |- _ /\ _ => split end); try discriminate; try exact I; intros ? H; repeat (destruct H as [H|H]; [discriminate|]); contradiction
    |let a := fresh in let U1 := fresh in let D := fresh "D" in intros a U1 D; inversion D; subst; clear D;
     repeat match goal with H : opening _ (_ :: _) _ _ _ |- _ => inversion H; subst; clear H | H : opening _ [] _ _ _ |- _ => inversion H; subst; clear H end]);
  try apply proper_nil.
Qed.

(** C49.  Definitions in a module that another one does not reach change
    nothing in it. *)
Theorem C49_isolation_partial : forall hash ops, proper nothing ops ->
  exists l st U, run hash initial ops = Ok (l, st) /\ meaning nothing ops l U /\
    forall s v a t u, mods U s <> None -> mods U t <> None -> grounded U t -> ~ below U t s ->
      exists x y st1 st2, run hash st [Ref t u] = Ok ([x], st1) /\ run hash st [Define s v a; Ref t u] = Ok ([y; x], st2).
Proof.
  intros hash ops P. destruct (run_good hash ops initial nothing (init_inv hash) P) as (l & st & U & E & M & IV).
  exists l, st, U. split; [exact E|]. split; [exact M|]. intros s v a t u AS AT G NB. exact (isolation hash st U s v a t u IV AS AT G NB).
Qed.
Print Assumptions C49_isolation_partial.

(** A value that is seen in a module was defined there, or in a module below
    it that exports it. *)
Theorem C49_hidden_partial : forall hash ops, proper nothing ops ->
  exists l st U, run hash initial ops = Ok (l, st) /\ meaning nothing ops l U /\
    forall s v x st', mods U s <> None -> grounded U s -> run hash st [Ref s v] = Ok ([Value (Some x)], st') ->
      exists o m e, mods U o = Some m /\ defs m v = Some e /\ value e = x /\ (o = s \/ exported e = true /\ below U s o).
Proof.
  intros hash ops P. destruct (run_good hash ops initial nothing (init_inv hash) P) as (l & st & U & E & M & IV).
  exists l, st, U. split; [exact E|]. split; [exact M|]. intros s v x st' A G RUN. exact (hidden hash st U s v x st' IV A G RUN).
Qed.
Print Assumptions C49_hidden_partial.

(** * Findings *)
Definition answers (r : res (list answer * state)) : option (list answer) := match r with Ok (l, _) => Some l | _ => None end.
Definition last_answer (r : res (list answer * state)) : option answer := match r with Ok (l, _) => nth_error (rev l) 0 | _ => None end.

(** When modules import each other, what a symbol means depends on which
    module was asked first *)
Definition ring : list op :=
  [Make [5] (Some 10); Make [5] (Some 11); Make [5] (Some 12); Make [5] (Some 13); Define 2 5 1%Z; Define 3 5 2%Z;
   Open 0 [ByName 13; ByName 11]; Open 1 [ByName 12; ByName 10]].
Theorem C48_cycle_refuted : exists hash ops s t v x y, x <> y /\
  last_answer (run hash initial (ops ++ [Ref s v])) = Some x /\ last_answer (run hash initial (ops ++ [Ref t v; Ref s v])) = Some y.
Proof.
  exists (fun v => v), ring, 1, 0, 5, (Value (Some 1%Z)), (Value (Some 2%Z)). split; [discriminate|]. split; vm_compute; reflexivity.
Qed.
Print Assumptions C48_cycle_refuted.

(** structure-exports-all on a module that is in use: the cache still has
    what another module offered *)
Definition all_ops : list op :=
  [Make [] (Some 10); Make [5] (Some 11); Make [5] (Some 12); Define 1 5 1%Z; Define 2 5 2%Z; Open 0 [ByName 12];
   Make [] None; Open 3 [ByName 11; ByName 10]].
Theorem C48_export_all_refuted : exists hash ops s t v x y, x <> y /\
  last_answer (run hash initial (ops ++ [ExportAll s; Ref t v])) = Some x /\
  last_answer (run hash initial (ops ++ [Ref t v; ExportAll s; Ref t v])) = Some y.
Proof.
  exists (fun v => v), all_ops, 0, 3, 5, (Value (Some 2%Z)), (Value (Some 1%Z)). split; [discriminate|]. split; vm_compute; reflexivity.
Qed.
Print Assumptions C48_export_all_refuted.

(** Taking away a definition that is in the cache: the freed binding is read *)
Theorem C48_undefine_refuted : exists hash ops s v, run hash initial (ops ++ [Undefine s v]) = Wild /\
  answers (run hash initial ops) <> None.
Proof.
  exists (fun v => v), [Make [5] (Some 10); Define 0 5 7%Z; Make [] None; Open 1 [ByName 10]; Ref 1 5], 0, 5.
  split; [vm_compute; reflexivity|vm_compute; discriminate].
Qed.
Print Assumptions C48_undefine_refuted.

(** The module %meta is seen in the body of a module, after it was taken from
    the imports, if it was used in the header *)
Theorem C48_meta_refuted : exists hash ops s nm v x,
  last_answer (run hash initial (ops ++ [Meta s nm; Ref s v; Unmeta s nm; Ref s v])) = Some (Value (Some x)) /\
  last_answer (run hash initial (ops ++ [Meta s nm; Unmeta s nm; Ref s v])) = Some (Value None).
Proof.
  exists (fun v => v), [Make [5] (Some 10); Define 0 5 7%Z; Make [] None], 1, 10, 5, 7%Z. split; vm_compute; reflexivity.
Qed.
Print Assumptions C48_meta_refuted.

(** A definition that is made again is not exported any more *)
Theorem C49_redefine_refuted : exists hash ops s v a,
  last_answer (run hash initial (ops ++ [Define s v a; ExportsP s v])) = Some (Exports true false) /\
  last_answer (run hash initial (ops ++ [Define s v a; Undefine s v; Define s v a; ExportsP s v])) = Some (Exports false false).
Proof. exists (fun v => v), [Make [5] (Some 10)], 0, 5, 7%Z. split; vm_compute; reflexivity. Qed.
Print Assumptions C49_redefine_refuted.

(** * C50: interfaces *)
(** Definitions of all that an interface names, in any order, are exported by
    the module that has it *)
Theorem C50_delivered_partial : forall h a l defs fuel, list_at fuel h a = Some l -> NoDup defs ->
  exists h', deliver (S fuel) h a defs = Some (map (fun v => memq v l) defs, h').
Proof. exact delivered. Qed.
Print Assumptions C50_delivered_partial.
(** In the order of the interface, or when it is left untouched, another
    module may use it too *)
Theorem C50_in_order_partial : forall h a l fuel, list_at fuel h a = Some l -> NoDup l ->
  deliver (S fuel) h a l = Some (map (fun _ => true) l, h).
Proof. exact in_order. Qed.
Print Assumptions C50_in_order_partial.
(** In another order, the next module with the same interface does not export
    all of it *)
Theorem C50_shared_refuted : exists h a l defs fuel h',
  list_at fuel h a = Some l /\ NoDup l /\ (forall v, In v l <-> In v defs) /\
  deliver fuel h a defs = Some (map (fun _ => true) defs, h') /\
  exists r h'', deliver fuel h' a defs = Some (r, h'') /\ In false r.
Proof.
  exists [(5, Some 1); (6, None)], (Some 0), [5; 6], [6; 5], 9. eexists. split; [vm_compute; reflexivity|].
  split; [repeat constructor; cbn; intuition discriminate|]. split; [cbn; tauto|].
  split; [vm_compute; reflexivity|]. eexists; eexists. split; [vm_compute; reflexivity|]. left. reflexivity.
Qed.
Print Assumptions C50_shared_refuted.
Example C50_example : deliver 9 [(5, Some 1); (6, Some 2); (7, None)] (Some 0) [6; 7; 5; 8] = Some ([true; true; true; false], [(5, None); (6, Some 2); (7, None)]).
Proof. vm_compute. reflexivity. Qed.
