(* C24: dynamic bindings; C38: tail calls *)
From Coq Require Import ZArith List Bool Lia.
Import ListNotations.
From Verif Require Import Fluids_Model Fluids_Spec Fluids_Proofs.
Open Scope Z_scope.

(* a program that binds fluid 0 in different ways, assigns it and fluid 1 in the innermost of
   them, leaves by an error from compiled code through an interpreted function, and reads both *)
Definition tour : prog :=
  With [Some 0%nat; Some 2%nat] [10; 20]
    (Lambda [] [(true, 0%nat, 11); (false, 5%nat, 0)]
      (Code [] (Init (Spec 0 12 (Bind (BindErr (fun v => Unbind (Raise v))
        (Init (Fluid 1 13 (Do (Put 0 14 (Put 2 15 (Done (Throw 9)))) Return)))))))
        (fun r => Done r))
      (fun r => Put 1 16 (Done r)))
    (fun r => Get 0 (fun a => Get 1 (fun b => Get 2 (fun c => Done (Val (a * 10000 + b * 100 + c)))))).

(* Every program behaves, on its way and to the end, as if each binding remembered the old value
   and put it back at its end, whether by return, throw, error or the invocation of a
   continuation; nothing is read that is not there.
   Partial: srun gives no meaning where an argument of with-fluids but not the first is not a fluid,
   or a frame has 65536 lexicals (C24_with_fluids_refuted, C24_frame_refuted), or compiled code does
   not keep to its own frames.  Continuations are only used to escape; restricted special
   environments and buffer-local values are not modelled. *)
Theorem C24_dynamic_binding_partial : forall n d gl e p g' r, srun n gl p = Some (g', r) ->
  exists s', run n d (init gl e) p = Ok s' r /\ (finished r -> forall x, value s' x = g' x).
Proof.
  intros n d gl e p g' r R. destruct (undone n d (init gl e) p g' r) as (s' & E & H); [split; [constructor | intros a []] | exact R |].
  exists s'. split; auto. intros F x. apply (H F).
Qed.
Print Assumptions C24_dynamic_binding_partial.

Example C24_tour : match srun 30 (fun x => Z.of_nat x) tour with Some (g, Val v) => v = 1602 /\ g 0%nat = 0 /\ g 1%nat = 16 | _ => False end.
Proof. vm_compute. repeat split. Qed.

(* The same from any state: when code has finished the list of bindings and the environment are
   what they were, the same cells in the same order. *)
Theorem C24_undone_partial : forall n d s p g' r, wf s -> srun n (value s) p = Some (g', r) ->
  exists s', run n d s p = Ok s' r /\ (finished r -> spec s' = spec s /\ env_of s' = env_of s /\ wf s' /\ forall x, value s' x = g' x).
Proof. exact undone. Qed.
Print Assumptions C24_undone_partial.

(* Fluids bound by with-fluids have their old values afterwards, whatever the thunk did. *)
Theorem C24_with_fluids_partial : forall n d s fs vs thunk g' r, wf s -> length fs = length vs -> (forall f, In f fs -> f <> None) ->
  srun n (value s) (With fs vs thunk Done) = Some (g', r) -> finished r ->
  exists s', run n d s (With fs vs thunk Done) = Ok s' r /\ forall f, In (Some f) fs -> value s' f = value s f.
Proof.
  intros n d s fs vs thunk g' r W L NN R F. destruct (undone n d s _ g' r W R) as (s' & E & H). exists s'. split; auto.
  destruct (H F) as (_ & _ & _ & V). intros f I. rewrite V. destruct n as [| n]; [discriminate |]. cbn [srun] in R. apply Nat.eqb_eq in L. rewrite L in R.
  assert (R' : match fluids fs vs with Some l => match srun n (bind (value s) l) thunk with
    | Some (g1, Esc m v) => Some (restore l (value s) g1, Esc m v) | Some (g1, q) => srun n (restore l (value s) g1) (Done q) | None => None end | None => None end = Some (g', r)).
  { destruct fs as [| [x |] fs]; auto. exfalso. apply (NN None); auto. left; auto. }
  assert (FL : forall fs vs l, fluids fs vs = Some l -> In (Some f) fs -> existsb (fun p => Nat.eqb (fst p) f) l = true).
  { clear. induction fs as [| [x |] fs IH]; intros [| v vs] l H I; try discriminate; [destruct I |]. cbn in H. destruct (fluids fs vs) as [l' |] eqn:E; [| discriminate].
    injection H as <-. cbn. destruct I as [I | I]; [injection I as ->; now rewrite Nat.eqb_refl | rewrite (IH _ _ E I); apply orb_true_r]. }
  destruct (fluids fs vs) as [l |] eqn:EF; [| discriminate]. specialize (FL _ _ _ EF I). clear R.
  destruct (srun n (bind (value s) l) thunk) as [[g1 q] |]; [| discriminate].
  destruct q; [destruct n; [discriminate |]; cbn in R'; injection R' as <- <- | destruct n; [discriminate |]; cbn in R'; injection R' as <- <- | injection R' as <- <-]; unfold restore; now rewrite FL.
Qed.
Print Assumptions C24_with_fluids_partial.

Example C24_with_fluids_case : exists g', srun 5 (value (init (fun _ => 7) [])) (With [Some 3%nat; Some 4%nat] [1; 2] (Put 3 5 (Put 6 8 (Done (Throw 1)))) Done) = Some (g', Throw 1) /\ g' 3%nat = 7 /\ g' 6%nat = 8.
Proof. eexists. split; [reflexivity |]. split; reflexivity. Qed.

(* Compiled code leaves no bindings behind, even if it does not remove those it makes. *)
Example C24_unbalanced_case : exists g', srun 9 (fun _ => 7) (Code [] (Init (Spec 3 1 (Init (Fluid 3 2 (Return 0))))) Done) = Some (g', Val 0) /\ g' 3%nat = 7.
Proof. eexists. split; reflexivity. Qed.

(* An argument of with-fluids that is not a fluid is noticed after bindings have been made; they are
   not removed.  After the error the fluid keeps the value the failed call was to give it; and
   the function around removes that binding instead of its own. *)
Theorem C24_with_fluids_refuted : exists gl p s', run 9 0 (init gl []) p = Ok s' (Val 1) /\ gl 0%nat = 0 /\
  p = With [Some 0%nat; None] [1; 2] (Done (Val 0)) (fun _ => Get 0 (fun v => Done (Val v))) /\ spec s' <> [].
Proof.
  eexists (fun _ => 0), (With [Some 0%nat; None] [1; 2] (Done (Val 0)) (fun _ => Get 0 (fun v => Done (Val v)))), _.
  split; [reflexivity |]. split; [reflexivity |]. split; [reflexivity | discriminate].
Qed.
Print Assumptions C24_with_fluids_refuted.
Theorem C24_leak_refuted : exists gl p s', run 9 0 (init gl []) p = Ok s' (Val 5) /\ gl 3%nat = 0 /\
  p = Lambda [] [(true, 3%nat, 5)] (With [Some 0%nat; None] [1; 2] (Done (Val 0)) (fun _ => Done (Val 0))) (fun _ => Get 3 (fun v => Done (Val v))).
Proof.
  eexists (fun _ => 0), (Lambda [] [(true, 3%nat, 5)] (With [Some 0%nat; None] [1; 2] (Done (Val 0)) (fun _ => Done (Val 0))) (fun _ => Get 3 (fun v => Done (Val v)))), _.
  split; [reflexivity |]. split; reflexivity.
Qed.
Print Assumptions C24_leak_refuted.

(* A call with 65536 lexical parameters is taken for one with a special: the fluid bound
   around it has lost its binding. *)
Theorem C24_frame_refuted : exists p s', run 9 0 (init (fun _ => 0) []) p = Ok s' (Val 0) /\
  p = With [Some 0%nat] [1] (Lambda [] (repeat (false, 0%nat, 0) (Z.to_nat 65536)) (Done (Val 0)) (fun _ => Get 0 (fun v => Done (Val v)))) Done.
Proof.
  eexists (With [Some 0%nat] [1] (Lambda [] (repeat (false, 0%nat, 0) (Z.to_nat 65536)) (Done (Val 0)) (fun _ => Get 0 (fun v => Done (Val v)))) Done), _.
  split; [vm_compute; reflexivity | reflexivity].
Qed.
Print Assumptions C24_frame_refuted.

(* With the same fluid twice, compiled let-fluids makes the first value visible, with-fluids the last. *)
Theorem C24_let_fluids_refuted : exists l body s1 s2, run 9 0 (init (fun _ => 0) []) (With (map (fun p => Some (fst p)) l) (map snd l) body Done) = Ok s1 (Val 2) /\
  run 9 0 (init (fun _ => 0) []) (Code [] (let_fluids l body) Done) = Ok s2 (Val 1).
Proof. eexists [(0%nat, 1); (0%nat, 2)], (Get 0 (fun v => Done (Val v))), _, _. split; reflexivity. Qed.
Print Assumptions C24_let_fluids_refuted.

(* C38: a chain of tail calls, of any length, between compiled functions with lexical variables runs in
   the depth of the first. *)
Theorem C38_loop : forall k x n d s, (7 * k < n)%nat -> exists s', vrun n d s [Frame 0] 0 (loop false x k) = Ok s' (Val 0) /\ deep s' = deep s.
Proof. exact loop_run. Qed.
Print Assumptions C38_loop.
(* If each had a handler before, that is no more in force at the call, the depth is their number:
   unbind does not count handlers when it removes them. *)
Theorem C38_after_handler_refuted : forall k x n d s, (9 * k < n)%nat -> (d <= deep s)%nat ->
  exists s', vrun n d s [Frame 0] 0 (loop true x k) = Ok s' (Val 0) /\ (d + k <= deep s')%nat.
Proof. exact loop_handler. Qed.
Print Assumptions C38_after_handler_refuted.
(* Eliminating a call never loses a binding: that it behaves as a call followed by a return is part of
   C24_dynamic_binding_partial.  Here the specials of the caller are still bound in the callee. *)
Example C38_special_case : exists s', run 12 0 (init (fun _ => 0) []) (Code [] (Init (Spec 0 1 (Tail [] (Do (Get 0 (fun v => Done (Val v))) Return)))) Done) = Ok s' (Val 1) /\ spec s' = [].
Proof. eexists. split; reflexivity. Qed.
