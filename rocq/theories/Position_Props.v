(** C94: position always ends, also on circular lists, and gives the first place. *)

From Coq Require Import ZArith List Bool Lia.
From Verif Require Import Position_Model Position_Spec Position_Proofs.
Import ListNotations.

(** Whatever lists there are in a finite heap, ending or circular, with any tail before
    the circle: position ends; it gives the first place of the item, or #f when the item
    is at no place of the list, however far one follows it. *)
Theorem C94_position : forall h l, finite h -> exists r, (exists fuel, forall more, fuel <= more -> position more h l = Some r) /\
  match r with
  | Some i => at_place h l i /\ forall k, k < i -> ~ at_place h l k
  | None => forall k, ~ at_place h l k
  end.
Proof.
  intros h l (n & Fin). pose proof (loop_ends h l n Fin) as E.
  destruct (position (S (n * S n)) h l) as [r|] eqn:P; [|congruence].
  exists r. split.
  - exists (S (n * S n)). intros more M. exact (fuel_more _ _ _ _ _ _ P more M).
  - apply (loop_right h l (S (n * S n)) 0 l l r); [split; intros m; reflexivity|intros k K; lia|exact P].
Qed.
Print Assumptions C94_position.

(** Whenever it ends it is right, in an infinite heap too. *)
Theorem C94_right : forall h l fuel r, position fuel h l = Some r ->
  match r with
  | Some i => at_place h l i /\ forall k, k < i -> ~ at_place h l k
  | None => forall k, ~ at_place h l k
  end.
Proof.
  intros h l fuel r P. apply (loop_right h l fuel 0 l l r); [split; intros m; reflexivity|intros k K; lia|exact P].
Qed.
Print Assumptions C94_right.

(** Cells 0 1 2 3 4 and from 4 back to 2 *)
Definition rho (hit : nat) : heap := fun c =>
  if Nat.ltb c 5 then Some (Nat.eqb c hit, if Nat.eqb c 4 then 2 else S c) else None.
Example case_circular : finite (rho 9) /\ endless (rho 9) 0 /\ position 6 (rho 9) 0 = Some None /\ position 6 (rho 4) 0 = Some (Some 4).
Proof.
  split; [exists 5; intros c H; unfold rho; replace (Nat.ltb c 5) with false by (symmetry; apply Nat.ltb_ge; lia); reflexivity|].
  split; [|vm_compute; auto].
  assert (E : forall k c, c < 5 -> nth_cell (rho 9) c k <> None).
  { induction k as [|k IH]; intros c H; do 5 (destruct c as [|c]; [cbn; first [discriminate|apply IH; lia]|]); lia. }
  intros k. apply E. lia.
Qed.

(** option-index gives the first place of an option that is alone or heads a list. *)
Theorem C94_option_index : forall lst x, match option_index lst x 0 with
  | Some k => nth_error (map chosen lst) k = Some x /\ ~ In x (firstn k (map chosen lst))
  | None => ~ In x (map chosen lst)
  end.
Proof.
  intros lst x. pose proof (option_index_spec lst x 0) as H. destruct (option_index lst x 0) as [k|]; [|exact H].
  rewrite Nat.sub_0_r in H. apply H.
Qed.
Print Assumptions C94_option_index.
Example case_option : option_index [Alone 3; Heading 5; Alone 5] 5 0 = Some 1.
Proof. reflexivity. Qed.

(** remove-newlines puts a space for each newline and changes nothing else. *)
Theorem C94_remove_newlines : forall t, remove_newlines t = Some (spaced t).
Proof. intros t. unfold remove_newlines. rewrite newlines_run by lia. reflexivity. Qed.
Print Assumptions C94_remove_newlines.
Example case_newlines : remove_newlines [10; 97; 10; 10; 98]%Z = Some [32; 97; 32; 32; 98]%Z.
Proof. reflexivity. Qed.
