(** Ring buffers: the theorems. *)
From Coq Require Import ZArith List Bool Lia.
From Verif Require Import Ring_Model Ring_Spec Ring_Proofs.
Import ListNotations.
Open Scope Z_scope.

(** After any history on a ring of capacity n >= 1, no error has occurred and
    ring-size, ring-ref at every depth and ring->list show the last n items,
    newest first. *)
Theorem C09_ring_keeps_last : forall (V : Type) (nil_ : V) n (os : list (op V)), (0 < n)%nat ->
  exists r, fold_left apply_ring os (Some (make_ring nil_ (Some n))) = Some r /\
    ring_size r = Z.of_nat (length (contents n os)) /\
    ring_capacity r = Z.of_nat n /\
    (forall d, 0 <= d -> ring_ref nil_ r d = Some (nth (Z.to_nat d) (contents n os) nil_)) /\
    (forall d, 1 <= d -> get_from_ring nil_ r (Some d) = Some (nth (Z.to_nat (d - 1)) (contents n os) nil_)) /\
    ring_list nil_ r = Some (contents n os).
Proof.
  intros V nil_ n os Hn. destruct (run_ok nil_ os n _ [] (holds_make nil_ n Hn)) as (r & E & H).
  exists r. split; [exact E|]. split; [apply H|]. split; [unfold ring_capacity; f_equal; apply H|].
  split; [intros d Hd; apply (ref_ok nil_ n r _ d H Hd)|]. split; [|apply (list_ok nil_ n r _ H)].
  intros d Hd. unfold get_from_ring. apply (ref_ok nil_ n r _ (d - 1) H). lia.
Qed.
Print Assumptions C09_ring_keeps_last.
Example C09_case : contents 3 [Replace 9; Append 1; Append 2; Append 3; Replace 4] = [4; 2; 1] /\
  option_map (ring_list 0) (fold_left apply_ring [Replace 9; Append 1; Append 2; Append 3; Replace 4]
     (Some (make_ring 0 (Some 3%nat)))) = Some (Some [4; 2; 1]).
Proof. split; reflexivity. Qed.

(** The contents are the newest items of the whole history: with appends only,
    the last n appended. *)
Theorem C09_contents_meaning : forall (V : Type) n (vs : list V),
  contents n (map Append vs) = firstn n (rev vs).
Proof.
  intros V n vs. unfold contents. induction vs as [|v vs IH] using rev_ind; [destruct n; reflexivity|].
  rewrite map_app, fold_left_app, IH, rev_app_distr. destruct n as [|n]; [reflexivity|].
  change (v :: firstn n (firstn (S n) (rev vs)) = v :: firstn n (rev vs)).
  f_equal. rewrite firstn_firstn. f_equal. lia.
Qed.
Print Assumptions C09_contents_meaning.

(** The documentation says nil is returned when there is no item at the given
    depth; at depth -1 (get-from-ring with depth 0) the oldest item of a full
    ring is returned. *)
Theorem C09_negative_depth_refuted : exists (r : ring (V := Z)) v, v <> 0 /\
  fold_left apply_ring [Append 5; Append 6] (Some (make_ring 0 (Some 2%nat))) = Some r /\
  ring_ref 0 r (-1) = Some v /\ get_from_ring 0 r (Some 0) = Some v.
Proof. eexists. exists 5. repeat split; try discriminate; vm_compute; reflexivity. Qed.
Print Assumptions C09_negative_depth_refuted.
