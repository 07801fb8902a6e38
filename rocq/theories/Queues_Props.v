(** Queues: the theorems. *)
From Coq Require Import ZArith List Bool Arith Lia.
From Verif Require Import Lists_Model Lists_Spec Lists_Proofs Queues_Model Queues_Spec Queues_Proofs.
Import ListNotations.

(** Any program using any number of queues sees exactly what it would see with
    plain first-in first-out lists (elements may be any values, repeated ones
    and the queues' own cells included); the loops always end. *)
Theorem C08_queues_fifo : forall h os, well_named 0 os -> run h [] os = Some (spec_run [] os).
Proof. intros h os H. apply (run_ok os h []); auto. split; constructor. Qed.
Print Assumptions C08_queues_fifo.

Definition ex_ops : list op :=
  [New; New; Enq 0 (Atom 1); Enq 1 (Atom 5); Enq 0 (Atom 2); Enq 0 (Atom 1); Deq 1; Deq 1;
   Enq 1 (Cell 0); Del 0 (Atom 1); Len 0; Enq 0 (Atom 3); ToList 0; Deq 0; Deq 0; EmptyP 0; ToList 1].
Example C08_case : well_named 0 ex_ops /\
  spec_run [] ex_ops =
  [Done; Done; Done; Done; Done; Done; Value (Atom 5); Error; Done; Done; Num 1; Done;
   Elems [Atom 2; Atom 3]; Value (Atom 2); Value (Atom 3); Bool true; Elems [Cell 0]].
Proof. split; [repeat split; simpl; lia|reflexivity]. Qed.

(** queue->list gives out the queue's own cells: a list obtained earlier grows
    when the queue does. *)
Theorem C08_list_is_snapshot_refuted : exists h q v h',
  queue_list h q = v /\ list_elems 9 h v = Some [Atom 1] /\
  enqueue h q (Atom 2) = Some h' /\ list_elems 9 h' v = Some [Atom 1; Atom 2].
Proof.
  exists (mk_heap (fun p => match p with 0 => (Cell 1, Cell 1) | _ => (Atom 1, Nil) end) 2), 0, (Cell 1).
  eexists. repeat split; vm_compute; reflexivity.
Qed.
Print Assumptions C08_list_is_snapshot_refuted.

(** Dequeuing never changes a list obtained earlier, only the queue's own cell. *)
Theorem C08_dequeue_keeps_lists : forall h q h' v, dequeue h q = Some (h', v) ->
  forall p, p <> q -> mem h' p = mem h p.
Proof. exact dequeue_frame. Qed.
Print Assumptions C08_dequeue_keeps_lists.
