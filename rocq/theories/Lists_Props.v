(** The list functions: the theorems. *)
From Coq Require Import ZArith List Bool Arith Lia.
From Verif Require Import Lists_Model Lists_Spec Lists_Proofs.
Import ListNotations.

(** The heap of the examples: cells 0 to 2 are (1 2 1), 3 and 4 are (7 8 . 9),
    cell 5 is (1 . nil). *)
Definition ex_mem (p : nat) : val * val :=
  match p with
  | 0 => (Atom 1, Cell 1) | 1 => (Atom 2, Cell 2) | 2 => (Atom 1, Nil)
  | 3 => (Atom 7, Cell 4) | 4 => (Atom 8, Atom 9) | _ => (Atom 1, Nil)
  end.
Definition ex_heap : heap := mk_heap ex_mem 6.
Definition ex_l : list (nat * val) := [(0, Atom 1); (1, Atom 2); (2, Atom 1)].
Example ex_is_list : is_list ex_heap (Cell 0) ex_l Nil /\ allocated ex_heap ex_l /\
  is_list ex_heap (Cell 3) [(3, Atom 7); (4, Atom 8)] (Atom 9).
Proof. repeat split; try (intros p; discriminate). repeat constructor. Qed.

(** nreverse: the cells of the list in reverse order, every car kept, no other
    cell touched (an ending other than nil is lost). *)
Theorem C29_nreverse : forall fuel h v l e,
  is_list h v l e -> listp v = true -> length l < fuel ->
  exists h' v', nreverse fuel h v = Some (h', v') /\
    is_list h' v' (rev l) Nil /\ only_cdrs_of (addrs l) h h'.
Proof. intros. eapply nreverse_ok; eauto. Qed.
Print Assumptions C29_nreverse.

(** reverse: a list of new cells, nothing that existed is touched. *)
Theorem C29_reverse : forall fuel h v l e,
  is_list h v l e -> listp v = true -> allocated h l -> length l < fuel ->
  exists h' v' l', reverse fuel h v = Some (h', v') /\ is_list h' v' l' Nil /\
    elems l' = rev (elems l) /\ fresh h l' /\ heap_kept h h'.
Proof.
  intros fuel h v l e (H & N) L A F. unfold reverse. rewrite L.
  destruct (reverse_loop_ok l fuel h h Nil [] v e (building_start h Nil) H N A F) as (h' & v' & l' & R & B & E).
  rewrite app_nil_r in B. destruct B as (C & Fr & _ & K & _).
  exists h', v', l'. repeat split; auto; try (intros p; discriminate); apply Fr.
Qed.
Print Assumptions C29_reverse.

(** append: new cells holding the elements of all arguments but the last,
    followed by the last argument itself; nothing that existed is touched. *)
Theorem C29_append : forall fuel h args last ll le,
  Forall (arg_ok h) args -> is_list h last ll le -> allocated h ll ->
  Forall (fun a => length (arg_cells a) < fuel) args -> length ll < fuel ->
  exists h' v' l', append fuel h (map arg_val args ++ [last]) = Some (h', v') /\
    chain h' v' l' last /\ elems l' = concat (map (fun a => elems (arg_cells a)) args) /\
    fresh h l' /\ heap_kept h h'.
Proof.
  intros fuel h args last ll le HA HL AL HF FL.
  destruct (append_loop_ok args last ll le fuel h h Nil [] Nil (building_start h Nil)) as (h' & v' & l' & R & B & E);
    auto; [intros p; discriminate|]. destruct B as (C & Fr & _ & K & _).
  exists h', v', l'. split; [exact R|]. split; [exact C|]. split; [exact E|]. split; [exact Fr|exact K].
Qed.
Print Assumptions C29_append.
Example C29_append_case :
  Forall (arg_ok ex_heap) [(Cell 0, ex_l, Nil); (Nil, [], Nil); (Cell 5, [(5, Atom 1)], Nil)] /\
  option_map (fun r => (snd r, map (fun p => mem (fst r) p) [6; 7; 8; 9]))
    (append 9 ex_heap [Cell 0; Nil; Cell 5; Cell 3]) =
  Some (Cell 6, [(Atom 1, Cell 7); (Atom 2, Cell 8); (Atom 1, Cell 9); (Atom 1, Cell 3)]).
Proof.
  split; [|reflexivity]. repeat constructor; try (intros p; discriminate).
Qed.

(** nconc: the cells of all arguments but the last joined in order and followed
    by the last argument; only their cdrs can change.  The lists must not
    share cells (see the refutation below). *)
Theorem C29_nconc : forall fuel h args last ll le,
  Forall (fun a => is_list h (arg_val a) (arg_cells a) (arg_end a) /\ listp (arg_val a) = true) args ->
  is_list h last ll le -> NoDup (addrs (concat (map arg_cells args) ++ ll)) ->
  Forall (fun a => length (arg_cells a) < fuel) args -> length ll < fuel ->
  exists h' v', nconc fuel h (map arg_val args ++ [last]) = Some (h', v') /\
    is_list h' v' (concat (map arg_cells args) ++ ll) le /\
    only_cdrs_of (addrs (concat (map arg_cells args))) h h'.
Proof.
  intros fuel h args last ll le HA HL ND HF FL. rewrite addrs_app in ND. apply nodup_app in ND.
  destruct ND as (N1 & N2 & N3).
  destruct (nconc_loop_ok args last ll le fuel h Nil [] Nil eq_refl) as (h' & v' & R & C & O); auto;
    [intros p; discriminate|]. cbn [app] in C, O.
  exists h', v'. split; [exact R|]. split; [|exact O]. split; [|exact (proj2 HL)].
  apply chain_app. exists last. split; auto. eapply chain_frame; [|exact (proj1 HL)].
  intros p Hp. apply O. intros I. exact (N3 p I Hp).
Qed.
Print Assumptions C29_nconc.
Example C29_nconc_case :
  option_map (fun r => (snd r, map (fun p => mem (fst r) p) [0; 1; 2; 3; 4; 5]))
    (nconc 9 ex_heap [Cell 0; Nil; Cell 5; Cell 3]) =
  Some (Cell 0, [(Atom 1, Cell 1); (Atom 2, Cell 2); (Atom 1, Cell 5);
                 (Atom 7, Cell 4); (Atom 8, Atom 9); (Atom 1, Cell 3)]).
Proof. reflexivity. Qed.

(** (nconc l l) never returns. *)
Theorem C29_nconc_shared_refuted : exists h v l,
  is_list h v l Nil /\ forall fuel, nconc fuel h [v; v] = None.
Proof.
  exists ex_heap, (Cell 5), [(5, Atom 1)]. split; [repeat split; intros p; discriminate|].
  intros fuel. destruct fuel as [|[|fuel]]; [reflexivity|reflexivity|].
  change (match to_end (S (S fuel)) (set_cdr ex_heap 5 (Cell 5)) (Cell 5) (PCdr 5) with
          | Some e => nconc_loop (S (S fuel)) (set_cdr ex_heap 5 (Cell 5)) (Cell 5) e [] | None => None end = None).
  rewrite to_end_cycle by reflexivity. reflexivity.
Qed.
Print Assumptions C29_nconc_shared_refuted.

(** delete, delq, delete-if: exactly the cells whose element does not pass the
    test, in order; removed and foreign cells are not touched, no car changes. *)
Theorem C29_delete : forall del fuel h v l e,
  is_list h v l e -> listp v = true -> length l < fuel ->
  exists h' v', delete_by fuel del h v = Some (h', v') /\
    let kept := filter (fun c => negb (del (snd c))) l in
    is_list h' v' kept e /\ only_cdrs_of (addrs kept) h h'.
Proof. intros. apply delete_by_ok; auto. Qed.
Print Assumptions C29_delete.

Theorem C29_delq : forall fuel h x v l e,
  is_list h v l e -> listp v = true -> length l < fuel ->
  exists h' v' kept, delq fuel h x v = Some (h', v') /\
    is_list h' v' kept e /\ only_cdrs_of (addrs kept) h h' /\
    (forall c, In c kept <-> In c l /\ snd c <> x).
Proof.
  intros fuel h x v l e H L F. destruct (delete_by_ok (val_eqb x) fuel h v l e H L F) as (h' & v' & R & C & O).
  exists h', v', (filter (keep (val_eqb x)) l). repeat split; auto; try apply C; try apply O.
  - apply filter_In in H0. tauto.
  - apply filter_In in H0. destruct H0 as [_ H0]. unfold keep in H0. intros <-.
    rewrite (proj2 (val_eqb_eq _ _) eq_refl) in H0. discriminate.
  - intros [H1 H2]. apply filter_In. split; auto. unfold keep.
    destruct (val_eqb x (snd c)) eqn:E; auto. apply val_eqb_eq in E. congruence.
Qed.
Print Assumptions C29_delq.
Example C29_delq_case :
  option_map (fun r => (snd r, map (fun p => mem (fst r) p) [0; 1; 2]))
    (delq 9 ex_heap (Atom 1) (Cell 0)) =
  Some (Cell 1, [(Atom 1, Cell 1); (Atom 2, Nil); (Atom 1, Nil)]).
Proof. reflexivity. Qed.

Theorem C29_delete_if_not : forall pred fuel h v l e,
  is_list h v l e -> listp v = true -> length l < fuel ->
  exists h' v', delete_if_not fuel pred h v = Some (h', v') /\
    is_list h' v' (filter (fun c => pred (snd c)) l) e /\
    only_cdrs_of (addrs (filter (fun c => pred (snd c)) l)) h h'.
Proof.
  intros pred fuel h v l e H L F. unfold delete_if_not.
  destruct (delete_by_ok (fun x => negb (pred x)) fuel h v l e H L F) as (h' & v' & R & C & O).
  exists h', v'. assert (E : filter (keep (fun x => negb (pred x))) l = filter (fun c => pred (snd c)) l).
  { apply filter_ext. intros c. unfold keep. apply negb_involutive. }
  rewrite E in *. auto.
Qed.
Print Assumptions C29_delete_if_not.

(** filter and mapcar (with functions that have no side effects) build new
    lists and touch nothing. *)
Theorem C29_filter : forall pred fuel h v l e,
  is_list h v l e -> listp v = true -> allocated h l -> length l < fuel ->
  exists h' v' l', filter_list fuel pred h v = Some (h', v') /\ is_list h' v' l' Nil /\
    elems l' = filter pred (elems l) /\ fresh h l' /\ heap_kept h h'.
Proof.
  intros pred fuel h v l e (H & N) L A F. unfold filter_list. rewrite L.
  destruct (filter_loop_ok pred l fuel h h Nil [] v e (building_start h Nil) H N A F) as (h' & v' & l' & R & B & E).
  destruct B as (C & Fr & _ & K & _).
  exists h', v', l'. repeat split; auto; try (intros p; discriminate); apply Fr.
Qed.
Print Assumptions C29_filter.

Theorem C29_mapcar : forall f fuel h v l e,
  is_list h v l e -> listp v = true -> allocated h l -> length l < fuel ->
  exists h' v' l', mapcar fuel f h v = Some (h', v') /\ is_list h' v' l' Nil /\
    elems l' = map f (elems l) /\ fresh h l' /\ heap_kept h h'.
Proof.
  intros f fuel h v l e (H & N) L A F. unfold mapcar. rewrite L.
  destruct (mapcar_loop_ok f l fuel h h Nil [] v e (building_start h Nil) H N A F) as (h' & v' & l' & R & B & E).
  destruct B as (C & Fr & _ & K & _).
  exists h', v', l'. repeat split; auto; try (intros p; discriminate); apply Fr.
Qed.
Print Assumptions C29_mapcar.

(** copy-sequence of a list *)
Theorem C29_copy : forall fuel h v l e,
  is_list h v l e -> allocated h l -> length l < fuel ->
  exists h' v' l', copy_list fuel h v = Some (h', v') /\ is_list h' v' l' e /\
    elems l' = elems l /\ fresh h l' /\ heap_kept h h'.
Proof.
  intros fuel h v l e H A F. destruct (copy_list_ok fuel h v l e H A F) as (h' & v' & l' & R & B & E).
  destruct B as (C & Fr & _ & K & _). destruct H as (H & N).
  exists h', v', l'. repeat split; auto; apply Fr.
Qed.
Print Assumptions C29_copy.

(** length, nth, last, member and assoc read the list as expected. *)
Theorem C29_length : forall fuel h v l e, is_list h v l e -> length l < fuel ->
  length_loop fuel h v 0 = Some (Z.of_nat (length l)).
Proof. intros fuel h v l e (H & N) F. exact (length_loop_ok l fuel h v e 0 H N F). Qed.
Print Assumptions C29_length.

(** Full claim: for every index.  Missing: indexes of 2^31 and more. *)
Theorem C29_nth_partial : forall h v l e i,
  is_list h v l e -> listp v = true -> (0 <= i < 2147483648)%Z ->
  nth_elt h i v = Some (nth (Z.to_nat i) (elems l) Nil).
Proof. intros. eapply nth_ok; eauto. Qed.
Print Assumptions C29_nth_partial.
Example C29_nth_case : nth_elt ex_heap 1 (Cell 0) = Some (Atom 2) /\ nth_elt ex_heap 7 (Cell 0) = Some Nil.
Proof. split; reflexivity. Qed.

(** (nth 4294967297 '(1 2 1)) is 2, and (nth 2147483648 ...) an error. *)
Theorem C29_nth_refuted : exists h v l i j,
  is_list h v l Nil /\ (Z.of_nat (length l) <= i)%Z /\ (0 <= j)%Z /\
  nth_elt h i v = Some (Atom 2) /\ nth_elt h j v = None.
Proof.
  exists ex_heap, (Cell 0), ex_l, 4294967297%Z, 2147483648%Z.
  repeat split; try (intros p; discriminate); vm_compute; try discriminate; reflexivity.
Qed.
Print Assumptions C29_nth_refuted.

Theorem C29_last : forall fuel h p l e,
  is_list h (Cell p) l e -> length l <= fuel ->
  last_loop fuel h (Cell p) = Some (last (elems l) Nil).
Proof.
  intros fuel h p [|[q x] l] e (H & N) F.
  - simpl in H. exfalso. apply (N p). auto.
  - assert (q = p) by (simpl in H; destruct H as [E _]; inversion E; auto). subst.
    apply (last_ok l fuel h p x e); auto.
Qed.
Print Assumptions C29_last.

Theorem C29_member : forall test fuel h v l e, is_list h v l e -> length l < fuel ->
  (exists l1 l2 p x, l = l1 ++ (p, x) :: l2 /\ Forall (fun y => test y = false) (elems l1) /\ test x = true /\
     member_loop fuel test h v = Some (Cell p)) \/
  (Forall (fun y => test y = false) (elems l) /\ member_loop fuel test h v = Some Nil).
Proof. intros test fuel h v l e (H & N) F. eapply member_ok; eauto. Qed.
Print Assumptions C29_member.

Theorem C29_assoc : forall test field fuel h v l e, is_list h v l e -> length l < fuel ->
  assoc_loop fuel test field h v =
  Some (match find (fun x => consp x && test (field h x)) (elems l) with Some x => x | None => Nil end).
Proof. intros test field fuel h v l e (H & N) F. eapply assoc_ok; eauto. Qed.
Print Assumptions C29_assoc.
