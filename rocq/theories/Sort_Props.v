(** sort: the theorems. *)
From Coq Require Import ZArith List Bool Arith Lia Sorting.Permutation Sorting.Sorted.
From Verif Require Import Lists_Model Lists_Spec Lists_Proofs Sort_Model Sort_Spec Sort_Proofs.
Import ListNotations.

(** For a strict weak order the result is a list of the same cells, sorted, with
    cells that compare equal in their original order; no car changes and no
    other cell is touched. *)
Theorem C10_sort_stable : forall pred fuel h v l,
  strict_weak_order pred -> is_list h v l Nil -> length l < fuel ->
  exists h' v' l', sort pred fuel h v = Some (h', v') /\ is_list h' v' l' Nil /\
    stable_sort_of pred l l' /\ only_cdrs_of (addrs l) h h'.
Proof.
  intros pred fuel h v l SWO (C & N) Hf.
  destruct (sort_ok pred fuel l h v Hf C) as (h' & v' & R & C' & O).
  exists h', v', (msort pred fuel l). split; [exact R|]. split; [split; auto|]. split; [|exact O].
  destruct (msort_sort pred SWO fuel l) as (H1 & H2); [lia|].
  split; [apply msort_perm|]. split; auto.
Qed.
Print Assumptions C10_sort_stable.

(** With any predicate at all, sort ends and loses no element. *)
Theorem C10_sort_permutation : forall pred fuel h v l,
  is_list h v l Nil -> length l < fuel ->
  exists h' v' l', sort pred fuel h v = Some (h', v') /\ is_list h' v' l' Nil /\
    Permutation l l' /\ only_cdrs_of (addrs l) h h'.
Proof.
  intros pred fuel h v l (C & N) Hf.
  destruct (sort_ok pred fuel l h v Hf C) as (h' & v' & R & C' & O).
  exists h', v', (msort pred fuel l). split; [exact R|]. split; [split; auto|]. split; [apply msort_perm|exact O].
Qed.
Print Assumptions C10_sort_permutation.

(** The order of integers by tens, and a list with equal keys *)
Definition by_tens (a b : val) : bool :=
  match a, b with
  | Atom x, Atom y => (x / 10 <? y / 10)%Z
  | Atom _, _ => true
  | _, _ => false
  end.
Definition ex_sort_heap : heap :=
  mk_heap (fun p => match p with
                    | 0 => (Atom 35, Cell 1) | 1 => (Atom 12, Cell 2) | 2 => (Atom 31, Cell 3)
                    | 3 => (Atom 11, Cell 4) | _ => (Atom 5, Nil) end) 5.
Example C10_case : strict_weak_order by_tens /\
  is_list ex_sort_heap (Cell 0) [(0, Atom 35); (1, Atom 12); (2, Atom 31); (3, Atom 11); (4, Atom 5)] Nil /\
  option_map (fun r => (snd r, map (fun p => mem (fst r) p) [4; 1; 3; 0; 2])) (sort by_tens 6 ex_sort_heap (Cell 0)) =
  Some (Cell 4, [(Atom 5, Cell 1); (Atom 12, Cell 3); (Atom 11, Cell 0); (Atom 35, Cell 2); (Atom 31, Nil)]).
Proof.
  split; [|split; [|reflexivity]].
  - unfold by_tens. repeat split.
    + intros [|p|x]; auto. apply Z.ltb_irrefl.
    + intros [|p|x] [|q|y] [|r|z]; try discriminate; auto. rewrite !Z.ltb_lt. lia.
    + destruct x as [|p|x], y as [|q|y], z as [|r|z]; try discriminate; auto. rewrite Z.ltb_ge in *. lia.
    + destruct x as [|p|x], y as [|q|y], z as [|r|z]; try discriminate; auto. rewrite Z.ltb_ge in *. lia.
  - repeat split. intros p. discriminate.
Qed.
