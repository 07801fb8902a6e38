(** C01 hash tables are finite maps, C02 table-size and table-walk, and the
    weak-table part of C34. *)
From Coq Require Import ZArith List Bool Arith Lia.
From Verif Require Import Tables_Model Tables_Spec Tables_Proofs.
Import ListNotations.

(** A key type for the examples: integers compared modulo 10, all hashing to
    one of two values, so that chains and non-trivial equality are exercised. *)
Definition ex_same (a b : Z) : bool := (a mod 10 =? b mod 10)%Z.
Definition ex_hash (a : Z) : Z := (- (a mod 10 mod 2))%Z.

Example ex_equivalence : equivalence ex_same /\ compatible ex_same ex_hash.
Proof.
  unfold equivalence, compatible, ex_same, ex_hash. repeat split; intros.
  - apply Z.eqb_refl.
  - rewrite Z.eqb_sym. auto.
  - rewrite Z.eqb_eq in *. congruence.
  - rewrite Z.eqb_eq in *. congruence.
Qed.

Theorem C01_table_is_map :
  forall (K V : Type) (hash : K -> Z) (same : K -> K -> bool),
  equivalence same -> compatible same hash ->
  forall (ops : list (op K V)) k,
    table_ref hash same (run hash same ops) k = after same ops k /\
    (table_bound_p hash same (run hash same ops) k = true <-> after same ops k <> None).
Proof.
  intros K V hash same E C ops k. destruct (run_inv hash same E C ops) as [_ R].
  split; [apply R|]. rewrite <- R. apply bound_ref.
Qed.
Print Assumptions C01_table_is_map.

(** A history that grows the table past its first size (31 buckets). *)
Definition ex_ops : list (op Z Z) :=
  map (fun i => Set_ (Z.of_nat i) (Z.of_nat (i * i))) (seq 0 80) ++ [Unset 13%Z; Set_ 24%Z 7%Z].

Example C01_ex : table_ref ex_hash ex_same (run ex_hash ex_same ex_ops) 3%Z = None /\
  table_ref ex_hash ex_same (run ex_hash ex_same ex_ops) 44%Z = Some 7%Z /\
  table_ref ex_hash ex_same (run ex_hash ex_same ex_ops) 55%Z = Some (75 * 75)%Z.
Proof. vm_compute. auto. Qed.
Example C01_ex_grow : total_buckets (run (fun z => z) Z.eqb
  (map (fun i => Set_ (Z.of_nat i) tt) (seq 0 200))) = 127.
Proof. vm_compute. reflexivity. Qed.

(** The premise on the functions is needed: with an incompatible hash a stored
    key is not found again. *)
Theorem C01_incompatible_hash_refuted : exists (hash : Z -> Z) same k k',
  equivalence same /\ same k' k = true /\
  table_ref hash same (run hash same [Set_ k tt]) k' <> after same [Set_ k tt] k'.
Proof.
  exists (fun z => z), ex_same, 3%Z, 13%Z. split; [apply ex_equivalence|]. split; [reflexivity|].
  vm_compute. discriminate.
Qed.
Print Assumptions C01_incompatible_hash_refuted.

Theorem C02_size_and_walk :
  forall (K V : Type) (hash : K -> Z) (same : K -> K -> bool),
  equivalence same -> compatible same hash ->
  forall (ops : list (op K V)),
  exists bindings,
    lists_bindings same (after same ops) bindings /\
    table_size (run hash same ops) = length bindings /\
    forall S (f : S -> K -> V -> S) s,
      table_walk (fun s k v => (f s k v, true)) s (run hash same ops)
      = fold_left (fun s p => f s (fst p) (snd p)) bindings s.
Proof.
  intros K V hash same E C ops. destruct (run_inv hash same E C ops) as [I R].
  exists (pairs (run hash same ops)). split; [|split].
  - destruct (pairs_lists hash same E C _ I) as (A & B & D).
    split; [|split; [|exact D]]; intros k v H; [rewrite <- R|apply B; rewrite R]; auto.
  - eapply size_pairs, I.
  - intros. apply walk_pairs.
Qed.
Print Assumptions C02_size_and_walk.

Example C02_ex : table_size (run ex_hash ex_same ex_ops) = 9 /\
  table_walk (fun s (k v : Z) => ((s + v)%Z, true)) 0%Z (run ex_hash ex_same (firstn 3 ex_ops)) = 5%Z.
Proof. vm_compute. auto. Qed.

(** A failing callback does not stop the walk: the rest of its chain is skipped
    but the remaining buckets are still visited. *)
Theorem C02_walk_stops_on_error_refuted : exists (ops : list (op Z Z)),
  let f := fun (s : list Z) (k v : Z) => (k :: s, false) in
  length (table_walk f [] (run (fun z => z) Z.eqb ops)) > 1.
Proof. exists [Set_ 1%Z 1%Z; Set_ 2%Z 2%Z]. vm_compute. auto. Qed.
Print Assumptions C02_walk_stops_on_error_refuted.

(** The bucket array keeps up with the contents. *)
Theorem C02_load_factor : forall (K V : Type) (hash : K -> Z) same (ops : list (op K V)),
  table_size (run hash same ops) <= 2 * total_buckets (run hash same ops).
Proof. intros. apply load. Qed.
Print Assumptions C02_load_factor.

Example C02_load_ex : table_size (run (fun z => z) Z.eqb
  (map (fun i => Set_ (Z.of_nat i) tt) (seq 0 61))) = 61.
Proof. vm_compute. reflexivity. Qed.

(** After a collection a weak table has lost the bindings of exactly the keys
    its guardian reported, and nothing else changes. *)
Theorem C34_weak_table_after_gc :
  forall (K V : Type) (hash : K -> Z) (same : K -> K -> bool),
  equivalence same -> compatible same hash ->
  forall (ops : list (op K V)) dead k,
    table_ref hash same (after_gc hash same (run hash same ops) dead) k =
      if existsb (same k) dead then None else after same ops k.
Proof.
  intros K V hash same E C ops dead k. destruct (run_inv hash same E C ops) as [I R].
  destruct (after_gc_ref hash same E C dead _ I) as [_ A]. rewrite A, R. reflexivity.
Qed.
Print Assumptions C34_weak_table_after_gc.

Example C34_weak_ex :
  table_ref ex_hash ex_same (after_gc ex_hash ex_same (run ex_hash ex_same ex_ops) [5%Z]) 15%Z = None /\
  table_ref ex_hash ex_same (after_gc ex_hash ex_same (run ex_hash ex_same ex_ops) [5%Z]) 4%Z = Some 7%Z.
Proof. vm_compute. auto. Qed.
