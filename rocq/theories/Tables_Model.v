(** Model of the hash tables of /repo/src/tables.c (strong tables).

    Hash and compare functions are the user's: pure functions here.  The C int
    counters are natural numbers (a table would need 2^30 buckets to overflow
    them), and a node pointer is the position of the node in its chain. *)
From Coq Require Import ZArith List Bool Arith.
Import ListNotations.

Section Tables.
  Context {K V : Type}.

  (** The two functions given to make-table, 233-260.  The hash is the integer
      the Lisp function returned. *)
  Variable hash_fun : K -> Z.
  Variable compare_fun : K -> K -> bool.

  (** tables.c 36-41 struct node (the [next] field is list order) *)
  Record node := mk_node { n_key : K; n_value : V; n_hash : Z }.

  (** tables.c 43-52 struct table; total_buckets is the length of [buckets]. *)
  Record table := mk_table { buckets : list (list node); total_nodes : nat }.

  Definition total_buckets (t : table) : nat := length (buckets t).

  (** tables.c 233-260 Fmake_table *)
  Definition make_table : table := mk_table [] 0.

  (** tables.c 34, 289-309 hash_key: the fixnum converted to an unsigned word *)
  Definition hash_key (k : K) : Z := (hash_fun k mod 2 ^ 64)%Z.

  (** tables.c 311-315 hash_key_to_bin *)
  Definition hash_key_to_bin (size : nat) (hash : Z) : nat :=
    Z.to_nat (hash mod Z.of_nat size).

  (** The test at tables.c 340 *)
  Definition matches (hv : Z) (k : K) (n : node) : bool :=
    (n_hash n =? hv)%Z && compare_fun k (n_key n).

  (** tables.c 338-343: first matching node of a chain *)
  Fixpoint chain_find (hv : Z) (k : K) (l : list node) : option node :=
    match l with
    | [] => None
    | n :: l' => if matches hv k n then Some n else chain_find hv k l'
    end.

  (** tables.c 328-344 lookup *)
  Definition lookup (t : table) (k : K) : option node :=
    if total_buckets t =? 0 then None
    else
      let hv := hash_key k in
      chain_find hv k (nth (hash_key_to_bin (total_buckets t) hv) (buckets t) []).

  (** tables.c 346-358 Ftable_ref (None for nil), 360-373 Ftable_bound_p *)
  Definition table_ref (t : table) (k : K) : option V := option_map n_value (lookup t k).
  Definition table_bound_p (t : table) (k : K) : bool :=
    match lookup t k with Some _ => true | None => false end.

  (** Assignment to bucket [i] *)
  Fixpoint update {A} (i : nat) (f : A -> A) (l : list A) : list A :=
    match l, i with
    | [], _ => []
    | a :: l', 0 => f a :: l'
    | a :: l', S i' => a :: update i' f l'
    end.

  (** tables.c 433-435, 423-426: link a node at the head of its chain *)
  Definition insert_node (bins : list (list node)) (n : node) : list (list node) :=
    update (hash_key_to_bin (length bins) (n_hash n)) (cons n) bins.

  (** tables.c 407-410: the new number of buckets *)
  Definition grown_size (old_size : nat) : nat :=
    if old_size =? 0 then 31 else (old_size + 1) * 2 - 1.

  (** tables.c 412-428: move every node of the old bins, bin by bin and each
      chain from its head, into the new empty bins *)
  Definition rehash (old_bins : list (list node)) (new_size : nat) : list (list node) :=
    fold_left (fun bins chain => fold_left insert_node chain bins)
              old_bins (repeat [] new_size).

  (** tables.c 439 on a found node: n->value = value *)
  Fixpoint chain_set (hv : Z) (k : K) (v : V) (l : list node) : list node :=
    match l with
    | [] => []
    | n :: l' => if matches hv k n then mk_node (n_key n) v (n_hash n) :: l'
                 else n :: chain_set hv k v l'
    end.

  (** tables.c 375-441 Ftable_set *)
  Definition table_set (t : table) (k : K) (v : V) : table :=
    match lookup t k with
    | Some _ =>
      let hv := hash_key k in
      mk_table (update (hash_key_to_bin (total_buckets t) hv) (chain_set hv k v) (buckets t))
               (total_nodes t)
    | None =>
      let n := mk_node k v (hash_key k) in
      let count := S (total_nodes t) in
      let bins := if 2 * total_buckets t <=? count
                  then rehash (buckets t) (grown_size (total_buckets t))
                  else buckets t in
      mk_table (insert_node bins n) count
    end.

  (** tables.c 458-468: unlink the found node *)
  Fixpoint chain_remove (hv : Z) (k : K) (l : list node) : list node :=
    match l with
    | [] => []
    | n :: l' => if matches hv k n then l' else n :: chain_remove hv k l'
    end.

  (** tables.c 443-471 Ftable_unset *)
  Definition table_unset (t : table) (k : K) : table :=
    match lookup t k with
    | Some n =>
      mk_table (update (hash_key_to_bin (total_buckets t) (n_hash n))
                       (chain_remove (n_hash n) k) (buckets t))
               (total_nodes t - 1)
    | None => t
    end.

  (** tables.c 503-513 Ftable_size *)
  Definition table_size (t : table) : nat := total_nodes t.

  (** tables.c 473-501 Ftable_walk.  The function is a state transformer that
      also tells whether the call returned normally; it does not modify the
      table.  A failing call leaves only the inner loop. *)
  Section Walk.
    Context {S : Type}.
    Variable f : S -> K -> V -> S * bool.
    Fixpoint walk_chain (s : S) (l : list node) : S :=
      match l with
      | [] => s
      | n :: l' =>
        let (s', ok) := f s (n_key n) (n_value n) in
        if ok then walk_chain s' l' else s'
      end.
    Definition table_walk (s : S) (t : table) : S := fold_left walk_chain (buckets t) s.
  End Walk.

  (** tables.c 515-533 Ftables_after_gc for one weak table: unset each key the
      guardian returned.  ([keys] is what Fprimitive_guardian_pop yields.) *)
  Definition after_gc (t : table) (keys : list K) : table := fold_left table_unset keys t.
End Tables.
Arguments node : clear implicits.
Arguments table : clear implicits.
