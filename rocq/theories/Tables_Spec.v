(** Finite maps up to a user's notion of key equality, and histories. *)
From Coq Require Import ZArith List Bool.
From Verif Require Import Tables_Model.
Import ListNotations.

Section Spec.
  Context {K V : Type}.
  Variable same : K -> K -> bool.

  (** What the user may do to a table. *)
  Inductive op := Set_ (k : K) (v : V) | Unset (k : K).

  (** The value a history leaves under [k]: that of the last operation on an
      equivalent key. History is newest first. *)
  Fixpoint current (rev_history : list op) (k : K) : option V :=
    match rev_history with
    | [] => None
    | Set_ k' v :: h => if same k k' then Some v else current h k
    | Unset k' :: h => if same k k' then None else current h k
    end.

  Definition after (history : list op) (k : K) : option V := current (rev history) k.

  (** [l] lists the bindings of [m], each once. *)
  Definition lists_bindings (m : K -> option V) (l : list (K * V)) : Prop :=
    (forall k v, In (k, v) l -> m k = Some v) /\
    (forall k v, m k = Some v -> exists k', same k k' = true /\ In (k', v) l) /\
    ForallOrdPairs (fun a b => same (fst a) (fst b) = false) l.

  Definition equivalence : Prop :=
    (forall a, same a a = true) /\
    (forall a b, same a b = true -> same b a = true) /\
    (forall a b c, same a b = true -> same b c = true -> same a c = true).

  (** The hash function respects the key equality. *)
  Definition compatible (hash : K -> Z) : Prop :=
    forall a b, same a b = true -> hash a = hash b.
End Spec.
Arguments op : clear implicits.

(** The table a history of calls produces. *)
Section Run.
  Context {K V : Type}.
  Variable hash_fun : K -> Z.
  Variable same : K -> K -> bool.
  Definition apply_op (t : table K V) (o : op K V) : table K V :=
    match o with
    | Set_ k v => table_set hash_fun same t k v
    | Unset k => table_unset hash_fun same t k
    end.
  Definition run (ops : list (op K V)) : table K V := fold_left apply_op ops make_table.
End Run.

(** The key-value pairs in the order table-walk meets them. *)
Definition pairs {K V} (t : table K V) : list (K * V) :=
  map (fun n => (n_key n, n_value n)) (concat (buckets t)).
