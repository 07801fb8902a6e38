(* Tries (lisp/rep/data/trie.jl). make-trie-from-file (105-123) is left out. *)
From Coq Require Import List Arith Bool.
Import ListNotations.

(* A key is a character of a string, or the symbol eow (84: defconst quotes
   its value). Both are compared with eq. *)
Inductive key := Chr (c : nat) | Eow.
Definition key_eqb (a b : key) : bool :=
  match a, b with Chr x, Chr y => Nat.eqb x y | Eow, Eow => true | _, _ => false end.

(* A node is a list (node (KEY . NODE) ...) that is changed in place
   (41-54). The heap holds the tails; a node is its address there. None
   stands for the empty list, where there is no node. *)
Definition node := list (key * nat).
Definition heap := list node.
Definition tree := option nat.

(* make-node 44 *)
Definition make_node (h : heap) : nat * heap := (length h, h ++ [[]]).

(* assq on the tail *)
Fixpoint assq (k : key) (l : node) : option nat :=
  match l with
  | [] => None
  | (x, v) :: r => if key_eqb x k then Some v else assq k r
  end.
Fixpoint rplacd_cell (k : key) (v : nat) (l : node) : node :=
  match l with
  | [] => []
  | (x, y) :: r => if key_eqb x k then (x, v) :: r else (x, y) :: rplacd_cell k v r
  end.

(* node-ref 46-47; the cdr of the empty list is the empty list *)
Definition node_ref (h : heap) (t : tree) (k : key) : tree :=
  match t with Some a => assq k (nth a h []) | None => None end.

Fixpoint upd (h : heap) (a : nat) (n : node) : heap :=
  match h, a with
  | [], _ => []
  | _ :: r, 0 => n :: r
  | x :: r, S a => x :: upd r a n
  end.

(* node-set! 49-53; None: rplacd of the empty list is an error *)
Definition node_set (h : heap) (t : tree) (k : key) (v : nat) : option heap :=
  match t with
  | Some a =>
      Some (upd h a (match assq k (nth a h []) with
                     | Some _ => rplacd_cell k v (nth a h [])
                     | None => (k, v) :: nth a h []
                     end))
  | None => None
  end.

(* trie-ref 61-65 *)
Fixpoint trie_ref (h : heap) (t : tree) (ks : list key) : tree :=
  match ks with
  | [] => t
  | k :: r => match node_ref h t k with Some s => trie_ref h (Some s) r | None => None end
  end.

(* trie-insert-1! 67-73 *)
Definition trie_insert_1 (h : heap) (t : tree) (k : key) : option (nat * heap) :=
  match node_ref h t k with
  | None =>
      let (new, h) := make_node h in
      match node_set h t k new with Some h => Some (new, h) | None => None end
  | Some s => Some (s, h)
  end.

(* trie-insert! 76-79 *)
Fixpoint trie_insert (h : heap) (t : tree) (ks : list key) : option (tree * heap) :=
  match ks with
  | [] => Some (t, h)
  | k :: r =>
      match trie_insert_1 h t k with Some (s, h) => trie_insert h (Some s) r | None => None end
  end.

(* vector->list of a string: its characters *)
Definition word := list nat.
Definition keys (w : word) : list key := map Chr w.

(* trie-insert-string! 86-87; only the change counts here, not the value (the
   node of the terminator) *)
Definition trie_insert_string (h : heap) (t : tree) (w : word) : option heap :=
  match trie_insert h t (keys w) with
  | Some (s, h) => match trie_insert_1 h s Eow with Some (_, h) => Some h | None => None end
  | None => None
  end.

(* trie-string-ref 89-90, trie-contains-string? 92-94 *)
Definition trie_string_ref (h : heap) (t : tree) (w : word) : tree := trie_ref h t (keys w).
Definition trie_contains_string (h : heap) (t : tree) (w : word) : bool :=
  match node_ref h (trie_string_ref h t w) Eow with Some _ => true | None => false end.

(* trie-foreach 96-103: the words with which the callback is called, in
   order. The callback does not change the trie. The fuel bounds the depth. *)
Definition each (rec : nat -> word -> option (list word)) (tokens : word) : node -> option (list word) :=
  fix each (l : node) : option (list word) :=
    match l with
    | [] => Some []
    | (k, v) :: r =>
        match (match k with Eow => Some [rev tokens] | Chr c => rec v (c :: tokens) end), each r with
        | Some a, Some b => Some (a ++ b)
        | _, _ => None
        end
    end.
Fixpoint iter (fuel : nat) (h : heap) (a : nat) (tokens : word) : option (list word) :=
  match fuel with
  | 0 => None
  | S fuel => each (iter fuel h) tokens (nth a h [])
  end.
Definition trie_foreach (fuel : nat) (h : heap) (t : tree) : option (list word) :=
  match t with None => Some [] | Some a => iter fuel h a [] end.

(* Programs: calls whose operands are results of earlier ones. *)
Inductive op :=
| Make
| Insert (t : nat) (w : word)
| StringRef (t : nat) (w : word)
| Contains (t : nat) (w : word)
| Foreach (t : nat).

Inductive answer := Done | Error | IsTrie (b : bool) | IsIn (b : bool) | Words (l : option (list word)).

Definition reg (regs : list tree) (n : nat) : tree := nth n regs None.

(* After an error nothing is changed: node-set! is the first call that
   can fail and it is the first that changes anything. *)
Definition step (h : heap) (regs : list tree) (o : op) : answer * heap * tree :=
  match o with
  | Make => let (a, h) := make_node h in (IsTrie true, h, Some a)
  | Insert t w =>
      match trie_insert_string h (reg regs t) w with
      | Some h => (Done, h, None)
      | None => (Error, h, None)
      end
  | StringRef t w =>
      let s := trie_string_ref h (reg regs t) w in
      (IsTrie (match s with Some _ => true | None => false end), h, s)
  | Contains t w => (IsIn (trie_contains_string h (reg regs t) w), h, None)
  | Foreach t => (Words (trie_foreach (S (length h)) h (reg regs t)), h, None)
  end.
Fixpoint run (h : heap) (regs : list tree) (p : list op) : list answer :=
  match p with
  | [] => []
  | o :: p => let '(a, h, t) := step h regs o in a :: run h (regs ++ [t]) p
  end.
