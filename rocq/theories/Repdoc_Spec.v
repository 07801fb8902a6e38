(** Sources with documentation *)

From Coq Require Import ZArith List Bool.
From Verif Require Import Repdoc_Model.
Import ListNotations.
Open Scope Z_scope.

Definition occurs (n t : list Z) : Prop := exists a b, t = a ++ n ++ b.
(** A line of code, or a block: what is before the mark, the name, what is behind it; the
    lines; what is before and behind the mark of the end *)
Inductive item :=
| Code (line : list Z)
| Doc (pre id post : list Z) (lines : list (list Z)) (before behind : list Z).
Definition ended (l : list Z) : list Z := l ++ [10].
Definition header (pre id post : list Z) : list Z := pre ++ doc_mark ++ id ++ colons ++ post.
Definition footer (before behind : list Z) : list Z := before ++ end_mark ++ behind.
Definition item_text (i : item) : list Z :=
  match i with
  | Code l => ended l
  | Doc pre id post lines before behind =>
      ended (header pre id post) ++ concat (map ended lines) ++ ended (footer before behind)
  end.
Definition source (l : list item) : list Z := concat (map item_text l).

(** Fits a buffer of n bytes together with newline and zero *)
Definition fits_in (n : nat) (l : list Z) : Prop := (length l + 2 <= n)%nat /\ ~ In 10 l.
Definition well_formed (lsize size : nat) (i : item) : Prop :=
  match i with
  | Code l => fits_in lsize l /\ ~ occurs doc_mark l
  | Doc pre id post lines before behind =>
      fits_in lsize (header pre id post) /\ ~ In 58 pre /\ ~ In 58 id /\
      Forall (fun l => ~ In 10 l /\ ~ occurs end_mark l) lines /\
      ~ In 10 (footer before behind) /\ ~ In 58 before /\
      (length (concat (map ended lines)) + length (footer before behind) + 2 <= size)%nat
  end.
(** The lines with newlines between them *)
Fixpoint joined (lines : list (list Z)) : list Z :=
  match lines with [] => [] | [l] => l | l :: lines => l ++ 10 :: joined lines end.
Definition documented (l : list item) : list (list Z * list Z) :=
  flat_map (fun i => match i with Code _ => [] | Doc _ id _ lines _ _ => [(id, joined lines)] end) l.
(** What a list of names and texts says about a name: the last text, or what was known
    before *)
Definition says (l : list (list Z * list Z)) (k : list Z) (old r : option (list Z)) : Prop :=
  (exists l1 l2 v, l = l1 ++ (k, v) :: l2 /\ ~ In k (map fst l2) /\ r = Some v) \/
  (~ In k (map fst l) /\ r = old).
