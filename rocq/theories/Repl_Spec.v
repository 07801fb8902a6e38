(** What users of the interactive interpreter rely on *)

From Coq Require Import ZArith List Bool.
From Verif Require Import Repl_Model.
Import ListNotations.
Open Scope Z_scope.

Definition abbreviates (n t : list Z) : Prop := exists r, t = n ++ r.
(** The command of a name: that name, else the only one it abbreviates *)
Definition denotes {C : Type} (n : list Z) (l : list (list Z * C)) (c : list Z * C) : Prop :=
  In c l /\ (fst c = n \/
    (~ In n (map fst l) /\ abbreviates n (fst c) /\ forall c', In c' l -> abbreviates n (fst c') -> c' = c)).
(** The last definition of a name in a list of definitions *)
Definition defined {C : Type} (l : list (list Z * C)) (n : list Z) (v : C) : Prop :=
  exists l1 l2, l = l1 ++ (n, v) :: l2 /\ ~ In n (map fst l2).

Section Spec.
Context {F : Type}.
Variable kind_of : list Z -> kind.
Variable read : list Z -> reading F.
(** An entry of lines: every one before the last leaves a text that needs more *)
Definition entry (lines : list (list Z)) (d : done F) : Prop :=
  lines <> [] /\
  (forall a b, lines = a ++ b -> a <> [] -> b <> [] ->
     kind_of (concat a) = KForm /\ read (concat a) = Premature /\ concat a <> []) /\
  match d with
  | Evaluated x => kind_of (concat lines) = KForm /\ exists rest, read (concat lines) = Whole x rest
  | Commanded t => kind_of (concat lines) = KCommand /\ t = concat lines
  | Failed => kind_of (concat lines) = KForm /\ read (concat lines) = Bad
  end.
End Spec.
