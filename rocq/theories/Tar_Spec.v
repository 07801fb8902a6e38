(** Listings, directories, links and modes as users know them *)

From Coq Require Import ZArith List Bool.
From Verif Require Import Tar_Model.
Import ListNotations.
Open Scope Z_scope.

Definition listing (lines : list (list Z)) : list Z := concat (map (fun l => l ++ [10]) lines).
(** x is directly in the directory, as a file or as a directory with something in it *)
Definition directly_in (dir x : list Z) (names : list (list Z)) : Prop :=
  x <> [] /\ ~ In 47 x /\ exists r, In (dir ++ x ++ r) names /\ (r = [] \/ exists r', r = 47 :: r').

(** Where links lead *)
Inductive resolves {N T E : Type} (get : N -> option (file T E)) (expand : T -> N -> N) : N -> option E -> Prop :=
| R_missing n : get n = None -> resolves get expand n None
| R_other n e : get n = Some (Other e) -> resolves get expand n (Some e)
| R_link n t r : get n = Some (Link t) -> resolves get expand (expand t n) r -> resolves get expand n r.

(** The nine letters of a mode: three for the owner, three for the group, three for others;
    the third of each also shows a special bit *)
Definition letter (m : Z) (bit : Z) (c : Z) : Z := if Z.testbit m bit then c else 45.
Definition third (m x special lower upper : Z) : Z :=
  if Z.testbit m special then (if Z.testbit m x then lower else upper) else letter m x 120.
Definition mode_letters (m : Z) : list Z :=
  [letter m 8 114; letter m 7 119; third m 6 11 115 83;
   letter m 5 114; letter m 4 119; third m 3 10 115 83;
   letter m 2 114; letter m 1 119; third m 0 9 116 84].
