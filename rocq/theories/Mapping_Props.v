(** C104: functions that call a function for the elements of a list. *)
From Coq Require Import List ZArith Lia.
Import ListNotations.
From Verif Require Import Mapping_Model Mapping_Spec Mapping_Proofs.

(** A function that counts its calls, gives true for every second call, and leaves when it
    is given the atom 0. *)
Definition ex_call (s : Z) (x : val) : Z * outcome :=
  match x with
  | Atom 0 => (s + 1, Left_by 7)%Z
  | _ => ((s + 1)%Z, Ret (if Z.even s then Nil else x))
  end.
Definition ex_l : list val := [Atom 4; Atom 5; Atom 6; Atom 7].

Lemma ex_calls : calls ex_call 0%Z ex_l 4%Z [Nil; Atom 5; Nil; Atom 7].
Proof. repeat (econstructor; [reflexivity|]). constructor. Qed.

Lemma ex_leaves : leaves ex_call 0%Z [Atom 4; Atom 0; Atom 5] 2%Z (Left_by 7).
Proof.
  split; [discriminate|]. exists [Atom 4], (Atom 0), [Atom 5], 1%Z, [Nil].
  split; [reflexivity|]. split; [|reflexivity]. econstructor; [reflexivity | constructor].
Qed.

(** The two cases of the theorems below are all there are. *)
Theorem C104_cases : forall (St : Type) (f : St -> val -> St * outcome) l s,
  (exists s' vs, calls f s l s' vs) \/ (exists s' e, leaves f s l s' e).
Proof. intros St. exact calls_or_leaves. Qed.
Print Assumptions C104_cases.

Theorem C104_mapcar : forall (St : Type) (f : St -> val -> St * outcome) s l,
  (forall s' vs, calls f s l s' vs -> mapcar St f s (of_list l) = (s', Ret (of_list vs)) /\
                                      mapc St f s (of_list l) = (s', Ret Nil)) /\
  (forall s' e, leaves f s l s' e -> mapcar St f s (of_list l) = (s', e) /\
                                     mapc St f s (of_list l) = (s', e)).
Proof.
  intros St f s l. split.
  - intros s' vs C. split; [exact (mapcar_calls f s l s' vs [] C) | exact (mapc_calls f s l s' vs C)].
  - intros s' e H. split; [now apply mapcar_leaves | now apply mapc_leaves].
Qed.
Print Assumptions C104_mapcar.

Example C104_mapcar_case :
  mapcar Z ex_call 0%Z (of_list ex_l) = (4%Z, Ret (of_list [Nil; Atom 5; Nil; Atom 7])) /\
  mapcar Z ex_call 0%Z (of_list [Atom 4; Atom 0; Atom 5]) = (2%Z, Left_by 7).
Proof.
  split.
  - apply (proj1 (C104_mapcar Z ex_call 0%Z ex_l)). exact ex_calls.
  - apply (proj2 (C104_mapcar Z ex_call 0%Z [Atom 4; Atom 0; Atom 5])). exact ex_leaves.
Qed.

Theorem C104_filter : forall (St : Type) (f : St -> val -> St * outcome) s l,
  (forall s' vs r, calls f s l s' vs -> chosen true l vs r ->
     filter_list St f s (of_list l) = (s', Ret (of_list r)) /\
     remove_if_not St f s (of_list l) = (s', Ret (of_list r))) /\
  (forall s' vs r, calls f s l s' vs -> chosen false l vs r ->
     remove_if St f s (of_list l) = (s', Ret (of_list r))) /\
  (forall s' e, leaves f s l s' e ->
     filter_list St f s (of_list l) = (s', e) /\ remove_if_not St f s (of_list l) = (s', e) /\
     remove_if St f s (of_list l) = (s', e)).
Proof.
  intros St f s l. split; [|split].
  - intros s' vs r C H. unfold remove_if_not, remove_if. rewrite remove_not_filter.
    split; exact (filter_calls f s l s' vs r [] C H).
  - intros s' vs r C H. exact (remove_calls f s l s' vs r [] C H).
  - intros s' e H. unfold remove_if_not, remove_if. rewrite remove_not_filter. split; [|split].
    + now apply filter_leaves.
    + now apply filter_leaves.
    + now apply remove_leaves.
Qed.
Print Assumptions C104_filter.

Lemma ex_chosen : chosen true ex_l [Nil; Atom 5; Nil; Atom 7] [Atom 5; Atom 7] /\
  chosen false ex_l [Nil; Atom 5; Nil; Atom 7] [Atom 4; Atom 6].
Proof.
  split.
  - apply HOut; [split; [intros H; now destruct H | discriminate]|].
    apply HIn; [split; [reflexivity | discriminate]|].
    apply HOut; [split; [intros H; now destruct H | discriminate]|].
    apply HIn; [split; [reflexivity | discriminate]|]. constructor.
  - apply HIn; [split; [intros H; now destruct H | discriminate]|].
    apply HOut; [split; [reflexivity | discriminate]|].
    apply HIn; [split; [intros H; now destruct H | discriminate]|].
    apply HOut; [split; [reflexivity | discriminate]|]. constructor.
Qed.

Example C104_filter_case :
  filter_list Z ex_call 0%Z (of_list ex_l) = (4%Z, Ret (of_list [Atom 5; Atom 7])) /\
  remove_if Z ex_call 0%Z (of_list ex_l) = (4%Z, Ret (of_list [Atom 4; Atom 6])).
Proof.
  destruct (C104_filter Z ex_call 0%Z ex_l) as (A & B & _). destruct ex_chosen as [P Q].
  split; [exact (proj1 (A _ _ _ ex_calls P)) | exact (B _ _ _ ex_calls Q)].
Qed.

(** The search stops at the first true answer: no call is made behind it. *)
Theorem C104_search : forall (St : Type) (f : St -> val -> St * outcome) s pre s1 vs,
  (forall v, In v vs -> v = Nil) ->
  (calls f s pre s1 vs ->
   member_if St f s (of_list pre) = (s1, Ret Nil) /\
   forall x post s2 v, f s1 x = (s2, Ret v) -> v <> Nil ->
   member_if St f s (of_list (pre ++ x :: post)) = (s2, Ret (of_list (x :: post)))) /\
  forall cells, map car cells = pre -> calls f s pre s1 vs ->
   assoc_regexp St f s (of_list cells) = (s1, Ret Nil) /\
   forall x post s2 v, f s1 (car x) = (s2, Ret v) -> v <> Nil ->
   assoc_regexp St f s (of_list (cells ++ x :: post)) = (s2, Ret x).
Proof.
  intros St f s pre s1 vs A. split.
  - intros C. split; [now apply member_none with vs|].
    intros x post s2 v F N. now apply member_some with s1 vs v.
  - intros cells <- C. split; [now apply assoc_none with vs|].
    intros x post s2 v F N. now apply assoc_some with s1 vs v.
Qed.
Print Assumptions C104_search.

Example C104_search_case :
  member_if Z ex_call 0%Z (of_list ex_l) = (2%Z, Ret (of_list [Atom 5; Atom 6; Atom 7])) /\
  assoc_regexp Z ex_call 0%Z (of_list [Cons (Atom 4) Nil; Cons (Atom 5) (Atom 9); Atom 6]) =
    (2%Z, Ret (Cons (Atom 5) (Atom 9))).
Proof.
  assert (A : forall v, In v [Nil] -> v = Nil) by (intros v [H|[]]; now symmetry).
  assert (C : calls ex_call 0%Z [Atom 4] 1%Z [Nil]) by (econstructor; [reflexivity | constructor]).
  destruct (C104_search Z ex_call 0%Z [Atom 4] 1%Z [Nil] A) as [P Q]. split.
  - apply (proj2 (P C) (Atom 5) [Atom 6; Atom 7] 2%Z (Atom 5)); [reflexivity | discriminate].
  - apply (proj2 (Q [Cons (Atom 4) Nil] eq_refl C) (Cons (Atom 5) (Atom 9)) [Atom 6] 2%Z (Atom 5));
      [reflexivity | discriminate].
Qed.

(** For a list that ends in an atom filter and remove-if-not differ: the one looks at the elements,
    the other calls the predicate for nil as well, which may become an element of the result. *)
Theorem C104_dotted_refuted : exists (f : Z -> val -> Z * outcome) s l,
  filter_list Z f s l <> remove_if_not Z f s l.
Proof.
  exists (fun s _ => ((s + 1)%Z, Ret (Atom 1))), 0%Z, (Cons (Atom 4) (Atom 5)).
  vm_compute. discriminate.
Qed.
Print Assumptions C104_dotted_refuted.
