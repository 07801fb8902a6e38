(** C97: the opening bracket is shown when a closing one is typed *)

From Coq Require Import ZArith List Bool Lia.
From Verif Require Import Paren_Model Paren_Spec Paren_Proofs.
Import ListNotations.
Open Scope Z_scope.

(** Behind balanced text the bracket before that text is shown, and the cursor is behind
    the new bracket afterwards *)
Theorem C97_match : forall c k pre s, brackets c k -> balanced c k s ->
  (forall p, pre <> p ++ [35; 92]) -> ~ ends_in 92 s ->
  match_paren k (rev (pre ++ c :: s)) = (Some (length pre), rev (pre ++ c :: s ++ [k])).
Proof.
  intros c k pre s B H P N. unfold match_paren. f_equal.
  - assert (S : slash_before (rev (pre ++ c :: s)) = false).
    { rewrite rev_app_distr. cbn [rev]. rewrite <- app_assoc. apply not_slash; [exact N|]. cbn. apply Z.eqb_neq. unfold brackets in B. lia. }
    rewrite S. rewrite (find_match c k pre s B H P). destruct (rev (pre ++ c :: s)) eqn:E; [|reflexivity].
    apply (f_equal (@length Z)) in E. rewrite rev_length, app_length in E. cbn in E. lia.
  - replace (pre ++ c :: s ++ [k]) with ((pre ++ c :: s) ++ [k]) by (rewrite <- app_assoc; reflexivity).
    rewrite (rev_app_distr _ [k]). reflexivity.
Qed.
Print Assumptions C97_match.

(** Where nothing is open nothing is shown *)
Theorem C97_nothing_open : forall c k s, brackets c k -> balanced c k s -> fst (match_paren k (rev s)) = None.
Proof.
  intros c k s B H. unfold match_paren. cbn [fst]. destruct (slash_before (rev s)); [reflexivity|].
  rewrite (find_nothing c k s B H). destruct (rev s); reflexivity.
Qed.
Print Assumptions C97_nothing_open.

(** Whatever the text: what is shown is an opening bracket of the same kind that is not a
    character literal; and nothing is shown behind a backslash *)
Theorem C97_opening : forall c k t i, brackets c k -> fst (match_paren k (rev t)) = Some i ->
  (exists pre s, t = pre ++ c :: s /\ length pre = i /\ forall p, pre <> p ++ [35; 92]) /\ ~ ends_in 92 t.
Proof.
  intros c k t i B H. unfold match_paren in H. cbn [fst] in H.
  destruct (slash_before (rev t)) eqn:S; [discriminate|].
  assert (F : find_matching_paren k (rev t) = Some i) by (destruct (rev t); [discriminate|exact H]).
  unfold find_matching_paren in F. rewrite (opening_of c k B) in F. apply find_sound in F as (u & r & E & L & N). split.
  - exists (rev r), (rev u). split; [|split].
    + rewrite <- (rev_involutive t), E, rev_app_distr. cbn. rewrite <- app_assoc. reflexivity.
    + rewrite rev_length. exact L.
    + intros p X. rewrite <- (rev_involutive r), X, rev_app_distr in N. cbn in N. discriminate.
  - intros (s' & ->). rewrite rev_app_distr in S. cbn in S. discriminate.
Qed.
Print Assumptions C97_opening.

(** It is false that the literal of the backslash is understood: behind it a bracket shows
    nothing, and a string is not seen as one *)
Theorem C97_backslash_refuted : exists pre c s k, brackets c k /\ balanced c k s /\ (forall p, pre <> p ++ [35; 92]) /\
  fst (match_paren k (rev (pre ++ c :: s))) = None.
Proof.
  exists [], 40, [35; 92; 92], 41. split; [left; auto|]. split; [exact (B_literal 40 41 [] 92 (B_nil 40 41))|].
  split; [|reflexivity]. intros p X. apply (f_equal (@length Z)) in X. rewrite app_length in X. cbn in X. lia.
Qed.
Print Assumptions C97_backslash_refuted.
Theorem C97_string_refuted : exists s b, balanced 40 41 s /\ string_body b /\
  fst (match_paren 41 (rev (40 :: s ++ 34 :: b ++ [34]))) = None.
Proof.
  exists [35; 92; 92], [97]. split; [exact (B_literal 40 41 [] 92 (B_nil 40 41))|].
  split; [apply (Sb_plain [] 97 Sb_nil); discriminate|]. reflexivity.
Qed.
Print Assumptions C97_string_refuted.
(** It is false that an escaped bracket of a symbol is passed over: it is shown *)
Theorem C97_escaped_refuted : exists pre, fst (match_paren 41 (rev (pre ++ [97; 92; 40; 32]))) = Some (length pre + 2)%nat /\ pre = [40].
Proof. exists [40]. split; reflexivity. Qed.
Print Assumptions C97_escaped_refuted.

(** f, a string of a bracket and an escaped quote, a literal bracket, a group, another bracket *)
Definition a_line : list Z := [102; 32; 34; 40; 92; 34; 34; 32; 35; 92; 40; 32; 40; 120; 41; 32; 93].
Example the_line_is_balanced : balanced 40 41 a_line.
Proof.
  unfold a_line.
  assert (P : forall s x, balanced 40 41 s -> ((x =? 40) || (x =? 41) || (x =? 34) || (x =? 92)) = false -> balanced 40 41 (s ++ [x])).
  { intros s x H E. rewrite !orb_false_iff, !Z.eqb_neq in E. apply B_plain; tauto. }
  assert (H1 : balanced 40 41 [102; 32]).
  { apply (P [102] 32); [apply (P [] 102); [constructor|reflexivity]|reflexivity]. }
  assert (H2 : balanced 40 41 ([102; 32] ++ 34 :: [40; 92; 34] ++ [34])).
  { apply B_string; [exact H1| |].
    - intros (s' & E). apply (f_equal (@rev Z)) in E. rewrite rev_app_distr in E. cbn in E. discriminate.
    - apply (Sb_escaped [40] 34), (Sb_plain [] 40 Sb_nil); discriminate. }
  apply (P _ 32) in H2; [|reflexivity]. apply (B_literal _ _ _ 40) in H2. apply (P _ 32) in H2; [|reflexivity].
  assert (H3 := B_group 40 41 _ [120] H2 (P [] 120 (B_nil 40 41) eq_refl)).
  apply (P _ 32) in H3; [|reflexivity]. apply (P _ 93) in H3; [|reflexivity]. exact H3.
Qed.
Example it_is_shown : match_paren 41 (rev ([39; 40; 41] ++ 40 :: a_line)) = (Some 3%nat, rev ([39; 40; 41] ++ 40 :: a_line ++ [41])).
Proof. reflexivity. Qed.
