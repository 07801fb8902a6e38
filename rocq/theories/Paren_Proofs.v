(** Proofs about matching brackets *)

From Coq Require Import ZArith List Bool Lia.
From Verif Require Import Paren_Model Paren_Spec.
Import ListNotations.
Open Scope Z_scope.

Ltac zfalse x y := replace (x =? y) with false by (symmetry; apply Z.eqb_neq; lia || congruence).

Lemma skip_string_length : forall t, (length (skip_string t) <= length t)%nat.
Proof. induction t as [|x t IH]; cbn; [lia|]. destruct ((x =? 34) && negb (slash_before t)); lia. Qed.

(** enough fuel is enough *)
Lemma find_fuel : forall c k n t found f1 f2, (length t <= n)%nat -> (length t < f1)%nat -> (length t < f2)%nat ->
  find_back f1 c k found t = find_back f2 c k found t.
Proof.
  intros c k. induction n as [|n IH]; intros t found f1 f2 L L1 L2; (destruct f1 as [|f1]; [lia|]); (destruct f2 as [|f2]; [lia|]).
  - destruct t; [reflexivity|cbn in L; lia].
  - destruct t as [|x r]; [reflexivity|]. cbn [length] in *. cbn [find_back]. pose proof (skip_string_length r).
    destruct (literal_before r); [apply IH; lia|]. destruct (x =? k); [apply IH; lia|].
    destruct (x =? 34); [apply IH; lia|]. destruct (x =? c); [destruct found; [reflexivity|]|]; apply IH; lia.
Qed.
Definition find (c k : Z) (found : nat) (t : list Z) : option nat := find_back (S (length t)) c k found t.
Lemma find_back_step : forall fuel c k found x r, find_back (S fuel) c k found (x :: r) =
  if literal_before r then find_back fuel c k found r
  else if x =? k then find_back fuel c k (S found) r
  else if x =? 34 then find_back fuel c k found (skip_string r)
  else if x =? c then match found with O => Some (length r) | S found => find_back fuel c k found r end
  else find_back fuel c k found r.
Proof. reflexivity. Qed.
Lemma find_step : forall c k found x r, find c k found (x :: r) =
  if literal_before r then find c k found r
  else if x =? k then find c k (S found) r
  else if x =? 34 then find c k found (skip_string r)
  else if x =? c then match found with O => Some (length r) | S found => find c k found r end
  else find c k found r.
Proof.
  intros c k found x r. unfold find at 1. cbn [length]. rewrite find_back_step. pose proof (skip_string_length r).
  destruct (literal_before r); [reflexivity|]. destruct (x =? k); [reflexivity|].
  destruct (x =? 34); [apply (find_fuel c k (length r)); lia|]. reflexivity.
Qed.

Lemma skip_body : forall b q, string_body b -> slash_before q = false -> skip_string (rev b ++ 34 :: q) = q.
Proof.
  intros b q H Q. induction H as [|s x H IH N1 N2|s x H IH].
  - cbn. rewrite Q. reflexivity.
  - rewrite rev_app_distr. cbn [rev app skip_string]. zfalse x 34. exact IH.
  - rewrite rev_app_distr. cbn [rev app skip_string slash_before]. change (92 =? 92) with true. cbn [negb].
    rewrite andb_false_r. change (92 =? 34) with false. exact IH.
Qed.
Lemma body_not_literal : forall b q, string_body b -> literal_before (rev b ++ 34 :: q) = false.
Proof.
  intros b q H. destruct H as [|s x H N1 N2|s x H].
  - destruct q; reflexivity.
  - rewrite rev_app_distr. cbn [rev app]. destruct (rev s ++ 34 :: q) as [|y u] eqn:E; [reflexivity|]. cbn [literal_before]. zfalse x 92. reflexivity.
  - rewrite rev_app_distr. cbn [rev app literal_before]. change (92 =? 35) with false. apply andb_false_r.
Qed.
Lemma not_literal : forall c k s r, brackets c k -> balanced c k s -> slash_before r = false -> literal_before (rev s ++ r) = false.
Proof.
  intros c k s r B H R. assert (K : k <> 92) by (unfold brackets in B; lia).
  destruct H as [|s x H N1 N2 N3 N4|s x H|s b H N S|s t H1 H2].
  - cbn. destruct r as [|a [|b r]]; try reflexivity. cbn in *. rewrite R. reflexivity.
  - rewrite rev_app_distr. cbn [rev app]. destruct (rev s ++ r); [reflexivity|]. cbn [literal_before]. zfalse x 92. reflexivity.
  - rewrite rev_app_distr. cbn [rev app literal_before]. change (92 =? 35) with false. apply andb_false_r.
  - rewrite rev_app_distr. cbn [rev]. rewrite rev_app_distr. cbn [rev app]. rewrite <- !app_assoc.
    destruct (rev b ++ [34] ++ rev s ++ r); reflexivity.
  - rewrite rev_app_distr. cbn [rev]. rewrite rev_app_distr. cbn [rev app]. rewrite <- !app_assoc.
    destruct (rev t ++ [c] ++ rev s ++ r); [reflexivity|]. cbn [literal_before]. zfalse k 92. reflexivity.
Qed.
Lemma not_slash : forall s r, ~ ends_in 92 s -> slash_before r = false -> slash_before (rev s ++ r) = false.
Proof.
  intros s r N R. destruct s as [|x s _] using rev_ind; [exact R|]. rewrite rev_app_distr. cbn.
  apply Z.eqb_neq. intros ->. apply N. exists s. reflexivity.
Qed.

Lemma find_balanced : forall c k s, brackets c k -> balanced c k s -> forall found r, slash_before r = false ->
  find c k found (rev s ++ r) = find c k found r.
Proof.
  intros c k s B H. assert (Bs : c <> k /\ c <> 34 /\ k <> 34 /\ c <> 92 /\ k <> 92 /\ c <> 35 /\ k <> 35) by (unfold brackets in B; lia).
  destruct Bs as (B1 & B2 & B3 & B4 & B5 & B6 & B7).
  induction H as [|s x H IH N1 N2 N3 N4|s x H IH|s b H IH N S|s t H1 IH1 H2 IH2]; intros found r R.
  - reflexivity.
  - rewrite rev_app_distr. cbn [rev app]. rewrite find_step. zfalse x k. zfalse x 34. zfalse x c.
    destruct (literal_before (rev s ++ r)); apply IH, R.
  - rewrite rev_app_distr. cbn [rev app]. rewrite find_step. cbn [literal_before]. change ((92 =? 92) && (35 =? 35)) with true. cbv iota.
    rewrite find_step. replace (literal_before (35 :: rev s ++ r)) with false by (destruct (rev s ++ r); reflexivity).
    zfalse 92 k. zfalse 92 c. change (92 =? 34) with false. cbv iota.
    rewrite find_step. zfalse 35 k. zfalse 35 c. change (35 =? 34) with false. cbv iota.
    destruct (literal_before (rev s ++ r)); apply IH, R.
  - rewrite rev_app_distr. cbn [rev]. rewrite rev_app_distr. cbn [rev app]. rewrite <- !app_assoc. cbn [app].
    rewrite find_step, body_not_literal by exact S. zfalse 34 k. change (34 =? 34) with true. cbv iota.
    rewrite skip_body by (auto; apply not_slash; assumption). apply IH, R.
  - rewrite rev_app_distr. cbn [rev]. rewrite rev_app_distr. cbn [rev app]. rewrite <- !app_assoc. cbn [app].
    assert (C : slash_before (c :: rev s ++ r) = false) by (cbn; apply Z.eqb_neq; exact B4).
    rewrite find_step, (not_literal c k t _ B H2 C), Z.eqb_refl. rewrite IH2 by exact C.
    rewrite find_step, (not_literal c k s _ B H1 R). zfalse c k. zfalse c 34. rewrite Z.eqb_refl. apply IH1, R.
Qed.

Lemma opening_of : forall c k, brackets c k -> opening k = c.
Proof. intros c k [(-> & ->)|[(-> & ->)|(-> & ->)]]; reflexivity. Qed.

Lemma rev_literal : forall pre, (forall p, pre <> p ++ [35; 92]) -> literal_before (rev pre) = false.
Proof.
  intros pre H. destruct (rev pre) as [|a [|b r]] eqn:E; try reflexivity. cbn. apply andb_false_iff.
  destruct (Z.eq_dec a 92) as [->|Na]; [|left; apply Z.eqb_neq, Na]. destruct (Z.eq_dec b 35) as [->|Nb]; [|right; apply Z.eqb_neq, Nb].
  exfalso. apply (H (rev r)). rewrite <- (rev_involutive pre), E. cbn. rewrite <- app_assoc. reflexivity.
Qed.

Lemma find_match : forall c k pre s, brackets c k -> balanced c k s -> (forall p, pre <> p ++ [35; 92]) ->
  find_matching_paren k (rev (pre ++ c :: s)) = Some (length pre).
Proof.
  intros c k pre s B H P. unfold find_matching_paren. rewrite (opening_of c k B).
  change (find c k 0 (rev (pre ++ c :: s)) = Some (length pre)).
  rewrite rev_app_distr. cbn [rev]. rewrite <- app_assoc. cbn [app].
  assert (Bs : c <> k /\ c <> 34 /\ c <> 92) by (unfold brackets in B; lia). destruct Bs as (B1 & B2 & B3).
  rewrite (find_balanced c k s B H) by (cbn; apply Z.eqb_neq, B3).
  rewrite find_step, rev_literal by exact P. zfalse c k. zfalse c 34. rewrite Z.eqb_refl, rev_length. reflexivity.
Qed.
Lemma find_nothing : forall c k s, brackets c k -> balanced c k s -> find_matching_paren k (rev s) = None.
Proof.
  intros c k s B H. unfold find_matching_paren. rewrite (opening_of c k B). change (find c k 0 (rev s) = None).
  rewrite <- (app_nil_r (rev s)), (find_balanced c k s B H) by reflexivity. reflexivity.
Qed.

Lemma skip_suffix : forall t, exists u, t = u ++ skip_string t.
Proof.
  induction t as [|x t (u & IH)]; [exists []; reflexivity|]. cbn [skip_string].
  destruct ((x =? 34) && negb (slash_before t)); [exists [x]; reflexivity|]. exists (x :: u). cbn. f_equal. exact IH.
Qed.
Lemma find_sound : forall fuel c k found t i, find_back fuel c k found t = Some i -> exists u r, t = u ++ c :: r /\ length r = i /\ literal_before r = false.
Proof.
  induction fuel as [|fuel IH]; intros c k found t i H; [discriminate|]. destruct t as [|x r]; [discriminate|]. cbn [find_back] in H.
  assert (Next : forall f q, (exists u, r = u ++ q) -> find_back fuel c k f q = Some i -> exists u r0, x :: r = u ++ c :: r0 /\ length r0 = i /\ literal_before r0 = false).
  { intros f q (u & E) F. destruct (IH _ _ _ _ _ F) as (v & r0 & -> & L & N). exists (x :: u ++ v), r0. rewrite E. cbn. rewrite <- app_assoc. auto. }
  assert (Same : exists u, r = u ++ r) by (exists []; reflexivity).
  destruct (literal_before r) eqn:Lb; [exact (Next _ _ Same H)|]. destruct (x =? k); [exact (Next _ _ Same H)|].
  destruct (x =? 34); [exact (Next _ _ (skip_suffix r) H)|]. destruct (x =? c) eqn:E; [|exact (Next _ _ Same H)].
  destruct found; [|exact (Next _ _ Same H)]. apply Z.eqb_eq in E. subst x. injection H as <-. exists [], r. auto.
Qed.
