(** Proofs about checking words *)

From Coq Require Import ZArith List Bool Lia.
From Verif Require Import Ispell_Model Ispell_Spec.
Import ListNotations.
Open Scope Z_scope.

Lemma cut_app : forall l r, ~ In 10 l -> cut_line (l ++ 10 :: r) = Some (l ++ [10], r).
Proof.
  induction l as [|c l IH]; intros r N; [reflexivity|]. cbn [app cut_line].
  replace (c =? 10) with false by (symmetry; apply Z.eqb_neq; intros ->; apply N; left; reflexivity).
  rewrite IH by (intros X; apply N; right; exact X). reflexivity.
Qed.
Lemma cut_none : forall t, cut_line t = None -> ~ In 10 t.
Proof.
  induction t as [|c t IH]; intros H; [intros []|]. cbn [cut_line] in H. destruct (c =? 10) eqn:E; [discriminate|].
  apply Z.eqb_neq in E. destruct (cut_line t) as [(l, r)|]; [discriminate|]. intros [X|X]; [congruence|exact (IH eq_refl X)].
Qed.
Lemma cut_some : forall t l r, cut_line t = Some (l, r) -> exists l', l = l' ++ [10] /\ ~ In 10 l' /\ t = l' ++ 10 :: r.
Proof.
  induction t as [|c t IH]; intros l r H; [discriminate|]. cbn [cut_line] in H. destruct (c =? 10) eqn:E.
  - apply Z.eqb_eq in E. injection H as <- <-. exists []. subst c. split; [reflexivity|]. split; [intros []|reflexivity].
  - apply Z.eqb_neq in E. destruct (cut_line t) as [(l0, r0)|]; [|discriminate]. injection H as <- <-.
    destruct (IH l0 r0 eq_refl) as (l' & -> & N & ->). exists (c :: l'). split; [reflexivity|]. split; [|reflexivity].
    intros [X|X]; [congruence|exact (N X)].
Qed.
Lemma lines_same : forall a b r s, ~ In 10 a -> ~ In 10 b -> a ++ 10 :: r = b ++ 10 :: s -> a = b /\ r = s.
Proof.
  intros a b r s Na Nb E. apply (f_equal cut_line) in E. rewrite !cut_app in E by assumption. injection E as E ->.
  apply app_inj_tail in E as (-> & _). auto.
Qed.

Lemma wait_ok : forall pieces pending l rest, ~ In 10 pending -> ~ In 10 l -> pending ++ concat pieces = l ++ 10 :: rest ->
  exists pe ps, wait_line pending (whole pieces) = (Some (l ++ [10]), pe, whole ps) /\ pe ++ concat ps = rest.
Proof.
  induction pieces as [|p pieces IH]; intros pending l rest Np Nl E.
  - cbn in E. rewrite app_nil_r in E. exfalso. apply Np. rewrite E. apply in_or_app. right. left. reflexivity.
  - cbn [whole map wait_line]. cbn [concat] in E. rewrite app_assoc in E. destruct (cut_line (pending ++ p)) as [(l0, r0)|] eqn:C.
    + apply cut_some in C as (l' & -> & N & C). rewrite C, <- app_assoc in E. cbn [app] in E.
      apply lines_same in E as (-> & E); [|exact N|exact Nl]. exists r0, pieces. auto.
    + apply IH; [apply cut_none, C|exact Nl|exact E].
Qed.
Lemma read_ok : forall pieces pending l rest, ~ In 10 l -> pending ++ concat pieces = l ++ 10 :: rest ->
  exists pe ps, read_line pending (whole pieces) = (Some (l ++ [10]), pe, whole ps) /\ pe ++ concat ps = rest.
Proof.
  intros pieces pending l rest Nl E. unfold read_line. destruct (cut_line pending) as [(l0, r0)|] eqn:C.
  - apply cut_some in C as (l' & -> & N & C). rewrite C, <- app_assoc in E. cbn [app] in E.
    apply lines_same in E as (-> & E); [|exact N|exact Nl]. exists r0, pieces. auto.
  - apply wait_ok; [apply cut_none, C|exact Nl|exact E].
Qed.
Lemma word_ok : forall pieces pending l rest, proper l -> pending ++ concat pieces = answer l ++ rest ->
  exists pe ps, ispell_word pending (whole pieces) = (Some (l ++ [10]), pe, whole ps) /\ pe ++ concat ps = rest.
Proof.
  intros pieces pending l rest (Ne & N) E. unfold answer in E. rewrite <- app_assoc in E. cbn [app] in E.
  destruct (read_ok pieces pending l (10 :: rest) N E) as (pe & ps & R & E1).
  destruct (read_ok ps pe [] rest (fun X => match X with end) E1) as (pe' & ps' & R' & E2).
  exists pe', ps'. split; [|exact E2]. unfold ispell_word. rewrite R.
  assert (S : starts_empty (l ++ [10]) = false).
  { destruct l as [|c l]; [congruence|]. cbn. apply Z.eqb_neq. intros ->. apply N. left. reflexivity. }
  rewrite S, R'. reflexivity.
Qed.
Lemma words_ok : forall ls pieces pending rest, Forall proper ls -> pending ++ concat pieces = concat (map answer ls) ++ rest ->
  exists pe ps, check_words (length ls) pending (whole pieces) = (map (fun l => Some (l ++ [10])) ls, pe, whole ps) /\ pe ++ concat ps = rest.
Proof.
  induction ls as [|l ls IH]; intros pieces pending rest F E; [exists pending, pieces; auto|].
  inversion F as [|? ? P Fs]; subst. cbn [map concat] in E. rewrite <- app_assoc in E.
  destruct (word_ok pieces pending l _ P E) as (pe & ps & W & E1). destruct (IH ps pe rest Fs E1) as (pe' & ps' & R & E2).
  exists pe', ps'. split; [|exact E2]. cbn [length check_words map]. rewrite W, R. reflexivity.
Qed.
