(** Proofs about the extraction of documentation *)

From Coq Require Import ZArith List Bool Lia.
From Verif Require Import Repdoc_Model Repdoc_Spec.
Import ListNotations.
Open Scope Z_scope.

Lemma take_line_app : forall l k r, ~ In 10 l -> (length l < k)%nat -> take_line k (l ++ 10 :: r) = (ended l, r).
Proof.
  induction l as [|c l IH]; intros k r N L; (destruct k as [|k]; [cbn in L; lia|]); [reflexivity|].
  cbn [app take_line]. replace (c =? 10) with false.
  - rewrite IH; [reflexivity|intros X; apply N; right; exact X|cbn in L; lia].
  - symmetry. apply Z.eqb_neq. intros ->. apply N. left. reflexivity.
Qed.
Lemma fgets_app : forall n l r, ~ In 10 l -> (length l + 2 <= n)%nat -> fgets n (ended l ++ r) = Some (ended l, r).
Proof.
  intros n l r N L. destruct n as [|[|n]]; try lia. unfold fgets, ended. rewrite <- app_assoc. cbn [app].
  rewrite (take_line_app l (S n) r N) by lia. destruct l; reflexivity.
Qed.

Lemma strip_some : forall n t r, strip n t = Some r -> t = n ++ r.
Proof.
  induction n as [|x n IH]; intros t r H; cbn in H; [injection H as <-; reflexivity|].
  destruct t as [|y t]; [discriminate|]. destruct (x =? y) eqn:E; [|discriminate].
  apply Z.eqb_eq in E. subst y. cbn. f_equal. apply IH, H.
Qed.
Lemma strstr_some : forall n t a b, strstr n t = Some (a, b) -> t = a ++ n ++ b.
Proof.
  intros n. induction t as [|c t IH]; intros a b H; cbn [strstr] in H.
  - destruct (strip n []) as [r|] eqn:E; [|discriminate]. injection H as <- <-. exact (strip_some _ _ _ E).
  - destruct (strip n (c :: t)) as [r|] eqn:E; [injection H as <- <-; exact (strip_some _ _ _ E)|].
    destruct (strstr n t) as [(a', b')|] eqn:F; [|discriminate]. injection H as <- <-. cbn. f_equal. apply IH. reflexivity.
Qed.
Lemma strstr_none : forall n t, ~ occurs n t -> strstr n t = None.
Proof.
  intros n t H. destruct (strstr n t) as [(a, b)|] eqn:E; [|reflexivity].
  exfalso. apply H. exists a, b. apply strstr_some, E.
Qed.
Lemma strip_app : forall n r, strip n (n ++ r) = Some r.
Proof. induction n as [|x n IH]; intros r; [reflexivity|]. cbn. rewrite Z.eqb_refl. apply IH. Qed.
Lemma strstr_first : forall x n pre r, ~ In x pre -> strstr (x :: n) (pre ++ (x :: n) ++ r) = Some (pre, r).
Proof.
  intros x n. induction pre as [|c pre IH]; intros r H.
  - change ([] ++ (x :: n) ++ r) with ((x :: n) ++ r). 
    assert (E := strip_app (x :: n) r). destruct ((x :: n) ++ r) as [|y t]; cbn [strstr]; rewrite E; reflexivity.
  - change ((c :: pre) ++ (x :: n) ++ r) with (c :: (pre ++ (x :: n) ++ r)). cbn [strstr].
    assert (E : strip (x :: n) (c :: pre ++ (x :: n) ++ r) = None).
    { cbn [strip]. replace (x =? c) with false; [reflexivity|]. symmetry. apply Z.eqb_neq. intros ->. apply H. left. reflexivity. }
    rewrite E. rewrite IH; [reflexivity|]. intros X. apply H. right. exact X.
Qed.

Lemma occurs_ended : forall n l, n <> [] -> ~ In 10 n -> ~ occurs n l -> ~ occurs n (ended l).
Proof.
  intros n l Ne N H (a & b & E). unfold ended in E. destruct b as [|y b] using rev_ind.
  - rewrite app_nil_r in E. destruct n as [|z n _] using rev_ind; [congruence|].
    rewrite app_assoc in E. apply app_inj_tail in E as (_ & <-). apply N. apply in_or_app. right. left. reflexivity.
  - rewrite !app_assoc in E. apply app_inj_tail in E as (-> & _). apply H. exists a, b. rewrite app_assoc. reflexivity.
Qed.

Lemma body_lines : forall size lines out fuel before behind r,
  Forall (fun l => ~ In 10 l /\ ~ occurs end_mark l) lines -> ~ In 10 (footer before behind) -> ~ In 58 before ->
  (length out + length (concat (map ended lines)) + length (footer before behind) + 2 <= size)%nat -> (length lines < fuel)%nat ->
  body fuel size out (concat (map ended lines) ++ ended (footer before behind) ++ r) = Some (out ++ concat (map ended lines), r).
Proof.
  intros size. induction lines as [|l lines IH]; intros out fuel before behind r F N B Sz L; (destruct fuel as [|fuel]; [cbn in L; lia|]); cbn [body map concat].
  - cbn [app map concat] in *. rewrite fgets_app by (auto; cbn in Sz; lia).
    unfold footer at 1, ended. rewrite <- !app_assoc. unfold end_mark at 1 2. rewrite (strstr_first 58 _ before _ B).
    rewrite app_nil_r. reflexivity.
  - inversion F as [|? ? (Nl & Ol) Fs]; subst. cbn [map concat] in Sz. rewrite app_length in Sz.
    assert (Le : length (ended l) = S (length l)) by (unfold ended; rewrite app_length; cbn; lia).
    rewrite <- app_assoc. 
    assert (Lf : (7 <= length (footer before behind))%nat) by (unfold footer; rewrite !app_length; cbn [length end_mark]; lia).
    rewrite fgets_app by (auto; lia).
    rewrite strstr_none by (apply occurs_ended; [discriminate|unfold end_mark; cbn; intuition discriminate|exact Ol]).
    rewrite IH; auto; [rewrite <- app_assoc; reflexivity|rewrite app_length; lia|cbn in L; lia].
Qed.

Lemma removelast_joined : forall lines, removelast (concat (map ended lines)) = joined lines.
Proof.
  induction lines as [|l lines IH]; [reflexivity|]. destruct lines as [|m lines].
  - cbn [map concat joined]. rewrite app_nil_r. unfold ended. apply removelast_last.
  - change (removelast (ended l ++ concat (map ended (m :: lines))) = l ++ 10 :: joined (m :: lines)).
    rewrite removelast_app; [rewrite IH; unfold ended; rewrite <- app_assoc; reflexivity|].
    cbn [map concat]. unfold ended at 1. destruct m; discriminate.
Qed.

Lemma lines_length : forall lines, (length lines <= length (concat (map ended lines)))%nat.
Proof.
  induction lines as [|l lines IH]; [cbn; lia|]. cbn [map concat length]. rewrite app_length. unfold ended at 1. rewrite app_length. cbn. lia.
Qed.

Lemma scan_source : forall lsize size l fuel, (2 <= lsize)%nat -> Forall (well_formed lsize size) l -> (length (source l) < fuel)%nat ->
  scanfile fuel lsize size (source l) = Some (documented l).
Proof.
  intros lsize size. induction l as [|i l IH]; intros fuel LS F L; (destruct fuel as [|fuel]; [lia|]).
  - destruct lsize as [|[|lsize]]; try lia. reflexivity.
  - inversion F as [|? ? Fi Fs]; subst. unfold source in *. cbn [map concat] in *. fold (source l) in *.
    rewrite app_length in L. cbn [scanfile]. destruct i as [line|pre id post lines before behind].
    + destruct Fi as ((Lf & Nf) & O). cbn [item_text] in *. rewrite fgets_app by assumption.
      rewrite strstr_none by (apply occurs_ended; [discriminate|unfold doc_mark; cbn; intuition discriminate|exact O]).
      unfold ended in L. rewrite app_length in L. cbn in L. rewrite IH by (auto; lia). reflexivity.
    + destruct Fi as ((Lf & Nf) & Np & Ni & Fl & Nfo & Nb & Sz). cbn [item_text] in *.
      rewrite <- !app_assoc. rewrite fgets_app by assumption.
      assert (H1 : strstr doc_mark (ended (header pre id post)) = Some (pre, id ++ colons ++ post ++ [10])).
      { unfold ended, header. rewrite <- !app_assoc. unfold doc_mark. rewrite (strstr_first 58 _ pre _ Np). reflexivity. }
      rewrite H1. unfold colons at 1 2. rewrite (strstr_first 58 [58] id _ Ni).
      rewrite !app_length in L. pose proof (lines_length lines).
      unfold ended at 1 in L. rewrite app_length in L. cbn [length] in L.
      rewrite body_lines by (first [assumption | cbn [length]; lia]).
      rewrite IH by (auto; lia). cbn [app documented flat_map]. rewrite removelast_joined. reflexivity.
Qed.

(** *** Blocks that are too long *)
Lemma body_full : forall fuel size out t, size = S (length out) -> body fuel size out t = None.
Proof.
  induction fuel as [|fuel IH]; intros size out t ->; [reflexivity|]. cbn [body].
  replace (S (length out) - length out)%nat with 1%nat by lia. cbn [fgets]. 
  change (strstr end_mark []) with (@None (list Z * list Z)). rewrite app_nil_r. apply IH. reflexivity.
Qed.
Lemma take_line_spec : forall k t a b, take_line k t = (a, b) -> t = a ++ b /\ (length a <= k)%nat /\ ((0 < k)%nat -> t <> [] -> a <> []).
Proof.
  induction k as [|k IH]; intros t a b H; cbn [take_line] in H.
  - injection H as <- <-. split; [reflexivity|]. split; [cbn; lia|lia].
  - destruct t as [|c t]; [injection H as <- <-; split; [reflexivity|]; split; [cbn; lia|congruence]|].
    destruct (c =? 10) eqn:E.
    + injection H as <- <-. apply Z.eqb_eq in E. subst c. split; [reflexivity|]. split; [cbn; lia|discriminate].
    + destruct (take_line k t) as (a', b') eqn:T. injection H as <- <-. destruct (IH t a' b' T) as (-> & L & _).
      split; [reflexivity|]. split; [cbn; lia|discriminate].
Qed.
Lemma body_long : forall fuel size out t, (length out < size)%nat -> (size <= S (length (out ++ t)))%nat ->
  ~ occurs end_mark (firstn (size - 1 - length out) t) -> body fuel size out t = None.
Proof.
  induction fuel as [|fuel IH]; intros size out t L1 L2 O; [reflexivity|].
  destruct (Nat.eq_dec size (S (length out))) as [E|E]; [apply body_full, E|].
  rewrite app_length in L2. cbn [body].
  destruct (size - length out)%nat as [|[|k]] eqn:K; try lia. cbn [fgets].
  destruct t as [|c t0]; [cbn in L2; lia|]. remember (c :: t0) as t.
  destruct (take_line (S k) t) as (a, b) eqn:T. destruct (take_line_spec _ _ _ _ T) as (Et & La & Na).
  specialize (Na ltac:(lia) ltac:(subst t; discriminate)).
  assert (Sz : (size - 1 - length out = S k)%nat) by lia. rewrite Sz in O.
  assert (Fa : firstn (S k) t = a ++ firstn (S k - length a) b).
  { rewrite Et, firstn_app. rewrite firstn_all2 by exact La. reflexivity. }
  rewrite Fa in O.
  rewrite strstr_none.
  2:{ intros (x & y & X). apply O. exists x, (y ++ firstn (S k - length a) b). rewrite X, <- !app_assoc. reflexivity. }
  assert (0 < length a)%nat by (destruct a; [congruence|cbn; lia]).
  pose proof (f_equal (@length Z) Et) as Lt. rewrite app_length in Lt.
  apply IH.
  - rewrite app_length. lia.
  - rewrite !app_length. lia.
  - rewrite app_length. replace (size - 1 - (length out + length a))%nat with (S k - length a)%nat by lia.
    intros (x & y & X). apply O. exists (a ++ x), y. rewrite X, <- !app_assoc. reflexivity.
Qed.

Lemma body_lines_or : forall size lines out fuel before behind r,
  Forall (fun l => ~ In 10 l /\ ~ occurs end_mark l) lines -> ~ In 10 (footer before behind) -> ~ In 58 before ->
  (length out + length (concat (map ended lines)) + length (footer before behind) + 2 <= size)%nat ->
  body fuel size out (concat (map ended lines) ++ ended (footer before behind) ++ r) = None \/
  body fuel size out (concat (map ended lines) ++ ended (footer before behind) ++ r) = Some (out ++ concat (map ended lines), r).
Proof.
  intros size. induction lines as [|l lines IH]; intros out fuel before behind r F N B Sz; (destruct fuel as [|fuel]; [left; reflexivity|]); cbn [body map concat].
  - right. cbn [app map concat] in *. rewrite fgets_app by (auto; cbn in Sz; lia).
    unfold footer at 1, ended. rewrite <- !app_assoc. unfold end_mark at 1 2. rewrite (strstr_first 58 _ before _ B).
    rewrite app_nil_r. reflexivity.
  - inversion F as [|? ? (Nl & Ol) Fs]; subst. cbn [map concat] in Sz. rewrite app_length in Sz.
    assert (Le : length (ended l) = S (length l)) by (unfold ended; rewrite app_length; cbn; lia).
    rewrite <- app_assoc.
    assert (Lf : (7 <= length (footer before behind))%nat) by (unfold footer; rewrite !app_length; cbn [length end_mark]; lia).
    rewrite fgets_app by (auto; lia).
    rewrite strstr_none by (apply occurs_ended; [discriminate|unfold end_mark; cbn; intuition discriminate|exact Ol]).
    rewrite (app_assoc out). apply IH; auto. rewrite app_length. lia.
Qed.

Lemma header_found : forall pre id post, ~ In 58 pre -> strstr doc_mark (ended (header pre id post)) = Some (pre, id ++ colons ++ post ++ [10]).
Proof. intros pre id post N. unfold ended, header. rewrite <- !app_assoc. unfold doc_mark. rewrite (strstr_first 58 _ pre _ N). reflexivity. Qed.

Lemma scan_long : forall lsize size l pre id post t fuel, Forall (well_formed lsize size) l ->
  fits_in lsize (header pre id post) -> ~ In 58 pre -> ~ In 58 id ->
  (0 < size)%nat -> (size <= S (length t))%nat -> ~ occurs end_mark (firstn (size - 1) t) ->
  scanfile fuel lsize size (source l ++ ended (header pre id post) ++ t) = None.
Proof.
  intros lsize size. induction l as [|i l IH]; intros pre id post t fuel F (Lh & Nh) Np Ni S0 S1 O; (destruct fuel as [|fuel]; [reflexivity|]).
  - cbn [source map concat app scanfile]. rewrite fgets_app by assumption. rewrite header_found by assumption.
    unfold colons at 1 2. rewrite (strstr_first 58 [58] id _ Ni).
    rewrite body_long; [reflexivity|cbn; lia|cbn; lia|]. cbn [length]. rewrite Nat.sub_0_r. exact O.
  - inversion F as [|? ? Fi Fs]; subst. unfold source. cbn [map concat]. fold (source l). rewrite <- app_assoc. cbn [scanfile].
    destruct i as [line|pre' id' post' lines before behind].
    + destruct Fi as ((Lf & Nf) & Oc). cbn [item_text]. rewrite fgets_app by assumption.
      rewrite strstr_none by (apply occurs_ended; [discriminate|unfold doc_mark; cbn; intuition discriminate|exact Oc]).
      apply IH; auto. split; assumption.
    + destruct Fi as ((Lf & Nf) & Np' & Ni' & Fl & Nfo & Nb & Sz). cbn [item_text].
      rewrite <- !app_assoc. rewrite fgets_app by assumption. rewrite header_found by assumption.
      unfold colons at 1 2. rewrite (strstr_first 58 [58] id' _ Ni').
      destruct (body_lines_or size lines [] fuel before behind (source l ++ ended (header pre id post) ++ t)) as [E|E]; auto.
      * rewrite E. reflexivity.
      * rewrite E. rewrite IH; auto. split; assumption.
Qed.

(** *** The database *)
Lemma bytes_eqb_spec : forall a b, bytes_eqb a b = true <-> a = b.
Proof.
  induction a as [|x a IH]; destruct b as [|y b]; cbn; try (split; [discriminate|congruence]); [tauto|].
  rewrite andb_true_iff, Z.eqb_eq, IH. split; [intros (-> & ->); reflexivity|intros [= -> ->]; auto].
Qed.
Lemma bytes_eqb_refl : forall a, bytes_eqb a a = true.
Proof. intros a. apply bytes_eqb_spec. reflexivity. Qed.
Lemma fetch_filter : forall db k k', k' <> k -> fetch (filter (fun e => negb (bytes_eqb (fst e) k')) db) k = fetch db k.
Proof.
  induction db as [|(a, v) db IH]; intros k k' N; [reflexivity|]. cbn [filter fst fetch].
  destruct (bytes_eqb a k') eqn:E; cbn [negb].
  - apply bytes_eqb_spec in E. subst a. destruct (bytes_eqb k' k) eqn:F; [apply bytes_eqb_spec in F; congruence|]. apply IH, N.
  - cbn [fetch]. destruct (bytes_eqb a k); [reflexivity|apply IH, N].
Qed.
Lemma fetch_store : forall db k v k', fetch (store db (k, v)) k' = if bytes_eqb k k' then Some v else fetch db k'.
Proof.
  intros db k v k'. unfold store. cbn [fetch fst]. destruct (bytes_eqb k k') eqn:E; [reflexivity|].
  apply fetch_filter. intros ->. rewrite bytes_eqb_refl in E. discriminate.
Qed.
Lemma fetch_stored : forall l db k, says l k (fetch db k) (fetch (fold_left store l db) k).
Proof.
  intros l. induction l as [|(a, v) l IH] using rev_ind; intros db k.
  - right. split; [intros []|reflexivity].
  - rewrite fold_left_app. cbn [fold_left]. rewrite fetch_store. destruct (bytes_eqb a k) eqn:E.
    + apply bytes_eqb_spec in E. subst a. left. exists l, [], v. split; [reflexivity|]. split; [intros []|reflexivity].
    + assert (a <> k) by (intros ->; rewrite bytes_eqb_refl in E; discriminate).
      destruct (IH db k) as [(l1 & l2 & w & -> & N & R)|(N & R)].
      * left. exists l1, (l2 ++ [(a, v)]), w. split; [rewrite <- app_assoc; reflexivity|]. split; [|exact R].
        rewrite map_app, in_app_iff. cbn. intros [X|[X|[]]]; [apply N, X|congruence].
      * right. split; [|exact R]. rewrite map_app, in_app_iff. cbn. intros [X|[X|[]]]; [apply N, X|congruence].
Qed.
Lemma scan_files_all : forall lsize size fuel files db, (2 <= lsize)%nat ->
  Forall (fun l => Forall (well_formed lsize size) l /\ (length (source l) < fuel)%nat) files ->
  scan_files fuel lsize size (map source files) db = Some (fold_left store (flat_map documented files) db).
Proof.
  intros lsize size fuel. induction files as [|f files IH]; intros db LS F; [reflexivity|].
  inversion F as [|? ? (Ff & Lf) Fs]; subst. cbn [map scan_files flat_map]. rewrite scan_source by assumption.
  rewrite fold_left_app. apply IH; assumption.
Qed.
