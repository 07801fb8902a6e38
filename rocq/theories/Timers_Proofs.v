(* Proofs about Timers_Model. *)
From Coq Require Import ZArith List Bool Lia ZifyBool Sorting.Sorted Permutation.
From Verif Require Import Timers_Model Timers_Spec.
Import ListNotations.
Open Scope Z_scope.

(** * fix_time *)

Lemma fix_neg_eq : forall fuel s m, (Z.to_nat (- m) <= fuel)%nat ->
  exists k, 0 <= k /\ fix_neg fuel s m = (s - k, m + 1000 * k) /\ 0 <= m + 1000 * k /\ (k = 0 \/ m + 1000 * k < 1000).
Proof.
  induction fuel as [|f IH]; intros s m H.
  - exists 0. cbn [fix_neg]. repeat split; try lia. f_equal; lia.
  - cbn [fix_neg]. destruct (m <? 0) eqn:E.
    + destruct (IH (s - 1) (m + 1000)) as (k & K & Hk & B & C); [lia|].
      exists (k + 1). rewrite Hk. repeat split; try lia. f_equal; lia.
    + exists 0. repeat split; try lia. f_equal; lia.
Qed.

Lemma fix_pos_eq : forall fuel s m, 0 <= m -> (Z.to_nat m <= fuel)%nat ->
  exists k, fix_pos fuel s m = (s + k, m - 1000 * k) /\ 0 <= m - 1000 * k < 1000.
Proof.
  induction fuel as [|f IH]; intros s m P H.
  - exists 0. cbn [fix_pos]. repeat split; try lia. f_equal; lia.
  - cbn [fix_pos]. destruct (1000 <=? m) eqn:E.
    + destruct (IH (s + 1) (m - 1000)) as (k & Hk & B); [lia|lia|].
      exists (k + 1). rewrite Hk. repeat split; try lia. f_equal; lia.
    + exists 0. repeat split; try lia. f_equal; lia.
Qed.

Lemma fix_time_ok : forall s m s' m', fix_time s m = (s', m') ->
  1000 * s' + m' = 1000 * s + m /\ 0 <= m' < 1000.
Proof.
  intros s m s' m' H. unfold fix_time in H.
  destruct (fix_neg_eq (Z.to_nat (Z.abs m)) s m) as (k & K & Hk & B & C); [lia|].
  rewrite Hk in H.
  destruct (fix_pos_eq (Z.to_nat (Z.abs (m + 1000 * k))) (s - k) (m + 1000 * k)) as (j & Hj & D); [lia|lia|].
  rewrite Hj in H. assert (H1 := f_equal fst H). assert (H2 := f_equal snd H). cbn [fst snd] in H1, H2. lia.
Qed.

(** * Timers in normal form *)

Definition norm (t : timer) : Prop := 0 <= rel_msecs t < 1000 /\ 0 <= rel_secs t.
Definition same (t u : timer) : Prop :=
  secs t = secs u /\ msecs t = msecs u /\ fired t = fired u /\ deleted t = deleted u.

Lemma same_refl : forall t, same t t. Proof. repeat split. Qed.
Lemma same_trans : forall t u v, same t u -> same u v -> same t v.
Proof. unfold same; intuition congruence. Qed.
Lemma same_set_rel : forall t s m, same t (set_rel t s m). Proof. repeat split. Qed.
Local Hint Resolve same_refl same_set_rel : core.

Lemma set_tm_eq : forall f i t, set_tm f i t i = t.
Proof. intros. unfold set_tm. now rewrite Nat.eqb_refl. Qed.
Lemma set_tm_neq : forall f i t j, j <> i -> set_tm f i t j = f j.
Proof. intros. unfold set_tm. destruct (Nat.eqb_spec j i); congruence. Qed.

Lemma cmp_rel : forall t u, norm t -> norm u ->
  (rel_secs u <? rel_secs t) || ((rel_secs u =? rel_secs t) && (rel_msecs u <=? rel_msecs t)) = (rel u <=? rel t).
Proof. unfold norm, rel. intros. lia. Qed.

Lemma norm_fix : forall t s m s' m', fix_time s m = (s', m') -> 0 <= 1000 * s + m ->
  norm (set_rel t s' m') /\ rel (set_rel t s' m') = 1000 * s + m.
Proof. intros t s m s' m' H P. apply fix_time_ok in H. unfold norm, rel; cbn [set_rel rel_secs rel_msecs]. lia. Qed.

(** * The list of relative times *)

Fixpoint dins (i : nat) (p : Z) (l : list (nat * Z)) : list (nat * Z) :=
  match l with
  | [] => [(i, p)]
  | (j, d) :: r => if d <=? p then (j, d) :: dins i (p - d) r else (i, p) :: (j, d - p) :: r
  end.

Definition dadd (d : Z) (l : list (nat * Z)) : list (nat * Z) :=
  match l with [] => [] | (j, e) :: r => (j, e + d) :: r end.

Fixpoint ddel (i : nat) (l : list (nat * Z)) : list (nat * Z) :=
  match l with
  | [] => []
  | (j, d) :: r => if Nat.eqb j i then dadd d r else (j, d) :: ddel i r
  end.

Lemma deltas_ext : forall f g c, (forall j, In j c -> rel (f j) = rel (g j)) -> deltas f c = deltas g c.
Proof. intros f g c H. unfold deltas. apply map_ext_in. intros j J. now rewrite (H j J). Qed.

Lemma fst_dins : forall l i p, Permutation (i :: map fst l) (map fst (dins i p l)).
Proof.
  induction l as [|[j d] r IH]; intros i p; cbn [dins map fst]; [reflexivity|].
  destruct (d <=? p); cbn [map fst]; [|reflexivity].
  eapply perm_trans; [apply perm_swap|]. now constructor.
Qed.

Lemma fst_deltas : forall f c, map fst (deltas f c) = c.
Proof. intros. unfold deltas. rewrite map_map. cbn [fst]. apply map_id. Qed.

Lemma fst_sums : forall l b, map fst (sums b l) = map fst l.
Proof. induction l as [|[j d] r IH]; intros b; cbn; [reflexivity|]. now rewrite IH. Qed.

Lemma insert_walk_ok : forall c f i f' c',
  insert_walk f i c = (f', c') -> ~ In i c -> NoDup c -> norm (f i) -> (forall j, In j c -> norm (f j)) ->
  c' = map fst (dins i (rel (f i)) (deltas f c)) /\
  deltas f' c' = dins i (rel (f i)) (deltas f c) /\
  (forall j, same (f j) (f' j)) /\ (forall j, In j (i :: c) -> norm (f' j)) /\
  (forall j, ~ In j (i :: c) -> f' j = f j).
Proof.
  induction c as [|j r IH]; intros f i f' c' H NI ND NT NC; cbn [insert_walk] in H.
  - injection H as <- <-. cbn. split; [reflexivity|]. split; [reflexivity|]. split; [auto|]. split; [|auto]. intros j [<-|[]]; exact NT.
  - assert (NJ : norm (f j)) by (apply NC; now left).
    assert (JI : j <> i) by (intros ->; apply NI; now left).
    apply NoDup_cons_iff in ND. destruct ND as [JR ND].
    rewrite cmp_rel in H by assumption.
    cbn [deltas map dins]. fold (deltas f r).
    destruct (rel (f j) <=? rel (f i)) eqn:E.
    + destruct (fix_time _ _) as [s m] eqn:F.
      assert (P : 0 <= 1000 * (rel_secs (f i) - rel_secs (f j)) + (rel_msecs (f i) - rel_msecs (f j))) by (unfold rel in E; lia).
      destruct (norm_fix (f i) _ _ _ _ F P) as [N1 R1].
      set (t := set_rel (f i) s m) in *.
      destruct (insert_walk (set_tm f i t) i r) as [f1 c1] eqn:W. injection H as <- <-.
      assert (NR : forall k, In k r -> set_tm f i t k = f k).
      { intros k K. apply set_tm_neq. intros ->. apply NI. now right. }
      apply IH in W.
      * rewrite !set_tm_eq in W. destruct W as (A & B & C & D & G).
        replace (rel (f i) - rel (f j)) with (rel t) by (rewrite R1; unfold rel; lia).
        assert (X : deltas (set_tm f i t) r = deltas f r) by (apply deltas_ext; intros k K; now rewrite NR).
        rewrite X in *. cbn [map fst]. rewrite <- A.
        assert (FJ : f1 j = f j).
        { rewrite G; [now apply set_tm_neq|]. intros [K|K]; [congruence|contradiction]. }
        split; [reflexivity|]. split; [|split; [|split]].
        -- change (deltas f1 (j :: c1)) with ((j, rel (f1 j)) :: deltas f1 c1). now rewrite FJ, B.
        -- intros k. eapply same_trans; [|apply C]. destruct (Nat.eq_dec k i) as [->|K].
           ++ rewrite set_tm_eq. apply same_set_rel.
           ++ rewrite set_tm_neq by exact K. auto.
        -- intros k [<-|[<-|K]]; [apply D; now left|now rewrite FJ|apply D; now right].
        -- intros k K. rewrite G; [apply set_tm_neq; intros ->; apply K; now left|].
           intros [Q|Q]; apply K; [left; exact Q|right; right; exact Q].
      * intros K. apply NI. now right.
      * exact ND.
      * now rewrite set_tm_eq.
      * intros k K. rewrite NR by exact K. apply NC. now right.
    + destruct (fix_time _ _) as [s m] eqn:F.
      assert (P : 0 <= 1000 * (rel_secs (f j) - rel_secs (f i)) + (rel_msecs (f j) - rel_msecs (f i))) by (unfold rel in E; lia).
      destruct (norm_fix (f j) _ _ _ _ F P) as [N1 R1].
      injection H as <- <-. cbn [map fst]. rewrite fst_deltas.
      split; [reflexivity|]. split; [|split; [|split]].
      * cbn [deltas map]. rewrite set_tm_eq, (set_tm_neq f j _ i) by congruence.
        replace (rel (f j) - rel (f i)) with (rel (set_rel (f j) s m)) by (rewrite R1; unfold rel; lia).
        do 2 f_equal. apply map_ext_in. intros k K. rewrite set_tm_neq; [reflexivity|]. intros ->. contradiction.
      * intros k. destruct (Nat.eq_dec k j) as [->|K]; [rewrite set_tm_eq; auto|rewrite set_tm_neq by exact K; auto].
      * intros k K. destruct (Nat.eq_dec k j) as [->|Q]; [now rewrite set_tm_eq|rewrite set_tm_neq by exact Q].
        destruct K as [<-|[K|K]]; [exact NT|congruence|apply NC; now right].
      * intros k K. apply set_tm_neq. intros ->. apply K. right. now left.
Qed.

Lemma delete_walk_ok : forall c f i f' c',
  delete_walk f i c = Some (f', c') -> NoDup c -> (forall j, In j c -> norm (f j)) ->
  In i c /\ c' = map fst (ddel i (deltas f c)) /\
  deltas f' c' = ddel i (deltas f c) /\
  (forall j, same (f j) (f' j)) /\ (forall j, In j c -> norm (f' j)) /\
  (forall j, ~ In j c -> f' j = f j).
Proof.
  induction c as [|j r IH]; intros f i f' c' H ND NC; cbn [delete_walk] in H; [discriminate|].
  apply NoDup_cons_iff in ND. destruct ND as [JR ND].
  cbn [deltas map ddel]. fold (deltas f r).
  destruct (Nat.eqb_spec j i) as [->|JI].
  - injection H as <- <-. split; [now left|].
    set (f0 := match r with [] => f | _ => _ end).
    assert (X : deltas f0 r = dadd (rel (f i)) (deltas f r) /\ (forall k, same (f k) (f0 k)) /\
                (forall k, In k r -> norm (f0 k)) /\ (forall k, ~ In k r -> f0 k = f k)).
    { subst f0. destruct r as [|k r]; [cbn; split; [reflexivity|]; split; [auto|]; split; [intros ? []|auto]|].
      destruct (fix_time _ _) as [s m] eqn:F.
      assert (NI : norm (f i)) by (apply NC; now left).
      assert (NK : norm (f k)) by (apply NC; right; now left).
      assert (P : 0 <= 1000 * (rel_secs (f k) + rel_secs (f i)) + (rel_msecs (f k) + rel_msecs (f i))) by (unfold norm in *; lia).
      destruct (norm_fix (f k) _ _ _ _ F P) as [N1 R1].
      apply NoDup_cons_iff in ND. destruct ND as [KR ND].
      split; [|split; [|split]].
      - cbn [deltas map dadd]. rewrite set_tm_eq.
        replace (rel (f k) + rel (f i)) with (rel (set_rel (f k) s m)) by (rewrite R1; unfold rel; lia).
        f_equal. apply map_ext_in. intros q Q. rewrite set_tm_neq; [reflexivity|]. intros ->. contradiction.
      - intros q. destruct (Nat.eq_dec q k) as [->|Q]; [rewrite set_tm_eq; auto|rewrite set_tm_neq by exact Q; auto].
      - intros q Q. destruct (Nat.eq_dec q k) as [->|QK]; [now rewrite set_tm_eq|rewrite set_tm_neq by exact QK].
        apply NC. right. exact Q.
      - intros q Q. apply set_tm_neq. intros ->. apply Q. now left. }
    clearbody f0. destruct X as (A & B & C & D).
    assert (E : forall k, In k r -> set_tm f0 i (set_rel (f0 i) 0 0) k = f0 k).
    { intros k K. apply set_tm_neq. intros ->. contradiction. }
    split; [|split; [|split; [|split]]].
    + rewrite <- A. now rewrite fst_deltas.
    + rewrite <- A. apply deltas_ext. intros k K. now rewrite E.
    + intros k. eapply same_trans; [apply B|]. destruct (Nat.eq_dec k i) as [->|Q]; [rewrite set_tm_eq; auto|rewrite set_tm_neq by exact Q; auto].
    + intros k [<-|K]; [rewrite set_tm_eq; unfold norm; cbn; lia|rewrite E by exact K; now apply C].
    + intros k K. rewrite set_tm_neq; [apply D; intros Q; apply K; now right|intros ->; apply K; now left].
  - destruct (delete_walk f i r) as [[f1 c1]|] eqn:W; [|discriminate]. injection H as <- <-.
    apply IH in W; [|exact ND|intros k K; apply NC; now right].
    destruct W as (I & A & B & C & D & G).
    assert (FJ : f1 j = f j) by (apply G; exact JR).
    split; [now right|]. split; [|split; [|split; [|split]]].
    + cbn [map fst]. now rewrite <- A.
    + change (deltas f1 (j :: c1)) with ((j, rel (f1 j)) :: deltas f1 c1). now rewrite FJ, B.
    + exact C.
    + intros k [<-|K]; [rewrite FJ; apply NC; now left|now apply D].
    + intros k K. apply G. intros Q. apply K. now right.
Qed.

Lemma delete_walk_none : forall c f i, delete_walk f i c = None -> ~ In i c.
Proof.
  induction c as [|j r IH]; intros f i H; cbn [delete_walk] in H; [easy|].
  destruct (Nat.eqb_spec j i); [discriminate|].
  destruct (delete_walk f i r) as [[? ?]|] eqn:W; [discriminate|].
  intros [Q|Q]; [congruence|]. now apply (IH f i W).
Qed.

Lemma ddel_absent : forall l i, ~ In i (map fst l) -> ddel i l = l.
Proof.
  induction l as [|[j d] r IH]; intros i H; cbn [ddel]; [reflexivity|].
  destruct (Nat.eqb_spec j i) as [->|]; [exfalso; apply H; now left|].
  rewrite IH; [reflexivity|]. intros K. apply H. now right.
Qed.

(** * Relative and absolute times *)

Definition nonneg (l : list (nat * Z)) : Prop := Forall (fun p => 0 <= snd p) l.

Lemma sums_dadd : forall l b d, sums b (dadd d l) = sums (b + d) l.
Proof. destruct l as [|[j e] r]; intros; cbn; [reflexivity|]. replace (b + (e + d)) with (b + d + e) by lia. reflexivity. Qed.

Lemma sums_dins : forall l b i p, sums b (dins i p l) = place (i, b + p) (sums b l).
Proof.
  induction l as [|[j d] r IH]; intros b i p; cbn [dins sums place snd fst]; [reflexivity|].
  destruct (Z.leb_spec d p).
  - replace (b + d <=? b + p) with true by lia. cbn [sums]. rewrite IH. do 3 f_equal. lia.
  - replace (b + d <=? b + p) with false by lia. cbn [sums].
    replace (b + p + (d - p)) with (b + d) by lia. reflexivity.
Qed.

Lemma without_absent : forall l i, ~ In i (map fst l) -> without i l = l.
Proof.
  induction l as [|[j d] r IH]; intros i H; cbn [without filter fst]; [reflexivity|].
  destruct (Nat.eqb_spec j i) as [->|]; [exfalso; apply H; now left|]. cbn [negb].
  f_equal. apply IH. intros K. apply H. now right.
Qed.

Lemma sums_ddel : forall l b i, NoDup (map fst l) -> sums b (ddel i l) = without i (sums b l).
Proof.
  induction l as [|[j d] r IH]; intros b i ND; cbn [ddel sums without filter fst]; [reflexivity|].
  cbn [map fst] in ND. apply NoDup_cons_iff in ND. destruct ND as [NJ ND].
  destruct (Nat.eqb_spec j i) as [->|JI]; cbn [negb].
  - rewrite sums_dadd. fold (without i (sums (b + d) r)). symmetry. apply without_absent. now rewrite fst_sums.
  - cbn [sums]. f_equal. now apply IH.
Qed.

Lemma sums_shift : forall l b d, sums (b + d) l = map (fun p => (fst p, snd p + d)) (sums b l).
Proof.
  induction l as [|[j e] r IH]; intros b d; cbn [sums map fst snd]; [reflexivity|].
  rewrite <- IH. replace (b + d + e) with (b + e + d) by lia. reflexivity.
Qed.

Lemma sums_ge : forall l b p, nonneg l -> In p (sums b l) -> b <= snd p.
Proof.
  induction l as [|[j e] r IH]; intros b p N H; [easy|]. apply Forall_cons_iff in N. destruct N as [A N]. cbn [snd] in A.
  destruct H as [<-|H]; cbn [snd]; [lia|]. apply IH in H; [lia|exact N].
Qed.

Lemma sums_sorted : forall l b, nonneg l -> StronglySorted by_time (sums b l).
Proof.
  induction l as [|[j e] r IH]; intros b N; cbn [sums]; [constructor|].
  apply Forall_cons_iff in N. destruct N as [A N]. constructor; [now apply IH|].
  apply Forall_forall. intros p P. unfold by_time. cbn [snd]. now apply (sums_ge r).
Qed.

Lemma time_of_place : forall l i t j, ~ In i (map fst l) ->
  time_of j (place (i, t) l) = if Nat.eqb j i then Some t else time_of j l.
Proof.
  induction l as [|[k u] r IH]; intros i t j H; cbn [place time_of snd].
  - rewrite (Nat.eqb_sym i j). reflexivity.
  - destruct (u <=? t); cbn [time_of].
    + rewrite IH by (intros K; apply H; now right).
      destruct (Nat.eqb_spec k j) as [->|]; [|reflexivity].
      destruct (Nat.eqb_spec j i) as [->|]; [exfalso; apply H; now left|reflexivity].
    + rewrite (Nat.eqb_sym i j). reflexivity.
Qed.

Lemma time_of_without : forall l i j, time_of j (without i l) = if Nat.eqb j i then None else time_of j l.
Proof.
  induction l as [|[k u] r IH]; intros i j; cbn [without filter time_of fst].
  - now destruct (Nat.eqb j i).
  - fold (without i r). destruct (Nat.eqb_spec k i) as [->|KI]; cbn [negb time_of]; rewrite IH.
    + rewrite (Nat.eqb_sym i j). now destruct (Nat.eqb j i).
    + destruct (Nat.eqb_spec k j) as [->|]; [|reflexivity]. destruct (Nat.eqb_spec j i); congruence.
Qed.

Lemma time_of_shift : forall l j d, time_of j (map (fun p => (fst p, snd p + d)) l) = shift d (time_of j l).
Proof.
  induction l as [|[k u] r IH]; intros j d; cbn [map time_of fst snd]; [reflexivity|].
  destruct (Nat.eqb k j); [reflexivity|]. apply IH.
Qed.

Lemma shift_0 : forall o, shift 0 o = o.
Proof. destruct o; cbn; [|reflexivity]. f_equal. lia. Qed.
