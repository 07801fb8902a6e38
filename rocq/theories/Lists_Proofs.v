From Coq Require Import ZArith List Bool Arith Lia.
From Verif Require Import Lists_Model Lists_Spec.
Import ListNotations.

Lemma chain_app : forall h l1 l2 v e,
  chain h v (l1 ++ l2) e <-> exists m, chain h v l1 m /\ chain h m l2 e.
Proof.
  intros h l1. induction l1 as [|[p x] l1 IH]; intros l2 v e; simpl.
  - split; [intros H; exists v; auto|]. intros (m & -> & H); auto.
  - split.
    + intros (-> & Hx & H). apply IH in H. destruct H as (m & H1 & H2). exists m. auto.
    + intros (m & (-> & Hx & H1) & H2). repeat split; auto. apply IH. exists m. auto.
Qed.

Lemma chain_frame : forall h h' l v e,
  (forall p, In p (addrs l) -> mem h' p = mem h p) -> chain h v l e -> chain h' v l e.
Proof.
  intros h h' l. induction l as [|[p x] l IH]; intros v e F H; simpl in *; auto.
  destruct H as (-> & <- & H). rewrite F by auto. repeat split. apply IH; auto.
Qed.

Lemma chain_det : forall h l l' v e e', not_cell e -> not_cell e' ->
  chain h v l e -> chain h v l' e' -> l = l' /\ e = e'.
Proof.
  intros h l. induction l as [|[p x] l IH]; intros [|[q y] l'] v e e' N N' H H'; simpl in *.
  - subst; auto.
  - subst. destruct H' as (E & _). exfalso. apply (N q). auto.
  - subst. destruct H as (E & _). exfalso. apply (N' p). auto.
  - destruct H as (-> & <- & H). destruct H' as (E & <- & H'). inversion E; subst q.
    destruct (IH l' _ _ _ N N' H H') as [-> ->]. auto.
Qed.

Lemma chain_nodup : forall h l v e, not_cell e -> chain h v l e -> NoDup (addrs l).
Proof.
  intros h l. induction l as [|[p x] l IH]; intros v e N H; simpl; constructor.
  - intros I. simpl in H. destruct H as (-> & <- & H).
    apply in_map_iff in I. destruct I as ([q y] & Eq & I). simpl in Eq. subst q.
    apply in_split in I. destruct I as (l1 & l2 & ->).
    pose proof H as H'. apply chain_app in H. destruct H as (m & H1 & H2).
    assert (m = Cell p) by (simpl in H2; tauto). subst m.
    assert (H3 : chain h (Cell p) ((p, fst (mem h p)) :: l1 ++ (p, y) :: l2) e) by (simpl; auto).
    destruct (chain_det h _ _ (Cell p) e e N N H2 H3) as [E _].
    apply (f_equal (@length _)) in E. simpl in E. rewrite app_length in E. simpl in E. lia.
  - simpl in H. destruct H as (-> & _ & H). eauto.
Qed.


Lemma addrs_app : forall l1 l2, addrs (l1 ++ l2) = addrs l1 ++ addrs l2.
Proof. intros. apply map_app. Qed.
Lemma elems_app : forall l1 l2, elems (l1 ++ l2) = elems l1 ++ elems l2.
Proof. intros. apply map_app. Qed.

Lemma nodup_app : forall {A} (l1 l2 : list A),
  NoDup (l1 ++ l2) <-> NoDup l1 /\ NoDup l2 /\ (forall x, In x l1 -> ~ In x l2).
Proof.
  induction l1 as [|a l1 IH]; intros l2; simpl.
  - split; [intros H; repeat split; auto; constructor|tauto].
  - split.
    + intros H. inversion H as [|? ? N H']; subst. apply IH in H'. destruct H' as (H1 & H2 & H3).
      rewrite in_app_iff in N. repeat split; auto.
      * constructor; tauto.
      * intros x [<-|Hx]; [tauto|auto].
    + intros (H1 & H2 & H3). inversion H1; subst. constructor.
      * rewrite in_app_iff. intros [X|X]; [auto|]. apply (H3 a); auto.
      * apply IH. repeat split; auto.
Qed.

(** The location at the end of the cells of [l] *)
Definition last_place (l : list (nat * val)) : place := fold_left (fun _ c => PCdr (fst c)) l PVar.

Lemma last_place_snoc : forall l p x, last_place (l ++ [(p, x)]) = PCdr p.
Proof. intros. unfold last_place. rewrite fold_left_app. reflexivity. Qed.

Lemma snoc_cases : forall {A} (l : list A), l = [] \/ exists l' a, l = l' ++ [a].
Proof.
  intros A l. induction l as [|a l IH] using rev_ind; auto. right. eauto.
Qed.

Lemma load_end : forall h var pre e, chain h var pre e -> load h var (last_place pre) = e.
Proof.
  intros h var pre e H. destruct (snoc_cases pre) as [->|(pre' & [p x] & ->)].
  - exact H.
  - rewrite last_place_snoc. apply chain_app in H. destruct H as (m & _ & H). simpl in H. simpl. tauto.
Qed.

Lemma set_cdr_mem : forall h p v q, mem (set_cdr h p v) q = if q =? p then (fst (mem h p), v) else mem h q.
Proof. reflexivity. Qed.

Lemma set_cdr_fst : forall h p v q, fst (mem (set_cdr h p v) q) = fst (mem h q).
Proof. intros. rewrite set_cdr_mem. destruct (Nat.eqb_spec q p); subst; auto. Qed.

Lemma store_end : forall h var pre e v h' var', chain h var pre e -> NoDup (addrs pre) ->
  store h var (last_place pre) v = (h', var') ->
  chain h' var' pre v /\ only_cdrs_of (addrs pre) h h'.
Proof.
  intros h var pre e v h' var' H N S. destruct (snoc_cases pre) as [->|(pre' & [p x] & ->)].
  - simpl in S. inversion S; subst. split; [reflexivity|]. repeat split; auto.
  - rewrite last_place_snoc in S. cbn [store] in S. inversion S; subst.
    rewrite addrs_app in N. apply nodup_app in N. destruct N as (_ & _ & N).
    apply chain_app in H. destruct H as (m & H1 & H2). simpl in H2. destruct H2 as (-> & <- & _).
    split; [|split; [|split]].
    + apply chain_app. exists (Cell p). split.
      * eapply chain_frame; [|exact H1]. intros q Hq. rewrite set_cdr_mem.
        destruct (Nat.eqb_spec q p); auto. subst. exfalso. apply (N p Hq). simpl. auto.
      * simpl. rewrite Nat.eqb_refl. auto.
    + reflexivity.
    + intros q Hq. rewrite addrs_app, in_app_iff in Hq. simpl in Hq. rewrite set_cdr_mem.
      destruct (Nat.eqb_spec q p); auto. subst. tauto.
    + intros q. apply set_cdr_fst.
Qed.

Lemma only_refl : forall ps h, only_cdrs_of ps h h.
Proof. intros. repeat split; auto. Qed.
Lemma only_trans : forall ps h1 h2 h3, only_cdrs_of ps h1 h2 -> only_cdrs_of ps h2 h3 -> only_cdrs_of ps h1 h3.
Proof.
  intros ps h1 h2 h3 (A1 & A2 & A3) (B1 & B2 & B3). split; [congruence|]. split; intros.
  - rewrite B2, A2; auto.
  - rewrite B3, A3; auto.
Qed.
Lemma only_weaken : forall ps qs h h', (forall p, In p ps -> In p qs) -> only_cdrs_of ps h h' -> only_cdrs_of qs h h'.
Proof. intros ps qs h h' I (A1 & A2 & A3). repeat split; auto. Qed.

Lemma last_place_app_ne : forall l1 l2, l2 <> [] -> last_place (l1 ++ l2) = last_place l2.
Proof.
  intros l1 l2 H. destruct (snoc_cases l2) as [->|(l & [p x] & ->)]; [congruence|].
  rewrite app_assoc, !last_place_snoc. reflexivity.
Qed.

(** ** delete *)
Section Del.
  Variable del : val -> bool.
  Definition keep (c : nat * val) : bool := negb (del (snd c)).

  Lemma delete_loop_ok : forall l fuel h var pre e,
    chain h var (pre ++ l) e -> not_cell e -> length l < fuel ->
    exists h' var', delete_loop fuel del h var (last_place pre) = Some (h', var') /\
      chain h' var' (pre ++ filter keep l) e /\ only_cdrs_of (addrs (pre ++ filter keep l)) h h'.
  Proof.
    induction l as [|[p x] l IH]; intros fuel h var pre e H N Hf; (destruct fuel as [|fuel]; [simpl in Hf; lia|]).
    - rewrite app_nil_r in *. cbn [delete_loop]. rewrite (load_end _ _ _ _ H). cbn [filter]. try rewrite app_nil_r.
      exists h, var. destruct e; auto using only_refl. exfalso. apply (N p). reflexivity.
    - pose proof (chain_nodup _ _ _ _ N H) as ND.
      pose proof H as H0. apply chain_app in H. destruct H as (m & H1 & H2).
      cbn [delete_loop]. rewrite (load_end _ _ _ _ H1).
      simpl in H2. destruct H2 as (-> & Hx & H2). rewrite Hx.
      cbn [filter]. change (keep (p, x)) with (negb (del x)). destruct (del x) eqn:D; cbn [negb].
      + rewrite addrs_app in ND. apply nodup_app in ND. destruct ND as (ND1 & ND2 & ND3). simpl in ND2.
        inversion ND2 as [|? ? NP ND2']; subst.
        destruct (store h var (last_place pre) (snd (mem h p))) as [h1 var1] eqn:S.
        destruct (store_end _ _ _ _ _ _ _ H1 ND1 S) as (C1 & O1).
        assert (C : chain h1 var1 (pre ++ l) e).
        { apply chain_app. exists (snd (mem h p)). split; auto.
          eapply chain_frame; [|exact H2]. intros q Hq. destruct O1 as (_ & O1 & _). apply O1.
          intros I. apply (ND3 q I). simpl. auto. }
        destruct (IH fuel h1 var1 pre e C N) as (h' & var' & R & C' & O'); [simpl in Hf; lia|].
        exists h', var'. repeat split; auto.
        * destruct O1 as (A & _), O' as (B & _). congruence.
        * intros q Hq. destruct O1 as (_ & O1 & _), O' as (_ & O' & _). rewrite O' by auto. apply O1.
          intros I. apply Hq. rewrite addrs_app, in_app_iff. auto.
        * intros q. destruct O1 as (_ & _ & O1), O' as (_ & _ & O'). rewrite O'. apply O1.
      + assert (C : chain h var ((pre ++ [(p, x)]) ++ l) e) by (rewrite <- app_assoc; exact H0).
        destruct (IH fuel h var (pre ++ [(p, x)]) e C N) as (h' & var' & R & C' & O'); [simpl in Hf; lia|].
        rewrite last_place_snoc in R. rewrite <- app_assoc in C', O'. exists h', var'. auto.
  Qed.
End Del.

Lemma delete_by_ok : forall del fuel h v l e, is_list h v l e -> listp v = true -> length l < fuel ->
  exists h' v', delete_by fuel del h v = Some (h', v') /\
    is_list h' v' (filter (keep del) l) e /\ only_cdrs_of (addrs (filter (keep del) l)) h h'.
Proof.
  intros del fuel h v l e (H & N) L Hf. unfold delete_by. rewrite L.
  destruct (delete_loop_ok del l fuel h v [] e H N Hf) as (h' & v' & R & C & O).
  exists h', v'. repeat split; auto; apply O.
Qed.

(** ** Building new lists *)
Definition building (h0 h : heap) (var : val) (pre : list (nat * val)) (m : val) : Prop :=
  chain h var pre m /\ fresh h0 pre /\ allocated h pre /\ heap_kept h0 h /\ next h0 <= next h.

Lemma building_start : forall h v, building h h v [] v.
Proof. intros. repeat split; try constructor; auto. Qed.

Lemma cons_eq : forall h a d, cons h a d =
  (mk_heap (fun q => if q =? next h then (a, d) else mem h q) (S (next h)), Cell (next h)).
Proof. reflexivity. Qed.

Lemma build_step : forall h0 h var pre m a d h1 c h2 var',
  building h0 h var pre m -> cons h a d = (h1, c) -> store h1 var (last_place pre) c = (h2, var') ->
  building h0 h2 var' (pre ++ [(next h, a)]) d /\ c = Cell (next h) /\
  mem h2 (next h) = (a, d) /\ next h2 = S (next h).
Proof.
  intros h0 h var pre m a d h1 c h2 var' (C & (F1 & F2) & A & K & L) Ec Es.
  rewrite cons_eq in Ec. inversion Ec; subst h1 c. clear Ec.
  assert (NI : forall q, In q (addrs pre) -> q <> next h).
  { intros q Hq. unfold allocated in A. rewrite Forall_forall in A. specialize (A q Hq). lia. }
  match type of Es with store ?x _ _ _ = _ => set (h1 := x) in * end.
  assert (C1 : chain h1 var pre m).
  { eapply chain_frame; [|exact C]. intros q Hq. simpl. destruct (Nat.eqb_spec q (next h)); auto.
    exfalso. apply (NI q Hq). auto. }
  destruct (store_end _ _ _ _ _ _ _ C1 F1 Es) as (C2 & O1 & O2 & O3).
  assert (M : mem h2 (next h) = (a, d)).
  { rewrite O2; [|intros I; exact (NI _ I eq_refl)]. simpl. rewrite Nat.eqb_refl. reflexivity. }
  simpl in O1. split; [|auto]. split; [|split; [|split; [|split]]].
  - apply chain_app. exists (Cell (next h)). split; auto. simpl. rewrite M. auto.
  - split.
    + rewrite addrs_app. apply nodup_app. repeat split; auto.
      * simpl. constructor; [simpl; tauto|constructor].
      * intros q Hq [<-|[]]. exact (NI _ Hq eq_refl).
    + rewrite addrs_app. apply Forall_app. split; auto. repeat constructor. auto.
  - unfold allocated. rewrite addrs_app. apply Forall_app. split.
    + unfold allocated in A. eapply Forall_impl; [|exact A]. simpl. intros q Hq. lia.
    + repeat constructor. simpl. lia.
  - intros q Hq. rewrite O2.
    + simpl. destruct (Nat.eqb_spec q (next h)); [lia|]. apply K. auto.
    + intros I. rewrite Forall_forall in F2. specialize (F2 q I). lia.
  - lia.
Qed.

(** A chain of old cells survives building. *)
Lemma building_old : forall h0 h var pre m v l e, building h0 h var pre m -> allocated h0 l ->
  chain h0 v l e -> chain h v l e.
Proof.
  intros h0 h var pre m v l e (_ & _ & _ & K & _) A H. eapply chain_frame; [|exact H].
  intros p Hp. apply K. unfold allocated in A. rewrite Forall_forall in A. auto.
Qed.

Lemma alloc_tl : forall h c l, allocated h (c :: l) -> fst c < next h /\ allocated h l.
Proof. intros h c l H. inversion H; auto. Qed.

Lemma copy_loop_ok : forall l fuel h0 h var pre v e m,
  building h0 h var pre m -> chain h v l e -> not_cell e -> allocated h0 l -> length l < fuel ->
  exists h' var' l', copy_loop fuel h var (last_place pre) v = Some (h', var') /\
    building h0 h' var' (pre ++ l') e /\ elems l' = elems l.
Proof.
  induction l as [|[p x] l IH]; intros fuel h0 h var pre v e m B H N A Hf;
    (destruct fuel as [|fuel]; [simpl in Hf; lia|]); cbn [copy_loop].
  - simpl in H. subst v.
    destruct (store h var (last_place pre) e) as [h' var'] eqn:S.
    destruct B as (C & (F1 & F2) & Al & K & L).
    destruct (store_end _ _ _ _ _ _ _ C F1 S) as (C2 & O1 & O2 & O3).
    exists h', var', []. rewrite app_nil_r. split; [|split; [|reflexivity]].
    + destruct e; try reflexivity. exfalso. apply (N p). reflexivity.
    + split; [|split; [|split; [|split]]]; auto.
      * split; auto.
      * unfold allocated. rewrite O1. exact Al.
      * intros q Hq. rewrite O2; [apply K; auto|]. intros I. rewrite Forall_forall in F2. specialize (F2 q I). lia.
      * lia.
  - simpl in H. destruct H as (-> & Hx & H). rewrite Hx.
    destruct (cons h x Nil) as [h1 c] eqn:Ec.
    destruct (store h1 var (last_place pre) c) as [h2 var'] eqn:Es.
    destruct (build_step _ _ _ _ _ _ _ _ _ _ _ B Ec Es) as (B2 & -> & M & Nx).
    apply alloc_tl in A. simpl in A. destruct A as (Ap & A).
    assert (MP : mem h2 p = mem h p).
    { destruct B2 as (_ & _ & _ & K2 & _). destruct B as (_ & _ & _ & K & _).
      rewrite K2, K; auto. }
    rewrite MP.
    assert (H2 : chain h2 (snd (mem h p)) l e).
    { eapply chain_frame; [|exact H]. intros q Hq. unfold allocated in A. rewrite Forall_forall in A. specialize (A q Hq).
      destruct B2 as (_ & _ & _ & K2 & _). destruct B as (_ & _ & _ & K & _). rewrite K2, K; auto. }
    destruct (IH fuel h0 h2 var' (pre ++ [(next h, x)]) (snd (mem h p)) e Nil B2 H2 N A) as (h' & v' & l' & R & B' & E); [simpl in Hf; lia|].
    rewrite last_place_snoc in R. rewrite <- app_assoc in B'.
    exists h', v', ((next h, x) :: l'). split; [exact R|]. split; [exact B'|]. simpl. f_equal. exact E.
Qed.

Lemma copy_list_ok : forall fuel h v l e, is_list h v l e -> allocated h l -> length l < fuel ->
  exists h' v' l', copy_list fuel h v = Some (h', v') /\ building h h' v' l' e /\ elems l' = elems l.
Proof.
  intros fuel h v l e (H & N) A Hf. unfold copy_list.
  destruct (copy_loop_ok l fuel h h Nil [] v e Nil (building_start h Nil) H N A Hf) as (h' & v' & l' & R & B & E).
  exists h', v', l'. auto.
Qed.

Lemma filter_loop_ok : forall pred l fuel h0 h var pre v e,
  building h0 h var pre Nil -> chain h v l e -> not_cell e -> allocated h0 l -> length l < fuel ->
  exists h' var' l', filter_loop fuel pred h var (last_place pre) v = Some (h', var') /\
    building h0 h' var' (pre ++ l') Nil /\ elems l' = filter pred (elems l).
Proof.
  intros pred. induction l as [|[p x] l IH]; intros fuel h0 h var pre v e B H N A Hf;
    (destruct fuel as [|fuel]; [simpl in Hf; lia|]); cbn [filter_loop].
  - simpl in H. subst v. exists h, var, []. rewrite app_nil_r. split; [|auto].
    destruct e; try reflexivity. exfalso. apply (N p). reflexivity.
  - simpl in H. destruct H as (-> & Hx & H). rewrite Hx. cbn [elems map snd filter].
    apply alloc_tl in A. simpl in A. destruct A as (Ap & A).
    destruct (pred x).
    + destruct (cons h x Nil) as [h1 c] eqn:Ec.
      destruct (store h1 var (last_place pre) c) as [h2 var'] eqn:Es.
      destruct (build_step _ _ _ _ _ _ _ _ _ _ _ B Ec Es) as (B2 & -> & M & Nx).
      assert (MP : mem h2 p = mem h p).
      { destruct B2 as (_ & _ & _ & K2 & _). destruct B as (_ & _ & _ & K & _).
        rewrite K2, K; auto. }
      rewrite MP.
      assert (H2 : chain h2 (snd (mem h p)) l e).
      { eapply chain_frame; [|exact H]. intros q Hq. unfold allocated in A. rewrite Forall_forall in A. specialize (A q Hq).
        destruct B2 as (_ & _ & _ & K2 & _). destruct B as (_ & _ & _ & K & _). rewrite K2, K; auto. }
      destruct (IH fuel h0 h2 var' (pre ++ [(next h, x)]) (snd (mem h p)) e B2 H2 N A) as (h' & v' & l' & R & B' & E); [simpl in Hf; lia|].
      rewrite last_place_snoc in R. rewrite <- app_assoc in B'.
      exists h', v', ((next h, x) :: l'). split; [exact R|]. split; [exact B'|]. simpl. f_equal. exact E.
    + destruct (IH fuel h0 h var pre (snd (mem h p)) e B H N A) as (h' & v' & l' & R & B' & E); [simpl in Hf; lia|].
      exists h', v', l'. auto.
Qed.

Lemma set_car_new : forall h0 h var pre n x y d, building h0 h var (pre ++ [(n, x)]) d -> next h0 <= n ->
  building h0 (set_car h n y) var (pre ++ [(n, y)]) d.
Proof.
  intros h0 h var pre n x y d (C & (F1 & F2) & A & K & L) Hn.
  rewrite addrs_app in *. assert (E : addrs (pre ++ [(n, y)]) = addrs pre ++ [n]) by apply addrs_app.
  unfold allocated in A. rewrite addrs_app in A. simpl in *.
  split; [|split; [|split; [|split]]].
  - apply chain_app in C. destruct C as (m & C1 & C2). simpl in C2. destruct C2 as (-> & <- & C2).
    apply chain_app. exists (Cell n). split.
    + eapply chain_frame; [|exact C1]. intros q Hq. simpl. destruct (Nat.eqb_spec q n); auto. subst.
      apply nodup_app in F1. destruct F1 as (_ & _ & F1). exfalso. apply (F1 n Hq). simpl. auto.
    + simpl. rewrite Nat.eqb_refl. simpl. auto.
  - split; rewrite E; auto.
  - unfold allocated. rewrite E. exact A.
  - intros q Hq. simpl. destruct (Nat.eqb_spec q n); [lia|]. apply K. auto.
  - exact L.
Qed.

Lemma mapcar_loop_ok : forall f l fuel h0 h var pre v e,
  building h0 h var pre Nil -> chain h v l e -> not_cell e -> allocated h0 l -> length l < fuel ->
  exists h' var' l', mapcar_loop fuel f h var (last_place pre) v = Some (h', var') /\
    building h0 h' var' (pre ++ l') Nil /\ elems l' = map f (elems l).
Proof.
  intros f. induction l as [|[p x] l IH]; intros fuel h0 h var pre v e B H N A Hf;
    (destruct fuel as [|fuel]; [simpl in Hf; lia|]); cbn [mapcar_loop].
  - simpl in H. subst v. exists h, var, []. rewrite app_nil_r. split; [|auto].
    destruct e; try reflexivity. exfalso. apply (N p). reflexivity.
  - simpl in H. destruct H as (-> & Hx & H). cbn [elems map snd].
    apply alloc_tl in A. simpl in A. destruct A as (Ap & A).
    destruct (cons h Nil Nil) as [h1 c] eqn:Ec.
    destruct (store h1 var (last_place pre) c) as [h2 var'] eqn:Es.
    destruct (build_step _ _ _ _ _ _ _ _ _ _ _ B Ec Es) as (B2 & -> & M & Nx).
    assert (Ln : next h0 <= next h) by (destruct B as (_ & _ & _ & _ & L); exact L).
    assert (MP : mem h2 p = mem h p).
    { destruct B2 as (_ & _ & _ & K2 & _). destruct B as (_ & _ & _ & K & _).
      rewrite K2, K; auto. }
    rewrite MP, Hx. cbv zeta.
    pose proof (set_car_new _ _ _ _ _ _ (f x) _ B2 Ln) as B3.
    set (h3 := set_car h2 (next h) (f x)) in *.
    assert (MP3 : mem h3 p = mem h p).
    { destruct B3 as (_ & _ & _ & K3 & _). destruct B as (_ & _ & _ & K & _). rewrite K3, K; auto. }
    rewrite MP3.
    assert (H2 : chain h3 (snd (mem h p)) l e).
    { eapply chain_frame; [|exact H]. intros q Hq. unfold allocated in A. rewrite Forall_forall in A. specialize (A q Hq).
      destruct B3 as (_ & _ & _ & K2 & _). destruct B as (_ & _ & _ & K & _). rewrite K2, K; auto. }
    destruct (IH fuel h0 h3 var' (pre ++ [(next h, f x)]) (snd (mem h p)) e B3 H2 N A) as (h' & v' & l' & R & B' & E); [simpl in Hf; lia|].
    rewrite last_place_snoc in R. rewrite <- app_assoc in B'.
    exists h', v', ((next h, f x) :: l'). split; [exact R|]. split; [exact B'|]. simpl. f_equal. exact E.
Qed.

(** ** reverse *)
Lemma reverse_loop_ok : forall l fuel h0 h res pre v e,
  building h0 h res pre Nil -> chain h v l e -> not_cell e -> allocated h0 l -> length l < fuel ->
  exists h' v' l', reverse_loop fuel h res v = Some (h', v') /\
    building h0 h' v' (l' ++ pre) Nil /\ elems l' = rev (elems l).
Proof.
  induction l as [|[p x] l IH]; intros fuel h0 h res pre v e B H N A Hf;
    (destruct fuel as [|fuel]; [simpl in Hf; lia|]); cbn [reverse_loop].
  - simpl in H. subst v. exists h, res, []. split; [|auto].
    destruct e; try reflexivity. exfalso. apply (N p). reflexivity.
  - simpl in H. destruct H as (-> & Hx & H). cbn [consp car cdr]. rewrite Hx.
    apply alloc_tl in A. simpl in A. destruct A as (Ap & A).
    rewrite cons_eq. cbv zeta. set (h1 := mk_heap _ _).
    destruct B as (C & (F1 & F2) & Al & K & L).
    assert (NI : forall q, In q (addrs pre) -> q <> next h).
    { intros q Hq. unfold allocated in Al. rewrite Forall_forall in Al. specialize (Al q Hq). lia. }
    assert (B1 : building h0 h1 (Cell (next h)) ((next h, x) :: pre) Nil).
    { split; [|split; [|split; [|split]]].
      - simpl. rewrite Nat.eqb_refl. simpl. repeat split. eapply chain_frame; [|exact C].
        intros q Hq. simpl. destruct (Nat.eqb_spec q (next h)); auto. exfalso. apply (NI q Hq). auto.
      - split; simpl; constructor; auto. intros I. exact (NI _ I eq_refl).
      - constructor; [simpl; lia|]. eapply Forall_impl; [|exact Al]. simpl. intros. lia.
      - intros q Hq. simpl. destruct (Nat.eqb_spec q (next h)); [lia|]. auto.
      - simpl. lia. }
    assert (H1 : chain h1 (snd (mem h p)) l e).
    { eapply chain_frame; [|exact H]. intros q Hq. unfold allocated in A. rewrite Forall_forall in A. specialize (A q Hq).
      simpl. destruct (Nat.eqb_spec q (next h)); [lia|]. auto. }
    destruct (IH fuel h0 h1 _ _ _ _ B1 H1 N A) as (h' & v' & l' & R & B' & E); [simpl in Hf; lia|].
    exists h', v', (l' ++ [(next h, x)]). split; [exact R|]. rewrite <- app_assoc. split; [exact B'|].
    rewrite elems_app, E. reflexivity.
Qed.

(** ** nreverse *)
Lemma nreverse_loop_ok : forall l fuel h p x pre res e,
  chain h (Cell p) ((p, x) :: l) e -> not_cell e -> chain h res pre Nil ->
  NoDup (addrs pre ++ p :: addrs l) -> length l < fuel ->
  exists h' v', nreverse_loop fuel h res p = Some (h', v') /\
    chain h' v' (rev l ++ (p, x) :: pre) Nil /\ only_cdrs_of (p :: addrs l) h h'.
Proof.
  induction l as [|[q y] l IH]; intros fuel h p x pre res e H N HR ND Hf;
    (destruct fuel as [|fuel]; [simpl in Hf; lia|]); cbn [nreverse_loop]; cbv zeta.
  - simpl in H. destruct H as (_ & Hx & He). rewrite He.
    exists (set_cdr h p res), (Cell p). split; [|split].
    + destruct e; try reflexivity. exfalso. apply (N p0). reflexivity.
    + simpl. rewrite Nat.eqb_refl. repeat split; auto. simpl.
      eapply chain_frame; [|exact HR]. intros r Hr. rewrite set_cdr_mem.
      destruct (Nat.eqb_spec r p); auto. subst. apply nodup_app in ND. destruct ND as (_ & _ & ND).
      exfalso. apply (ND p Hr). simpl. auto.
    + split; [reflexivity|]. split; intros r.
      * simpl. intros Hr. destruct (Nat.eqb_spec r p); auto. subst. tauto.
      * apply set_cdr_fst.
  - pose proof H as H0. simpl in H. destruct H as (_ & Hx & Hq & Hy & H). rewrite Hq.
    apply nodup_app in ND. destruct ND as (ND1 & ND2 & ND3). simpl in ND2.
    assert (NP : ~ In p (q :: addrs l)) by (inversion ND2; auto).
    assert (C : chain (set_cdr h p res) (Cell q) ((q, y) :: l) e).
    { eapply chain_frame with (h := h).
      - simpl. intros r Hr. destruct (Nat.eqb_spec r p); auto. subst. exfalso. apply NP. exact Hr.
      - simpl. auto. }
    assert (CR : chain (set_cdr h p res) (Cell p) ((p, x) :: pre) Nil).
    { simpl. rewrite Nat.eqb_refl. simpl. repeat split; auto. eapply chain_frame; [|exact HR].
      intros r Hr. rewrite set_cdr_mem. destruct (Nat.eqb_spec r p); auto. subst.
      exfalso. apply (ND3 p Hr). simpl. auto. }
    destruct (IH fuel _ q y ((p, x) :: pre) (Cell p) e C N CR) as (h' & v' & R & C' & O).
    + simpl. inversion ND2; subst. constructor.
      * rewrite in_app_iff. intros [I|I]; [|auto]. apply (ND3 p I). simpl. auto.
      * apply nodup_app. repeat split; auto. intros r Hr I. apply (ND3 r Hr). simpl. auto.
    + simpl in Hf. lia.
    + exists h', v'. split; [exact R|]. split.
      * simpl. rewrite <- app_assoc. exact C'.
      * eapply only_trans; [|eapply only_weaken; [|exact O]].
        { split; [reflexivity|]. split; intros r.
          - simpl. intros Hr. destruct (Nat.eqb_spec r p); auto. subst. tauto.
          - apply set_cdr_fst. }
        { simpl. auto. }
Qed.

Lemma nreverse_ok : forall fuel h v l e, is_list h v l e -> listp v = true -> length l < fuel ->
  exists h' v', nreverse fuel h v = Some (h', v') /\ is_list h' v' (rev l) Nil /\ only_cdrs_of (addrs l) h h'.
Proof.
  intros fuel h v l e (H & N) L Hf. destruct l as [|[p x] l].
  - simpl in H. subst v. destruct e; try discriminate.
    + exists h, Nil. repeat split; auto.
    + exfalso. apply (N p). reflexivity.
  - assert (v = Cell p) by (simpl in H; tauto). subst v.
    pose proof (chain_nodup _ _ _ _ N H) as ND.
    destruct (nreverse_loop_ok l fuel h p x [] Nil e H N eq_refl ND) as (h' & v' & R & C & O); [simpl in Hf; lia|].
    exists h', v'. split; [exact R|]. split; [|exact O]. split; [exact C|intros q; discriminate].
Qed.

(** ** to_end, append, nconc *)
Lemma to_end_ok : forall l fuel h var pre e, chain h var (pre ++ l) e -> not_cell e -> length l < fuel ->
  to_end fuel h var (last_place pre) = Some (last_place (pre ++ l)).
Proof.
  induction l as [|[p x] l IH]; intros fuel h var pre e H N Hf; (destruct fuel as [|fuel]; [simpl in Hf; lia|]); cbn [to_end].
  - rewrite app_nil_r in *. rewrite (load_end _ _ _ _ H). destruct e; auto. exfalso. apply (N p). reflexivity.
  - pose proof H as H0. apply chain_app in H. destruct H as (m & H1 & H2). rewrite (load_end _ _ _ _ H1).
    simpl in H2. destruct H2 as (-> & Hx & H2).
    assert (C : chain h var ((pre ++ [(p, x)]) ++ l) e) by (rewrite <- app_assoc; exact H0).
    rewrite <- (last_place_snoc pre p x). rewrite (IH fuel h var _ e C N) by (simpl in Hf; lia).
    rewrite <- app_assoc. reflexivity.
Qed.

Lemma append_loop_cons : forall fuel h res res_end a rest, rest <> [] ->
  append_loop fuel h res res_end (a :: rest) =
    if listp a then
      match copy_list fuel h a with
      | Some (h1, c) =>
        let (h2, res') := store h1 res res_end c in
        match to_end fuel h2 res' res_end with
        | Some e => append_loop fuel h2 res' e rest
        | None => None
        end
      | None => None
      end
    else None.
Proof. intros fuel h res res_end a [|b rest] H; [congruence|]. simpl. destruct (listp a); reflexivity. Qed.

Lemma nconc_loop_cons : forall fuel h res res_end a rest, rest <> [] ->
  nconc_loop fuel h res res_end (a :: rest) =
    if listp a then
      let (h1, res') := store h res res_end a in
      match to_end fuel h1 res' res_end with
      | Some e => nconc_loop fuel h1 res' e rest
      | None => None
      end
    else None.
Proof. intros fuel h res res_end a [|b rest] H; [congruence|reflexivity]. Qed.

Lemma snoc_ne : forall {A} (l : list A) a, l ++ [a] <> [].
Proof. intros A [|b l] a; discriminate. Qed.

Lemma append_loop_ok : forall args last ll le fuel h0 h res pre m,
  building h0 h res pre m -> not_cell m -> Forall (arg_ok h0) args ->
  Forall (fun a => length (arg_cells a) < fuel) args ->
  is_list h0 last ll le -> allocated h0 ll -> length ll < fuel ->
  exists h' v' l', append_loop fuel h res (last_place pre) (map arg_val args ++ [last]) = Some (h', v') /\
    building h0 h' v' (pre ++ l') last /\ elems l' = concat (map (fun a => elems (arg_cells a)) args).
Proof.
  induction args as [|[[v l] e] args IH]; intros last ll le fuel h0 h res pre m B Nm HA HF HL AL FL.
  - cbn [map app append_loop]. cbv zeta. destruct (store h res (last_place pre) last) as [h' v'] eqn:S.
    assert (CL : chain h last ll le) by (eapply building_old; [exact B|exact AL|exact (proj1 HL)]).
    destruct B as (C & (F1 & F2) & Al & K & L).
    destruct (store_end _ _ _ _ _ _ _ C F1 S) as (C2 & O1 & O2 & O3).
    assert (C3 : chain h' v' (pre ++ ll) le).
    { apply chain_app. exists last. split; auto. eapply chain_frame; [|exact CL].
      intros q Hq. apply O2. intros I. rewrite Forall_forall in F2. specialize (F2 q I).
      unfold allocated in AL. rewrite Forall_forall in AL. specialize (AL q Hq). lia. }
    rewrite (to_end_ok ll fuel h' v' pre le C3 (proj2 HL) FL).
    exists h', v', []. split; [reflexivity|]. rewrite app_nil_r. split; [|reflexivity].
    split; [|split; [|split; [|split]]]; auto.
    + split; auto.
    + unfold allocated. rewrite O1. exact Al.
    + intros q Hq. rewrite O2; [apply K; auto|]. intros I. rewrite Forall_forall in F2. specialize (F2 q I). lia.
    + lia.
  - inversion HA as [|? ? ((H & N) & Lp & A) HA']; subst. inversion HF as [|? ? Hf HF']; subst.
    cbn [map concat] in *.
    change (arg_val (v, l, e)) with v in *. change (arg_cells (v, l, e)) with l in *. change (arg_end (v, l, e)) with e in *.
    cbn [app]. rewrite append_loop_cons by apply snoc_ne. rewrite Lp.
    assert (H1 : chain h v l e) by (eapply building_old; eauto).
    assert (Ah : allocated h l).
    { destruct B as (_ & _ & _ & _ & L). eapply Forall_impl; [|exact A]. simpl. intros. lia. }
    destruct (copy_list_ok fuel h v l e (conj H1 N) Ah Hf) as (h1 & c & l1 & R1 & B1 & E1). rewrite R1.
    destruct (store h1 res (last_place pre) c) as [h2 res2] eqn:S.
    destruct B as (C & (F1 & F2) & Al & K & L).
    destruct B1 as (C1 & (G1 & G2) & Al1 & K1 & L1).
    assert (PD : forall q, In q (addrs pre) -> ~ In q (addrs l1)).
    { intros q I1 I2. unfold allocated in Al. rewrite Forall_forall in Al, G2. specialize (Al q I1). specialize (G2 q I2). lia. }
    assert (Cp : chain h1 res pre m).
    { eapply chain_frame; [|exact C]. intros q Hq. apply K1. unfold allocated in Al. rewrite Forall_forall in Al. auto. }
    destruct (store_end _ _ _ _ _ _ _ Cp F1 S) as (C2 & O1 & O2 & O3).
    assert (B2 : building h0 h2 res2 (pre ++ l1) e).
    { split; [|split; [|split; [|split]]].
      - apply chain_app. exists c. split; auto. eapply chain_frame; [|exact C1]. intros q Hq. apply O2.
        intros I. exact (PD q I Hq).
      - split; rewrite addrs_app.
        + apply nodup_app. auto.
        + apply Forall_app. split; auto. eapply Forall_impl; [|exact G2]. simpl. intros. lia.
      - unfold allocated. rewrite addrs_app, O1. apply Forall_app. split; auto.
        eapply Forall_impl; [|exact Al]. simpl. intros. lia.
      - intros q Hq. rewrite O2.
        + rewrite K1 by lia. apply K. auto.
        + intros I. rewrite Forall_forall in F2. specialize (F2 q I). lia.
      - lia. }
    assert (LL : length l1 < fuel).
    { apply (f_equal (@length _)) in E1. unfold elems in E1. rewrite !map_length in E1. lia. }
    rewrite (to_end_ok l1 fuel h2 res2 pre e (proj1 B2) N LL).
    destruct (IH last ll le fuel h0 h2 res2 (pre ++ l1) e B2 N HA' HF' HL AL FL) as (h' & v' & l' & R & B' & E).
    exists h', v', (l1 ++ l'). rewrite app_assoc. split; [exact R|]. split; [exact B'|].
    rewrite elems_app, E, E1. reflexivity.
Qed.

Lemma nconc_loop_ok : forall args last ll le fuel h res pre m,
  chain h res pre m -> not_cell m ->
  Forall (fun a => is_list h (arg_val a) (arg_cells a) (arg_end a) /\ listp (arg_val a) = true) args ->
  NoDup (addrs (pre ++ concat (map arg_cells args))) ->
  Forall (fun a => length (arg_cells a) < fuel) args ->
  is_list h last ll le -> (forall q, In q (addrs (pre ++ concat (map arg_cells args))) -> ~ In q (addrs ll)) ->
  length ll < fuel ->
  exists h' v', nconc_loop fuel h res (last_place pre) (map arg_val args ++ [last]) = Some (h', v') /\
    chain h' v' (pre ++ concat (map arg_cells args)) last /\
    only_cdrs_of (addrs (pre ++ concat (map arg_cells args))) h h'.
Proof.
  induction args as [|[[v l] e] args IH]; intros last ll le fuel h res pre m C Nm HA ND HF HL DL FL.
  - cbn [map app concat nconc_loop orb] in *. cbv zeta. cbn [orb]. rewrite app_nil_r in *.
    destruct (store h res (last_place pre) last) as [h' v'] eqn:S.
    destruct (store_end _ _ _ _ _ _ _ C ND S) as (C2 & O). pose proof O as (O1 & O2 & O3).
    assert (C3 : chain h' v' (pre ++ ll) le).
    { apply chain_app. exists last. split; auto. eapply chain_frame; [|exact (proj1 HL)].
      intros q Hq. apply O2. intros I. exact (DL q I Hq). }
    rewrite (to_end_ok ll fuel h' v' pre le C3 (proj2 HL) FL).
    exists h', v'. auto.
  - inversion HA as [|? ? ((H & N) & Lp) HA']; subst. inversion HF as [|? ? Hf HF']; subst.
    cbn [map concat] in *.
    change (arg_val (v, l, e)) with v in *. change (arg_cells (v, l, e)) with l in *. change (arg_end (v, l, e)) with e in *.
    cbn [app]. rewrite nconc_loop_cons by apply snoc_ne. rewrite Lp.
    destruct (store h res (last_place pre) v) as [h1 res1] eqn:S.
    assert (ND0 := ND). rewrite !addrs_app in ND. apply nodup_app in ND. destruct ND as (ND1 & ND2 & ND3).
    destruct (store_end _ _ _ _ _ _ _ C ND1 S) as (C2 & O). pose proof O as (O1 & O2 & O3).
    assert (C3 : chain h1 res1 (pre ++ l) e).
    { apply chain_app. exists v. split; auto. eapply chain_frame; [|exact H]. intros q Hq. apply O2.
      intros I. apply (ND3 q I). apply in_app_iff. auto. }
    rewrite (to_end_ok l fuel h1 res1 pre e C3 N Hf).
    destruct (IH last ll le fuel h1 res1 (pre ++ l) e C3 N) as (h' & v' & R & C' & O').
    + rewrite Forall_forall in *. intros a Ha. destruct (HA' a Ha) as ((X1 & X2) & X3). split; auto. split; auto.
      eapply chain_frame; [|exact X1]. intros q Hq. apply O2. intros I. apply (ND3 q I). apply in_app_iff. right.
      unfold addrs in *. rewrite concat_map, map_map. apply in_concat. exists (map fst (arg_cells a)).
      split; [|exact Hq]. apply in_map_iff. exists a. auto.
    + rewrite <- app_assoc. exact ND0.
    + exact HF'.
    + split; [|exact (proj2 HL)]. eapply chain_frame; [|exact (proj1 HL)]. intros q Hq. apply O2.
      intros I. apply (DL q); auto. rewrite addrs_app. apply in_app_iff. auto.
    + intros q. rewrite <- app_assoc. apply DL.
    + exact FL.
    + exists h', v'. rewrite app_assoc. split; [exact R|]. split; [exact C'|].
      eapply only_trans; [|exact O']. eapply only_weaken; [|exact O].
      intros q Hq. rewrite !addrs_app, !in_app_iff. auto.
Qed.

(** ** Searching *)
Lemma length_loop_ok : forall l fuel h v e i, chain h v l e -> not_cell e -> length l < fuel ->
  length_loop fuel h v i = Some (i + Z.of_nat (length l))%Z.
Proof.
  induction l as [|[p x] l IH]; intros fuel h v e i H N Hf; (destruct fuel as [|fuel]; [simpl in Hf; lia|]); simpl in *.
  - subst. destruct e; try (f_equal; lia). exfalso. apply (N p). reflexivity.
  - destruct H as (-> & _ & H). rewrite (IH _ _ _ _ _ H N) by lia. f_equal. lia.
Qed.

Lemma nthcdr_loop_ok : forall l h v e i, chain h v l e -> not_cell e ->
  chain h (nthcdr_loop i h v) (skipn i l) e.
Proof.
  induction l as [|[p x] l IH]; intros h v e i H N.
  - simpl in H. subst. rewrite skipn_nil. destruct i; simpl; auto. destruct e; simpl; auto.
    exfalso. apply (N p). reflexivity.
  - destruct i; [exact H|]. simpl in H. destruct H as (-> & _ & H). simpl. apply IH; auto.
Qed.

Lemma to_int_id : forall z, (0 <= z < 2147483648)%Z -> to_int z = z.
Proof. intros z H. unfold to_int. rewrite Z.mod_small; lia. Qed.

Lemma nth_ok : forall h v l e i, is_list h v l e -> listp v = true -> (0 <= i < 2147483648)%Z ->
  nth_elt h i v = Some (nth (Z.to_nat i) (elems l) Nil).
Proof.
  intros h v l e i (H & N) L Hi. unfold nth_elt, nthcdr. rewrite to_int_id by auto.
  destruct (Z.ltb_spec i 0); [lia|]. rewrite L. cbn [option_map]. f_equal.
  pose proof (nthcdr_loop_ok l h v e (Z.to_nat i) H N) as C. revert C. generalize (Z.to_nat i) as n. clear Hi H0 H L.
  intros n C. assert (E : nth n (elems l) Nil = nth 0 (elems (skipn n l)) Nil).
  { clear. revert n. induction l; intros [|n]; simpl; auto. }
  rewrite E. destruct (skipn n l) as [|[q y] r]; simpl in C.
  - rewrite C. simpl. destruct e; auto. exfalso. apply (N p). reflexivity.
  - destruct C as (-> & <- & _). reflexivity.
Qed.

Lemma last_ok : forall l fuel h p x e, chain h (Cell p) ((p, x) :: l) e -> not_cell e -> length l < fuel ->
  last_loop fuel h (Cell p) = Some (last (elems ((p, x) :: l)) Nil).
Proof.
  induction l as [|[q y] l IH]; intros fuel h p x e H N Hf; (destruct fuel as [|fuel]; [simpl in Hf; lia|]); cbn [last_loop].
  - simpl in H. destruct H as (_ & Hx & He). cbn [cdr car]. rewrite He, Hx. destruct e; auto. exfalso. apply (N p0). reflexivity.
  - simpl in H. destruct H as (_ & Hx & Hq & Hy & H). cbn [cdr]. rewrite Hq. cbn [consp].
    rewrite (IH fuel h q y e); [reflexivity| |auto|simpl in Hf; lia]. simpl. auto.
Qed.

Lemma member_ok : forall test l fuel h v e, chain h v l e -> not_cell e -> length l < fuel ->
  (exists l1 l2 p x, l = l1 ++ (p, x) :: l2 /\ Forall (fun y => test y = false) (elems l1) /\ test x = true /\
     member_loop fuel test h v = Some (Cell p)) \/
  (Forall (fun y => test y = false) (elems l) /\ member_loop fuel test h v = Some Nil).
Proof.
  intros test. induction l as [|[p x] l IH]; intros fuel h v e H N Hf; (destruct fuel as [|fuel]; [simpl in Hf; lia|]); cbn [member_loop].
  - right. split; [constructor|]. simpl in H. subst. destruct e; auto. exfalso. apply (N p). reflexivity.
  - simpl in H. destruct H as (-> & Hx & H). rewrite Hx. destruct (test x) eqn:T.
    + left. exists [], l, p, x. repeat split; auto. constructor.
    + destruct (IH fuel h _ e H N) as [(l1 & l2 & q & y & -> & F & Ty & R)|(F & R)]; [simpl in Hf; lia| |].
      * left. exists ((p, x) :: l1), l2, q, y. repeat split; auto. constructor; auto.
      * right. split; auto. constructor; auto.
Qed.

Lemma assoc_ok : forall test field l fuel h v e, chain h v l e -> not_cell e -> length l < fuel ->
  assoc_loop fuel test field h v =
  Some (match find (fun x => consp x && test (field h x)) (elems l) with Some x => x | None => Nil end).
Proof.
  intros test field. induction l as [|[p x] l IH]; intros fuel h v e H N Hf; (destruct fuel as [|fuel]; [simpl in Hf; lia|]); cbn [assoc_loop].
  - simpl in H. subst. destruct e; auto. exfalso. apply (N p). reflexivity.
  - simpl in H. destruct H as (-> & Hx & H). rewrite Hx. cbn [elems map find snd].
    destruct (consp x && test (field h x)); auto. apply (IH fuel h _ e H N). simpl in Hf. lia.
Qed.

Lemma val_eqb_eq : forall a b, val_eqb a b = true <-> a = b.
Proof.
  intros [|p|x] [|q|y]; simpl; split; intros H; try discriminate; auto.
  - apply Nat.eqb_eq in H. congruence.
  - inversion H. apply Nat.eqb_refl.
  - apply Z.eqb_eq in H. congruence.
  - inversion H. apply Z.eqb_refl.
Qed.

(** In a one-cell cycle the walk never ends. *)
Lemma to_end_cycle : forall fuel h var p, snd (mem h p) = Cell p -> to_end fuel h var (PCdr p) = None.
Proof. induction fuel; intros h var p H; simpl; auto. rewrite H. auto. Qed.
