From Coq Require Import ZArith List Bool Arith Lia.
From Verif Require Import Lists_Model Lists_Spec Lists_Proofs Queues_Model Queues_Spec.
Import ListNotations.

Definition tail_val (l : list (nat * val)) : val :=
  match last_place l with PVar => Nil | PCdr p => Cell p end.

Lemma tail_snoc : forall l p x, tail_val (l ++ [(p, x)]) = Cell p.
Proof. intros. unfold tail_val. rewrite last_place_snoc. reflexivity. Qed.

(** The cell [q] and its chain represent the list of elements of [l]. *)
Definition rep (h : heap) (q : nat) (l : list (nat * val)) : Prop :=
  chain h (snd (mem h q)) l Nil /\ fst (mem h q) = tail_val l /\
  NoDup (q :: addrs l) /\ Forall (fun p => p < next h) (q :: addrs l).

Lemma nil_not_cell : not_cell Nil.
Proof. intros p. discriminate. Qed.

Lemma write_mem : forall h p c q, mem (write h p c) q = if q =? p then c else mem h q.
Proof. reflexivity. Qed.

Definition touches (ps : list nat) (h h' : heap) : Prop :=
  forall p, p < next h -> ~ In p ps -> mem h' p = mem h p.

(** enqueue *)
Lemma enqueue_ok : forall h q l x, rep h q l ->
  exists h', enqueue h q x = Some h' /\ rep h' q (l ++ [(next h, x)]) /\
    touches (q :: addrs l) h h' /\ next h' = S (next h).
Proof.
  intros h q l x (C & T & ND & A). unfold enqueue. rewrite cons_eq.
  set (h1 := mk_heap _ _).
  inversion A as [|? ? Aq Al]; subst. inversion ND as [|? ? Nq NDl]; subst.
  assert (M1 : forall p, p < next h -> mem h1 p = mem h p).
  { intros p Hp. simpl. destruct (Nat.eqb_spec p (next h)); [lia|]. auto. }
  assert (Mn : mem h1 (next h) = (x, Nil)) by (simpl; rewrite Nat.eqb_refl; reflexivity).
  assert (C1 : chain h1 (snd (mem h q)) l Nil).
  { eapply chain_frame; [|exact C]. intros p Hp. apply M1. rewrite Forall_forall in Al. auto. }
  assert (Nn : ~ In (next h) (q :: addrs l)).
  { intros I. rewrite Forall_forall in A. specialize (A _ I). lia. }
  cbn [cdr car]. rewrite M1 by auto.
  destruct (snoc_cases l) as [->|(l' & [t y] & ->)].
  - simpl in C. rewrite C. cbn [null]. eexists. split; [reflexivity|]. split; [|split].
    + simpl in Nn. unfold set_car, set_cdr, rep. rewrite !write_mem, !Nat.eqb_refl. cbn [fst snd app].
      split; [|split; [|split]].
      * simpl. assert (X : next h =? q = false) by (apply Nat.eqb_neq; intros E; apply Nn; auto).
        rewrite X, Nat.eqb_refl. auto.
      * reflexivity.
      * constructor; [simpl; intros [E|[]]; apply Nn; auto|]. constructor; [simpl; tauto|constructor].
      * repeat constructor; simpl; lia.
    + intros p Hp Hn. simpl in Hn. unfold set_car, set_cdr. rewrite !write_mem.
      destruct (Nat.eqb_spec p q); [subst; tauto|]. apply M1; auto.
    + reflexivity.
  - assert (E : null (snd (mem h q)) = false).
    { destruct l' as [|[r z] l']; simpl in C; destruct C as (-> & _); reflexivity. }
    rewrite E, T, tail_snoc. eexists. split; [reflexivity|].
    assert (Tt : t < next h).
    { rewrite Forall_forall in Al. apply Al. rewrite addrs_app. apply in_app_iff. simpl. auto. }
    assert (qt : q <> t).
    { intros ->. apply Nq. rewrite addrs_app. apply in_app_iff. simpl. auto. }
    split; [|split].
    + unfold rep, set_car, set_cdr. rewrite !write_mem, !Nat.eqb_refl. cbn [fst snd].
      apply Nat.eqb_neq in qt. rewrite qt. rewrite !(M1 q) by auto.
      assert (C2 : chain (set_cdr h1 t (Cell (next h))) (snd (mem h q)) (l' ++ [(t, y)]) (Cell (next h))).
      { assert (S : store h1 (snd (mem h q)) (last_place (l' ++ [(t, y)])) (Cell (next h)) =
                    (set_cdr h1 t (Cell (next h)), snd (mem h q))) by (rewrite last_place_snoc; reflexivity).
        destruct (store_end _ _ _ _ _ _ _ C1 NDl S) as (C2 & _). exact C2. }
      split; [|split; [|split]].
      * apply chain_app. exists (Cell (next h)). split.
        -- eapply chain_frame; [|exact C2]. intros p Hp. rewrite write_mem.
           destruct (Nat.eqb_spec p q); auto. subst. contradiction.
        -- simpl. assert (X : next h =? q = false) by (apply Nat.eqb_neq; intros X; apply Nn; simpl; auto).
           rewrite X. assert (Y : next h =? t = false) by (apply Nat.eqb_neq; lia). rewrite Y, Nat.eqb_refl. auto.
      * rewrite tail_snoc. reflexivity.
      * rewrite addrs_app. change (NoDup ((q :: addrs (l' ++ [(t, y)])) ++ [next h])). apply nodup_app.
        repeat split; auto.
        -- constructor; [simpl; tauto|constructor].
        -- intros p Hp [<-|[]]. contradiction.
      * rewrite addrs_app. change (Forall (fun p => p < S (next h)) ((q :: addrs (l' ++ [(t, y)])) ++ [next h])).
        apply Forall_app. split; [eapply Forall_impl; [|exact A]; simpl; intros; lia|]. repeat constructor.
    + intros p Hp Hn. unfold set_car, set_cdr. rewrite !write_mem.
      rewrite addrs_app in Hn. simpl in Hn. rewrite in_app_iff in Hn. simpl in Hn.
      destruct (Nat.eqb_spec p q); [subst; tauto|]. destruct (Nat.eqb_spec p t); [subst; tauto|]. apply M1; auto.
    + reflexivity.
Qed.

(** dequeue *)
Lemma dequeue_empty : forall h q, rep h q [] -> dequeue h q = None.
Proof. intros h q (C & _). unfold dequeue. cbn [cdr]. simpl in C. rewrite C. reflexivity. Qed.

Lemma dequeue_ok : forall h q p x l, rep h q ((p, x) :: l) ->
  exists h', dequeue h q = Some (h', x) /\ rep h' q l /\ touches [q] h h' /\ next h' = next h.
Proof.
  intros h q p x l (C & T & ND & A). unfold dequeue. cbn [cdr].
  simpl in C. destruct C as (E & Hx & C). rewrite E. cbn [null car cdr].
  rewrite T. rewrite Hx.
  inversion ND as [|? ? Nq NDl]; subst. inversion NDl as [|? ? Np NDl']; subst.
  inversion A as [|? ? Aq Al]; subst. inversion Al as [|? ? Ap Al']; subst.
  destruct (snoc_cases l) as [->|(l' & [t y] & ->)].
  - change (tail_val [(p, fst (mem h p))]) with (Cell p). cbn [val_eqb]. rewrite Nat.eqb_refl. cbn [negb].
    eexists. split; [reflexivity|]. split; [|split; [|reflexivity]].
    + unfold rep, set_car, set_cdr. rewrite !write_mem, !Nat.eqb_refl. cbn [fst snd]. simpl.
      repeat split; auto; repeat constructor; auto.
    + intros r Hr Hn. simpl in Hn. unfold set_car, set_cdr. rewrite !write_mem.
      destruct (Nat.eqb_spec r q); [subst; tauto|]. reflexivity.
  - rewrite (app_comm_cons l' [(t, y)]). rewrite tail_snoc. cbn [val_eqb].
    assert (X : t =? p = false).
    { apply Nat.eqb_neq. intros ->. apply Np. fold (addrs (l' ++ [(p, y)])). rewrite addrs_app. apply in_app_iff. simpl. auto. }
    rewrite X. cbn [negb]. eexists. split; [reflexivity|]. split; [|split; [|reflexivity]].
    + unfold rep. rewrite set_cdr_mem, Nat.eqb_refl. cbn [fst snd]. split; [|split; [|split]].
      * eapply chain_frame; [|exact C]. intros r Hr. rewrite set_cdr_mem. destruct (Nat.eqb_spec r q); auto.
        subst. exfalso. apply Nq. simpl. auto.
      * rewrite T. rewrite (app_comm_cons l' [(t, y)]). rewrite !tail_snoc. reflexivity.
      * constructor; auto. intros I. apply Nq. simpl. auto.
      * constructor; auto.
    + intros r Hr Hn. simpl in Hn. rewrite set_cdr_mem. destruct (Nat.eqb_spec r q); [subst; tauto|]. reflexivity.
Qed.

(** delete-from-queue *)
Lemma delete_queue_loop_ok : forall l fuel h q x pre,
  chain h (snd (mem h q)) (pre ++ l) Nil -> NoDup (q :: addrs (pre ++ l)) -> length l < fuel ->
  let ptr := match last_place pre with PVar => q | PCdr p => p end in
  let l' := pre ++ filter (fun c => negb (val_eqb (snd c) x)) l in
  exists h', delete_queue_loop fuel h q x ptr = Some h' /\
    chain h' (snd (mem h' q)) l' Nil /\ fst (mem h' q) = tail_val l' /\
    (forall p, ~ In p (q :: addrs l') -> mem h' p = mem h p) /\ next h' = next h.
Proof.
  induction l as [|[p y] l IH]; intros fuel h q x pre C ND Hf; (destruct fuel as [|fuel]; [simpl in Hf; lia|]);
    intros ptr l'; cbn [delete_queue_loop];
    assert (Hptr : ptr = match last_place pre with PVar => q | PCdr p => p end) by reflexivity; clearbody ptr.
  - subst l'. cbn [filter]. rewrite app_nil_r in *.
    assert (E : cdr h (Cell ptr) = Nil).
    { pose proof (load_end _ _ _ _ C) as L. subst ptr. cbn [cdr]. destruct (last_place pre); exact L. }
    rewrite E. subst ptr. inversion ND as [|? ? Nq NDl]; subst.
    destruct (snoc_cases pre) as [->|(pre' & [t z] & ->)].
    + simpl in C. cbn [cdr]. rewrite C. cbn [null]. eexists. split; [reflexivity|].
      unfold set_car. rewrite write_mem, Nat.eqb_refl. cbn [fst snd]. simpl. repeat split; auto.
      intros r Hr. destruct (Nat.eqb_spec r q); auto. subst. tauto.
    + rewrite last_place_snoc. cbn [cdr].
      assert (EN : null (snd (mem h q)) = false).
      { destruct pre' as [|[r w] pre']; simpl in C; destruct C as (-> & _); reflexivity. }
      rewrite EN. eexists. split; [reflexivity|]. unfold set_car. rewrite write_mem, Nat.eqb_refl. cbn [fst snd].
      rewrite tail_snoc. repeat split; auto.
      * eapply chain_frame; [|exact C]. intros r Hr. rewrite write_mem. destruct (Nat.eqb_spec r q); auto. subst. contradiction.
      * intros r Hr. rewrite write_mem. destruct (Nat.eqb_spec r q); auto. subst. exfalso. apply Hr. simpl. auto.
  - pose proof C as C0. apply chain_app in C. destruct C as (m & C1 & C2).
    simpl in C2. destruct C2 as (-> & Hy & C2).
    assert (E : cdr h (Cell ptr) = Cell p).
    { pose proof (load_end _ _ _ _ C1) as L. subst ptr. cbn [cdr]. destruct (last_place pre); exact L. }
    rewrite E. cbn [car cdr]. rewrite Hy.
    assert (NDa : NoDup ((q :: addrs pre) ++ p :: addrs l)) by (rewrite addrs_app in ND; exact ND).
    apply nodup_app in NDa. destruct NDa as (NDa & NDb & NDc).
    subst l'. cbn [filter snd]. destruct (val_eqb y x) eqn:D; cbn [negb].
    + assert (PI : In ptr (q :: addrs pre)).
      { subst ptr. destruct (snoc_cases pre) as [->|(pre' & [t z] & ->)]; [simpl; auto|].
        rewrite last_place_snoc, addrs_app. simpl. right. apply in_app_iff. simpl. auto. }
      set (h1 := set_cdr h ptr (snd (mem h p))).
      assert (C3 : chain h1 (snd (mem h1 q)) (pre ++ l) Nil).
      { apply chain_app. exists (snd (mem h p)). split.
        - assert (Nq : ~ In q (addrs pre)) by (inversion NDa; auto).
          assert (NDp : NoDup (addrs pre)) by (inversion NDa; auto).
          destruct (snoc_cases pre) as [->|(pre' & [t z] & ->)].
          + simpl. subst h1. simpl in Hptr. subst ptr. simpl. rewrite Nat.eqb_refl. reflexivity.
          + rewrite last_place_snoc in Hptr. subst ptr.
            assert (S : store h (snd (mem h q)) (last_place (pre' ++ [(t, z)])) (snd (mem h p)) =
                        (h1, snd (mem h q))) by (rewrite last_place_snoc; reflexivity).
            destruct (store_end _ _ _ _ _ _ _ C1 NDp S) as (C3 & O1 & O2 & O3).
            rewrite O2 by auto. exact C3.
        - eapply chain_frame; [|exact C2]. intros r Hr. subst h1. rewrite set_cdr_mem.
          destruct (Nat.eqb_spec r ptr); auto. subst r. exfalso. apply (NDc ptr PI). simpl. auto. }
      assert (ND1 : NoDup (q :: addrs (pre ++ l))).
      { rewrite addrs_app. change (NoDup ((q :: addrs pre) ++ addrs l)). apply nodup_app.
        assert (NoDup (addrs l)) by (inversion NDb; auto). repeat split; auto. intros r Hr I. apply (NDc r Hr). simpl. auto. }
      destruct (IH fuel h1 q x pre C3 ND1) as (h' & R & C' & T' & M' & N'); [simpl in Hf; lia|].
      cbv zeta in R. rewrite <- Hptr in R.
      exists h'. split; [exact R|]. split; [exact C'|]. split; [exact T'|]. split; [|exact N'].
      intros r Hr. rewrite M' by exact Hr. subst h1. rewrite set_cdr_mem.
      destruct (Nat.eqb_spec r ptr); auto. subst r. exfalso. apply Hr. rewrite addrs_app.
      destruct PI as [PI|PI]; [left; exact PI|right; apply in_app_iff; auto].
    + assert (C3 : chain h (snd (mem h q)) ((pre ++ [(p, y)]) ++ l) Nil) by (rewrite <- app_assoc; exact C0).
      assert (ND1 : NoDup (q :: addrs ((pre ++ [(p, y)]) ++ l))) by (rewrite <- app_assoc; exact ND).
      destruct (IH fuel h q x (pre ++ [(p, y)]) C3 ND1) as (h' & R & C' & T' & M' & N'); [simpl in Hf; lia|].
      rewrite last_place_snoc in R. rewrite <- app_assoc in C', T', M'. cbn [app] in *.
      exists h'. repeat split; auto.
Qed.

Lemma filter_addrs : forall f l p, In p (addrs (filter f l)) -> In p (addrs l).
Proof.
  intros f l p H. unfold addrs in *. apply in_map_iff in H. destruct H as (c & <- & H).
  apply filter_In in H. apply in_map. tauto.
Qed.

Lemma filter_nodup : forall f l, NoDup (addrs l) -> NoDup (addrs (filter f l)).
Proof.
  intros f l. induction l as [|c l IH]; simpl; intros H; auto. inversion H; subst.
  destruct (f c); auto. simpl. constructor; auto. intros I. apply filter_addrs in I. contradiction.
Qed.

Lemma delete_from_queue_ok : forall fuel h q l x, rep h q l -> length l < fuel ->
  let l' := filter (fun c => negb (val_eqb (snd c) x)) l in
  exists h', delete_from_queue fuel h q x = Some h' /\ rep h' q l' /\ touches (q :: addrs l) h h' /\ next h' = next h.
Proof.
  intros fuel h q l x (C & T & ND & A) Hf l'.
  destruct (delete_queue_loop_ok l fuel h q x [] C ND Hf) as (h' & R & C' & T' & M' & N').
  exists h'. split; [exact R|]. cbn [app] in *. fold l' in C', T', M'.
  inversion ND as [|? ? Nq NDl]; subst. inversion A as [|? ? Aq Al]; subst.
  split; [|split; [|exact N']].
  - split; [exact C'|]. split; [exact T'|]. split.
    + constructor; [|apply filter_nodup; auto]. intros I. apply filter_addrs in I. contradiction.
    + rewrite N'. constructor; auto. rewrite Forall_forall in *. intros p Hp. apply filter_addrs in Hp. auto.
  - intros p Hp Hn. apply M'. intros [I|I]; apply Hn; [left; exact I|right; eapply filter_addrs; exact I].
Qed.

(** Observations *)
Lemma nodup_lt_length : forall n (l : list nat), NoDup l -> Forall (fun p => p < n) l -> length l <= n.
Proof.
  intros n l H F. rewrite <- (seq_length n 0). apply NoDup_incl_length; auto.
  intros p Hp. rewrite Forall_forall in F. apply in_seq. specialize (F p Hp). lia.
Qed.

Lemma rep_length : forall h q l, rep h q l -> length l < S (next h).
Proof.
  intros h q l (_ & _ & ND & A). inversion ND; subst. inversion A; subst.
  pose proof (nodup_lt_length (next h) (addrs l)) as X. unfold addrs in X at 3. rewrite map_length in X.
  specialize (X H2 H4). lia.
Qed.

Lemma list_elems_ok : forall l fuel h v, chain h v l Nil -> length l < fuel -> list_elems fuel h v = Some (elems l).
Proof.
  induction l as [|[p x] l IH]; intros fuel h v C Hf; (destruct fuel as [|fuel]; [simpl in Hf; lia|]); simpl in C; cbn [list_elems].
  - subst. reflexivity.
  - destruct C as (-> & <- & C). rewrite (IH fuel h _ C) by (simpl in Hf; lia). reflexivity.
Qed.

(** ** Several queues *)
Notation queue := (nat * list (nat * val))%type.
Definition cells (a : queue) : list nat := fst a :: addrs (snd a).
Definition world (h : heap) (W : list queue) : Prop :=
  Forall (fun a => rep h (fst a) (snd a)) W /\ NoDup (concat (map cells W)).

Lemma world_update : forall h h' A q l l' B,
  world h (A ++ (q, l) :: B) -> rep h' q l' -> touches (q :: addrs l) h h' ->
  (forall p, In p (addrs l') -> In p (addrs l) \/ next h <= p) -> next h <= next h' ->
  world h' (A ++ (q, l') :: B).
Proof.
  intros h h' A q l l' B (F & ND) R T I L.
  rewrite map_app, concat_app in ND. cbn [map concat] in ND. unfold cells at 2 in ND. cbn [fst snd] in ND.
  apply nodup_app in ND. destruct ND as (N1 & N2 & N3). apply nodup_app in N2. destruct N2 as (N2 & N4 & N5).
  apply Forall_app in F. destruct F as (FA & FB). inversion FB as [|? ? Fq FB']; subst. cbn [fst snd] in Fq.
  assert (K : forall a, (In a A \/ In a B) -> rep h (fst a) (snd a) ->
              rep h' (fst a) (snd a) /\ (forall p, In p (cells a) -> ~ In p (q :: addrs l'))).
  { intros a Ha (C & Tt & ND & Al).
    assert (D : forall p, In p (cells a) -> ~ In p (q :: addrs l) /\ p < next h).
    { intros p Hp. split; [|unfold cells in Hp; rewrite Forall_forall in Al; auto].
      intros X. assert (Y : forall W, In a W -> In p (concat (map cells W))).
      { intros W Hw. apply in_concat. exists (cells a). split; auto. apply in_map. auto. }
      destruct Ha as [Ha|Ha].
      - apply (N3 p (Y A Ha)). apply in_app_iff. auto.
      - apply (N5 p X). apply Y. auto. }
    assert (M : forall p, In p (cells a) -> mem h' p = mem h p).
    { intros p Hp. destruct (D p Hp). apply T; auto. }
    split.
    - split; [|split; [|split]].
      + rewrite (M (fst a)) by (simpl; auto). eapply chain_frame; [|exact C]. intros p Hp. apply M. simpl. auto.
      + rewrite (M (fst a)) by (simpl; auto). exact Tt.
      + exact ND.
      + eapply Forall_impl; [|exact Al]. simpl. intros. lia.
    - intros p Hp. destruct (D p Hp) as (D1 & D2). intros [X|X]; [apply D1; left; exact X|].
      destruct (I p X) as [Y|Y]; [apply D1; right; exact Y|lia]. }
  split.
  - apply Forall_app. rewrite Forall_forall in FA, FB'. split; [|constructor; [exact R|]];
      apply Forall_forall; intros a Ha; apply K; auto.
  - rewrite map_app, concat_app. cbn [map concat]. unfold cells at 2. cbn [fst snd].
    rewrite Forall_forall in FA, FB'. destruct R as (_ & _ & NDq & _).
    assert (InW : forall W p, In p (concat (map cells W)) -> exists a, In a W /\ In p (cells a)).
    { intros W p Hp. apply in_concat in Hp. destruct Hp as (c & Hc & Hp). apply in_map_iff in Hc.
      destruct Hc as (a & <- & Ha). eauto. }
    apply nodup_app. split; [exact N1|]. split.
    + apply nodup_app. repeat split; auto. intros p Hp Hb. destruct (InW B p Hb) as (a & Ha & Hc).
      destruct (K a (or_intror Ha) (FB' a Ha)) as (_ & D). exact (D p Hc Hp).
    + intros p Hp Hb. destruct (InW A p Hp) as (a & Ha & Hc).
      destruct (K a (or_introl Ha) (FA a Ha)) as (_ & D).
      apply in_app_iff in Hb. destruct Hb as [Hb|Hb]; [exact (D p Hc Hb)|].
      apply (N3 p Hp). apply in_app_iff. auto.
Qed.

Lemma world_new : forall h W, world h W -> let (h', q) := make_queue h in world h' (W ++ [(q, [])]).
Proof.
  intros h W (F & ND). unfold make_queue. rewrite cons_eq. cbn [fst]. set (h' := mk_heap _ _).
  assert (M : forall p, p < next h -> mem h' p = mem h p).
  { intros p Hp. simpl. destruct (Nat.eqb_spec p (next h)); [lia|]. auto. }
  rewrite Forall_forall in F. split.
  - apply Forall_app. split.
    + apply Forall_forall. intros a Ha. destruct (F a Ha) as (C & T & N & A).
      assert (X : forall p, In p (cells a) -> mem h' p = mem h p).
      { intros p Hp. apply M. rewrite Forall_forall in A. apply A. exact Hp. }
      split; [|split; [|split]]; auto.
      * rewrite (X (fst a)) by (simpl; auto). eapply chain_frame; [|exact C]. intros p Hp. apply X. simpl. auto.
      * rewrite (X (fst a)) by (simpl; auto). exact T.
      * eapply Forall_impl; [|exact A]. simpl. intros. lia.
    + constructor; [|constructor]. split; [|split; [|split]]; simpl.
      * rewrite Nat.eqb_refl. reflexivity.
      * rewrite Nat.eqb_refl. reflexivity.
      * constructor; [simpl; tauto|constructor].
      * repeat constructor.
  - rewrite map_app, concat_app. cbn [map concat]. apply nodup_app. split; [exact ND|]. split.
    + simpl. constructor; [simpl; tauto|constructor].
    + intros p Hp [<-|[]]. apply in_concat in Hp. destruct Hp as (c & Hc & Hp). apply in_map_iff in Hc.
      destruct Hc as (a & <- & Ha). destruct (F a Ha) as (_ & _ & _ & A). rewrite Forall_forall in A.
      specialize (A _ Hp). cbn in A. lia.
Qed.

Lemma nth_split_world : forall {A} (W : list A) i d, i < length W ->
  exists W1 W2, W = W1 ++ nth i W d :: W2 /\ length W1 = i.
Proof.
  intros A W i d H. destruct (nth_split W d H) as (l1 & l2 & E & L). eauto.
Qed.

Lemma set_nth_app : forall {A} (l1 l2 : list A) a b, set_nth (length l1) b (l1 ++ a :: l2) = l1 ++ b :: l2.
Proof. induction l1; intros; simpl; auto. rewrite IHl1. reflexivity. Qed.

Lemma set_nth_map : forall {A B} (f : A -> B) (l1 : list A) l2 a b,
  set_nth (length l1) b (map f l1 ++ a :: l2) = map f l1 ++ b :: l2.
Proof. intros. rewrite <- (map_length f l1). apply set_nth_app. Qed.

Definition abs (W : list queue) : list (list val) := map (fun a => elems (snd a)) W.

Lemma filter_elems : forall x l,
  elems (filter (fun c : nat * val => negb (val_eqb (snd c) x)) l) = filter (fun y => negb (val_eqb y x)) (elems l).
Proof.
  intros x l. induction l as [|[p y] l IH]; simpl; auto. destruct (val_eqb y x); simpl; auto. f_equal. exact IH.
Qed.

Lemma step_ok : forall h W o, world h W -> names o (length W) ->
  exists h' W', step h (map fst W) o = Some (h', map fst W', snd (spec_step (abs W) o)) /\
    world h' W' /\ abs W' = fst (spec_step (abs W) o) /\
    length W' = match o with New => S (length W) | _ => length W end.
Proof.
  intros h W o HW HN.
  assert (X : forall i, i < length W -> exists W1 q l W2, W = W1 ++ (q, l) :: W2 /\ length W1 = i /\
    nth i (map fst W) 0 = q /\ nth_error (abs W) i = Some (elems l) /\ nth i (abs W) [] = elems l /\ rep h q l).
  { intros i Hi. destruct (nth_split_world W i (0, []) Hi) as (W1 & W2 & E & L).
    destruct (nth i W (0, [])) as [q l] eqn:En. exists W1, q, l, W2. subst W i. repeat split; auto.
    - rewrite map_app, app_nth2; rewrite map_length; [|lia]. rewrite Nat.sub_diag. reflexivity.
    - unfold abs. rewrite map_app, nth_error_app2; rewrite map_length; [|lia]. rewrite Nat.sub_diag. reflexivity.
    - unfold abs. rewrite map_app, app_nth2; rewrite map_length; [|lia]. rewrite Nat.sub_diag. reflexivity.
    - destruct HW as (F & _). apply Forall_app in F. destruct F as (_ & F). inversion F; subst. apply H1.
    - destruct HW as (F & _). apply Forall_app in F. destruct F as (_ & F). inversion F; subst. apply H1.
    - destruct HW as (F & _). apply Forall_app in F. destruct F as (_ & F). inversion F; subst. apply H1.
    - destruct HW as (F & _). apply Forall_app in F. destruct F as (_ & F). inversion F; subst. apply H1. }
  destruct o as [|i x|i|i x|i|i|i]; cbn [step spec_step]; cbn [names] in HN;
    try (destruct (X i HN) as (W1 & q & l & W2 & E & L & Eq & Ee & En & R)).
  - pose proof (world_new h W HW) as N. destruct (make_queue h) as [h' q].
    exists h', (W ++ [(q, [])]). unfold abs. rewrite !map_app, app_length. simpl. repeat split; auto; try apply N. lia.
  - rewrite Eq, Ee. destruct (enqueue_ok h q l x R) as (h' & -> & R' & T & Nx). cbn [option_map fst snd].
    exists h', (W1 ++ (q, l ++ [(next h, x)]) :: W2). subst W. split; [|split; [|split]].
    + rewrite !map_app. reflexivity.
    + eapply world_update; eauto; [|lia]. intros p Hp. rewrite addrs_app, in_app_iff in Hp. simpl in Hp.
      destruct Hp as [Hp|[<-|[]]]; auto.
    + unfold abs. rewrite !map_app. cbn [map snd]. rewrite elems_app. subst i.
      symmetry. apply set_nth_map.
    + rewrite !app_length. simpl. lia.
  - rewrite Eq, Ee. destruct l as [|[p x] l].
    + rewrite (dequeue_empty h q R). cbn [elems map fst snd]. exists h, W. auto.
    + destruct (dequeue_ok h q p x l R) as (h' & -> & R' & T & Nx). cbn [elems map fst snd].
      exists h', (W1 ++ (q, l) :: W2). subst W. split; [|split; [|split]].
      * rewrite !map_app. reflexivity.
      * eapply world_update; eauto; [|simpl; auto|lia]. intros r Hr Hn. apply T; auto. intros [I|[]]. apply Hn. left. exact I.
      * unfold abs. rewrite !map_app. cbn [map snd]. subst i.
        symmetry. apply set_nth_map.
      * rewrite !app_length. simpl. lia.
  - rewrite Eq, Ee. destruct (delete_from_queue_ok (S (next h)) h q l x R (rep_length _ _ _ R)) as (h' & -> & R' & T & Nx).
    cbn [option_map fst snd]. exists h', (W1 ++ (q, filter (fun c => negb (val_eqb (snd c) x)) l) :: W2). subst W. split; [|split; [|split]].
    + rewrite !map_app. reflexivity.
    + eapply world_update; eauto; [|lia]. intros p Hp. left. eapply filter_addrs; eauto.
    + unfold abs. rewrite !map_app. cbn [map snd]. rewrite filter_elems. subst i.
      symmetry. apply set_nth_map.
    + rewrite !app_length. simpl. lia.
  - rewrite Eq, En. unfold queue_list. cbn [cdr].
    rewrite (list_elems_ok l); [|apply R|eapply rep_length; eauto]. cbn [option_map fst snd]. exists h, W. auto.
  - rewrite Eq, En. unfold queue_length, queue_list. cbn [cdr].
    rewrite (length_loop_ok l _ _ _ Nil); [|apply R|apply nil_not_cell|eapply rep_length; eauto].
    cbn [option_map fst snd]. exists h, W. unfold elems. rewrite map_length, Z.add_0_l. auto.
  - rewrite Eq, En. unfold queue_empty_p. cbn [cdr]. cbn [fst snd]. exists h, W. split; [|auto].
    do 3 f_equal. destruct R as (C & _). destruct l as [|[p x] l]; simpl in C.
    + rewrite C. reflexivity.
    + destruct C as (-> & _). reflexivity.
Qed.

Lemma run_ok : forall os h W, world h W -> well_named (length W) os ->
  run h (map fst W) os = Some (spec_run (abs W) os).
Proof.
  induction os as [|o os IH]; intros h W HW HN; [reflexivity|].
  destruct HN as (Hn & HN). cbn [run spec_run].
  destruct (step_ok h W o HW Hn) as (h' & W' & E & HW' & EA & EL). rewrite E.
  rewrite (IH h' W' HW') by (rewrite EL; exact HN). rewrite EA.
  destruct (spec_step (abs W) o) as [qs r]. reflexivity.
Qed.

Lemma dequeue_frame : forall h q h' v, dequeue h q = Some (h', v) -> forall p, p <> q -> mem h' p = mem h p.
Proof.
  intros h q h' v H p Hp. unfold dequeue in H. apply Nat.eqb_neq in Hp.
  destruct (null (cdr h (Cell q))); [discriminate|].
  destruct (negb (val_eqb (car h (Cell q)) (cdr h (Cell q)))); inversion H; subst;
    unfold set_car, set_cdr; rewrite !write_mem, Hp; reflexivity.
Qed.
