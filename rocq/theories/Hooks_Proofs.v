From Coq Require Import ZArith List Bool Arith Lia.
From Verif Require Import Lists_Model Lists_Spec Lists_Proofs Hooks_Model Hooks_Spec.
Import ListNotations.

Lemma not_cell_nil : not_cell Nil.
Proof. intros p; discriminate. Qed.

Lemma is_list_listp : forall h v l, is_list h v l Nil -> listp v = true.
Proof. intros h v [|[p x] l] (C & _); simpl in C; [subst|destruct C as (-> & _)]; reflexivity. Qed.

Lemma addrs_filter_in : forall d l p, In p (addrs (filter d l)) -> In p (addrs l).
Proof. intros d l p H. apply in_map_iff in H. destruct H as (c & <- & I). apply filter_In in I. apply in_map. tauto. Qed.

Lemma elems_filter : forall d l, elems (filter (fun c => d (snd c)) l) = filter d (elems l).
Proof. intros d l. induction l as [|[p x] l IH]; simpl; auto. destruct (d x); simpl; rewrite IH; auto. Qed.

(** ** Where a run stands

    [cursor w k l]: [l] is the cell being run and all that follows it.  It
    starts with cells that have been taken out of every hook and goes on in the
    list of hook [k]. *)
Definition putL (L : nat -> list (nat * val)) (k : nat) (l : list (nat * val)) : nat -> list (nat * val) :=
  fun i => if i =? k then l else L i.

Definition cursor (w : world) (L : nat -> list (nat * val)) (k : nat) (l : list (nat * val)) : Prop :=
  exists s t pre v, l = s ++ t /\ L k = pre ++ t /\ chain (hp w) v l Nil /\
    (forall p, In p (addrs s) -> p < next (hp w) /\ forall i, ~ In p (addrs (L i))).

Lemma only_kept_next : forall ps h h', only_cdrs_of ps h h' -> next h' = next h.
Proof. intros ps h h' H. apply H. Qed.

(** ** Adding in front *)
Lemma add_front_ok : forall fuel w k f L, hooks_are w L -> exists w' ,
  add_hook fuel w k f false = Did w' /\ log w' = log w /\
  hooks_are w' (putL L k ((next (hp w), f) :: L k)) /\
  (forall k' l, cursor w L k' l -> cursor w' (putL L k ((next (hp w), f) :: L k)) k' l).
Proof.
  intros fuel w k f L (V & A & D). unfold add_hook. rewrite cons_eq. eexists. split; [reflexivity|].
  split; [reflexivity|].
  assert (FR : forall p, p < next (hp w) ->
     mem (mk_heap (fun q => if q =? next (hp w) then (f, hook_value w k) else mem (hp w) q) (S (next (hp w)))) p = mem (hp w) p).
  { intros p Hp. cbn. destruct (Nat.eqb_spec p (next (hp w))); [lia|auto]. }
  assert (KEEP : forall v l e, allocated (hp w) l -> chain (hp w) v l e ->
     chain (mk_heap (fun q => if q =? next (hp w) then (f, hook_value w k) else mem (hp w) q) (S (next (hp w)))) v l e).
  { intros v l e Al C. eapply chain_frame; [|exact C]. intros p Hp. apply FR.
    unfold allocated in Al. rewrite Forall_forall in Al. auto. }
  split.
  - split; [|split].
    + intros i. unfold set_var, putL. cbn. destruct (Nat.eqb_spec i k).
      * subst i. split; [|apply not_cell_nil]. cbn. rewrite Nat.eqb_refl. cbn. repeat split; auto.
        specialize (V k). change (match var w k with Some v => v | None => Nil end) with (hook_value w k).
        apply KEEP; auto. unfold hook_value. destruct (var w k); [apply V|]. rewrite V. reflexivity.
      * specialize (V i). destruct (var w i); auto. destruct V as (V1 & V2). split; auto.
    + intros i. unfold putL, allocated. cbn. destruct (Nat.eqb_spec i k).
      * subst. cbn. constructor; [lia|]. eapply Forall_impl; [|apply (A k)]. cbn; intros a Ha; lia.
      * eapply Forall_impl; [|apply (A i)]. intros a Ha. cbn in Ha. lia.
    + intros i j p N. unfold putL.
      assert (NA : forall i, ~ In (next (hp w)) (addrs (L i))).
      { intros x I. specialize (A x). unfold allocated in A. rewrite Forall_forall in A. specialize (A _ I). lia. }
      destruct (Nat.eqb_spec i k), (Nat.eqb_spec j k); try congruence; cbn; subst.
      * intros [<-|I]; [apply NA|exact (D _ _ _ N I)].
      * intros I [<-|J]; [exact (NA _ I)|exact (D _ _ _ N I J)].
      * apply D; auto.
  - intros k' l (s & t & pre & v & -> & E & C & S).
    exists s, t, (if k' =? k then (next (hp w), f) :: pre else pre), v. split; auto. split.
    { unfold putL. destruct (Nat.eqb_spec k' k); [subst; cbn; congruence|auto]. }
    split.
    + apply KEEP; auto. unfold allocated. rewrite addrs_app. apply Forall_app. split.
      * apply Forall_forall. intros p Hp. apply (S p Hp).
      * specialize (A k'). rewrite E in A. unfold allocated in A. rewrite addrs_app in A. apply Forall_app in A. tauto.
    + intros p Hp. destruct (S p Hp) as (S1 & S2). cbn. split; [lia|]. intros i. unfold putL.
      destruct (Nat.eqb_spec i k); [|apply S2]. cbn. intros [<-|I]; [lia|exact (S2 _ I)].
Qed.

(** ** Adding at the end *)
Lemma nconc_one : forall fuel h v l f, is_list h v l Nil -> allocated h l -> length l + 1 < fuel ->
  let '(h1, c) := cons h f Nil in
  exists h2 v2, nconc fuel h1 [v; c] = Some (h2, v2) /\ is_list h2 v2 (l ++ [(next h, f)]) Nil /\
    next h2 = S (next h) /\ mem h2 (next h) = (f, Nil) /\
    (forall p, p <> next h -> ~ In p (addrs l) -> mem h2 p = mem h p).
Proof.
  intros fuel h v l f H A F. rewrite cons_eq.
  set (h1 := mk_heap (fun q => if q =? next h then (f, Nil) else mem h q) (S (next h))).
  assert (NI : ~ In (next h) (addrs l)).
  { intros I. unfold allocated in A. rewrite Forall_forall in A. specialize (A _ I). lia. }
  assert (H1 : is_list h1 v l Nil).
  { split; [|apply not_cell_nil]. eapply chain_frame; [|exact (proj1 H)]. intros p Hp. cbn.
    destruct (Nat.eqb_spec p (next h)); [subst; contradiction|auto]. }
  assert (HL : is_list h1 (Cell (next h)) [(next h, f)] Nil).
  { split; [|apply not_cell_nil]. cbn. rewrite Nat.eqb_refl. auto. }
  destruct (nconc_loop_ok [(v, l, Nil)] (Cell (next h)) [(next h, f)] Nil fuel h1 Nil [] Nil eq_refl) as (h' & v' & R & C & O).
  - apply not_cell_nil.
  - constructor; [|constructor]. split; [exact H1|]. eapply is_list_listp; eauto.
  - cbn. rewrite app_nil_r. eapply chain_nodup; [apply not_cell_nil|exact (proj1 H)].
  - constructor; [|constructor]. cbn. lia.
  - exact HL.
  - cbn. rewrite app_nil_r. intros q I [<-|[]]. contradiction.
  - cbn. lia.
  - cbn [map arg_val app concat arg_cells fst snd] in *. rewrite app_nil_r in *. exists h', v'.
    destruct O as (O1 & O2 & O3).
    assert (ML : mem h' (next h) = (f, Nil)).
    { rewrite O2 by auto. cbn. rewrite Nat.eqb_refl. reflexivity. }
    split; [exact R|]. split; [|repeat split].
    + split; [|apply not_cell_nil]. apply chain_app. exists (Cell (next h)). split; auto. cbn. rewrite ML. auto.
    + rewrite O1. reflexivity.
    + exact ML.
    + intros p N I. rewrite O2 by auto. cbn. destruct (Nat.eqb_spec p (next h)); [contradiction|auto].
Qed.

Lemma add_end_ok : forall fuel w k f L, hooks_are w L -> length (L k) + 1 < fuel -> exists w',
  add_hook fuel w k f true = Did w' /\ log w' = log w /\
  hooks_are w' (putL L k (L k ++ [(next (hp w), f)])) /\
  (forall k' l, cursor w L k' l -> exists l',
     cursor w' (putL L k (L k ++ [(next (hp w), f)])) k' l' /\
     (l' = l \/ k' = k /\ l <> [] /\ l' = l ++ [(next (hp w), f)])).
Proof.
  intros fuel w k f L (V & A & D) F. unfold add_hook. fold (hook_value w k).
  assert (HV : is_list (hp w) (hook_value w k) (L k) Nil).
  { specialize (V k). unfold hook_value. destruct (var w k); auto. rewrite V. split; [reflexivity|apply not_cell_nil]. }
  rewrite (is_list_listp _ _ _ HV).
  pose proof (nconc_one fuel (hp w) _ _ f HV (A k) F) as Q. destruct (cons (hp w) f Nil) as [h1 c] eqn:Ec.
  destruct Q as (h2 & v2 & -> & I2 & N2 & M2 & K2). eexists. split; [reflexivity|]. split; [reflexivity|].
  assert (NA : forall i, ~ In (next (hp w)) (addrs (L i))).
  { intros x I. specialize (A x). unfold allocated in A. rewrite Forall_forall in A. specialize (A _ I). lia. }
  assert (LT : forall i p, In p (addrs (L i)) -> p < next (hp w)).
  { intros x p I. specialize (A x). unfold allocated in A. rewrite Forall_forall in A. auto. }
  assert (OTHER : forall i, i <> k -> forall v l e, (forall p, In p (addrs l) -> In p (addrs (L i))) ->
     chain (hp w) v l e -> chain h2 v l e).
  { intros i Ni v l e Sub C. eapply chain_frame; [|exact C]. intros p Hp. apply K2.
    - intros ->. apply (NA i). auto.
    - intros J. apply (D i k p); auto. }
  split.
  - split; [|split].
    + intros i. unfold set_var, putL. cbn. destruct (Nat.eqb_spec i k); [exact I2|].
      specialize (V i). destruct (var w i); auto. destruct V as (V1 & V2). split; auto. eapply OTHER; eauto.
    + intros i. unfold putL, allocated. cbn. rewrite N2. destruct (Nat.eqb_spec i k).
      * subst. rewrite addrs_app. apply Forall_app. split; [|constructor; [cbn; lia|constructor]].
        eapply Forall_impl; [|apply (A k)]. cbn. intros. lia.
      * eapply Forall_impl; [|apply (A i)]. cbn. intros. lia.
    + intros i j p N. unfold putL.
      destruct (Nat.eqb_spec i k), (Nat.eqb_spec j k); try congruence; subst.
      * rewrite addrs_app, in_app_iff. intros [I|[<-|[]]]; [exact (D _ _ _ N I)|apply NA].
      * rewrite addrs_app. intros I J. apply in_app_iff in J. destruct J as [J|[J|[]]].
        -- exact (D _ _ _ N I J).
        -- cbn in J. subst. exact (NA _ I).
      * apply D; auto.
  - intros k' l (s & t & pre & v & -> & E & C & S).
    assert (SS : forall p, In p (addrs s) -> p < next h2 /\ forall i, ~ In p (addrs (putL L k (L k ++ [(next (hp w), f)]) i))).
    { intros p Hp. destruct (S p Hp) as (S1 & S2). split; [lia|]. intros i. unfold putL.
      destruct (Nat.eqb_spec i k); [|apply S2]. rewrite addrs_app, in_app_iff. intros [I|[J|[]]]; [exact (S2 _ I)|].
      cbn in J. lia. }
    assert (KS : forall p, In p (addrs s) -> mem h2 p = mem (hp w) p).
    { intros p Hp. destruct (S p Hp) as (S1 & S2). apply K2; [lia|apply S2]. }
    destruct (Nat.eq_dec k' k) as [->|Nk].
    + destruct t as [|c0 t].
      * exists (s ++ []). split; [|auto]. exists s, [], (L k ++ [(next (hp w), f)]), v. split; auto.
        split; [unfold putL; rewrite Nat.eqb_refl, app_nil_r; auto|]. split; [|exact SS].
        eapply chain_frame; [|exact C]. rewrite app_nil_r. exact KS.
      * exists ((s ++ c0 :: t) ++ [(next (hp w), f)]). split.
        -- exists s, ((c0 :: t) ++ [(next (hp w), f)]), pre, v. split; [rewrite app_assoc; auto|].
           split; [unfold putL; rewrite Nat.eqb_refl, E, <- app_assoc; auto|]. split; [|exact SS].
           rewrite <- app_assoc. apply chain_app in C. destruct C as (m & C1 & C2).
           apply chain_app. exists m. split; [eapply chain_frame; [exact KS|exact C1]|].
           (* the tail of the list is where it was *)
           destruct I2 as (I2 & _). rewrite E in I2. rewrite <- app_assoc in I2. apply chain_app in I2.
           destruct I2 as (m2 & _ & I2). destruct c0 as [p0 x0]. destruct C2 as (-> & C2 & _).
           pose proof I2 as I3. cbn [app chain] in I2. destruct I2 as (E2 & _). rewrite E2 in I3. exact I3.
        -- right. split; auto. split; auto. intros Z. destruct s; discriminate.
    + exists (s ++ t). split; [|auto]. exists s, t, pre, v. split; auto.
      split; [unfold putL; destruct (Nat.eqb_spec k' k); [contradiction|exact E]|]. split; [|exact SS].
      apply chain_app in C. destruct C as (m & C1 & C2). apply chain_app. exists m.
      split; [eapply chain_frame; [exact KS|exact C1]|]. eapply (OTHER k' Nk); [|exact C2].
      intros p Hp. rewrite E, addrs_app. apply in_app_iff. auto.
Qed.

(** ** Removing *)
Fixpoint gone (del : val -> bool) (l : list (nat * val)) : list (nat * val) :=
  match l with
  | c :: l' => if del (snd c) then c :: gone del l' else []
  | [] => []
  end.
Fixpoint stay (del : val -> bool) (l : list (nat * val)) : list (nat * val) :=
  match l with
  | c :: l' => if del (snd c) then stay del l' else l
  | [] => []
  end.
Lemma gone_stay : forall del l, l = gone del l ++ stay del l.
Proof. intros del l. induction l as [|[p x] l IH]; cbn; auto. destruct (del x); cbn; [congruence|auto]. Qed.
Lemma gone_del : forall del l c, In c (gone del l) -> del (snd c) = true.
Proof.
  intros del l. induction l as [|[p x] l IH]; cbn; [tauto|]. intros c. destruct (del x) eqn:E; [|intros []].
  intros [<-|I]; auto.
Qed.
Lemma filter_stay : forall del l, filter (keep del) l = filter (keep del) (stay del l).
Proof.
  intros del l. induction l as [|[p x] l IH]; cbn; auto. unfold keep at 1 3. cbn.
  destruct (del x) eqn:E; cbn; auto. unfold keep at 2. cbn. rewrite E. reflexivity.
Qed.
Lemma stay_head : forall del l, match stay del l with [] => True | c :: _ => del (snd c) = false end.
Proof. intros del l. induction l as [|[p x] l IH]; cbn; auto. destruct (del x) eqn:E; auto. Qed.

Lemma remove_ok : forall fuel w k del L, hooks_are w L -> length (L k) < fuel -> exists w',
  remove_by fuel w k del = Did w' /\ log w' = log w /\
  hooks_are w' (putL L k (filter (keep del) (L k))) /\
  (forall k' l, cursor w L k' l -> exists l',
     cursor w' (putL L k (filter (keep del) (L k))) k' l' /\
     (l' = l \/ k' = k /\ exists s t, l = s ++ t /\ l' = s ++ filter (keep del) t /\
                 match t with [] => True | c :: _ => del (snd c) = false end)).
Proof.
  intros fuel w k del L (V & A & D) F. unfold remove_by. pose proof (V k) as Vk. destruct (var w k) as [v|] eqn:Ev.
  - rewrite (is_list_listp _ _ _ Vk).
    destruct (delete_by_ok del fuel (hp w) v (L k) Nil Vk (is_list_listp _ _ _ Vk) F) as (h' & v' & -> & I' & O).
    eexists. split; [reflexivity|]. split; [reflexivity|]. destruct O as (O1 & O2 & O3).
    assert (OTHER : forall i, i <> k -> forall v l e, (forall p, In p (addrs l) -> In p (addrs (L i))) ->
       chain (hp w) v l e -> chain h' v l e).
    { intros i Ni u l e Sub C. eapply chain_frame; [|exact C]. intros p Hp. apply O2.
      intros J. apply addrs_filter_in in J. apply (D i k p); auto. }
    split.
    + split; [|split].
      * intros i. unfold set_var, putL. cbn. destruct (Nat.eqb_spec i k); [exact I'|].
        specialize (V i). destruct (var w i); auto. destruct V as (V1 & V2). split; auto. eapply OTHER; eauto.
      * intros i. unfold putL, allocated. cbn. rewrite O1. destruct (Nat.eqb_spec i k); [|apply (A i)].
        apply Forall_forall. intros p Hp. apply addrs_filter_in in Hp. specialize (A k). unfold allocated in A.
        rewrite Forall_forall in A. auto.
      * intros i j p N. unfold putL. destruct (Nat.eqb_spec i k), (Nat.eqb_spec j k); try congruence; subst.
        -- intros I. apply addrs_filter_in in I. exact (D _ _ _ N I).
        -- intros I J. apply addrs_filter_in in J. exact (D _ _ _ N I J).
        -- apply D; auto.
    + intros k' l (s & t & pre & u & -> & E & C & S).
      assert (SS : forall p, In p (addrs s) -> p < next h' /\ forall i, ~ In p (addrs (putL L k (filter (keep del) (L k)) i))).
      { intros p Hp. destruct (S p Hp) as (S1 & S2). split; [lia|]. intros i. unfold putL.
        destruct (Nat.eqb_spec i k); [|apply S2]. intros I. apply addrs_filter_in in I. exact (S2 _ I). }
      assert (KS : forall p, In p (addrs s) -> mem h' p = mem (hp w) p).
      { intros p Hp. destruct (S p Hp) as (S1 & S2). apply O2. intros I. apply addrs_filter_in in I. exact (S2 _ I). }
      destruct (Nat.eq_dec k' k) as [->|Nk].
      * exists ((s ++ gone del t) ++ filter (keep del) (stay del t)). split.
        -- exists (s ++ gone del t), (filter (keep del) (stay del t)), (filter (keep del) pre), u.
           split; auto. split.
           { unfold putL. rewrite Nat.eqb_refl, E, filter_app, (filter_stay del t). reflexivity. }
           assert (NDk : NoDup (addrs (L k))) by (eapply chain_nodup; [apply not_cell_nil|exact (proj1 Vk)]).
           assert (GONE : forall p, In p (addrs (gone del t)) -> ~ In p (addrs (filter (keep del) (L k)))).
           { intros p Hp J. apply in_map_iff in Hp. destruct Hp as (c & <- & I).
             apply in_map_iff in J. destruct J as (c' & Ec & J). apply filter_In in J. destruct J as (J & Jk).
             assert (In c (L k)).
             { rewrite E. apply in_app_iff. right. rewrite (gone_stay del t). apply in_app_iff. auto. }
             assert (c = c').
             { clear - NDk J H Ec. induction (L k) as [|a m IH]; [destruct J|]. cbn in NDk. inversion NDk; subst.
               destruct J as [<-|J], H as [<-|H]; auto.
               - exfalso. apply H2. rewrite Ec. apply in_map; auto.
               - exfalso. apply H2. rewrite <- Ec. apply in_map; auto. }
             subst c'. apply gone_del in I. unfold keep in Jk. rewrite I in Jk. discriminate. }
           split.
           ++ rewrite (gone_stay del t) in C. rewrite app_assoc in C. apply chain_app in C. destruct C as (m & C1 & C2).
              apply chain_app. exists m. split.
              ** eapply chain_frame; [|exact C1]. intros p Hp. rewrite addrs_app in Hp. apply in_app_iff in Hp.
                 destruct Hp as [Hp|Hp]; [apply KS; auto|]. apply O2. apply GONE; auto.
              ** pose proof (stay_head del t) as SH. destruct (stay del t) as [|[p0 x0] r] eqn:Es.
                 { exact C2. }
                 cbn in SH. destruct C2 as (-> & _).
                 destruct I' as (I' & _). rewrite E, filter_app, (filter_stay del t), Es in I'. apply chain_app in I'.
                 destruct I' as (m2 & _ & I'). cbn [filter] in *. unfold keep at 1 in I'. cbn in I'. rewrite SH in I'. cbn in I'.
                 unfold keep at 1. cbn. rewrite SH. cbn. destruct I' as (_ & I'). split; auto.
           ++ intros p Hp. rewrite addrs_app in Hp. apply in_app_iff in Hp. destruct Hp as [Hp|Hp]; [apply SS; auto|].
              assert (PL : In p (addrs (L k))).
              { rewrite E, addrs_app. apply in_app_iff. right. rewrite (gone_stay del t), addrs_app. apply in_app_iff. auto. }
              split.
              { cbn. rewrite O1. specialize (A k). unfold allocated in A. rewrite Forall_forall in A. auto. }
              intros i. unfold putL. destruct (Nat.eqb_spec i k); [apply GONE; auto|]. apply D with (k := k); auto.
        -- right. split; auto. exists (s ++ gone del t), (stay del t). split; [rewrite <- app_assoc, <- gone_stay; auto|].
           split; [reflexivity|apply stay_head].
      * exists (s ++ t). split; [|auto]. exists s, t, pre, u. split; auto.
        split; [unfold putL; destruct (Nat.eqb_spec k' k); [contradiction|exact E]|]. split; [|exact SS].
        apply chain_app in C. destruct C as (m & C1 & C2). apply chain_app. exists m.
        split; [eapply chain_frame; [exact KS|exact C1]|]. eapply (OTHER k' Nk); [|exact C2].
        intros p Hp. rewrite E, addrs_app. apply in_app_iff. auto.
  - exists w. split; auto. split; auto.
    assert (EQ : forall i, putL L k (filter (keep del) (L k)) i = L i).
    { intros i. unfold putL. destruct (Nat.eqb_spec i k); auto. subst. rewrite Vk. reflexivity. }
    split.
    + split; [|split].
      * intros i. rewrite EQ. apply V.
      * intros i. rewrite EQ. apply A.
      * intros i j p N. rewrite !EQ. apply D; auto.
    + intros k' l (s & t & pre & u & -> & E & C & S). exists (s ++ t). split; [|auto].
      exists s, t, pre, u. split; auto. split; [rewrite EQ; auto|]. split; auto.
      intros p Hp. destruct (S p Hp) as (S1 & S2). split; auto. intros i. rewrite EQ. apply S2.
Qed.
