(** Proofs about the cache of directories *)

From Coq Require Import ZArith List Bool Lia ZifyBool.
From Verif Require Import Dircache_Model Dircache_Spec.
Import ListNotations.
Open Scope Z_scope.

Lemma make_room_id : forall l, make_room l = l.
Proof.
  intros l. unfold make_room, setcdr_nil, max_dirs. destruct (Nat.leb 5 (length l)) eqn:E; [|reflexivity].
  apply Nat.leb_le in E. apply firstn_all2. lia.
Qed.

Lemma cached_in : forall d l e, cached d l = Some e -> In e l /\ c_dir e = d.
Proof.
  induction l as [|x l IH]; intros e H; [discriminate|]. cbn [cached] in H.
  destruct (c_dir x =? d) eqn:E.
  - injection H as <-. split; [left; reflexivity|lia].
  - destruct (IH e H). split; [right; assumption|assumption].
Qed.
Lemma cached_none : forall d l, cached d l = None -> ~ In d (map c_dir l).
Proof.
  induction l as [|x l IH]; intros H; [intros []|]. cbn [cached] in H. destruct (c_dir x =? d) eqn:E; [discriminate|].
  intros [X|X]; [lia|]. exact (IH H X).
Qed.
Lemma drop_incl : forall d l e, In e (drop d l) -> In e l.
Proof.
  induction l as [|x l IH]; intros e H; [exact H|]. cbn [drop] in H. destruct (c_dir x =? d).
  - right. exact H.
  - destruct H as [->|H]; [left; reflexivity|right; apply IH, H].
Qed.
Lemma drop_dirs : forall d l, NoDup (map c_dir l) -> NoDup (map c_dir (drop d l)) /\ ~ In d (map c_dir (drop d l)).
Proof.
  induction l as [|x l IH]; intros N; [split; [constructor|intros []]|].
  cbn [map] in N. inversion N as [|? ? Nx Nl]; subst. cbn [drop]. destruct (c_dir x =? d) eqn:E.
  - replace d with (c_dir x) by lia. auto.
  - destruct (IH Nl) as (A & B). cbn [map]. split.
    + constructor; [|exact A]. intros X. apply in_map_iff in X as (e & X & I). apply drop_incl in I.
      apply Nx. rewrite <- X. apply in_map, I.
    + intros [X|X]; [lia|exact (B X)].
Qed.
Lemma drop_length : forall d l e, cached d l = Some e -> length l = S (length (drop d l)).
Proof.
  induction l as [|x l IH]; intros e H; [discriminate|]. cbn [cached drop] in *. destruct (c_dir x =? d); [reflexivity|].
  cbn [length]. f_equal. eapply IH, H.
Qed.

Lemma invalidate_incl : forall d l e, In e (invalidate d l) -> In e l.
Proof. intros d l e H. unfold invalidate in H. destruct (cached d l); [exact (drop_incl _ _ _ H)|exact H]. Qed.
Lemma invalidate_dirs : forall d l, NoDup (map c_dir l) ->
  NoDup (map c_dir (invalidate d l)) /\ ~ In d (map c_dir (invalidate d l)).
Proof.
  intros d l N. unfold invalidate. destruct (cached d l) eqn:E; [exact (drop_dirs d l N)|].
  split; [exact N|exact (cached_none d l E)].
Qed.
Lemma invalidates_incl : forall ds l e, In e (fold_left (fun l d => invalidate d l) ds l) -> In e l.
Proof.
  induction ds as [|d ds IH]; intros l e H; [exact H|]. cbn [fold_left] in H. apply (invalidate_incl d), IH, H.
Qed.
Lemma invalidates_dirs : forall ds l, NoDup (map c_dir l) ->
  NoDup (map c_dir (fold_left (fun l d => invalidate d l) ds l)) /\
  forall d, In d ds -> ~ In d (map c_dir (fold_left (fun l d => invalidate d l) ds l)).
Proof.
  induction ds as [|d ds IH]; intros l N; [split; [exact N|intros d []]|].
  cbn [fold_left]. destruct (invalidate_dirs d l N) as (A & B). destruct (IH _ A) as (C & D).
  split; [exact C|]. intros d' [<-|H]; [|exact (D d' H)].
  intros X. apply B. apply in_map_iff in X as (e & X & I). apply invalidates_incl in I.
  apply (in_map c_dir) in I. rewrite X in I. exact I.
Qed.

(** One entry of a directory at most *)
Lemma get_file_dirs : forall t li br d base l, NoDup (map c_dir l) -> NoDup (map c_dir (snd (get_file t li br d base l))).
Proof.
  intros t li br d base l N. unfold get_file. destruct (cached d l) as [e|] eqn:C.
  - pose proof (drop_dirs d l N) as (A & B). destruct (t <? c_expiry e).
    + cbn [snd map]. apply cached_in in C as (_ & C). rewrite C. constructor; assumption.
    + rewrite make_room_id. destruct br; cbn [snd map c_dir]; constructor; assumption.
  - pose proof (cached_none d l C). rewrite make_room_id. destruct br; cbn [snd map c_dir]; constructor; assumption.
Qed.
Lemma step_dirs : forall w x, NoDup (map c_dir (cache w)) -> NoDup (map c_dir (cache (step w x))).
Proof.
  intros w (dt, ev) N. unfold step. cbn [fst snd]. destruct ev; cbn [cache].
  - apply get_file_dirs, N.
  - apply (invalidates_dirs dirs), N.
  - exact N.
  - constructor.
Qed.
Lemma run_dirs : forall evs w, NoDup (map c_dir (cache w)) -> NoDup (map c_dir (cache (run w evs))).
Proof. induction evs as [|x evs IH]; intros w N; [exact N|]. cbn. apply IH, step_dirs, N. Qed.

Lemma run_snoc : forall evs w x, run w (evs ++ [x]) = step (run w evs) x.
Proof. intros. unfold run. rewrite fold_left_app. reflexivity. Qed.

(** Where an entry comes from: the directory was read at the end of evs1 and some dt
    later *)
Definition origin (w : world) (evs : list (Z * event)) (e : centry) : Prop :=
  exists evs1 x evs2, evs = evs1 ++ x :: evs2 /\
    c_expiry e = now (run w (evs1 ++ [x])) + expiry_time /\
    server (run w (evs1 ++ [x])) = server (run w evs1) /\
    c_files e = rev (server (run w evs1) (c_dir e)) /\
    Forall (keeps (c_dir e)) evs2 /\
    exists base, snd x = Look (c_dir e) base None.

Lemma origin_more : forall w evs e x, origin w evs e -> keeps (c_dir e) x -> origin w (evs ++ [x]) e.
Proof.
  intros w evs e x (a & y & b & -> & E & V & F & K & Y) X. exists a, y, (b ++ [x]).
  split; [rewrite <- app_assoc; reflexivity|]. split; [exact E|]. split; [exact V|]. split; [exact F|].
  split; [apply Forall_app; auto|exact Y].
Qed.

Lemma origins : forall t s evs, Forall unbroken evs -> forall e, In e (cache (run (start t s) evs)) -> origin (start t s) evs e.
Proof.
  intros t s evs. induction evs as [|x evs IH] using rev_ind; intros U e H; [destruct H|].
  apply Forall_app in U as (U & Ux). inversion Ux as [|? ? Ux' _]; subst. clear Ux.
  pose proof (run_dirs evs (start t s) (NoDup_nil _)) as N. specialize (IH U).
  set (w := run (start t s) evs) in *.
  assert (H' := H). rewrite run_snoc in H. fold w in H. destruct x as (dt, ev). unfold step in H. cbn [fst snd] in H. destruct ev as [d base br|after dirs|after|].
  - cbn [cache] in H. unfold unbroken in Ux'. cbn [snd] in Ux'. subst br.
    assert (Fresh : origin (start t s) (evs ++ [(dt, Look d base None)])
              (mkc d (now w + Z.max 0 dt + expiry_time) (rev (server w d)))).
    { exists evs, (dt, Look d base None), []. split; [reflexivity|]. rewrite run_snoc. fold w.
      unfold step. cbn [fst snd now server c_expiry c_files c_dir]. eauto 10. }
    unfold get_file in H. rewrite !make_room_id in H. destruct (cached d (cache w)) as [e'|] eqn:C.
    + destruct (now w + Z.max 0 dt <? c_expiry e').
      * cbn [snd] in H. destruct (cached_in _ _ _ C) as (J & _).
        destruct H as [<-|H]; [|apply drop_incl in H]; apply origin_more; try exact I; try (apply IH; assumption).
      * cbn [snd] in H. destruct H as [<-|H]; [exact Fresh|].
        apply drop_incl in H. apply origin_more; [apply IH, H|exact I].
    + cbn [snd] in H. destruct H as [<-|H]; [exact Fresh|]. apply origin_more; [apply IH, H|exact I].
  - cbn [cache] in H. apply origin_more; [apply IH, (invalidates_incl dirs), H|].
    cbn. intros X. destruct (invalidates_dirs dirs (cache w) N) as (_ & D). apply (D _ X), in_map, H.
  - apply origin_more; [apply IH, H|exact I].
  - destruct H.
Qed.

Lemma file_of_true : forall base l, true_of (answer_of base l) base l.
Proof.
  intros base l. unfold answer_of. induction l as [|(n, i) l IH]; [intros i []|]. cbn [file_of].
  destruct (n =? base) eqn:E; [left; f_equal; lia|].
  destruct (file_of base l) as [j|]; cbn in *; [right; exact IH|].
  intros j [X|X]; [|exact (IH j X)]. assert (n = base) by congruence. lia.
Qed.
Lemma true_rev : forall a base l, true_of a base (rev l) -> true_of a base l.
Proof.
  intros [i| |] base l H; cbn in *; [apply in_rev, H| |exact H].
  intros i X. apply (H i). apply -> in_rev. exact X.
Qed.

Lemma orderly_same : forall d evs w, orderly d w evs -> Forall (keeps d) evs -> server (run w evs) d = server w d.
Proof.
  intros d. induction evs as [|x evs IH]; intros w O K; [reflexivity|].
  destruct O as (O1 & O2). inversion K as [|? ? K1 K2]; subst. cbn [run fold_left].
  change (server (run (step w x) evs) d = server w d). rewrite (IH _ O2 K2).
  destruct x as (dt, ev). unfold step, keeps in *. cbn [fst snd] in *. destruct ev; cbn [server]; try reflexivity.
  - destruct O1 as [O1|O1]; [contradiction|exact O1].
  - exact O1.
Qed.
Lemma orderly_app : forall d a b w, orderly d w (a ++ b) -> orderly d (run w a) b.
Proof.
  intros d. induction a as [|x a IH]; intros b w O; [exact O|]. destruct O as (_ & O). exact (IH b _ O).
Qed.
