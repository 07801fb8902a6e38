(** C93: what a remote session says of a file is true of a moment less than a minute ago,
    after the session's own last change. *)

From Coq Require Import ZArith List Bool Lia ZifyBool.
From Verif Require Import Dircache_Model Dircache_Spec Dircache_Proofs.
Import ListNotations.
Open Scope Z_scope.

(** After any events of which no reading was broken off, a look is answered as the
    directory was at some moment: now, or at an earlier look, which is less than sixty
    seconds ago and since which neither a command of the session has invalidated the
    directory nor the cache has been emptied. *)
Theorem C93_fresh : forall t s evs dt d base, Forall unbroken evs ->
  let w := run (start t s) evs in
  true_of (asked w dt d base) base (server w d) \/
  exists evs1 x evs2, evs = evs1 ++ x :: evs2 /\
    true_of (asked w dt d base) base (server (run (start t s) evs1) d) /\
    now w + Z.max 0 dt < now (run (start t s) (evs1 ++ [x])) + 60 /\
    Forall (keeps d) evs2 /\ exists other, snd x = Look d other None.
Proof.
  intros t s evs dt d base U w. unfold asked, get_file. rewrite !make_room_id.
  assert (Now : true_of (answer_of base (rev (server w d))) base (server w d)) by (apply true_rev, file_of_true).
  destruct (cached d (cache w)) as [e|] eqn:C; [|left; exact Now].
  destruct (now w + Z.max 0 dt <? c_expiry e) eqn:Q; [|left; exact Now].
  right. destruct (cached_in _ _ _ C) as (J & <-).
  destruct (origins t s evs U e J) as (a & x & b & -> & E & _ & F & K & Y).
  exists a, x, b. split; [reflexivity|]. cbn [fst]. rewrite F.
  split; [apply true_rev, file_of_true|]. split; [|split; [exact K|exact Y]].
  unfold expiry_time in E. lia.
Qed.
Print Assumptions C93_fresh.

(** So a session sees its own changes at once: when nobody else changes a directory and
    the session's own commands that change it invalidate it, every look is answered as
    the directory is now. *)
Theorem C93_own_changes : forall t s evs dt d base, Forall unbroken evs -> orderly d (start t s) evs ->
  true_of (asked (run (start t s) evs) dt d base) base (server (run (start t s) evs) d).
Proof.
  intros t s evs dt d base U O. unfold asked, get_file. rewrite !make_room_id.
  set (w := run (start t s) evs).
  assert (Now : true_of (answer_of base (rev (server w d))) base (server w d)) by (apply true_rev, file_of_true).
  destruct (cached d (cache w)) as [e|] eqn:C; [|exact Now].
  destruct (now w + Z.max 0 dt <? c_expiry e) eqn:Q; [|exact Now].
  destruct (cached_in _ _ _ C) as (J & D). subst d.
  destruct (origins t s evs U e J) as (a & x & b & X & E & V & F & K & _).
  cbn [fst]. rewrite F. unfold w.
  replace (server (run (start t s) evs) (c_dir e)) with (server (run (start t s) a) (c_dir e)); [apply true_rev, file_of_true|].
  rewrite <- V. rewrite X. rewrite X in O. replace (a ++ x :: b) with ((a ++ [x]) ++ b) in * by (rewrite <- app_assoc; reflexivity).
  unfold run at 2. rewrite fold_left_app. fold (run (start t s) (a ++ [x])).
  change (server (run (start t s) (a ++ [x])) (c_dir e) = server (run (run (start t s) (a ++ [x])) b) (c_dir e)).
  symmetry. apply orderly_same; [|exact K]. apply orderly_app, O.
Qed.
Print Assumptions C93_own_changes.

Definition shows (d : Z) (l : list (Z * Z)) : Z -> list (Z * Z) := fun x => if x =? d then l else [].
Definition history : list (Z * event) :=
  [(0, Look 1 7 None); (10, Own (shows 1 [(7, 70); (8, 80)]) [1]); (5, Look 1 8 None); (5, Own (shows 1 [(8, 80)]) [1])].
Example case_own : Forall unbroken history /\ orderly 1 (start 100 (shows 1 [(7, 70)])) history /\
  asked (run (start 100 (shows 1 [(7, 70)])) history) 3 1 7 = Absent /\
  asked (run (start 100 (shows 1 [(7, 70)])) history) 3 1 8 = Found 80.
Proof. split; [repeat constructor|]. split; [cbn; auto 10|]. vm_compute. auto. Qed.
Example case_old : (* somebody else's change is seen after a minute and not before *)
  let w := run (start 100 (shows 1 [(7, 70)])) [(0, Look 1 7 None); (1, Others (shows 1 []))] in
  asked w 58 1 7 = Found 70 /\ asked w 59 1 7 = Absent.
Proof. vm_compute. auto. Qed.

(** There is one entry of a directory at most. *)
Theorem C93_one_each : forall t s evs, NoDup (map c_dir (cache (run (start t s) evs))).
Proof. intros t s evs. apply run_dirs. constructor. Qed.
Print Assumptions C93_one_each.

(** Nothing ever leaves the cache to make room: after looks alone, every directory looked
    at has its entry. *)
Theorem C93_never_full : forall evs t s, only_looks evs ->
  forall d, In d (looked evs) <-> In d (map c_dir (cache (run (start t s) evs))).
Proof.
  intros evs. induction evs as [|x evs IH] using rev_ind; intros t s O d; [reflexivity|].
  apply Forall_app in O as (O & Ox). inversion Ox as [|? ? Ox' _]; subst. specialize (IH t s O).
  destruct x as (dt, ev). cbn [snd] in Ox'. destruct ev as [d' base br| | |]; try contradiction.
  unfold looked. rewrite flat_map_app. cbn [flat_map snd app]. fold (looked evs).
  rewrite run_snoc. set (w := run (start t s) evs) in *. unfold step. cbn [fst snd cache].
  assert (K : forall e' l', c_dir e' = d' ->
     (forall z, In z (map c_dir l') -> In z (map c_dir (cache w))) ->
     (forall z, In z (map c_dir (cache w)) -> z = d' \/ In z (map c_dir l')) ->
     (In d (looked evs ++ [d']) <-> In d (map c_dir (e' :: l')))).
  { intros e' l' E A B. cbn [map In]. rewrite E, in_app_iff, IH. cbn [In]. split.
    - intros [X|[X|[]]]; [|left; exact X]. destruct (B _ X) as [Y|Y]; [left; symmetry; exact Y|right; exact Y].
    - intros [X|X]; [right; left; exact X|left; apply A, X]. }
  assert (DA : forall z, In z (map c_dir (drop d' (cache w))) -> In z (map c_dir (cache w))).
  { intros z Z0. apply in_map_iff in Z0 as (e & <- & Z0). apply drop_incl in Z0. apply in_map, Z0. }
  assert (DB : forall z, In z (map c_dir (cache w)) -> z = d' \/ In z (map c_dir (drop d' (cache w)))).
  { clear. intros z. induction (cache w) as [|e l IHl]; intros H; [destruct H|]. cbn [map drop In] in *.
    destruct (c_dir e =? d') eqn:E.
    - destruct H as [H|H]; [left; lia|right; exact H].
    - cbn [map In]. destruct H as [H|H]; [right; left; exact H|]. destruct (IHl H); auto. }
  unfold get_file. rewrite !make_room_id. destruct (cached d' (cache w)) as [e|] eqn:C.
  - destruct (_ <? _).
    + cbn [snd]. apply K; [apply (cached_in _ _ _ C)|exact DA|exact DB].
    + destruct br; cbn [snd]; apply K; auto.
  - destruct br; cbn [snd]; apply K; auto.
Qed.
Print Assumptions C93_never_full.
Theorem C93_bound_refuted : exists evs, (max_dirs < length (cache (run (start 0 (fun _ => [])) evs)))%nat.
Proof.
  exists [(0, Look 1 0 None); (0, Look 2 0 None); (0, Look 3 0 None); (0, Look 4 0 None); (0, Look 5 0 None); (0, Look 6 0 None)].
  vm_compute. lia.
Qed.
Print Assumptions C93_bound_refuted.

(** A reading that was broken off leaves an entry that is believed: a file that has been
    there all the time is said to be absent. *)
Theorem C93_broken_refuted : exists s evs d base i, In (base, i) (s d) /\ orderly d (start 0 s) evs /\
  asked (run (start 0 s) evs) 1 d base = Absent.
Proof.
  exists (shows 1 [(7, 70); (8, 80)]), [(0, Look 1 8 (Some 1%nat))], 1, 8, 80.
  split; [cbn; auto|]. split; [cbn; auto|]. vm_compute. reflexivity.
Qed.
Print Assumptions C93_broken_refuted.

(** Renaming a directory invalidates the directories that hold its old and new names but
    not itself: the session still finds in it what it has moved away. (Directory 1 holds
    7, which is directory 2, and is renamed to 9, directory 3.) *)
Definition before_mv : Z -> list (Z * Z) := fun d => if d =? 1 then [(7, 2)] else if d =? 2 then [(8, 80)] else [].
Definition after_mv : Z -> list (Z * Z) := fun d => if d =? 1 then [(9, 2)] else if d =? 3 then [(8, 80)] else [].
Theorem C93_renamed_directory_refuted : exists evs, Forall unbroken evs /\
  evs = [(0, Look 2 8 None); (1, Own after_mv [1; 1])] /\
  let w := run (start 0 before_mv) evs in
  asked w 1 2 8 = Found 80 /\ server w 2 = [].
Proof. eexists. split; [|split; [reflexivity|vm_compute; auto]]. repeat constructor. Qed.
Print Assumptions C93_renamed_directory_refuted.
