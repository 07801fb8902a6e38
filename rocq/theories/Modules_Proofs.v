(** Tables of bindings, the cache and the search. *)
From Coq Require Import List ZArith Bool Arith Lia Permutation.
From Verif Require Import Modules_Model Modules_Spec.
Import ListNotations.
Open Scope nat_scope.

(** * Lists *)
Lemma set_nth_length {A} (l : list A) k x : k < length l -> length (set_nth l k x) = length l.
Proof.
  intros H. unfold set_nth. rewrite app_length, firstn_length. cbn [length]. rewrite skipn_length. lia.
Qed.
Lemma nth_set_nth {A} (l : list A) k x d i : k < length l -> nth i (set_nth l k x) d = if Nat.eqb i k then x else nth i l d.
Proof.
  revert k i. induction l as [|a l IH]; intros k i H; cbn [length] in H; [lia|].
  destruct k as [|k].
  - unfold set_nth. cbn [firstn skipn app]. destruct i; reflexivity.
  - change (set_nth (a :: l) (S k) x) with (a :: set_nth l k x).
    destruct i as [|i]; [reflexivity|]. cbn [nth Nat.eqb]. apply IH. lia.
Qed.
Lemma nth_error_nth_none {A} (l : list (option A)) i x : nth i l None = Some x -> i < length l.
Proof. intros H. destruct (Nat.lt_ge_cases i (length l)) as [L|L]; [exact L|]. rewrite nth_overflow in H by lia. discriminate. Qed.
Lemma concat_set {A} (b : list (list A)) j l : j < length b ->
  exists p q, concat b = p ++ nth j b [] ++ q /\ concat (set_nth b j l) = p ++ l ++ q.
Proof.
  revert j. induction b as [|a b IH]; intros j H; cbn [length] in H; [lia|].
  destruct j as [|j].
  - exists [], (concat b). split; reflexivity.
  - destruct (IH j) as (p & q & E1 & E2); [lia|]. exists (a ++ p), q.
    change (set_nth (a :: b) (S j) l) with (a :: set_nth b j l). cbn [concat nth].
    rewrite E1, E2, !app_assoc. split; reflexivity.
Qed.
Lemma concat_push {A} (b : list (list A)) j n : j < length b ->
  Permutation (concat (set_nth b j (n :: nth j b []))) (n :: concat b).
Proof.
  intros H. destruct (concat_set b j (n :: nth j b []) H) as (p & q & E1 & E2). rewrite E1, E2.
  cbn [app]. symmetry. apply Permutation_middle.
Qed.
Lemma in_nth_concat {A} (b : list (list A)) j n : In n (nth j b []) -> In n (concat b).
Proof.
  intros H. destruct (Nat.lt_ge_cases j (length b)) as [L|L]; [|rewrite nth_overflow in H by lia; contradiction].
  apply in_concat. exists (nth j b []). split; [apply nth_In; exact L|exact H].
Qed.
Lemma in_concat_nth {A} (b : list (list A)) n : In n (concat b) -> exists j, j < length b /\ In n (nth j b []).
Proof.
  intros H. apply in_concat in H. destruct H as (l & L & N). destruct (In_nth _ _ [] L) as (j & J & E).
  exists j. rewrite E. auto.
Qed.
Lemma remove1_perm n l : In n l -> Permutation l (n :: remove1 n l).
Proof.
  induction l as [|x l IH]; intros H; [contradiction|]. cbn [remove1]. destruct (Nat.eqb x n) eqn:E.
  - apply Nat.eqb_eq in E. subst. apply Permutation_refl.
  - destruct H as [->|H]; [rewrite Nat.eqb_refl in E; discriminate|].
    eapply perm_trans; [apply perm_skip, (IH H)|apply perm_swap].
Qed.
Lemma memq_in v l : memq v l = true <-> In v l.
Proof. unfold memq. rewrite existsb_exists. split; [intros (x & I & E); apply Nat.eqb_eq in E; subst; exact I|intros H; exists v; split; [exact H|apply Nat.eqb_refl]]. Qed.
Lemma imp_eqb_eq a b : imp_eqb a b = true <-> a = b.
Proof.
  destruct a, b; cbn [imp_eqb]; rewrite ?Nat.eqb_eq; split; intros H; try discriminate; try (subst; reflexivity); inversion H; reflexivity.
Qed.
Lemma imp_in i l : existsb (imp_eqb i) l = true <-> In i l.
Proof. rewrite existsb_exists. split; [intros (x & I & E); apply imp_eqb_eq in E; subst; exact I|intros H; exists i; split; [exact H|apply imp_eqb_eq; reflexivity]]. Qed.

Section Hash.
Variable hash : sym -> nat.
Notation slot := (slot hash).
Notation lookup := (lookup hash).

(** * Tables *)
Definition owns (x : struct) (n : nat) : Prop := In n (concat (buckets x)).
Record table_ok (w : world) (b : list (list nat)) : Prop := {
  t_nodup : NoDup (concat b);
  t_slot : forall j n, In n (nth j b []) -> exists nd, get_node w n = Some nd /\ slot (nsym nd) b = j;
  t_uniq : forall n n' nd nd', In n (concat b) -> In n' (concat b) -> get_node w n = Some nd -> get_node w n' = Some nd' ->
           nsym nd = nsym nd' -> n = n' }.

Lemma t_alive w b n : table_ok w b -> In n (concat b) -> exists nd, get_node w n = Some nd.
Proof. intros T I. apply in_concat_nth in I. destruct I as (j & _ & I). destruct (t_slot _ _ T j n I) as (nd & E & _). eauto. Qed.
Lemma t_place w b n nd : table_ok w b -> In n (concat b) -> get_node w n = Some nd -> In n (nth (slot (nsym nd) b) b []).
Proof.
  intros T I E. apply in_concat_nth in I. destruct I as (j & _ & I). destruct (t_slot _ _ T j n I) as (nd' & E' & S).
  rewrite E in E'. injection E' as <-. rewrite S. exact I.
Qed.
Lemma slot_lt v b : b <> [] -> slot v b < length b.
Proof. intros H. unfold Modules_Model.slot. apply Nat.mod_upper_bound. destruct b; [congruence|discriminate]. Qed.

Lemma find_node_spec w v l : (forall n, In n l -> exists nd, get_node w n = Some nd) ->
  exists r, find_node w v l = Ok r /\
    match r with
    | Some n => In n l /\ exists nd, get_node w n = Some nd /\ nsym nd = v
    | None => forall n nd, In n l -> get_node w n = Some nd -> nsym nd <> v
    end.
Proof.
  induction l as [|n l IH]; intros A; cbn [find_node].
  - exists None. split; [reflexivity|]. intros n nd [].
  - destruct (A n (or_introl eq_refl)) as (nd & E). rewrite E. destruct (Nat.eqb (nsym nd) v) eqn:V.
    + apply Nat.eqb_eq in V. exists (Some n). split; [reflexivity|]. split; [left; reflexivity|eauto].
    + apply Nat.eqb_neq in V. destruct (IH (fun m I => A m (or_intror I))) as (r & R & P). exists r. split; [exact R|].
      destruct r as [m|].
      * destruct P as (I & P). split; [right; exact I|exact P].
      * intros m nd' [->|I] E'; [congruence|exact (P m nd' I E')].
Qed.
Lemma lookup_spec w x v : table_ok w (buckets x) ->
  exists r, lookup w x v = Ok r /\
    match r with
    | Some n => owns x n /\ exists nd, get_node w n = Some nd /\ nsym nd = v
    | None => forall n nd, owns x n -> get_node w n = Some nd -> nsym nd <> v
    end.
Proof.
  intros T. unfold Modules_Model.lookup, owns. destruct (buckets x) as [|c b] eqn:B.
  - exists None. split; [reflexivity|]. intros n nd [].
  - rewrite <- B in *. destruct (find_node_spec w v (nth (slot v (buckets x)) (buckets x) [])) as (r & R & P).
    + intros n I. exact (t_alive _ _ _ T (in_nth_concat _ _ _ I)).
    + exists r. split; [exact R|]. destruct r as [n|].
      * destruct P as (I & P). split; [exact (in_nth_concat _ _ _ I)|exact P].
      * intros n nd I E V. apply (P n nd); [|exact E|exact V]. rewrite <- V. exact (t_place _ _ _ _ T I E).
Qed.
Lemma lookup_owned w x n nd : table_ok w (buckets x) -> owns x n -> get_node w n = Some nd -> lookup w x (nsym nd) = Ok (Some n).
Proof.
  intros T O E. destruct (lookup_spec w x (nsym nd) T) as (r & R & P). rewrite R. destruct r as [m|].
  - destruct P as (O' & nd' & E' & V). f_equal. f_equal. exact (t_uniq _ _ T m n nd' nd O' O E' E V).
  - exfalso. exact (P n nd O E eq_refl).
Qed.

Lemma table_ext w w' b : table_ok w b -> (forall n nd, In n (concat b) -> get_node w n = Some nd ->
    exists nd', get_node w' n = Some nd' /\ nsym nd' = nsym nd) -> table_ok w' b.
Proof.
  intros T H. split.
  - exact (t_nodup _ _ T).
  - intros j n I. destruct (t_slot _ _ T j n I) as (nd & E & S).
    destruct (H n nd (in_nth_concat _ _ _ I) E) as (nd' & E' & V). exists nd'. rewrite V. auto.
  - intros n n' nd nd' I I' E E' V. destruct (t_alive _ _ _ T I) as (d & D). destruct (t_alive _ _ _ T I') as (d' & D').
    destruct (H n d I D) as (e & F & X). destruct (H n' d' I' D') as (e' & F' & X').
    apply (t_uniq _ _ T n n' d d' I I' D D'). congruence.
Qed.
Lemma table_push w b n nd : table_ok w b -> b <> [] -> get_node w n = Some nd -> ~ In n (concat b) ->
  (forall n' nd', In n' (concat b) -> get_node w n' = Some nd' -> nsym nd' <> nsym nd) ->
  table_ok w (set_nth b (slot (nsym nd) b) (n :: nth (slot (nsym nd) b) b [])).
Proof.
  intros T B E N U. pose proof (slot_lt (nsym nd) b B) as L. set (j := slot (nsym nd) b) in *.
  pose proof (concat_push b j n L) as P. split.
  - eapply Permutation_NoDup; [symmetry; exact P|]. constructor; [exact N|exact (t_nodup _ _ T)].
  - intros i m I. rewrite nth_set_nth in I by exact L.
    assert (SL : forall v, slot v (set_nth b j (n :: nth j b [])) = slot v b)
      by (intros v; unfold Modules_Model.slot; rewrite set_nth_length by exact L; reflexivity).
    destruct (Nat.eqb i j) eqn:IJ.
    + apply Nat.eqb_eq in IJ. subst i. destruct I as [->|I].
      * exists nd. rewrite SL. auto.
      * destruct (t_slot _ _ T j m I) as (d & D & S). exists d. rewrite SL. auto.
    + destruct (t_slot _ _ T i m I) as (d & D & S). exists d. rewrite SL. auto.
  - intros m m' d d' I I' D D' V. apply (Permutation_in _ P) in I. apply (Permutation_in _ P) in I'.
    destruct I as [<-|I], I' as [<-|I']; [reflexivity| | |exact (t_uniq _ _ T m m' d d' I I' D D' V)].
    + exfalso. apply (U m' d' I' D'). congruence.
    + exfalso. apply (U m d I D). congruence.
Qed.
Lemma rehash_spec w l : forall b, table_ok w b -> b <> [] -> NoDup (l ++ concat b) ->
  (forall n, In n l -> exists nd, get_node w n = Some nd) ->
  (forall n n' nd nd', In n (l ++ concat b) -> In n' (l ++ concat b) -> get_node w n = Some nd -> get_node w n' = Some nd' ->
     nsym nd = nsym nd' -> n = n') ->
  exists b', rehash hash w l b = Ok b' /\ table_ok w b' /\ length b' = length b /\ Permutation (concat b') (l ++ concat b).
Proof.
  induction l as [|n l IH]; intros b T B ND A U; cbn [rehash].
  - exists b. split; [reflexivity|]. split; [exact T|]. split; [reflexivity|apply Permutation_refl].
  - destruct (A n (or_introl eq_refl)) as (nd & E). rewrite E.
    cbn [app] in ND. apply NoDup_cons_iff in ND. destruct ND as (N & ND).
    pose proof (slot_lt (nsym nd) b B) as L.
    pose proof (concat_push b (slot (nsym nd) b) n L) as P.
    assert (T' : table_ok w (set_nth b (slot (nsym nd) b) (n :: nth (slot (nsym nd) b) b []))).
    { apply table_push; auto.
      - intros I. apply N, in_or_app. right. exact I.
      - intros n' nd' I' E' V. apply N. apply in_or_app. right.
        rewrite (U n n' nd nd'); [exact I'|left; reflexivity|right; apply in_or_app; right; exact I'|exact E|exact E'|symmetry; exact V]. }
    assert (PP : Permutation (l ++ concat (set_nth b (slot (nsym nd) b) (n :: nth (slot (nsym nd) b) b []))) ((n :: l) ++ concat b)).
    { eapply perm_trans; [apply Permutation_app_head; exact P|]. cbn [app]. symmetry. apply Permutation_middle. }
    destruct (IH _ T') as (b' & R & T'' & Lb & Pb).
    + intros C. apply (f_equal (@length _)) in C. rewrite set_nth_length in C by exact L. cbn in C. lia.
    + eapply Permutation_NoDup; [symmetry; exact PP|]. cbn [app]. constructor; assumption.
    + intros m I. apply A. right. exact I.
    + intros m m' d d' I I'. apply U; [exact (Permutation_in _ PP I)|exact (Permutation_in _ PP I')].
    + exists b'. split; [exact R|]. split; [exact T''|]. split; [rewrite Lb; apply set_nth_length; exact L|].
      eapply perm_trans; [exact Pb|exact PP].
Qed.
Lemma table_empty w k : table_ok w (repeat [] k) /\ concat (repeat (@nil nat) k) = [].
Proof.
  assert (C : concat (repeat (@nil nat) k) = []) by (induction k; [reflexivity|exact IHk]).
  split; [|exact C]. split.
  - rewrite C. constructor.
  - intros j n I. apply in_nth_concat in I. rewrite C in I. contradiction.
  - intros n n' nd nd' I. rewrite C in I. contradiction.
Qed.
Lemma table_remove w b n nd : table_ok w b -> b <> [] -> In n (concat b) -> get_node w n = Some nd ->
  let b' := set_nth b (slot (nsym nd) b) (remove1 n (nth (slot (nsym nd) b) b [])) in
  table_ok w b' /\ Permutation (concat b) (n :: concat b').
Proof.
  intros T B I E b'. pose proof (slot_lt (nsym nd) b B) as L. pose proof (t_place _ _ _ _ T I E) as PL.
  set (j := slot (nsym nd) b) in *.
  assert (P : Permutation (concat b) (n :: concat b')).
  { unfold b'. destruct (concat_set b j (remove1 n (nth j b [])) L) as (p & q & E1 & E2). rewrite E1, E2.
    eapply perm_trans; [apply Permutation_app_head, Permutation_app_tail, (remove1_perm n _ PL)|].
    cbn [app]. symmetry. apply Permutation_middle. }
  split; [|exact P]. assert (Sub : forall m, In m (concat b') -> In m (concat b))
    by (intros m M; apply (Permutation_in _ (Permutation_sym P)); right; exact M).
  split.
  - assert (ND : NoDup (n :: concat b')) by (eapply Permutation_NoDup; [exact P|exact (t_nodup _ _ T)]).
    inversion ND; assumption.
  - intros i m M. assert (SL : forall v, slot v b' = slot v b) by (intros v; unfold Modules_Model.slot, b'; rewrite set_nth_length by exact L; reflexivity).
    pose proof (Sub m (in_nth_concat _ _ _ M)) as M'.
    destruct (t_alive _ _ _ T M') as (d & D). exists d. split; [exact D|]. rewrite SL.
    unfold b' in M. rewrite nth_set_nth in M by exact L. destruct (Nat.eqb i j) eqn:IJ.
    + apply Nat.eqb_eq in IJ. subst i.
      assert (M2 : In m (nth j b [])) by (apply (Permutation_in _ (Permutation_sym (remove1_perm n _ PL))); right; exact M).
      destruct (t_slot _ _ T j m M2) as (d' & D' & S). congruence.
    + destruct (t_slot _ _ T i m M) as (d' & D' & S). congruence.
  - intros m m' d d' M M'. apply (t_uniq _ _ T m m' d d'); auto.
Qed.

(** * The model and the meaning *)
Definition entry_of (nd : node) : entry := mke (nval nd) (nconst nd) (nexp nd).
Record rel (w : world) (x : struct) (m : module) : Prop := {
  r_name : sname x = named m;
  r_inh : inherited x = reexports m;
  r_all : export_all x = everything m;
  r_binds : set_binds x = binds m;
  r_opens : imports x = opens m;
  r_acc : accessible x = accesses m;
  r_table : table_ok w (buckets x);
  r_def : forall n nd, owns x n -> get_node w n = Some nd -> defs m (nsym nd) = Some (entry_of nd);
  r_undef : forall v e, defs m v = Some e -> exists n nd, owns x n /\ get_node w n = Some nd /\ nsym nd = v }.
Record R (w : world) (U : universe) : Prop := {
  R_count : length (structs w) = count U;
  R_mod : forall s m, mods U s = Some m -> exists x, get_struct w s = Some x /\ rel w x m;
  R_struct : forall s x, get_struct w s = Some x -> mods U s <> None;
  R_called : forall n, get_structure w n = called U n;
  R_names : forall n s, called U n = Some s -> mods U s <> None;
  R_objs : forall s m t, mods U s = Some m -> In (ByObj t) (opens m) -> mods U t <> None;
  R_own : forall s s' x x' n, get_struct w s = Some x -> get_struct w s' = Some x' -> owns x n -> owns x' n -> s = s' }.

Lemma R_resolve w U i : R w U -> resolve w i = the U i.
Proof. intros H. destruct i; cbn [resolve the]; [apply (R_called _ _ H)|reflexivity]. Qed.
Lemma R_get w U s x : R w U -> get_struct w s = Some x -> exists m, mods U s = Some m /\ rel w x m.
Proof.
  intros H E. destruct (mods U s) as [m|] eqn:M; [|exfalso; exact (R_struct _ _ H s x E M)].
  destruct (R_mod _ _ H s m M) as (x' & E' & RL). rewrite E in E'. injection E' as <-. eauto.
Qed.
Lemma R_edge w U s m i t : R w U -> mods U s = Some m -> In i (opens m) -> the U i = Some t -> mods U t <> None.
Proof.
  intros H M I T. destruct i as [n|o]; cbn [the] in T.
  - exact (R_names _ _ H n t T).
  - injection T as ->. exact (R_objs _ _ H s m t M I).
Qed.
Lemma rel_lookup w x m v : rel w x m ->
  exists r, lookup w x v = Ok r /\
    match r with
    | Some n => owns x n /\ exists nd, get_node w n = Some nd /\ nsym nd = v /\ defs m v = Some (entry_of nd)
    | None => defs m v = None
    end.
Proof.
  intros RL. destruct (lookup_spec w x v (r_table _ _ _ RL)) as (r & E & P). exists r. split; [exact E|].
  destruct r as [n|].
  - destruct P as (O & nd & G & V). split; [exact O|]. exists nd. split; [exact G|]. split; [exact V|].
    rewrite <- V. exact (r_def _ _ _ RL n nd O G).
  - destruct (defs m v) as [e|] eqn:D; [|reflexivity]. destruct (r_undef _ _ _ RL v e D) as (n & nd & O & G & V).
    exfalso. exact (P n nd O G V).
Qed.
Lemma rel_passes w x m v : rel w x m -> exports_inherited x v = passes m v.
Proof. intros RL. unfold exports_inherited, passes, memq. rewrite (r_all _ _ _ RL), (r_inh _ _ _ RL). reflexivity. Qed.

(** * Paths *)
Lemma below_trans U s t u : below U s t -> below U t u -> below U s u.
Proof. induction 1; intros H1; [exact H1|]. eapply below_step; [eassumption|auto]. Qed.
Lemma below_edge U s t u : below U s t -> edge U t u -> below U s u.
Proof. intros B E. eapply below_trans; [exact B|]. eapply below_step; [exact E|apply below_refl]. Qed.
Lemma no_cycle U s : grounded U s -> forall t, edge U s t -> below U t s -> False.
Proof.
  induction 1 as [s A IH]. intros t E B. inversion B as [?|? t1 ? E1 B1]; subst.
  - exact (IH s E s E (below_refl _ _)).
  - exact (IH t E t1 E1 (below_edge _ _ _ _ B1 E)).
Qed.
Lemma grounded_edge U s t : grounded U s -> edge U s t -> grounded U t.
Proof. intros A E. exact (Acc_inv A E). Qed.

(** * Lines of the cache *)
Definition has (c : cache) (j s n : nat) : Prop :=
  exists l x, nth_error (sets c) j = Some l /\ In x l /\ ls x = Some s /\ ln x = n.
Record line_ok (w : world) (U : universe) (j s n : nat) : Prop := {
  l_node : exists nd o x m t, get_node w n = Some nd /\ set_of hash (nsym nd) = j /\ get_struct w o = Some x /\ owns x n /\
     mods U s = Some m /\ edge U s t /\ below U t o /\
     (grounded U s -> among U (nsym nd) (opens m) (Some o)) }.
Definition cache_ok (w : world) (U : universe) (c : cache) : Prop :=
  length (sets c) = CACHE_SETS /\ forall j s n, has c j s n -> line_ok w U j s n.

Lemma set_of_lt v : set_of hash v < CACHE_SETS.
Proof. unfold set_of. apply Nat.mod_upper_bound. discriminate. Qed.
Lemma nth_error_set {A} (l : list A) k x i : k < length l -> nth_error (set_nth l k x) i = if Nat.eqb i k then Some x else nth_error l i.
Proof.
  revert k i. induction l as [|a l IH]; intros k i H; cbn [length] in H; [lia|].
  destruct k as [|k].
  - unfold set_nth. cbn [firstn skipn app]. destruct i; reflexivity.
  - change (set_nth (a :: l) (S k) x) with (a :: set_nth l k x). destruct i as [|i]; [reflexivity|]. cbn [nth_error Nat.eqb]. apply IH. lia.
Qed.
Lemma in_set_nth {A} (l : list A) k x y : In y (set_nth l k x) -> y = x \/ In y l.
Proof.
  unfold set_nth. intros H. apply in_app_or in H. destruct H as [H|[H|H]]; [right|left; congruence|right].
  - rewrite <- (firstn_skipn k l). apply in_or_app. left. exact H.
  - rewrite <- (firstn_skipn (S k) l). apply in_or_app. right. exact H.
Qed.
Lemma has_set c k l age j s n : k < length (sets c) ->
  has (mkc (set_nth (sets c) k l) age) j s n -> (j = k /\ exists x, In x l /\ ls x = Some s /\ ln x = n) \/ (j <> k /\ has c j s n).
Proof.
  intros L (l' & x & E & I & S & N). cbn [sets] in E. rewrite nth_error_set in E by exact L.
  destruct (Nat.eqb j k) eqn:JK.
  - apply Nat.eqb_eq in JK. injection E as <-. left. eauto.
  - apply Nat.eqb_neq in JK. right. split; [exact JK|]. exists l', x. auto.
Qed.
Lemma has_nth c j x s n : j < length (sets c) -> In x (nth j (sets c) []) -> ls x = Some s -> ln x = n -> has c j s n.
Proof. intros L I S N. exists (nth j (sets c) []), x. split; [apply nth_error_nth'; exact L|auto]. Qed.
Lemma has_flush c j s n : ~ has (flush c) j s n.
Proof.
  intros (l & x & E & I & S & N). cbn [flush sets] in E. apply nth_error_In in E. apply repeat_spec in E. subst l.
  apply repeat_spec in I. subst x. discriminate.
Qed.
Lemma cache_flush_ok w U c : cache_ok w U (flush c).
Proof. split; [reflexivity|]. intros j s n H. exfalso. exact (has_flush _ _ _ _ H). Qed.

Lemma scan_spec w s v l : (forall x t, In x l -> ls x = Some t -> exists nd, get_node w (ln x) = Some nd) ->
  exists r l', scan w s v l = Ok (r, l') /\
    (forall y, In y l' -> exists x, In x l /\ ls x = ls y /\ ln x = ln y) /\
    match r with Some n => exists x nd, In x l /\ ls x = Some s /\ ln x = n /\ get_node w n = Some nd /\ nsym nd = v | None => True end.
Proof.
  induction l as [|x l IH]; intros A; cbn [scan].
  - exists None, []. split; [reflexivity|]. split; [intros y []|exact I].
  - destruct (IH (fun y t I S => A y t (or_intror I) S)) as (r & l' & E & P & Q).
    assert (N : exists r l', (let* (r0, l0) := scan w s v l in Ok (r0, x :: l0)) = Ok (r, l') /\
       (forall y, In y l' -> exists x0, In x0 (x :: l) /\ ls x0 = ls y /\ ln x0 = ln y) /\
       match r with Some n => exists x0 nd, In x0 (x :: l) /\ ls x0 = Some s /\ ln x0 = n /\ get_node w n = Some nd /\ nsym nd = v | None => True end).
    { rewrite E. cbn [bind]. exists r, (x :: l'). split; [reflexivity|]. split.
      - intros y [<-|I]; [exists x; split; [left; reflexivity|auto]|].
        destruct (P y I) as (z & Z & S). exists z. split; [right; exact Z|exact S].
      - destruct r as [n|]; [|exact I]. destruct Q as (z & nd & Z & S). exists z, nd. split; [right; exact Z|exact S]. }
    destruct (ls x) as [t|] eqn:S; [|exact N]. destruct (Nat.eqb t s) eqn:T; [|exact N].
    destruct (A x t (or_introl eq_refl) S) as (nd & G). rewrite G. destruct (Nat.eqb (nsym nd) v) eqn:V; [|exact N].
    apply Nat.eqb_eq in T, V. subst t. exists (Some (ln x)), (mkl (Some s) (ln x) (lage x + 1)%Z :: l). split; [reflexivity|]. split.
    + intros y [<-|I].
      * exists x. split; [left; reflexivity|]. split; [exact S|reflexivity].
      * exists y. split; [right; exact I|auto].
    + exists x, nd. split; [left; reflexivity|auto].
Qed.
Lemma line_alive w U c v x t : cache_ok w U c -> In x (nth (set_of hash v) (sets c) []) -> ls x = Some t -> exists nd, get_node w (ln x) = Some nd.
Proof.
  intros (L & A) I S. destruct (A _ _ _ (has_nth c _ x t _ ltac:(rewrite L; apply set_of_lt) I S eq_refl)) as [(nd & o & y & m & u & G & _)].
  eauto.
Qed.
Lemma lookup_cache_spec w U s v c : cache_ok w U c ->
  exists r c', lookup_cache hash w s v c = Ok (r, c') /\ cache_ok w U c' /\
    match r with Some n => exists nd, get_node w n = Some nd /\ nsym nd = v /\ line_ok w U (set_of hash v) s n | None => True end.
Proof.
  intros C. unfold lookup_cache. destruct (scan_spec w s v (nth (set_of hash v) (sets c) [])) as (r & l' & E & P & Q).
  { intros x t I S. exact (line_alive _ _ _ _ _ _ C I S). }
  rewrite E. cbn [bind]. destruct C as (L & A). assert (LT : set_of hash v < length (sets c)) by (rewrite L; apply set_of_lt).
  exists r, (mkc (set_nth (sets c) (set_of hash v) l') (ref_age c)). split; [reflexivity|]. split.
  - split; [cbn [sets]; rewrite set_nth_length by exact LT; exact L|]. intros j t n H. apply has_set in H; [|exact LT].
    destruct H as [(-> & y & Y & S & N)|(_ & H)]; [|exact (A _ _ _ H)].
    destruct (P y Y) as (x & X & S' & N'). apply A. apply (has_nth c _ x); [exact LT|exact X|congruence|congruence].
  - destruct r as [n|]; [|exact I]. destruct Q as (x & nd & X & S & N & G & V). exists nd. split; [exact G|]. split; [exact V|].
    apply A. exact (has_nth c _ x _ _ LT X S N).
Qed.
Lemma enter_cache_spec w U s n nd c : cache_ok w U c -> get_node w n = Some nd -> line_ok w U (set_of hash (nsym nd)) s n ->
  exists c', enter_cache hash w s n c = Ok c' /\ cache_ok w U c'.
Proof.
  intros (L & A) G LO. unfold enter_cache. rewrite G. assert (LT : set_of hash (nsym nd) < length (sets c)) by (rewrite L; apply set_of_lt).
  eexists. split; [reflexivity|]. split; [cbn [sets]; rewrite set_nth_length by exact LT; exact L|].
  intros j t m H. apply has_set in H; [|exact LT]. destruct H as [(-> & y & Y & S & N)|(_ & H)]; [|exact (A _ _ _ H)].
  apply in_set_nth in Y. destruct Y as [->|Y].
  - cbn [ls ln] in S, N. injection S as <-. subst m. exact LO.
  - apply A. exact (has_nth c _ y _ _ LT Y S N).
Qed.

(** * The search *)
Section Search.
  Variables (w : world) (U : universe) (v : sym).
  Hypothesis RW : R w U.
  Definition owner (n o : nat) : Prop :=
    exists nd x, get_node w n = Some nd /\ nsym nd = v /\ get_struct w o = Some x /\ owns x n.
  Definition agrees (r ro : option nat) : Prop :=
    match r, ro with Some n, Some o => owner n o | None, None => True | _, _ => False end.
  Definition found (s : nat) (m : module) (r : option nat) : Prop :=
    (forall n, r = Some n -> exists o t, owner n o /\ edge U s t /\ below U t o) /\
    (grounded U s -> exists ro, among U v (opens m) ro /\ agrees r ro).
  Definition search_good (f : search_fun) (ex : list nat) : Prop :=
    forall s m c, mods U s = Some m -> cache_ok w U c -> (forall e, In e (s :: ex) -> below U e s) -> ~ In s ex ->
      exists r c', f (s :: ex) s c = Ok (r, c') /\ cache_ok w U c' /\ found s m r.

  Lemma owner_fun n o o' : owner n o -> owner n o' -> o = o'.
  Proof.
    intros (nd & x & G & V & S & O) (nd' & x' & G' & V' & S' & O'). exact (R_own _ _ RW o o' x x' n S S' O O').
  Qed.

  (** What one import gives; [ex] are above the structure it is imported by *)
  Lemma recursively_spec f ex i c : search_good f ex -> cache_ok w U c ->
    (forall t, the U i = Some t -> mods U t <> None) ->
    (forall t e, the U i = Some t -> In e ex -> below U e t) ->
    exists r c', recursively hash w v f ex i c = Ok (r, c') /\ cache_ok w U c' /\
      (forall n, r = Some n -> exists o t, owner n o /\ the U i = Some t /\ below U t o) /\
      ((forall t, the U i = Some t -> grounded U t /\ ~ In t ex) -> exists ro, offers U v i ro /\ agrees r ro).
  Proof.
    intros SG C AL AB. unfold recursively. rewrite (R_resolve _ _ _ RW). destruct (the U i) as [s|] eqn:T.
    2: { exists None, c. split; [reflexivity|]. split; [exact C|]. split; [discriminate|].
         intros _. exists None. split; [apply offers_unknown; exact T|exact I]. }
    destruct (mods U s) as [m|] eqn:M; [|exfalso; exact (AL s eq_refl M)].
    destruct (R_mod _ _ RW s m M) as (x & GX & RL). rewrite GX.
    destruct (existsb (Nat.eqb s) ex) eqn:EX.
    { exists None, c. split; [reflexivity|]. split; [exact C|]. split; [discriminate|].
      intros G. exfalso. apply (proj2 (G s eq_refl)). apply memq_in. exact EX. }
    assert (NX : ~ In s ex) by (intros I; apply memq_in in I; unfold memq in I; congruence).
    destruct (rel_lookup _ _ _ v RL) as (r & LK & P). rewrite LK. cbn [bind]. destruct r as [n|].
    - destruct P as (O & nd & G & V & D). rewrite G.
      exists (if nexp nd then Some n else None), c. split; [reflexivity|]. split; [exact C|].
      assert (OW : owner n s) by (exists nd, x; auto).
      split.
      + intros k K. destruct (nexp nd); [|discriminate]. injection K as <-. exists s, s. split; [exact OW|]. split; [reflexivity|apply below_refl].
      + intros _. destruct (nexp nd) eqn:X.
        * exists (Some s). split; [|exact OW]. eapply offers_own; [exact T|exact M|exact D|exact X].
        * exists None. split; [|exact I]. eapply offers_hidden; [exact T|exact M|exact D|exact X].
    - rewrite (rel_passes _ _ _ _ RL). destruct (passes m v) eqn:PS.
      + destruct (SG s m c M C) as (r & c' & E & C' & F1 & F2); [|exact NX|].
        { intros e [<-|I]; [apply below_refl|exact (AB s e eq_refl I)]. }
        exists r, c'. split; [exact E|]. split; [exact C'|]. split.
        * intros n N. destruct (F1 n N) as (o & t & OW & ED & B). exists o, s. split; [exact OW|]. split; [reflexivity|].
          eapply below_step; eassumption.
        * intros G. destruct (F2 (proj1 (G s eq_refl))) as (ro & A & AG). exists ro. split; [|exact AG].
          eapply offers_other; [exact T|exact M|exact P|exact PS|exact A].
      + exists None, c. split; [reflexivity|]. split; [exact C|]. split; [discriminate|].
        intros _. exists None. split; [|exact I]. eapply offers_not; [exact T|exact M|exact P|exact PS].
  Qed.

  Lemma first_spec f ex s m : search_good f ex -> mods U s = Some m -> (forall e, In e ex -> below U e s) ->
    forall l c, (forall i, In i l -> In i (opens m)) -> cache_ok w U c ->
    exists r c', first hash w v f ex l c = Ok (r, c') /\ cache_ok w U c' /\
      (forall n, r = Some n -> exists o t, owner n o /\ edge U s t /\ below U t o) /\
      (grounded U s -> exists ro, among U v l ro /\ agrees r ro).
  Proof.
    intros SG M AB. induction l as [|i l IH]; intros c SUB C; cbn [first].
    - exists None, c. split; [reflexivity|]. split; [exact C|]. split; [discriminate|].
      intros _. exists None. split; [constructor|exact I].
    - assert (II : In i (opens m)) by (apply SUB; left; reflexivity).
      assert (EDG : forall t, the U i = Some t -> edge U s t) by (intros t T; exists m, i; auto).
      destruct (recursively_spec f ex i c SG C) as (r & c1 & E & C1 & F1 & F2).
      + intros t T. exact (R_edge _ _ s m i t RW M II T).
      + intros t e T X. eapply below_edge; [exact (AB e X)|exact (EDG t T)].
      + rewrite E. cbn [bind].
        assert (F2' : grounded U s -> exists ro, offers U v i ro /\ agrees r ro).
        { intros G. apply F2. intros t T. split; [exact (grounded_edge _ _ _ G (EDG t T))|].
          intros X. apply (no_cycle _ _ G t (EDG t T)). exact (AB t X). }
        destruct r as [n|].
        * exists (Some n), c1. split; [reflexivity|]. split; [exact C1|]. split.
          -- intros k K. destruct (F1 k K) as (o & t & OW & T & B). exists o, t. split; [exact OW|]. split; [exact (EDG t T)|exact B].
          -- intros G. destruct (F2' G) as (ro & OF & AG). exists ro. split; [|exact AG].
             destruct ro as [o|]; [|contradiction]. apply among_first. exact OF.
        * destruct (IH c1 (fun k K => SUB k (or_intror K)) C1) as (r & c2 & E2 & C2 & H1 & H2).
          exists r, c2. split; [exact E2|]. split; [exact C2|]. split; [exact H1|].
          intros G. destruct (F2' G) as (ro & OF & AG). destruct ro as [o|]; [contradiction|].
          destruct (H2 G) as (ro2 & A & AG2). exists ro2. split; [|exact AG2]. apply among_later; assumption.
  Qed.

  Lemma search_spec fuel : forall ex s m c, length (structs w) < fuel + length ex -> NoDup ex ->
    (forall e, In e ex -> e < length (structs w)) ->
    mods U s = Some m -> cache_ok w U c -> (forall e, In e ex -> below U e s) ->
    exists r c', search hash w v fuel ex s c = Ok (r, c') /\ cache_ok w U c' /\ found s m r.
  Proof.
    induction fuel as [|fuel IH]; intros ex s m c FU ND LT M C AB.
    - exfalso. assert (H : length ex <= length (structs w)); [|lia].
      rewrite <- (seq_length (length (structs w)) 0). apply NoDup_incl_length; [exact ND|].
      intros e X. apply in_seq. specialize (LT e X). lia.
    - cbn [search]. destruct (R_mod _ _ RW s m M) as (x & GX & RL). rewrite GX.
      destruct (lookup_cache_spec w U s v c C) as (r & c1 & E & C1 & P). rewrite E. cbn [bind]. destruct r as [n|].
      + destruct P as (nd & G & V & [(nd' & o & y & m' & t & G' & _ & S & O & M' & ED & B & A)]).
        rewrite G in G'. injection G' as <-. rewrite M in M'. injection M' as <-. rewrite V in A.
        assert (OW : owner n o) by (exists nd, y; auto).
        exists (Some n), c1. split; [reflexivity|]. split; [exact C1|]. split.
        * intros k K. injection K as <-. exists o, t. auto.
        * intros GR. exists (Some o). split; [exact (A GR)|exact OW].
      + rewrite (r_opens _ _ _ RL).
        destruct (first_spec (search hash w v fuel) ex s m) with (l := opens m) (c := c1) as (r & c2 & E2 & C2 & F1 & F2); auto.
        { intros t mt ct MT CT ABt NI. apply IH with (m := mt); auto.
          - cbn [length]. lia.
          - constructor; assumption.
          - intros e [<-|X]; [|exact (LT e X)]. destruct (R_mod _ _ RW t mt MT) as (xt & GT & _). exact (nth_error_nth_none _ _ _ GT). }
        rewrite E2. cbn [bind]. destruct r as [n|].
        * destruct (F1 n eq_refl) as (o & t & OW & ED & B). destruct OW as (nd & y & G & V & S & O).
          destruct (enter_cache_spec w U s n nd c2 C2 G) as (c3 & E3 & C3).
          { split. exists nd, o, y, m, t. split; [exact G|]. split; [reflexivity|]. split; [exact S|]. split; [exact O|]. split; [exact M|].
            split; [exact ED|]. split; [exact B|]. intros GR. destruct (F2 GR) as (ro & A & AG). destruct ro as [o'|]; [|contradiction].
            rewrite V. replace o with o'; [exact A|]. apply (owner_fun n o' o); [exact AG|]. exists nd, y. auto. }
          rewrite E3. cbn [bind]. exists (Some n), c3. split; [reflexivity|]. split; [exact C3|]. split; [exact F1|exact F2].
        * exists None, c2. split; [reflexivity|]. split; [exact C2|]. split; [exact F1|exact F2].
  Qed.

  Lemma imports_spec s m c : mods U s = Some m -> cache_ok w U c ->
    exists r c', search_imports hash w v s c = Ok (r, c') /\ cache_ok w U c' /\ found s m r.
  Proof.
    intros M C. apply search_spec; auto.
    - unfold depth. cbn [length]. lia.
    - constructor.
    - intros e [].
    - intros e [].
  Qed.
  Lemma recursively_top i c : cache_ok w U c -> (forall t, the U i = Some t -> mods U t <> None) ->
    exists r c', lookup_recursively hash w v i c = Ok (r, c') /\ cache_ok w U c' /\
      (forall n, r = Some n -> exists o t, owner n o /\ the U i = Some t /\ below U t o) /\
      ((forall t, the U i = Some t -> grounded U t) -> exists ro, offers U v i ro /\ agrees r ro).
  Proof.
    intros C AL. destruct (recursively_spec (search hash w v (depth w)) [] i c) as (r & c' & E & C' & F1 & F2); auto.
    - intros s m ct M CT AB NI. apply search_spec; auto.
      + unfold depth. cbn [length]. lia.
      + constructor; [intros []|constructor].
      + intros e [<-|[]]. destruct (R_mod _ _ RW s m M) as (xt & GT & _). exact (nth_error_nth_none _ _ _ GT).
    - intros t e _ [].
    - exists r, c'. split; [exact E|]. split; [exact C'|]. split; [exact F1|]. intros G. apply F2. intros t T. split; [exact (G t T)|intros []].
  Qed.
End Search.
End Hash.
