(** Proofs about command line options. *)

From Coq Require Import ZArith List Bool Lia Permutation.
From Verif Require Import Options_Model Options_Spec.
Import ListNotations.
Open Scope Z_scope.

(** ** Recognising a word *)

Lemma strncmp_app opt : forall s, plain opt ->
  strncmp0 opt s (length opt) = true <-> exists r, s = opt ++ r.
Proof.
  induction opt as [|x opt IH]; intros s P; cbn [length strncmp0].
  - split; [intros _; exists s; reflexivity|reflexivity].
  - assert (X0 : x <> 0) by (intros ->; apply P; left; reflexivity).
    assert (P' : plain opt) by (intros H; apply P; right; exact H).
    cbn [tl]. destruct s as [|y s].
    + destruct (Z.eqb_spec x 0); [contradiction|]. split; [discriminate|].
      intros (r & E). discriminate.
    + destruct (Z.eqb_spec x y) as [->|N].
      * destruct (Z.eqb_spec y 0); [contradiction|]. cbn [tl]. rewrite IH by exact P'.
        split; intros (r & E); exists r; [cbn [app]; congruence|]. cbn [app] in E. congruence.
      * split; [discriminate|]. intros (r & E). cbn [app] in E. congruence.
Qed.

Definition match_word (opt s : str) : bool :=
  strncmp0 opt s (length opt) &&
  ((at_ s (length opt) =? equals) || (at_ s (length opt) =? 0)).

Lemma at_app opt r : at_ (opt ++ r) (length opt) = match r with [] => 0 | x :: _ => x end.
Proof.
  unfold at_. rewrite app_nth2 by lia. rewrite Nat.sub_diag. destruct r; reflexivity.
Qed.

Lemma match_looks opt s : plain opt -> plain s -> (match_word opt s = true <-> looks_like opt s).
Proof.
  intros Po Ps. unfold match_word, looks_like. rewrite andb_true_iff, strncmp_app by exact Po.
  split.
  - intros ((r & ->) & H). rewrite at_app in H. destruct r as [|x r].
    + left. apply app_nil_r.
    + right. exists r. apply orb_prop in H. unfold equals in H.
      destruct H as [H|H]; apply Z.eqb_eq in H; subst x; [reflexivity|].
      exfalso. apply Ps. apply in_or_app. right. left. reflexivity.
  - intros [->|(v & ->)].
    + split; [exists []; symmetry; apply app_nil_r|].
      replace (at_ opt (length opt)) with 0; [reflexivity|].
      unfold at_. symmetry. apply nth_overflow. lia.
    + split; [exists ([61] ++ v); reflexivity|]. rewrite at_app. reflexivity.
Qed.

(** ** Deletion *)

Lemma delq_other id l : ~ In id (map elt_id l) -> delq id l = l.
Proof.
  induction l as [|e l IH]; intros H; [reflexivity|]. cbn [delq map] in *.
  destruct (Nat.eqb_spec (elt_id e) id) as [E|E].
  - exfalso. apply H. left. exact E.
  - rewrite IH; [reflexivity|]. intros I. apply H. right. exact I.
Qed.

Lemma delq_app id a b : delq id (a ++ b) = delq id a ++ delq id b.
Proof.
  induction a as [|e a IH]; [reflexivity|]. cbn [app delq]. rewrite IH.
  destruct (Nat.eqb (elt_id e) id); reflexivity.
Qed.

Lemma delq_mid e a b : NoDup (map elt_id (a ++ e :: b)) -> delq (elt_id e) (a ++ e :: b) = a ++ b.
Proof.
  intros H. rewrite map_app in H. cbn [map] in H. pose proof (NoDup_remove_2 _ _ _ H) as N.
  rewrite delq_app. cbn [delq]. rewrite Nat.eqb_refl.
  rewrite !delq_other; [reflexivity| |]; intros I; apply N; apply in_or_app; auto.
Qed.

Lemma delq_str id s a b :
  NoDup (map elt_id (a ++ Str id s :: b)) -> delq id (a ++ Str id s :: b) = a ++ b.
Proof. exact (delq_mid (Str id s) a b). Qed.

Lemma nodup_mid (a b : list elt) e :
  NoDup (map elt_id (a ++ e :: b)) -> NoDup (map elt_id (a ++ b)).
Proof.
  rewrite !map_app. cbn [map]. apply NoDup_remove_1.
Qed.

(** ** The loop *)

Lemma loop_skip opt want whole : forall pre rest,
  (forall e, In e pre -> exists s, string_of e = Some s /\ match_word opt s = false) ->
  get_loop opt want (pre ++ rest) whole = get_loop opt want rest whole.
Proof.
  induction pre as [|e pre IH]; intros rest H; [reflexivity|].
  destruct (H e (or_introl eq_refl)) as (s & Es & M).
  destruct e as [id s'|id]; [|discriminate]. cbn [string_of] in Es. injection Es as ->.
  cbn [app get_loop]. unfold match_word in M. rewrite M.
  apply IH. intros e He. apply H. right. exact He.
Qed.

Lemma loop_hit opt want whole id s cdr :
  match_word opt s = true ->
  get_loop opt want (Str id s :: cdr) whole =
  (if want then
     if at_ s (length opt) =? equals then (Arg (skipn (S (length opt)) s), delq id whole)
     else match cdr with
          | Str id2 s2 :: _ => (Arg s2, delq id2 (delq id whole))
          | _ => (NoArg, delq id whole)
          end
   else (Given, delq id whole)).
Proof. intros M. cbn [get_loop]. unfold match_word in M. rewrite M. reflexivity. Qed.

Lemma loop_miss opt want whole l :
  (forall e, In e l -> exists s, string_of e = Some s /\ match_word opt s = false) ->
  get_loop opt want l whole = (Absent, whole).
Proof.
  intros H. rewrite <- (app_nil_r l). rewrite loop_skip by exact H. reflexivity.
Qed.

Lemma at_equals o v : at_ (o ++ [61] ++ v) (length o) =? equals = true.
Proof. rewrite at_app. reflexivity. Qed.
Lemma at_end o : at_ o (length o) =? equals = false.
Proof. unfold at_. rewrite nth_overflow by lia. reflexivity. Qed.
Lemma skip_value o v : skipn (S (length o)) (o ++ [61] ++ v) = v.
Proof.
  replace (o ++ [61] ++ v) with ((o ++ [61]) ++ v) by (rewrite <- app_assoc; reflexivity).
  replace (S (length o)) with (length (o ++ [61])) by (rewrite app_length; cbn; lia).
  rewrite skipn_app, skipn_all, Nat.sub_diag. reflexivity.
Qed.

(** ** Words of other items *)

Lemma split_equals (a b x y : str) :
  no_equals a -> no_equals b -> a ++ [61] ++ x = b ++ [61] ++ y -> a = b /\ x = y.
Proof.
  revert b. induction a as [|c a IH]; intros [|d b] Ha Hb E; cbn [app] in E.
  - injection E as ->. auto.
  - exfalso. injection E as <- _. apply Hb. left. reflexivity.
  - exfalso. injection E as -> _. apply Ha. left. reflexivity.
  - injection E as <- E. destruct (IH b) as [-> ->]; [| |exact E|auto].
    + intros I. apply Ha. right. exact I.
    + intros I. apply Hb. right. exact I.
Qed.

Lemma head_looks q o : no_equals o -> looks_like q o -> o = q.
Proof.
  intros N [E|(v & E)]; [exact E|]. exfalso. apply N. rewrite E. apply in_or_app. right. left. reflexivity.
Qed.
Lemma eq_looks q o v : no_equals q -> no_equals o -> looks_like q (o ++ [61] ++ v) -> o = q.
Proof.
  intros Nq No [E|(x & E)].
  - exfalso. apply Nq. rewrite <- E. apply in_or_app. right. left. reflexivity.
  - destruct (split_equals _ _ _ _ No Nq E) as [-> _]. reflexivity.
Qed.

Section Clear.
Variables (qs : list (str * bool)) (its : list item).
Hypothesis C : clear_for qs its.

Lemma clear_words q w i s :
  In (q, w) qs -> In i its -> name i <> Some q -> In s (words i) -> ~ looks_like q s.
Proof.
  destruct C as (C1 & C2 & _ & _ & C5 & C6). intros Q I N W L.
  destruct (C1 q w Q) as [Nq _].
  destruct i as [o|o v|o v|x]; cbn [words In name] in *.
  - destruct W as [<-|[]]. apply N. f_equal. apply head_looks; [|exact L].
    exact (C2 _ _ I eq_refl).
  - destruct W as [<-|[]]. apply N. f_equal.
    apply (eq_looks q o v Nq); [|exact L]. exact (C2 _ _ I eq_refl).
  - destruct W as [<-|[<-|[]]].
    + apply N. f_equal. apply head_looks; [|exact L]. exact (C2 _ _ I eq_refl).
    + exact (C5 o v q w I Q L).
  - destruct W as [<-|[]]. exact (C6 x q w I Q L).
Qed.

End Clear.

Lemma in_written s its : In s (written its) <-> exists i, In i its /\ In s (words i).
Proof. unfold written. rewrite in_flat_map. split; intros (i & A & B); exists i; auto. Qed.

Lemma written_app a b : written (a ++ b) = written a ++ written b.
Proof. unfold written. apply flat_map_app. Qed.

(** A smaller set of questions, a smaller line. *)
Lemma clear_tail q qs its : clear_for (q :: qs) its -> clear_for qs its.
Proof.
  intros (C1 & C2 & C3 & C4 & C5 & C6).
  split; [intros a w H; exact (C1 a w (or_intror H))|]. split; [exact C2|]. split; [exact C3|].
  split; [intros i o w A B D; exact (C4 i o w A B (or_intror D))|].
  split; [intros o v a w A B; exact (C5 o v a w A (or_intror B))|].
  intros s a w A B; exact (C6 s a w A (or_intror B)).
Qed.

Lemma clear_remove qs pre i post : clear_for qs (pre ++ i :: post) -> clear_for qs (pre ++ post).
Proof.
  intros (C1 & C2 & C3 & C4 & C5 & C6).
  assert (IN : forall j, In j (pre ++ post) -> In j (pre ++ i :: post)).
  { intros j H. apply in_app_or in H. apply in_or_app. destruct H; [left|right; right]; assumption. }
  split; [exact C1|]. split; [intros j o H; exact (C2 j o (IN j H))|].
  split.
  { intros s H. apply in_written in H. destruct H as (j & H1 & H2).
    apply C3. apply in_written. exists j. auto. }
  split; [intros j o w H; exact (C4 j o w (IN j H))|].
  split; [intros o v q w H; exact (C5 o v q w (IN _ H))|].
  intros s q w H; exact (C6 s q w (IN _ H)).
Qed.

Lemma distinct_remove pre i post : distinct (pre ++ i :: post) -> distinct (pre ++ post).
Proof.
  intros C7.
  intros p x m y r o E Nx Ny.
  assert (G : exists p' m' r', pre ++ i :: post = p' ++ x :: m' ++ y :: r').
  { apply app_eq_app in E. destruct E as (l & [(Ea & Eb)|(Ea & Eb)]).
    - (* pre = p ++ l *)
      destruct l as [|z l].
      + cbn [app] in Eb. subst post. rewrite app_nil_r in Ea. subst p.
        exists (pre ++ [i]), m, r. rewrite <- app_assoc. reflexivity.
      + cbn [app] in Eb. injection Eb as <- Eb.
        apply app_eq_app in Eb. destruct Eb as (k & [(Ec & Ed)|(Ec & Ed)]).
        * (* m = l ++ k , post = k ++ y :: r *)
          subst m post pre. exists p, (l ++ i :: k), r.
          repeat first [rewrite <- app_assoc | progress cbn [app]]. reflexivity.
        * destruct k as [|u k].
          -- cbn [app] in Ed. subst post. rewrite app_nil_r in Ec. subst l pre.
             exists p, (m ++ [i]), r. repeat first [rewrite <- app_assoc | progress cbn [app]]. reflexivity.
          -- cbn [app] in Ed. injection Ed as <- Ed. subst l pre.
             exists p, m, (k ++ i :: post).
             repeat first [rewrite <- app_assoc | progress cbn [app]]. reflexivity.
    - (* p = pre ++ l *)
      subst p post. exists (pre ++ i :: l), m, r. rewrite <- !app_assoc. reflexivity. }
  destruct G as (p' & m' & r' & E'). exact (C7 p' x m' y r' o E' Nx Ny).
Qed.

Lemma unique_around pre i post o : distinct (pre ++ i :: post) -> name i = Some o ->
  forall j, In j (pre ++ post) -> name j <> Some o.
Proof.
  intros C7 N j H M.
  apply in_app_or in H. destruct H as [H|H]; apply in_split in H; destruct H as (a & b & ->).
  - apply (C7 a j b i post o); [|exact M|exact N]. rewrite <- app_assoc. reflexivity.
  - exact (C7 pre i a j b o eq_refl N M).
Qed.

(** ** One question *)

Lemma strings_in l ss e : map string_of l = map Some ss -> In e l ->
  exists s, string_of e = Some s /\ In s ss.
Proof.
  intros E H. apply (in_map string_of) in H. rewrite E in H.
  apply in_map_iff in H. destruct H as (s & <- & I). exists s. auto.
Qed.

Lemma ask_one q w qs its l pre i post :
  clear_for ((q, w) :: qs) its -> its = pre ++ i :: post -> name i = Some q ->
  (forall j, In j pre -> name j <> Some q) ->
  holds l (written its) ->
  exists l', get_option q w l = (reply i, l') /\ holds l' (written (pre ++ post)).
Proof.
  intros C Ei N FR (ND & E).
  pose proof C as (C1 & _ & C3 & C4 & _).
  destruct (C1 q w (or_introl eq_refl)) as [Nq Pq].
  assert (Ii : In i its) by (rewrite Ei; apply in_or_app; right; left; reflexivity).
  pose proof (C4 i q w Ii N (or_introl eq_refl)) as Ew.
  rewrite Ei, written_app, map_app in E.
  apply map_eq_app in E. destruct E as (la & lb & -> & Ea & Eb).
  change (written (i :: post)) with (words i ++ written post) in Eb.
  rewrite map_app in Eb. apply map_eq_app in Eb. destruct Eb as (lc & ld & -> & Ec & Ed).
  assert (SK : forall e, In e la -> exists s, string_of e = Some s /\ match_word q s = false).
  { intros e He. destruct (strings_in _ _ _ Ea He) as (s & Es & Is).
    exists s. split; [exact Es|]. destruct (match_word q s) eqn:M; [|reflexivity]. exfalso.
    apply in_written in Is. destruct Is as (j & Ij & Wj).
    assert (Ij' : In j its) by (rewrite Ei; apply in_or_app; left; exact Ij).
    apply match_looks in M; [|exact Pq|apply C3; apply in_written; exists j; auto].
    refine (clear_words _ _ C q w j s (or_introl eq_refl) Ij' _ Wj M).
    exact (FR j Ij). }
  unfold get_option. rewrite loop_skip by exact SK.
  assert (HP : forall s, In s (words i) -> plain s).
  { intros s Hs. apply C3. apply in_written. exists i. auto. }
  unfold holds.
  destruct i as [o|o v|o v|x]; cbn [name] in N; try discriminate; injection N as ->;
    cbn [words map takes_value reply] in *; subst w.
  - destruct lc as [|e [|]]; try discriminate. cbn [map] in Ec. injection Ec as Ec.
    destruct e as [id s|id]; [|discriminate]. injection Ec as ->.
    cbn [app] in *. rewrite loop_hit.
    2:{ apply match_looks; [exact Pq|exact Pq|left; reflexivity]. }
    eexists. split; [reflexivity|].
    rewrite (delq_str id q la ld ND).
    split; [exact (nodup_mid _ _ _ ND)|]. rewrite written_app, !map_app. congruence.
  - destruct lc as [|e [|]]; try discriminate. cbn [map] in Ec. injection Ec as Ec.
    destruct e as [id s|id]; [|discriminate]. injection Ec as ->.
    cbn [app] in *. rewrite loop_hit.
    2:{ apply match_looks; [exact Pq|apply HP; left; reflexivity|right; exists v; reflexivity]. }
    change (q ++ 61 :: v) with (q ++ [61] ++ v). rewrite at_equals, skip_value.
    eexists. split; [reflexivity|].
    change (q ++ 61 :: v) with (q ++ [61] ++ v) in ND.
    rewrite (delq_str id (q ++ [61] ++ v) la ld ND).
    split; [exact (nodup_mid _ _ _ ND)|]. rewrite written_app, !map_app. congruence.
  - destruct lc as [|e [|e2 [|]]]; try discriminate. cbn [map] in Ec. injection Ec as Ec Ec2.
    destruct e as [id s|id]; [|discriminate]. injection Ec as ->.
    destruct e2 as [id2 s2|id2]; [|discriminate]. injection Ec2 as ->.
    cbn [app] in *. rewrite loop_hit.
    2:{ apply match_looks; [exact Pq|exact Pq|left; reflexivity]. }
    rewrite at_end. eexists. split; [reflexivity|].
    rewrite (delq_str id q la (Str id2 v :: ld) ND).
    pose proof (nodup_mid _ _ _ ND) as ND2.
    rewrite (delq_str id2 v la ld ND2).
    split; [exact (nodup_mid _ _ _ ND2)|]. rewrite written_app, !map_app. congruence.
Qed.

Lemma ask_none q w qs its l :
  clear_for ((q, w) :: qs) its -> (forall i, In i its -> name i <> Some q) ->
  holds l (written its) -> get_option q w l = (Absent, l).
Proof.
  intros C N (ND & E). pose proof C as (C1 & _ & C3 & _).
  destruct (C1 q w (or_introl eq_refl)) as [_ Pq].
  apply loop_miss. intros e He. destruct (strings_in _ _ _ E He) as (s & Es & Is).
  exists s. split; [exact Es|]. destruct (match_word q s) eqn:M; [|reflexivity]. exfalso.
  apply match_looks in M; [|exact Pq|apply C3; exact Is].
  apply in_written in Is. destruct Is as (j & Ij & Wj).
  exact (clear_words _ _ C q w j s (or_introl eq_refl) Ij (N j Ij) Wj M).
Qed.

(** ** All questions *)

Lemma name_dec its q :
  (exists pre i post, its = pre ++ i :: post /\ name i = Some q) \/
  (forall i, In i its -> name i <> Some q).
Proof.
  induction its as [|i its IH]; [right; intros i []|].
  destruct (list_eq_dec Z.eq_dec (match name i with Some o => o | None => [] end) q) as [E|E].
  - destruct (name i) as [o|] eqn:N.
    + left. exists [], i, its. split; [reflexivity|]. subst. exact N.
    + destruct IH as [(pre & j & post & -> & Nj)|IH].
      * left. exists (i :: pre), j, post. auto.
      * right. intros j [<-|H]; [rewrite N; discriminate|exact (IH j H)].
  - destruct IH as [(pre & j & post & -> & Nj)|IH].
    + left. exists (i :: pre), j, post. auto.
    + right. intros j [<-|H]; [|exact (IH j H)]. intros N. rewrite N in E. congruence.
Qed.

Lemma left_insert q w qs i : name i = Some q -> forall pre post rest,
  (forall j, In j (pre ++ post) -> name j <> Some q) ->
  left_over qs (pre ++ post) rest -> left_over ((q, w) :: qs) (pre ++ i :: post) rest.
Proof.
  intros N. induction pre as [|j pre IH]; intros post rest U L.
  - cbn [app] in *. eapply left_taken; [exact N|left; reflexivity|].
    revert U. induction L as [|x o w' its rest Nx Q L IHL|x its rest Nx L IHL]; intros U.
    + constructor.
    + eapply left_taken; [exact Nx|right; exact Q|]. apply IHL. intros j Hj. apply U. right. exact Hj.
    + apply left_kept.
      * intros o w' No [E|H]; [|exact (Nx o w' No H)]. injection E as <- <-.
        exact (U x (or_introl eq_refl) No).
      * apply IHL. intros j Hj. apply U. right. exact Hj.
  - cbn [app] in *. inversion L as [|x o w' its rest' Nx Q L'|x its rest' Nx L']; subst.
    + eapply left_taken; [exact Nx|right; exact Q|]. apply IH; [|exact L'].
      intros k Hk. apply U. right. exact Hk.
    + apply left_kept.
      * intros o w' No [E|H]; [|exact (Nx o w' No H)]. injection E as <- <-.
        exact (U j (or_introl eq_refl) No).
      * apply IH; [|exact L']. intros k Hk. apply U. right. exact Hk.
Qed.

Lemma left_more q w qs its rest : (forall j, In j its -> name j <> Some q) ->
  left_over qs its rest -> left_over ((q, w) :: qs) its rest.
Proof.
  intros U L. revert U. induction L as [|x o w' its rest Nx Q L IHL|x its rest Nx L IHL]; intros U.
  - constructor.
  - eapply left_taken; [exact Nx|right; exact Q|]. apply IHL. intros j Hj. apply U. right. exact Hj.
  - apply left_kept.
    + intros o w' No [E|H]; [|exact (Nx o w' No H)]. injection E as <- <-.
      exact (U x (or_introl eq_refl) No).
    + apply IHL. intros j Hj. apply U. right. exact Hj.
Qed.

Lemma right_insert pre i post q o a : name i = Some q -> o <> q ->
  right_answer (pre ++ post) o a -> right_answer (pre ++ i :: post) o a.
Proof.
  intros N D [(j & Ij & Nj & ->)|(H & ->)].
  - left. exists j. split; [|auto]. apply in_app_or in Ij. apply in_or_app.
    destruct Ij; [left|right; right]; assumption.
  - right. split; [|reflexivity]. intros j Ij. apply in_app_or in Ij.
    destruct Ij as [Ij|[<-|Ij]].
    + apply H. apply in_or_app. left. exact Ij.
    + rewrite N. congruence.
    + apply H. apply in_or_app. right. exact Ij.
Qed.

Lemma ask_all : forall qs its l,
  clear_for qs its -> distinct its -> NoDup (map fst qs) -> holds l (written its) ->
  exists rest, left_over qs its rest /\ holds (snd (ask qs l)) (written rest) /\
    Forall2 (fun q a => right_answer its (fst q) a) qs (fst (ask qs l)).
Proof.
  induction qs as [|(q, w) qs IH]; intros its l C D ND H.
  - exists its. cbn [ask fst snd]. split; [|split; [exact H|constructor]].
    clear. induction its as [|i its IHi]; [constructor|]. apply left_kept; [intros o w _ []|exact IHi].
  - cbn [map fst] in ND. inversion ND as [|x y NI ND']; subst.
    assert (DIFF : forall q' , In q' qs -> fst q' <> q).
    { intros q' I E. apply NI. rewrite <- E. apply in_map. exact I. }
    cbn [ask]. destruct (name_dec its q) as [(pre & i & post & Ei & N)|N].
    + rewrite Ei in D. pose proof (unique_around _ _ _ _ D N) as UN.
      assert (FR : forall j, In j pre -> name j <> Some q).
      { intros j Hj. apply UN. apply in_or_app. left. exact Hj. }
      destruct (ask_one q w qs its l pre i post C Ei N FR H) as (l' & G & H'). rewrite G.
      pose proof (clear_tail _ _ _ C) as C'. rewrite Ei in C'.
      pose proof (clear_remove _ _ _ _ C') as C2.
      destruct (IH (pre ++ post) l' C2 (distinct_remove _ _ _ D) ND' H') as (rest & L & HR & F).
      destruct (ask qs l') as [as_ l2]. cbn [fst snd] in *.
      rewrite Ei in C.
      exists rest. split; [|split; [exact HR|]].
      * rewrite Ei. apply (left_insert q w qs i N); [|exact L].
        exact UN.
      * constructor.
        -- cbn [fst]. left. exists i. rewrite Ei. split; [apply in_or_app; right; left; reflexivity|auto].
        -- rewrite Ei. revert F DIFF. clear -N. induction 1 as [|q' a qs' as' R F IHF]; intros D; constructor.
           ++ apply (right_insert pre i post q); [exact N|apply D; left; reflexivity|exact R].
           ++ apply IHF. intros x Hx. apply D. right. exact Hx.
    + rewrite (ask_none q w qs its l C N H).
      destruct (IH its l (clear_tail _ _ _ C) D ND' H) as (rest & L & HR & F).
      destruct (ask qs l) as [as_ l2]. cbn [fst snd] in *.
      exists rest. split; [exact (left_more _ _ _ _ _ N L)|]. split; [exact HR|].
      constructor; [|exact F]. cbn [fst]. right. auto.
Qed.

(** ** Uniqueness of the specification *)

Lemma right_unique its o a b : distinct its ->
  right_answer its o a -> right_answer its o b -> a = b.
Proof.
  intros C7 [(i & Ii & Ni & ->)|(H & ->)] [(j & Ij & Nj & ->)|(H' & ->)].
  - apply in_split in Ii. destruct Ii as (p & r & ->).
    apply in_app_or in Ij. destruct Ij as [Ij|[<-|Ij]].
    + apply in_split in Ij. destruct Ij as (p1 & r1 & ->). exfalso.
      apply (C7 p1 j r1 i r o); [rewrite <- app_assoc; reflexivity|exact Nj|exact Ni].
    + reflexivity.
    + apply in_split in Ij. destruct Ij as (p1 & r1 & ->). exfalso.
      exact (C7 p i p1 j r1 o eq_refl Ni Nj).
  - exfalso. exact (H' i Ii Ni).
  - exfalso. exact (H j Ij Nj).
  - reflexivity.
Qed.

Lemma left_unique qs qs' its : (forall q, In q qs <-> In q qs') -> forall r r',
  left_over qs its r -> left_over qs' its r' -> r = r'.
Proof.
  intros P r r' L. revert r'. induction L as [|x o w its rest Nx Q L IHL|x its rest Nx L IHL];
    intros r' L'; inversion L' as [|y o' w' its' rest' Ny Q' L2|y its' rest' Ny L2]; subst.
  - reflexivity.
  - apply IHL. exact L2.
  - exfalso. apply (Ny o w Nx). apply P. exact Q.
  - exfalso. apply (Nx o' w' Ny). apply P. exact Q'.
  - f_equal. apply IHL. exact L2.
Qed.

(** ** The same question again *)

Lemma first_named q its :
  (exists pre i post, its = pre ++ i :: post /\ named q i = true /\
     (forall j, In j pre -> named q j = false)) \/
  (forall j, In j its -> named q j = false).
Proof.
  induction its as [|i its IH]; [right; intros j []|].
  destruct (named q i) eqn:N.
  - left. exists [], i, its. split; [reflexivity|]. split; [exact N|intros j []].
  - destruct IH as [(pre & x & post & -> & Nx & F)|F].
    + left. exists (i :: pre), x, post. split; [reflexivity|]. split; [exact Nx|].
      intros j [<-|H]; [exact N|exact (F j H)].
    + right. intros j [<-|H]; [exact N|exact (F j H)].
Qed.

Lemma named_name q i : named q i = true <-> name i = Some q.
Proof.
  unfold named. destruct (name i) as [n|]; [|split; discriminate].
  destruct (list_eq_dec Z.eq_dec n q); split; intros H; congruence.
Qed.
Lemma named_not q i : named q i = false <-> name i <> Some q.
Proof.
  rewrite <- named_name. destruct (named q i); split; intros H; congruence.
Qed.

Lemma filter_none {A} (f : A -> bool) l : (forall x, In x l -> f x = false) -> filter f l = [].
Proof.
  induction l as [|x l IH]; intros H; [reflexivity|]. cbn [filter].
  rewrite (H x (or_introl eq_refl)). apply IH. intros y Hy. apply H. right. exact Hy.
Qed.

Lemma clear_twice q w its : clear_for [(q, w)] its -> clear_for [(q, w); (q, w)] its.
Proof.
  intros (C1 & C2 & C3 & C4 & C5 & C6).
  assert (R : forall a b, In (a, b) [(q, w); (q, w)] -> In (a, b) [(q, w)]).
  { intros a b [H|[H|[]]]; left; exact H. }
  split; [intros a b H; exact (C1 a b (R a b H))|]. split; [exact C2|]. split; [exact C3|].
  split; [intros i o b A B D; exact (C4 i o b A B (R _ _ D))|].
  split; [intros o v a b A B; exact (C5 o v a b A (R _ _ B))|].
  intros s a b A B; exact (C6 s a b A (R _ _ B)).
Qed.

Lemma firstn_pad (r : list answer) : forall n m, (n <= m)%nat ->
  firstn n (r ++ repeat Absent n) = firstn n (r ++ repeat Absent m).
Proof.
  assert (G : forall n m k, (n <= m)%nat -> (n <= k)%nat ->
    firstn n (r ++ repeat Absent m) = firstn n (r ++ repeat Absent k)).
  { induction r as [|x r' IH]; intros n m k Hm Hk.
    - cbn [app]. revert m k Hm Hk. induction n as [|n IHn]; intros [|m] [|k] Hm Hk; try lia; try reflexivity.
      cbn [repeat firstn]. f_equal. apply IHn; lia.
    - destruct n as [|n]; [reflexivity|]. cbn [app firstn]. f_equal. apply IH; lia. }
  intros n m H. apply G; lia.
Qed.

Lemma ask_again q w : forall n its l,
  clear_for [(q, w)] its -> holds l (written its) ->
  fst (ask (repeat (q, w) n) l) =
    firstn n (map reply (filter (named q) its) ++ repeat Absent n) /\
  ((length (filter (named q) its) <= n)%nat ->
   holds (snd (ask (repeat (q, w) n) l)) (written (filter (others q) its))).
Proof.
  induction n as [|n IH]; intros its l C H.
  - cbn [repeat ask fst snd firstn]. split; [reflexivity|]. intros L.
    assert (F : filter (others q) its = its).
    { assert (E : filter (named q) its = []) by (destruct (filter (named q) its); [reflexivity|cbn in L; lia]).
      clear -E. induction its as [|i its IH]; [reflexivity|]. cbn [filter] in *. unfold others at 1.
      destruct (named q i); [discriminate|]. cbn [negb]. rewrite IH by exact E. reflexivity. }
    rewrite F. exact H.
  - cbn [repeat ask]. destruct (first_named q its) as [(pre & i & post & Ei & N & FR)|FR].
    + assert (Ni := proj1 (named_name q i) N).
      destruct (ask_one q w [] its l pre i post C Ei Ni
        (fun j Hj => proj1 (named_not q j) (FR j Hj)) H) as (l' & G & H'). rewrite G.
      rewrite Ei in C. destruct (IH (pre ++ post) l' (clear_remove _ _ _ _ C) H') as [A B].
      destruct (ask (repeat (q, w) n) l') as [as_ l2]. cbn [fst snd] in *.
      rewrite Ei, !filter_app. cbn [filter].
      assert (NO : others q i = false) by (unfold others; rewrite N; reflexivity).
      rewrite N, NO.
      rewrite !filter_app in A, B. rewrite (filter_none _ pre FR) in *. cbn [app map] in *.
      split.
      * cbn [firstn app]. rewrite A. f_equal.
        apply (firstn_pad (map reply (filter (named q) post)) n (S n)). lia.
      * intros L. cbn [length] in L. rewrite (filter_app (others q)) in B. apply B. lia.
    + assert (FN : forall j, In j its -> name j <> Some q)
        by (intros j Hj; apply named_not; exact (FR j Hj)).
      rewrite (ask_none q w [] its l C FN H).
      destruct (IH its l C H) as [A B].
      destruct (ask (repeat (q, w) n) l) as [as_ l2]. cbn [fst snd] in *.
      rewrite (filter_none _ its FR) in *. cbn [map app firstn length repeat] in *.
      split; [rewrite A; reflexivity|]. intros _. apply B. lia.
Qed.

(** ** Numbering *)

Lemma number_ids l : forall n, map elt_id (number n l) = seq n (length l).
Proof.
  induction l as [|s l IH]; intros n; [reflexivity|]. cbn [number map length seq elt_id]. rewrite IH. reflexivity.
Qed.
Lemma number_strings l : forall n, map string_of (number n l) = map Some l.
Proof.
  induction l as [|s l IH]; intros n; [reflexivity|]. cbn [number map string_of]. rewrite IH. reflexivity.
Qed.
Lemma number_holds l : holds (number 0 l) l.
Proof. split; [rewrite number_ids; apply seq_NoDup|apply number_strings]. Qed.

Lemma holds_strings l ss : holds l ss -> strings l = ss.
Proof.
  intros [_ E]. revert ss E. induction l as [|e l IH]; intros [|s ss] E; try discriminate; [reflexivity|].
  cbn [map] in E. injection E as E1 E2. destruct e as [id x|id]; [|discriminate].
  injection E1 as ->. cbn [strings]. rewrite (IH ss E2). reflexivity.
Qed.

(** ** Actions *)

Lemma seqb_eq a : forall b, seqb a b = true <-> a = b.
Proof.
  induction a as [|x a IH]; intros [|y b]; cbn [seqb]; split; intros H; try discriminate; try reflexivity.
  - apply andb_prop in H. destruct H as [H1 H2]. apply Z.eqb_eq in H1. apply IH in H2. congruence.
  - injection H as -> ->. rewrite Z.eqb_refl. apply IH. reflexivity.
Qed.
Lemma seqb_ne a b : a <> b -> seqb a b = false.
Proof. intros N. destruct (seqb a b) eqn:E; [|reflexivity]. apply seqb_eq in E. contradiction. Qed.

Lemma next_act a tail : act_ok a -> exists arg rest,
  act_words a ++ tail = arg :: rest /\ next_action arg rest = Some (act_action a, tail).
Proof.
  destruct a as [[] f|[] f|f]; intros H; cbn [act_words app act_action].
  1-4: eexists _, _; split; [reflexivity|]; vm_compute; reflexivity.
  exists f, tail. split; [reflexivity|]. cbn [act_ok] in H. unfold next_action.
  unfold option_words in H. cbn [In] in H.
  rewrite !seqb_ne by (intros E; subst f; apply H; tauto). reflexivity.
Qed.

Lemma parse_det world args tr o : parse world args tr o -> forall tr' o',
  parse world args tr' o' -> tr' = tr /\ o' = o.
Proof.
  induction 1 as [|arg rest E|arg rest a r E L|arg rest a r E L W|arg rest a r r' tr o E L W P IH];
    intros tr' o' Q; inversion Q; subst; try congruence; try (split; congruence).
  rewrite E in *.
  match goal with H : Some _ = Some _ |- _ => injection H as <- <- end.
  match goal with H : world _ _ = Some ?x |- _ => rewrite W in H; injection H as <- end.
  match goal with H : parse world _ _ _ |- _ => destruct (IH _ _ H) as [-> ->] end. auto.
Qed.

Lemma parse_acts world tail tr o : 
  (forall a r, leaves a = false -> world a r = Some r) ->
  parse world tail tr o -> forall acts, Forall act_ok acts ->
  parse world (flat_map act_words acts ++ tail) (course acts tail ++ tr) o.
Proof.
  intros W P acts F. induction F as [|a acts A F IH]; [exact P|].
  cbn [flat_map course app]. rewrite <- app_assoc.
  destruct (next_act a (flat_map act_words acts ++ tail) A) as (arg & rest & E & N). rewrite E.
  assert (L : leaves (act_action a) = false) by (destruct a as [[]|[]|]; reflexivity).
  eapply parse_step; [exact N|exact L|apply W; exact L|exact IH].
Qed.
