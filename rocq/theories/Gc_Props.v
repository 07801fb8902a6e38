(** Properties C33 and C34. *)

From Coq Require Import ZArith List Bool Arith Lia.
Import ListNotations.
From Verif Require Import Gc_Model Gc_Spec Gc_Mark Gc_Guardians Gc_Sweep Gc_Proofs Gc_Collect
  Gc_After.

(** ** C33: collecting garbage keeps everything reachable.

    Missing from the full statement in each theorem: closures whose
    function is a fixnum, guarded fixnums (both excluded by
    [well_formed]) and guardians that hold objects to hand out when only
    a dying object leads to them ([no_lost_guardian]).  The refutations
    below show that each is needed. *)

Theorem C33_reachable_kept_partial :
  forall roots ds s fuel,
  well_formed roots ds s -> no_lost_guardian roots ds s ->
  length (conses s ++ others s ++ guardians s) < fuel ->
  exists s', collect fuel roots s = Done s' /\
    forall p o, reach (cell s) roots p -> cell s p = Some o ->
      match o with
      | OWeak _ | OGuardian _ _ => True
      | _ => cell s' p = Some o
      end /\
      exists fl, free_at (cell s') (freelist s') fl /\ ~ In p fl.
Proof.
  intros roots ds s fuel W N F.
  destruct (collect_ok roots ds s W N fuel F) as (s' & live & kept & E & LV & KP & CO).
  exists s'. split; [exact E|]. intros p o R O.
  assert (P : protected roots ds s live p) by now apply roots_protected.
  split.
  - assert (S : o = OStatic \/ o <> OStatic) by (destruct o; auto; right; discriminate).
    destruct S as [->|S]; [now apply (co_static _ _ _ _ _ CO)|].
    assert (K : kept p = true) by (apply KP; split; auto; exists o; auto).
    assert (X : (forall v, o <> OWeak v) -> (forall a i, o <> OGuardian a i) ->
                cell s' p = Some o).
    { intros N1 N2. apply (co_same _ _ _ _ _ CO); auto.
      - eapply protected_private; eauto.
      - intros G. destruct (guardian_kind roots ds s W p G) as (a & i & Y).
        rewrite O in Y. injection Y as ->. now apply (N2 a i). }
    destruct o; auto; apply X; discriminate.
  - eexists. split; [apply (co_free _ _ _ _ _ CO)|]. intros I. apply in_rev, filter_In in I.
    destruct I as [I K]. apply negb_true_iff in K.
    assert (kept p = true); [|congruence]. apply KP. split; auto.
    destruct (wf_conses _ _ _ W p I) as (a & d & X). eexists. split; [exact X|discriminate].
Qed.
Print Assumptions C33_reachable_kept_partial.

Theorem C33_garbage_reclaimed_partial :
  forall roots ds s fuel,
  well_formed roots ds s -> no_lost_guardian roots ds s ->
  length (conses s ++ others s ++ guardians s) < fuel ->
  exists s' live fl, collect fuel roots s = Done s' /\ decides roots s live /\
    free_at (cell s') (freelist s') fl /\ NoDup fl /\
    forall p o, cell s p = Some o -> o <> OStatic ->
      ~ reach (cell s) (roots ++ saved live ds) p -> ~ In p (all_cells ds) ->
      match o with
      | OCons _ _ => In p fl
      | _ => cell s' p = None
      end.
Proof.
  intros roots ds s fuel W N F.
  destruct (collect_ok roots ds s W N fuel F) as (s' & live & kept & E & LV & KP & CO).
  exists s', live. eexists. split; [exact E|]. split; [exact LV|].
  split; [apply (co_free _ _ _ _ _ CO)|]. split.
  { apply NoDup_rev, NoDup_filter. pose proof (wf_nodup _ _ _ W) as ND.
    now apply nodup_app_l in ND. }
  intros p o O S NP NO.
  assert (K : kept p = false).
  { destruct (kept p) eqn:K; auto. apply KP in K. destruct K as [_ [K|K]]; tauto. }
  destruct (wf_all _ _ _ W p o O) as [|I]; [tauto|]. rewrite !in_app_iff in I.
  assert (X : In p (others s ++ guardians s) -> cell s' p = None)
    by (intros; now apply (co_dead _ _ _ _ _ CO)).
  destruct I as [I|I].
  - destruct (wf_conses _ _ _ W p I) as (a & d & Y). rewrite O in Y. injection Y as ->.
    apply -> in_rev. apply filter_In. rewrite K. auto.
  - assert (Z : cell s' p = None) by (apply X, in_or_app; tauto).
    destruct o; auto. exfalso.
    pose proof (in_conses roots ds s W p _ _ O) as IC.
    destruct (co_cons _ _ _ _ _ CO p IC) as (? & ? & Y). congruence.
Qed.
Print Assumptions C33_garbage_reclaimed_partial.

(** The state afterwards is well formed: in particular all that can be
    reached from the roots exists, and the next collection starts from a
    state like this one. *)
Theorem C33_collect_again_partial :
  forall roots ds s fuel,
  well_formed roots ds s -> no_lost_guardian roots ds s ->
  length (conses s ++ others s ++ guardians s) < fuel ->
  exists s' ds', collect fuel roots s = Done s' /\ well_formed roots ds' s' /\
    (forall p, reach (cell s') roots p -> cell s' p <> None) /\
    (forall d', In d' ds' -> exists d, In d ds /\ g_loc d = g_loc d') /\
    (forall d, In d ds -> reach (cell s) roots (g_loc d) ->
       exists d', In d' ds' /\ g_loc d' = g_loc d).
Proof.
  intros roots ds s fuel W N F.
  destruct (collect_ok roots ds s W N fuel F) as (s' & live & kept & E & LV & KP & CO).
  exists s', (guards_after live kept ds). split; [exact E|].
  assert (W' : well_formed roots (guards_after live kept ds) s').
  { eapply well_formed_after; eauto. }
  split; [exact W'|]. split; [|split].
  - intros p R. destruct (wf_reach _ _ _ W' p) as (o & O & _); [|congruence].
    eapply reach_mono; [|exact R]. intros v I. apply in_or_app. auto.
  - intros d' I. apply in_guards in I. destruct I as (d & I & _ & ->). exists d. auto.
  - intros d I R. exists (after_collect live d). split; auto. apply in_guards. exists d.
    split; auto. split; auto. apply KP. split; [|left; now apply roots_protected].
    destruct (wf_describes _ _ _ W d I) as (a & i & X & _). eexists. split; [exact X|discriminate].
Qed.
Print Assumptions C33_collect_again_partial.

(** The free list has exactly the cells that are not kept, each once, and
    the count of used conses is that of the others. *)
Theorem C33_free_list_partial :
  forall roots ds s fuel,
  well_formed roots ds s -> no_lost_guardian roots ds s ->
  length (conses s ++ others s ++ guardians s) < fuel ->
  exists s' live fl, collect fuel roots s = Done s' /\ decides roots s live /\
    free_at (cell s') (freelist s') fl /\ NoDup fl /\
    (forall p, In p fl <->
       In p (conses s) /\ ~ (reach (cell s) (roots ++ saved live ds) p \/ In p (all_cells ds))) /\
    used_cons s' + length fl = length (conses s).
Proof.
  intros roots ds s fuel W N F.
  destruct (collect_ok roots ds s W N fuel F) as (s' & live & kept & E & LV & KP & CO).
  exists s', live. eexists. split; [exact E|]. split; [exact LV|].
  split; [apply (co_free _ _ _ _ _ CO)|]. split; [|split].
  - apply NoDup_rev, NoDup_filter. pose proof (wf_nodup _ _ _ W) as ND.
    now apply nodup_app_l in ND.
  - intros p. rewrite in_filter_rev. split; intros [I K]; split; auto.
    + apply negb_true_iff in K. intros P. assert (kept p = true); [|congruence]. apply KP.
      split; auto. destruct (wf_conses _ _ _ W p I) as (a & d & X).
      eexists. split; [exact X|discriminate].
    + destruct (kept p) eqn:Kp; auto. exfalso. apply K. now apply KP.
  - rewrite (co_used _ _ _ _ _ CO), rev_length.
    clear. induction (conses s) as [|p l IH]; simpl; auto.
    destruct (kept p); simpl; lia.
Qed.
Print Assumptions C33_free_list_partial.

(** The next cell that cons hands out was not in use. *)
Theorem C33_cons_fresh_partial :
  forall roots ds s fuel a d,
  well_formed roots ds s -> no_lost_guardian roots ds s ->
  length (conses s ++ others s ++ guardians s) < fuel ->
  exists s', collect fuel roots s = Done s' /\
    forall v s'', cons a d s' = Done (v, s'') ->
      exists p, v = VPtr p /\ ~ reach (cell s') roots p /\
        cell s'' p = Some (OCons a d) /\ (forall q, q <> p -> cell s'' q = cell s' q).
Proof.
  intros roots ds s fuel a d W N F.
  destruct (collect_ok roots ds s W N fuel F) as (s' & live & kept & E & LV & KP & CO).
  exists s'. split; [exact E|]. intros v s'' C. unfold cons in C.
  destruct (freelist s') as [|z|p] eqn:Fr; try discriminate.
  destruct (cell s' p) as [[x e| | | | | | | | |]|] eqn:Cp; try discriminate.
  injection C as <- <-. exists p. split; auto. simpl. split; [|split].
  - intros R. pose proof (co_free _ _ _ _ _ CO) as Fl. rewrite Fr in Fl.
    inversion Fl as [|k y e' ks Ck Fk Ek Eks]; subst.
    assert (I : In p (rev (filter (fun p => negb (kept p)) (conses s)))).
    { rewrite <- Eks. now left. }
    apply in_filter_rev in I. destruct I as [I K]. apply negb_true_iff in K.
    assert (R' : protected roots ds s live p \/ moved_kept ds live kept p).
    { eapply reach_after; eauto. eapply reach_mono; [|exact R].
      intros w J. apply in_or_app. auto. }
    assert (kept p = true); [|congruence]. apply KP. split.
    + destruct (wf_conses _ _ _ W p I) as (a0 & d0 & X). eexists. split; [exact X|discriminate].
    + destruct R' as [R'|(d0 & I0 & _ & J)]; auto. right. apply pick_in in J.
      eapply cell_guard; eauto.
  - apply put_same.
  - intros q Q. now apply put_other.
Qed.
Print Assumptions C33_cons_fresh_partial.

(** Until the free list is used up cons hands out its cells in turn, each
    once, and writes no other. *)
Theorem C33_conses_distinct_partial :
  forall s fl l, free_at (cell s) (freelist s) fl -> NoDup fl -> length l <= length fl ->
  exists ps s', cons_calls l s ps s' /\ NoDup ps /\ incl ps fl /\ length ps = length l /\
    (forall k a d p, nth_error l k = Some (a, d) -> nth_error ps k = Some p -> cell s' p = Some (OCons a d)) /\
    (forall q, ~ In q ps -> cell s' q = cell s q) /\
    free_at (cell s') (freelist s') (skipn (length l) fl) /\
    used_cons s' = used_cons s + length l.
Proof.
  intros s fl l. revert s fl. induction l as [|[a d] l IH]; intros s fl Fr ND L.
  - exists [], s. cbn [length skipn]. rewrite Nat.add_0_r.
    split; [constructor|]. split; [constructor|]. split; [intros x []|]. split; [reflexivity|].
    split; [intros [|k]; discriminate|]. auto.
  - destruct fl as [|p fl]; [cbn in L; lia|]. remember (freelist s) as fr eqn:Ef. inversion Fr as [|k x e ks Ck Fk Ek Eks]; subst.
    inversion ND as [|? ? NI ND']; subst.
    set (s1 := mkState (put (cell s) p (Some (OCons a d))) (mark s) (conses s) e
                 (S (used_cons s)) (others s) (guardians s) (weak_refs s)).
    assert (C : cons a d s = Done (VPtr p, s1)) by (unfold cons; match goal with H : _ = freelist s |- _ => rewrite <- H end; rewrite Ck; reflexivity).
    assert (Fr1 : free_at (cell s1) (freelist s1) fl).
    { cbn. clear -Fk NI. induction Fk as [|k x d' ks Ck Fk IH]; [constructor|].
      econstructor; [|apply IH; intros I; apply NI; now right].
      rewrite put_other; [exact Ck|]. intros ->. apply NI. now left. }
    destruct (IH s1 fl Fr1 ND' ltac:(cbn in L; lia)) as (ps & s' & K1 & K2 & K3 & K4 & K5 & K6 & K7 & K8).
    exists (p :: ps), s'. split; [econstructor; eauto|]. split; [|split; [|split; [|split; [|split; [|split]]]]].
    + constructor; auto.
    + intros q [<-|I]; [now left|right; auto].
    + cbn. now rewrite K4.
    + intros [|k] a' d' q E1 E2.
      * cbn in E1, E2. injection E1 as <- <-. injection E2 as <-. rewrite K6 by auto. apply put_same.
      * eapply K5; eauto.
    + intros q Q. rewrite K6 by (intros I; apply Q; now right). apply put_other. intros ->. apply Q. now left.
    + exact K7.
    + rewrite K8. cbn. lia.
Qed.
Print Assumptions C33_conses_distinct_partial.

(** ** C34: weak references. *)
Theorem C34_weak_ref_partial :
  forall roots ds s fuel,
  well_formed roots ds s -> no_lost_guardian roots ds s ->
  length (conses s ++ others s ++ guardians s) < fuel ->
  exists s' live, collect fuel roots s = Done s' /\ decides roots s live /\
    (forall w n, reach (cell s) roots w -> cell s w = Some (OWeak (VInt n)) ->
       cell s' w = Some (OWeak (VInt n))) /\
    (forall w q, reach (cell s) roots w -> cell s w = Some (OWeak (VPtr q)) ->
       collectable (cell s) q ->
       (reach (cell s) (roots ++ saved live ds) q -> cell s' w = Some (OWeak (VPtr q))) /\
       (~ reach (cell s) (roots ++ saved live ds) q -> cell s' w = Some (OWeak Qnil))).
Proof.
  intros roots ds s fuel W N F.
  destruct (collect_ok roots ds s W N fuel F) as (s' & live & kept & E & LV & KP & CO).
  exists s', live. split; [exact E|]. split; [exact LV|].
  assert (K : forall w v, reach (cell s) roots w -> cell s w = Some (OWeak v) ->
                cell s' w = Some (OWeak (cleared kept v))).
  { intros w v R C. apply (co_weak _ _ _ _ _ CO); auto. apply KP. split.
    - eexists. split; [exact C|discriminate].
    - left. now apply roots_protected. }
  split.
  - intros w n R C. now apply (K w (VInt n)).
  - intros w q R C Cq. rewrite (K w (VPtr q) R C). simpl.
    destruct (wf_referent _ _ _ W w _ C) as [_ NO].
    destruct (kept q) eqn:Kq.
    + split; auto. intros NR. apply KP in Kq. tauto.
    + split; auto. intros RR. assert (kept q = true); [|congruence]. apply KP. auto.
Qed.
Print Assumptions C34_weak_ref_partial.

(** When there are no guardians the condition is reachability from the
    roots. *)
Theorem C34_weak_ref_no_guardians_partial :
  forall roots s fuel,
  well_formed roots [] s ->
  length (conses s ++ others s ++ guardians s) < fuel ->
  exists s', collect fuel roots s = Done s' /\
    forall w q, reach (cell s) roots w -> cell s w = Some (OWeak (VPtr q)) ->
       collectable (cell s) q ->
       (reach (cell s) roots q -> cell s' w = Some (OWeak (VPtr q))) /\
       (~ reach (cell s) roots q -> cell s' w = Some (OWeak Qnil)).
Proof.
  intros roots s fuel W F.
  destruct (C34_weak_ref_partial roots [] s fuel W) as (s' & live & E & _ & _ & K); auto.
  { intros d []. }
  exists s'. split; [exact E|]. intros w q R C Cq.
  specialize (K w q R C Cq). simpl in K. rewrite app_nil_r in K. exact K.
Qed.
Print Assumptions C34_weak_ref_no_guardians_partial.

(** ** C34: guardians. *)

(** A collection moves the guarded objects that the roots do not reach,
    and no other, to what the guardian hands out. *)
Theorem C34_guardian_collect_partial :
  forall roots ds s fuel,
  well_formed roots ds s -> no_lost_guardian roots ds s ->
  length (conses s ++ others s ++ guardians s) < fuel ->
  (forall q, In (VPtr q) (all_guarded ds) -> collectable (cell s) q) ->
  exists s' live, collect fuel roots s = Done s' /\
    (forall q, In (VPtr q) (all_guarded ds) -> live q = true <-> reach (cell s) roots q) /\
    forall d, In d ds -> reach (cell s) roots (g_loc d) ->
      describes (cell s') (after_collect live d).
Proof.
  intros roots ds s fuel W N F C.
  destruct (collect_ok roots ds s W N fuel F) as (s' & live & kept & E & LV & KP & CO).
  exists s', live. split; [exact E|]. split.
  - intros q I. rewrite (LV q). split; [tauto|]. intros R. split; auto.
  - intros d I R. apply (co_describes _ _ _ _ _ CO); auto. apply KP. split.
    + destruct (wf_describes _ _ _ W d I) as (a & i & X & _).
      eexists. split; [exact X|discriminate].
    + left. now apply roots_protected.
Qed.
Print Assumptions C34_guardian_collect_partial.

(** Adding an object, and asking for one.  The hypotheses say that the
    cell that cons takes is not in use in the lists of the guardian. *)
Theorem C34_guardian_push :
  forall g x s s' d p,
  describes (cell s) d -> g_loc d = g -> freelist s = VPtr p -> p <> nil_loc ->
  ~ In p (g_cells d ++ p_cells d) -> guardian_push g x s = Done s' ->
  describes (cell s') (mkGuard g (p :: g_cells d) (x :: guarded d) (p_cells d) (pending d)).
Proof.
  intros g x s s' d p (a & i & G & La & Li) <- Fr Np NI P. unfold guardian_push in P.
  rewrite G in P. unfold cons in P. rewrite Fr in P.
  destruct (cell s p) as [[y e| | | | | | | | |]|] eqn:Cp; try discriminate.
  simpl in P. injection P as <-. simpl.
  assert (NG : p <> g_loc d) by (intros ->; congruence).
  assert (Fr' : forall k, In k (g_cells d ++ p_cells d) ->
     put (put (cell s) p (Some (OCons x a))) (g_loc d) (Some (OGuardian (VPtr p) i)) k = cell s k).
  { intros k I. rewrite !put_other; auto.
    - intros ->. auto.
    - intros ->. apply in_app_or in I. destruct I as [I|I].
      + destruct (list_at_cons _ _ _ _ _ La I) as (? & ? & ?). congruence.
      + destruct (list_at_cons _ _ _ _ _ Li I) as (? & ? & ?). congruence. }
  exists (VPtr p), i. simpl. split; [apply put_same|]. split.
  - econstructor; auto.
    + rewrite put_other by auto. apply put_same.
    + apply list_at_frame with (cell s); auto. intros k I. apply Fr', in_or_app. auto.
  - apply list_at_frame with (cell s); auto. intros k I. apply Fr', in_or_app. auto.
Qed.
Print Assumptions C34_guardian_push.

Theorem C34_guardian_pop :
  forall g s d,
  describes (cell s) d -> g_loc d = g ->
  exists s', guardian_pop g s = Done (hd Qnil (pending d), s') /\
    describes (cell s') (mkGuard g (g_cells d) (guarded d) (tl (p_cells d)) (tl (pending d))).
Proof.
  intros g s d (a & i & G & La & Li) <-. unfold guardian_pop. rewrite G.
  destruct Li as [|k x e ks xs Nk Ck Le] eqn:E.
  - exists s. split; auto. exists a, Qnil. split; auto.
  - rewrite is_nil_ptr by auto. rewrite Ck. eexists. split; [reflexivity|]. simpl.
    assert (Fr : forall v ks' xs', list_at (cell s) v ks' xs' ->
       list_at (put (cell s) (g_loc d) (Some (OGuardian a e))) v ks' xs').
    { intros v ks' xs' L. apply list_at_frame with (cell s); auto. intros k' I.
      apply put_other. intros ->. destruct (list_at_cons _ _ _ _ _ L I) as (? & ? & ?).
      congruence. }
    exists a, e. simpl. split; [apply put_same|]. split; auto.
Qed.
Print Assumptions C34_guardian_pop.

(** Over any history of calls and collections an object is handed out at
    most as often as it was given to the guardian. *)
Theorem C34_at_most_once :
  forall es x,
  count_occ value_eq_dec (events (mkWatch [] []) es) x <= pushes x es.
Proof.
  intros es x.
  assert (G : forall w, count_occ value_eq_dec (events w es) x <=
     pushes x es + count_occ value_eq_dec (w_guarded w) x + count_occ value_eq_dec (w_pending w) x).
  { assert (CF : forall f l, count_occ value_eq_dec (filter f l) x +
       count_occ value_eq_dec (filter (fun v => negb (f v)) l) x = count_occ value_eq_dec l x).
    { intros f l. induction l as [|y l IH]; simpl; auto.
      destruct (f y); simpl; destruct (value_eq_dec y x); lia. }
    assert (CR : forall l, count_occ value_eq_dec (rev l) x = count_occ value_eq_dec l x).
    { intros l. induction l as [|y l IH]; simpl; auto. rewrite count_occ_app. simpl.
      destruct (value_eq_dec y x); lia. }
    induction es as [|[y| |live] es IH]; intros [gd pe]; simpl; [lia| | |].
    - specialize (IH (mkWatch (y :: gd) pe)). simpl in IH.
      destruct (value_eq_dec y x); lia.
    - destruct pe as [|y pe].
      + specialize (IH (mkWatch gd [])). simpl in IH. simpl. lia.
      + specialize (IH (mkWatch gd pe)). simpl in IH. simpl. destruct (value_eq_dec y x); lia.
    - specialize (IH (mkWatch (filter live gd)
        (rev (filter (fun v => negb (live v)) gd) ++ pe))). simpl in IH.
      rewrite count_occ_app, CR in IH. specialize (CF live gd). lia. }
  specialize (G (mkWatch [] [])). simpl in G. lia.
Qed.
Print Assumptions C34_at_most_once.

(** An object that is handed out was, before that call, given to the
    guardian and after that found dead by a collection. *)
Theorem C34_only_dead :
  forall es x, In x (events (mkWatch [] []) es) ->
  exists es1 es2, es = es1 ++ EPop :: es2 /\ pushed_then_dead x es1.
Proof.
  intros es x.
  assert (G : forall w, In x (events w es) -> exists es1 es2, es = es1 ++ EPop :: es2 /\
    (In x (w_pending w) \/ (In x (w_guarded w) /\ found_dead x es1) \/ pushed_then_dead x es1)).
  { induction es as [|[y| |live] es IH]; intros [gd pe]; simpl; [intros []| | |].
    - intros I. destruct (IH _ I) as (e1 & e2 & -> & H). exists (EPush y :: e1), e2.
      split; auto. simpl in H. destruct H as [H|[[[->|H] D]|H]]; auto.
      + right. right. now constructor.
      + right. left. split; auto. now apply fd_later.
      + right. right. now apply pd_later.
    - destruct pe as [|y pe]; simpl.
      + intros I. destruct (IH _ I) as (e1 & e2 & -> & H). exists (EPop :: e1), e2.
        split; auto. simpl in H. destruct H as [[]|[[H D]|H]].
        * right. left. split; auto. now apply fd_later.
        * right. right. now apply pd_later.
      + intros [->|I].
        * exists [], es. auto.
        * destruct (IH _ I) as (e1 & e2 & -> & H). exists (EPop :: e1), e2.
          split; auto. simpl in H. destruct H as [H|[[H D]|H]]; auto.
          -- right. left. split; auto. now apply fd_later.
          -- right. right. now apply pd_later.
    - intros I. destruct (IH _ I) as (e1 & e2 & -> & H). exists (ECollect live :: e1), e2.
      split; auto. simpl in H. rewrite in_app_iff in H.
      destruct H as [[H|H]|[[H D]|H]]; auto.
      + apply in_rev, filter_In in H. destruct H as [H L]. apply negb_true_iff in L.
        right. left. split; auto. now apply fd_here.
      + apply filter_In in H. right. left. split; [tauto|]. now apply fd_later.
      + right. right. now apply pd_later. }
  intros I. destruct (G _ I) as (e1 & e2 & E & [[]|[[[] _]|H]]). eauto.
Qed.
Print Assumptions C34_only_dead.

(** Given twice, an object is handed out twice. *)
Theorem C34_given_twice_refuted :
  exists es x, count_occ value_eq_dec (events (mkWatch [] []) es) x = 2.
Proof.
  exists [EPush (VPtr 1); EPush (VPtr 1); ECollect (fun _ => false); EPop; EPop], (VPtr 1).
  reflexivity.
Qed.
Print Assumptions C34_given_twice_refuted.

(** ** A heap on which the theorems apply.

    0 nil, 1 its name, 2 the root: a vector of 3, 5, 6 and itself;
    3 a cons of a string; 5 a guardian that guards 8 (dead) and 3;
    6 a weak reference to the dead cons 10; 12 a weak reference to 3. *)
Definition ex_cells : cells := fun p =>
  match p with
  | 0 => Some (OSymbol (VPtr 1) Qnil)
  | 1 => Some OStatic
  | 2 => Some (OVector [VPtr 3; VPtr 5; VPtr 6; VPtr 2; VInt 7; VPtr 12])
  | 3 => Some (OCons (VPtr 4) Qnil)
  | 4 => Some OString
  | 5 => Some (OGuardian (VPtr 7) Qnil)
  | 6 => Some (OWeak (VPtr 10))
  | 7 => Some (OCons (VPtr 8) (VPtr 9))
  | 8 => Some (OVector [VPtr 11])
  | 9 => Some (OCons (VPtr 3) Qnil)
  | 10 => Some (OCons (VInt 1) (VPtr 10))
  | 11 => Some ONumber
  | 12 => Some (OWeak (VPtr 3))
  | _ => None
  end.

Definition ex_state : state :=
  mkState ex_cells (fun _ => false) [3; 7; 9; 10] VNull 4 [0; 2; 4; 6; 8; 11; 12] [5] [6; 12].
Definition ex_roots : list value := [Qnil; VPtr 2].
Definition ex_guards : list guard := [mkGuard 5 [7; 9] [VPtr 8; VPtr 3] [] []].

Lemma closed_reach c roots l :
  (forall p, In (VPtr p) roots -> In p l) ->
  (forall p o q, In p l -> c p = Some o -> In (VPtr q) (strong o) -> In q l) ->
  forall p, reach c roots p -> In p l.
Proof. intros A B p R. induction R; eauto. Qed.

Ltac each_of I := repeat (destruct I as [<-|I]); [..|destruct I].

Lemma ex_reach p : reach ex_cells (ex_roots ++ all_guarded ex_guards) p ->
  In p [0; 1; 2; 3; 4; 5; 6; 8; 11; 12].
Proof.
  apply closed_reach.
  - simpl. intros q I. repeat (destruct I as [I|I]; [injection I as <-; simpl; tauto|]). destruct I.
  - intros q o r I O J. simpl in I.
    each_of I; simpl in O; injection O as <-; simpl in J;
      repeat (destruct J as [J|J]; [first [discriminate J | injection J as <-; simpl; tauto]|]);
      destruct J.
Qed.

Lemma ex_well_formed : well_formed ex_roots ex_guards ex_state.
Proof.
  constructor; simpl.
  - reflexivity.
  - reflexivity.
  - intros d [<-|[]]. exists (VPtr 7), Qnil. simpl. split; auto. split.
    + repeat (econstructor; try (discriminate || reflexivity)).
    + constructor.
  - repeat (constructor; [simpl; lia|]). constructor.
  - intros p I. each_of I; simpl; eauto.
  - intros p I. each_of I; simpl; eexists; (split; [reflexivity|exact Logic.I]).
  - intros p o E.
    do 13 (destruct p as [|p]; [simpl in *; first [tauto | injection E as <-; tauto]|]).
    discriminate.
  - repeat (constructor; [simpl; lia|]). constructor.
  - intros k I R. apply ex_reach in R. each_of I; simpl in R; lia.
  - intros v I. each_of I; eauto.
  - intros p R. apply ex_reach in R. each_of R; eexists; (split; [reflexivity|exact Logic.I]).
  - repeat (constructor; [simpl; lia|]). constructor.
  - intros w. split.
    + intros I. each_of I; simpl; eauto.
    + intros (v & E). do 13 (destruct w as [|w]; [simpl in *; first [discriminate | tauto]|]).
      discriminate.
  - intros w v E.
    do 13 (destruct w as [|w];
      [simpl in E; first [discriminate | injection E as <-; split; [discriminate | simpl; lia]]|]).
    discriminate.
  - split; auto. exists (VPtr 1), Qnil. reflexivity.
Qed.

Example ex_no_lost : no_lost_guardian ex_roots ex_guards ex_state.
Proof. intros d [<-|[]]. right. reflexivity. Qed.

(** The dead cons goes to the free list, its weak reference is cleared,
    the other is not; the dead vector, with what it holds, is kept for
    the guardian. *)
Example ex_collect :
  match collect 20 ex_roots ex_state with
  | Done s' =>
    cell s' 2 = ex_cells 2 /\ cell s' 3 = ex_cells 3 /\ freelist s' = VPtr 10 /\
    used_cons s' = 3 /\ cell s' 6 = Some (OWeak Qnil) /\ cell s' 12 = Some (OWeak (VPtr 3)) /\
    cell s' 5 = Some (OGuardian (VPtr 9) (VPtr 7)) /\ cell s' 7 = Some (OCons (VPtr 8) Qnil) /\
    cell s' 8 = ex_cells 8 /\ cell s' 11 = ex_cells 11 /\
    match guardian_pop 5 s' with
    | Done (v, s'') => v = VPtr 8 /\
      match collect 20 ex_roots s'' with
      | Done s3 => cell s3 8 = None /\ cell s3 11 = None /\ freelist s3 = VPtr 10 /\
                   used_cons s3 = 2
      | _ => False
      end
    | _ => False
    end
  | _ => False
  end.
Proof. vm_compute. tauto. Qed.

Example ex_conses :
  match collect 20 ex_roots ex_state with
  | Done s' => exists fl, free_at (cell s') (freelist s') fl /\ NoDup fl /\ 1 <= length fl
  | _ => False
  end.
Proof.
  vm_compute. exists [10]. split; [|split].
  - econstructor; [reflexivity|]. constructor.
  - constructor; [intros []|constructor].
  - auto.
Qed.

(** ** C33 is false when a guardian with objects to hand out is reached
    only through an object that is being saved.

    0 nil, 1 its name, 2 the root: a guardian of the vector 4; the vector
    holds the guardian 5, which has 9 to hand out (cell 7) and guards 8
    (cell 6).  run_guardians puts the cell 6 before 7 and marks it; when
    the vector is then marked the mark function of 5 finds 6 marked and
    does not go on to 7, which is freed although 5 is kept. *)
Definition lost_cells : cells := fun p =>
  match p with
  | 0 => Some (OSymbol (VPtr 1) Qnil)
  | 1 => Some OStatic
  | 2 => Some (OGuardian (VPtr 3) Qnil)
  | 3 => Some (OCons (VPtr 4) Qnil)
  | 4 => Some (OVector [VPtr 5])
  | 5 => Some (OGuardian (VPtr 6) (VPtr 7))
  | 6 => Some (OCons (VPtr 8) Qnil)
  | 7 => Some (OCons (VPtr 9) Qnil)
  | 8 => Some OString
  | 9 => Some OString
  | _ => None
  end.

Definition lost_state : state :=
  mkState lost_cells (fun _ => false) [3; 6; 7] VNull 3 [0; 4; 8; 9] [2; 5] [].
Definition lost_roots : list value := [Qnil; VPtr 2].
Definition lost_guards : list guard :=
  [mkGuard 2 [3] [VPtr 4] [] []; mkGuard 5 [6] [VPtr 8] [7] [VPtr 9]].

Lemma lost_reach p : reach lost_cells (lost_roots ++ all_guarded lost_guards) p ->
  In p [0; 1; 2; 4; 5; 7; 8; 9].
Proof.
  apply closed_reach.
  - simpl. intros q I. repeat (destruct I as [I|I]; [injection I as <-; simpl; tauto|]). destruct I.
  - intros q o r I O J. simpl in I.
    each_of I; simpl in O; injection O as <-; simpl in J;
      repeat (destruct J as [J|J]; [first [discriminate J | injection J as <-; simpl; tauto]|]);
      destruct J.
Qed.

Lemma lost_well_formed : well_formed lost_roots lost_guards lost_state.
Proof.
  constructor; simpl.
  - reflexivity.
  - reflexivity.
  - intros d [<-|[<-|[]]].
    + exists (VPtr 3), Qnil. simpl. split; auto.
      split; repeat (econstructor; try (discriminate || reflexivity)).
    + exists (VPtr 6), (VPtr 7). simpl. split; auto.
      split; repeat (econstructor; try (discriminate || reflexivity)).
  - repeat (constructor; [simpl; lia|]). constructor.
  - intros p I. each_of I; simpl; eauto.
  - intros p I. each_of I; simpl; eexists; (split; [reflexivity|exact Logic.I]).
  - intros p o E.
    do 10 (destruct p as [|p]; [simpl in *; first [tauto | injection E as <-; tauto]|]).
    discriminate.
  - repeat (constructor; [simpl; lia|]). constructor.
  - intros k I R. apply lost_reach in R. each_of I; simpl in R; lia.
  - intros v I. each_of I; eauto.
  - intros p R. apply lost_reach in R. each_of R; eexists; (split; [reflexivity|exact Logic.I]).
  - constructor.
  - intros w. split; [intros []|]. intros (v & E).
    do 10 (destruct w as [|w]; [simpl in *; first [discriminate | tauto]|]). discriminate.
  - intros w v E. do 10 (destruct w as [|w]; [discriminate|]). discriminate.
  - split; auto. exists (VPtr 1), Qnil. reflexivity.
Qed.

Theorem C33_pending_lost_refuted :
  exists roots ds s fuel s' p fl q,
    well_formed roots ds s /\ collect fuel roots s = Done s' /\
    reach (cell s') roots p /\ free_at (cell s') (freelist s') fl /\ In p fl /\
    reach (cell s') roots q /\ cell s' q = None.
Proof.
  destruct (collect 20 lost_roots lost_state) as [s'| |] eqn:E; try discriminate.
  exists lost_roots, lost_guards, lost_state, 20, s', 7, [7], 9.
  split; [exact lost_well_formed|]. split; [exact E|].
  injection E as <-.
  match goal with |- context [cell ?s'] => set (s1 := s') end.
  assert (R2 : reach (cell s1) lost_roots 2) by (apply reach_root; simpl; auto).
  assert (R3 : reach (cell s1) lost_roots 3).
  { eapply reach_step; [exact R2 | reflexivity | simpl; auto]. }
  assert (R4 : reach (cell s1) lost_roots 4).
  { eapply reach_step; [exact R3 | reflexivity | simpl; auto]. }
  assert (R5 : reach (cell s1) lost_roots 5).
  { eapply reach_step; [exact R4 | reflexivity | simpl; auto]. }
  assert (R6 : reach (cell s1) lost_roots 6).
  { eapply reach_step; [exact R5 | reflexivity | simpl; auto]. }
  assert (R7 : reach (cell s1) lost_roots 7).
  { eapply reach_step; [exact R6 | reflexivity | simpl; auto]. }
  split; [exact R7|]. split; [econstructor; [reflexivity | constructor]|].
  split; [now left|]. split; [|reflexivity].
  eapply reach_step; [exact R7 | reflexivity | simpl; auto].
Qed.
Print Assumptions C33_pending_lost_refuted.

(** A closure whose function is a fixnum, which set-closure-function
    makes, is enough for marking to read memory at that number. *)
Definition fn_cells : cells := fun p =>
  match p with
  | 0 => Some (OSymbol (VPtr 1) Qnil)
  | 1 => Some OStatic
  | 2 => Some (OFunarg (VPtr 1) Qnil Qnil (VInt 1))
  | _ => None
  end.

Theorem C33_closure_integer_refuted :
  exists roots s,
    (forall p, reach (cell s) roots p -> cell s p <> None) /\
    forall fuel s', collect fuel roots s <> Done s'.
Proof.
  exists [Qnil; VPtr 2], (mkState fn_cells (fun _ => false) [] VNull 0 [0; 2] [] []). split.
  - intros p R. assert (I : In p [0; 1; 2]).
    { revert p R. apply closed_reach.
      - simpl. intros q I. repeat (destruct I as [I|I]; [injection I as <-; simpl; tauto|]).
        destruct I.
      - intros q o r I O J. simpl in I.
        each_of I; simpl in O; injection O as <-; simpl in J;
          repeat (destruct J as [J|J]; [first [discriminate J | injection J as <-; simpl; tauto]|]);
          destruct J. }
    each_of I; discriminate.
  - intros [|[|[|fuel]]] s'; vm_compute; discriminate.
Qed.
Print Assumptions C33_closure_integer_refuted.

(** The count of strings that string_sweep keeps leaves out those in
    blocks that are full. *)
Theorem C33_string_count_partial :
  forall blocks,
  (forall b, In b blocks -> block_count b = 0 \/ In false b) ->
  fst (string_sweep blocks 0 0) = list_sum (map block_count blocks) /\
  snd (string_sweep blocks 0 0) = length (filter (fun b => negb (block_count b =? 0)) blocks).
Proof.
  intros blocks H.
  assert (G : forall u k, string_sweep blocks u k =
    (u + list_sum (map block_count blocks),
     k + length (filter (fun b => negb (block_count b =? 0)) blocks))).
  { induction blocks as [|b l IH]; intros u k; simpl; [f_equal; lia|].
    assert (IH' := IH (fun b Hb => H b (or_intror Hb))).
    destruct (Nat.eqb_spec (block_count b) 0) as [E|E]; simpl.
    - rewrite IH', E. f_equal.
    - assert (X : existsb negb b = true).
      { destruct (H b (or_introl eq_refl)) as [Z|Z]; [tauto|]. apply existsb_exists.
        exists false. auto. }
      rewrite X, IH'. f_equal; lia. }
  rewrite G. auto.
Qed.
Print Assumptions C33_string_count_partial.

Theorem C33_string_count_refuted :
  exists blocks, (forall b, In b blocks -> length b = 2) /\
    fst (string_sweep blocks 0 0) <> list_sum (map block_count blocks).
Proof.
  exists [[true; true]; [true; false]]. split.
  - intros b [<-|[<-|[]]]; reflexivity.
  - discriminate.
Qed.
Print Assumptions C33_string_count_refuted.

(** ** C34 is false of subrs, special forms and literal strings of the
    program itself: they are never marked, so that a weak reference to
    one is cleared by the first collection, and a guardian hands it out,
    although the roots reach it. *)
Definition static_cells : cells := fun p =>
  match p with
  | 0 => Some (OSymbol (VPtr 1) Qnil)
  | 1 => Some OStatic
  | 2 => Some (OVector [VPtr 3; VPtr 4; VPtr 5])
  | 3 => Some OStatic
  | 4 => Some (OWeak (VPtr 3))
  | 5 => Some (OGuardian (VPtr 6) Qnil)
  | 6 => Some (OCons (VPtr 3) Qnil)
  | _ => None
  end.
Definition static_state : state :=
  mkState static_cells (fun _ => false) [6] VNull 1 [0; 2; 4] [5] [4].

Theorem C34_weak_static_refuted :
  exists roots s fuel s' w q,
    reach (cell s) roots w /\ cell s w = Some (OWeak (VPtr q)) /\ reach (cell s) roots q /\
    collect fuel roots s = Done s' /\ cell s' w = Some (OWeak Qnil) /\
    reach (cell s') roots q /\ cell s' q = cell s q.
Proof.
  destruct (collect 20 [Qnil; VPtr 2] static_state) as [s'| |] eqn:E; try discriminate.
  exists [Qnil; VPtr 2], static_state, 20, s', 4, 3.
  assert (R : reach static_cells [Qnil; VPtr 2] 2) by (apply reach_root; simpl; auto).
  split; [eapply reach_step; [exact R | reflexivity | simpl; auto]|]. split; [reflexivity|].
  split; [eapply reach_step; [exact R | reflexivity | simpl; auto]|]. split; [exact E|].
  injection E as <-. split; [reflexivity|]. split; [|reflexivity].
  eapply reach_step with (p := 2); [apply reach_root; simpl; auto | reflexivity | simpl; auto].
Qed.
Print Assumptions C34_weak_static_refuted.

Theorem C34_guard_static_refuted :
  exists roots s fuel s' s'' g q,
    reach (cell s) roots g /\ reach (cell s) roots q /\ cell s q <> None /\
    guardian_pop g s = Done (Qnil, s) /\
    collect fuel roots s = Done s' /\ reach (cell s') roots q /\
    guardian_pop g s' = Done (VPtr q, s'').
Proof.
  destruct (collect 20 [Qnil; VPtr 2] static_state) as [s'| |] eqn:E; try discriminate.
  destruct (guardian_pop 5 s') as [[v s'']| |] eqn:P;
    [|injection E as <-; discriminate P|injection E as <-; discriminate P].
  exists [Qnil; VPtr 2], static_state, 20, s', s'', 5, 3.
  assert (R : reach static_cells [Qnil; VPtr 2] 2) by (apply reach_root; simpl; auto).
  split; [eapply reach_step; [exact R | reflexivity | simpl; auto]|].
  split; [eapply reach_step; [exact R | reflexivity | simpl; auto]|].
  split; [discriminate|]. split; [reflexivity|]. split; [exact E|].
  assert (v = VPtr 3) as <-.
  { injection E as <-. vm_compute in P. congruence. }
  split; [|exact P]. injection E as <-. vm_compute in P. injection P as <- _.
  eapply reach_step with (p := 2); [apply reach_root; simpl; auto | reflexivity | simpl; auto].
Qed.
Print Assumptions C34_guard_static_refuted.

(** An object that the roots do not reach keeps its weak references when
    it is guarded: the reference is not cleared by the collection that
    finds the object dead. *)
Definition guarded_cells : cells := fun p =>
  match p with
  | 0 => Some (OSymbol (VPtr 1) Qnil)
  | 1 => Some OStatic
  | 2 => Some (OVector [VPtr 4; VPtr 5])
  | 3 => Some OString
  | 4 => Some (OWeak (VPtr 3))
  | 5 => Some (OGuardian (VPtr 6) Qnil)
  | 6 => Some (OCons (VPtr 3) Qnil)
  | _ => None
  end.

Theorem C34_weak_guarded_refuted :
  exists roots s fuel s' w q,
    reach (cell s) roots w /\ cell s w = Some (OWeak (VPtr q)) /\
    ~ reach (cell s) roots q /\ collectable (cell s) q /\
    collect fuel roots s = Done s' /\ cell s' w = Some (OWeak (VPtr q)).
Proof.
  set (s := mkState guarded_cells (fun _ => false) [6] VNull 1 [0; 2; 3; 4] [5] [4]).
  destruct (collect 20 [Qnil; VPtr 2] s) as [s'| |] eqn:E; try discriminate.
  exists [Qnil; VPtr 2], s, 20, s', 4, 3.
  assert (R : reach guarded_cells [Qnil; VPtr 2] 2) by (apply reach_root; simpl; auto).
  split; [eapply reach_step; [exact R | reflexivity | simpl; auto]|]. split; [reflexivity|].
  split.
  { intros N. assert (I : In 3 [0; 1; 2; 4; 5]); [|simpl in I; lia].
    revert N. apply closed_reach.
    - simpl. intros q I. repeat (destruct I as [I|I]; [injection I as <-; simpl; tauto|]).
      destruct I.
    - intros q o r I O J. simpl in I.
      each_of I; simpl in O; injection O as <-; simpl in J;
        repeat (destruct J as [J|J]; [first [discriminate J | injection J as <-; simpl; tauto]|]);
        destruct J. }
  split; [exists OString; split; [reflexivity|discriminate]|].
  split; [exact E|]. injection E as <-. reflexivity.
Qed.
Print Assumptions C34_weak_guarded_refuted.

(** Giving a fixnum to a guardian makes the next collection read memory
    at that number. *)
Definition int_cells : cells := fun p =>
  match p with
  | 0 => Some (OSymbol (VPtr 1) Qnil)
  | 1 => Some OStatic
  | 2 => Some (OGuardian Qnil Qnil)
  | 3 => Some (OCons VNull VNull)
  | _ => None
  end.

Theorem C34_guard_integer_refuted :
  exists roots s s' g n,
    reach (cell s) roots g /\ guardian_push g (VInt n) s = Done s' /\
    (exists fuel s2, collect fuel roots s = Done s2) /\
    forall fuel s2, collect fuel roots s' <> Done s2.
Proof.
  set (s := mkState int_cells (fun _ => false) [3] (VPtr 3) 0 [0] [2] []).
  destruct (guardian_push 2 (VInt 5) s) as [s'| |] eqn:P; try discriminate.
  exists [Qnil; VPtr 2], s, s', 2, 5%Z.
  split; [apply reach_root; simpl; auto|]. split; [exact P|]. split.
  - destruct (collect 20 [Qnil; VPtr 2] s) as [s2| |] eqn:E; try discriminate. eauto.
  - injection P as <-. intros [|[|[|fuel]]] s2; vm_compute; discriminate.
Qed.
Print Assumptions C34_guard_integer_refuted.
