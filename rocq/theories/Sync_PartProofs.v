(* Invariants of mutexes, condition variables and queues as relations between
   functions, each changed by one thread at a time. *)
From Coq Require Import ZArith List Bool Lia.
Import ListNotations.
From Verif Require Import Threads_Model Sync_Model Sync_Spec.

Lemma obj_eqb_spec : forall a b, reflect (a = b) (obj_eqb a b).
Proof.
  intros [a | a] [b | b]; cbn; try (constructor; congruence); destruct (Nat.eqb_spec a b); constructor; congruence.
Qed.
Lemma obj_eqb_refl : forall a, obj_eqb a a = true.
Proof. intros. destruct (obj_eqb_spec a a); auto. Qed.
Lemma oput_same : forall A (f : obj -> A) i v, oput f i v i = v.
Proof. intros. unfold oput. now rewrite obj_eqb_refl. Qed.
Lemma oput_other : forall A (f : obj -> A) i v j, j <> i -> oput f i v j = f j.
Proof. intros. unfold oput. destruct (obj_eqb_spec j i); congruence. Qed.

(** * Mutexes *)

(* mt: owner and blocked threads; ho: who holds; bl: who is in obtain-mutex; e: value
   left by thread-wake; tr, go: who tried and who got it *)
Record MI (mt : obj -> list nat) (ho bl : nat -> obj -> bool) (e : nat -> option bool) (tr go : obj -> list nat) : Prop := mkMI {
  i_nodup : forall m, NoDup (mt m);
  i_head : forall m h ws, mt m = h :: ws -> ho h m = true \/ bl h m = true /\ e h = Some true;
  i_tail : forall m h ws t, mt m = h :: ws -> In t ws -> bl t m = true /\ e t = Some false;
  i_bl : forall t m, bl t m = true -> In t (mt m) /\ ho t m = false;
  i_ho : forall t m, ho t m = true -> exists ws, mt m = t :: ws;
  i_fifo : forall m, tr m = go m ++ filter (fun t => bl t m) (mt m)
}.

Lemma MI_ext : forall mt ho bl e tr go mt' ho' bl' e' tr' go',
  (forall m, mt' m = mt m) -> (forall t m, ho' t m = ho t m) -> (forall t m, bl' t m = bl t m) ->
  (forall t m, bl t m = true -> e' t = e t) -> (forall m, tr' m = tr m) -> (forall m, go' m = go m) ->
  MI mt ho bl e tr go -> MI mt' ho' bl' e' tr' go'.
Proof.
  intros mt ho bl e tr go mt' ho' bl' e' tr' go' E1 E2 E3 E4 E5 E6 [H1 H2 H3 H4 H5 H6]. constructor.
  - intros m. now rewrite E1.
  - intros m h ws. rewrite E1, E2, E3. intros E. destruct (H2 m h ws E) as [X | [X Y]]; auto. right. rewrite (E4 h m X). auto.
  - intros m h ws t. rewrite E1, E3. intros E I. destruct (H3 m h ws t E I) as [X Y]. rewrite (E4 t m X). auto.
  - intros t m. rewrite E1, E2, E3. auto.
  - intros t m. rewrite E1, E2. auto.
  - intros m. rewrite E5, E6, E1, H6. f_equal. apply filter_ext. intros. now rewrite E3.
Qed.

Definition set2 (f : nat -> obj -> bool) (t : nat) (m : obj) (v : bool) : nat -> obj -> bool :=
  fun u n => if Nat.eqb u t && obj_eqb n m then v else f u n.
Lemma set2_same : forall f t m v, set2 f t m v t m = v.
Proof. intros. unfold set2. now rewrite Nat.eqb_refl, obj_eqb_refl. Qed.
Lemma set2_other : forall f t m v u n, u <> t \/ n <> m -> set2 f t m v u n = f u n.
Proof. intros. unfold set2. destruct (Nat.eqb_spec u t), (obj_eqb_spec n m); cbn; auto. destruct H; contradiction. Qed.
Definition snoc {A} (f : obj -> list A) (m : obj) (x : A) : obj -> list A := oput f m (f m ++ [x]).

Lemma filter_id : forall (f g : nat -> bool) l, (forall x, In x l -> f x = g x) -> filter f l = filter g l.
Proof. intros. apply filter_ext_in; auto. Qed.

(* a free mutex is taken *)
Lemma MI_take : forall mt ho bl e tr go t m, MI mt ho bl e tr go -> mt m = [] -> bl t m = false ->
  MI (oput mt m [t]) (set2 ho t m true) bl e (snoc tr m t) (snoc go m t).
Proof.
  intros mt ho bl e tr go t m [H1 H2 H3 H4 H5 H6] E B. constructor.
  - intros n. unfold oput. destruct (obj_eqb n m); auto. constructor; [intros [] | constructor].
  - intros n h ws. unfold oput. destruct (obj_eqb_spec n m) as [-> | N].
    + intros X. injection X as <- <-. left. apply set2_same.
    + rewrite set2_other by auto. apply H2.
  - intros n h ws u. unfold oput. destruct (obj_eqb_spec n m) as [-> | N].
    + intros X. injection X as <- <-. intros [].
    + apply H3.
  - intros u n Bu. unfold oput. destruct (obj_eqb_spec n m) as [-> | N].
    + destruct (H4 u m Bu) as [X _]. rewrite E in X. destruct X.
    + rewrite set2_other by auto. auto.
  - intros u n. unfold set2, oput. destruct (Nat.eqb_spec u t) as [-> | N1], (obj_eqb_spec n m) as [-> | N2]; cbn; eauto.
    intros X. destruct (H5 _ _ X) as [ws Y]. congruence.
  - intros n. unfold snoc, oput. destruct (obj_eqb_spec n m) as [-> | N]; auto. rewrite H6, E. cbn. rewrite B. now rewrite !app_nil_r.
Qed.

(* maybe-obtain-mutex *)
Lemma MI_maybe : forall mt ho bl e tr go t m, MI mt ho bl e tr go -> mt m = [] -> bl t m = false ->
  MI (oput mt m [t]) (set2 ho t m true) bl e tr go.
Proof.
  intros mt ho bl e tr go t m H E B. destruct (MI_take _ _ _ _ _ _ t m H E B) as [K1 K2 K3 K4 K5 K6]. constructor; auto.
  intros n. unfold oput. destruct (obj_eqb_spec n m) as [-> | N]; [| apply H]. cbn. rewrite B. rewrite (i_fifo _ _ _ _ _ _ H), E. reflexivity.
Qed.

(* t waits for m *)
Lemma MI_queue : forall mt ho bl e tr go t m h ws e', MI mt ho bl e tr go -> mt m = h :: ws ->
  (forall n, bl t n = false) -> ho t m = false -> (forall u n, u <> t -> bl u n = true -> e' u = e u) -> e' t = Some false ->
  MI (oput mt m ((h :: ws) ++ [t])) ho (set2 bl t m true) e' (snoc tr m t) go.
Proof.
  intros mt ho bl e tr go t m h ws e' [H1 H2 H3 H4 H5 H6] E B HO EV ET.
  assert (NI : ~ In t (mt m)).
  { rewrite E. intros [-> | I].
    - destruct (H2 m t ws E) as [X | [X _]]; [congruence |]. rewrite B in X. discriminate.
    - destruct (H3 m h ws t E I) as [X _]. rewrite B in X. discriminate. }
  constructor.
  - intros n. unfold oput. destruct (obj_eqb_spec n m) as [-> | N]; auto. rewrite <- E.
    apply NoDup_Add with (a := t) (l := mt m); [| split; auto].
    replace (mt m ++ [t]) with (mt m ++ t :: []) by auto. pattern (mt m) at 1. rewrite <- (app_nil_r (mt m)). apply Add_app.
  - intros n h' ws'. unfold oput. destruct (obj_eqb_spec n m) as [-> | N].
    + intros X. injection X as <- <-. destruct (H2 m h ws E) as [X | [X Y]]; auto. right.
      assert (h <> t) by (intros ->; apply NI; rewrite E; left; auto). rewrite set2_other by auto. rewrite (EV h m); auto.
    + intros X. rewrite set2_other by auto. destruct (H2 n h' ws' X) as [Y | [Y Z]]; auto. right.
      assert (h' <> t) by (intros ->; rewrite B in Y; discriminate). rewrite (EV h' n); auto.
  - intros n h' ws' u. unfold oput. destruct (obj_eqb_spec n m) as [-> | N].
    + intros X. injection X as <- <-. rewrite in_app_iff. intros [I | [<- | []]].
      * assert (u <> t) by (intros ->; apply NI; rewrite E; right; auto). rewrite set2_other by auto.
        destruct (H3 m h ws u E I) as [Y Z]. rewrite (EV u m); auto.
      * rewrite set2_same. auto.
    + intros X I. rewrite set2_other by auto. destruct (H3 n h' ws' u X I) as [Y Z].
      assert (u <> t) by (intros ->; rewrite B in Y; discriminate). rewrite (EV u n); auto.
  - intros u n. unfold set2, oput. destruct (Nat.eqb_spec u t) as [-> | N1], (obj_eqb_spec n m) as [-> | N2]; cbn [andb]; auto.
    + intros _. split; auto. rewrite in_app_iff. right. left. auto.
    + intros X. destruct (H4 u m X) as [Y Z]. split; auto. rewrite <- E. rewrite in_app_iff. auto.
  - intros u n X. destruct (H5 u n X) as [ws' Y]. unfold oput. destruct (obj_eqb_spec n m) as [-> | N]; eauto.
    rewrite E in Y. injection Y as -> ->. exists (ws' ++ [t]). reflexivity.
  - intros n. unfold snoc, oput. destruct (obj_eqb_spec n m) as [-> | N].
    + rewrite <- E, filter_app.
      replace (filter (fun t0 => set2 bl t m true t0 m) [t]) with [t] by (cbn [filter]; now rewrite set2_same).
      rewrite app_assoc. f_equal. rewrite H6. f_equal.
      apply filter_id. intros x I. rewrite set2_other; auto. left. intros ->. apply NI. auto.
    + rewrite H6. f_equal. apply filter_id. intros x I. rewrite set2_other; auto.
Qed.

(* obtain-mutex returns true after a wait *)
Lemma MI_grant : forall mt ho bl e tr go t m e', MI mt ho bl e tr go -> bl t m = true -> e t = Some true ->
  (forall n, bl t n = true -> n = m) -> (forall u, u <> t -> e' u = e u) ->
  MI mt (set2 ho t m true) (set2 bl t m false) e' tr (snoc go m t).
Proof.
  intros mt ho bl e tr go t m e' [H1 H2 H3 H4 H5 H6] B ET BN EV.
  assert (E : exists ws, mt m = t :: ws).
  { destruct (H4 t m B) as [I _]. destruct (mt m) as [| h ws] eqn:E; [destruct I |]. destruct I as [-> | I]; eauto.
    destruct (H3 m h ws t E I). congruence. }
  destruct E as [ws E].
  assert (NI : ~ In t ws). { pose proof (H1 m) as X. rewrite E in X. inversion X; auto. }
  constructor.
  - auto.
  - intros n h' ws' X. destruct (obj_eqb_spec n m) as [-> | N].
    + rewrite E in X. injection X as <- <-. left. apply set2_same.
    + rewrite !set2_other by auto. destruct (H2 n h' ws' X) as [Y | [Y Z]]; auto. right. split; auto.
      rewrite EV; auto. intros ->. apply BN in Y. contradiction.
  - intros n h' ws' u X I. destruct (H3 n h' ws' u X I) as [Y Z].
    assert (u <> t). { intros ->. congruence. }
    rewrite set2_other by auto. rewrite EV; auto.
  - intros u n X. destruct (Nat.eqb_spec u t) as [-> | N1].
    + destruct (obj_eqb_spec n m) as [-> | N2].
      * rewrite set2_same in X. discriminate.
      * rewrite set2_other in X by auto. apply BN in X. contradiction.
    + rewrite set2_other in X by auto. rewrite set2_other by auto. auto.
  - intros u n. unfold set2. destruct (Nat.eqb_spec u t) as [-> | N1], (obj_eqb_spec n m) as [-> | N2]; cbn [andb]; eauto.
  - intros n. unfold snoc, oput. destruct (obj_eqb_spec n m) as [-> | N].
    + rewrite H6, E. cbn [filter]. rewrite B, set2_same. rewrite <- app_assoc. cbn [app]. f_equal. f_equal. apply filter_id. intros x I.
      rewrite set2_other; auto. left. intros ->. auto.
    + rewrite H6. f_equal. apply filter_id. intros x I. rewrite set2_other; auto.
Qed.

(* release-mutex *)
Lemma MI_release : forall mt ho bl e tr go t m ws e', MI mt ho bl e tr go -> mt m = t :: ws -> ho t m = true ->
  (forall u n, bl u n = true -> hd_error ws <> Some u -> e' u = e u) ->
  (forall x, hd_error ws = Some x -> e' x = Some true /\ forall n, bl x n = true -> n = m) ->
  MI (oput mt m ws) (set2 ho t m false) bl e' tr go.
Proof.
  intros mt ho bl e tr go t m ws e' [H1 H2 H3 H4 H5 H6] E HO EV EX.
  assert (B : bl t m = false). { destruct (bl t m) eqn:B; auto. destruct (H4 t m B). congruence. }
  pose proof (H1 m) as ND. rewrite E in ND. inversion ND as [| ? ? NI ND']; subst.
  constructor.
  - intros n. unfold oput. destruct (obj_eqb_spec n m) as [-> | N]; auto.
  - intros n h' ws'. unfold oput. destruct (obj_eqb_spec n m) as [-> | N].
    + intros ->. right. destruct (EX h' eq_refl) as [X _]. split; auto. apply (H3 m t (h' :: ws') h' E). left; auto.
    + intros X. rewrite set2_other by auto. destruct (H2 n h' ws' X) as [Y | [Y Z]]; auto. right. split; auto.
      rewrite (EV h' n); auto. intros W. destruct (EX h' W) as [_ F]. apply F in Y. contradiction.
  - intros n h' ws' u. unfold oput. destruct (obj_eqb_spec n m) as [-> | N].
    + intros -> I. destruct (H3 m t (h' :: ws') u E ltac:(right; auto)) as [X Y]. split; auto.
      rewrite (EV u m); auto. cbn. intros W. injection W as ->. inversion ND'; auto.
    + intros X I. destruct (H3 n h' ws' u X I) as [Y Z]. split; auto. rewrite (EV u n); auto.
      intros W. destruct (EX u W) as [_ F]. apply F in Y. contradiction.
  - intros u n X. destruct (H4 u n X) as [Y Z]. unfold oput, set2. destruct (Nat.eqb_spec u t) as [-> | N1], (obj_eqb_spec n m) as [-> | N2]; cbn [andb]; auto.
    + congruence.
    + split; auto. rewrite E in Y. destruct Y as [-> | Y]; auto. congruence.
  - intros u n. unfold set2, oput. destruct (Nat.eqb_spec u t) as [-> | N1], (obj_eqb_spec n m) as [-> | N2]; cbn [andb]; eauto; try discriminate.
    intros X. destruct (H5 u m X) as [ws' Y]. rewrite E in Y. congruence.
  - intros n. unfold oput. rewrite H6. destruct (obj_eqb_spec n m) as [-> | N]; auto. rewrite E. cbn. now rewrite B.
Qed.

(** * Condition variables *)

(* iw: has entered itself and not yet released the mutex; wt: in thread-suspend; dq,
   cl: about to take a thread or all from the list; wk: has yet to wake x *)
Record CI (cv : obj -> list nat) (iw wt : nat -> obj -> bool) (dq : nat -> obj -> nat -> Prop) (cl : nat -> obj -> list nat -> Prop)
  (wk : nat -> obj -> nat -> Prop) (e : nat -> option bool) (wa ch : obj -> list nat) : Prop := mkCI {
  j_in : forall c x, In x (cv c) -> iw x c = true \/ wt x c = true /\ e x = Some false;
  j_nodup : forall c, NoDup (cv c);
  j_iw : forall t c, iw t c = true -> In t (cv c);
  j_wk : forall t c x, wk t c x -> wt x c = true /\ e x = Some false;
  j_or : forall t c x, wk t c x -> In x (cv c) -> dq t c x \/ exists l, cl t c l;
  j_dq : forall t c y, dq t c y -> (exists r, cv c = r ++ [y]) /\ wk t c y;
  j_cl : forall t c l, cl t c l -> l = rev (cv c) /\ forall x, In x l -> wk t c x;
  j_pend : forall x c, wt x c = true -> e x = Some false -> In x (cv c) \/ exists t, wk t c x;
  j_fifo : forall c, wa c = ch c ++ rev (cv c)
}.

Lemma CI_ext : forall cv iw wt dq cl wk e wa ch cv' iw' wt' dq' cl' wk' e' wa' ch',
  (forall c, cv' c = cv c) -> (forall t c, iw' t c = iw t c) -> (forall t c, wt' t c = wt t c) ->
  (forall t c x, dq' t c x <-> dq t c x) -> (forall t c l, cl' t c l <-> cl t c l) -> (forall t c x, wk' t c x <-> wk t c x) ->
  (forall t c, wt t c = true -> e' t = e t) -> (forall c, wa' c = wa c) -> (forall c, ch' c = ch c) ->
  CI cv iw wt dq cl wk e wa ch -> CI cv' iw' wt' dq' cl' wk' e' wa' ch'.
Proof.
  intros cv iw wt dq cl wk e wa ch cv' iw' wt' dq' cl' wk' e' wa' ch' E1 E2 E3 E4 E5 E6 E7 E8 E9 [H1 H2 H3 H4 H5 H6 H7 H8 H9]. constructor.
  - intros c x. rewrite E1, E2, E3. intros I. destruct (H1 c x I) as [X | [X Y]]; auto. right. rewrite (E7 x c X). auto.
  - intros c. now rewrite E1.
  - intros t c. rewrite E1, E2. auto.
  - intros t c x. rewrite E6, E3. intros W. destruct (H4 t c x W) as [X Y]. rewrite (E7 x c X). auto.
  - intros t c x. rewrite E6, E1, E4. intros W I. destruct (H5 t c x W I) as [X | [l X]]; auto. right. exists l. now apply E5.
  - intros t c y. rewrite E4, E1, E6. auto.
  - intros t c l. rewrite E5, E1. intros X. destruct (H7 t c l X) as [Y Z]. split; auto. intros x I. apply E6. auto.
  - intros x c. rewrite E3, E1. intros X Y. rewrite (E7 x c X) in Y. destruct (H8 x c X Y) as [Z | [t Z]]; auto. right. exists t. now apply E6.
  - intros c. rewrite E8, E9, E1. auto.
Qed.

(* t enters itself *)
Lemma CI_push : forall cv iw wt dq cl wk e wa ch t c, CI cv iw wt dq cl wk e wa ch ->
  (forall d, iw t d = false) -> (forall d, wt t d = false) -> (forall u x, ~ wk u c x) ->
  (forall u l, ~ cl u c l) ->
  CI (oput cv c (t :: cv c)) (set2 iw t c true) wt dq cl wk e (snoc wa c t) ch /\ ~ In t (cv c).
Proof.
  intros cv iw wt dq cl wk e wa ch t c [H1 H2 H3 H4 H5 H6 H7 H8 H9] I W L LC.
  assert (NI : ~ In t (cv c)).
  { intros X. destruct (H1 c t X) as [Y | [Y _]]; [rewrite I in Y | rewrite W in Y]; discriminate. }
  split; auto. constructor.
  - intros d x. unfold oput. destruct (obj_eqb_spec d c) as [-> | N].
    + intros [<- | X]; [left; apply set2_same |]. unfold set2. destruct (Nat.eqb_spec x t); [subst; contradiction |]. cbn [andb]. auto.
    + rewrite set2_other by auto. auto.
  - intros d. unfold oput. destruct (obj_eqb_spec d c) as [-> | N]; auto. constructor; auto.
  - intros u d. unfold set2, oput. destruct (Nat.eqb_spec u t) as [-> | N1], (obj_eqb_spec d c) as [-> | N2]; cbn [andb]; auto.
    + intros _. left; auto.
    + intros X. right; auto.
  - auto.
  - intros u d x K. unfold oput. destruct (obj_eqb_spec d c) as [-> | N]; auto. exfalso. eapply L; eauto.
  - intros u d y K. destruct (H6 u d y K) as [X Y]. unfold oput. destruct (obj_eqb_spec d c) as [-> | N]; auto. exfalso. eapply L; eauto.
  - intros u d l K. destruct (H7 u d l K) as [X Y]. unfold oput. destruct (obj_eqb_spec d c) as [-> | N]; auto. exfalso. eapply LC; eauto.
  - intros x d X Y. destruct (H8 x d X Y) as [Z | Z]; auto. left. unfold oput. destruct (obj_eqb_spec d c) as [-> | N]; auto. right; auto.
  - intros d. unfold snoc, oput. destruct (obj_eqb_spec d c) as [-> | N]; auto. cbn. now rewrite H9, app_assoc.
Qed.

(* t is suspended *)
Lemma CI_sleep : forall cv iw wt dq cl wk e wa ch t c e', CI cv iw wt dq cl wk e wa ch -> iw t c = true ->
  (forall d, iw t d = true -> d = c) -> (forall d, wt t d = false) ->
  (forall u d, u <> t -> wt u d = true -> e' u = e u) -> e' t = Some false ->
  CI cv (set2 iw t c false) (set2 wt t c true) dq cl wk e' wa ch.
Proof.
  intros cv iw wt dq cl wk e wa ch t c e' [H1 H2 H3 H4 H5 H6 H7 H8 H9] I IN W EV ET. constructor; auto.
  - intros d x X. destruct (Nat.eqb_spec x t) as [-> | N].
    + destruct (obj_eqb_spec d c) as [-> | N2].
      * right. rewrite set2_same. auto.
      * destruct (H1 d t X) as [Y | [Y _]]; [apply IN in Y; contradiction | rewrite W in Y; discriminate].
    + rewrite !set2_other by auto. destruct (H1 d x X) as [Y | [Y Z]]; auto. right. rewrite (EV x d); auto.
  - intros u d. unfold set2. destruct (Nat.eqb_spec u t) as [-> | N1], (obj_eqb_spec d c) as [-> | N2]; cbn [andb]; auto.
  - intros u d x K. destruct (H4 u d x K) as [X Y]. assert (x <> t) by (intros ->; rewrite W in X; discriminate).
    rewrite set2_other by auto. rewrite (EV x d); auto.
  - intros x d. unfold set2. destruct (Nat.eqb_spec x t) as [-> | N1], (obj_eqb_spec d c) as [-> | N2]; cbn [andb]; auto.
    + intros X. rewrite W in X. discriminate.
    + intros X. rewrite (EV x c N1 X). auto.
    + intros X. rewrite (EV x d N1 X). auto.
Qed.

(* thread-suspend returns to t after it was woken *)
Lemma CI_woken : forall cv iw wt dq cl wk e wa ch t c e', CI cv iw wt dq cl wk e wa ch -> wt t c = true -> e t = Some true ->
  (forall d, wt t d = true -> d = c) -> (forall u, u <> t -> e' u = e u) ->
  CI cv iw (set2 wt t c false) dq cl wk e' wa ch.
Proof.
  intros cv iw wt dq cl wk e wa ch t c e' [H1 H2 H3 H4 H5 H6 H7 H8 H9] W ET WN EV. constructor; auto.
  - intros d x X. destruct (H1 d x X) as [Y | [Y Z]]; auto. right.
    assert (x <> t) by (intros ->; congruence). rewrite set2_other by auto. rewrite EV; auto.
  - intros u d x K. destruct (H4 u d x K) as [X Y]. assert (x <> t) by (intros ->; congruence). rewrite set2_other by auto. rewrite EV; auto.
  - intros x d. unfold set2. destruct (Nat.eqb_spec x t) as [-> | N1], (obj_eqb_spec d c) as [-> | N2]; cbn [andb]; try discriminate.
    + intros X. apply WN in X. contradiction.
    + intros X. rewrite EV; auto.
    + intros X. rewrite EV; auto.
Qed.

(* t chooses the thread that has waited longest *)
Lemma CI_take : forall cv iw wt dq cl wk e wa ch t c y r, CI cv iw wt dq cl wk e wa ch -> cv c = r ++ [y] ->
  (forall u, iw u c = false) -> (forall x d, ~ wk t d x) ->
  CI cv iw wt (fun u d z => u = t /\ d = c /\ z = y \/ dq u d z) cl (fun u d z => u = t /\ d = c /\ z = y \/ wk u d z) e wa ch.
Proof.
  intros cv iw wt dq cl wk e wa ch t c y r [H1 H2 H3 H4 H5 H6 H7 H8 H9] E I K. constructor; auto.
  - intros u d x [(-> & -> & ->) | X]; [| eauto]. assert (IY : In y (cv c)) by (rewrite E, in_app_iff; right; left; auto).
    destruct (H1 c y IY) as [Y | Y]; auto. rewrite I in Y. discriminate.
  - intros u d x [(-> & -> & ->) | X] Y; auto 10. destruct (H5 u d x X Y); auto.
  - intros u d z [(-> & -> & ->) | X]; eauto 10. destruct (H6 u d z X). auto.
  - intros u d l X. destruct (H7 u d l X). auto.
  - intros x d X Y. destruct (H8 x d X Y) as [Z | [u Z]]; eauto.
Qed.

Lemma remove_last : forall r y, NoDup (r ++ [y]) -> filter (fun z => negb (Nat.eqb z y)) (r ++ [y]) = r.
Proof.
  intros r y ND. rewrite filter_app. cbn. rewrite Nat.eqb_refl. cbn. rewrite app_nil_r.
  apply NoDup_remove in ND. rewrite app_nil_r in ND. destruct ND as [_ NI]. induction r as [| a r IH]; auto. cbn in *.
  destruct (Nat.eqb_spec a y); [subst; exfalso; auto |]. cbn. f_equal. apply IH. auto.
Qed.

Lemma CI_delq : forall cv iw wt dq cl wk e wa ch t c y, CI cv iw wt dq cl wk e wa ch -> dq t c y ->
  (forall u z, dq u c z -> u = t /\ z = y) -> (forall u l, ~ cl u c l) -> (forall u x, wk u c x -> u = t) -> iw y c = false ->
  CI (oput cv c (filter (fun z => negb (Nat.eqb z y)) (cv c))) iw wt (fun u d z => d <> c /\ dq u d z) cl wk e wa (snoc ch c y).
Proof.
  intros cv iw wt dq cl wk e wa ch t c y [H1 H2 H3 H4 H5 H6 H7 H8 H9] D DU CU KU IY.
  destruct (H6 t c y D) as [[r E] WK]. pose proof (H2 c) as ND. rewrite E in ND.
  assert (RM : filter (fun z => negb (Nat.eqb z y)) (cv c) = r) by (rewrite E; apply remove_last; auto). rewrite RM.
  assert (NY : ~ In y r). { apply NoDup_remove in ND. rewrite app_nil_r in ND. apply ND. }
  assert (IR : forall x, In x r -> In x (cv c)) by (intros; rewrite E, in_app_iff; auto).
  assert (IC : forall x, In x (cv c) -> x = y \/ In x r) by (intros x; rewrite E, in_app_iff; intros [X | [X | []]]; auto).
  constructor; auto.
  - intros d x. unfold oput. destruct (obj_eqb_spec d c) as [-> | N]; auto.
  - intros d. unfold oput. destruct (obj_eqb_spec d c) as [-> | N]; auto. apply NoDup_remove in ND. rewrite app_nil_r in ND. apply ND.
  - intros u d X. unfold oput. destruct (obj_eqb_spec d c) as [-> | N]; auto. destruct (IC u (H3 u c X)) as [-> | Y]; auto. congruence.
  - intros u d x X. unfold oput. destruct (obj_eqb_spec d c) as [-> | N].
    + intros Y. destruct (H5 u c x X (IR _ Y)) as [Z | [l Z]].
      * destruct (DU _ _ Z) as [-> ->]. contradiction.
      * exfalso. eapply CU; eauto.
    + intros Y. destruct (H5 u d x X Y) as [Z | Z]; auto.
  - intros u d z [N X]. rewrite oput_other by auto. apply H6; auto.
  - intros u d l X. unfold oput. destruct (obj_eqb_spec d c) as [-> | N]; auto. exfalso. eapply CU; eauto.
  - intros x d X Y. destruct (H8 x d X Y) as [Z | Z]; auto. unfold oput. destruct (obj_eqb_spec d c) as [-> | N]; auto.
    destruct (IC x Z) as [-> | W]; eauto.
  - intros d. unfold snoc, oput. destruct (obj_eqb_spec d c) as [-> | N]; auto. rewrite H9, E, rev_app_distr, <- app_assoc. reflexivity.
Qed.

(* t wakes x *)
Lemma CI_wake : forall cv iw wt dq cl wk e wa ch t c x e', CI cv iw wt dq cl wk e wa ch -> wk t c x ->
  (forall d, wt x d = true -> d = c) ->
  (forall u, wk u c x -> u = t) -> (forall y, ~ dq t c y) -> (forall l, ~ cl t c l) -> (forall u d, u <> x -> wt u d = true -> e' u = e u) -> e' x = Some true ->
  CI cv iw wt dq cl (fun u d z => ~ (u = t /\ d = c /\ z = x) /\ wk u d z) e' wa ch.
Proof.
  intros cv iw wt dq cl wk e wa ch t c x e' [H1 H2 H3 H4 H5 H6 H7 H8 H9] K WX KU DU CU EV EX.
  destruct (H4 t c x K) as [K1 K2].
  assert (NX : forall d, In x (cv d) -> iw x d = true).
  { intros d I. destruct (H1 d x I) as [Y | [Y _]]; auto. apply WX in Y. subst d. destruct (H5 t c x K I) as [Z | [l Z]]; [destruct (DU _ Z) | destruct (CU _ Z)]. }
  constructor; auto.
  - intros d y I. destruct (Nat.eqb_spec y x) as [-> | N]; [left; auto |]. destruct (H1 d y I) as [Y | [Y Z]]; auto. right. rewrite (EV y d); auto.
  - intros u d y [N X]. destruct (H4 u d y X) as [Y Z]. assert (y <> x).
    { intros ->. apply WX in Y. subst d. apply N. rewrite (KU u X). auto. }
    rewrite (EV y d); auto.
  - intros u d y [N X] I. auto.
  - intros u d y X. destruct (H6 u d y X) as [Y Z]. split; auto. split; auto. intros (-> & -> & ->). exact (DU _ X).
  - intros u d l X. destruct (H7 u d l X) as [Y Z]. split; auto. intros z I. split; auto. intros (-> & -> & ->). exact (CU _ X).
  - intros y d X Y. destruct (Nat.eqb_spec y x) as [-> | N]; [congruence |]. rewrite (EV y d N X) in Y.
    destruct (H8 y d X Y) as [Z | [u Z]]; auto. right. exists u. split; auto. intros (_ & _ & ->). contradiction.
Qed.

Lemma CI_broad : forall cv iw wt dq cl wk e wa ch t c, CI cv iw wt dq cl wk e wa ch -> (forall u, iw u c = false) ->
  (forall x d, ~ wk t d x) ->
  CI cv iw wt dq (fun u d l => u = t /\ d = c /\ l = rev (cv c) \/ cl u d l) (fun u d z => u = t /\ d = c /\ In z (cv c) \/ wk u d z) e wa ch.
Proof.
  intros cv iw wt dq cl wk e wa ch t c [H1 H2 H3 H4 H5 H6 H7 H8 H9] I K. constructor; auto.
  - intros u d x [(-> & -> & X) | X]; [| eauto]. destruct (H1 c x X) as [Y | Y]; auto. rewrite I in Y. discriminate.
  - intros u d x [(-> & -> & X) | X] Y; [right; eauto |]. destruct (H5 u d x X Y) as [Z | [l Z]]; eauto.
  - intros u d z X. destruct (H6 u d z X). auto.
  - intros u d l [(-> & -> & ->) | X]; [split; auto; intros x Y; left; apply in_rev in Y; auto |]. destruct (H7 u d l X). auto.
  - intros x d X Y. destruct (H8 x d X Y) as [Z | [u Z]]; eauto.
Qed.

Lemma CI_clear : forall cv iw wt dq cl wk e wa ch t c l, CI cv iw wt dq cl wk e wa ch -> cl t c l ->
  (forall u, iw u c = false) -> (forall u z, ~ dq u c z) ->
  CI (oput cv c []) iw wt dq (fun u d k => d <> c /\ cl u d k) wk e wa (oput ch c (ch c ++ l)).
Proof.
  intros cv iw wt dq cl wk e wa ch t c l [H1 H2 H3 H4 H5 H6 H7 H8 H9] D I DU. destruct (H7 t c l D) as [E WK]. constructor; auto.
  - intros d x. unfold oput. destruct (obj_eqb_spec d c) as [-> | N]; [intros [] | auto].
  - intros d. unfold oput. destruct (obj_eqb_spec d c) as [-> | N]; [constructor | auto].
  - intros u d X. unfold oput. destruct (obj_eqb_spec d c) as [-> | N]; [| auto]. rewrite I in X. discriminate.
  - intros u d x X. unfold oput. destruct (obj_eqb_spec d c) as [-> | N]; [intros [] |]. intros Y. destruct (H5 u d x X Y) as [Z | [k Z]]; eauto.
  - intros u d z X. destruct (H6 u d z X) as [Y Z]. unfold oput. destruct (obj_eqb_spec d c) as [-> | N]; auto. destruct (DU _ _ X).
  - intros u d k [N X]. rewrite oput_other by auto. auto.
  - intros x d X Y. destruct (H8 x d X Y) as [Z | Z]; auto. unfold oput. destruct (obj_eqb_spec d c) as [-> | N]; auto. right. exists t. apply WK. rewrite E. now apply in_rev in Z.
  - intros d. unfold oput. destruct (obj_eqb_spec d c) as [-> | N]; auto. rewrite H9, E. cbn. now rewrite app_nil_r.
Qed.
