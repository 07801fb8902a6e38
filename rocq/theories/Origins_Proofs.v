From Coq Require Import ZArith List Bool Arith Lia.
From Verif Require Import Origins_Model Origins_Spec.
Import ListNotations.

Lemma is_in_iff : forall l p, is_in l p = true <-> In p l.
Proof.
  intros l p. unfold is_in. rewrite existsb_exists. split.
  - intros (x & I & E). apply Nat.eqb_eq in E. subst. auto.
  - intros I. exists p. split; auto. apply Nat.eqb_refl.
Qed.

Lemma find_item_in : forall l p o, find_item l p = Some o -> In (p, o) l.
Proof.
  induction l as [|[q x] l IH]; intros p o H; cbn in *; [discriminate|].
  destruct (Nat.eqb_spec q p); [inversion H; subst; auto|right; auto].
Qed.
Lemma find_item_none : forall l p, (forall o, ~ In (p, o) l) -> find_item l p = None.
Proof.
  intros l p H. destruct (find_item l p) as [o|] eqn:E; auto. apply find_item_in in E. exfalso. exact (H o E).
Qed.
Lemma find_item_filter : forall l p q, p <> q ->
  find_item (filter (fun it => negb (fst it =? q)) l) p = find_item l p.
Proof.
  induction l as [|[r x] l IH]; intros p q N; cbn; auto. destruct (Nat.eqb_spec r q); cbn.
  - subst. destruct (Nat.eqb_spec q p); [congruence|auto].
  - destruct (r =? p); auto.
Qed.

Lemma drop_find : forall q b p i, p <> q -> find_item (drop_form b q i) p = find_item (b i) p.
Proof. intros q b p i N. unfold drop_form. destruct (i =? hash q); auto. apply find_item_filter; auto. Qed.
Lemma drop_in : forall q b p o i, (forall i, In (q, o) (b i) -> i = hash q) -> In (p, o) (drop_form b q i) -> In (p, o) (b i) /\ p <> q.
Proof.
  intros q b p o i H I. unfold drop_form in I. destruct (Nat.eqb_spec i (hash q)).
  - apply filter_In in I. destruct I as (I & N). split; auto. cbn in N. intros ->. rewrite Nat.eqb_refl in N. discriminate.
  - split; auto. intros ->. apply n. apply H. exact I.
Qed.

Record inv (said : nat -> option origin) (s : state) : Prop := {
  own_used : forall p, own s p = true -> used s p = true;
  items : forall i p o, In (p, o) (buckets s i) -> i = hash p /\ (In p (accessible s) \/ In p (inaccessible s));
  watched : forall p, In p (accessible s) \/ In p (inaccessible s) -> used s p = true;
  not_dead : forall p, own s p = true -> ~ In p (inaccessible s);
  known : forall p, own s p = true -> find_item (buckets s (hash p)) p = said p }.

Lemma inv_start : inv (fun _ => None) start.
Proof. constructor; cbn; try discriminate; tauto. Qed.

Lemma inv_ext : forall a b s, (forall p, a p = b p) -> inv a s -> inv b s.
Proof. intros a b s E [H1 H2 H3 H4 H5]. constructor; auto. intros p Hp. rewrite <- E. auto. Qed.

Lemma inv_after : forall said s, inv said s -> inv said (after_gc s).
Proof.
  intros said s [H1 H2 H3 H4 H5].
  assert (G : forall l b,
    (forall i p o, In (p, o) (b i) -> i = hash p) ->
    (forall p, ~ In p l -> forall i, find_item (fold_left drop_form l b i) p = find_item (b i) p) /\
    (forall i p o, In (p, o) (fold_left drop_form l b i) -> In (p, o) (b i) /\ ~ In p l)).
  { induction l as [|q l IH]; intros b Hb; cbn [fold_left].
    - split; auto.
    - assert (Hb' : forall i p o, In (p, o) (drop_form b q i) -> i = hash p).
      { intros i p o I. apply drop_in in I; [|eauto]. apply (Hb i p o). tauto. }
      destruct (IH _ Hb') as (A & B). split.
      + intros p N i. rewrite A by (intros J; apply N; right; auto). apply drop_find. intros ->. apply N. left. auto.
      + intros i p o I. destruct (B i p o I) as (I1 & N). apply drop_in in I1; [|eauto]. destruct I1 as (I1 & N1). split; auto.
        intros [J|J]; [congruence|contradiction]. }
  destruct (G (inaccessible s) (buckets s)) as (A & B); [intros i p o I; apply (H2 i p o I)|].
  constructor; cbn [after_gc own used buckets accessible inaccessible]; auto.
  - intros i p o I. destruct (B i p o I) as (I1 & N). destruct (H2 i p o I1) as (E & [J|J]); tauto.
  - intros p [J|[]]. auto.
  - intros p Hp. rewrite A by (apply H4; auto). auto.
Qed.

Lemma inv_step : forall said s o s', inv said s -> step s o = Some s' -> inv (now_said said o) s'.
Proof.
  intros said s o s' I R. pose proof I as [H1 H2 H3 H4 H5]. destruct o as [p a d|p a d|on v strm line|live kept|]; cbn [step] in R.
  - destruct (used s p) eqn:U; [discriminate|]. destruct (negb (owned s a && owned s d)); [discriminate|].
    cbn [orb] in R. inversion R; subst; clear R. constructor; cbn [own used buckets accessible inaccessible now_said]; auto.
    + intros q. destruct (q =? p); cbn; auto.
    + intros q J. rewrite (H3 q J). apply orb_true_r.
    + intros q Hq J. destruct (Nat.eqb_spec q p); [subst; rewrite H3 in U by auto; discriminate|]. cbn in Hq. exact (H4 q Hq J).
    + intros q Hq. destruct (Nat.eqb_spec q p).
      * subst. apply find_item_none. intros o J. apply H2 in J. destruct J as (_ & J). rewrite H3 in U by auto. discriminate.
      * auto.
  - destruct (own s p && owned s a && owned s d); [|discriminate]. inversion R; subst. constructor; auto.
  - destruct (owned s v) eqn:O; [|discriminate]. inversion R; subst; clear R.
    destruct v as [n|p]; [cbn; destruct on; auto|]. cbn [record_origin now_said].
    destruct on; [|cbn; auto]. destruct strm as [fp bg nm ln]. cbn [filep bogus name line_number negb orb].
    destruct fp; [|cbn; auto]. destruct bg; [cbn; auto|]. cbn [negb orb].
    cbn in O. constructor; cbn [own used buckets accessible inaccessible]; auto.
    + intros i q o J. destruct (Nat.eqb_spec i (hash p)).
      * destruct J as [J|J].
        -- inversion J; subst. split; auto. left. left. auto.
        -- destruct (H2 i q o J) as (E & [K|K]); split; auto. left. right. auto.
      * destruct (H2 i q o J) as (E & [K|K]); split; auto. left. right. auto.
    + intros q [[<-|J]|J]; auto.
    + intros q Hq. destruct (Nat.eqb_spec q p).
      * subst. rewrite Nat.eqb_refl. cbn [find_item]. rewrite Nat.eqb_refl. reflexivity.
      * destruct (hash q =? hash p); [|auto]. cbn [find_item]. destruct (Nat.eqb_spec p q); [congruence|auto].
  - destruct (closed s live) eqn:C1; [|discriminate]. destruct (closed s kept) eqn:C2; [|discriminate].
    destruct (forallb (own s) live) eqn:C3; [|discriminate].
    destruct (forallb (is_in kept) (inaccessible (collect s live kept))) eqn:C4; [|discriminate].
    cbn [andb] in R. inversion R; subst; clear R. rewrite forallb_forall in C3, C4.
    assert (NEW : forall q, In q (inaccessible (collect s live kept)) <->
       In q (accessible s) /\ is_in live q = false \/ In q (inaccessible s)).
    { intros q. cbn [collect inaccessible]. rewrite in_app_iff, <- in_rev, filter_In. destruct (is_in live q); cbn; intuition discriminate. }
    constructor; cbn [now_said].
    + intros q Hq. cbn in Hq |- *. apply andb_prop in Hq. destruct Hq as (Hq & L). rewrite (H1 q Hq), L. reflexivity.
    + intros i q o J. cbn [collect buckets accessible] in *. destruct (H2 i q o J) as (E & K). split; auto.
      rewrite NEW. rewrite filter_In. destruct (is_in live q); tauto.
    + intros q J. cbn [collect used]. destruct J as [J|J].
      * cbn in J. apply filter_In in J. destruct J as (J & L). rewrite (H3 q (or_introl J)), L. reflexivity.
      * pose proof (C4 q J) as K. apply NEW in J. rewrite K, orb_true_r, andb_true_r. apply H3. tauto.
    + intros q Hq J. cbn in Hq. apply andb_prop in Hq. destruct Hq as (Hq & L). apply NEW in J.
      destruct J as [(_ & J)|J]; [congruence|exact (H4 q Hq J)].
    + intros q Hq. cbn in Hq |- *. apply andb_prop in Hq. apply H5. tauto.
  - inversion R; subst. apply inv_after. exact I.
Qed.

Lemma inv_steps : forall l said s s', inv said s -> steps s l = Some s' -> inv (fold_left now_said l said) s'.
Proof.
  induction l as [|o l IH]; intros said s s' I R; cbn in *; [inversion R; subst; auto|].
  destruct (step s o) as [s1|] eqn:E; [|discriminate]. eapply IH; [|exact R]. eapply inv_step; eauto.
Qed.

(** ** Searching a form *)
Fixpoint elements_origin (said : nat -> option origin) (t : form) : option origin :=
  match t with
  | FSym _ => None
  | FCons _ a d => match form_origin said a with Some o => Some o | None => elements_origin said d end
  end.
Lemma form_origin_eq : forall said p a d, form_origin said (FCons p a d) =
  match said p with Some o => Some o | None => elements_origin said (FCons p a d) end.
Proof.
  intros said p a d. cbn. destruct (said p); auto. destruct (form_origin said a); auto.
  induction d as [|q a' _ d' IH]; cbn; auto. destruct (form_origin said a'); auto.
Qed.

Lemma lexical_ok : forall said s, (forall p, own s p = true -> find_item (buckets s (hash p)) p = said p) ->
  forall n t v, is_form s v t ->
  (2 * size t <= n -> lexical_origin n s v = Some (form_origin said t)) /\
  (2 * size t <= S n -> scan n s v = Some (elements_origin said t)).
Proof.
  intros said s K. induction n as [n IH] using lt_wf_ind. intros t v F. split; intros L.
  - destruct n as [|n]; [destruct t; cbn in L; lia|]. destruct t as [m|p a d].
    + cbn in F. subst. reflexivity.
    + destruct F as (-> & O & Fa & Fd). cbn [lexical_origin]. rewrite (K p O). rewrite form_origin_eq.
      destruct (said p) as [o|]; auto. apply (IH n ltac:(lia) (FCons p a d) (Ptr p)); [cbn; auto|lia].
  - destruct n as [|n]; [destruct t; cbn in L; lia|]. destruct t as [m|p a d].
    + cbn in F. subst. reflexivity.
    + destruct F as (-> & O & Fa & Fd). cbn [scan elements_origin]. cbn [size] in L.
      destruct (IH n ltac:(lia) a _ Fa) as (A & _). rewrite A by lia. destruct (form_origin said a) as [o|]; auto.
      destruct (IH n ltac:(lia) d _ Fd) as (_ & B). apply B. lia.
Qed.
