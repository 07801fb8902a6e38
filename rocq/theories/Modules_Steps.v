(** Each operation keeps the cache right. *)
From Coq Require Import List ZArith Bool Arith Lia Permutation.
From Verif Require Import Modules_Model Modules_Spec Modules_Proofs.
Import ListNotations.
Open Scope nat_scope.

Scheme offers_mut := Minimality for offers Sort Prop with among_mut := Minimality for among Sort Prop.
Combined Scheme offers_among from offers_mut, among_mut.

Definition shape (v : sym) (m m' : module) : Prop :=
  match defs m v, defs m' v with
  | Some e, Some e' => exported e = exported e'
  | None, None => passes m v = passes m' v
  | _, _ => False
  end.

Lemma transfer U U' v (P : nat -> Prop) :
  (forall s m, P s -> mods U s = Some m -> exists m', mods U' s = Some m' /\ opens m' = opens m /\ shape v m m') ->
  (forall s m i, P s -> mods U s = Some m -> In i (opens m) -> the U' i = the U i /\ (forall t, the U i = Some t -> P t)) ->
  (forall i r, offers U v i r -> the U' i = the U i -> (forall t, the U i = Some t -> P t) -> offers U' v i r) /\
  (forall l r, among U v l r -> (forall i, In i l -> the U' i = the U i /\ (forall t, the U i = Some t -> P t)) -> among U' v l r).
Proof.
  intros H1 H2. apply offers_among.
  - intros i E T _. apply offers_unknown. congruence.
  - intros i s m e E M D X T K. destruct (H1 s m (K s E) M) as (m' & M' & O & SH). unfold shape in SH. rewrite D in SH.
    destruct (defs m' v) as [e'|] eqn:D'; [|contradiction]. eapply offers_own with (s := s) (m := m') (e := e'); [congruence|exact M'|exact D'|congruence].
  - intros i s m e E M D X T K. destruct (H1 s m (K s E) M) as (m' & M' & O & SH). unfold shape in SH. rewrite D in SH.
    destruct (defs m' v) as [e'|] eqn:D'; [|contradiction]. eapply offers_hidden with (s := s) (m := m') (e := e'); [congruence|exact M'|exact D'|congruence].
  - intros i s m E M D PS T K. destruct (H1 s m (K s E) M) as (m' & M' & O & SH). unfold shape in SH. rewrite D in SH.
    destruct (defs m' v) as [e'|] eqn:D'; [contradiction|]. eapply offers_not with (s := s) (m := m'); [congruence|exact M'|exact D'|congruence].
  - intros i s m r E M D PS A IH T K. destruct (H1 s m (K s E) M) as (m' & M' & O & SH). unfold shape in SH. rewrite D in SH.
    destruct (defs m' v) as [e'|] eqn:D'; [contradiction|]. eapply offers_other with (s := s) (m := m'); [congruence|exact M'|exact D'|congruence|].
    rewrite O. apply IH. intros k I. exact (H2 s m k (K s E) M I).
  - intros _. constructor.
  - intros i l s O IH K. destruct (K i (or_introl eq_refl)) as (K1 & K2). apply among_first. exact (IH K1 K2).
  - intros i l r O IH A IHA K. destruct (K i (or_introl eq_refl)) as (K1 & K2). apply among_later; [exact (IH K1 K2)|].
    apply IHA. intros k I. apply K. right. exact I.
Qed.

Section Hash.
Variable hash : sym -> nat.
Notation line_ok := (line_ok hash).
Notation cache_ok := (cache_ok hash).
Notation R := (R hash).
Notation rel := (rel hash).
Notation table_ok := (table_ok hash).

(** [Q] are the structures whose lines are kept, [P] those they look into *)
Lemma line_keep w w' U U' j s n (P Q : nat -> Prop) :
  line_ok w U j s n -> Q s ->
  (forall s m, Q s -> mods U s = Some m -> exists m', mods U' s = Some m' /\ opens m' = opens m) ->
  (forall s m i, Q s -> mods U s = Some m -> In i (opens m) -> the U' i = the U i /\ (forall t, the U i = Some t -> P t)) ->
  (forall t, P t -> Q t) ->
  (forall nd s m m', get_node w n = Some nd -> P s -> mods U s = Some m -> mods U' s = Some m' -> shape (nsym nd) m m') ->
  (forall o x nd, P o -> get_struct w o = Some x -> owns x n -> get_node w n = Some nd ->
     exists x' nd', get_struct w' o = Some x' /\ owns x' n /\ get_node w' n = Some nd' /\ nsym nd' = nsym nd) ->
  line_ok w' U' j s n.
Proof.
  intros [(nd & o & x & m & t & G & J & S & O & M & ED & B & A)] QS H1 H2 PQ H3 H4.
  assert (EQ : forall a b, Q a -> edge U a b -> edge U' a b /\ P b).
  { intros a b QA (ma & i & MA & I & T). destruct (H1 a ma QA MA) as (ma' & MA' & OA). destruct (H2 a ma i QA MA I) as (T' & PB).
    split; [|exact (PB b T)]. exists ma', i. rewrite OA. split; [exact MA'|]. split; [exact I|congruence]. }
  assert (BQ : forall a b, below U a b -> P a -> below U' a b /\ P b).
  { induction 1 as [a|a b c E BB IH]; intros PA; [split; [apply below_refl|exact PA]|].
    destruct (EQ a b (PQ a PA) E) as (E' & PB). destruct (IH PB) as (B' & PC). split; [|exact PC]. eapply below_step; eassumption. }
  destruct (EQ s t QS ED) as (ED' & PT). destruct (BQ t o B PT) as (B' & PO).
  destruct (H4 o x nd PO S O G) as (x' & nd' & S' & O' & G' & V'). destruct (H1 s m QS M) as (m' & M' & OP).
  split. exists nd', o, x', m', t. split; [exact G'|]. split; [congruence|]. split; [exact S'|]. split; [exact O'|]. split; [exact M'|].
  split; [exact ED'|]. split; [exact B'|]. intros GR. rewrite V', OP.
  assert (GU : grounded U s).
  { clear - GR EQ QS PQ. revert QS. induction GR as [s _ IH]. intros QS. constructor. intros t E.
    destruct (EQ s t QS E) as (E' & PT). exact (IH t E' (PQ t PT)). }
  destruct (transfer U U' (nsym nd) P) as (_ & TR).
  - intros a ma PA MA. destruct (H1 a ma (PQ a PA) MA) as (ma' & MA' & OA). exists ma'. split; [exact MA'|]. split; [exact OA|].
    exact (H3 nd a ma ma' G PA MA MA').
  - intros a ma i PA MA I. exact (H2 a ma i (PQ a PA) MA I).
  - apply TR; [exact (A GU)|]. intros i I. exact (H2 s m i QS M I).
Qed.

(** * One structure changes *)
Lemma mods_at U s m t : mods (at_mod U s m) t = if Nat.eqb t s then Some m else mods U t.
Proof. reflexivity. Qed.
Lemma mods_at_alive U s m m' t : mods U s = Some m -> mods U t <> None -> mods (at_mod U s m') t <> None.
Proof. intros M H. rewrite mods_at. destruct (Nat.eqb t s); [discriminate|exact H]. Qed.
Lemma mods_at_back U s m m' t : mods U s = Some m -> mods (at_mod U s m') t <> None -> mods U t <> None.
Proof. intros M H. rewrite mods_at in H. destruct (Nat.eqb t s) eqn:E; [apply Nat.eqb_eq in E; subst; congruence|exact H]. Qed.
Lemma the_at U s m i : the (at_mod U s m) i = the U i.
Proof. destruct i; reflexivity. Qed.

Lemma R_update w U s x m w' x' m' :
  R w U -> get_struct w s = Some x -> mods U s = Some m ->
  structs w' = set_nth (structs w) s (Some x') -> names w' = names w ->
  (forall t y n, t <> s -> get_struct w t = Some y -> owns y n -> get_node w' n = get_node w n) ->
  rel w' x' m' ->
  (forall t y n, t <> s -> get_struct w t = Some y -> owns y n -> ~ owns x' n) ->
  (forall t, In (ByObj t) (opens m') -> mods U t <> None) ->
  R w' (at_mod U s m').
Proof.
  intros RW GX M ES EN HN RL HO HI.
  assert (L : s < length (structs w)) by exact (nth_error_nth_none _ _ _ GX).
  assert (GS : forall t, get_struct w' t = if Nat.eqb t s then Some x' else get_struct w t)
    by (intros t; unfold get_struct; rewrite ES; apply nth_set_nth; exact L).
  split.
  - rewrite ES, set_nth_length by exact L. exact (R_count _ _ _ RW).
  - intros t mt MT. rewrite mods_at in MT. rewrite GS. destruct (Nat.eqb t s) eqn:E.
    + injection MT as <-. exists x'. split; [reflexivity|exact RL].
    + apply Nat.eqb_neq in E. destruct (R_mod _ _ _ RW t mt MT) as (y & GY & RY). exists y. split; [exact GY|].
      destruct RY. split; auto.
      * eapply table_ext; [eassumption|]. intros n nd I G. exists nd. split; [|reflexivity]. rewrite <- G. exact (HN t y n E GY I).
      * intros n nd I G. apply (r_def n nd I). rewrite <- G. symmetry. exact (HN t y n E GY I).
      * intros v e D. destruct (r_undef v e D) as (n & nd & O & G & V). exists n, nd. split; [exact O|]. split; [|exact V].
        rewrite <- G. exact (HN t y n E GY O).
  - intros t y G. rewrite GS in G. rewrite mods_at. destruct (Nat.eqb t s); [discriminate|exact (R_struct _ _ _ RW t y G)].
  - intros n. change (called (at_mod U s m') n) with (called U n). rewrite <- (R_called _ _ _ RW n). unfold get_structure. rewrite EN. reflexivity.
  - intros n t C. apply (mods_at_alive _ _ m); [exact M|]. exact (R_names _ _ _ RW n t C).
  - intros t mt u MT I. apply (mods_at_alive _ _ m); [exact M|]. rewrite mods_at in MT. destruct (Nat.eqb t s).
    + injection MT as <-. exact (HI u I).
    + exact (R_objs _ _ _ RW t mt u MT I).
  - intros t t' y y' n G G' O O'. rewrite GS in G, G'. destruct (Nat.eqb t s) eqn:E, (Nat.eqb t' s) eqn:E'.
    + apply Nat.eqb_eq in E, E'. congruence.
    + injection G as <-. apply Nat.eqb_neq in E'. exfalso. exact (HO t' y' n E' G' O' O).
    + injection G' as <-. apply Nat.eqb_neq in E. exfalso. exact (HO t y n E G O O').
    + exact (R_own _ _ _ RW t t' y y' n G G' O O').
Qed.

(** The lines of the cache are kept *)
Lemma keep_at w U s x m w' x' m' j t n :
  get_struct w s = Some x -> mods U s = Some m ->
  structs w' = set_nth (structs w) s (Some x') ->
  opens m' = opens m ->
  (forall nd, get_node w n = Some nd -> shape (nsym nd) m m') \/ unopened U s ->
  (forall o y nd, (unopened U s -> o <> s \/ shape (nsym nd) m m') -> get_struct w o = Some y -> owns y n -> get_node w n = Some nd ->
     (o = s -> owns x' n) /\ exists nd', get_node w' n = Some nd' /\ nsym nd' = nsym nd) ->
  line_ok w U j t n -> line_ok w' (at_mod U s m') j t n.
Proof.
  intros GX M ES OP SH HN LO.
  assert (L : s < length (structs w)) by exact (nth_error_nth_none _ _ _ GX).
  assert (GS : forall t, get_struct w' t = if Nat.eqb t s then Some x' else get_struct w t)
    by (intros u; unfold get_struct; rewrite ES; apply nth_set_nth; exact L).
  apply (line_keep w w' U (at_mod U s m') j t n (fun u => u = s -> forall nd, get_node w n = Some nd -> shape (nsym nd) m m') (fun _ => True)); auto.
  - intros u mu _ MU. rewrite mods_at. destruct (Nat.eqb u s) eqn:E; [|exists mu; auto].
    apply Nat.eqb_eq in E. subst u. rewrite M in MU. injection MU as <-. exists m'. auto.
  - intros u mu i _ MU I. split; [apply the_at|]. intros a T ->. destruct SH as [SH|UN]; [exact SH|].
    exfalso. apply (UN u). exists mu, i. auto.
  - intros nd u mu mu' G P MU MU'. rewrite mods_at in MU'. destruct (Nat.eqb u s) eqn:E.
    + apply Nat.eqb_eq in E. subst u. rewrite M in MU. injection MU as <-. injection MU' as <-. exact (P eq_refl nd G).
    + rewrite MU in MU'. injection MU' as <-. unfold shape. destruct (defs mu (nsym nd)); reflexivity.
  - intros o y nd P GO O G. destruct (HN o y nd) as (H1 & nd' & H2 & H3); auto.
    { intros UN. destruct (Nat.eq_dec o s) as [->|NE]; [right; exact (P eq_refl nd G)|left; exact NE]. }
    rewrite GS. destruct (Nat.eqb o s) eqn:E.
    + apply Nat.eqb_eq in E. exists x', nd'. auto.
    + exists y, nd'. auto.
Qed.

(** * Invalidation *)
Lemma inval_list w v l : (forall x t, In x l -> ls x = Some t -> exists nd, get_node w (ln x) = Some nd) ->
  exists l', inval w v l = Ok l' /\
    (forall y t, In y l' -> ls y = Some t -> In y l /\ forall nd, get_node w (ln y) = Some nd -> nsym nd <> v).
Proof.
  induction l as [|x l IH]; intros A; cbn [inval].
  - exists []. split; [reflexivity|]. intros y t [].
  - destruct (IH (fun y t I => A y t (or_intror I))) as (l' & E & P). rewrite E. cbn [bind].
    destruct (ls x) as [t|] eqn:S.
    + destruct (A x t (or_introl eq_refl) S) as (nd & G). rewrite G. eexists. split; [reflexivity|].
      intros y u [<-|I] SY.
      * destruct (Nat.eqb (nsym nd) v) eqn:V; [discriminate SY|]. split; [left; reflexivity|].
        intros nd' G'. rewrite G in G'. injection G' as <-. apply Nat.eqb_neq. exact V.
      * destruct (P y u I SY) as (I' & H). split; [right; exact I'|exact H].
    + eexists. split; [reflexivity|]. intros y u [<-|I] SY; [congruence|].
      destruct (P y u I SY) as (I' & H). split; [right; exact I'|exact H].
Qed.
Lemma inval_spec w c v : length (sets c) = CACHE_SETS ->
  (forall j s n, has c j s n -> exists nd, get_node w n = Some nd /\ set_of hash (nsym nd) = j) ->
  exists c', invalidate_symbol hash w v c = Ok c' /\ length (sets c') = CACHE_SETS /\
    forall j s n, has c' j s n -> has c j s n /\ forall nd, get_node w n = Some nd -> nsym nd <> v.
Proof.
  intros L A. assert (LT : set_of hash v < length (sets c)) by (rewrite L; apply set_of_lt).
  unfold invalidate_symbol. destruct (inval_list w v (nth (set_of hash v) (sets c) [])) as (l' & E & P).
  { intros x t I S. destruct (A _ _ _ (has_nth c _ x t _ LT I S eq_refl)) as (nd & G & _). eauto. }
  rewrite E. cbn [bind]. eexists. split; [reflexivity|]. split; [cbn [sets]; rewrite set_nth_length by exact LT; exact L|].
  intros j s n H. apply has_set in H; [|exact LT]. destruct H as [(-> & y & Y & S & N)|(NE & H)].
  - destruct (P y s Y S) as (I & V). split; [exact (has_nth c _ y _ _ LT I S N)|]. subst n. exact V.
  - split; [exact H|]. intros nd G V. destruct (A _ _ _ H) as (nd' & G' & J). rewrite G in G'. injection G' as <-. congruence.
Qed.

(** What a step has to do *)
Definition good (st : state) (U : universe) (o : op) : Prop :=
  exists a st' U', step hash st o = Ok (a, st') /\ does U o a U' /\ R (wd st') U' /\ cache_ok (wd st') U' (ca st').

Definition Inv (st : state) (U : universe) : Prop := R (wd st) U /\ cache_ok (wd st) U (ca st).

Lemma has_node w U c j s n : cache_ok w U c -> has c j s n -> exists nd, get_node w n = Some nd /\ set_of hash (nsym nd) = j.
Proof. intros (_ & A) H. destruct (A _ _ _ H) as [(nd & o & x & m & t & G & J & _)]. eauto. Qed.

Lemma get_put_node w n x k : n < length (nodes w) -> get_node (put_node w n x) k = if Nat.eqb k n then x else get_node w k.
Proof. intros L. unfold get_node, put_node. cbn [nodes]. apply nth_set_nth. exact L. Qed.
Lemma node_lt w n nd : get_node w n = Some nd -> n < length (nodes w).
Proof. apply nth_error_nth_none. Qed.
Lemma put_same w s x : get_struct w s = Some x -> set_nth (structs w) s (Some x) = structs w.
Proof.
  intros G. pose proof (nth_error_nth_none _ _ _ G) as L. unfold get_struct in G.
  transitivity (firstn s (structs w) ++ skipn s (structs w)); [|apply firstn_skipn]. unfold set_nth. f_equal.
  assert (E : nth_error (structs w) s = Some (Some x)) by (rewrite <- G; apply nth_error_nth'; exact L).
  clear - E. revert s E. induction (structs w) as [|a l IH]; intros s E; [destruct s; discriminate|].
  destruct s as [|s]; [cbn in E; injection E as ->; reflexivity|]. cbn [skipn]. apply IH. exact E.
Qed.

(** A node of the structure is changed, but for its symbol *)
Lemma change_node w U c s x m n nd nd' :
  R w U -> cache_ok w U c -> get_struct w s = Some x -> mods U s = Some m -> owns x n -> get_node w n = Some nd -> nsym nd' = nsym nd ->
  let w' := put_node w n (Some nd') in
  let m' := with_def m (nsym nd) (Some (entry_of nd')) (reexports m) in
  R w' (at_mod U s m') /\
  (nexp nd' = nexp nd -> cache_ok w' (at_mod U s m') c) /\
  (exists c', invalidate_symbol hash w' (nsym nd) c = Ok c' /\ cache_ok w' (at_mod U s m') c').
Proof.
  intros RW C GX M O G V w' m'. pose proof (node_lt _ _ _ G) as L.
  destruct (R_get _ _ _ _ _ RW GX) as (m0 & M0 & RL). rewrite M in M0. injection M0 as <-.
  assert (GN : forall k, get_node w' k = if Nat.eqb k n then Some nd' else get_node w k) by (intros k; apply get_put_node; exact L).
  assert (D : defs m (nsym nd) = Some (entry_of nd)) by exact (r_def _ _ _ _ RL n nd O G).
  assert (ES : structs w' = set_nth (structs w) s (Some x)) by (cbn; symmetry; apply put_same; exact GX).
  assert (SYM : forall k d, get_node w k = Some d -> exists d', get_node w' k = Some d' /\ nsym d' = nsym d).
  { intros k d Gk. rewrite GN. destruct (Nat.eqb k n) eqn:E; [|eauto]. apply Nat.eqb_eq in E. subst k. exists nd'. split; [reflexivity|congruence]. }
  assert (R1 : R w' (at_mod U s m')).
  { eapply R_update with (x := x) (m := m) (x' := x); eauto.
    - intros t y k NE GY OY. rewrite GN. destruct (Nat.eqb k n) eqn:E; [|reflexivity]. apply Nat.eqb_eq in E. subst k.
      exfalso. apply NE. exact (R_own _ _ _ RW t s y x n GY GX OY O).
    - destruct RL. split; auto.
      + eapply table_ext; [eassumption|]. intros k d _ Gk. exact (SYM k d Gk).
      + intros k d Ok Gk. rewrite GN in Gk. unfold m', with_def. cbn [defs]. destruct (Nat.eqb k n) eqn:E.
        * injection Gk as <-. rewrite V, Nat.eqb_refl. reflexivity.
        * apply Nat.eqb_neq in E. destruct (Nat.eqb (nsym d) (nsym nd)) eqn:F; [|exact (r_def k d Ok Gk)].
          apply Nat.eqb_eq in F. exfalso. apply E. exact (t_uniq _ _ _ r_table k n d nd Ok O Gk G F).
      + intros v e. unfold m', with_def. cbn [defs]. destruct (Nat.eqb v (nsym nd)) eqn:F.
        * apply Nat.eqb_eq in F. intros _. exists n, nd'. split; [exact O|]. split; [rewrite GN, Nat.eqb_refl; reflexivity|congruence].
        * intros E. destruct (r_undef v e E) as (k & d & Ok & Gk & Vk). destruct (SYM k d Gk) as (d' & Gd & Vd). exists k, d'.
          split; [exact Ok|]. split; [exact Gd|congruence].
    - intros t y k NE GY OY OX. apply NE. exact (R_own _ _ _ RW t s y x k GY GX OY OX).
    - intros t I. exact (R_objs _ _ _ RW s m t M I). }
  split; [exact R1|].
  assert (SHAPE : forall v, v <> nsym nd \/ nexp nd' = nexp nd -> shape v m m').
  { intros v H. unfold shape, m', with_def. cbn [defs]. destruct (Nat.eqb v (nsym nd)) eqn:F.
    - apply Nat.eqb_eq in F. subst v. rewrite D. cbn. destruct H as [H|H]; [congruence|symmetry; exact H].
    - destruct (defs m v); reflexivity. }
  assert (KEEP : forall j t k, line_ok w U j t k -> (forall d, get_node w k = Some d -> nsym d <> nsym nd \/ nexp nd' = nexp nd) -> line_ok w' (at_mod U s m') j t k).
  { intros j t k LO H. eapply keep_at with (x := x) (m := m) (x' := x); eauto.
    intros o y d _ GY OY G'. split; [|exact (SYM k d G')]. intros ->. rewrite GX in GY. injection GY as <-. exact OY. }
  split.
  - intros X. destruct C as (CL & CA). split; [exact CL|]. intros j t k H. apply KEEP; [exact (CA _ _ _ H)|]. intros d _. right. exact X.
  - destruct (inval_spec w' c (nsym nd)) as (c' & E & CL & P).
    + exact (proj1 C).
    + intros j t k H. destruct (has_node _ _ _ _ _ _ C H) as (d & Gd & J). destruct (SYM k d Gd) as (d' & Gd' & Vd). exists d'. rewrite Vd. auto.
    + exists c'. split; [exact E|]. split; [exact CL|]. intros j t k H. destruct (P _ _ _ H) as (H' & NV). apply KEEP; [exact (proj2 C _ _ _ H')|].
      intros d Gd. left. destruct (SYM k d Gd) as (d' & Gd' & Vd). rewrite <- Vd. exact (NV d' Gd').
Qed.

(** The structure is changed, but for its bindings *)
Lemma change_struct w U c s x m x' m' :
  R w U -> cache_ok w U c -> get_struct w s = Some x -> mods U s = Some m ->
  buckets x' = buckets x -> defs m' = defs m ->
  sname x' = named m' -> inherited x' = reexports m' -> export_all x' = everything m' -> set_binds x' = binds m' ->
  imports x' = opens m' -> accessible x' = accesses m' ->
  (forall t, In (ByObj t) (opens m') -> mods U t <> None) ->
  let w' := put_struct w s x' in
  R w' (at_mod U s m') /\
  (opens m' = opens m -> unopened U s \/ (forall v, passes m v = passes m' v) -> cache_ok w' (at_mod U s m') c) /\
  (forall v, opens m' = opens m -> (forall u, u <> v -> passes m u = passes m' u) ->
     exists c', invalidate_symbol hash w' v c = Ok c' /\ cache_ok w' (at_mod U s m') c').
Proof.
  intros RW C GX M EB ED E1 E2 E3 E4 E5 E6 HI w'.
  destruct (R_get _ _ _ _ _ RW GX) as (m0 & M0 & RL). rewrite M in M0. injection M0 as <-.
  assert (OX : forall n, owns x' n <-> owns x n) by (intros n; unfold owns; rewrite EB; tauto).
  assert (R1 : R w' (at_mod U s m')).
  { eapply R_update with (x := x) (m := m) (x' := x'); eauto.
    - destruct RL. split; auto.
      + rewrite EB. eapply table_ext; [eassumption|]. intros n nd _ G. exists nd. split; [exact G|reflexivity].
      + intros n nd O G. rewrite ED. apply r_def with (n := n); [apply OX; exact O|exact G].
      + intros v e. rewrite ED. intros D. destruct (r_undef v e D) as (n & nd & O & G & V). exists n, nd. split; [apply OX; exact O|auto].
    - intros t y k NE GY OY O'. apply OX in O'. apply NE. exact (R_own _ _ _ RW t s y x k GY GX OY O'). }
  split; [exact R1|].
  assert (SH : forall v, passes m v = passes m' v -> shape v m m').
  { intros v H. unfold shape. rewrite ED. destruct (defs m v); [reflexivity|exact H]. }
  split.
  - intros OP K. split; [exact (proj1 C)|]. intros j t k H. eapply keep_at with (x := x) (m := m) (x' := x'); eauto.
    + destruct K as [K|K]; [right; exact K|left; intros nd _; apply SH, K].
    + intros o y nd _ GY OY G. split; [|exists nd; split; [exact G|reflexivity]]. intros ->. apply OX. rewrite GX in GY. injection GY as <-. exact OY.
    + exact (proj2 C _ _ _ H).
  - intros v OP K. destruct (inval_spec w' c v) as (c' & E & CL & P).
    + exact (proj1 C).
    + intros j t k H. exact (has_node _ _ _ _ _ _ C H).
    + exists c'. split; [exact E|]. split; [exact CL|]. intros j t k H. destruct (P _ _ _ H) as (H' & NV).
      eapply keep_at with (x := x) (m := m) (x' := x'); eauto; [|exact (proj2 C _ _ _ H')].
      intros o y nd _ GY OY G. split; [|exists nd; split; [exact G|reflexivity]]. intros ->. apply OX. rewrite GX in GY. injection GY as <-. exact OY.
Qed.

(** A binding is added *)
Definition add_def (m : module) (v : sym) : module :=
  with_def m v (Some (mke 0%Z false (passes m v))) (if passes m v then without v (reexports m) else reexports m).
Lemma add_spec w U c s x m v :
  R w U -> cache_ok w U c -> get_struct w s = Some x -> mods U s = Some m -> defs m v = None ->
  exists n w' c' x', lookup_or_add hash w c s x v = Ok (n, w', c') /\ R w' (at_mod U s (add_def m v)) /\ cache_ok w' (at_mod U s (add_def m v)) c' /\
    get_struct w' s = Some x' /\ owns x' n /\ get_node w' n = Some (mkn v 0%Z false (passes m v)).
Proof.
  intros RW C GX M D. destruct (R_get _ _ _ _ _ RW GX) as (m0 & M0 & RL). rewrite M in M0. injection M0 as <-.
  pose proof (nth_error_nth_none _ _ _ GX) as L.
  unfold lookup_or_add. destruct (rel_lookup _ _ _ _ v RL) as (r & LK & P). rewrite LK. cbn [bind].
  destruct r as [n|]; [destruct P as (_ & nd & _ & _ & D'); congruence|]. clear P.
  pose proof (r_table _ _ _ _ RL) as T.
  assert (B1 : exists b, match buckets x with [] => repeat [] MIN_BUCKETS | b => b end = b /\ table_ok w b /\ b <> [] /\ concat b = concat (buckets x)).
  { destruct (buckets x) as [|b0 b] eqn:B.
    - exists (repeat [] MIN_BUCKETS). destruct (table_empty hash w MIN_BUCKETS) as (T0 & C0). split; [reflexivity|]. split; [exact T0|]. split; [discriminate|]. rewrite C0. reflexivity.
    - exists (b0 :: b). split; [reflexivity|]. split; [exact T|]. split; [discriminate|reflexivity]. }
  destruct B1 as (b & -> & T1 & NB & CB).
  assert (B2 : exists b', (if Nat.ltb (length b * MAX_MULTIPLIER) (total x) then rehash hash w (concat b) (repeat [] (length b * 2)) else Ok b) = Ok b' /\
    table_ok w b' /\ b' <> [] /\ Permutation (concat b') (concat (buckets x))).
  { destruct (Nat.ltb (length b * MAX_MULTIPLIER) (total x)).
    - destruct (table_empty hash w (length b * 2)) as (T0 & C0).
      assert (NE : length b <> 0) by (destruct b; [congruence|discriminate]).
      destruct (rehash_spec hash w (concat b) (repeat [] (length b * 2)) T0) as (b' & E & T' & Lb & Pb).
      + intros X. apply (f_equal (@length _)) in X. rewrite repeat_length in X. cbn in X. lia.
      + rewrite C0, app_nil_r. exact (t_nodup _ _ _ T1).
      + intros n I. exact (t_alive _ _ _ _ T1 I).
      + rewrite C0, app_nil_r. exact (t_uniq _ _ _ T1).
      + exists b'. split; [exact E|]. split; [exact T'|]. split.
        * intros ->. rewrite repeat_length in Lb. cbn in Lb. lia.
        * rewrite C0, app_nil_r in Pb. rewrite <- CB. exact Pb.
    - exists b. split; [reflexivity|]. split; [exact T1|]. split; [exact NB|]. rewrite CB. apply Permutation_refl. }
  destruct B2 as (b' & -> & T2 & NB2 & PB). cbn [bind]. clear b T1 NB CB.
  set (n := length (nodes w)).
  rewrite (rel_passes _ _ _ _ _ RL) in *. fold n.
  set (b1 := set_nth b' (slot hash v b') (n :: nth (slot hash v b') b' [])).
  set (x1 := with_buckets x b1 (S (total x))).
  set (x' := if passes m v then with_inherited x1 (delq v (inherited x1)) else x1).
  set (w' := mkw (set_nth (structs w) s (Some x')) (names w) (nodes w ++ [Some (mkn v 0%Z false (passes m v))])).
  assert (BX : buckets x' = b1) by (unfold x'; destruct (passes m v); reflexivity).
  assert (GN : forall k, k <> n -> get_node w' k = get_node w k).
  { intros k NE. unfold get_node, w'. cbn [nodes]. destruct (Nat.lt_ge_cases k (length (nodes w))) as [H|H].
    - apply app_nth1. exact H.
    - rewrite !nth_overflow; [reflexivity|lia|rewrite app_length; cbn [length]; unfold n in NE; lia]. }
  assert (GN1 : get_node w' n = Some (mkn v 0%Z false (passes m v))).
  { unfold get_node, w', n. cbn [nodes]. rewrite app_nth2 by lia. rewrite Nat.sub_diag. reflexivity. }
  assert (OLD : forall k d, get_node w k = Some d -> get_node w' k = Some d).
  { intros k d G. rewrite GN; [exact G|]. pose proof (node_lt _ _ _ G). unfold n. lia. }
  assert (TW : table_ok w' b').
  { eapply table_ext; [exact T2|]. intros k d _ G. exists d. split; [exact (OLD k d G)|reflexivity]. }
  assert (INB : forall k, In k (concat b') -> owns x k) by (intros k I; exact (Permutation_in _ PB I)).
  assert (ALIVE : forall k, owns x k -> k <> n).
  { intros k I ->. destruct (t_alive _ _ _ _ T I) as (d & G). pose proof (node_lt _ _ _ G). unfold n in *. lia. }
  assert (NEWSYM : forall k d, owns x k -> get_node w k = Some d -> nsym d <> v).
  { intros k d O G V. pose proof (r_def _ _ _ _ RL k d O G). congruence. }
  assert (T3 : table_ok w' b1).
  { change v with (nsym (mkn v 0%Z false (passes m v))) in b1. unfold b1. apply table_push; auto.
    - intros I. exact (ALIVE n (INB n I) eq_refl).
    - intros k d I G. cbn [nsym]. rewrite GN in G by exact (ALIVE k (INB k I)). exact (NEWSYM k d (INB k I) G). }
  assert (P1 : Permutation (concat b1) (n :: concat (buckets x))).
  { eapply perm_trans; [apply concat_push, slot_lt; exact NB2|]. apply perm_skip. exact PB. }
  assert (OWN : forall k, owns x' k <-> k = n \/ owns x k).
  { intros k. unfold owns at 1. rewrite BX. split; intros H.
    - apply (Permutation_in _ P1) in H. destruct H as [<-|H]; auto.
    - apply (Permutation_in _ (Permutation_sym P1)). destruct H as [->|H]; [left; reflexivity|right; exact H]. }
  assert (NSO : forall t y, get_struct w t = Some y -> ~ owns y n).
  { intros t y GY O. destruct (R_get _ _ _ _ _ RW GY) as (my & _ & RY). destruct (t_alive _ _ _ _ (r_table _ _ _ _ RY) O) as (d & G).
    pose proof (node_lt _ _ _ G). unfold n in *. lia. }
  assert (R1 : R w' (at_mod U s (add_def m v))).
  { eapply R_update with (x := x) (m := m) (x' := x'); eauto.
    - intros t y k NE GY OY. apply GN. intros ->. exact (NSO t y GY OY).
    - destruct RL. split; try (unfold x', x1, add_def; destruct (passes m v); assumption).
      + unfold x', x1, add_def. destruct (passes m v); cbn; [rewrite r_inh; reflexivity|exact r_inh].
      + intros k d O G. apply OWN in O. unfold add_def, with_def. cbn [defs]. destruct O as [->|O].
        * rewrite GN1 in G. injection G as <-. cbn [nsym]. rewrite Nat.eqb_refl. reflexivity.
        * rewrite GN in G by exact (ALIVE k O). destruct (Nat.eqb (nsym d) v) eqn:F; [apply Nat.eqb_eq in F; exfalso; exact (NEWSYM k d O G F)|].
          exact (r_def k d O G).
      + intros u e. unfold add_def, with_def. cbn [defs]. destruct (Nat.eqb u v) eqn:F.
        * apply Nat.eqb_eq in F. intros _. exists n, (mkn v 0%Z false (passes m v)). split; [apply OWN; left; reflexivity|]. split; [exact GN1|symmetry; exact F].
        * intros E. destruct (r_undef u e E) as (k & d & O & G & V). exists k, d. split; [apply OWN; right; exact O|]. split; [exact (OLD k d G)|exact V].
    - intros t y k NE GY OY O'. apply OWN in O'. destruct O' as [->|O']; [exact (NSO t y GY OY)|].
      apply NE. exact (R_own _ _ _ RW t s y x k GY GX OY O').
    - intros t I. exact (R_objs _ _ _ RW s m t M I). }
  destruct (inval_spec w' c v) as (c' & E & CL & P).
  { exact (proj1 C). }
  { intros j t k H. destruct (has_node _ _ _ _ _ _ C H) as (d & G & J). exists d. split; [exact (OLD k d G)|exact J]. }
  exists n, w', c', x'. split; [change (bind (invalidate_symbol hash w' v c) (fun c0 => Ok (n, w', c0)) = Ok (n, w', c')); rewrite E; reflexivity|]. split; [exact R1|]. split.
  - split; [exact CL|]. intros j t k H. destruct (P _ _ _ H) as (H' & NV). eapply keep_at with (x := x) (m := m) (x' := x'); eauto.
    + left. intros d G. pose proof (NV d (OLD k d G)) as NE. apply Nat.eqb_neq in NE. unfold shape, add_def, with_def. cbn [defs]. rewrite NE.
      destruct (defs m (nsym d)); [reflexivity|]. unfold passes. cbn [everything reexports]. destruct (everything m || existsb (Nat.eqb v) (reexports m)); [|reflexivity].
      f_equal. apply Nat.eqb_neq in NE. clear - NE. unfold without. induction (reexports m) as [|a l IH]; [reflexivity|]. cbn [existsb filter].
      destruct (Nat.eqb v a) eqn:F; cbn [negb].
      * apply Nat.eqb_eq in F. subst a. apply Nat.eqb_neq in NE. rewrite NE. exact IH.
      * cbn [existsb]. rewrite IH. reflexivity.
    + intros o y d _ GY OY G. split; [intros ->; apply OWN; right; rewrite GX in GY; injection GY as <-; exact OY|]. exists d. split; [exact (OLD k d G)|reflexivity].
    + exact (proj2 C _ _ _ H').
  - split.
    + unfold get_struct, w'. cbn [structs]. rewrite nth_set_nth by exact L. rewrite Nat.eqb_refl. reflexivity.
    + split; [apply OWN; left; reflexivity|exact GN1].
Qed.
End Hash.
