(** Consequences for programs, and shared interfaces. *)
From Coq Require Import List ZArith Bool Arith Lia.
From Verif Require Import Modules_Model Modules_Spec Modules_Proofs Modules_Steps Modules_Run.
Import ListNotations.
Open Scope nat_scope.

(** * One meaning *)
Lemma offers_fun U v : (forall i r, offers U v i r -> forall r', offers U v i r' -> r = r') /\
  (forall l r, among U v l r -> forall r', among U v l r' -> r = r').
Proof.
  apply offers_among.
  - intros i E r' O. inversion O; subst; congruence.
  - intros i s m e E M D X r' O. inversion O; subst; congruence.
  - intros i s m e E M D X r' O. inversion O; subst; congruence.
  - intros i s m E M D P r' O. inversion O; subst; congruence.
  - intros i s m r E M D P A IH r' O. inversion O as [| | | |? s' m' ? E' M' D' P' A']; subst; try congruence.
    apply IH. rewrite E in E'. injection E' as <-. rewrite M in M'. injection M' as <-. exact A'.
  - intros r' A. inversion A; reflexivity.
  - intros i l s O IH r' A. inversion A as [|? ? s' O'|? ? ? O' A']; subst; [exact (IH _ O')|]. specialize (IH _ O'). discriminate.
  - intros i l r O IH A IHA r' A'. inversion A' as [|? ? s' O'|? ? ? O' A2]; subst; [specialize (IH _ O'); discriminate|exact (IHA _ A2)].
Qed.
Lemma denotes_fun U s v r r' : denotes U s v r -> denotes U s v r' -> r = r'.
Proof.
  intros (m & M & H) (m' & M' & H'). rewrite M in M'. injection M' as <-. destruct (defs m v); [congruence|].
  exact (proj2 (offers_fun U v) _ _ H _ H').
Qed.

(** * Where values come from *)
Lemma offers_from U v : (forall i r, offers U v i r -> forall o, r = Some o -> exists t m e, the U i = Some t /\ below U t o /\ mods U o = Some m /\ defs m v = Some e /\ exported e = true) /\
  (forall l r, among U v l r -> forall o, r = Some o -> exists i t m e, In i l /\ the U i = Some t /\ below U t o /\ mods U o = Some m /\ defs m v = Some e /\ exported e = true).
Proof.
  apply offers_among; try discriminate.
  - intros i s m e E M D X o H. injection H as <-. exists s, m, e. split; [exact E|]. split; [apply below_refl|auto].
  - intros i s m r E M D P A IH o H. destruct (IH o H) as (k & t & mo & e & I & T & B & Q). exists s, mo, e. split; [exact E|]. split; [|exact Q].
    eapply below_step; [|exact B]. exists m, k. auto.
  - intros i l s O IH o H. destruct (IH o H) as (t & m & e & T & Q). exists i, t, m, e. split; [left; reflexivity|auto].
  - intros i l r O IH A IHA o H. destruct (IHA o H) as (k & t & m & e & I & Q). exists k, t, m, e. split; [right; exact I|exact Q].
Qed.
Lemma denotes_from U s v o : denotes U s v (Some o) ->
  exists m e, mods U o = Some m /\ defs m v = Some e /\ (o = s \/ exported e = true /\ below U s o).
Proof.
  intros (m & M & H). destruct (defs m v) as [e|] eqn:D.
  - injection H as ->. exists m, e. auto.
  - destruct (proj2 (offers_from U v) _ _ H o eq_refl) as (i & t & mo & e & I & T & B & MO & DO & X). exists mo, e. split; [exact MO|]. split; [exact DO|].
    right. split; [exact X|]. eapply below_step; [|exact B]. exists m, i. auto.
Qed.

Lemma does_ref_inv U s v a U' : does U (Ref s v) a U' ->
  U' = U /\ exists x, a = Value x /\ (grounded U s -> exists r, denotes U s v r /\ x = option_map value (entry_at U r v)).
Proof. intros D. inversion D; subst. eauto. Qed.
Lemma does_define_inv U s v a r U' : does U (Define s v a) r U' -> exists m, mods U s = Some m /\ U' = at_mod U s (define m v a).
Proof. intros D. inversion D; subst. eauto. Qed.

Section Hash.
Variable hash : sym -> nat.
Lemma run_ref st U s v : Inv hash st U -> mods U s <> None -> grounded U s ->
  exists r st', denotes U s v r /\ run hash st [Ref s v] = Ok ([Value (option_map value (entry_at U r v))], st').
Proof.
  intros IV A G. destruct (good_ref hash st U s v IV A) as (a & st' & U' & E & D & _).
  apply does_ref_inv in D. destruct D as (-> & x & -> & H). destruct (H G) as (r & D1 & ->).
  exists r, st'. split; [exact D1|]. cbn [run]. rewrite E. reflexivity.
Qed.
Lemma hidden st U s v x st' : Inv hash st U -> mods U s <> None -> grounded U s -> run hash st [Ref s v] = Ok ([Value (Some x)], st') ->
  exists o m e, mods U o = Some m /\ defs m v = Some e /\ value e = x /\ (o = s \/ exported e = true /\ below U s o).
Proof.
  intros IV A G RUN. destruct (run_ref st U s v IV A G) as (r & st1 & D & E). rewrite E in RUN. injection RUN as V _.
  destruct r as [o|]; [|discriminate]. destruct (denotes_from _ _ _ _ D) as (m & e & M & DE & K). cbn [entry_at] in V. rewrite M, DE in V. injection V as V.
  exists o, m, e. auto.
Qed.
Lemma isolation st U s v a t u : Inv hash st U -> mods U s <> None -> mods U t <> None -> grounded U t -> ~ below U t s ->
  exists x y st1 st2, run hash st [Ref t u] = Ok ([x], st1) /\ run hash st [Define s v a; Ref t u] = Ok ([y; x], st2).
Proof.
  intros IV AS AT G NB. destruct (run_ref st U t u IV AT G) as (r & st1 & D & E).
  destruct (good_define hash st U s v a IV AS) as (y & st2 & U2 & E2 & DD & R2 & C2).
  apply does_define_inv in DD. destruct DD as (m & M & ->). set (U2 := at_mod U s (define m v a)) in *.
  assert (NE : forall b, ~ below U b s -> b <> s) by (intros b H ->; apply H, below_refl).
  assert (MO : forall b, b <> s -> mods U2 b = mods U b) by (intros b H; cbn; apply Nat.eqb_neq in H; rewrite H; reflexivity).
  assert (TH : forall i, the U2 i = the U i) by (intros i; destruct i; reflexivity).
  assert (ED : forall b c, b <> s -> edge U2 b c <-> edge U b c).
  { intros b c H. unfold edge. rewrite (MO b H). split; intros (mb & i & Q1 & Q2 & Q3); exists mb, i; rewrite TH in *; auto. }
  assert (CL : forall b c, ~ below U b s -> edge U b c -> ~ below U c s) by (intros b c H X K; apply H; eapply below_step; eassumption).
  assert (G2 : grounded U2 t).
  { clear - G NB ED CL NE. induction G as [t _ IH]. constructor. intros c X. apply (ED t c (NE t NB)) in X. exact (IH c X (CL t c NB X)). }
  destruct (run_ref st2 U2 t u (conj R2 C2)) as (r2 & st3 & D2 & E3).
  { rewrite (MO t (NE t NB)). exact AT. }
  { exact G2. }
  assert (D3 : denotes U2 t u r).
  { destruct D as (mt & MT & H). exists mt. rewrite (MO t (NE t NB)). split; [exact MT|]. destruct (defs mt u); [exact H|].
    destruct (transfer U U2 u (fun b => ~ below U b s)) as (_ & TR).
    - intros b mb PB MB. exists mb. rewrite (MO b (NE b PB)). split; [exact MB|]. split; [reflexivity|]. unfold shape. destruct (defs mb u); reflexivity.
    - intros b mb i PB MB I. split; [apply TH|]. intros c T. apply (CL b c PB). exists mb, i. auto.
    - apply TR; [exact H|]. intros i I. split; [apply TH|]. intros c T. apply (CL t c NB). exists mt, i. auto. }
  rewrite (denotes_fun _ _ _ _ _ D2 D3) in E3.
  assert (EN : entry_at U2 r u = entry_at U r u).
  { destruct r as [o|]; [|reflexivity]. cbn [entry_at]. destruct (denotes_from _ _ _ _ D) as (mo & e & _ & _ & K). rewrite MO; [reflexivity|].
    destruct K as [->|(_ & B)]; [exact (NE t NB)|]. intros ->. exact (NB B). }
  rewrite EN in E3. eexists; eexists; exists st1, st3. split; [exact E|].
  cbn [run] in E3 |- *. rewrite E2. cbn [bind]. destruct (step hash st2 (Ref t u)) as [[a1 st4]| |]; cbn [bind] in *; try discriminate.
  injection E3 as -> ->. reflexivity.
Qed.
End Hash.

(** * Shared interfaces *)
Inductive seg (h : conses) : option nat -> list nat -> list sym -> option nat -> Prop :=
| seg_nil a : seg h a [] [] a
| seg_cons a x d ps l e : nth_error h a = Some (x, d) -> seg h d ps l e -> seg h (Some a) (a :: ps) (x :: l) e.
Lemma list_seg fuel : forall h a l, list_at fuel h a = Some l -> exists ps, seg h a ps l None /\ length l <= fuel.
Proof.
  induction fuel as [|fuel IH]; intros h a l E; destruct a as [a|]; cbn [list_at] in E; try discriminate.
  - injection E as <-. exists []. split; [constructor|cbn; lia].
  - destruct (nth_error h a) as [[x d]|] eqn:N; [|discriminate]. destruct (list_at fuel h d) as [l'|] eqn:E'; [|discriminate]. injection E as <-.
    destruct (IH h d l' E') as (ps & S & L). exists (a :: ps). split; [econstructor; eassumption|cbn; lia].
  - injection E as <-. exists []. split; [constructor|cbn; lia].
Qed.
Lemma seg_list h a ps l : seg h a ps l None -> forall fuel, length l <= fuel -> list_at fuel h a = Some l.
Proof.
  remember None as e eqn:EE. induction 1 as [a|a x d ps l e N S IH]; intros fuel L; subst.
  - destruct fuel; reflexivity.
  - destruct fuel as [|fuel]; [cbn in L; lia|]. cbn [list_at]. rewrite N, IH; [reflexivity|reflexivity|cbn in L; lia].
Qed.
Lemma seg_fun h a ps l : seg h a ps l None -> forall ps' l', seg h a ps' l' None -> ps = ps' /\ l = l'.
Proof.
  remember None as e eqn:EE. induction 1 as [a|a x d ps l e N S IH]; intros ps' l' S'; subst.
  - inversion S'; subst; auto.
  - inversion S' as [|? x' d' ps2 l2 ? N' S2]; subst. rewrite N in N'. injection N' as <- <-. destruct (IH eq_refl _ _ S2) as (-> & ->). auto.
Qed.
Lemma seg_split h a ps l e : seg h a ps l e -> forall p, In p ps -> exists ps1 ps2 l1 l2, ps = ps1 ++ p :: ps2 /\ seg h (Some p) (p :: ps2) l2 e /\ l = l1 ++ l2 /\ length l1 = length ps1.
Proof.
  induction 1 as [a|a x d ps l e N S IH]; intros p I; [contradiction|]. destruct I as [<-|I].
  - exists [], ps, [], (x :: l). split; [reflexivity|]. split; [econstructor; eassumption|]. split; reflexivity.
  - destruct (IH p I) as (ps1 & ps2 & l1 & l2 & E1 & S2 & E2 & E3). exists (a :: ps1), ps2, (x :: l1), l2. rewrite E1, E2. split; [reflexivity|]. split; [exact S2|]. split; [reflexivity|]. cbn. lia.
Qed.
(** The conses of a list that ends are different ones *)
Lemma seg_nodup h a ps l : seg h a ps l None -> NoDup ps.
Proof.
  remember None as e eqn:EE. induction 1 as [a|a x d ps l e N S IH]; subst; [constructor|]. constructor; [|exact (IH eq_refl)].
  intros I. destruct (seg_split _ _ _ _ _ S a I) as (ps1 & ps2 & l1 & l2 & E1 & S2 & E2 & E3).
  inversion S2 as [|? x' d' ps3 l3 ? N' S3]; subst. rewrite N in N'. injection N' as <- <-.
  destruct (seg_fun _ _ _ _ S _ _ S3) as (E4 & _). apply (f_equal (@length _)) in E4. rewrite app_length in E4. cbn in E4. lia.
Qed.
Lemma seg_frame h h' a ps l e : seg h a ps l e -> (forall p, In p ps -> nth_error h' p = nth_error h p) -> seg h' a ps l e.
Proof.
  induction 1 as [a|a x d ps l e N S IH]; intros F; [constructor|]. econstructor; [rewrite F; [exact N|left; reflexivity]|].
  apply IH. intros p I. apply F. right. exact I.
Qed.
Lemma seg_app h a ps l b qs k e : seg h a ps l b -> seg h b qs k e -> seg h a (ps ++ qs) (l ++ k) e.
Proof. induction 1; intros H1; [exact H1|]. cbn [app]. econstructor; eauto. Qed.
Lemma set_same {A} (l : list A) k x i : k < length l -> nth_error (set_nth l k x) i = if Nat.eqb i k then Some x else nth_error l i.
Proof. apply nth_error_set. Qed.

(** delq, once it is past the conses [ps ++ [p]] that are kept *)
Lemma delq_later fuel v : forall h l0 ps p k y a qs m, seg h l0 ps k (Some p) -> nth_error h p = Some (y, a) -> seg h a qs m None -> NoDup (ps ++ p :: qs) ->
  length m < fuel -> exists h' qs', delq_at fuel v h l0 (Some p) a = Some (l0, h') /\ seg h' l0 qs' (k ++ y :: delq v m) None.
Proof.
  induction fuel as [|fuel IH]; intros h l0 ps p k y a qs m S1 NP S2 ND L; [lia|]. cbn [delq_at]. inversion S2 as [|b x d qs2 m2 ? N S3]; subst.
  - exists h, (ps ++ [p]). split; [reflexivity|]. apply (seg_app _ _ _ _ (Some p)); [exact S1|]. econstructor; [exact NP|constructor].
  - rewrite N. cbn [delq filter]. cbn [length] in L. destruct (Nat.eqb v x) eqn:V; cbn [negb].
    + rewrite NP. assert (LP : p < length h) by (apply nth_error_Some; congruence).
      assert (FR : forall q, q <> p -> nth_error (set_nth h p (y, d)) q = nth_error h q) by (intros q H; rewrite set_same by exact LP; apply Nat.eqb_neq in H; rewrite H; reflexivity).
      apply NoDup_remove in ND. destruct ND as (ND & NI).
      apply (IH _ _ ps p k y d qs2 m2).
      * eapply seg_frame; [exact S1|]. intros q I. apply FR. intros ->. apply NI, in_or_app. left. exact I.
      * rewrite set_same by exact LP. rewrite Nat.eqb_refl. reflexivity.
      * eapply seg_frame; [exact S3|]. intros q I. apply FR. intros ->. apply NI, in_or_app. right. right. exact I.
      * assert (ND' : NoDup ((ps ++ []) ++ qs2)) by (rewrite app_nil_r; exact (NoDup_remove_1 _ _ _ ND)). rewrite app_nil_r in ND'.
        apply NoDup_Add with (a := p) (l := ps ++ qs2); [apply Add_app|]. split; [exact ND'|]. intros I. apply NI. apply in_app_or in I. apply in_or_app. destruct I; [left|right; right]; assumption.
      * lia.
    + destruct (IH h l0 (ps ++ [p]) b (k ++ [y]) x d qs2 m2) as (h' & qs' & E & S'); [|exact N|exact S3| |lia|].
      * apply (seg_app _ _ _ _ (Some p)); [exact S1|]. econstructor; [exact NP|constructor].
      * rewrite <- app_assoc. exact ND.
      * exists h', qs'. split; [exact E|]. rewrite <- app_assoc in S'. exact S'.
Qed.
Lemma delq_heap fuel v : forall h a ps l, seg h a ps l None -> length l < fuel ->
  exists a' h' ps', delq_at fuel v h a None a = Some (a', h') /\ seg h' a' ps' (delq v l) None /\
    (forall x k, l = x :: k -> x = v -> ~ In v k -> h' = h /\ exists p, ps = p :: ps').
Proof.
  induction fuel as [|fuel IH]; intros h a ps l S L; [lia|]. cbn [delq_at]. pose proof (seg_nodup _ _ _ _ S) as ND. inversion S as [|b x d qs m ? N S3]; subst.
  - exists None, h, []. split; [reflexivity|]. split; [constructor|discriminate].
  - rewrite N. cbn [delq filter]. cbn [length] in L. destruct (Nat.eqb v x) eqn:V; cbn [negb].
    + destruct (IH h d qs m S3) as (a' & h' & ps' & E & S' & _); [lia|]. exists a', h', ps'. split; [exact E|]. split; [exact S'|].
      intros x0 k EQ X NI. injection EQ as <- <-.
      assert (FE : delq v m = m).
      { clear - NI. unfold delq. induction m as [|z m IHm]; [reflexivity|]. cbn [filter]. destruct (Nat.eqb v z) eqn:F; [apply Nat.eqb_eq in F; exfalso; apply NI; left; symmetry; exact F|].
        cbn [negb]. f_equal. apply IHm. intros I. apply NI. right. exact I. }
      assert (HH : forall f hh l0 p aa qq mm, seg hh aa qq mm None -> ~ In v mm -> forall r, delq_at f v hh l0 p aa = Some r -> r = (l0, hh)).
      { clear. induction f as [|f IHf]; intros hh l0 p aa qq mm SS NI r E; [discriminate|]. cbn [delq_at] in E. inversion SS as [|b x d qs m ? N S3]; subst.
        - injection E as <-. reflexivity.
        - rewrite N in E. destruct (Nat.eqb v x) eqn:F; [apply Nat.eqb_eq in F; exfalso; apply NI; left; symmetry; exact F|].
          apply (IHf _ _ _ _ _ _ S3) in E; [exact E|]. intros I. apply NI. right. exact I. }
      pose proof (HH _ _ _ _ _ _ _ S3 NI _ E) as EQ. injection EQ as -> ->. split; [reflexivity|]. exists b. rewrite FE in S'.
      destruct (seg_fun _ _ _ _ S3 _ _ S') as (<- & _). reflexivity.
    + destruct (delq_later fuel v h (Some b) [] b [] x d qs m) as (h' & qs' & E & S'); [constructor|exact N|exact S3|exact ND|lia|].
      exists (Some b), h', qs'. split; [exact E|]. split; [exact S'|]. intros x0 k EQ X _. injection EQ as -> _. apply Nat.eqb_neq in V. congruence.
Qed.
Lemma memq_delq v l u : u <> v -> memq u (delq v l) = memq u l.
Proof.
  intros NE. unfold memq, delq. induction l as [|a l IH]; [reflexivity|]. cbn [filter existsb]. destruct (Nat.eqb v a) eqn:F; cbn [negb].
  - apply Nat.eqb_eq in F. subst a. apply Nat.eqb_neq in NE. rewrite NE. exact IH.
  - cbn [existsb]. rewrite IH. reflexivity.
Qed.
Lemma delq_length v l : length (delq v l) <= length l.
Proof. unfold delq. induction l as [|a l IH]; [auto|]. cbn [filter]. destruct (negb (Nat.eqb v a)); cbn [length]; lia. Qed.
Lemma delivered h a l defs fuel : list_at fuel h a = Some l -> NoDup defs ->
  exists h', deliver (S fuel) h a defs = Some (map (fun v => memq v l) defs, h').
Proof.
  intros LA ND. apply list_seg in LA. destruct LA as (ps & S & L). revert h a l ps S L.
  induction defs as [|v defs IH]; intros h a l ps S L; cbn [deliver]; [exists h; reflexivity|].
  inversion ND as [|? ? NI ND']; subst.
  rewrite (seg_list _ _ _ _ S (Datatypes.S fuel)) by lia. destruct (memq v l) eqn:M.
  - destruct (delq_heap (Datatypes.S fuel) v h a ps l S) as (a' & h' & ps' & E & S' & _); [lia|]. rewrite E.
    destruct (IH ND' h' a' (delq v l) ps' S') as (h2 & E2); [pose proof (delq_length v l); lia|]. rewrite E2. exists h2. cbn [map]. rewrite M. f_equal. f_equal. f_equal.
    apply map_ext_in. intros u I. apply memq_delq. intros ->. contradiction.
  - destruct (IH ND' h a l ps S L) as (h2 & E2). rewrite E2. exists h2. cbn [map]. rewrite M. reflexivity.
Qed.
Lemma in_order h a l fuel : list_at fuel h a = Some l -> NoDup l -> deliver (S fuel) h a l = Some (map (fun _ => true) l, h).
Proof.
  intros LA ND. apply list_seg in LA. destruct LA as (ps & S & L). revert a ps S L.
  induction l as [|v l IH]; intros a ps S L; cbn [deliver]; [reflexivity|]. inversion ND as [|? ? NI ND']; subst.
  rewrite (seg_list _ _ _ _ S (Datatypes.S fuel)) by lia. assert (M : memq v (v :: l) = true) by (unfold memq; cbn; rewrite Nat.eqb_refl; reflexivity). rewrite M.
  destruct (delq_heap (Datatypes.S fuel) v h a ps (v :: l) S) as (a' & h' & ps' & E & S' & Q); [lia|]. rewrite E. destruct (Q v l eq_refl eq_refl NI) as (-> & p & ->).
  assert (FE : delq v (v :: l) = l).
  { unfold delq. cbn [filter]. rewrite Nat.eqb_refl. cbn [negb]. clear - NI. induction l as [|z m IHm]; [reflexivity|]. cbn [filter].
    destruct (Nat.eqb v z) eqn:F; [apply Nat.eqb_eq in F; exfalso; apply NI; left; symmetry; exact F|]. cbn [negb]. f_equal. apply IHm. intros I. apply NI. right. exact I. }
  rewrite FE in S'. rewrite (IH ND' a' ps' S'); [reflexivity|cbn in L; lia].
Qed.
