(** Proofs about the foreign function interface: arithmetic, memory, tables. *)

From Coq Require Import ZArith List Bool Lia ZifyBool.
From Verif Require Import Ffi_Model Ffi_Spec.
Import ListNotations.
Open Scope Z_scope.

(** ** Alignment *)

Definition pow2 (a : Z) : Prop := exists k, 0 <= k /\ a = 2 ^ k.

Lemma pow2_pos a : pow2 a -> 0 < a.
Proof. intros (k & Hk & ->). apply Z.pow_pos_nonneg; lia. Qed.

Lemma align_up v a : pow2 a -> align v a = up v a.
Proof.
  intros (k & Hk & ->). unfold align, up.
  assert (E : 2 ^ k - 1 = Z.ones k) by (rewrite Z.ones_equiv; lia).
  rewrite E. rewrite <- Z.ldiff_land, Z.ldiff_ones_r by lia.
  rewrite Z.shiftl_mul_pow2, Z.shiftr_div_pow2 by lia. reflexivity.
Qed.

Lemma up_bounds x a : 0 < a -> x <= up x a < x + a.
Proof.
  intros Ha. unfold up.
  pose proof (Z.div_mod (x + a - 1) a ltac:(lia)) as E.
  pose proof (Z.mod_pos_bound (x + a - 1) a Ha) as B.
  rewrite Z.mul_comm. nia.
Qed.

Lemma up_same x a : 0 < a -> (a | x) -> up x a = x.
Proof.
  intros Ha (q & ->). unfold up.
  replace (q * a + a - 1) with (q * a + (a - 1)) by lia.
  rewrite Z.div_add_l by lia. rewrite Z.div_small by lia. lia.
Qed.

Lemma align_ge x a : pow2 a -> x <= align x a.
Proof.
  intros H. rewrite align_up by exact H.
  pose proof (up_bounds x a (pow2_pos a H)). lia.
Qed.

Lemma pow2_prim p : pow2 (prim_size p).
Proof.
  destruct p;
    first [exists 0; split; [lia|reflexivity] | exists 1; split; [lia|reflexivity]
          |exists 2; split; [lia|reflexivity] | exists 3; split; [lia|reflexivity]
          |exists 4; split; [lia|reflexivity]].
Qed.

Lemma pow2_max a b : pow2 a -> pow2 b -> pow2 (Z.max a b).
Proof.
  intros Ha Hb. destruct (Z.max_spec a b) as [[_ ->]|[_ ->]]; assumption.
Qed.

(** ** Memory *)

Lemma store_other n : forall m p z a,
  a < p \/ p + Z.of_nat n <= a -> store m p n z a = m a.
Proof.
  induction n as [|n IH]; intros m p z a H; [reflexivity|].
  cbn [store]. rewrite IH by lia. unfold upd.
  destruct (a =? p) eqn:E; [lia|reflexivity].
Qed.

Lemma store_at n : forall m p z k,
  0 <= k < Z.of_nat n -> store m p n z (p + k) = (z / 256 ^ k) mod 256.
Proof.
  induction n as [|n IH]; intros m p z k H; [lia|].
  cbn [store]. destruct (Z.eq_dec k 0) as [->|N].
  - rewrite store_other by lia. unfold upd.
    replace (p + 0) with p by lia. rewrite Z.eqb_refl.
    rewrite Z.pow_0_r, Z.div_1_r. reflexivity.
  - replace (p + k) with ((p + 1) + (k - 1)) by lia.
    rewrite IH by lia. rewrite Z.div_div by lia.
    replace (256 * 256 ^ (k - 1)) with (256 ^ k); [reflexivity|].
    replace k with (Z.succ (k - 1)) at 1 by lia.
    rewrite Z.pow_succ_r by lia. reflexivity.
Qed.

Lemma load_ext n : forall m m' p,
  (forall a, p <= a < p + Z.of_nat n -> m a = m' a) -> load m p n = load m' p n.
Proof.
  induction n as [|n IH]; intros m m' p H; [reflexivity|].
  cbn [load]. rewrite (H p) by lia. rewrite (IH m m' (p + 1)); [reflexivity|].
  intros a Ha. apply H. lia.
Qed.

Lemma load_store n : forall m p z,
  load (store m p n z) p n = z mod 256 ^ Z.of_nat n.
Proof.
  induction n as [|n IH]; intros m p z.
  - cbn [load]. change (256 ^ Z.of_nat 0) with 1. rewrite Z.mod_1_r. reflexivity.
  - cbn [load store]. rewrite IH. rewrite store_other by lia.
    unfold upd. rewrite Z.eqb_refl.
    rewrite Nat2Z.inj_succ, Z.pow_succ_r by lia.
    rewrite Z.rem_mul_r by lia. reflexivity.
Qed.

(** ** Tables *)

Definition entry_ok (tab : table) (id : nat) (t : ftype) : Prop :=
  match f_kind t with
  | KPrim p => f_size t = prim_size p /\ f_align t = prim_size p
  | KStruct ids =>
      f_obj t = id /\ (forall i, In i ids -> (i < id)%nat) /\
      exists es, lookup_all tab ids = Some es /\
                 (f_size t, f_align t) = fold_left layout_step es (0, 0)
  | KAlias b _ _ _ =>
      (b < id)%nat /\
      exists e, nth_error tab b = Some e /\ f_size t = f_size e /\ f_align t = f_align e /\
                f_obj t = f_obj e
  end.

Definition wf (tab : table) : Prop :=
  (forall id t, nth_error tab id = Some t -> entry_ok tab id t) /\
  (forall i j t u ids, nth_error tab i = Some t -> nth_error tab j = Some u ->
     f_kind t = KStruct ids -> f_kind u = KStruct ids -> i = j).

Lemma lookup_app tab ext ids : forall es,
  lookup_all tab ids = Some es -> lookup_all (tab ++ ext) ids = Some es.
Proof.
  induction ids as [|i ids IH]; intros es H; [exact H|].
  cbn [lookup_all] in *.
  destruct (nth_error tab i) as [e|] eqn:E; [|discriminate].
  destruct (lookup_all tab ids) as [es'|] eqn:E'; [|discriminate].
  rewrite nth_error_app1 by (apply nth_error_Some; congruence).
  rewrite E, (IH es' eq_refl). exact H.
Qed.

Lemma lookup_in tab ids : forall es i,
  lookup_all tab ids = Some es -> In i ids -> (i < length tab)%nat.
Proof.
  induction ids as [|j ids IH]; intros es i H Hi; [destruct Hi|].
  destruct Hi as [->|Hi]; cbn [lookup_all] in H.
  - apply nth_error_Some. destruct (nth_error tab i); congruence.
  - destruct (nth_error tab j); [|discriminate].
    destruct (lookup_all tab ids) as [es'|] eqn:E'; [|discriminate].
    exact (IH es' i eq_refl Hi).
Qed.

Lemma entry_app tab ext id t : entry_ok tab id t -> entry_ok (tab ++ ext) id t.
Proof.
  unfold entry_ok. destruct (f_kind t) as [p|ids|b p ci co]; [exact (fun H => H)| |].
  - intros (O1 & L & es & E & S1). split; [exact O1|]. split; [exact L|].
    exists es. split; [apply lookup_app; exact E|exact S1].
  - intros (L & e & E & S1). split; [exact L|]. exists e. split; [|exact S1].
    rewrite nth_error_app1 by (apply nth_error_Some; congruence). exact E.
Qed.

Lemma ids_eqb_eq a : forall b, ids_eqb a b = true <-> a = b.
Proof.
  induction a as [|x a IH]; intros [|y b]; cbn [ids_eqb]; split; intros H;
    try discriminate; try reflexivity.
  - apply andb_prop in H. destruct H as [H1 H2].
    apply Nat.eqb_eq in H1. apply IH in H2. congruence.
  - injection H as -> ->. rewrite Nat.eqb_refl. apply IH. reflexivity.
Qed.

Lemma find_some t : forall tab n i,
  find_type t tab n = Some i ->
  exists e, (n <= i)%nat /\ nth_error tab (i - n) = Some e /\ types_equal t e = true.
Proof.
  induction tab as [|e tab IH]; intros n i H; cbn [find_type] in H; [discriminate|].
  destruct (types_equal t e) eqn:E.
  - injection H as <-. exists e. rewrite Nat.sub_diag. repeat split; [lia|exact E].
  - destruct (IH _ _ H) as (e' & L & N & T). exists e'. split; [lia|].
    replace (i - n)%nat with (S (i - S n)) by lia. split; [exact N|exact T].
Qed.

Lemma find_none t : forall tab n,
  find_type t tab n = None -> forall j e, nth_error tab j = Some e -> types_equal t e = false.
Proof.
  induction tab as [|e tab IH]; intros n H [|j] e' N; cbn [find_type] in H;
    try discriminate.
  - injection N as <-. destruct (types_equal t e); [discriminate|reflexivity].
  - destruct (types_equal t e); [discriminate|]. exact (IH _ H j e' N).
Qed.

Lemma nth_snoc {A} (l : list A) x i y :
  nth_error (l ++ [x]) i = Some y ->
  nth_error l i = Some y \/ (i = length l /\ y = x).
Proof.
  intros H. destruct (Nat.lt_ge_cases i (length l)) as [L|L].
  - left. rewrite nth_error_app1 in H by exact L. exact H.
  - right. rewrite nth_error_app2 in H by exact L.
    destruct (i - length l)%nat as [|n] eqn:E.
    + cbn in H. injection H as <-. split; [lia|reflexivity].
    + cbn in H. destruct n; discriminate.
Qed.

Lemma wf_init : wf init_table.
Proof.
  split.
  - intros id t H.
    do 13 (destruct id as [|id]; [injection H as <-; split; reflexivity|]).
    destruct id; discriminate.
  - intros i j t u ids H _ K _.
    do 13 (destruct i as [|i]; [injection H as <-; discriminate|]).
    destruct i; discriminate.
Qed.

Lemma alloc_wf tab t tab' i :
  wf tab -> entry_ok tab (length tab) t -> alloc_type t tab = (tab', i) ->
  wf tab' /\ (exists ext, tab' = tab ++ ext).
Proof.
  intros [W1 W2] Et H. unfold alloc_type in H.
  destruct (find_type t tab 0) as [n|] eqn:F.
  - injection H as <- <-. split; [split; assumption|]. exists []. rewrite app_nil_r. reflexivity.
  - injection H as <- <-. split; [|exists [t]; reflexivity].
    pose proof (find_none t tab 0 F) as N.
    split.
    + intros id u Hu. destruct (nth_snoc _ _ _ _ Hu) as [Hu'|[-> ->]].
      * apply entry_app. apply W1. exact Hu'.
      * apply entry_app. exact Et.
    + intros a b u v ids Ha Hb Ku Kv.
      destruct (nth_snoc _ _ _ _ Ha) as [Ha'|[-> ->]];
        destruct (nth_snoc _ _ _ _ Hb) as [Hb'|[-> ->]].
      * exact (W2 a b u v ids Ha' Hb' Ku Kv).
      * exfalso. pose proof (N a u Ha') as X. unfold types_equal in X.
        rewrite Ku, Kv in X. apply orb_false_elim in X. destruct X as [_ X].
        rewrite (proj2 (ids_eqb_eq ids ids) eq_refl) in X. discriminate.
      * exfalso. pose proof (N b v Hb') as X. unfold types_equal in X.
        rewrite Ku, Kv in X. apply orb_false_elim in X. destruct X as [_ X].
        rewrite (proj2 (ids_eqb_eq ids ids) eq_refl) in X. discriminate.
      * reflexivity.
Qed.

Lemma struct_entry tab ids es size al :
  lookup_all tab ids = Some es -> fold_left layout_step es (0, 0) = (size, al) ->
  entry_ok tab (length tab) (FT (KStruct ids) (length tab) size al).
Proof.
  intros L F. unfold entry_ok. cbn [f_kind f_obj f_size f_align].
  split; [reflexivity|]. split; [intros i Hi; exact (lookup_in _ _ _ _ L Hi)|].
  exists es. split; [exact L|symmetry; exact F].
Qed.

Lemma alias_entry tab b e p ci co :
  nth_error tab b = Some e ->
  entry_ok tab (length tab) (FT (KAlias b p ci co) (f_obj e) (f_size e) (f_align e)).
Proof.
  intros N. unfold entry_ok. cbn [f_kind f_obj f_size f_align].
  split; [apply nth_error_Some; congruence|]. exists e. auto.
Qed.

Lemma ffi_struct_wf ids tab tab' i :
  wf tab -> ffi_struct ids tab = Some (tab', i) ->
  wf tab' /\ (exists ext, tab' = tab ++ ext).
Proof.
  intros W H. unfold ffi_struct in H.
  destruct (lookup_all tab ids) as [es|] eqn:L; [|discriminate].
  destruct (fold_left layout_step es (0, 0)) as [size al] eqn:F.
  injection H as H. eapply alloc_wf; [exact W| |exact H].
  exact (struct_entry _ _ _ _ _ L F).
Qed.

Lemma ffi_type_wf b p ci co tab tab' i :
  wf tab -> ffi_type b p ci co tab = Some (tab', i) ->
  wf tab' /\ (exists ext, tab' = tab ++ ext).
Proof.
  intros W H. unfold ffi_type in H.
  destruct (nth_error tab b) as [e|] eqn:N; [|discriminate].
  injection H as H. eapply alloc_wf; [exact W| |exact H].
  exact (alias_entry _ _ _ _ _ _ N).
Qed.

Lemma later_wf tab tab' :
  later tab tab' -> wf tab -> wf tab' /\ (exists ext, tab' = tab ++ ext).
Proof.
  induction 1 as [tab|tab tab1 tab2 ids i L IH S1|tab tab1 tab2 b p ci co i L IH S1]; intros W.
  - split; [exact W|]. exists []. rewrite app_nil_r. reflexivity.
  - destruct (IH W) as (W1 & e1 & ->).
    destruct (ffi_struct_wf _ _ _ _ W1 S1) as (W2 & e2 & ->).
    split; [exact W2|]. exists (e1 ++ e2). rewrite app_assoc. reflexivity.
  - destruct (IH W) as (W1 & e1 & ->).
    destruct (ffi_type_wf _ _ _ _ _ _ _ W1 S1) as (W2 & e2 & ->).
    split; [exact W2|]. exists (e1 ++ e2). rewrite app_assoc. reflexivity.
Qed.

Lemma made_wf tab : made tab -> wf tab.
Proof. intros H. exact (proj1 (later_wf _ _ H wf_init)). Qed.

(** What ffi-struct answers. *)
Lemma ffi_struct_entry ids tab tab' i :
  wf tab -> ffi_struct ids tab = Some (tab', i) ->
  exists t, nth_error tab' i = Some t /\ f_kind t = KStruct ids.
Proof.
  intros [W1 W2] H. unfold ffi_struct in H.
  destruct (lookup_all tab ids) as [es|] eqn:L; [|discriminate].
  destruct (fold_left layout_step es (0, 0)) as [size al] eqn:F.
  injection H as H. unfold alloc_type in H.
  destruct (find_type _ tab 0) as [n|] eqn:FT'.
  - injection H as <- <-.
    destruct (find_some _ _ _ _ FT') as (e & _ & N & T).
    rewrite Nat.sub_0_r in N. exists e. split; [exact N|].
    unfold types_equal in T. cbn [f_kind f_obj] in T.
    pose proof (W1 n e N) as K. unfold entry_ok in K.
    destruct (f_kind e) as [p|ids'|b p ci co]; try discriminate.
    destruct K as (O1 & _). rewrite O1 in T.
    assert (n < length tab)%nat as Ln by (apply nth_error_Some; congruence).
    destruct (Nat.eqb (length tab) n) eqn:E; [apply Nat.eqb_eq in E; lia|].
    cbn [orb] in T. apply ids_eqb_eq in T. congruence.
  - injection H as <- <-. exists (FT (KStruct ids) (length tab) size al).
    split; [|reflexivity]. rewrite nth_error_app2 by lia. rewrite Nat.sub_diag. reflexivity.
Qed.

(** ** Layouts of entries *)

Lemma solid_entry tab id : solid tab id -> exists t, nth_error tab id = Some t.
Proof. intros []; eauto. Qed.

Lemma fold_align es : forall acc,
  (forall e, In e es -> pow2 (f_align e)) -> pow2 (snd acc) ->
  pow2 (snd (fold_left layout_step es acc)).
Proof.
  induction es as [|e es IH]; intros acc H Hacc; [exact Hacc|].
  cbn [fold_left]. apply IH.
  - intros e' He'. apply H. right. exact He'.
  - cbn [layout_step snd]. apply pow2_max; [exact Hacc|]. apply H. left. reflexivity.
Qed.

Lemma fold_align0 e es :
  (forall x, In x (e :: es) -> pow2 (f_align x)) ->
  pow2 (snd (fold_left layout_step (e :: es) (0, 0))).
Proof.
  intros H. cbn [fold_left]. apply fold_align.
  - intros x Hx. apply H. right. exact Hx.
  - cbn [layout_step snd]. assert (P : pow2 (f_align e)) by (apply H; left; reflexivity).
    pose proof (pow2_pos _ P). rewrite Z.max_r by lia. exact P.
Qed.

Lemma lookup_entries tab ids : forall es e,
  lookup_all tab ids = Some es -> In e es -> exists i, In i ids /\ nth_error tab i = Some e.
Proof.
  induction ids as [|j ids IH]; intros es e H He; cbn [lookup_all] in H.
  - injection H as <-. destruct He.
  - destruct (nth_error tab j) as [ej|] eqn:N; [|discriminate].
    destruct (lookup_all tab ids) as [es'|] eqn:E'; [|discriminate].
    injection H as <-. destruct He as [->|He].
    + exists j. split; [left; reflexivity|exact N].
    + destruct (IH es' e eq_refl He) as (i & Hi & Ni). exists i. split; [right; exact Hi|exact Ni].
Qed.

Lemma solid_align tab : wf tab -> forall n id t,
  (id < n)%nat -> solid tab id -> nth_error tab id = Some t -> pow2 (f_align t) /\ 0 <= f_size t.
Proof.
  intros [W1 W2]. induction n as [|n IH]; intros id t L S1 N; [lia|].
  pose proof (W1 id t N) as K. unfold entry_ok in K.
  inversion S1 as [id' t' p N' K'|id' t' ids N' K' NE IN|id' t' b p ci co N' K' SB]; subst id';
    rewrite N in N'; injection N' as <-; rewrite K' in K.
  - destruct K as [-> ->]. split; [apply pow2_prim|]. destruct p; cbn; lia.
  - destruct K as (_ & Lt & es & LK & E).
    assert (P : forall x, In x es -> pow2 (f_align x) /\ 0 <= f_size x).
    { intros x Hx. destruct (lookup_entries _ _ _ _ LK Hx) as (i & Hi & Ni).
      apply (IH i x); [|exact (IN i Hi)|exact Ni]. specialize (Lt i Hi). lia. }
    destruct es as [|e es].
    { destruct ids as [|i ids]; [congruence|]. cbn [lookup_all] in LK.
      destruct (nth_error tab i); [|discriminate].
      destruct (lookup_all tab ids); discriminate. }
    pose proof (fold_align0 e es (fun x Hx => proj1 (P x Hx))) as PA.
    rewrite <- E in PA. split; [exact PA|].
    assert (G : forall l acc, (forall x, In x l -> pow2 (f_align x) /\ 0 <= f_size x) ->
                fst acc <= fst (fold_left layout_step l acc)).
    { induction l as [|x l IHl]; intros acc Hl; [cbn [fold_left]; lia|].
      cbn [fold_left]. etransitivity; [|apply IHl; intros y Hy; apply Hl; right; exact Hy].
      cbn [layout_step fst]. destruct (Hl x (or_introl eq_refl)) as [Px Sx].
      pose proof (align_ge (fst acc) _ Px). lia. }
    specialize (G (e :: es) (0, 0) P). rewrite <- E in G. exact G.
  - destruct K as (Lb & e & Nb & -> & -> & _).
    apply (IH b e); [lia|exact SB|exact Nb].
Qed.

Lemma fold_size_ge l : forall acc,
  (forall x, In x l -> pow2 (f_align x) /\ 0 <= f_size x) ->
  fst acc <= fst (fold_left layout_step l acc).
Proof.
  induction l as [|x l IHl]; intros acc Hl; [cbn [fold_left]; lia|].
  cbn [fold_left]. etransitivity; [|apply IHl; intros y Hy; apply Hl; right; exact Hy].
  cbn [layout_step fst]. destruct (Hl x (or_introl eq_refl)) as [Px Sx].
  pose proof (align_ge (fst acc) _ Px). lia.
Qed.

(** ** Writes stay inside the type *)

Definition inside (m : mem) (p size : Z) (r : mres) : Prop :=
  match r with
  | MOk m' p' => p <= p' <= p + size /\ untouched m m' p (p' - p)
  | MErr m' => untouched m m' p size
  | MWild m' => untouched m m' p size
  end.

Lemma untouched_refl m p s : untouched m m p s.
Proof. intros a _. reflexivity. Qed.

Lemma put_int_inside o n m p : inside m p (Z.of_nat n) (put_int o n m p).
Proof.
  destruct o as [z|]; cbn [put_int inside]; [|apply untouched_refl].
  split; [lia|]. intros a Ha. apply store_other. lia.
Qed.

Lemma marshal_prim_inside pr v m p : inside m p (prim_size pr) (marshal_prim pr v m p).
Proof.
  destruct pr; cbn [marshal_prim prim_size];
    try (exact (put_int_inside _ 1 m p)); try (exact (put_int_inside _ 2 m p));
    try (exact (put_int_inside _ 4 m p)); try (exact (put_int_inside _ 8 m p));
    try (apply untouched_refl).
  - cbn [inside]. split; [lia|]. apply untouched_refl.
  - destruct v; try (apply untouched_refl). exact (put_int_inside _ 8 m p).
  - destruct v; exact (put_int_inside _ 8 m p).
Qed.

Lemma elts_inside tab rec base m0 : forall ids es i v acc m p size,
  lookup_all tab ids = Some es ->
  (forall x, In x es -> pow2 (f_align x) /\ 0 <= f_size x) ->
  (forall id e v m p, In id ids -> nth_error tab id = Some e -> inside m p (f_size e) (rec id v m p)) ->
  base <= p <= base + fst acc -> untouched m0 m base (p - base) ->
  size = fst (fold_left layout_step es acc) ->
  inside m0 base size (marshal_elts rec ids i v m p).
Proof.
  induction ids as [|id ids IH]; intros es i v acc m p size LK Hes Hrec B U ->.
  - cbn [lookup_all] in LK. injection LK as <-. cbn [marshal_elts inside fold_left].
    split; [lia|]. exact U.
  - cbn [lookup_all] in LK.
    destruct (nth_error tab id) as [e|] eqn:N; [|discriminate].
    destruct (lookup_all tab ids) as [es'|] eqn:E'; [|discriminate].
    injection LK as <-. cbn [fold_left].
    destruct (Hes e (or_introl eq_refl)) as [Pe Se].
    pose proof (align_ge (fst acc) _ Pe) as Ga.
    assert (Hes' : forall x, In x es' -> pow2 (f_align x) /\ 0 <= f_size x)
      by (intros x Hx; apply Hes; right; exact Hx).
    pose proof (fold_size_ge es' (layout_step acc e) Hes') as Gs.
    assert (Gs' : fst acc + f_size e <= fst (fold_left layout_step es' (layout_step acc e))).
    { eapply Z.le_trans; [|exact Gs]. cbn [layout_step fst]. lia. }
    assert (STEP : forall v1 v2,
      inside m0 base (fst (fold_left layout_step es' (layout_step acc e)))
        match rec id v1 m p with
        | MOk m' p' => marshal_elts rec ids (S i) v2 m' p'
        | r => r
        end).
    { intros v1 v2. pose proof (Hrec id e v1 m p (or_introl eq_refl) N) as R.
      destruct (rec id v1 m p) as [m' p'|m'|m']; cbn [inside] in R.
      - destruct R as [R1 R2].
        apply (IH es' (S i) v2 (layout_step acc e) m' p' _ eq_refl Hes').
        + intros id' e' v' m1 p1 Hin. apply Hrec. right. exact Hin.
        + cbn [layout_step fst]. lia.
        + intros a Ha. rewrite (R2 a) by lia. apply U. lia.
        + reflexivity.
      - cbn [inside]. intros a Ha. rewrite (R a) by lia. apply U. lia.
      - cbn [inside]. intros a Ha. rewrite (R a) by lia. apply U. lia. }
    assert (KEEP : untouched m0 m base (fst (fold_left layout_step es' (layout_step acc e)))).
    { intros a Ha. apply U. lia. }
    cbn [marshal_elts].
    destruct v as [z|b|ad| |va vd|l| |]; try exact KEEP.
    + apply STEP.
    + destruct (nth_error l i) as [x|]; [apply STEP|exact KEEP].
Qed.

Lemma marshal_inside call tab : wf tab -> forall k id t v m p,
  (id < k)%nat -> solid tab id -> nth_error tab id = Some t ->
  inside m p (f_size t) (marshal_n call tab k id v m p).
Proof.
  intros W. induction k as [|k IH]; intros id t v m p L S1 N; [lia|].
  cbn [marshal_n]. rewrite N.
  pose proof (proj1 W id t N) as K. unfold entry_ok in K.
  inversion S1 as [id' t' pr N' K'|id' t' ids N' K' NE IN|id' t' b pr ci co N' K' SB]; subst id';
    rewrite N in N'; injection N' as <-; rewrite K' in K; rewrite K'.
  - destruct K as [-> _]. apply marshal_prim_inside.
  - destruct K as (_ & Lt & es & LK & E).
    apply (elts_inside tab (marshal_n call tab k) p m ids es 0 v (0, 0) m p (f_size t) LK).
    + intros x Hx. destruct (lookup_entries _ _ _ _ LK Hx) as (i & Hi & Ni).
      exact (solid_align tab W (S i) i x (Nat.lt_succ_diag_r i) (IN i Hi) Ni).
    + intros i e v' m' p' Hi Ni. apply IH; [|exact (IN i Hi)|exact Ni].
      specialize (Lt i Hi). lia.
    + cbn [fst]. lia.
    + apply untouched_refl.
    + rewrite <- E. reflexivity.
  - destruct K as (Lb & e & Nb & -> & _).
    destruct (conv call ci v) as [v'|]; [|apply untouched_refl].
    apply IH; [lia|exact SB|exact Nb].
Qed.
