(** Proofs about the foreign function interface: sizes, arrays, arguments. *)

From Coq Require Import ZArith List Bool Lia ZifyBool.
From Verif Require Import Ffi_Model Ffi_Spec Ffi_Proofs Ffi_Trip.
Import ListNotations.
Open Scope Z_scope.

Lemma means_solid' tab ct id : means tab id ct -> solid tab id.
Proof. exact (means_solid tab (S (cdepth ct)) ct id (Nat.lt_succ_diag_r _)). Qed.

Lemma means_entry tab id ct : means tab id ct -> exists t, nth_error tab id = Some t.
Proof. intros []; eauto. Qed.

(** ** Sizes *)

Definition maxalign (cts : list ctype) (a : Z) : Z :=
  fold_left (fun a c => Z.max a (calign c)) cts a.

Lemma maxalign_right cts : forall a, 1 <= a ->
  maxalign cts a = Z.max a (fold_right (fun c a => Z.max (calign c) a) 1 cts).
Proof.
  unfold maxalign. induction cts as [|c cts IH]; intros a Ha; cbn [fold_left fold_right]; [lia|].
  pose proof (pow2_pos _ (calign_pow c)). rewrite IH by lia. lia.
Qed.

Lemma struct_fold tab ids cts : means_all tab ids cts ->
  (forall i ct t, In i ids -> means tab i ct -> nth_error tab i = Some t ->
     f_align t = calign ct /\ (padless ct -> f_size t = csize ct)) ->
  forall es off al, lookup_all tab ids = Some es ->
  snd (fold_left layout_step es (off, al)) = maxalign cts al /\
  (cgo off cts = off + contents cts ->
   fst (fold_left layout_step es (off, al)) = off + contents cts).
Proof.
  induction 1 as [|i ids ct cts M MA IH] using means_all_ind; intros REC es off al LK.
  - cbn [lookup_all] in LK. injection LK as <-. cbn. split; [reflexivity|]. lia.
  - cbn [lookup_all] in LK.
    destruct (nth_error tab i) as [e|] eqn:N; [|discriminate].
    destruct (lookup_all tab ids) as [es'|] eqn:E'; [|discriminate].
    injection LK as <-.
    destruct (REC i ct e (or_introl eq_refl) M N) as [A B].
    cbn [fold_left]. unfold layout_step at 2 4. cbn [fst snd].
    destruct (IH (fun i ct t Hi => REC i ct t (or_intror Hi)) es'
                 (align off (f_align e) + f_size e) (Z.max al (f_align e)) eq_refl) as [I1 I2].
    split.
    + rewrite I1, A. reflexivity.
    + intros T. destruct (cgo_tight _ _ _ T) as (T1 & T2 & T3).
      assert (PA : pow2 (f_align e)) by (rewrite A; apply calign_pow).
      assert (X : align off (f_align e) + f_size e = off + content ct).
      { rewrite align_up by exact PA. rewrite A, T1, (B T2), T2. reflexivity. }
      rewrite X in I2 |- *. rewrite I2 by exact T3.
      change (contents (ct :: cts)) with (content ct + contents cts). lia.
Qed.

Lemma entry_layout tab : wf tab -> forall n id ct t,
  (id < n)%nat -> means tab id ct -> nth_error tab id = Some t ->
  f_align t = calign ct /\ (padless ct -> f_size t = csize ct).
Proof.
  intros W. induction n as [|n IH]; intros id ct t L M N; [lia|].
  pose proof (proj1 W id t N) as EO. unfold entry_ok in EO.
  inversion M as [id' t' p N' K|id' t' ids cts N' K NE MA]; subst;
    rewrite N in N'; injection N' as <-; rewrite K in EO.
  - destruct EO as [-> ->]. cbn [calign csize]. split; [symmetry; apply prim_bytes_size|].
    intros _. symmetry. apply prim_bytes_size.
  - destruct EO as (_ & Lt & es & LK & E).
    destruct (struct_fold tab ids cts MA) with (es := es) (off := 0) (al := 0) as [F1 F2];
      [|exact LK|].
    { intros i c u Hi Mi Ni. apply (IH i c u); [|exact Mi|exact Ni]. specialize (Lt i Hi). lia. }
    rewrite <- E in F1, F2. cbn [fst snd] in F1, F2. split.
    + rewrite F1. destruct MA as [|i ids ct cts M1 MA]; [congruence|].
      unfold maxalign. cbn [fold_left]. pose proof (pow2_pos _ (calign_pow ct)).
      rewrite Z.max_r by lia. fold (maxalign cts (calign ct)).
      rewrite maxalign_right by lia. cbn [calign fold_right]. reflexivity.
    + unfold padless. rewrite csize_struct. change (content (CStruct cts)) with (contents cts).
      intros PL. pose proof (up_bounds (cgo 0 cts) _ (pow2_pos _ (calign_pow (CStruct cts)))).
      pose proof (cgo_ge cts 0). rewrite F2 by lia. lia.
Qed.

(** ** ffi-set! and ffi-get *)

Section Ops.
Variable call : Z -> value -> option value.
Variable junk : value.
Variable tab : table.
Hypothesis W : wf tab.

Lemma set_written id ct t v w m p :
  means tab id ct -> nth_error tab id = Some t -> fits ct v w ->
  let a := align p (f_align t) in
  exists m', ffi_set call tab id p v m = MOk m' (a + content ct) /\
    untouched m m' a (content ct) /\
    forall m2, (forall x, a <= x < a + content ct -> m2 x = m' x) ->
      ffi_get call junk tab id p m2 = DOk w m2 (a + content ct) /\
      (padless ct -> csees m2 ct a w).
Proof.
  intros M N F a. unfold ffi_set, ffi_get. rewrite N.
  destruct (marshal_written call junk tab W (S id) id ct v w m a
              (Nat.lt_succ_diag_r id) M F) as (m' & E & U & H).
  exists m'. split; [exact E|]. split; [exact U|]. exact H.
Qed.

Lemma content_size_entry id ct t v w :
  means tab id ct -> nth_error tab id = Some t -> fits ct v w -> content ct <= f_size t.
Proof.
  intros M N F.
  destruct (marshal_written call junk tab W (S id) id ct v w (fun _ => 0) 0
              (Nat.lt_succ_diag_r id) M F) as (m' & E & _).
  pose proof (marshal_inside call tab W (S id) id t v (fun _ => 0) 0
                (Nat.lt_succ_diag_r id) (means_solid' _ _ _ M) N) as I.
  rewrite E in I. cbn [inside] in I. lia.
Qed.

Lemma address_mul t p i :
  pow2 (f_align t) -> (f_align t | f_size t) -> (f_align t | p) ->
  address_loop t p i = p + Z.of_nat i * f_size t.
Proof.
  intros P D. revert p. induction i as [|i IH]; intros p Dp; cbn [address_loop].
  - lia.
  - rewrite align_up by exact P. rewrite up_same; [|exact (pow2_pos _ P)|exact Dp].
    rewrite IH by (apply Z.divide_add_r; assumption). lia.
Qed.

(** ** Arguments *)

Lemma args_step_ge e acc : pow2 (f_align e) -> acc + f_size e <= args_step acc e.
Proof.
  intros P. unfold args_step. destruct (1 <? f_align e); [|lia].
  pose proof (align_ge acc _ P). lia.
Qed.

Lemma args_fold_ge es : forall acc,
  (forall x, In x es -> pow2 (f_align x) /\ 0 <= f_size x) ->
  acc <= fold_left args_step es acc.
Proof.
  induction es as [|e es IH]; intros acc H; cbn [fold_left]; [lia|].
  destruct (H e (or_introl eq_refl)) as [P S1].
  pose proof (args_step_ge e acc P).
  pose proof (IH (args_step acc e) (fun x Hx => H x (or_intror Hx))). lia.
Qed.

Lemma args_inside base m0 : forall ids es args acc m p at_ r,
  lookup_all tab ids = Some es -> (forall i, In i ids -> solid tab i) ->
  base <= p <= base + acc -> untouched m0 m base (p - base) ->
  marshal_args call tab ids args m p at_ = r ->
  match r with
  | AOk m' _ | AErr m' => untouched m0 m' base (fold_left args_step es acc)
  | AWild _ => True
  end.
Proof.
  induction ids as [|id ids IH]; intros es args acc m p at_ r LK S1 B U <-.
  - cbn [lookup_all] in LK. injection LK as <-. cbn [marshal_args fold_left].
    intros a Ha. apply U. lia.
  - cbn [lookup_all] in LK.
    destruct (nth_error tab id) as [e|] eqn:N; [|discriminate].
    destruct (lookup_all tab ids) as [es'|] eqn:E'; [|discriminate].
    injection LK as <-. cbn [fold_left].
    destruct (solid_align tab W (S id) id e (Nat.lt_succ_diag_r id) (S1 id (or_introl eq_refl)) N)
      as [Pe Se].
    pose proof (args_step_ge e acc Pe) as G1.
    assert (G2 : args_step acc e <= fold_left args_step es' (args_step acc e)).
    { apply args_fold_ge. intros x Hx.
      destruct (lookup_entries _ _ _ _ E' Hx) as (i & Hi & Ni).
      exact (solid_align tab W (S i) i x (Nat.lt_succ_diag_r i) (S1 i (or_intror Hi)) Ni). }
    cbn [marshal_args]. destruct args as [z|b|ad| |a d|l| |];
      try (intros x Hx; apply U; lia).
    pose proof (marshal_inside call tab W (S id) id e a m p (Nat.lt_succ_diag_r id)
                  (S1 id (or_introl eq_refl)) N) as I.
    unfold marshal. destruct (marshal_n call tab (S id) id a m p) as [m' p'|m'|m'];
      cbn [inside] in I.
    + destruct I as [I1 I2].
      apply (IH es' d (args_step acc e) m' p' (p :: at_) _ eq_refl
               (fun i Hi => S1 i (or_intror Hi))); [lia| |reflexivity].
      intros x Hx. rewrite (I2 x) by lia. apply U. lia.
    + intros x Hx. rewrite (I x) by lia. apply U. lia.
    + exact Logic.I.
Qed.

Lemma buffer_room s : 0 <= s -> s < buffer_bytes s.
Proof.
  intros H. unfold buffer_bytes. rewrite Z.shiftr_div_pow2 by lia. change (2 ^ 3) with 8.
  pose proof (Z.div_mod s 8 ltac:(lia)). pose proof (Z.mod_pos_bound s 8 ltac:(lia)). lia.
Qed.

Lemma args_fit : forall ids cts l ws tail m p at_,
  means_all tab ids cts -> fits_all cts l ws ->
  exists m' at', marshal_args call tab ids (lisp_list l tail) m p at_ = AOk m' (rev at_ ++ at') /\
    (forall x, x < p -> m' x = m x) /\
    ((forall c, In c cts -> padless c) -> args_seen m' cts at' ws).
Proof.
  induction ids as [|id ids IH]; intros cts l ws tail m p at_ MA FA.
  - inversion MA; subst. inversion FA; subst. exists m, []. cbn [marshal_args lisp_list].
    rewrite app_nil_r. split; [reflexivity|]. split; [reflexivity|]. intros _. constructor.
  - inversion MA as [|id' ids' ct cts' M1 MA']; subst.
    inversion FA as [|ct' cts'' v1 vs w ws' F1 FA']; subst.
    destruct (marshal_written call junk tab W (S id) id ct v1 w m p
                (Nat.lt_succ_diag_r id) M1 F1) as (m1 & E1 & U1 & H1).
    destruct (IH cts' vs ws' tail m1 (p + content ct) (p :: at_) MA' FA') as (m' & at' & E' & B' & S').
    pose proof (content_le ct) as [C0 _].
    exists m', (p :: at'). split.
    { cbn [lisp_list marshal_args]. unfold marshal. rewrite E1, E'. cbn [rev].
      rewrite <- app_assoc. reflexivity. }
    split.
    { intros x Hx. rewrite B' by lia. apply U1. lia. }
    intros PL. constructor.
    + apply H1; [|apply PL; left; reflexivity]. intros x Hx. apply B'. lia.
    + apply S'. intros c Hc. apply PL. right. exact Hc.
Qed.

End Ops.

(** ** Types keep their meaning *)

Lemma elts_ext r1 r2 ids : (forall id v m p, In id ids -> r1 id v m p = r2 id v m p) ->
  forall i v m p, marshal_elts r1 ids i v m p = marshal_elts r2 ids i v m p.
Proof.
  induction ids as [|id ids IH]; intros H i v m p; [reflexivity|].
  assert (H' : forall id v m p, In id ids -> r1 id v m p = r2 id v m p)
    by (intros; apply H; right; assumption).
  cbn [marshal_elts]. destruct v as [z|b|ad| |a d|l| |]; try reflexivity.
  - rewrite (H id a m p (or_introl eq_refl)). destruct (r2 id a m p); auto.
  - destruct (nth_error l i) as [x|]; [|reflexivity].
    rewrite (H id x m p (or_introl eq_refl)). destruct (r2 id x m p); auto.
Qed.

Lemma delts_ext r1 r2 ids : (forall id m p, In id ids -> r1 id m p = r2 id m p) ->
  forall acc m p, demarshal_elts r1 ids acc m p = demarshal_elts r2 ids acc m p.
Proof.
  induction ids as [|id ids IH]; intros H acc m p; [reflexivity|].
  cbn [demarshal_elts]. rewrite (H id m p (or_introl eq_refl)).
  destruct (r2 id m p); auto. apply IH. intros; apply H; right; assumption.
Qed.

Section Stable.
Variable call : Z -> value -> option value.
Variable junk : value.
Variables (tab ext : table).
Hypothesis W : wf tab.

Lemma marshal_stable : forall k k' id v m p,
  (id < k)%nat -> (id < k')%nat -> (id < length tab)%nat ->
  marshal_n call (tab ++ ext) k' id v m p = marshal_n call tab k id v m p.
Proof.
  induction k as [|k IH]; intros [|k'] id v m p L L' Lt; try lia.
  cbn [marshal_n]. rewrite nth_error_app1 by exact Lt.
  destruct (nth_error tab id) as [t|] eqn:N; [|reflexivity].
  pose proof (proj1 W id t N) as EO. unfold entry_ok in EO.
  destruct (f_kind t) as [pr|ids|b p0 ci co]; [reflexivity| |].
  - destruct EO as (_ & LI & _). apply elts_ext. intros i v' m' p' Hi.
    specialize (LI i Hi). apply IH; lia.
  - destruct EO as (Lb & _). destruct (conv call ci v); [|reflexivity].
    apply IH; lia.
Qed.

Lemma demarshal_stable : forall k k' id m p,
  (id < k)%nat -> (id < k')%nat -> (id < length tab)%nat ->
  demarshal_n call junk (tab ++ ext) k' id m p = demarshal_n call junk tab k id m p.
Proof.
  induction k as [|k IH]; intros [|k'] id m p L L' Lt; try lia.
  cbn [demarshal_n]. rewrite nth_error_app1 by exact Lt.
  destruct (nth_error tab id) as [t|] eqn:N; [|reflexivity].
  pose proof (proj1 W id t N) as EO. unfold entry_ok in EO.
  destruct (f_kind t) as [pr|ids|b p0 ci co]; [reflexivity| |].
  - destruct EO as (_ & LI & _). apply delts_ext. intros i m' p' Hi.
    specialize (LI i Hi). apply IH; lia.
  - destruct EO as (Lb & _). rewrite (marshal_stable k k' b junk m p) by lia. reflexivity.
Qed.

End Stable.
