(** Proofs about the foreign function interface: values that fit are read back
    and seen by C. *)

From Coq Require Import ZArith List Bool Lia ZifyBool.
From Verif Require Import Ffi_Model Ffi_Spec Ffi_Proofs.
Import ListNotations.
Open Scope Z_scope.

(** ** Layout of C types *)

Lemma prim_bytes_size p : prim_bytes p = prim_size p.
Proof. destruct p; reflexivity. Qed.

Fixpoint cgo (off : Z) (l : list ctype) : Z :=
  match l with
  | [] => off
  | c :: r => cgo (up off (calign c) + csize c) r
  end.
Definition contents (l : list ctype) : Z := fold_right (fun c a => content c + a) 0 l.

Lemma csize_struct cts : csize (CStruct cts) = up (cgo 0 cts) (calign (CStruct cts)).
Proof.
  reflexivity.
Qed.

Fixpoint cdepth (ct : ctype) : nat :=
  match ct with
  | CPrim _ => 0
  | CStruct cts => S (fold_right (fun c a => Nat.max (cdepth c) a) 0%nat cts)
  end.

Lemma cdepth_in c cts : In c cts -> (cdepth c < cdepth (CStruct cts))%nat.
Proof.
  cbn [cdepth]. induction cts as [|x cts IH]; intros H; [destruct H|].
  cbn [fold_right]. destruct H as [->|H]; [lia|]. specialize (IH H). lia.
Qed.

Lemma calign_pos n : forall ct, (cdepth ct < n)%nat -> pow2 (calign ct).
Proof.
  induction n as [|n IH]; intros ct L; [lia|].
  destruct ct as [p|cts]; [cbn [calign]; rewrite prim_bytes_size; apply pow2_prim|].
  assert (H : forall c, In c cts -> pow2 (calign c)).
  { intros c Hc. apply IH. pose proof (cdepth_in c cts Hc). lia. }
  clear L. cbn [calign]. induction cts as [|c cts IHc].
  - exists 0. split; [lia|reflexivity].
  - cbn [fold_right]. apply pow2_max; [apply H; left; reflexivity|].
    apply IHc. intros c' Hc'. apply H. right. exact Hc'.
Qed.
Lemma calign_pow ct : pow2 (calign ct).
Proof. exact (calign_pos (S (cdepth ct)) ct (Nat.lt_succ_diag_r _)). Qed.

Lemma content_prim p : 0 <= content (CPrim p) <= prim_bytes p.
Proof. destruct p; cbn; lia. Qed.

Lemma content_size n : forall ct, (cdepth ct < n)%nat -> 0 <= content ct <= csize ct.
Proof.
  induction n as [|n IH]; intros ct L; [lia|].
  destruct ct as [p|cts]; [exact (content_prim p)|].
  assert (H : forall c, In c cts -> 0 <= content c <= csize c).
  { intros c Hc. apply IH. pose proof (cdepth_in c cts Hc). lia. }
  rewrite csize_struct.
  pose proof (up_bounds (cgo 0 cts) _ (pow2_pos _ (calign_pow (CStruct cts)))) as B.
  change (content (CStruct cts)) with (contents cts).
  assert (G : forall off, 0 <= contents cts /\ off + contents cts <= cgo off cts).
  { clear B L. induction cts as [|c cts IHc]; intros off.
    - cbn. lia.
    - pose proof (H c (or_introl eq_refl)) as Hc.
      assert (H' : forall c, In c cts -> 0 <= content c <= csize c)
        by (intros x Hx; apply H; right; exact Hx).
      cbn [cgo]. pose proof (IHc H' (up off (calign c) + csize c)) as R.
      change (contents (c :: cts)) with (content c + contents cts).
      pose proof (up_bounds off _ (pow2_pos _ (calign_pow c))). lia. }
  specialize (G 0). lia.
Qed.
Lemma content_le ct : 0 <= content ct <= csize ct.
Proof. exact (content_size (S (cdepth ct)) ct (Nat.lt_succ_diag_r _)). Qed.

Lemma cgo_ge cts : forall off, 0 <= contents cts /\ off + contents cts <= cgo off cts.
Proof.
  induction cts as [|c cts IHc]; intros off; [cbn; lia|].
  cbn [cgo]. pose proof (IHc (up off (calign c) + csize c)) as R.
  change (contents (c :: cts)) with (content c + contents cts).
  pose proof (up_bounds off _ (pow2_pos _ (calign_pow c))).
  pose proof (content_le c). lia.
Qed.

Lemma cgo_tight c cts off :
  cgo off (c :: cts) = off + contents (c :: cts) ->
  up off (calign c) = off /\ padless c /\
  cgo (off + content c) cts = off + content c + contents cts.
Proof.
  cbn [cgo]. change (contents (c :: cts)) with (content c + contents cts).
  intros H. pose proof (cgo_ge cts (up off (calign c) + csize c)) as G.
  pose proof (up_bounds off _ (pow2_pos _ (calign_pow c))).
  pose proof (content_le c).
  assert (E1 : up off (calign c) = off) by lia.
  assert (E2 : csize c = content c) by lia.
  split; [exact E1|]. split; [exact E2|]. rewrite E1, E2 in H. lia.
Qed.

(** ** Numbers *)

Lemma get_long_small z : - 2 ^ 63 <= z < 2 ^ 63 -> get_long_int (VInt z) = Some z.
Proof.
  intros H. cbn [get_long_int]. f_equal. destruct (fixnump z) eqn:F; [reflexivity|].
  unfold mpz_get_si. destruct (0 <? z) eqn:E1.
  - unfold to_long. rewrite Z.mod_small by lia. destruct (z <? 2 ^ 63) eqn:E2; lia.
  - destruct (z <? 0) eqn:E2; [|lia]. rewrite Z.mod_small by lia. lia.
Qed.

Lemma get_uint_small z : 0 <= z < 2 ^ 64 -> get_long_uint (VInt z) = Some z.
Proof.
  intros H. cbn [get_long_uint]. f_equal. destruct (fixnump z).
  - apply Z.mod_small. exact H.
  - rewrite Z.abs_eq by lia. apply Z.mod_small. exact H.
Qed.

(** Reading a signed number of n bytes. *)
Lemma signed_mod b z : 0 < b -> - 2 ^ (b - 1) <= z < 2 ^ (b - 1) ->
  (if z mod 2 ^ b <? 2 ^ (b - 1) then z mod 2 ^ b else z mod 2 ^ b - 2 ^ b) = z.
Proof.
  intros Hb H.
  assert (E : 2 ^ b = 2 * 2 ^ (b - 1)).
  { replace b with (Z.succ (b - 1)) at 1 by lia. rewrite Z.pow_succ_r by lia. reflexivity. }
  assert (P : 0 < 2 ^ (b - 1)) by (apply Z.pow_pos_nonneg; lia).
  destruct (Z.lt_ge_cases z 0) as [N|N].
  - assert (M : z mod 2 ^ b = z + 2 ^ b).
    { symmetry. apply (Z.mod_unique _ _ (-1)); [left; lia|lia]. }
    rewrite M. destruct (z + 2 ^ b <? 2 ^ (b - 1)) eqn:C; lia.
  - rewrite (Z.mod_small z) by lia. destruct (z <? 2 ^ (b - 1)) eqn:C; lia.
Qed.

(** ** What one write establishes *)

Section Trip.
Variable call : Z -> value -> option value.
Variable junk : value.
Variable tab : table.
Hypothesis W : wf tab.

(** [holds k id ct p m w]: in any memory that agrees with m where the value
    was written, w is read back, and C sees it if there is no padding. *)
Definition holds (k id : nat) (ct : ctype) (p : Z) (m : mem) (w : value) : Prop :=
  forall m2, (forall a, p <= a < p + content ct -> m2 a = m a) ->
  demarshal_n call junk tab k id m2 p = DOk w m2 (p + content ct) /\
  (padless ct -> csees m2 ct p w).

Definition written (k id : nat) (ct : ctype) (v w : value) (m : mem) (p : Z) : Prop :=
  exists m', marshal_n call tab k id v m p = MOk m' (p + content ct) /\
             untouched m m' p (content ct) /\ holds k id ct p m' w.

Lemma bytes_store m m2 p n z :
  (forall a, p <= a < p + Z.of_nat n -> m2 a = store m p n z a) ->
  bytes_at m2 p (Z.of_nat n) z.
Proof.
  intros H k Hk. rewrite H by lia. apply store_at. exact Hk.
Qed.

Lemma load_agree m m2 p n z :
  (forall a, p <= a < p + Z.of_nat n -> m2 a = store m p n z a) ->
  load m2 p n = z mod 256 ^ Z.of_nat n.
Proof.
  intros H. rewrite (load_ext n m2 (store m p n z) p H). apply load_store.
Qed.

Lemma untouched_store m p n z : untouched m (store m p n z) p (Z.of_nat n).
Proof. intros a Ha. apply store_other. exact Ha. Qed.

Lemma prim_int_written pr z m p :
  range pr z ->
  exists m', marshal_prim pr (VInt z) m p = MOk m' (p + content (CPrim pr)) /\
    untouched m m' p (content (CPrim pr)) /\
    forall m2, (forall a, p <= a < p + content (CPrim pr) -> m2 a = m' a) ->
      demarshal_prim pr m2 p = DOk (VInt z) m2 (p + content (CPrim pr)) /\
      bytes_at m2 p (prim_bytes pr) z.
Proof.
  intros R.
  assert (GI : range pr z -> pr <> PPointer -> get_long_int (VInt z) = Some z).
  { intros R' NP. apply get_long_small. destruct pr; cbn [range] in R'; try lia; congruence. }
  destruct pr; cbn [range] in R; try contradiction; cbn [marshal_prim];
    first [rewrite (get_uint_small z R) | rewrite (GI R ltac:(discriminate))]; cbn [put_int].
  - exists (store m p 1 z). split; [reflexivity|]. split; [exact (untouched_store m p 1 z)|].
    intros m2 A. split; [|exact (bytes_store m m2 p 1 z A)].
    cbn [demarshal_prim]. rewrite (load_agree m m2 p 1 z A).
    rewrite Z.mod_small; [reflexivity|exact R].
  - exists (store m p 1 z). split; [reflexivity|]. split; [exact (untouched_store m p 1 z)|].
    intros m2 A. split; [|exact (bytes_store m m2 p 1 z A)].
    cbn [demarshal_prim]. unfold load_signed. rewrite (load_agree m m2 p 1 z A).
    change (256 ^ Z.of_nat 1) with (2 ^ 8). change (8 * Z.of_nat 1) with 8.
    rewrite (signed_mod 8 z ltac:(lia) R). reflexivity.
  - exists (store m p 2 z). split; [reflexivity|]. split; [exact (untouched_store m p 2 z)|].
    intros m2 A. split; [|exact (bytes_store m m2 p 2 z A)].
    cbn [demarshal_prim]. rewrite (load_agree m m2 p 2 z A).
    rewrite Z.mod_small; [reflexivity|exact R].
  - exists (store m p 2 z). split; [reflexivity|]. split; [exact (untouched_store m p 2 z)|].
    intros m2 A. split; [|exact (bytes_store m m2 p 2 z A)].
    cbn [demarshal_prim]. unfold load_signed. rewrite (load_agree m m2 p 2 z A).
    change (256 ^ Z.of_nat 2) with (2 ^ 16). change (8 * Z.of_nat 2) with 16.
    rewrite (signed_mod 16 z ltac:(lia) R). reflexivity.
  - exists (store m p 4 z). split; [reflexivity|]. split; [exact (untouched_store m p 4 z)|].
    intros m2 A. split; [|exact (bytes_store m m2 p 4 z A)].
    cbn [demarshal_prim]. rewrite (load_agree m m2 p 4 z A).
    rewrite Z.mod_small; [reflexivity|exact R].
  - exists (store m p 4 z). split; [reflexivity|]. split; [exact (untouched_store m p 4 z)|].
    intros m2 A. split; [|exact (bytes_store m m2 p 4 z A)].
    cbn [demarshal_prim]. unfold load_signed. rewrite (load_agree m m2 p 4 z A).
    change (256 ^ Z.of_nat 4) with (2 ^ 32). change (8 * Z.of_nat 4) with 32.
    rewrite (signed_mod 32 z ltac:(lia) R). reflexivity.
  - exists (store m p 8 z). split; [reflexivity|]. split; [exact (untouched_store m p 8 z)|].
    intros m2 A. split; [|exact (bytes_store m m2 p 8 z A)].
    cbn [demarshal_prim]. rewrite (load_agree m m2 p 8 z A).
    change (256 ^ Z.of_nat 8) with (2 ^ 64). rewrite (Z.mod_small z) by lia.
    unfold to_long. rewrite (Z.mod_small z) by lia.
    destruct (z <? 2 ^ 63) eqn:C; [reflexivity|lia].
  - exists (store m p 8 z). split; [reflexivity|]. split; [exact (untouched_store m p 8 z)|].
    intros m2 A. split; [|exact (bytes_store m m2 p 8 z A)].
    cbn [demarshal_prim]. unfold load_signed. rewrite (load_agree m m2 p 8 z A).
    change (256 ^ Z.of_nat 8) with (2 ^ 64). change (8 * Z.of_nat 8) with 64.
    rewrite (signed_mod 64 z ltac:(lia) R). reflexivity.
  - exists (store m p 8 z). split; [reflexivity|]. split; [exact (untouched_store m p 8 z)|].
    intros m2 A. split; [|exact (bytes_store m m2 p 8 z A)].
    cbn [demarshal_prim]. rewrite (load_agree m m2 p 8 z A).
    rewrite Z.mod_small; [reflexivity|exact R].
Qed.

(** The elements of a structure, in any form of value. *)
Definition gives (v : value) (i : nat) (l : list value) : Prop :=
  (exists pre rest, v = VVec (pre ++ l ++ rest) /\ length pre = i) \/
  (exists tail, v = lisp_list l tail).

Lemma elts_written k base : forall ids cts l ws i v m p acc,
  means_all tab ids cts -> fits_all cts l ws -> gives v i l ->
  (forall id ct v w m p, In id ids -> means tab id ct -> fits ct v w -> written k id ct v w m p) ->
  exists m', marshal_elts (marshal_n call tab k) ids i v m p = MOk m' (p + contents cts) /\
    untouched m m' p (contents cts) /\
    forall m2, (forall a, p <= a < p + contents cts -> m2 a = m' a) ->
      demarshal_elts (demarshal_n call junk tab k) ids acc m2 p
        = DOk (VVec (rev acc ++ ws)) m2 (p + contents cts) /\
      (forall off, p = base + off -> cgo off cts = off + contents cts ->
         csees_from m2 cts base off ws).
Proof.
  induction ids as [|id ids IH]; intros cts l ws i v m p acc MA FA G REC.
  - inversion MA; subst. inversion FA; subst. exists m.
    cbn [marshal_elts demarshal_elts contents fold_right].
    rewrite Z.add_0_r. split; [reflexivity|]. split; [apply untouched_refl|].
    intros m2 A. rewrite app_nil_r. split; [reflexivity|]. intros. constructor.
  - inversion MA as [|id' ids' ct cts' M1 MA']; subst.
    inversion FA as [|ct' cts'' v1 vs w ws' F1 FA']; subst.
    destruct (REC id ct v1 w m p (or_introl eq_refl) M1 F1) as (m1 & E1 & U1 & H1).
    assert (NEXT : exists v2, gives v2 (S i) vs /\
      marshal_elts (marshal_n call tab k) (id :: ids) i v m p =
      marshal_elts (marshal_n call tab k) ids (S i) v2 m1 (p + content ct)).
    { destruct G as [(pre & rest & -> & Lp)|(tail & ->)].
      - exists (VVec (pre ++ (v1 :: vs) ++ rest)). split.
        + left. exists (pre ++ [v1]), rest. split.
          * rewrite <- app_assoc. reflexivity.
          * rewrite app_length. cbn [length]. lia.
        + cbn [marshal_elts]. rewrite nth_error_app2 by lia.
          rewrite Lp, Nat.sub_diag. cbn [app nth_error]. rewrite E1. reflexivity.
      - exists (lisp_list vs tail). split.
        + right. exists tail. reflexivity.
        + cbn [lisp_list marshal_elts]. rewrite E1. reflexivity. }
    destruct NEXT as (v2 & G2 & EQ).
    destruct (IH cts' vs ws' (S i) v2 m1 (p + content ct) (w :: acc) MA' FA' G2) as (m' & E' & U' & H').
    { intros id' ct' v' w' m0 p0 Hin. apply REC. right. exact Hin. }
    change (contents (ct :: cts')) with (content ct + contents cts').
    pose proof (content_le ct) as [C0 _]. pose proof (proj1 (cgo_ge cts' 0)) as C1.
    exists m'. split; [rewrite EQ, E'; f_equal; lia|].
    split.
    { intros a Ha. rewrite (U' a) by lia. apply U1. lia. }
    intros m2 A.
    destruct (H1 m2) as (D1 & S1).
    { intros a Ha. rewrite A by lia. apply U'. lia. }
    destruct (H' m2) as (D2 & S2).
    { intros a Ha. apply A. lia. }
    split.
    + cbn [demarshal_elts]. rewrite D1, D2. cbn [rev]. rewrite <- app_assoc.
      f_equal. lia.
    + intros off Ep T. destruct (cgo_tight _ _ _ T) as (T1 & T2 & T3).
      constructor.
      * rewrite T1, <- Ep. apply S1. exact T2.
      * rewrite T1, T2. apply S2; [lia|exact T3].
Qed.

Lemma means_ids id ct : means tab id ct ->
  forall t ids, nth_error tab id = Some t -> f_kind t = KStruct ids ->
  exists cts, ct = CStruct cts /\ means_all tab ids cts.
Proof.
  intros M t ids N K. inversion M as [id' t' p N' K'|id' t' ids' cts N' K' NE MA]; subst.
  - rewrite N in N'. injection N' as <-. congruence.
  - rewrite N in N'. injection N' as <-. rewrite K in K'. injection K' as <-.
    exists cts. auto.
Qed.

Lemma marshal_written : forall k id ct v w m p,
  (id < k)%nat -> means tab id ct -> fits ct v w -> written k id ct v w m p.
Proof.
  induction k as [|k IH]; intros id ct v w m p L M F; [lia|].
  unfold written, holds. cbn [marshal_n demarshal_n].
  inversion M as [id' t pr N K|id' t ids cts N K NE MA]; subst; rewrite N, K.
  - inversion F as [v'|pr' z R|a R|b R| |]; subst.
    + exists m. cbn [content marshal_prim demarshal_prim]. rewrite Z.add_0_r.
      split; [reflexivity|]. split; [apply untouched_refl|].
      intros m2 _. split; [reflexivity|]. intros _. constructor.
    + destruct (prim_int_written pr z m p R) as (m' & E & U & H).
      exists m'. split; [exact E|]. split; [exact U|].
      intros m2 A. destruct (H m2 A) as (D & B). split; [exact D|]. intros _. constructor. exact B.
    + cbn [marshal_prim put_int]. exists (store m p 8 a). split; [reflexivity|].
      split; [exact (untouched_store m p 8 a)|]. intros m2 A.
      split; [|intros _; constructor; exact (bytes_store m m2 p 8 a A)].
      cbn [demarshal_prim]. rewrite (load_agree m m2 p 8 a A).
      rewrite Z.mod_small; [reflexivity|exact R].
    + cbn [marshal_prim put_int]. exists (store m p 8 b). split; [reflexivity|].
      split; [exact (untouched_store m p 8 b)|]. intros m2 A.
      split; [|intros _; apply sees_flt; exact (bytes_store m m2 p 8 b A)].
      cbn [demarshal_prim]. rewrite (load_agree m m2 p 8 b A).
      rewrite Z.mod_small; [reflexivity|exact R].
  - pose proof (proj1 W id t N) as EO. unfold entry_ok in EO. rewrite K in EO.
    destruct EO as (_ & Lt & _).
    assert (X : exists l ws, w = VVec ws /\ fits_all cts l ws /\ gives v 0 l).
    { inversion F as [| | | |cts' l rest ws FA|cts' l tail ws FA]; subst; exists l, ws.
      - split; [reflexivity|]. split; [exact FA|]. left. exists [], rest. split; reflexivity.
      - split; [reflexivity|]. split; [exact FA|]. right. exists tail. reflexivity. }
    destruct X as (l & ws & -> & FA & G).
    destruct (elts_written k p ids cts l ws 0 v m p [] MA FA G) as (m' & E & U & H).
    { intros i c v' w' m0 p0 Hi Mi Fi. apply IH; [|exact Mi|exact Fi]. specialize (Lt i Hi). lia. }
    exists m'. split; [exact E|]. split; [exact U|].
    intros m2 A. destruct (H m2 A) as (D & S1). split; [exact D|].
    intros PL. constructor. apply S1; [lia|].
    unfold padless in PL. rewrite csize_struct in PL.
    change (content (CStruct cts)) with (contents cts) in PL.
    pose proof (up_bounds (cgo 0 cts) _ (pow2_pos _ (calign_pow (CStruct cts)))).
    pose proof (cgo_ge cts 0). lia.
Qed.

End Trip.

(** ** The table's sizes against C's *)

Lemma means_solid tab : forall n ct id, (cdepth ct < n)%nat -> means tab id ct -> solid tab id.
Proof.
  induction n as [|n IH]; intros ct id L M; [lia|].
  inversion M as [id' t p N K|id' t ids cts N K NE MA]; subst.
  - exact (solid_prim tab id t p N K).
  - apply (solid_struct tab id t ids N K NE).
    assert (G : forall c, In c cts -> (cdepth c < n)%nat).
    { intros c Hc. pose proof (cdepth_in c cts Hc). lia. }
    clear -MA G IH. induction MA as [|i ids ct cts M1 MA IHM] using means_all_ind; intros j Hj.
    + destruct Hj.
    + destruct Hj as [<-|Hj].
      * apply (IH ct i); [apply G; left; reflexivity|exact M1].
      * apply IHM; [|exact Hj]. intros c Hc. apply G. right. exact Hc.
Qed.
