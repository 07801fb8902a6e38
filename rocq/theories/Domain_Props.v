(** Properties of domain names. *)

From Coq Require Import List ZArith Bool Lia ZifyBool Sorting.Sorted.
From Verif Require Import Regexp_Model Regexp_Spec Find_Model.
From Verif Require Import Domain_Model Domain_Spec Domain_Proofs.
Import ListNotations.
Open Scope Z_scope.

(** The parts of a name are its labels, and a name has only one list of labels. *)
Theorem C88_parts_partial : forall beyond d, bytes d ->
  exists f0, forall f n m, (f0 <= f)%nat -> (length d < n)%nat ->
    exists ls, domain_parts beyond f n d m = Ok ls /\ labels_of d ls /\
      (forall ls', labels_of d ls' -> ls' = ls).
Proof.
  intros beyond d B. destruct (parts_ok beyond d B) as (f0 & H). exists f0. intros f n m F N.
  exists (cut d). split; [apply H; assumption|]. split; [apply cut_labels|apply labels_cut].
Qed.
Print Assumptions C88_parts_partial.

(** domain-above is the parent: nothing lies between a name and its parent. *)
Theorem C88_parent_partial : forall beyond d, bytes d ->
  exists f0, forall f m, (f0 <= f)%nat ->
    exists r, domain_above beyond f d m = Ok r /\
      (forall p, r = Some p <-> is_parent p d) /\
      (r = None <-> undotted d) /\
      (forall p x, r = Some p -> (is_above x d <-> x = p \/ is_above x p)).
Proof.
  intros beyond d B. destruct (above_ok beyond d B) as (f0 & H). exists f0. intros f m F.
  rewrite (H f m F). destruct (cut_labels d) as (N & E & U).
  destruct (cut d) as [|l [|l2 ls]] eqn:C; [congruence| |].
  - cbn [dotted] in E. subst l. inversion U as [|x y U' _]; subst.
    exists None. split; [reflexivity|]. split; [|split; [split; auto|discriminate]].
    intros p. split; [discriminate|]. intros (l & _ & ->). exfalso. apply U'.
    apply in_or_app. right. left. reflexivity.
  - inversion U as [|x y U' _]; subst x y. rewrite dotted_cons in E by discriminate.
    eexists. split; [reflexivity|]. split; [|split].
    + intros p. split.
      * intros X. injection X as <-. exists l. split; [exact U'|symmetry; exact E].
      * intros (l' & Ul & Ed). rewrite Ed, cut_app in C by exact Ul. injection C as -> C.
        destruct (cut_labels p) as (_ & Ep & _). rewrite C in Ep. rewrite Ep. reflexivity.
    + split; [discriminate|]. intros UD. exfalso. apply UD. rewrite <- E.
      apply in_or_app. right. left. reflexivity.
    + intros p x X. injection X as <-. rewrite <- E. apply parent_step. exact U'.
Qed.
Print Assumptions C88_parent_partial.

(** The comparisons: above means that the longer name ends in a dot and the
    shorter one. *)
Theorem C88_compare_partial : forall beyond d1 d2, bytes d1 -> bytes d2 ->
  exists f0, forall f n m m', (f0 <= f)%nat -> (length d1 + length d2 + 2 < n)%nat ->
    (exists b, domain_above_p beyond f n d1 d2 m m' = Ok b /\ (b = true <-> is_above d1 d2)) /\
    (exists b, domain_below_p beyond f n d1 d2 m m' = Ok b /\ (b = true <-> is_above d2 d1)) /\
    (domain_equal_p d1 d2 = true <-> d1 = d2).
Proof.
  intros beyond d1 d2 B1 B2. destruct (compare_ok beyond d1 d2 B1 B2) as (f0 & H).
  exists f0. intros f n m m' F N. destruct (H f n m m' F N) as (v & V & R).
  assert (NL : forall a b, is_above a b -> ~ is_above b a)
    by (intros a b X Y; apply above_length in X; apply above_length in Y; lia).
  unfold domain_above_p, domain_below_p, domain_equal_p. rewrite V. cbn [bind].
  split; [|split; [|apply string_eq_eq]]; eexists; (split; [reflexivity|]).
  - destruct R as [(-> & ->)|[(A & k & -> & K)|[(A & k & -> & K)|(_ & A & A' & ->)]]].
    + split; [discriminate|]. intros X. exfalso. exact (above_irrefl _ X).
    + split; [intros _; exact A|intros _; lia].
    + split; [intros X; lia|]. intros X. exfalso. exact (NL _ _ X A).
    + split; [discriminate|]. intros X. contradiction.
  - destruct R as [(-> & ->)|[(A & k & -> & K)|[(A & k & -> & K)|(_ & A & A' & ->)]]].
    + split; [discriminate|]. intros X. exfalso. exact (above_irrefl _ X).
    + split; [intros X; lia|]. intros X. exfalso. exact (NL _ _ X A).
    + split; [intros _; exact A|intros _; lia].
    + split; [discriminate|]. intros X. contradiction.
Qed.
Print Assumptions C88_compare_partial.

(** Above is a strict order, as the code decides it. *)
Theorem C88_order_partial : forall beyond d1 d2 d3, bytes d1 -> bytes d2 -> bytes d3 ->
  exists f0, forall f n m m', (f0 <= f)%nat ->
    (2 * (length d1 + length d2 + length d3) + 2 < n)%nat ->
    domain_above_p beyond f n d1 d1 m m' = Ok false /\
    (domain_above_p beyond f n d1 d2 m m' = Ok true ->
     domain_above_p beyond f n d2 d3 m m' = Ok true ->
     domain_above_p beyond f n d1 d3 m m' = Ok true /\
     domain_above_p beyond f n d3 d1 m m' = Ok false /\
     domain_below_p beyond f n d3 d1 m m' = Ok true).
Proof.
  intros beyond d1 d2 d3 B1 B2 B3.
  destruct (C88_compare_partial beyond d1 d1 B1 B1) as (g0 & G0).
  destruct (C88_compare_partial beyond d1 d2 B1 B2) as (g1 & G1).
  destruct (C88_compare_partial beyond d2 d3 B2 B3) as (g2 & G2).
  destruct (C88_compare_partial beyond d1 d3 B1 B3) as (g3 & G3).
  destruct (C88_compare_partial beyond d3 d1 B3 B1) as (g4 & G4).
  exists (g0 + g1 + g2 + g3 + g4)%nat. intros f n m m' F N.
  destruct (G0 f n m m' ltac:(lia) ltac:(lia)) as ((b0 & E0 & I0) & _).
  destruct (G1 f n m m' ltac:(lia) ltac:(lia)) as ((b1 & E1 & I1) & _).
  destruct (G2 f n m m' ltac:(lia) ltac:(lia)) as ((b2 & E2 & I2) & _).
  destruct (G3 f n m m' ltac:(lia) ltac:(lia)) as ((b3 & E3 & I3) & _).
  destruct (G4 f n m m' ltac:(lia) ltac:(lia)) as ((b4 & E4 & I4) & (b5 & E5 & I5) & _).
  rewrite E0, E1, E2, E3, E4, E5. split.
  - destruct b0; [|reflexivity]. exfalso. exact (above_irrefl d1 (proj1 I0 eq_refl)).
  - intros X Y. injection X as ->. injection Y as ->.
    pose proof (above_trans _ _ _ (proj1 I1 eq_refl) (proj1 I2 eq_refl)) as T.
    rewrite (proj2 I3 T), (proj2 I5 T). split; [reflexivity|]. split; [|reflexivity].
    destruct b4; [|reflexivity]. exfalso. pose proof (proj1 I4 eq_refl) as T'.
    apply above_length in T. apply above_length in T'. lia.
Qed.
Print Assumptions C88_order_partial.

(** Walking up, FUN is called once with the name and with every name above it,
    the longest first; walking down, in the opposite order. *)
Theorem C88_walk_partial : forall beyond d, bytes d ->
  exists f0, forall f n k m ms, (f0 <= f)%nat -> (length d < n)%nat -> (length d + 1 < k)%nat ->
    exists l, map_domains beyond f k (Some d) ms = Ok l /\
      map_domains_downwards beyond f n d m = Ok (rev l) /\ chain d l /\ NoDup l.
Proof.
  intros beyond d B. destruct (cut_labels d) as (N & E & U).
  destruct (parts_ok beyond d B) as (f1 & H1).
  destruct (map_ok beyond (cut d) N U) as (f2 & H2); [rewrite E; exact B|].
  exists (f1 + f2)%nat. intros f n k m ms F Nn Nk. exists (names (cut d)).
  rewrite E in H2. split; [apply H2; [lia|]; pose proof (cut_length d); lia|].
  assert (CH : chain d (names (cut d))) by (rewrite <- E at 1; apply names_chain; assumption).
  split; [|split; [exact CH|]].
  - unfold map_domains_downwards. rewrite H1 by lia. cbn [bind].
    assert (X : exists xs z, cut d = xs ++ [z]).
    { destruct (exists_last N) as (xs & z & X). exists xs, z. exact X. }
    destruct X as (xs & z & X). rewrite X, rev_app_distr. cbn [rev app].
    pose proof (down_ok xs [z] ltac:(discriminate)) as D. cbn [tl names rev app dotted] in D.
    rewrite D. reflexivity.
  - destruct CH as [_ S]. revert S. generalize (names (cut d)). clear.
    induction l as [|x l IH]; intros S; [constructor|]. inversion S as [|y z S' F]; subst.
    constructor; [|apply IH; exact S']. intros I. rewrite Forall_forall in F. specialize (F x I). lia.
Qed.
Print Assumptions C88_walk_partial.

(** chain determines the list *)
Theorem C88_chain_unique : forall d l l', chain d l -> chain d l' -> l = l'.
Proof.
  intros d l l' (I & S) (I' & S').
  assert (E : forall x, In x l <-> In x l') by (intros x; rewrite I, I'; reflexivity).
  clear I I'. revert l' S' E. induction S as [|x l S IH F]; intros l' S' E.
  - destruct l' as [|y l']; [reflexivity|]. exfalso. apply (proj2 (E y)). left. reflexivity.
  - rewrite Forall_forall in F. destruct S' as [|y l' S' F'].
    + exfalso. apply (proj1 (E x)). left. reflexivity.
    + rewrite Forall_forall in F'. assert (x = y).
      { destruct (proj1 (E x) (or_introl eq_refl)) as [H|H]; [congruence|].
        destruct (proj2 (E y) (or_introl eq_refl)) as [H'|H']; [congruence|].
        specialize (F y H'). specialize (F' x H). lia. }
      subst y. f_equal. apply IH; [exact S'|]. intros z. split; intros Z.
      * destruct (proj1 (E z) (or_intror Z)) as [<-|H]; [|exact H]. specialize (F x Z). lia.
      * destruct (proj2 (E z) (or_intror Z)) as [<-|H]; [|exact H]. specialize (F' x Z). lia.
Qed.
Print Assumptions C88_chain_unique.

(** a.bc.d *)
Definition abcd : list Z := [97; 46; 98; 99; 46; 100].
Example abcd_walk : forall beyond m,
  bytes abcd /\
  map_domains beyond 100 9 (Some abcd) (fun _ => m) = Ok [abcd; [98; 99; 46; 100]; [100]] /\
  map_domains_downwards beyond 100 9 abcd m = Ok [[100]; [98; 99; 46; 100]; abcd] /\
  domain_parts beyond 100 9 abcd m = Ok [[97]; [98; 99]; [100]] /\
  domain_above beyond 100 abcd m = Ok (Some [98; 99; 46; 100]) /\
  domain_above_p beyond 100 19 [100] abcd m m = Ok true /\
  domain_above_p beyond 100 19 [99; 46; 100] abcd m m = Ok false /\
  domain_below_p beyond 100 19 abcd [98; 99; 46; 100] m m = Ok true.
Proof.
  intros beyond m. split; [repeat constructor|]. repeat split.
Qed.

(** ** What does not hold *)

(** Names that differ in case only are the same domain (RFC 1034, 3.1), but not
    here: d is not above a.D. *)
Theorem C88_case_refuted : exists d1 d2 d2', map upper d2 = map upper d2' /\
  forall beyond m, domain_above_p beyond 100 19 d1 d2 m m = Ok true /\
    domain_above_p beyond 100 19 d1 d2' m m = Ok false /\ domain_equal_p d2 d2' = false.
Proof. exists [100], [97; 46; 100], [97; 46; 68]. split; [reflexivity|]. intros. repeat split. Qed.
Print Assumptions C88_case_refuted.

(** The final dot of an absolute name counts as another label: d. is not above
    a.d, the parent of d. is the empty name, and d, which has no dot, has no
    parent. *)
Theorem C88_absolute_refuted : exists d d', d' = d ++ [46] /\
  forall beyond m,
    domain_above_p beyond 100 19 d [97; 46; 100] m m = Ok true /\
    domain_above_p beyond 100 19 d' [97; 46; 100] m m = Ok false /\
    domain_above beyond 100 d m = Ok None /\ domain_above beyond 100 d' m = Ok (Some []) /\
    domain_above_p beyond 100 19 [] d m m = Ok false.
Proof. exists [100], [100; 46]. split; [reflexivity|]. intros. repeat split. Qed.
Print Assumptions C88_absolute_refuted.

(** A dot after a zero byte is not found. *)
Theorem C88_zero_byte_refuted : exists d p, is_above p d /\
  forall beyond m, domain_above beyond 100 d m = Ok None /\ domain_above_p beyond 100 19 p d m m = Ok false.
Proof. exists [97; 0; 46; 98], [98]. split; [exists [97; 0]; reflexivity|]. intros. repeat split. Qed.
Print Assumptions C88_zero_byte_refuted.
