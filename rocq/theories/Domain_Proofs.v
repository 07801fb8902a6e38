(** Proofs about domain names. *)

From Coq Require Import List ZArith Bool Lia ZifyBool Sorting.Sorted.
From Verif Require Import Regexp_Model Regexp_Spec Find_Model Find_Spec Find_Replace Find_Props.
From Verif Require Import Domain_Model Domain_Spec.
Import ListNotations.
Open Scope Z_scope.

(** ** Labels *)

Fixpoint cut (d : list Z) : list (list Z) :=
  match d with
  | [] => [[]]
  | c :: r => if c =? 46 then [] :: cut r
              else match cut r with l :: ls => (c :: l) :: ls | [] => [] end
  end.

Lemma cut_ne d : cut d <> [].
Proof.
  destruct d as [|c d]; cbn [cut]; [discriminate|]. destruct (c =? 46); [discriminate|].
  revert c. induction d as [|x d IH]; intros c; cbn [cut]; [discriminate|].
  destruct (x =? 46); [discriminate|]. specialize (IH x).
  destruct (match cut d with l :: ls => (x :: l) :: ls | [] => [] end); congruence.
Qed.

Lemma dotted_cons l ls : ls <> [] -> dotted (l :: ls) = l ++ [46] ++ dotted ls.
Proof. destruct ls; [congruence|reflexivity]. Qed.

Lemma cut_labels d : labels_of d (cut d).
Proof.
  split; [apply cut_ne|]. induction d as [|c d [E F]]; [split; [reflexivity|constructor; [intros []|constructor]]|].
  cbn [cut]. destruct (Z.eqb_spec c 46) as [->|N].
  - split; [rewrite dotted_cons by apply cut_ne; rewrite E; reflexivity|].
    constructor; [intros []|exact F].
  - pose proof (cut_ne d) as NE. destruct (cut d) as [|l ls]; [congruence|].
    inversion F as [|x y U F']; subst. split.
    + destruct ls as [|l2 ls]; reflexivity.
    + constructor; [|exact F']. intros [H|H]; [congruence|exact (U H)].
Qed.

Lemma cut_undotted l : undotted l -> cut l = [l].
Proof.
  induction l as [|c l IH]; intros U; [reflexivity|]. cbn [cut].
  destruct (Z.eqb_spec c 46) as [->|N]; [exfalso; apply U; left; reflexivity|].
  rewrite IH; [reflexivity|]. intros I. apply U. right. exact I.
Qed.
Lemma cut_app l d : undotted l -> cut (l ++ [46] ++ d) = l :: cut d.
Proof.
  induction l as [|c l IH]; intros U; [reflexivity|].
  change ((c :: l) ++ [46] ++ d) with (c :: (l ++ [46] ++ d)). cbn [cut].
  destruct (Z.eqb_spec c 46) as [->|N]; [exfalso; apply U; left; reflexivity|].
  rewrite IH; [reflexivity|]. intros I. apply U. right. exact I.
Qed.

Lemma labels_cut d ls : labels_of d ls -> ls = cut d.
Proof.
  intros (NE & E & F). revert d NE E. induction F as [|l ls U F IH]; intros d NE E; [congruence|].
  destruct ls as [|l2 ls].
  - cbn [dotted] in E. subst d. symmetry. apply cut_undotted. exact U.
  - rewrite dotted_cons in E by discriminate. subst d. rewrite cut_app by exact U.
    f_equal. apply IH; [discriminate|reflexivity].
Qed.

Lemma dotted_app a b : a <> [] -> b <> [] -> dotted (a ++ b) = dotted a ++ [46] ++ dotted b.
Proof.
  intros Na Nb. induction a as [|x a IH]; [congruence|]. destruct a as [|y a].
  - change ([x] ++ b) with (x :: b). rewrite dotted_cons by exact Nb. reflexivity.
  - change ((x :: y :: a) ++ b) with (x :: ((y :: a) ++ b)).
    rewrite (dotted_cons x) by discriminate. rewrite IH by discriminate.
    rewrite (dotted_cons x) by discriminate. rewrite <- !app_assoc. reflexivity.
Qed.

Lemma above_labels a b : is_above a b <-> exists x, x <> [] /\ cut b = x ++ cut a.
Proof.
  destruct (cut_labels a) as (Na & Ea & Fa). destruct (cut_labels b) as (Nb & Eb & Fb).
  split.
  - intros (p & ->). exists (cut p). split; [apply cut_ne|]. symmetry. apply labels_cut.
    destruct (cut_labels p) as (Np & Ep & Fp). split; [|split].
    + intros H. apply app_eq_nil in H. tauto.
    + rewrite dotted_app by assumption. congruence.
    + apply Forall_app. auto.
  - intros (x & Nx & E). exists (dotted x). rewrite <- Eb, E, dotted_app by assumption.
    rewrite Ea. reflexivity.
Qed.

Lemma above_length a b : is_above a b -> (length a < length b)%nat.
Proof. intros (p & ->). rewrite !app_length. cbn [length]. lia. Qed.

(** ** The code *)

Lemma bytes_char d : bytes d <-> Forall char d.
Proof. reflexivity. Qed.

Lemma dot_char : Forall char [46].
Proof. constructor; [unfold char; lia|constructor]. Qed.

Lemma occurs_dot t k : occurs false [46] t k <-> 0 <= k /\ nth_error t (Z.to_nat k) = Some 46.
Proof.
  unfold occurs. rewrite !map_id_slice. unfold slice. cbn [length].
  replace (Z.to_nat (k + Z.of_nat 1 - k)) with 1%nat by lia. split.
  - intros (K & L & E). split; [exact K|].
    assert (H : nth_error (skipn (Z.to_nat k) t) 0 = Some 46).
    { destruct (skipn (Z.to_nat k) t) as [|x y]; [discriminate|]. cbn in E. injection E as ->. reflexivity. }
    revert H. clear. generalize (Z.to_nat k). intros i. revert t.
    induction i as [|i IH]; intros t H; [exact H|]. destruct t as [|x t]; [discriminate|].
    cbn [nth_error skipn] in *. apply IH. exact H.
  - intros (K & E). split; [exact K|].
    assert (L : (Z.to_nat k < length t)%nat) by (apply nth_error_Some; congruence).
    split; [lia|]. revert E. clear. generalize (Z.to_nat k). intros i. revert t.
    induction i as [|i IH]; intros [|x t] H; try discriminate.
    + cbn in *. congruence.
    + cbn [skipn nth_error] in *. apply IH. exact H.
Qed.

Lemma parts_ok beyond d : bytes d -> exists f0, forall f n m, (f0 <= f)%nat -> (length d < n)%nat ->
  domain_parts beyond f n d m = Ok (cut d).
Proof.
  intros B. destruct (C43_split_join_partial beyond [46] d) as (f0 & H);
    [discriminate|exact dot_char|exact B|cbn; lia|].
  exists f0. intros f n m F N. destruct (H f n m F N) as (parts & E & J & NE & NO).
  unfold domain_parts. change dot_re with (quote_regexp [46]). rewrite E. f_equal.
  apply labels_cut. split; [exact NE|]. split.
  - rewrite <- J. clear. induction parts as [|x parts IH]; [reflexivity|].
    destruct parts as [|y parts]; [reflexivity|]. rewrite dotted_cons by discriminate.
    rewrite IH. reflexivity.
  - apply Forall_forall. intros l Hl I. apply In_nth_error in I. destruct I as (k & Ek).
    apply (NO l (Z.of_nat k) Hl). apply occurs_dot. split; [lia|]. rewrite Nat2Z.id. exact Ek.
Qed.

Lemma above_ok beyond d : bytes d -> exists f0, forall f m, (f0 <= f)%nat ->
  domain_above beyond f d m =
  Ok (match cut d with _ :: l :: ls => Some (dotted (l :: ls)) | _ => None end).
Proof.
  intros B. destruct (C40_quote_regexp_partial beyond [46] d 0 false dot_char B) as (f0 & H);
    [cbn; lia|lia|].
  exists f0. intros f m F. unfold domain_above. change dot_re with (quote_regexp [46]).
  destruct (H f F) as [(k & K & O & First & E)|(No & E)]; rewrite E; cbn [matched].
  - cbn [bind].
    change (the_pos (match_end (Some (mkmd d (match_starts k []) (match_ends (k + Z.of_nat (length [46])) []))) 0))
      with (Ok (k + Z.of_nat (length [46]))). cbn [bind].
    apply occurs_dot in O. destruct O as (K0 & Ek).
    apply nth_error_split in Ek. destruct Ek as (l & p & Ed & L).
    assert (U : undotted l).
    { intros I. apply In_nth_error in I. destruct I as (j & Ej).
      assert (J : (j < length l)%nat) by (apply nth_error_Some; congruence).
      apply (First (Z.of_nat j)); [lia|]. apply occurs_dot. split; [lia|].
      rewrite Nat2Z.id, Ed, nth_error_app1 by exact J. exact Ej. }
    unfold substring. cbn [length].
    assert (LD : Z.of_nat (length d) = k + 1 + Z.of_nat (length p)).
    { rewrite Ed, app_length. cbn [length]. lia. }
    match goal with |- context [if ?b then _ else _] => replace b with false by lia end. cbn [bind].
    rewrite Ed at 3. change (l ++ 46 :: p) with (l ++ [46] ++ p). rewrite cut_app by exact U.
    destruct (cut_labels p) as (Np & Ep & _).
    destruct (cut p) as [|x ls]; [congruence|]. rewrite Ep. f_equal. f_equal.
    replace (Z.to_nat (k + Z.of_nat 1)) with (length (l ++ [46])) by (rewrite app_length; cbn [length]; lia).
    replace d with ((l ++ [46]) ++ p) at 2 by (rewrite Ed, <- app_assoc; reflexivity).
    rewrite skipn_app, skipn_all, Nat.sub_diag. cbn [skipn app].
    rewrite firstn_all2; [reflexivity|]. lia.
  - cbn [bind]. rewrite (cut_undotted d); [reflexivity|].
    intros I. apply In_nth_error in I. destruct I as (j & Ej).
    apply (No (Z.of_nat j)); [lia|]. apply occurs_dot. split; [lia|]. rewrite Nat2Z.id. exact Ej.
Qed.

Lemma string_eq_eq a : forall b, string_eq a b = true <-> a = b.
Proof.
  induction a as [|x a IH]; intros [|y b]; cbn [string_eq]; split; intros H; try discriminate; try reflexivity.
  - apply andb_prop in H. destruct H as [H1 H2]. apply Z.eqb_eq in H1. apply IH in H2. congruence.
  - injection H as -> ->. rewrite Z.eqb_refl. apply IH. reflexivity.
Qed.

Lemma compare_same : forall (p1 p2 : list (list Z)) fuel ret, length p1 = length p2 -> (length p1 < fuel)%nat ->
  exists v, compare_loop fuel p1 p2 ret = Ok v /\
    ((p1 = p2 /\ v = Some ret) \/ (p1 <> p2 /\ v = None)).
Proof.
  induction p1 as [|a p1 IH]; intros [|b p2] fuel ret E L; try discriminate;
    (destruct fuel as [|fuel]; [cbn in L; lia|]); cbn [compare_loop].
  - exists (Some ret). split; [reflexivity|auto].
  - rewrite E, Nat.ltb_irrefl. cbn [length] in E, L.
    destruct (string_eq a b) eqn:S.
    + apply string_eq_eq in S. subst b.
      destruct (IH p2 fuel ret ltac:(lia) ltac:(lia)) as (v & V & [(-> & ->)|(N & ->)]);
        eexists; (split; [exact V|]); [left; auto|right; split; [congruence|reflexivity]].
    + exists None. split; [reflexivity|]. right. split; [|reflexivity]. intros H. injection H as -> _.
      assert (string_eq b b = true) by (apply string_eq_eq; reflexivity). congruence.
Qed.

Lemma compare_left : forall (x y p2 : list (list Z)) fuel ret, length y = length p2 ->
  (length x + length p2 < fuel)%nat ->
  exists v, compare_loop fuel (x ++ y) p2 ret = Ok v /\
    ((y = p2 /\ v = Some (ret + Z.of_nat (length x))) \/ (y <> p2 /\ v = None)).
Proof.
  induction x as [|a x IH]; intros y p2 fuel ret E L.
  - cbn [app length]. rewrite Z.add_0_r. cbn [length] in L. apply compare_same; lia.
  - destruct fuel as [|fuel]; [cbn in L; lia|]. cbn [compare_loop].
    replace (Nat.ltb (length p2) (length ((a :: x) ++ y))) with true
      by (symmetry; apply Nat.ltb_lt; rewrite app_length; cbn [length]; lia).
    cbn [app tl length] in *.
    destruct (IH y p2 fuel (ret + 1) E ltac:(lia)) as (v & V & H).
    exists v. split; [exact V|].
    replace (ret + Z.of_nat (S (length x))) with (ret + 1 + Z.of_nat (length x)) by lia. exact H.
Qed.
Lemma compare_right : forall (x y p1 : list (list Z)) fuel ret, length y = length p1 ->
  (length x + length p1 < fuel)%nat ->
  exists v, compare_loop fuel p1 (x ++ y) ret = Ok v /\
    ((p1 = y /\ v = Some (ret - Z.of_nat (length x))) \/ (p1 <> y /\ v = None)).
Proof.
  induction x as [|a x IH]; intros y p1 fuel ret E L.
  - cbn [app length]. rewrite Z.sub_0_r. cbn [length] in L. apply compare_same; lia.
  - destruct fuel as [|fuel]; [cbn in L; lia|]. cbn [compare_loop].
    assert (G : (length p1 < length ((a :: x) ++ y))%nat) by (rewrite app_length; cbn [length]; lia).
    replace (Nat.ltb (length ((a :: x) ++ y)) (length p1)) with false
      by (symmetry; apply Nat.ltb_ge; lia).
    replace (Nat.ltb (length p1) (length ((a :: x) ++ y))) with true
      by (symmetry; apply Nat.ltb_lt; lia).
    cbn [app tl length] in *.
    destruct (IH y p1 fuel (ret - 1) E ltac:(lia)) as (v & V & H).
    exists v. split; [exact V|].
    replace (ret - Z.of_nat (S (length x))) with (ret - 1 - Z.of_nat (length x)) by lia. exact H.
Qed.

Lemma cut_inj a b : cut a = cut b -> a = b.
Proof.
  intros E. destruct (cut_labels a) as (_ & <- & _). destruct (cut_labels b) as (_ & <- & _). congruence.
Qed.
Lemma cut_length d : (length (cut d) <= S (length d))%nat.
Proof.
  induction d as [|c d IH]; [cbn; lia|]. cbn [cut length]. destruct (c =? 46); [cbn [length]; lia|].
  destruct (cut d); cbn [length] in *; lia.
Qed.

(** What compare-domains says. *)
Definition verdict (d1 d2 : str) (v : option Z) : Prop :=
  (d1 = d2 /\ v = Some 0) \/ (is_above d1 d2 /\ exists k, v = Some k /\ k < 0) \/
  (is_above d2 d1 /\ exists k, v = Some k /\ 0 < k) \/
  (d1 <> d2 /\ ~ is_above d1 d2 /\ ~ is_above d2 d1 /\ v = None).

Lemma app_same_length {A} (x y x' y' : list A) :
  x ++ y = x' ++ y' -> length y = length y' -> x = x' /\ y = y'.
Proof.
  intros E L. assert (LX : length x = length x').
  { apply (f_equal (@length A)) in E. rewrite !app_length in E. lia. }
  revert x' E LX. induction x as [|a x IH]; intros [|b x'] E LX; try discriminate; [auto|].
  cbn [app] in E. injection E as -> E. destruct (IH x' E ltac:(cbn in LX; lia)) as [-> ->]. auto.
Qed.

Lemma compare_cut d1 d2 fuel : (length (cut d1) + length (cut d2) < fuel)%nat ->
  exists v, compare_loop fuel (cut d1) (cut d2) 0 = Ok v /\ verdict d1 d2 v.
Proof.
  intros L. destruct (Nat.lt_trichotomy (length (cut d1)) (length (cut d2))) as [H|[H|H]].
  - remember (firstn (length (cut d2) - length (cut d1)) (cut d2)) as x.
    remember (skipn (length (cut d2) - length (cut d1)) (cut d2)) as y.
    assert (E : cut d2 = x ++ y) by (subst; symmetry; apply firstn_skipn).
    assert (Lx : length x = (length (cut d2) - length (cut d1))%nat) by (subst; rewrite firstn_length; lia).
    assert (Ly : length y = length (cut d1)) by (subst; rewrite skipn_length; lia).
    destruct (compare_right x y (cut d1) fuel 0 Ly ltac:(lia)) as (v & V & R).
    rewrite E. exists v. split; [exact V|]. destruct R as [(Ey & ->)|(Ny & ->)].
    + right. left. split; [|exists (0 - Z.of_nat (length x)); split; [reflexivity|lia]].
      apply above_labels. exists x. split; [intros ->; cbn in Lx; lia|]. congruence.
    + right. right. right. split; [|split; [|split; [|reflexivity]]].
      * intros ->. lia.
      * intros A. apply above_labels in A. destruct A as (x' & _ & E').
        rewrite E in E'. apply app_same_length in E'; [|exact Ly]. destruct E' as [_ E'].
        apply Ny. symmetry. exact E'.
      * intros A. apply above_labels in A. destruct A as (x' & _ & E').
        apply (f_equal (@length _)) in E'. rewrite app_length in E'. lia.
  - destruct (compare_same (cut d1) (cut d2) fuel 0 H ltac:(lia)) as (v & V & R).
    exists v. split; [exact V|]. destruct R as [(E & ->)|(N & ->)].
    + left. split; [apply cut_inj; exact E|reflexivity].
    + right. right. right. split; [congruence|].
      assert (G : forall a b, length (cut a) = length (cut b) -> ~ is_above a b).
      { intros a b Q A. apply above_labels in A. destruct A as (x' & N' & E').
        apply (f_equal (@length _)) in E'. rewrite app_length in E'. destruct x'; [congruence|].
        cbn [length] in E'. lia. }
      split; [apply G; exact H|]. split; [apply G; lia|reflexivity].
  - remember (firstn (length (cut d1) - length (cut d2)) (cut d1)) as x.
    remember (skipn (length (cut d1) - length (cut d2)) (cut d1)) as y.
    assert (E : cut d1 = x ++ y) by (subst; symmetry; apply firstn_skipn).
    assert (Lx : length x = (length (cut d1) - length (cut d2))%nat) by (subst; rewrite firstn_length; lia).
    assert (Ly : length y = length (cut d2)) by (subst; rewrite skipn_length; lia).
    destruct (compare_left x y (cut d2) fuel 0 Ly ltac:(lia)) as (v & V & R).
    rewrite E. exists v. split; [exact V|]. destruct R as [(Ey & ->)|(Ny & ->)].
    + right. right. left. split; [|exists (0 + Z.of_nat (length x)); split; [reflexivity|lia]].
      apply above_labels. exists x. split; [intros ->; cbn in Lx; lia|]. congruence.
    + right. right. right. split; [|split; [|split; [|reflexivity]]].
      * intros ->. lia.
      * intros A. apply above_labels in A. destruct A as (x' & _ & E').
        apply (f_equal (@length _)) in E'. rewrite app_length in E'. lia.
      * intros A. apply above_labels in A. destruct A as (x' & _ & E').
        rewrite E in E'. apply app_same_length in E'; [|exact Ly]. destruct E' as [_ E'].
        apply Ny. exact E'.
Qed.

Lemma compare_ok beyond d1 d2 : bytes d1 -> bytes d2 ->
  exists f0, forall f n m m', (f0 <= f)%nat -> (length d1 + length d2 + 2 < n)%nat ->
    exists v, compare_domains beyond f n d1 d2 m m' = Ok v /\ verdict d1 d2 v.
Proof.
  intros B1 B2. destruct (parts_ok beyond d1 B1) as (f1 & H1). destruct (parts_ok beyond d2 B2) as (f2 & H2).
  exists (Nat.max f1 f2). intros f n m m' F N. unfold compare_domains.
  rewrite H1, H2 by lia. cbn [bind]. apply compare_cut.
  pose proof (cut_length d1). pose proof (cut_length d2). lia.
Qed.

Lemma above_irrefl a : ~ is_above a a.
Proof. intros H. apply above_length in H. lia. Qed.
Lemma above_trans a b c : is_above a b -> is_above b c -> is_above a c.
Proof.
  intros (p & ->) (q & ->). exists (q ++ [46] ++ p). rewrite <- !app_assoc. reflexivity.
Qed.

(** ** Walking up and down *)

Fixpoint names (ls : list str) : list str :=
  match ls with
  | [] => []
  | _ :: r => dotted ls :: names r
  end.

Lemma parent_step l d x : undotted l -> (is_above x (l ++ [46] ++ d) <-> x = d \/ is_above x d).
Proof.
  intros U. rewrite !above_labels, cut_app by exact U. split.
  - intros (y & N & E). destruct y as [|a y]; [congruence|]. cbn [app] in E. injection E as <- E.
    destruct y as [|b y].
    + left. symmetry. apply cut_inj. exact E.
    + right. exists (b :: y). split; [discriminate|exact E].
  - intros [->|(y & N & E)].
    + exists [l]. split; [discriminate|reflexivity].
    + exists (l :: y). split; [discriminate|]. cbn [app]. congruence.
Qed.

Lemma above_undotted x l : undotted l -> ~ is_above x l.
Proof. intros U (p & ->). apply U. apply in_or_app. right. left. reflexivity. Qed.

Lemma names_chain ls : ls <> [] -> Forall undotted ls -> chain (dotted ls) (names ls).
Proof.
  intros N F. induction F as [|l ls U F IH]; [congruence|]. destruct ls as [|l2 ls].
  - cbn [dotted names]. split.
    + intros x. cbn [In]. split; [intros [<-|[]]; auto|].
      intros [->|A]; [auto|]. exfalso. exact (above_undotted x l U A).
    + constructor; constructor.
  - destruct (IH ltac:(discriminate)) as [C1 C2].
    change (names (l :: l2 :: ls)) with (dotted (l :: l2 :: ls) :: names (l2 :: ls)).
    rewrite dotted_cons by discriminate. split.
    + intros x. cbn [In]. rewrite (C1 x), (parent_step l _ x U). split; [intros [<-|H]; auto|intros [->|H]; auto].
    + constructor; [exact C2|]. apply Forall_forall. intros x Hx. apply C1 in Hx.
      rewrite !app_length. cbn [length]. destruct Hx as [->|A]; [lia|]. apply above_length in A. lia.
Qed.

Lemma bytes_dotted l ls : bytes (dotted (l :: ls)) -> ls <> [] -> bytes (dotted ls).
Proof.
  intros B N. rewrite dotted_cons in B by exact N. apply Forall_app in B. destruct B as [_ B].
  apply Forall_app in B. tauto.
Qed.

Lemma map_ok beyond ls : ls <> [] -> Forall undotted ls -> bytes (dotted ls) ->
  exists f0, forall f k ms, (f0 <= f)%nat -> (length ls < k)%nat ->
    map_domains beyond f k (Some (dotted ls)) ms = Ok (names ls).
Proof.
  intros N F. induction F as [|l ls U F IH]; intros B; [congruence|].
  destruct (above_ok beyond _ B) as (f1 & H1).
  assert (C : cut (dotted (l :: ls)) = l :: ls).
  { symmetry. apply labels_cut. split; [discriminate|]. split; [reflexivity|constructor; assumption]. }
  rewrite C in H1. destruct ls as [|l2 ls].
  - exists f1. intros f k ms Hf Hk. destruct k as [|[|k]]; cbn [length] in Hk; [lia|lia|].
    cbn [map_domains]. rewrite H1 by lia. reflexivity.
  - destruct (IH ltac:(discriminate) (bytes_dotted _ _ B ltac:(discriminate))) as (f2 & H2).
    exists (Nat.max f1 f2). intros f k ms Hf Hk. destruct k as [|k]; cbn [length] in Hk; [lia|].
    change (map_domains beyond f (S k) (Some (dotted (l :: l2 :: ls))) ms) with
      (bind (domain_above beyond f (dotted (l :: l2 :: ls)) (ms k))
         (fun up => bind (map_domains beyond f k up ms) (fun rest => Ok (dotted (l :: l2 :: ls) :: rest)))).
    rewrite H1 by lia. cbn [bind]. rewrite H2; [reflexivity|lia|cbn [length]; lia].
Qed.

Lemma down_ok : forall xs ys, ys <> [] ->
  rev (names (xs ++ ys)) = rev (names (tl ys)) ++ down_loop (dotted ys) (rev xs).
Proof.
  induction xs as [|x xs IH] using rev_ind; intros ys N.
  - cbn [app rev down_loop]. destruct ys as [|y ys]; [congruence|]. reflexivity.
  - rewrite <- app_assoc. cbn [app]. rewrite IH by discriminate. cbn [tl].
    rewrite rev_app_distr. change (rev [x] ++ rev xs) with (x :: rev xs).
    change (down_loop (dotted ys) (x :: rev xs)) with
      (dotted ys :: down_loop (x ++ [46] ++ dotted ys) (rev xs)).
    rewrite <- (dotted_cons x ys) by exact N.
    destruct ys as [|y ys]; [congruence|]. change (names (y :: ys)) with (dotted (y :: ys) :: names ys).
    cbn [rev tl]. rewrite <- app_assoc. reflexivity.
Qed.
