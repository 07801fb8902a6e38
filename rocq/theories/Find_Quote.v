(** quote-regexp. *)
From Coq Require Import List ZArith Bool Lia ZifyBool.
From Verif Require Import Regexp_Model Regexp_Spec Regexp_Match Regexp_Search Find_Model Find_Spec.
Import ListNotations.
Open Scope Z_scope.

(** The text of quote-regexp *)
Definition quoted_text (s : list Z) : list Z := flat_map (fun c => if quoted_char c then [92; c] else [c]) s.
Lemma quote_loop_ok s : forall buf q, quote_loop s buf q = (buf ++ quoted_text s, q || existsb quoted_char s).
Proof.
  induction s as [ | c s IH]; intros buf q; cbn [quote_loop quoted_text flat_map existsb].
  - now rewrite app_nil_r, orb_false_r.
  - unfold quoted_text in IH. destruct (quoted_char c); rewrite IH, <- app_assoc; [rewrite orb_true_r | ]; reflexivity.
Qed.
Lemma quote_text s : quote_regexp s = quoted_text s.
Proof.
  unfold quote_regexp. rewrite quote_loop_ok. cbn [orb app]. destruct (existsb quoted_char s) eqn:E; [reflexivity | ].
  induction s as [ | c s IH]; [reflexivity | ]. cbn [existsb] in E. apply orb_false_iff in E as [E1 E2]. unfold quoted_text in *. cbn [flat_map]. rewrite E1. cbn [app]. f_equal. auto.
Qed.

(** The regexp it stands for *)
Definition lit_cons (c : Z) (b : branch) : branch :=
  match b with Piece (Lit cs) One b => Piece (Lit (c :: cs)) One b | b => Piece (Lit [c]) One b end.
Fixpoint quoted (s : list Z) : branch :=
  match s with
  | [] => Nil
  | c :: s => if quoted_char c then Piece (Esc c) One (quoted s) else lit_cons c (quoted s)
  end.

(** What [quoted] consists of *)
Fixpoint plain (b : branch) : Prop :=
  match b with
  | Nil => True
  | Piece (Lit _) One b | Piece (Esc _) One b => plain b
  | _ => False
  end.
Lemma plain_cons c b : plain b -> plain (lit_cons c b).
Proof. destruct b as [ | [ ] [ | | | ] ]; cbn; auto. Qed.
Lemma plain_quoted s : plain (quoted s).
Proof. induction s as [ | c s IH]; cbn [quoted]; [exact Logic.I | ]. destruct (quoted_char c); [exact IH | now apply plain_cons]. Qed.

Lemma show_cons c b : plain b -> show_branch (lit_cons c b) = c :: show_branch b.
Proof. destruct b as [ | [ ] [ | | | ] ]; cbn; try reflexivity; intros []. Qed.
Lemma show_quoted s : show_branch (quoted s) = quoted_text s.
Proof.
  induction s as [ | c s IH]; [reflexivity | ]. unfold quoted_text in *. cbn [quoted flat_map]. destruct (quoted_char c).
  - cbn [show_branch show_atom show_quant app]. now rewrite IH.
  - rewrite show_cons by apply plain_quoted. now rewrite IH.
Qed.

Lemma good_cons c b : plain b -> good_branch b -> char c -> ~ special c -> good_branch (lit_cons c b).
Proof.
  intros P G C S. destruct b as [ | [cs | | | | | | | | | ] [ | | | ] b]; cbn [plain] in P; try (destruct P; fail); cbn [lit_cons good_branch good_atom] in *.
  - repeat split; auto. discriminate.
  - destruct G as ((G1 & G2) & _ & G3 & G4). repeat split; auto. discriminate.
  - destruct G as ((G1 & G2) & _ & _ & G4). repeat split; auto; try apply G1. discriminate.
Qed.
Lemma good_quoted s : Forall char s -> good_branch (quoted s).
Proof.
  induction 1 as [ | c s C F IH]; cbn [quoted]; [exact Logic.I | ]. destruct (quoted_char c) eqn:Q.
  - cbn. repeat split; auto; try apply C. intros I. unfold escape_letter in I. cbn in I.
    destruct I as [<- | [<- | [<- | [<- | [<- | [<- | [<- | [<- | []]]]]]]]]; discriminate.
  - apply good_cons; auto; [apply plain_quoted | ]. intros I. unfold special in I. cbn in I.
    repeat destruct I as [<- | I]; try discriminate. destruct I.
Qed.
Lemma usable_plain b last : plain b -> usable_branch last b.
Proof. revert last. induction b as [ | [ ] [ | | | ] b IH]; cbn; intuition. Qed.
Lemma repeats_plain b : plain b -> repeats_branch b = false.
Proof. induction b as [ | [ ] [ | | | ] b IH]; cbn; intuition. Qed.
Lemma groups_plain b : plain b -> groups_branch b = 0%nat.
Proof. induction b as [ | [ ] [ | | | ] b IH]; cbn; intuition. Qed.
Lemma depth_plain b : plain b -> depth_branch b = (0, 0).
Proof. induction b as [ | [ ] [ | | | ] b IH]; cbn; intuition; rewrite H0; reflexivity. Qed.
Lemma size_quoted s : (size_branch (quoted s) <= 5 * length s + 3)%nat.
Proof.
  assert (N : forall b, (match b with Nil => 0 | _ => size_branch b end <= size_branch b)%nat) by (intros [ | ]; cbn; lia).
  assert (C : forall c b, (size_branch (lit_cons c b) <= size_branch b + 5)%nat).
  { intros c b. destruct b as [ | [cs | | | | | | | | | ] [ | | | ] b]; cbn [lit_cons size_branch size_atom length]; try (pose proof (N b)); lia. }
  induction s as [ | c s IH]; cbn [quoted length]; [cbn; lia | ]. destruct (quoted_char c).
  - cbn [size_branch size_atom]. pose proof (N (quoted s)). lia.
  - pose proof (C c (quoted s)). lia.
Qed.

Lemma fits_quoted s t nocase : Forall char s -> Forall char t -> Z.of_nat (length s) <= 6551 -> fits (Alt1 (quoted s)) t nocase.
Proof.
  intros Cs Ct L. unfold fits. pose proof (plain_quoted s) as P. split; [exact Ct | ]. split; [now apply good_quoted | ]. split; [now apply usable_plain | ].
  split; [ | split; [ | split]].
  - intros _ R. cbn [repeats] in R. rewrite repeats_plain in R by auto. discriminate.
  - cbn [groups]. rewrite groups_plain by auto. lia.
  - unfold compiled_size. cbn [size]. pose proof (size_quoted s). lia.
  - cbn [depth]. rewrite depth_plain by auto. cbn [fst snd]. lia.
Qed.

(** What it matches *)
Section Ways.
  Variable t : list Z.
  Variable nocase at_start : bool.
  Notation W := (ways_branch t nocase at_start).
  Definition lit_way (s : list Z) (i : Z) : list way := if literal t nocase s i then [(i + Z.of_nat (length s), [])] else [].
  Lemma ways_cons c b n i : plain b -> W (lit_cons c b) n i = and_then (lit_way [c] i) (W b n).
  Proof.
    intros P. destruct b as [ | [cs | | | | | | | | | ] [ | | | ] b]; cbn in P; try (destruct P; fail).
    - cbn [lit_cons ways_branch times ways_atom groups_atom]. rewrite ?Nat.add_0_r. reflexivity.
    - cbn [lit_cons ways_branch times ways_atom groups_atom]. rewrite ?Nat.add_0_r. unfold lit_way. cbn [literal length].
      destruct (char_at t i) as [x | ]; cbn [andb]; [ | reflexivity]. rewrite andb_true_r. destruct (eqc nocase c x); cbn [andb]; [ | reflexivity].
      rewrite then_one. destruct (literal t nocase cs (i + 1)) eqn:E.
      + replace (i + Z.of_nat 1) with (i + 1) by lia. rewrite E. rewrite !then_one. f_equal. lia.
      + replace (i + Z.of_nat 1) with (i + 1) by lia. rewrite E. reflexivity.
    - cbn [lit_cons ways_branch times ways_atom groups_atom]. rewrite ?Nat.add_0_r. reflexivity.
  Qed.
  Lemma ways_quoted s n i : W (quoted s) n i = lit_way s i.
  Proof.
    revert i. induction s as [ | c s IH]; intros i.
    - unfold lit_way. cbn. rewrite Z.add_0_r. reflexivity.
    - assert (E : W (quoted (c :: s)) n i = and_then (lit_way [c] i) (W (quoted s) n)).
      { cbn [quoted]. destruct (quoted_char c).
        - cbn [ways_branch times ways_atom groups_atom]. rewrite ?Nat.add_0_r. f_equal. unfold lit_way, one. cbn [literal length].
          destruct (char_at t i) as [x | ]; [ | reflexivity]. rewrite andb_true_r. destruct (eqc nocase c x); reflexivity.
        - apply ways_cons. apply plain_quoted. }
      rewrite E. rewrite (then_ext _ _ (lit_way s)) by auto. unfold lit_way at 1. cbn [literal length].
      unfold lit_way. cbn [literal]. destruct (char_at t i) as [x | ]; cbn [andb]; [ | reflexivity]. rewrite andb_true_r.
      destruct (eqc nocase c x); cbn [andb]; [ | reflexivity]. rewrite then_one. replace (i + Z.of_nat 1) with (i + 1) by lia.
      destruct (literal t nocase s (i + 1)); [ | reflexivity]. f_equal. f_equal. cbn [length]. lia.
  Qed.
End Ways.

Lemma literal_occurs t nocase s k : 0 <= k <= Z.of_nat (length t) -> (literal t nocase s k = true <-> occurs nocase s t k).
Proof.
  assert (Q : forall a b, eqc nocase a b = true <-> fold nocase b = fold nocase a).
  { intros. unfold eqc, fold. destruct nocase; rewrite Z.eqb_eq; split; auto. }
  revert k. induction s as [ | c s IH]; intros k Hk; cbn [literal length].
  - split; [intros _ | reflexivity]. unfold occurs. cbn [length]. split; [lia | ]. split; [lia | ]. unfold slice.
    replace (Z.to_nat (k + Z.of_nat 0 - k)) with 0%nat by lia. reflexivity.
  - unfold char_at. replace (k <? 0) with false by lia. destruct (nth_error t (Z.to_nat k)) as [x | ] eqn:E.
    + assert (L : (Z.to_nat k < length t)%nat) by (apply nth_error_Some; congruence).
      assert (SL : slice t k (k + Z.of_nat (length (c :: s))) = x :: slice t (k + 1) (k + 1 + Z.of_nat (length s))).
      { unfold slice. cbn [length]. replace (Z.to_nat (k + Z.of_nat (S (length s)) - k)) with (S (length s)) by lia.
        replace (Z.to_nat (k + 1 + Z.of_nat (length s) - (k + 1))) with (length s) by lia.
        replace (Z.to_nat (k + 1)) with (S (Z.to_nat k)) by lia.
        clear - E. revert E. generalize (Z.to_nat k) as n. intros n. revert t. induction n as [ | n IH]; intros t E; destruct t as [ | y t]; try discriminate.
        - injection E as ->. reflexivity.
        - cbn [skipn nth_error] in *. rewrite IH by exact E. destruct t; reflexivity. }
      rewrite andb_true_iff, Q, IH by lia. unfold occurs. rewrite SL. cbn [map length]. split.
      * intros (H1 & H2 & H3 & H4). split; [lia | ]. split; [lia | ]. congruence.
      * intros (H1 & H2 & H3). injection H3 as H3 H4. split; [exact H3 | ]. split; [lia | ]. split; [lia | exact H4].
    + split; [discriminate | ]. intros (_ & H & _). apply nth_error_None in E. cbn [length] in H. lia.
Qed.
