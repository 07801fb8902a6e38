(** string-replace and string-split. *)
From Coq Require Import List ZArith Bool Lia ZifyBool.
From Verif Require Import Regexp_Model Regexp_Spec Regexp_Search Find_Model Find_Spec Find_Quote.
Import ListNotations.
Open Scope Z_scope.

Lemma uniform (P : Z -> nat -> Prop) n : (forall i, 0 <= i <= n -> exists f0, forall f, (f0 <= f)%nat -> P i f) ->
  exists f0, forall i f, 0 <= i <= n -> (f0 <= f)%nat -> P i f.
Proof.
  intros H.
  assert (X : forall k, exists f0, forall i f, 0 <= i <= n -> i < Z.of_nat k -> (f0 <= f)%nat -> P i f).
  { induction k as [ | k (f0 & IH)]; [exists O; lia | ].
    destruct (Z_le_gt_dec (Z.of_nat k) n) as [L | L]; [ | exists f0; intros; apply IH; lia].
    destruct (H (Z.of_nat k) ltac:(lia)) as (f1 & H1). exists (Nat.max f0 f1). intros i f Hi Hk F.
    destruct (Z.eq_dec i (Z.of_nat k)) as [-> | N]; [apply H1 | apply IH]; lia. }
  destruct (X (S (Z.to_nat n))) as (f0 & H0). exists f0. intros. apply H0; lia.
Qed.

Section Loop.
  Variable beyond : Z -> Z.
  Variable r : regex.
  Variable t : list Z.
  Hypothesis F : fits r t false.
  Notation len := (Z.of_nat (length t)).
  Notation M f point := (string_match beyond f (show r) t point false).

  Definition searched (f : nat) (point : Z) : Prop :=
    (exists k j ev, first_match t r point k (j, ev) /\ k <= j <= len /\ (width r = true -> k < j) /\
       M f point = MYes j (match_starts k ev) (match_ends j ev) false) \/
    (no_match t r point /\ M f point = MNo false).
  Lemma searches : exists f0, forall point f, 0 <= point <= len -> (f0 <= f)%nat -> searched f point.
  Proof.
    apply uniform. intros point Hp. destruct F as (C & G & U & A & N & S & D).
    destruct (match_ok t beyond false point r C Hp G U A N S D) as (f0 & H). exists f0. intros f L. unfold searched. rewrite (H f L).
    destruct (leftmost_spec t false point r A N (Z.to_nat (len - point + 1)) point) as [(k & j & ev & w & H1 & H2 & H3 & H4) | (H1 & H2)].
    - left. exists k, j, ev.
      assert (I : In (j, ev) (ways t false (point =? 0) r 1 k)) by (change (point =? 0) with (Regexp_Frag.at_start point); rewrite H3; now left).
      destruct (proj1 (proj2 (Regexp_Sat.ways_range t (fun _ => 0) false point C Hp)) r G 1%nat k j ev ltac:(lia) I) as [B W].
      split; [ | split; [lia | split; [intros X; apply W; exact X | exact H4]]].
      split; [lia | ]. split; [exact H2 | ]. change (point =? 0) with (Regexp_Frag.at_start point). rewrite H3. reflexivity.
    - right. split; [ | exact H2]. intros k Hk. apply H1. lia.
  Qed.

  Lemma substring_slice a b : 0 <= a <= b -> b <= len -> substring t a b = Ok (slice t a b).
  Proof. intros A B. unfold substring. replace ((len <? a) || (a <? 0) || (len <? b) || (b <? a)) with false by lia. reflexivity. Qed.

  Variable f : nat.
  Hypothesis S : forall point, 0 <= point <= len -> searched f point.
  Hypothesis Wd : width r = true.

  Section Template.
    Variable template : list Z -> mstate -> res (list Z) * mstate.
    Variable v : Z -> way -> list Z.
    Hypothesis tmpl : forall point k j ev, first_match t r point k (j, ev) -> 0 <= point <= k ->
      template t (Some (mkmd t (match_starts k ev) (match_ends j ev))) = (Ok (v k (j, ev)), Some (mkmd t (match_starts k ev) (match_ends j ev))).

    Lemma replace_ok n : forall point out m, 0 <= point <= len -> len - point < Z.of_nat n -> (out = [] -> point = 0) ->
      exists o, replace_loop beyond f (show r) t template n point out m = (if match out with [] => true | _ => false end then Ok o else Ok (concat (rev out) ++ o)) /\
        replaced t r v point o.
    Proof.
      induction n as [ | n IH]; intros point out m Hp L O; [lia | ]. cbn [replace_loop].
      destruct (S point Hp) as [(k & j & ev & H1 & H2 & H3 & ->) | (H1 & ->)]; cbn [matched bind].
      - specialize (H3 Wd). destruct H1 as (K1 & K2). assert (H1 : first_match t r point k (j, ev)) by (split; auto).
        cbn [the_pos match_end match_pos match_ends mep nth Z.to_nat bind]. cbn -[replace_loop substring].
        rewrite (tmpl point k j ev H1 ltac:(lia)). cbn -[replace_loop substring]. rewrite substring_slice by lia. cbn [bind].
        destruct (IH j (v k (j, ev) :: slice t point k :: out) (Some (mkmd t (match_starts k ev) (match_ends j ev))) ltac:(lia) ltac:(lia) ltac:(discriminate)) as (o & E & R).
        exists (slice t point k ++ v k (j, ev) ++ o). split.
        + cbn -[concat rev] in E. cbn. rewrite E. cbn [rev]. rewrite !concat_app. cbn [concat]. rewrite !app_nil_r.
          destruct out; cbn [rev concat app]; rewrite <- ?app_assoc; reflexivity.
        + eapply Next with (w := (j, ev)); auto.
      - exists (slice t point len). split; [ | now constructor].
        destruct out as [ | x out].
        + rewrite (O eq_refl). unfold slice. cbn [skipn Z.to_nat]. rewrite Z.sub_0_r, Nat2Z.id, firstn_all. reflexivity.
        + rewrite substring_slice by lia. cbn [bind]. cbn [rev]. rewrite !concat_app. cbn [concat]. now rewrite !app_nil_r.
    Qed.
  End Template.

  Lemma split_ok n : forall point parts m, 0 <= point <= len -> len - point < Z.of_nat n ->
    exists o, split_loop beyond f (show r) t n point parts m = Ok (rev parts ++ o) /\ parted t r point o.
  Proof.
    induction n as [ | n IH]; intros point parts m Hp L; [lia | ]. cbn [split_loop].
    destruct (S point Hp) as [(k & j & ev & H1 & H2 & H3 & ->) | (H1 & ->)]; cbn [matched bind].
    - specialize (H3 Wd). destruct H1 as (K1 & K2). assert (H1 : first_match t r point k (j, ev)) by (split; auto).
      cbn -[split_loop substring]. rewrite substring_slice by lia. cbn [bind].
      destruct (IH j (slice t point k :: parts) (Some (mkmd t (match_starts k ev) (match_ends j ev))) ltac:(lia) ltac:(lia)) as (o & E & R).
      exists (slice t point k :: o). split.
      + cbn in E. cbn. rewrite E. cbn [rev]. rewrite <- app_assoc. reflexivity.
      + eapply More with (w := (j, ev)); auto.
    - exists [slice t point len]. split; [ | now constructor]. rewrite substring_slice by lia. reflexivity.
  Qed.
End Loop.

(** * Literal separators *)
Lemma slice_app t a b c : 0 <= a <= b -> b <= c -> slice t a b ++ slice t b c = slice t a c.
Proof.
  intros A B. unfold slice. replace (Z.to_nat (c - a)) with (Z.to_nat (b - a) + Z.to_nat (c - b))%nat by lia.
  replace (Z.to_nat b) with (Z.to_nat a + Z.to_nat (b - a))%nat by lia.
  generalize (Z.to_nat a) (Z.to_nat (b - a)) (Z.to_nat (c - b)). clear. intros x y z.
  assert (E : skipn (x + y) t = skipn y (skipn x t)).
  { revert t. induction x as [ | x IH]; intros t; [reflexivity | ]. destruct t; [cbn; now rewrite ?skipn_nil | ]. cbn [plus skipn]. apply IH. }
  rewrite E. generalize (skipn x t). clear. induction y as [ | y IH]; intros l; [reflexivity | ].
  destruct l as [ | w l]; [cbn; now rewrite ?skipn_nil, ?firstn_nil | ]. cbn [plus firstn skipn app]. now rewrite IH.
Qed.
Lemma slice_length t a b : 0 <= a <= b -> b <= Z.of_nat (length t) -> Z.of_nat (length (slice t a b)) = b - a.
Proof. intros A B. unfold slice. rewrite firstn_length, skipn_length. lia. Qed.
Lemma map_id_slice (l : list Z) : map (fold false) l = l.
Proof. unfold fold. apply map_id. Qed.
Lemma slice_slice t a b c d : 0 <= c <= d -> 0 <= a -> d <= b - a -> slice (slice t a b) c d = slice t (a + c) (a + d).
Proof.
  intros C A D. unfold slice. replace (Z.to_nat (a + d - (a + c))) with (Z.to_nat (d - c)) by lia.
  replace (Z.to_nat (a + c)) with (Z.to_nat a + Z.to_nat c)%nat by lia.
  assert (L : (Z.to_nat c + Z.to_nat (d - c) <= Z.to_nat (b - a))%nat) by lia.
  revert L. generalize (Z.to_nat a) (Z.to_nat (b - a)) (Z.to_nat c) (Z.to_nat (d - c)). clear. intros x n y m L.
  assert (E : skipn (x + y) t = skipn y (skipn x t)).
  { clear L. revert t. induction x as [ | x IH]; intros t; [reflexivity | ]. destruct t; [cbn; now rewrite ?skipn_nil | ]. cbn [plus skipn]. apply IH. }
  rewrite E. generalize (skipn x t). clear E. revert n L. induction y as [ | y IH]; intros n L l.
  - cbn [skipn]. rewrite firstn_firstn. f_equal. lia.
  - destruct n as [ | n]; [lia | ]. destruct l as [ | w l]; [cbn; now rewrite ?firstn_nil, ?skipn_nil, ?firstn_nil | ]. cbn [firstn skipn]. apply IH. lia.
Qed.

Section Literal.
  Variable t s : list Z.
  Hypothesis Ns : s <> [].
  Notation r := (Alt1 (quoted s)).
  Notation len := (Z.of_nat (length t)).
  Lemma literal_ways b n k : 0 <= k <= len -> ways t false b r n k <> [] <-> occurs false s t k.
  Proof.
    intros Hk. change (ways t false b r n k) with (ways_branch t false b (quoted s) n k). rewrite ways_quoted. unfold lit_way. rewrite <- literal_occurs by lia.
    destruct (literal t false s k); split; congruence.
  Qed.
  Lemma parted_join point parts : 0 <= point <= len -> parted t r point parts ->
    join s parts = slice t point len /\ parts <> [] /\ (forall p k, In p parts -> ~ occurs false s p k).
  Proof.
    intros Hp P. revert Hp. induction P as [point H | point k w parts H P IH]; intros Hp.
    - split; [reflexivity | ]. split; [discriminate | ]. intros p k [<- | []] (O1 & O2 & O3).
      pose proof (slice_length t point len ltac:(lia) ltac:(lia)) as L.
      destruct (literal_ways (point =? 0) 1 (point + k)) as [_ X]; [lia | ]. apply X; [ | apply H; lia].
      split; [lia | ]. split; [lia | ]. rewrite slice_slice in O3 by lia. rewrite Z.add_assoc in O3. exact O3.
    - destruct H as (K1 & K2 & K3).
      assert (O : occurs false s t k).
      { apply (literal_ways (point =? 0) 1); [lia | ]. destruct (ways t false (point =? 0) r 1 k); [discriminate K3 | discriminate]. }
      assert (Ew : fst w = k + Z.of_nat (length s)).
      { change (ways t false (point =? 0) r 1 k) with (ways_branch t false (point =? 0) (quoted s) 1 k) in K3. rewrite ways_quoted in K3. unfold lit_way in K3. destruct (literal t false s k); [ | discriminate]. injection K3 as <-. reflexivity. }
      destruct O as (O1 & O2 & O3). rewrite !map_id_slice in O3.
      destruct (IH ltac:(lia)) as (J & NE & NO). split; [ | split; [discriminate | ]].
      + cbn [join]. destruct parts as [ | p parts]; [congruence | ]. rewrite J, Ew, <- O3 at 1.
        rewrite !slice_app; auto; lia.
      + intros p k' [<- | I]; [ | eapply NO; eauto]. intros (Q1 & Q2 & Q3).
        pose proof (slice_length t point k ltac:(lia) ltac:(lia)) as L.
        assert (LS : (0 < length s)%nat) by (destruct s; [congruence | cbn; lia]).
        destruct (literal_ways (point =? 0) 1 (point + k')) as [_ X]; [lia | ]. apply X; [ | apply K2; lia].
        split; [lia | ]. split; [lia | ]. rewrite slice_slice in Q3 by lia. rewrite Z.add_assoc in Q3. exact Q3.
  Qed.
End Literal.

Lemma quoted_width s : s <> [] -> width_branch (quoted s) = true.
Proof.
  intros N. destruct s as [ | c s]; [congruence | ]. cbn [quoted]. destruct (quoted_char c); [reflexivity | ].
  destruct (quoted s) as [ | [ ] [ | | | ] ]; reflexivity.
Qed.
