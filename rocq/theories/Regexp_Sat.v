(** The code of a whole regular expression matches what it stands for. *)
From Coq Require Import List ZArith Bool Lia ZifyBool Psatz.
From Verif Require Import Regexp_Model Regexp_Spec Regexp_Code Regexp_Match Regexp_Frag.
Import ListNotations.
Open Scope Z_scope.

Lemma depth_nonneg :
  (forall a, 0 <= fst (depth_atom a) /\ 0 <= snd (depth_atom a)) /\
  (forall r, 0 <= fst (depth r) /\ 0 <= snd (depth r)) /\
  (forall b, 0 <= fst (depth_branch b) /\ 0 <= snd (depth_branch b)).
Proof.
  apply re_mind; try (intros; cbn; lia).
  - intros r H. cbn [depth_atom]. destruct (depth r); cbn [fst snd] in *; lia.
  - intros b Hb r Hr. cbn [depth]. destruct (depth_branch b), (depth r); cbn [fst snd] in *; lia.
  - intros a Ha q b Hb. cbn [depth_branch]. destruct (depth_atom a), (depth_branch b). cbn [fst snd] in *.
    destruct q; try destruct (single a); cbn [fst snd]; lia.
Qed.

Lemma in_many_here h f n i : (0 < n)%nat -> In (i, []) (many h f n i).
Proof. destruct n; [lia | ]. intros _. cbn [many]. destruct h; [apply in_or_app; right; now left | now left]. Qed.

Section Whole.
  Variable t : list Z.
  Variable beyond : Z -> Z.
  Variable nocase : bool.
  Variable fold : bool.
  Variable start : Z.
  Variable c : list Z.
  Variable limit : Z.
  Hypothesis chars : Forall char t.
  Hypothesis start_ok : 0 <= start <= Z.of_nat (length t).

  Notation len := (Z.of_nat (length t)).
  Notation m := (memory t beyond).
  Notation at_start := (at_start start).
  Notation Runs := (Runs m c nocase (bol start) limit).
  Notation Alts := (Alts m c nocase (bol start) limit).
  Notation at_ := (at_ c).
  Notation entry := (entry fold c).
  Notation Sat := (Sat t beyond nocase start c limit).
  Notation W_atom := (ways_atom t nocase at_start).
  Notation W_regex := (ways t nocase at_start).
  Notation W_branch := (ways_branch t nocase at_start).
  Notation star h f := (many h f (S (length t))).

  (** * Where ways end *)
  Definition ranged (w : Z -> list way) (b : bool) : Prop :=
    forall i j ev, start <= i <= len -> In (j, ev) (w i) -> i <= j <= len /\ (b = true -> i < j).

  Lemma literal_range cs i : start <= i <= len -> literal t nocase cs i = true -> i + Z.of_nat (length cs) <= len.
  Proof.
    revert i. induction cs as [ | a cs IH]; intros i Hi H; cbn [length literal] in *; [lia | ].
    destruct (m_case t beyond start chars start_ok i Hi) as [(_ & _ & E) | (L & x & _ & E & _)]; rewrite E in H; [discriminate | ].
    apply andb_true_iff in H as [_ H]. specialize (IH (i + 1) ltac:(lia) H). lia.
  Qed.
  Lemma one_range f : ranged (one t f) true.
  Proof.
    intros i j ev Hi H. unfold one in H.
    destruct (m_case t beyond start chars start_ok i Hi) as [(_ & _ & E) | (L & x & _ & E & _)]; rewrite E in H; [destruct H | ].
    destruct (f x); [ | destruct H]. destruct H as [H | []]. injection H as <- <-. lia.
  Qed.
  Lemma when_range g : ranged (fun i => when (g i) i) false.
  Proof. intros i j ev Hi H. unfold when in H. destruct (g i); [ | destruct H]. destruct H as [H | []]. injection H as <- <-. lia. Qed.
  Lemma then_range w1 w2 b1 b2 : ranged w1 b1 -> ranged w2 b2 -> ranged (fun i => and_then (w1 i) w2) (b1 || b2).
  Proof.
    intros H1 H2 i j ev Hi H. apply in_then in H as (j1 & e1 & e2 & I1 & I2 & _).
    destruct (H1 i j1 e1 Hi I1). destruct (H2 j1 j e2 ltac:(lia) I2). split; [lia | ]. intros O. apply orb_true_iff in O as [O | O].
    - specialize (H0 O). lia.
    - specialize (H4 O). lia.
  Qed.
  Lemma many_range h f n b : ranged f b -> ranged (many h f n) false.
  Proof.
    intros H. induction n as [ | n IH]; intros i j ev Hi I; [destruct I | ]. cbn [many] in I.
    assert (X : In (j, ev) (and_then (f i) (many h f n)) \/ (i, []) = (j, ev)).
    { destruct h; [apply in_app_or in I as [I | [I | []]] | destruct I as [I | I]]; auto. }
    destruct X as [X | X].
    - destruct (then_range f (many h f n) b false H IH i j ev Hi X). split; [lia | discriminate].
    - injection X as <- <-. split; [lia | discriminate].
  Qed.
  Lemma times_range q f b : ranged f b -> ranged (times t q f) (match q with One | Plus _ => b | _ => false end).
  Proof.
    intros H. destruct q as [ | [ | ] | h | h]; cbn [times].
    - exact H.
    - intros i j ev Hi I. apply in_app_or in I as [I | [I | []]].
      + destruct (H i j ev Hi I). split; [lia | discriminate].
      + injection I as <- <-. split; [lia | discriminate].
    - intros i j ev Hi [I | I].
      + injection I as <- <-. split; [lia | discriminate].
      + destruct (H i j ev Hi I). split; [lia | discriminate].
    - exact (many_range h f _ b H).
    - intros i j ev Hi I. pose proof (then_range f (star h f) b false H (many_range h f _ b H)) as X. rewrite orb_false_r in X. exact (X i j ev Hi I).
  Qed.
  Lemma ways_range :
    (forall a, good_atom a -> forall n, ranged (W_atom a n) (width_atom a)) /\
    (forall r, good r -> forall n, ranged (W_regex r n) (width r)) /\
    (forall b, good_branch b -> forall n, ranged (W_branch b n) (width_branch b)).
  Proof.
    apply re_mind; try (intros; cbn [ways_atom width_atom]; first [apply one_range | apply when_range]).
    - intros cs [G _] n i j ev Hi H. cbn [ways_atom width_atom] in *. destruct (literal t nocase cs i) eqn:E; [ | destruct H]. destruct H as [H | []].
      injection H as <- <-. pose proof (literal_range cs i Hi E). destruct cs; [congruence | ]. cbn [length] in *. lia.
    - intros r IH G n i j ev Hi H. cbn [ways_atom width_atom] in *. apply in_map_iff in H as ([j' e'] & E & I). cbn [fst] in E. injection E as <- <-.
      exact (IH G (S n) i j' e' Hi I).
    - intros b IH G n. exact (IH G n).
    - intros b IHb r IHr [G1 G2] n i j ev Hi H. cbn [ways width] in *. apply in_app_or in H as [H | H].
      + destruct (IHb G1 n i j ev Hi H). split; [auto | ]. intros X. apply andb_true_iff in X as [X _]. auto.
      + destruct (IHr G2 _ i j ev Hi H). split; [auto | ]. intros X. apply andb_true_iff in X as [_ X]. auto.
    - intros _ n i j ev Hi [H | []]. injection H as <- <-. cbn. split; [lia | discriminate].
    - intros a IHa q b IHb (G1 & G2 & _ & G3) n.
      pose proof (then_range _ _ _ _ (times_range q _ _ (IHa G1 n)) (IHb G3 (n + groups_atom a)%nat)) as X.
      intros i j ev Hi H. specialize (X i j ev Hi H). destruct X as [X1 X2]. split; [exact X1 | ]. intros Wd. apply X2.
      cbn [width_branch] in Wd. apply orb_true_iff. apply orb_true_iff in Wd as [Wd | Wd]; [left | now right].
      destruct q; auto.
  Qed.

  Lemma many_stable h f : ranged f true -> forall n n' i, start <= i <= len -> len - i < Z.of_nat n -> len - i < Z.of_nat n' -> many h f n i = many h f n' i.
  Proof.
    intros R. induction n as [ | n IH]; intros n' i Hi H1 H2; [lia | ]. destruct n'; [lia | ]. cbn [many].
    rewrite (then_ext (f i) (many h f n) (many h f n')); [reflexivity | ].
    intros j e I. destruct (R i j e Hi I) as [X Y]. specialize (Y eq_refl). apply IH; lia.
  Qed.
  Lemma star_unfold h f i : ranged f true -> start <= i <= len ->
    star h f i = match h with Greedy => and_then (f i) (star h f) ++ [(i, [])] | Lazy => (i, []) :: and_then (f i) (star h f) end.
  Proof.
    intros R Hi. change (many h f (S (length t)) i) with
      (match h with Greedy => and_then (f i) (many h f (length t)) ++ [(i, [])] | Lazy => (i, []) :: and_then (f i) (many h f (length t)) end).
    rewrite (then_ext (f i) (many h f (length t)) (star h f)); [reflexivity | ].
    intros j e I. destruct (R i j e Hi I) as [X Y]. specialize (Y eq_refl). apply many_stable; auto; lia.
  Qed.

  (** * Fragments one after another *)
  Lemma sat_weaken p e w x y : fst x <= fst y -> snd x <= snd y -> ranged w false -> Sat p e w x -> Sat p e w y.
  Proof.
    intros L1 L2 R H i D K Hi HK HD. apply H; auto; [ | nia].
    intros j ev I. destruct (R i j ev Hi I) as [X _]. eapply runs_mono; [ | apply (HK j ev I)]. nia.
  Qed.
  Lemma sat_seq p q e w1 w2 x y : ranged w1 false -> ranged w2 false -> 0 <= fst x -> 0 <= snd x -> 0 <= fst y -> 0 <= snd y ->
    Sat p q w1 x -> Sat q e w2 y -> Sat p e (fun i => and_then (w1 i) w2) (fst x + fst y, snd x + snd y).
  Proof.
    intros R1 R2 P1 P2 P3 P4 S1 S2 i D K Hi HK HD. cbn [fst snd] in *. rewrite then_assoc. apply S1; auto; [ | nia].
    intros j ev I. destruct (R1 i j ev Hi I) as [X _]. apply S2; [lia | | nia].
    intros k ev' I'. destruct (R2 j k ev' ltac:(lia) I') as [Y _]. eapply runs_mono; [ | apply (HK k (ev ++ ev'))]; [nia | ].
    apply in_then. exists j, ev, ev'. auto.
  Qed.

  Lemma ranged_false w b : ranged w b -> ranged w false.
  Proof. intros H i j ev Hi I. destruct (H i j ev Hi I). split; [auto | discriminate]. Qed.

  (** * Quantifiers of groups *)
  Section Quant.
    Variable f : Z -> list way.
    Variable g : option nat -> list Z.
    Variable L : nat.
    Variable x0 x1 : Z.
    Hypothesis L_pos : (0 < L)%nat.
    Hypothesis x0_pos : 0 <= x0.
    Hypothesis x1_pos : 0 <= x1.
    Hypothesis g_len : forall k, length (g k) = L.
    Hypothesis sat : forall p k, at_ p (g (Some k)) -> Sat p (p + (L + k)) f (x0, x1).

    Lemma sat_opt p k : ranged f false -> at_ p (node BRANCH (L + 3) ++ g (Some 3%nat) ++ node BRANCH 3 ++ node NOTHING (3 + k)) ->
      Sat p (p + (L + 9 + k)) (times t (Opt Greedy) f) (x0 + 1, x1).
    Proof.
      intros R A i D K Hi HK HD. cbn [fst snd times] in *.
      apply at_app in A as [A1 A]. apply at_app in A as [A2 A]. apply at_app in A as [A3 A4].
      rewrite ?node_length, ?g_len in *.
      assert (E : (p + 3 + L + 3 + (3 + k) = p + (L + 9 + k))%nat) by lia.
      assert (P : forall j ev d, In (j, ev) (f i ++ [(i, [])]) -> D - (x0 + 1) - x1 * (j - i) <= d -> Runs (p + 3 + L + 3) j d (K j)).
      { intros j ev d I Hd. eapply step_nothing; eauto; [lia | ]. rewrite E. eapply runs_mono; [ | eapply HK; eauto]. exact Hd. }
      rewrite then_app, then_one.
      eapply step_alts; eauto; [lia | replace (p + (L + 3))%nat with (p + 3 + L)%nat by lia; eapply at_op; eauto | nia | ].
      eapply alts_more; eauto; [lia | replace (p + (L + 3))%nat with (p + 3 + L)%nat by lia; eapply at_op; eauto | | ].
      - apply (sat _ _ A2); auto; cbn [fst snd]; [ | nia]. intros j ev I. replace (p + 3 + (L + 3))%nat with (p + 3 + L + 3)%nat by lia.
        eapply P; [apply in_or_app; left; eauto | lia].
      - replace (p + (L + 3))%nat with (p + 3 + L)%nat by lia. eapply (alts_last _ _ _ _ _ _ 3 NOTHING); [eassumption | lia | eapply at_op; eassumption | discriminate | ].
        eapply P; [apply in_or_app; right; now left | ]. nia.
    Qed.

    Hypothesis progress : ranged f true.
    Notation C := (x0 + x1 + 1).

    Lemma sat_star p k : at_ p (node BRANCH (L + 6) ++ g (Some 0%nat) ++ node BACK (L + 3) ++ node BRANCH 3 ++ node NOTHING (3 + k)) ->
      Sat p (p + (L + 12 + k)) (times t (Star Greedy) f) (x0 + 1, C).
    Proof.
      intros A. apply at_app in A as [A1 A]. apply at_app in A as [A2 A]. apply at_app in A as [A3 A]. apply at_app in A as [A4 A5].
      rewrite ?node_length, ?g_len in *.
      intros i D K Hi. cbn [fst snd times]. remember (Z.to_nat (len - i)) as n eqn:Hn. revert i D Hi Hn.
      induction n as [n IH] using lt_wf_ind. intros i D Hi Hn HK HD.
      assert (E0 : star Greedy f i = and_then (f i) (star Greedy f) ++ [(i, [])]) by exact (star_unfold Greedy f i progress Hi).
      rewrite E0 in *. rewrite then_app, then_one, then_assoc.
      assert (O2 : op_at c (p + (L + 6)) = Ok BRANCH) by (replace (p + (L + 6))%nat with (p + 3 + L + 3)%nat by lia; eapply at_op; eauto).
      eapply step_alts; eauto; [lia | nia | ]. eapply alts_more; eauto; [lia | | ].
      - apply (sat _ _ A2); auto; cbn [fst snd]; [ | nia]. intros j ev I. destruct (progress i j ev Hi I) as [X Y]. specialize (Y eq_refl).
        replace (p + 3 + (L + 0))%nat with (p + 3 + L)%nat by lia. eapply step_back; eauto; [lia | lia | ].
        replace (p + 3 + L - (L + 3))%nat with p by lia. eapply (IH (Z.to_nat (len - j))); try lia; [ | nia].
        intros k' ev' I'. destruct (many_range Greedy f _ true progress j k' ev' ltac:(lia) I') as [Z _].
        eapply runs_mono; [ | eapply (HK k' (ev ++ ev'))]; [nia | ]. apply in_or_app. left. apply in_then. exists j, ev, ev'. auto.
      - replace (p + (L + 6))%nat with (p + 3 + L + 3)%nat by lia. eapply (alts_last _ _ _ _ _ _ 3 NOTHING); [eassumption | lia | eapply at_op; eassumption | discriminate | ].
        eapply step_nothing; eauto; [lia | ]. replace (p + 3 + L + 3 + 3 + (3 + k))%nat with (p + (L + 12 + k))%nat by lia.
        eapply runs_mono; [ | eapply (HK i [])]; [nia | ]. apply in_or_app. right. now left.
    Qed.

    Lemma sat_plus p k : at_ p (g (Some 0%nat) ++ node BRANCH 6 ++ node BACK (L + 3) ++ node BRANCH 3 ++ node NOTHING (3 + k)) ->
      Sat p (p + (L + 12 + k)) (times t (Plus Greedy) f) (x0 + 1, C).
    Proof.
      intros A. apply at_app in A as [A1 A]. apply at_app in A as [A2 A]. apply at_app in A as [A3 A]. apply at_app in A as [A4 A5].
      rewrite ?node_length, ?g_len in *.
      intros i D K Hi. cbn [fst snd times]. remember (Z.to_nat (len - i)) as n eqn:Hn. revert i D Hi Hn.
      induction n as [n IH] using lt_wf_ind. intros i D Hi Hn HK HD. rewrite then_assoc.
      apply (sat _ _ A1); auto; cbn [fst snd]; [ | nia]. intros j ev I. destruct (progress i j ev Hi I) as [X Y]. specialize (Y eq_refl).
      replace (p + (L + 0))%nat with (p + L)%nat by lia.
      assert (E0 : star Greedy f j = and_then (f j) (star Greedy f) ++ [(j, [])]) by (apply (star_unfold Greedy f j progress); lia).
      rewrite E0, then_app, then_one.
      assert (O2 : op_at c (p + L + 6) = Ok BRANCH) by (replace (p + L + 6)%nat with (p + L + 3 + 3)%nat by lia; eapply at_op; eauto).
      eapply step_alts; eauto; [lia | nia | ]. eapply alts_more; eauto; [lia | | ].
      - eapply step_back; eauto; [lia | lia | ]. replace (p + L + 3 - (L + 3))%nat with p by lia.
        eapply (IH (Z.to_nat (len - j))); try lia; [ | nia].
        intros k' ev' I'. destruct (then_range f _ true false progress (many_range Greedy f _ true progress) j k' ev' ltac:(lia) I') as [Z _].
        eapply runs_mono; [ | eapply (HK k' (ev ++ ev'))]; [nia | ]. apply in_then. exists j, ev, ev'. split; [exact I | ]. split; [ | reflexivity].
        rewrite E0. apply in_or_app. now left.
      - replace (p + L + 6)%nat with (p + L + 3 + 3)%nat by lia. eapply (alts_last _ _ _ _ _ _ 3 NOTHING); [eassumption | lia | eapply at_op; eassumption | discriminate | ].
        eapply step_nothing; eauto; [lia | ]. replace (p + L + 3 + 3 + 3 + (3 + k))%nat with (p + (L + 12 + k))%nat by lia.
        eapply runs_mono; [ | eapply (HK j (ev ++ []))]; [nia | ]. apply in_then. exists j, ev, []. split; [exact I | ]. split; [ | reflexivity].
        rewrite E0. apply in_or_app. right. now left.
    Qed.

    Lemma sat_lazy_star p : entry (p + (L + 12)) ->
      at_ p (node BRANCH 6 ++ node NOTHING (L + 9) ++ node BRANCH (L + 6) ++ g (Some 0%nat) ++ node BACK (L + 9)) ->
      Sat p (p + (L + 12)) (times t (Star Lazy) f) (x0 + 1, C).
    Proof.
      intros (op & En & _) A. apply at_app in A as [A1 A]. apply at_app in A as [A2 A]. apply at_app in A as [A3 A]. apply at_app in A as [A4 A5].
      rewrite ?node_length, ?g_len in *.
      intros i D K Hi. cbn [fst snd times]. remember (Z.to_nat (len - i)) as n eqn:Hn. revert i D Hi Hn.
      induction n as [n IH] using lt_wf_ind. intros i D Hi Hn HK HD.
      assert (E0 : star Lazy f i = [(i, [])] ++ and_then (f i) (star Lazy f)) by exact (star_unfold Lazy f i progress Hi).
      rewrite E0 in *. rewrite then_app, then_one, then_assoc.
      assert (O2 : op_at c (p + 6) = Ok BRANCH) by (replace (p + 6)%nat with (p + 3 + 3)%nat by lia; eapply at_op; eauto).
      assert (KI : Runs (p + (L + 12)) i (D - (x0 + 1)) (K i)).
      { eapply runs_mono; [ | eapply (HK i [])]; [lia | now left]. }
      assert (K3 : Runs (p + 3) i (D - 1) (K i)).
      { eapply step_nothing; eauto; [lia | ]. replace (p + 3 + (L + 9))%nat with (p + (L + 12))%nat by lia. eapply runs_mono; [ | exact KI]. lia. }
      eapply step_alts; eauto; [lia | nia | ].
      destruct (K i) as [ | w ws] eqn:EK.
      2: { apply alts_first; [discriminate | exact K3]. }
      eapply alts_more; eauto; [lia | ]. replace (p + 6)%nat with (p + 3 + 3)%nat by lia.
      rewrite <- (app_nil_r (and_then (f i) _)). eapply (alts_then _ _ _ _ _ _ _ op _ _ (D - (x0 + 1))); eauto.
      - lia.
      - replace (p + 3 + 3 + (L + 6))%nat with (p + (L + 12))%nat by lia. exact En.
      - nia.
      - lia.
      - apply (sat _ _ A4); auto; cbn [fst snd]; [ | nia]. intros j ev I. destruct (progress i j ev Hi I) as [X Y]. specialize (Y eq_refl).
        replace (p + 3 + 3 + 3 + (L + 0))%nat with (p + 3 + 3 + 3 + L)%nat by lia. eapply step_back; eauto; [lia | lia | ].
        replace (p + 3 + 3 + 3 + L - (L + 9))%nat with p by lia. eapply (IH (Z.to_nat (len - j))); try lia; [ | nia].
        intros k' ev' I'. destruct (many_range Lazy f _ true progress j k' ev' ltac:(lia) I') as [Z _].
        eapply runs_mono; [ | eapply (HK k' (ev ++ ev'))]; [nia | ]. right. apply in_then. exists j, ev, ev'. auto.
      - replace (p + 3 + 3 + (L + 6))%nat with (p + (L + 12))%nat by lia. exact KI.
    Qed.

    Lemma sat_lazy_plus p : entry (p + (L + 12)) ->
      at_ p (g (Some 0%nat) ++ node BRANCH 6 ++ node NOTHING 9 ++ node BRANCH 6 ++ node BACK (L + 9)) ->
      Sat p (p + (L + 12)) (times t (Plus Lazy) f) (x0 + 1, C).
    Proof.
      intros (op & En & _) A. apply at_app in A as [A1 A]. apply at_app in A as [A2 A]. apply at_app in A as [A3 A]. apply at_app in A as [A4 A5].
      rewrite ?node_length, ?g_len in *.
      intros i D K Hi. cbn [fst snd times]. remember (Z.to_nat (len - i)) as n eqn:Hn. revert i D Hi Hn.
      induction n as [n IH] using lt_wf_ind. intros i D Hi Hn HK HD. rewrite then_assoc.
      apply (sat _ _ A1); auto; cbn [fst snd]; [ | nia]. intros j ev I. destruct (progress i j ev Hi I) as [X Y]. specialize (Y eq_refl).
      replace (p + (L + 0))%nat with (p + L)%nat by lia.
      assert (E0 : star Lazy f j = [(j, [])] ++ and_then (f j) (star Lazy f)) by (apply (star_unfold Lazy f j progress); lia).
      rewrite E0, then_app, then_one.
      assert (O2 : op_at c (p + L + 6) = Ok BRANCH) by (replace (p + L + 6)%nat with (p + L + 3 + 3)%nat by lia; eapply at_op; eauto).
      assert (KI : Runs (p + (L + 12)) j (D - (x0 + 1) - C * (j - i)) (K j)).
      { eapply (HK j (ev ++ [])). apply in_then. exists j, ev, []. split; [exact I | ]. split; [ | reflexivity]. rewrite E0. now left. }
      assert (K3 : Runs (p + L + 3) j (D - x0 - x1 * (j - i) - 1) (K j)).
      { eapply step_nothing; eauto; [lia | ]. replace (p + L + 3 + 9)%nat with (p + (L + 12))%nat by lia. eapply runs_mono; [ | exact KI]. nia. }
      eapply step_alts; eauto; [lia | nia | ].
      destruct (K j) as [ | w ws] eqn:EK.
      2: { apply alts_first; [discriminate | exact K3]. }
      eapply alts_more; eauto; [lia | ]. replace (p + L + 6)%nat with (p + L + 3 + 3)%nat by lia.
      rewrite <- (app_nil_r (and_then (and_then (f j) _) _)). eapply (alts_then _ _ _ _ _ _ _ op _ _ (D - (x0 + 1) - C * (j - i))); eauto.
      - lia.
      - replace (p + L + 3 + 3 + 6)%nat with (p + (L + 12))%nat by lia. exact En.
      - nia.
      - nia.
      - eapply step_back; eauto; [lia | lia | ]. replace (p + L + 3 + 3 + 3 - (L + 9))%nat with p by lia.
        eapply (IH (Z.to_nat (len - j))); try lia; [ | nia].
        intros k' ev' I'. destruct (then_range f _ true false progress (many_range Lazy f _ true progress) j k' ev' ltac:(lia) I') as [Z _].
        eapply runs_mono; [ | eapply (HK k' (ev ++ ev'))]; [nia | ]. apply in_then. exists j, ev, ev'. split; [exact I | ]. split; [ | reflexivity].
        rewrite E0. now right.
      - replace (p + L + 3 + 3 + 6)%nat with (p + (L + 12))%nat by lia. exact KI.
    Qed.
  End Quant.

  (** * Where fragments begin *)
  Lemma entry_atom a n k p : good_atom a -> (fold = true -> ascii_atom a) -> at_ p (gen_atom a n k) -> entry p.
  Proof.
    intros G AS A. destruct a as [cs | x | | | | | | neg l | kd neg | r]; cbn [gen_atom good_atom ascii_atom] in *.
    - exists EXACTLY. split; [apply at_app in A as [A _]; eapply at_op; eauto | ]. intros _.
      destruct G as [G1 G2]. assert (F : Forall char cs) by (eapply Forall_impl; [ | exact G2]; intros ? [H _]; exact H).
      rewrite (at_str c p EXACTLY _ cs A) by (eapply Forall_impl; [ | exact F]; unfold char; intros; lia).
      destruct cs as [ | b cs]; [congruence | ]. cbn [hd]. inversion F; subst. split; [exact H1 | ]. intros N. specialize (AS N). now inversion AS.
    - exists EXACTLY. split; [apply at_app in A as [A _]; eapply at_op; eauto | ]. intros _.
      rewrite (at_str c p EXACTLY _ [x] A) by (constructor; [destruct G as [G _]; unfold char in G; lia | constructor]).
      cbn [hd]. destruct G as [G _]. split; [exact G | exact AS].
    - eapply entry_node; [eauto | discriminate].
    - eapply entry_node; [eauto | discriminate].
    - eapply entry_node; [eauto | discriminate].
    - eapply entry_node; [eauto | discriminate].
    - eapply entry_node; [eauto | discriminate].
    - apply at_app in A as [A _]. eapply entry_node; [eauto | destruct neg; discriminate].
    - eapply entry_node; [eauto | destruct kd, neg; discriminate].
    - apply at_app in A as [A _]. eapply entry_node; [eauto | unfold OPEN, EXACTLY; lia].
  Qed.
  Lemma entry_piece a q n k p : good_atom a -> (fold = true -> ascii_atom a) -> at_ p (gen_piece a q n k) -> entry p.
  Proof.
    intros G AS A. unfold gen_piece in A.
    destruct q as [ | h | [ | ] | [ | ]]; cbn [gen_quant] in A; try destruct (single a);
      try (apply at_app in A as [A _]; eapply entry_node; [exact A | discriminate]);
      try (apply at_app in A as [A _]); eapply entry_atom; eauto.
  Qed.
  Lemma entry_branch b n k p : good_branch b -> (fold = true -> ascii_branch b) -> at_ p (gen_branch b n k) -> entry p.
  Proof.
    intros G AS A. destruct b as [ | a q b]; cbn [gen_branch] in A.
    - eapply entry_node; [eauto | discriminate].
    - destruct G as (G & _). assert (AS' : fold = true -> ascii_atom a) by (intros N; apply AS; exact N).
      destruct b; [ | apply at_app in A as [A _]]; eapply (entry_piece a q); eauto.
  Qed.
  Lemma op_regex r n p : at_ p (gen r n) -> op_at c p = Ok BRANCH.
  Proof. intros A. destruct r; cbn [gen] in A; apply at_app in A as [A _]; eapply at_op; eauto. Qed.

  Lemma size_pos a : good_atom a -> (0 < size_atom a)%nat.
  Proof.
    intros G. rewrite <- (gen_atom_length a G 0 None). destruct a; cbn [gen_atom]; repeat rewrite app_length; rewrite node_length; lia.
  Qed.

  (** a piece *)
  Definition depth_piece (a : atom) (q : quant) : Z * Z :=
    let '(x, y) := depth_atom a in
    match q with
    | One => (x, y)
    | Opt _ => (x + 1, y)
    | _ => if single a then (1, 0) else (x + 1, x + y + 1)
    end.
  Lemma sat_piece a q n k p :
    (forall p k, at_ p (gen_atom a n (Some k)) -> (forall kd, a <> Kind kd true) -> Sat p (p + (size_atom a + k)) (W_atom a n) (depth_atom a)) ->
    good_atom a -> match q with Star _ | Plus _ => width_atom a = true | _ => True end ->
    match q with Opt Lazy => False | Star Lazy | Plus Lazy => single a = true \/ k = O | _ => True end ->
    match a, q with Kind _ true, Star _ | Kind _ true, Plus _ => True | Kind _ true, _ => False | _, _ => True end ->
    (match q with Star _ | Plus _ => single a | _ => false end = true -> nocase = true -> fold = true) ->
    entry (p + (size_piece a q + k)) ->
    at_ p (gen_piece a q n (Some k)) -> Sat p (p + (size_piece a q + k)) (times t q (W_atom a n)) (depth_piece a q).
  Proof.
    intros IH G Wd U UK FN En A. unfold gen_piece, size_piece, depth_piece in *.
    pose proof (proj1 depth_nonneg a) as [P0 P1]. pose proof (size_pos a G) as LP.
    assert (GL : forall k, length (gen_atom a n k) = size_atom a) by (intros; now apply gen_atom_length).
    assert (RG : ranged (W_atom a n) (width_atom a)) by (apply ways_range; auto).
    destruct (single a) eqn:S.
    - (* one character *)
      assert (NK : (q = One \/ exists h, q = Opt h) -> forall kd, a <> Kind kd true).
      { intros [-> | (h & ->)] kd ->; exact UK. }
      assert (RP : forall op off, star_op q = op -> op <> END -> off = (size_atom a + 3 + k)%nat ->
        at_ p (node op off ++ gen_atom a n None) -> Sat p (p + (size_atom a + 3 + k)) (times t q (W_atom a n)) (1, 0)).
      { intros op off E1 E2 -> A'. subst op. apply (sat_repeat t beyond nocase fold); auto; [lia | | ]; [intros X; apply FN; auto; destruct q as [ | h | h | h]; auto; try (destruct h; destruct (E2 eq_refl)); destruct (E2 eq_refl) | ].
        destruct q as [ | h | h | h]; try exact En; try (destruct h; destruct (E2 eq_refl)); destruct (E2 eq_refl). }
      destruct q as [ | [ | ] | [ | ] | [ | ]]; cbn [gen_quant tl_] in A.
      + destruct (depth_atom a) as [x y] eqn:DA. rewrite Nat.add_0_r. apply IH; [exact A | ]. apply NK. now left.
      + destruct (depth_atom a) as [x y] eqn:DA. cbn [fst snd] in *.
        apply (sat_opt (W_atom a n) (gen_atom a n) (size_atom a) x y); auto.
        * intros p' k' A'. apply IH; [exact A' | ]. apply NK. right. eauto.
        * eapply ranged_false; eauto.
      + destruct U.
      + destruct (depth_atom a). eapply RP; [reflexivity | discriminate | | exact A]. lia.
      + destruct (depth_atom a). eapply RP; [reflexivity | discriminate | | exact A]. lia.
      + destruct (depth_atom a). eapply RP; [reflexivity | discriminate | | exact A]. lia.
      + destruct (depth_atom a). eapply RP; [reflexivity | discriminate | | exact A]. lia.
    - assert (NK : forall kd, a <> Kind kd true) by (intros kd ->; discriminate S).
      destruct (depth_atom a) as [x y] eqn:DA. cbn [fst snd] in *.
      assert (IH' : forall p k, at_ p (gen_atom a n (Some k)) -> Sat p (p + (size_atom a + k)) (W_atom a n) (x, y)) by (intros; apply IH; auto).
      destruct q as [ | [ | ] | [ | ] | [ | ]]; cbn [gen_quant tl_] in A.
      + rewrite Nat.add_0_r. apply IH'. exact A.
      + apply (sat_opt (W_atom a n) (gen_atom a n) (size_atom a) x y); auto. eapply ranged_false; eauto.
      + destruct U.
      + rewrite Wd in RG. apply (sat_star (W_atom a n) (gen_atom a n) (size_atom a) x y); auto.
      + rewrite Wd in RG. destruct U as [U | ->]; [discriminate | ]. rewrite Nat.add_0_r in *.
        apply (sat_lazy_star (W_atom a n) (gen_atom a n) (size_atom a) x y); auto.
      + rewrite Wd in RG. apply (sat_plus (W_atom a n) (gen_atom a n) (size_atom a) x y); auto.
      + rewrite Wd in RG. destruct U as [U | ->]; [discriminate | ]. rewrite Nat.add_0_r in *.
        apply (sat_lazy_plus (W_atom a n) (gen_atom a n) (size_atom a) x y); auto.
  Qed.

  Lemma then_group n i l K :
    and_then (map (fun w : way => (fst w, Opened n i :: snd w ++ [Closed n (fst w)])) l) K =
    map (add (Opened n i)) (and_then l (fun j => map (add (Closed n j)) (K j))).
  Proof.
    induction l as [ | [j e] l IH]; [reflexivity | ]. cbn [map fst snd]. rewrite !then_cons, map_app, IH, !map_map. apply (f_equal2 (@app way)); [ | reflexivity].
    apply map_ext. intros [k e']. unfold add. cbn [fst snd app]. now rewrite <- app_assoc.
  Qed.

  Definition sat_alts (p e : nat) (w : Z -> list way) (x : Z * Z) : Prop := forall i D K,
    start <= i <= len ->
    (forall j ev, In (j, ev) (w i) -> Runs e j (D - fst x - snd x * (j - i)) (K j)) ->
    fst x + snd x * (len - i) <= D ->
    Alts p i D (and_then (w i) K).

  Theorem sat_all :
    (forall a, good_atom a -> usable_atom a -> (fold = true -> ascii_atom a) -> (repeats_atom a = true -> nocase = true -> fold = true) -> forall n k p,
       (1 <= n)%nat -> (n + groups_atom a <= 10)%nat -> (forall kd, a <> Kind kd true) ->
       at_ p (gen_atom a n (Some k)) -> Sat p (p + (size_atom a + k)) (W_atom a n) (depth_atom a)) /\
    (forall r, good r -> usable r -> (fold = true -> ascii r) -> (repeats r = true -> nocase = true -> fold = true) -> forall n p op,
       (1 <= n)%nat -> (n + groups r <= 10)%nat -> entry (p + size r) -> op_at c (p + size r) = Ok op -> op <> BRANCH ->
       at_ p (gen r n) -> Sat p (p + size r) (W_regex r n) (depth r) /\ sat_alts p (p + size r) (W_regex r n) (depth r)) /\
    (forall b, good_branch b -> (fold = true -> ascii_branch b) -> (repeats_branch b = true -> nocase = true -> fold = true) -> forall last n k p, usable_branch last b ->
       (1 <= n)%nat -> (n + groups_branch b <= 10)%nat -> (last = true -> k = O) -> entry (p + (size_branch b + k)) ->
       at_ p (gen_branch b n (Some k)) -> Sat p (p + (size_branch b + k)) (W_branch b n) (depth_branch b)).
  Proof.
    apply re_mind.
    - intros cs [G1 G2] _ _ _ n k p _ _ _ A. cbn [gen_atom tl_ size_atom] in *.
      apply sat_lit; auto; [lia | ]. eapply Forall_impl; [ | exact G2]. intros ? [H _]. exact H.
    - intros x G _ _ _ n k p _ _ NK A. apply sat_single; auto.
    - intros _ _ _ _ n k p _ _ _ A. apply sat_bol; auto. cbn [size_atom]. lia.
    - intros _ _ _ _ n k p _ _ _ A. apply sat_eol; auto. cbn [size_atom]. lia.
    - intros G _ _ _ n k p _ _ NK A. apply sat_single; auto.
    - intros _ _ _ _ n k p _ _ _ A. apply sat_edge; auto. cbn [size_atom]. lia.
    - intros _ _ _ _ n k p _ _ _ A. apply sat_nedge; auto. cbn [size_atom]. lia.
    - intros neg l G _ _ _ n k p _ _ NK A. apply sat_single; auto.
    - intros kd neg G _ _ _ n k p _ _ NK A. apply sat_single; auto.
    - (* groups *)
      intros r IH G U AS FN n k p N1 N2 _ A. cbn [good_atom usable_atom ascii_atom repeats_atom groups_atom gen_atom tl_ size_atom] in *.
      apply at_app in A as [A1 A]. apply at_app in A as [A2 A3]. rewrite node_length, gen_regex_length in * by auto.
      destruct (IH G U AS FN (S n) (p + 3)%nat (CLOSE + Z.of_nat n)) as [ST _]; auto; try lia.
      { eapply entry_node; eauto. unfold CLOSE, EXACTLY. lia. }
      { eapply at_op; eauto. }
      { unfold CLOSE, BRANCH. lia. }
      pose proof (proj1 (proj2 depth_nonneg) r) as [P0 P1].
      intros i D K Hi HK HD. cbn [depth_atom ways_atom] in *. destruct (depth r) as [x y]. cbn [fst snd] in *.
      rewrite then_group. assert (1 <= D) by nia. apply step_open; auto; [lia | ]. apply ST; auto; cbn [fst snd]; [ | nia].
      intros j ev I. destruct (proj1 (proj2 ways_range) r G (S n) i j ev Hi I) as [X _].
      apply (step_close _ _ _ _ _ _ n (3 + k)); auto; [lia | lia | nia | ].
      replace (p + 3 + size r + (3 + k))%nat with (p + (size r + 6 + k))%nat by lia.
      eapply runs_mono; [ | eapply HK]; [lia | ]. apply in_map_iff. exists (j, ev). split; [reflexivity | exact I].
    - (* the last alternative *)
      intros b IH G U AS FN n p op N1 N2 En Op Nb A. cbn [good usable ascii repeats groups gen size] in *.
      apply at_app in A as [A1 A2]. rewrite node_length in A2.
      assert (ST : Sat (p + 3) (p + (3 + size_branch b)) (W_branch b n) (depth_branch b)).
      { replace (p + (3 + size_branch b))%nat with (p + 3 + (size_branch b + 0))%nat in * by lia. eapply (IH G AS FN true); eauto. }
      split; intros i D K Hi HK HD.
      + eapply step_branch; [eassumption | lia | eassumption | assumption | ]. apply ST; auto.
      + eapply alts_last; [eassumption | lia | eassumption | assumption | ]. apply ST; auto.
    - intros b IHb r IHr [G1 G2] [U1 U2] AS FN n p op N1 N2 En Op Nb A. cbn [groups gen size] in *.
      apply at_app in A as [A1 A]. apply at_app in A as [A2 A3]. rewrite node_length, gen_branch_length in * by auto.
      assert (ST : Sat (p + 3) (p + (3 + size_branch b + size r)) (W_branch b n) (depth_branch b)).
      { replace (p + (3 + size_branch b + size r))%nat with (p + 3 + (size_branch b + size r))%nat in * by lia.
        apply (IHb G1) with (last := false); auto; try lia; try discriminate; [intros X; apply AS; exact X | ]. intros X. apply FN. cbn [repeats]. now rewrite X. }
      assert (AL : sat_alts (p + (3 + size_branch b)) (p + (3 + size_branch b + size r)) (W_regex r (n + groups_branch b)) (depth r)).
      { replace (p + (3 + size_branch b + size r))%nat with (p + (3 + size_branch b) + size r)%nat in * by lia.
        replace (p + 3 + size_branch b)%nat with (p + (3 + size_branch b))%nat in * by lia.
        eapply (IHr G2 U2); eauto; try lia; [intros X; apply AS; exact X | ]. intros X. apply FN. cbn [repeats]. rewrite X. apply orb_true_r. }
      assert (OB : op_at c (p + (3 + size_branch b)) = Ok BRANCH).
      { replace (p + (3 + size_branch b))%nat with (p + 3 + size_branch b)%nat by lia. eapply op_regex; eauto. }
      pose proof (proj2 (proj2 depth_nonneg) b) as [P0 P1]. pose proof (proj1 (proj2 depth_nonneg) r) as [P2 P3].
      assert (AB : forall i D K, start <= i <= len ->
        (forall j ev, In (j, ev) (W_regex (Alt b r) n i) -> Runs (p + (3 + size_branch b + size r)) j (D - fst (depth (Alt b r)) - snd (depth (Alt b r)) * (j - i)) (K j)) ->
        fst (depth (Alt b r)) + snd (depth (Alt b r)) * (len - i) <= D ->
        Alts p i (D - 1) (and_then (W_regex (Alt b r) n i) K) /\ 1 <= D).
      { intros i D K Hi HK HD. cbn [ways depth] in *. destruct (depth_branch b) as [x y], (depth r) as [x' y']. cbn [fst snd] in *.
        split; [ | nia]. rewrite then_app. eapply alts_more; eauto; [lia | | ].
        - apply ST; auto; cbn [fst snd]; [ | nia]. intros j ev I. destruct (proj2 (proj2 ways_range) b G1 n i j ev Hi I) as [X _].
          eapply runs_mono; [ | eapply HK; apply in_or_app; left; eauto]. nia.
        - apply AL; auto; cbn [fst snd]; [ | nia]. intros j ev I. destruct (proj1 (proj2 ways_range) r G2 _ i j ev Hi I) as [X _].
          eapply runs_mono; [ | eapply HK; apply in_or_app; right; eauto]. nia. }
      split; intros i D K Hi HK HD; destruct (AB i D K Hi HK HD) as [AB' D1].
      + eapply step_alts; eauto. lia.
      + destruct AB' as (f0 & H). exists f0. intros f g nest F1 F2 N L. apply H; auto. lia.
    - intros _ _ _ last n k p _ _ _ _ _ A i D K Hi HK HD. cbn [ways_branch depth_branch fst snd gen_branch size_branch tl_] in *.
      rewrite then_one. eapply step_nothing; eauto; [lia | ]. eapply runs_mono; [ | eapply (HK i [])]; [lia | now left].
    - intros a IHa q b IHb (G1 & G2 & _ & G3) AS FN last n k p (U1 & U2 & U3 & U4) N1 N2 LK En A.
      cbn [groups_branch] in N2.
      assert (ASa : fold = true -> ascii_atom a) by (intros X; apply AS; exact X).
      assert (ASb : fold = true -> ascii_branch b) by (intros X; apply AS; exact X).
      assert (FNp : match q with Star _ | Plus _ => single a | _ => false end = true -> nocase = true -> fold = true).
      { intros X. apply FN. cbn [repeats_branch]. now rewrite X. }
      assert (FNa : repeats_atom a = true -> nocase = true -> fold = true).
      { intros X. apply FN. cbn [repeats_branch]. rewrite X, orb_true_r. reflexivity. }
      assert (FNb : repeats_branch b = true -> nocase = true -> fold = true).
      { intros X. apply FN. cbn [repeats_branch]. rewrite X. apply orb_true_r. }
      assert (IHa' : forall p k, at_ p (gen_atom a n (Some k)) -> (forall kd, a <> Kind kd true) -> Sat p (p + (size_atom a + k)) (W_atom a n) (depth_atom a)).
      { intros p' k' A' NK. apply IHa; auto. lia. }
      pose proof (proj1 depth_nonneg a) as [P0 P1]. pose proof (proj2 (proj2 depth_nonneg) b) as [P2 P3].
      assert (RP : ranged (times t q (W_atom a n)) false).
      { eapply ranged_false. apply times_range. apply (proj1 ways_range a G1 n). }
      assert (DP : 0 <= fst (depth_piece a q) /\ 0 <= snd (depth_piece a q)).
      { unfold depth_piece. destruct (depth_atom a). cbn [fst snd] in *. destruct q; try destruct (single a); cbn [fst snd]; lia. }
      assert (DB : depth_branch (Piece a q b) = (fst (depth_piece a q) + fst (depth_branch b), snd (depth_piece a q) + snd (depth_branch b))).
      { cbn [depth_branch]. unfold depth_piece. destruct (depth_atom a), (depth_branch b). destruct q; try destruct (single a); cbn [fst snd]; f_equal; lia. }
      destruct b as [ | a' q' b'].
      + (* the last piece *)
        assert (SZ : size_branch (Piece a q Nil) = size_piece a q) by (unfold size_piece; cbn [size_branch]; lia). rewrite SZ in *.
        assert (X : Sat p (p + (size_piece a q + k)) (times t q (W_atom a n)) (depth_piece a q)).
        { apply sat_piece; auto. destruct q as [ | [ | ] | [ | ] | [ | ]]; auto; destruct U2 as [U2 | [U2 | U2]]; auto; congruence. }
        rewrite DB. cbn [depth_branch fst snd]. rewrite !Z.add_0_r. rewrite <- surjective_pairing.
        intros i D K Hi HK HD. cbn [ways_branch] in *. rewrite then_units in *. apply X; auto.
      + set (b := Piece a' q' b') in *.
        assert (SZ : size_branch (Piece a q b) = (size_piece a q + size_branch b)%nat) by reflexivity. rewrite SZ in *.
        change (gen_branch (Piece a q b) n (Some k)) with (gen_piece a q n (Some 0%nat) ++ gen_branch b (n + groups_atom a) (Some k)) in A.
        apply at_app in A as [A1 A2]. rewrite gen_piece_length in A2 by auto.
        rewrite DB. change (W_branch (Piece a q b) n) with (fun i => and_then (times t q (W_atom a n) i) (W_branch b (n + groups_atom a))).
        eapply (sat_seq p (p + (size_piece a q + 0)) _ (times t q (W_atom a n)) (W_branch b (n + groups_atom a))); auto; try tauto.
        * eapply ranged_false. apply (proj2 (proj2 ways_range) b G3).
        * apply sat_piece; auto.
          -- destruct q as [ | [ | ] | [ | ] | [ | ]]; auto.
          -- rewrite Nat.add_0_r. eapply entry_branch; eauto.
        * replace (p + (size_piece a q + size_branch b + k))%nat with (p + (size_piece a q + 0) + (size_branch b + k))%nat in * by lia.
          rewrite Nat.add_0_r in *. apply (IHb G3 ASb FNb last); auto; lia.
  Qed.
End Whole.
