(** parse-date always ends, and fails only because of misspelt months. *)
From Coq Require Import ZArith List Bool Lia ZifyBool.
From Verif Require Import Regexp_Model Regexp_Spec Regexp_Sat Regexp_Groups Dates_Model Dates_Spec Dates_Proofs Dates_Scan Dates_Tokens Dates_Parse Dates_Whole.
Import ListNotations.
Open Scope Z_scope.

Lemma opened_some : forall n a l, In (Opened n a) l -> last_opened n l <> None.
Proof.
  induction l as [ | e l IH]; intros I; [destruct I | ]. cbn [last_opened]. destruct I as [-> | I].
  - rewrite Nat.eqb_refl. destruct (last_opened n l); discriminate.
  - specialize (IH I). destruct (last_opened n l); [discriminate | congruence].
Qed.

Section Total.
  Variable beyond : Z -> Z.
  Variable prefix : Z.
  Variable t : list Z.
  Hypothesis C : Forall char t.
  Notation len := (Z.of_nat (length t)).

  Section Ways.
    Variable nocase : bool.
    Variable i : Z.
    Hypothesis Hi : 0 <= i <= len.
    Notation ways := (ways t nocase (i =? 0)).
    Notation W := (ways_branch t nocase (i =? 0)).

    Lemma piece_in : forall a q b n p j ev, In (j, ev) (W (Piece a q b) n p) ->
      exists e ev1 ev2, In (e, ev1) (times t q (ways_atom t nocase (i =? 0) a n) p) /\ In (j, ev2) (W b (n + groups_atom a) e) /\ ev = ev1 ++ ev2.
    Proof.
      intros a q b n p j ev I. change (W (Piece a q b) n p) with (and_then (times t q (ways_atom t nocase (i =? 0) a n) p) (W b (n + groups_atom a))) in I.
      unfold and_then in I. apply in_flat_map in I. destruct I as ([e ev1] & I1 & I2). apply in_map_iff in I2. destruct I2 as ([j' ev2] & E & I2).
      cbn [fst snd] in E. injection E as <- <-. exists e, ev1, ev2. auto.
    Qed.
    Lemma grp_piece_in : forall r b n p j ev, In (j, ev) (W (Piece (Grp r) One b) n p) ->
      exists e ev2, In (j, ev2) (W b (n + groups_atom (Grp r)) e) /\ In (Opened n p) ev /\ incl ev2 ev.
    Proof.
      intros r b n p j ev I. apply piece_in in I. destruct I as (e & ev1 & ev2 & I1 & I2 & ->). exists e, ev2. split; [exact I2 | ].
      split; [ | intros x Ix; apply in_or_app; now right]. apply in_or_app. left.
      change (times t One (ways_atom t nocase (i =? 0) (Grp r) n) p) with
        (map (fun w : way => (fst w, Opened n p :: snd w ++ [Closed n (fst w)])) (ways r (S n) p)) in I1.
      apply in_map_iff in I1. destruct I1 as ([e' ev'] & E & _). injection E as _ <-. now left.
    Qed.
    Lemma any_piece_in : forall a q b n p j ev, In (j, ev) (W (Piece a q b) n p) ->
      exists e ev2, In (j, ev2) (W b (n + groups_atom a) e) /\ incl ev2 ev.
    Proof.
      intros a q b n p j ev I. apply piece_in in I. destruct I as (e & ev1 & ev2 & I1 & I2 & ->). exists e, ev2. split; [exact I2 | ].
      intros x Ix; apply in_or_app; now right.
    Qed.

    (** What a match says *)
    Definition data (r : regex) (sp ep : list (option Z)) : Prop :=
      (exists j, nth 0 ep None = Some j /\ i <= j <= len /\ (width r = true -> i < j)) /\
      forall n, (1 <= n <= 9)%nat ->
        (nth n sp None = None /\ nth n ep None = None) \/
        exists a b r', nth n sp None = Some a /\ nth n ep None = Some b /\ i <= a <= b /\ b <= len /\
          nth_group r 1 n = Some r' /\ matches t nocase (i =? 0) r' a b.
    Lemma found_data : forall r sp ep, good r -> found t nocase r i = Some (sp, ep) ->
      data r sp ep /\ exists j ev, In (j, ev) (ways r 1 i) /\ sp = match_starts i ev.
    Proof.
      intros r sp ep G F. unfold found in F. destruct (ways r 1 i) as [ | [j ev] l] eqn:E; [discriminate | ]. injection F as <- <-.
      assert (I : In (j, ev) (ways r 1 i)) by (rewrite E; now left).
      destruct (proj1 (proj2 (ways_range t (fun _ => 0) nocase i C Hi)) r G 1%nat i j ev ltac:(lia) I) as [R1 R2].
      split; [split | exists j, ev; split; [now left | reflexivity]].
      - exists j. split; [reflexivity | ]. split; [lia | exact R2].
      - intros n Hn. pose proof (proj1 (proj2 (ways_turns t nocase i C Hi (fun _ => 0))) r G 1%nat n i j ev ltac:(lia) I) as T.
        apply turns_last in T. rewrite <- opened_only, <- closed_only in T.
        assert (N1 : nth n (match_starts i ev) None = last_opened n ev) by (do 10 (destruct n as [ | n]; [lia || reflexivity | ]); lia).
        assert (N2 : nth n (match_ends j ev) None = last_closed n ev) by (do 10 (destruct n as [ | n]; [lia || reflexivity | ]); lia).
        rewrite N1, N2. destruct T as [T | (a & b & -> & -> & I1 & I2 & I3)]; [left; exact T | right].
        destruct (nth_group r 1 n) as [r' | ] eqn:NG; [ | destruct I3]. exists a, b, r'. repeat split; auto; lia.
    Qed.
    Lemma group_set : forall r sp ep n, data r sp ep -> (1 <= n <= 9)%nat -> nth n sp None <> None ->
      exists a b r', pos sp n = Ok a /\ pos ep n = Ok b /\ i <= a <= b /\ b <= len /\ nth_group r 1 n = Some r' /\ matches t nocase (i =? 0) r' a b.
    Proof.
      intros r sp ep n [_ D] Hn N. destruct (D n Hn) as [[E _] | (a & b & r' & E1 & E2 & H)]; [congruence | ].
      exists a, b, r'. unfold pos. rewrite E1, E2. auto.
    Qed.
    Lemma starts_set : forall ev n a, (1 <= n <= 9)%nat -> In (Opened n a) ev -> nth n (match_starts i ev) None <> None.
    Proof.
      intros ev n a Hn I. apply opened_some in I. do 10 (destruct n as [ | n]; [lia || exact I | ]). lia.
    Qed.
  End Ways.

  Lemma same_pos_cases : forall nocase r sp ep n i, data nocase i r sp ep -> (1 <= n <= 9)%nat ->
    same_pos (nth n sp None) (nth n ep None) = true \/ exists a b, pos sp n = Ok a /\ pos ep n = Ok b /\ a <= b.
  Proof.
    intros nocase r sp ep n i [_ D] Hn. destruct (D n Hn) as [[-> ->] | (a & b & r' & E1 & E2 & H & _)]; [left; reflexivity | ].
    right. exists a, b. unfold pos. rewrite E1, E2. split; [reflexivity | ]. split; [reflexivity | lia].
  Qed.
  Lemma sub_char : forall a b, Forall char (sub t a b).
  Proof.
    intros a b. apply Forall_forall. intros x I. unfold sub in I. apply (proj1 (Forall_forall char t) C).
    rewrite <- (firstn_skipn (Z.to_nat a) t). apply in_or_app. right. rewrite <- (firstn_skipn (Z.to_nat (b - a)) (skipn (Z.to_nat a) t)). apply in_or_app. now left.
  Qed.
End Total.

Section Total2.
  Variable beyond : Z -> Z.
  Variable prefix : Z.

  Lemma timezone_total : forall tz, Forall char tz -> exists f0 z, forall f, (f0 <= f)%nat -> parse_timezone beyond f tz = Ok z.
  Proof.
    intros tz C. unfold parse_timezone. destruct (assoc tz timezone_alist) as [z | ]; [exists 0%nat, z; auto | ].
    destruct (looks beyond r_offset re_offset tz 0 false eq_refl (offset_fits _ _ C) ltac:(lia)) as (f0 & H).
    destruct (found tz false r_offset 0) as [[sp ep] | ] eqn:F.
    - destruct (found_data tz C false 0 ltac:(lia) r_offset sp ep (proj1 (proj2 (offset_fits tz false C))) F) as (D & j & ev & I & ->).
      unfold r_offset in I. rewrite ways_alt1 in I. apply any_piece_in in I. destruct I as (e & ev1 & I & S1).
      apply grp_piece_in in I. destruct I as (e2 & ev2 & I & O1 & S2). apply grp_piece_in in I. destruct I as (e3 & ev3 & _ & O2 & _).
      destruct (group_set tz false 0 _ _ _ 1 D ltac:(lia) (starts_set tz 0 ev 1 e ltac:(lia) (S1 _ O1))) as (a1 & b1 & _ & P1 & P2 & _).
      destruct (group_set tz false 0 _ _ _ 2 D ltac:(lia) (starts_set tz 0 ev 2 _ ltac:(lia) (S1 _ (S2 _ O2)))) as (a2 & b2 & _ & P3 & P4 & _).
      exists f0. eexists. intros f Hf. rewrite (H f Hf). cbn [bind]. unfold group. rewrite P1, P2, P3, P4. cbn [bind]. reflexivity.
    - exists f0, 0. intros f Hf. rewrite (H f Hf). reflexivity.
  Qed.

  Variable t : list Z.
  Hypothesis C : Forall char t.
  Notation len := (Z.of_nat (length t)).
  Notation step f := (parse_step beyond f prefix t).

  (** Names of months *)
  Lemma alts_matches : forall l m a b i, matches t true i (alts m l) a b -> exists x, In x (m :: l) /\ literal t true x a = true /\ b = a + Z.of_nat (length x).
  Proof.
    assert (L : forall m a b i, matches_branch t true i (P (Lit m) One Nil) a b -> literal t true m a = true /\ b = a + Z.of_nat (length m)).
    { intros m a b i M. inversion M as [ | a' q b' i' j k Mp Mb]; subst. inversion Mb; subst. inversion Mp as [a'' i'' j'' Ma | | | | |]; subst. inversion Ma; subst. auto. }
    induction l as [ | m' l IH]; intros m a b i M; cbn [alts] in M.
    - inversion M; subst. destruct (L _ _ _ _ H0). exists m. split; [now left | auto].
    - inversion M as [ | b' r i' j M' | b' r i' j M']; subst.
      + destruct (L _ _ _ _ M'). exists m. split; [now left | auto].
      + destruct (IH _ _ _ _ M') as (x & I & H). exists x. split; [now right | exact H].
  Qed.
  Lemma upper_lower : forall a b, upper a = upper b -> lower [a] = lower [b].
  Proof.
    intros a b. unfold upper, lower. cbn [map]. intros H. f_equal.
    destruct ((97 <=? a) && (a <=? 122)) eqn:A1, ((97 <=? b) && (b <=? 122)) eqn:B1, ((65 <=? a) && (a <=? 90)) eqn:A2, ((65 <=? b) && (b <=? 90)) eqn:B2; lia.
  Qed.
  Lemma literal_lower : forall x a, 0 <= a -> literal t true x a = true -> lower (sub t a (a + Z.of_nat (length x))) = lower x.
  Proof.
    assert (G : forall x (pre s : list Z), t = pre ++ s -> literal t true x (Z.of_nat (length pre)) = true -> lower (firstn (length x) s) = lower x).
    { induction x as [ | c x IH]; intros pre s E H; [reflexivity | ]. cbn [literal] in H.
      rewrite (at_char t _ s) in H by (exists pre; auto). destruct s as [ | y s]; [discriminate | ]. cbn [hd_error] in H.
      apply andb_true_iff in H. destruct H as [H1 H2]. cbn [length firstn].
      change (lower (y :: firstn (length x) s)) with (lower [y] ++ lower (firstn (length x) s)). change (lower (c :: x)) with (lower [c] ++ lower x).
      f_equal.
      - symmetry. apply upper_lower. unfold eqc in H1. lia.
      - apply (IH (pre ++ [y]) s); [now rewrite <- app_assoc | ]. rewrite app_length. cbn [length].
        replace (Z.of_nat (length pre + 1)) with (Z.of_nat (length pre) + 1) by lia. exact H2. }
    intros x a Ha H. unfold sub. replace (Z.to_nat (a + Z.of_nat (length x) - a)) with (length x) by lia.
    destruct (Nat.le_gt_cases (Z.to_nat a) (length t)) as [L | L].
    - apply (G x (firstn (Z.to_nat a) t)); [symmetry; apply firstn_skipn | ]. rewrite firstn_length_le by lia. rewrite Z2Nat.id by lia. exact H.
    - destruct x as [ | c x]; [reflexivity | ]. cbn [literal] in H. unfold char_at in H. destruct (Z.ltb_spec a 0); [discriminate | ].
      rewrite (proj2 (nth_error_None t (Z.to_nat a))) in H by lia. discriminate.
  Qed.
  Lemma str_eqb_eq : forall a b, str_eqb a b = true -> a = b.
  Proof.
    induction a as [ | x a IH]; intros [ | y b] H; try discriminate; [reflexivity | ]. cbn [str_eqb] in H. apply andb_true_iff in H. destruct H as [H1 H2].
    f_equal; [lia | now apply IH].
  Qed.
  Lemma month_in_order : forall x, In x ([74; 97; 110] :: months_in_order) -> exists m, 1 <= m <= 12 /\ x = month_name m.
  Proof.
    intros x I.
    assert (G : forallb (fun y => existsb (fun m => str_eqb y (month_name m)) [1; 2; 3; 4; 5; 6; 7; 8; 9; 10; 11; 12]) ([74; 97; 110] :: months_in_order) = true) by (vm_compute; reflexivity).
    rewrite forallb_forall in G. specialize (G x I). apply existsb_exists in G. destruct G as (m & Im & E). exists m. split; [cbn in Im; lia | ].
    now apply str_eqb_eq.
  Qed.

  Lemma digits_width : forall i a b, matches t false i (Alt1 (P dg plus Nil)) a b -> a < b.
  Proof.
    assert (S : forall i a b, matches_piece t false i dg (Star Greedy) a b -> a <= b).
    { intros i a b M. remember (Star Greedy) as q. remember dg as x. induction M; subst; try discriminate; try lia.
      match goal with H : matches_atom _ _ _ dg _ _ |- _ => inversion H; subst end. specialize (IHM Heqq eq_refl). lia. }
    intros i a b M. inversion M as [b' i' j Mb | |]; subst. inversion Mb as [ | a' q b' i' j k Mp Mn]; subst. inversion Mn; subst.
    inversion Mp as [ | | | | | a' h i' j' k Ma Ms]; subst. inversion Ma; subst. apply S in Ms. lia.
  Qed.

  Definition bad (v : vars) : Prop := v_month v = None -> misspelt t.

  Lemma step_total : forall i v, 0 <= i < len -> bad v ->
    exists f0 v' i', (forall f, (f0 <= f)%nat -> step f i v = Ok (v', i')) /\ i < i' <= len /\ bad v'.
  Proof.
    intros i v Hi B.
    destruct (looks beyond r_number re_number t i false eq_refl (number_fits _ _ C) ltac:(lia)) as (f1 & H1).
    destruct (looks beyond r_time re_time t i false eq_refl (time_fits _ _ C) ltac:(lia)) as (f2 & H2).
    destruct (looks beyond r_day re_day t i true eq_refl (day_fits _ _ C) ltac:(lia)) as (f3 & H3).
    destruct (looks beyond r_month re_month t i true eq_refl (month_fits _ _ C) ltac:(lia)) as (f4 & H4).
    destruct (looks beyond r_iso re_iso t i false eq_refl (iso_fits _ _ C) ltac:(lia)) as (f5 & H5).
    unfold parse_step.
    destruct (found t false r_number i) as [[sp ep] | ] eqn:F1.
    { destruct (found_data t C false i ltac:(lia) r_number sp ep (proj1 (proj2 (number_fits t false C))) F1) as (D & j & ev & I & ->).
      unfold r_number in I. rewrite ways_alt1 in I. apply any_piece_in in I. destruct I as (e & ev1 & I & S1).
      apply grp_piece_in in I. destruct I as (e2 & ev2 & _ & O1 & _).
      destruct (group_set t false i _ _ _ 1 D ltac:(lia) (starts_set t i ev 1 _ ltac:(lia) (S1 _ O1))) as (a & b & r' & P1 & P2 & R1 & R2 & N & M).
      injection N as <-. apply digits_width in M.
      exists f1. eexists. eexists. split; [intros f Hf; rewrite (H1 f Hf); cbn [bind]; rewrite P1, P2; cbn [bind]; reflexivity | ].
      split; [lia | ]. unfold bad. destruct ((0 <=? v_day v) || (2 <? b - a)); exact B. }
    destruct (found t false r_time i) as [[sp ep] | ] eqn:F2.
    { destruct (found_data t C false i ltac:(lia) r_time sp ep (proj1 (proj2 (time_fits t false C))) F2) as (D & j & ev & I & ->).
      unfold r_time in I. rewrite ways_alt1 in I. apply any_piece_in in I. destruct I as (e & ev1 & I & S1).
      apply grp_piece_in in I. destruct I as (e2 & ev2 & I & O1 & S2). apply any_piece_in in I. destruct I as (e3 & ev3 & I & S3).
      apply grp_piece_in in I. destruct I as (e4 & ev4 & _ & O2 & _).
      destruct (group_set t false i _ _ _ 1 D ltac:(lia) (starts_set t i ev 1 _ ltac:(lia) (S1 _ O1))) as (a1 & b1 & _ & P1 & P2 & _).
      destruct (group_set t false i _ _ _ 2 D ltac:(lia) (starts_set t i ev 2 _ ltac:(lia) (S1 _ (S2 _ (S3 _ O2))))) as (a2 & b2 & _ & P3 & P4 & _).
      pose proof (same_pos_cases t false _ _ _ 3 i D ltac:(lia)) as Q3. pose proof (same_pos_cases t false _ _ _ 4 i D ltac:(lia)) as Q4.
      destruct D as [(j' & J & Rj & Wj) _]. specialize (Wj eq_refl). set (sp := match_starts i ev) in *.
      assert (X3 : exists z, (if same_pos (nth 3 sp None) (nth 3 ep None) then Ok 0 else
                    (let* a := pos sp 3 in let* b := pos ep 3 in Ok (decimal (sub t (a + 1) b)))) = Ok z).
      { destruct Q3 as [-> | (a & b & -> & -> & _)]; [eexists; reflexivity | ]. destruct (same_pos (nth 3 sp None) (nth 3 ep None)); eexists; reflexivity. }
      assert (X4 : exists z, (if same_pos (nth 4 sp None) (nth 4 ep None) then Ok [85; 84] else group t sp ep 4) = Ok z /\ Forall char z).
      { assert (U : Forall char [85; 84]) by (repeat constructor; unfold char; lia).
        destruct Q4 as [-> | (a & b & Pa & Pb & _)]; [eexists; split; [reflexivity | exact U] | ]. unfold group. rewrite Pa, Pb.
        destruct (same_pos (nth 4 sp None) (nth 4 ep None)); eexists; (split; [reflexivity | ]); [exact U | apply sub_char, C]. }
      destruct X3 as (ss & X3). destruct X4 as (z & X4 & Cz). destruct (timezone_total z Cz) as (fz & zn & Z).
      exists (f1 + f2 + fz)%nat. eexists. eexists. split.
      - intros f Hf. rewrite (H1 f ltac:(lia)). cbn [bind]. rewrite (H2 f ltac:(lia)). cbn [bind].
        replace (pos ep 0) with (Ok j') by (unfold pos; now rewrite J). unfold group in *. rewrite P1, P2, P3, P4. cbn [bind].
        rewrite X3. cbn [bind]. rewrite X4. cbn [bind]. rewrite (Z f ltac:(lia)). cbn [bind]. reflexivity.
      - split; [lia | exact B]. }
    destruct (found t true r_day i) as [[sp ep] | ] eqn:F3.
    { destruct (found_data t C true i ltac:(lia) r_day sp ep (proj1 (proj2 (day_fits t true C))) F3) as (D & j & ev & I & ->).
      unfold r_day in I. rewrite ways_alt1 in I. apply any_piece_in in I. destruct I as (e & ev1 & I & S1).
      apply grp_piece_in in I. destruct I as (e2 & ev2 & _ & O1 & _).
      destruct (group_set t true i _ _ _ 1 D ltac:(lia) (starts_set t i ev 1 _ ltac:(lia) (S1 _ O1))) as (a & b & r' & P1 & P2 & _).
      destruct D as [(j' & J & Rj & Wj) _]. specialize (Wj eq_refl).
      exists (f1 + f2 + f3)%nat. eexists. eexists. split.
      - intros f Hf. rewrite (H1 f ltac:(lia)). cbn [bind]. rewrite (H2 f ltac:(lia)). cbn [bind]. rewrite (H3 f ltac:(lia)). cbn [bind].
        unfold group. rewrite P1, P2. cbn [bind]. replace (pos ep 0) with (Ok j') by (unfold pos; now rewrite J). cbn [bind]. reflexivity.
      - split; [lia | exact B]. }
    destruct (found t true r_month i) as [[sp ep] | ] eqn:F4.
    { destruct (found_data t C true i ltac:(lia) r_month sp ep (proj1 (proj2 (month_fits t true C))) F4) as (D & j & ev & I & ->).
      unfold r_month in I. rewrite ways_alt1 in I. apply any_piece_in in I. destruct I as (e & ev1 & I & S1).
      apply grp_piece_in in I. destruct I as (e2 & ev2 & _ & O1 & _).
      destruct (group_set t true i _ _ _ 1 D ltac:(lia) (starts_set t i ev 1 _ ltac:(lia) (S1 _ O1))) as (a & b & r' & P1 & P2 & R1 & R2 & N & M).
      injection N as <-. pose proof (alts_matches months_in_order [74; 97; 110] a b _ M) as M'. clear M. rename M' into M. destruct M as (x & Ix & Lx & Eb). destruct (month_in_order x Ix) as (m & Hm & ->).
      pose proof (literal_lower _ a ltac:(lia) Lx) as LL.
      assert (L3 : Z.of_nat (length (month_name m)) = 3) by (destruct (month_letter m Hm) as (c & l & -> & _ & L); cbn [length]; lia). rewrite L3 in *. subst b.
      destruct D as [(j' & J & Rj & Wj) _]. specialize (Wj eq_refl).
      exists (f1 + f2 + f3 + f4)%nat. eexists. eexists. split.
      - intros f Hf. rewrite (H1 f ltac:(lia)). cbn [bind]. rewrite (H2 f ltac:(lia)). cbn [bind]. rewrite (H3 f ltac:(lia)). cbn [bind].
        rewrite (H4 f ltac:(lia)). cbn [bind].
        unfold group. rewrite P1, P2. cbn [bind]. replace (pos ep 0) with (Ok j') by (unfold pos; now rewrite J). cbn [bind]. reflexivity.
      - split; [lia | ]. unfold bad. cbn [v_month]. intros E. exists a, m. split; [exact Hm | ]. split; [exact LL | ].
        intros E'. rewrite E', (month_assoc m Hm) in E. discriminate. }
    destruct (found t false r_iso i) as [[sp ep] | ] eqn:F5.
    { destruct (found_data t C false i ltac:(lia) r_iso sp ep (proj1 (proj2 (iso_fits t false C))) F5) as (D & j & ev & I & ->).
      unfold r_iso in I. rewrite ways_alt1 in I. apply any_piece_in in I. destruct I as (e & ev1 & I & S1).
      apply grp_piece_in in I. destruct I as (e2 & ev2 & I & O1 & S2). apply any_piece_in in I. destruct I as (e3 & ev3 & I & S3).
      apply grp_piece_in in I. destruct I as (e4 & ev4 & I & O2 & S4). apply any_piece_in in I. destruct I as (e5 & ev5 & I & S5).
      apply grp_piece_in in I. destruct I as (e6 & ev6 & _ & O3 & _).
      destruct (group_set t false i _ _ _ 1 D ltac:(lia) (starts_set t i ev 1 _ ltac:(lia) (S1 _ O1))) as (a1 & b1 & _ & P1 & P2 & _).
      destruct (group_set t false i _ _ _ 2 D ltac:(lia) (starts_set t i ev 2 _ ltac:(lia) (S1 _ (S2 _ (S3 _ O2))))) as (a2 & b2 & _ & P3 & P4 & _).
      destruct (group_set t false i _ _ _ 3 D ltac:(lia) (starts_set t i ev 3 _ ltac:(lia) (S1 _ (S2 _ (S3 _ (S4 _ (S5 _ O3))))))) as (a3 & b3 & _ & P5 & P6 & _).
      destruct D as [(j' & J & Rj & Wj) _]. specialize (Wj eq_refl).
      exists (f1 + f2 + f3 + f4 + f5)%nat. eexists. eexists. split.
      - intros f Hf. rewrite (H1 f ltac:(lia)). cbn [bind]. rewrite (H2 f ltac:(lia)). cbn [bind]. rewrite (H3 f ltac:(lia)). cbn [bind].
        rewrite (H4 f ltac:(lia)). cbn [bind]. rewrite (H5 f ltac:(lia)). cbn [bind].
        unfold group. rewrite P1, P2, P3, P4, P5, P6. cbn [bind]. replace (pos ep 0) with (Ok j') by (unfold pos; now rewrite J). cbn [bind]. reflexivity.
      - split; [lia | ]. unfold bad. cbn [v_month]. discriminate. }
    exists (f1 + f2 + f3 + f4 + f5)%nat, v, len. split.
    - intros f Hf. rewrite (H1 f ltac:(lia)). cbn [bind]. rewrite (H2 f ltac:(lia)). cbn [bind]. rewrite (H3 f ltac:(lia)). cbn [bind].
      rewrite (H4 f ltac:(lia)). cbn [bind]. rewrite (H5 f ltac:(lia)). reflexivity.
    - split; [lia | exact B].
  Qed.

  Lemma loop_total : forall k i v, 0 <= i -> len - i <= Z.of_nat k -> bad v -> exists v', Steps beyond prefix t i v v' /\ bad v'.
  Proof.
    assert (E : forall i v, len <= i -> Steps beyond prefix t i v v).
    { intros i v H. exists 0%nat. intros f n _ _. destruct n; cbn [parse_loop]; destruct (Z.ltb_spec i len); auto; lia. }
    induction k as [ | k IH]; intros i v Hi K B.
    - exists v. split; [apply E; lia | exact B].
    - destruct (Z.ltb_spec i len) as [L | L]; [ | exists v; split; [apply E; lia | exact B]].
      destruct (step_total i v ltac:(lia) B) as (f0 & v1 & i1 & H & R & B1). destruct (IH i1 v1 ltac:(lia) ltac:(lia) B1) as (v' & (f1 & H') & B').
      exists v'. split; [ | exact B']. exists (S (f0 + f1)). intros f n Hf Hn. destruct n as [ | n]; [lia | ]. cbn [parse_loop].
      destruct (Z.ltb_spec i len); [ | lia]. rewrite (H f ltac:(lia)). cbn [bind]. apply H'; lia.
  Qed.

  Lemma parse_total : forall now i, 0 <= i ->
    exists f0 r, (forall f n, (f0 <= f)%nat -> (f0 <= n)%nat -> parse_date beyond f prefix now n t i = r) /\
      ((exists x, r = Ok x) \/ r = Err /\ misspelt t).
  Proof.
    intros now i Hi. destruct (loop_total (Z.to_nat len) i vars0 Hi ltac:(lia) ltac:(discriminate)) as (v & (f0 & H) & B).
    exists f0. eexists. split.
    - intros f n Hf Hn. unfold parse_date. rewrite (H f n Hf Hn). cbn [bind]. reflexivity.
    - unfold finish. destruct now as [[ny nm] nd]. destruct (v_month v) as [m | ] eqn:E; [left; eexists; reflexivity | ]. right. split; [reflexivity | exact (B E)].
  Qed.
End Total2.
