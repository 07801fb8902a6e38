(** parse-date on whole dates. *)
From Coq Require Import ZArith List Bool Lia ZifyBool.
From Verif Require Import Regexp_Model Regexp_Spec Dates_Model Dates_Spec Dates_Proofs Dates_Scan Dates_Tokens Dates_Parse.
Import ListNotations.
Open Scope Z_scope.

Lemma number_nonneg : forall s, Forall is_digit s -> 0 <= number s.
Proof.
  induction s as [ | c s IH]; intros F; [cbn; lia | ]. inversion F as [ | x l Fc Fs]; subst. cbn [number]. unfold is_digit in Fc.
  specialize (IH Fs). pose proof (Z.pow_pos_nonneg 10 (Z.of_nat (length s)) ltac:(lia) ltac:(lia)). nia.
Qed.
Lemma starts_app : forall p xs s, xs <> [] -> allb p xs -> starts p (xs ++ s) = true.
Proof. intros p [ | x xs] s N F; [congruence | ]. inversion F; assumption. Qed.
Lemma gap_starts : forall g s, gap g -> starts blankb (g ++ s) = true.
Proof. intros g s [N F]. apply starts_app; auto using blanks_allb. Qed.
Lemma starts_digits : forall p ds s, digits ds -> (forall c, digitb c = true -> p c = false) -> starts p (ds ++ s) = false.
Proof. intros p [ | d ds] s [N F] H; [congruence | ]. apply digits_allb in F. inversion F; subst. cbn [starts app]. auto. Qed.
Ltac dgt := apply starts_digits; [assumption | intros ? ?; cc].
Lemma starts_month : forall p mt m s, month_text mt m -> (forall c, upperb c = true -> p c = false) -> starts p (mt ++ s) = false.
Proof.
  intros p mt m s H Hp. destruct H as [m tl b2 Hm Ft F2]. destruct (month_letter m Hm) as (c & l & -> & U & _). cbn [app starts]. auto.
Qed.

(** All characters are proper ones *)
Lemma digits_char : forall s, Forall is_digit s -> Forall char s.
Proof. intros s. apply Forall_impl. unfold is_digit, char. intros; lia. Qed.
Lemma blanks_char : forall s, blanks s -> Forall char s.
Proof. intros s. apply Forall_impl. unfold is_blank, char. intros; lia. Qed.
Lemma lower_char : forall s, Forall lower_case s -> Forall char s.
Proof. intros s. apply Forall_impl. unfold lower_case, char. intros; lia. Qed.
Lemma upper_char : forall s, allb upperb s -> Forall char s.
Proof. intros s. apply Forall_impl. unfold upperb, char. intros; lia. Qed.
Lemma day_name_char : forall w, Forall char (day_name w).
Proof. intros w. unfold day_name. do 7 (destruct w as [ | w]; [repeat constructor; unfold char; lia | ]). destruct w; constructor. Qed.
Lemma month_name_char : forall m, 1 <= m <= 12 -> Forall char (month_name m).
Proof.
  intros m H. destruct (month_cases m H) as [->|[->|[->|[->|[->|[->|[->|[->|[->|[->|[->| ->]]]]]]]]]]]; cbn; repeat constructor; unfold char; lia.
Qed.
Lemma zone_char : forall zn tz, zone_text zn tz -> Forall char zn.
Proof.
  intros zn tz H. destruct H as [ | b z tz Hb Hz]; [constructor | ]. apply Forall_app. split; [now apply blanks_char | ].
  destruct (zone_shape z tz Hz) as [[_ F] | (c & ds & -> & Cz & _ & F)]; [now apply upper_char | ].
  constructor; [unfold signb, char in *; lia | ]. apply (Forall_impl char) with (2 := F). intros a. unfold digitb, char. lia.
Qed.
Lemma sec_char : forall sec s, sec_text sec s -> Forall char sec.
Proof. intros sec s [ | ss [_ F]]; constructor; [unfold char; lia | now apply digits_char]. Qed.
Lemma weekday_char : forall wt w, weekday_text wt w -> Forall char wt.
Proof.
  intros wt w H. destruct H as [ | w tl b2 cm b3 Hw Ft F2 F3 Hc]; [constructor | ].
  repeat (apply Forall_app; split); auto using day_name_char, lower_char, blanks_char.
  destruct Hc as [-> | [-> ->]]; repeat constructor; unfold char; lia.
Qed.
Lemma month_char : forall mt m, month_text mt m -> Forall char mt.
Proof.
  intros mt m H. destruct H as [m tl b2 Hm Ft F2]. repeat (apply Forall_app; split); auto using month_name_char, lower_char, blanks_char.
Qed.
Lemma clock_char : forall ct h mi s tz, clock_text ct h mi s tz -> Forall char ct.
Proof.
  intros ct h mi s tz H. destruct H as [hh mm sec s zn tz [_ Fh] [_ Fm] Hs Hz].
  repeat ((apply Forall_app; split) || (constructor; [unfold char; lia | ])); eauto using digits_char, sec_char, zone_char.
Qed.

Ltac regroup := repeat (rewrite <- app_assoc || rewrite <- app_comm_cons).
Ltac chars := repeat ((apply Forall_app; split) || (constructor; [unfold char; lia | ]));
  eauto using digits_char, blanks_char, weekday_char, month_char, clock_char.

Section Whole.
  Variable beyond : Z -> Z.
  Variable prefix : Z.
  Variable now : Z * Z * Z.
  Hypothesis Hp : 0 <= prefix.
  Notation Steps := (Steps beyond prefix).

  (** The clock, at the end or followed by digits *)
  Lemma steps_clock : forall t i b ct h mi s tz b3 r v v', Forall char t -> at_ t i (b ++ ct ++ b3 ++ r) ->
    blanks b -> clock_text ct h mi s tz -> blanks b3 -> r = [] ->
    Steps t (i + Z.of_nat (length (b ++ ct ++ b3))) (with_time v h mi s tz) v' -> Steps t i v v'.
  Proof.
    intros t i b ct h mi s tz b3 r v v' C A Fb Hc F3 -> H. destruct Hc as [hh mm sec s zn tz Dh Dm Hs Hz].
    assert (A' : at_ t i (b ++ hh ++ 58 :: mm ++ sec ++ zn ++ b3 ++ [])).
    { revert A. regroup. auto. }
    assert (exists c l, b ++ hh ++ 58 :: mm ++ sec ++ zn ++ b3 ++ [] = c :: l) as (c & l & E).
    { destruct b as [ | x b]; [ | eexists; eexists; reflexivity]. destruct Dh as [Nh _]. destruct hh as [ | x hh]; [congruence | ]. eexists; eexists; reflexivity. }
    eapply (steps_cons beyond prefix t i c l); [rewrite <- E; exact A' | | exact H].
    replace (b ++ (hh ++ 58 :: mm ++ sec ++ zn) ++ b3) with (b ++ hh ++ 58 :: mm ++ sec ++ zn ++ b3) by (now regroup).
    eapply step_time; eauto. rewrite app_nil_r. destruct b3 as [ | x b3]; [reflexivity | ]. apply blanks_allb in F3. inversion F3; subst. cbn [starts]. cc.
  Qed.

  (** A day of the week or nothing *)
  Lemma steps_weekday : forall t i b wt w r v v', Forall char t -> at_ t i (b ++ wt ++ r) -> blanks b -> weekday_text wt w ->
    starts lowerb r = false -> starts blankb r = false -> starts (Z.eqb 44) r = false ->
    (forall b', at_ t (i + Z.of_nat (length (b ++ wt)) - Z.of_nat (length b')) (b' ++ r) -> blanks b' ->
       Steps t (i + Z.of_nat (length (b ++ wt)) - Z.of_nat (length b')) (match w with [] => v | _ => with_day v w end) v') ->
    Steps t i v v'.
  Proof.
    intros t i b wt w r v v' C A Fb Hw Sl Sb Sc H. destruct Hw as [ | w tl b2 cm b3 Lw Ft F2 F3 Hc].
    - specialize (H b). rewrite app_nil_r in H. replace (i + Z.of_nat (length b) - Z.of_nat (length b)) with i in H by lia. apply H; assumption.
    - specialize (H []). cbn [length app] in H. rewrite Z.sub_0_r in H.
      destruct (day_letter w Lw) as (c & l & En & _).
      assert (E : match day_name w with [] => v | _ => with_day v (day_name w) end = with_day v (day_name w)) by (rewrite En; reflexivity).
      rewrite E in H.
      assert (exists c' l', b ++ (day_name w ++ tl ++ b2 ++ cm ++ b3) ++ r = c' :: l') as (c' & l' & E').
      { rewrite En. destruct b; eexists; eexists; reflexivity. }
      eapply (steps_cons beyond prefix t i c' l'); [rewrite <- E'; exact A | | ].
      + apply (step_day beyond prefix t C i b w tl b2 cm b3 r v); auto.
        * revert A. regroup. auto.
        * destruct Hc as [-> | [-> ->]]; auto.
      + apply H; [ | constructor]. apply at_app. revert A. regroup. auto.
  Qed.

  Lemma steps_number : forall t i b ds r v v', Forall char t -> at_ t i (b ++ ds ++ r) -> blanks b -> digits ds -> (r = [] \/ starts blankb r = true) ->
    (at_ t (i + Z.of_nat (length (b ++ ds))) r -> Steps t (i + Z.of_nat (length (b ++ ds))) (with_number prefix v ds) v') -> Steps t i v v'.
  Proof.
    intros t i b ds r v v' C A Fb Fd E H.
    assert (exists c' l', b ++ ds ++ r = c' :: l') as (c' & l' & E').
    { destruct Fd as [N _]. destruct b, ds; try congruence; eexists; eexists; reflexivity. }
    eapply (steps_cons beyond prefix t i c' l'); [rewrite <- E'; exact A | | ].
    - apply (step_number beyond prefix t C i b ds r v); auto.
    - apply H. apply at_app. revert A. regroup. auto.
  Qed.
  Lemma steps_month : forall t i b mt m r v v', Forall char t -> at_ t i (b ++ mt ++ r) -> blanks b -> month_text mt m ->
    starts lowerb r = false -> starts blankb r = false ->
    (at_ t (i + Z.of_nat (length (b ++ mt))) r -> Steps t (i + Z.of_nat (length (b ++ mt))) (with_month v (month_name m) (Some m)) v') -> Steps t i v v'.
  Proof.
    intros t i b mt m r v v' C A Fb Hm Sl Sb H. destruct Hm as [m tl b2 Lm Ft F2].
    destruct (month_letter m Lm) as (c & l & En & _).
    assert (exists c' l', b ++ (month_name m ++ tl ++ b2) ++ r = c' :: l') as (c' & l' & E').
    { rewrite En. destruct b; eexists; eexists; reflexivity. }
    eapply (steps_cons beyond prefix t i c' l'); [rewrite <- E'; exact A | | ].
    - apply (step_month beyond prefix t C i b m tl b2 r v); auto. revert A. regroup. auto.
    - apply H. apply at_app. revert A. regroup. auto.
  Qed.

  Lemma year_number_eq : forall yy, (if Z.of_nat (length yy) =? 2 then 100 * prefix + number yy else number yy) = year_number prefix yy.
  Proof. intros yy. unfold year_number. destruct (Nat.eqb_spec (length yy) 2), (Z.eqb_spec (Z.of_nat (length yy)) 2); auto; lia. Qed.

  (** From the variables to the result *)
  Lemma finish_ok : forall t v w y m d h mi s tz, Steps t 0 vars0 v ->
    v = mkvars w d (Some (month_name m)) (Some m) y h mi s tz -> 0 <= y -> 1 <= m <= 12 -> 0 <= d ->
    exists f0, forall f n, (f0 <= f)%nat -> (f0 <= n)%nat -> reads_as (parse_date beyond f prefix now n t 0) w y m d h mi s tz.
  Proof.
    intros t v w y m d h mi s tz (f0 & H) -> Hy Hm Hd. exists f0. intros f n Hf Hn. unfold parse_date. rewrite (H f n Hf Hn). cbn [bind].
    unfold finish. destruct now as [[ny nm] nd]. cbn [v_year v_month v_day v_hour v_minute v_second v_timezone v_day_abbrev v_month_abbrev].
    destruct (Z.ltb_spec y 0); [lia | ]. destruct (Z.ltb_spec m 0); [lia | ]. destruct (Z.ltb_spec d 0); [lia | ].
    set (tm := epoch_time y m d h mi s tz).
    eexists; exists tm. split; [reflexivity | ]. split.
    - destruct w as [ | c w]; [ | reflexivity]. cbn [str_eqb].
      assert (P : 0 <= fst tm) by (subst tm; unfold epoch_time, fix_time, get_time; cbn [fst]; apply Z.div_pos; [apply Z.mod_pos_bound | ]; lia).
      rewrite (day_of_week_ok tm P), Nat2Z.id. reflexivity.
    - intros V Y. destruct (epoch_time_ok (mkdate y m d) h mi s tz V Y) as (k & E & K). exists k. auto.
  Qed.

  Lemma with_first : forall v dd, v_day v = -1 -> (length dd <= 2)%nat ->
    with_number prefix v dd = mkvars (v_day_abbrev v) (number dd) (v_month_abbrev v) (v_month v) (v_year v) (v_hour v) (v_minute v) (v_second v) (v_timezone v).
  Proof. intros v dd E L. unfold with_number. rewrite E. change (0 <=? -1) with false. cbn [orb]. destruct (Z.ltb_spec 2 (Z.of_nat (length dd))); [lia | reflexivity]. Qed.
  Lemma with_year : forall v yy, 0 <= v_day v ->
    with_number prefix v yy = mkvars (v_day_abbrev v) (v_day v) (v_month_abbrev v) (v_month v) (year_number prefix yy) (v_hour v) (v_minute v) (v_second v) (v_timezone v).
  Proof. intros v yy E. unfold with_number. destruct (Z.leb_spec 0 (v_day v)); [ | lia]. cbn [orb]. now rewrite year_number_eq. Qed.
  Lemma year_nonneg : forall yy, digits yy -> 0 <= year_number prefix yy.
  Proof. intros yy [_ F]. pose proof (number_nonneg yy F). unfold year_number. destruct (Nat.eqb (length yy) 2); lia. Qed.
  Lemma month_range : forall mt m, month_text mt m -> 1 <= m <= 12.
  Proof. intros mt m H. now destruct H. Qed.

  Lemma at_0 : forall t, at_ t 0 t.
  Proof. intros t. exists []. split; reflexivity. Qed.

  Lemma rfc822_ok : forall t w y m d h mi s tz, rfc822 prefix t w y m d h mi s tz ->
    exists f0, forall f n, (f0 <= f)%nat -> (f0 <= n)%nat -> reads_as (parse_date beyond f prefix now n t 0) w y m d h mi s tz.
  Proof.
    assert (G : forall b0 wt w dd g mt m yy rest h mi s tz, blanks b0 -> weekday_text wt w -> digits dd -> (length dd <= 2)%nat -> gap g -> month_text mt m -> digits yy ->
      let t := b0 ++ wt ++ dd ++ g ++ mt ++ yy ++ rest in Forall char rest -> (rest = [] \/ starts blankb rest = true) ->
      (forall i v v', at_ t i rest -> v' = with_time v h mi s tz -> v_hour v = 0 -> v_minute v = 0 -> v_second v = 0 -> v_timezone v = 0 -> Steps t i v v') ->
      exists f0, forall f n, (f0 <= f)%nat -> (f0 <= n)%nat -> reads_as (parse_date beyond f prefix now n t 0) w (year_number prefix yy) m (number dd) h mi s tz).
    { intros b0 wt w dd g mt m yy rest h mi s tz F0 Hw Dd Ld Hg Hm Dy t Cr Sr H.
      assert (C : Forall char t) by (subst t; destruct Dd, Dy, Hg; chars).
      eapply finish_ok; [ | reflexivity | now apply year_nonneg | eapply month_range; eauto | apply number_nonneg, Dd].
      eapply (steps_weekday t 0 b0 wt w (dd ++ g ++ mt ++ yy ++ rest)); auto; [apply at_0 | dgt | dgt | dgt | ].
      intros b' A Fb'. eapply (steps_number t _ b' dd (g ++ mt ++ yy ++ rest)); auto; [right; now apply gap_starts | ].
      intros A1. destruct Hg as [Ng Fg]. eapply (steps_month t _ g mt m (yy ++ rest)); eauto; [dgt | dgt | ].
      intros A2. eapply (steps_number t _ [] yy rest); auto; [constructor | ].
      intros A3. apply H; [exact A3 | | | | | ].
      all: destruct Hw as [ | w tl b2 cm b3 Lw Ft F2 F3 Hc]; [ | destruct (day_letter w Lw) as (c & l & En & _); rewrite En].
      all: rewrite with_year by (cbn; rewrite with_first by (auto; reflexivity); cbn; apply number_nonneg, Dd).
      all: unfold with_month; cbn [v_day_abbrev v_day v_month_abbrev v_month v_year v_hour v_minute v_second v_timezone].
      all: rewrite with_first by (auto; reflexivity). all: reflexivity. }
    intros t w y m d h mi s tz H. destruct H as [b0 wt w dd g mt m yy F0 Hw Dd Ld Hg Hm Dy | b0 wt w dd g mt m yy g2 ct h mi s tz b3 F0 Hw Dd Ld Hg Hm Dy Hg2 Hc F3].
    - pose proof (G b0 wt w dd g mt m yy [] 0 0 0 0 F0 Hw Dd Ld Hg Hm Dy) as G1. cbv zeta in G1. rewrite app_nil_r in G1. apply G1; auto.
      intros i v v' A -> E1 E2 E3 E4. replace (with_time v 0 0 0 0) with v; [now apply steps_end | ]. destruct v; cbn in *; subst; reflexivity.
    - apply (G b0 wt w dd g mt m yy (g2 ++ ct ++ b3) h mi s tz); auto.
      + destruct Hg2; chars.
      + right. now apply gap_starts.
      + intros i v v' A -> _ _ _ _.
        assert (Ct : Forall char (b0 ++ wt ++ dd ++ g ++ mt ++ yy ++ g2 ++ ct ++ b3)) by (destruct Dd, Dy, Hg, Hg2; chars).
        eapply (steps_clock _ i g2 ct h mi s tz b3 []); eauto; [rewrite app_nil_r; exact A | apply Hg2 | ].
        apply steps_end. apply at_app. rewrite app_nil_r. exact A.
  Qed.

  Lemma ctime_ok : forall t w y m d h mi s tz, ctime prefix t w y m d h mi s tz ->
    exists f0, forall f n, (f0 <= f)%nat -> (f0 <= n)%nat -> reads_as (parse_date beyond f prefix now n t 0) w y m d h mi s tz.
  Proof.
    intros t w y m d h mi s tz H. destruct H as [b0 wt w mt m dd g hh mm ss g2 yy F0 Hw Hm Dd Ld Hg Dh Dm Ds Hg2 Dy].
    set (t := b0 ++ wt ++ mt ++ dd ++ g ++ hh ++ 58 :: mm ++ 58 :: ss ++ g2 ++ yy).
    assert (C : Forall char t) by (subst t; destruct Dd, Dy, Hg, Hg2, Dh, Dm, Ds; chars).
    eapply finish_ok; [ | reflexivity | now apply year_nonneg | eapply month_range; eauto | apply number_nonneg, Dd].
    eapply (steps_weekday t 0 b0 wt w (mt ++ dd ++ g ++ hh ++ 58 :: mm ++ 58 :: ss ++ g2 ++ yy)); auto; [apply at_0 | | | | ];
      try (eapply starts_month; [exact Hm | intros; cc]).
    intros b' A Fb'. eapply (steps_month t _ b' mt m _ _ _ C A Fb' Hm); [dgt | dgt | ].
    intros A1. eapply (steps_number t _ [] dd (g ++ hh ++ 58 :: mm ++ 58 :: ss ++ g2 ++ yy)); auto; [constructor | right; now apply gap_starts | ].
    intros A2. destruct Hg as [Ng Fg]. destruct Hg2 as [Ng2 Fg2].
    assert (exists c l, g ++ hh ++ 58 :: mm ++ 58 :: ss ++ g2 ++ yy = c :: l) as (c & l & E) by (destruct g; [congruence | eexists; eexists; reflexivity]).
    eapply (steps_cons beyond prefix t _ c l); [rewrite <- E; exact A2 | | ].
    - apply (step_time beyond prefix t C _ g hh mm (58 :: ss) (number ss) [] 0 g2 yy); auto.
      + now constructor.
      + constructor.
      + rewrite <- (app_nil_r yy). dgt.
      + rewrite <- (app_nil_r yy). dgt.
      + rewrite <- (app_nil_r yy). dgt.
      + rewrite <- (app_nil_r yy). dgt.
      + rewrite <- (app_nil_r yy). dgt.
      + destruct g2 as [ | x g2]; [congruence | ]. apply blanks_allb in Fg2. inversion Fg2; subst. cbn [app starts]. cc.
    - apply (steps_number t _ [] yy []); auto.
      + rewrite app_nil_r. apply at_app. revert A2. cbn [app]. regroup. cbn [app]. regroup. auto.
      + constructor.
      + intros A3.
        assert (X : forall v v', v = v' -> at_ t (0 + Z.of_nat (length (b0 ++ wt)) - Z.of_nat (length b') + Z.of_nat (length (b' ++ mt)) + Z.of_nat (length ([] ++ dd)) +
             Z.of_nat (length (g ++ hh ++ 58 :: mm ++ (58 :: ss) ++ [] ++ g2)) + Z.of_nat (length ([] ++ yy))) [] -> Steps t (0 + Z.of_nat (length (b0 ++ wt)) - Z.of_nat (length b') + Z.of_nat (length (b' ++ mt)) + Z.of_nat (length ([] ++ dd)) +
             Z.of_nat (length (g ++ hh ++ 58 :: mm ++ (58 :: ss) ++ [] ++ g2)) + Z.of_nat (length ([] ++ yy))) v v').
        { intros v v' -> A4. now apply steps_end. }
        apply X; [ | exact A3].
        destruct Hw as [ | w tl b2 cm b3 Lw Ft F2 F3 Hc]; [ | destruct (day_letter w Lw) as (c' & l' & En & _); rewrite En].
        all: rewrite with_year by (cbn; rewrite with_first by (auto; reflexivity); cbn; apply number_nonneg, Dd).
        all: unfold with_time; cbn [v_day_abbrev v_day v_month_abbrev v_month v_year v_hour v_minute v_second v_timezone].
        all: rewrite with_first by (auto; reflexivity). all: reflexivity.
  Qed.

  Lemma iso8601_ok : forall t w y m d h mi s tz, iso8601 t w y m d h mi s tz -> 1 <= m <= 12 ->
    exists f0, forall f n, (f0 <= f)%nat -> (f0 <= n)%nat -> reads_as (parse_date beyond f prefix now n t 0) w y m d h mi s tz.
  Proof.
    assert (G : forall b0 yy mm dd b1 rest h mi s tz, blanks b0 -> digits yy -> length yy = 4%nat -> digits mm -> length mm = 2%nat ->
      digits dd -> length dd = 2%nat -> blanks b1 -> 1 <= number mm <= 12 ->
      let t := b0 ++ yy ++ 45 :: mm ++ 45 :: dd ++ b1 ++ rest in Forall char rest -> starts blankb rest = false ->
      (forall i v v', at_ t i rest -> v' = with_time v h mi s tz -> v_hour v = 0 -> v_minute v = 0 -> v_second v = 0 -> v_timezone v = 0 -> Steps t i v v') ->
      exists f0, forall f n, (f0 <= f)%nat -> (f0 <= n)%nat -> reads_as (parse_date beyond f prefix now n t 0) [] (number yy) (number mm) (number dd) h mi s tz).
    { intros b0 yy mm dd b1 rest h mi s tz F0 Dy Ly Dm Lm Dd Ld F1 Rm t Cr Sr H.
      assert (C : Forall char t) by (subst t; destruct Dd, Dy, Dm; chars).
      eapply finish_ok; [ | reflexivity | apply number_nonneg, Dy | exact Rm | apply number_nonneg, Dd].
      assert (exists c l, t = c :: l) as (c & l & E).
      { subst t. destruct yy; [discriminate | ]. destruct b0; eexists; eexists; reflexivity. }
      eapply (steps_cons beyond prefix t 0 c l); [rewrite <- E; apply at_0 | | ].
      - apply (step_iso beyond prefix t C 0 b0 yy mm dd b1 rest vars0); auto. apply at_0.
      - apply H; auto.
        + apply at_app. replace ((b0 ++ yy ++ 45 :: mm ++ 45 :: dd ++ b1) ++ rest) with t; [apply at_0 | ]. subst t. now regroup.
        + unfold with_time, with_iso. cbn [v_day_abbrev v_day v_month_abbrev v_month v_year v_hour v_minute v_second v_timezone vars0].
          rewrite (month_rassq _ Rm). reflexivity. }
    intros t w y m d h mi s tz H Rm.
    destruct H as [b0 yy mm dd b1 F0 Dy Ly Dm Lm Dd Ld F1 | b0 yy mm dd b1 ct h mi s tz b3 F0 Dy Ly Dm Lm Dd Ld F1 Hc F3].
    - pose proof (G b0 yy mm dd b1 [] 0 0 0 0 F0 Dy Ly Dm Lm Dd Ld F1 Rm) as G1. cbv zeta in G1. rewrite app_nil_r in G1. apply G1; auto.
      intros i v v' A -> E1 E2 E3 E4. replace (with_time v 0 0 0 0) with v; [now apply steps_end | ]. destruct v; cbn in *; subst; reflexivity.
    - apply (G b0 yy mm dd b1 (ct ++ b3) h mi s tz); auto.
      + chars.
      + destruct Hc as [hh mi' sec s zn tz Dh _ _ _]. regroup. dgt.
      + intros i v v' A -> _ _ _ _.
        assert (Ct : Forall char (b0 ++ yy ++ 45 :: mm ++ 45 :: dd ++ b1 ++ ct ++ b3)) by (destruct Dd, Dy, Dm; chars).
        eapply (steps_clock _ i [] ct h mi s tz b3 []); eauto; [rewrite app_nil_r; exact A | constructor | ].
        apply steps_end. apply at_app. rewrite app_nil_r. exact A.
  Qed.
End Whole.
