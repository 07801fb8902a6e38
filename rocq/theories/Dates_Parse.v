(** parse-date on dates: each step, then the whole. *)
From Coq Require Import ZArith List Bool Lia ZifyBool.
From Verif Require Import Regexp_Model Regexp_Spec Regexp_Props Dates_Model Dates_Spec Dates_Proofs Dates_Scan Dates_Tokens.
Import ListNotations.
Open Scope Z_scope.

(** lia with fewer hypotheses *)
Ltac fl := repeat match goal with
  | H : _ = false |- _ => clear H | H : _ = true |- _ => clear H | H : hd_error _ = _ |- _ => clear H
  | H : allb _ _ |- _ => clear H | H : at_ _ _ _ |- _ => clear H | H : _ = Ok _ |- _ => clear H
  | H : forall _, _ |- _ => clear H | H : _ /\ _ |- _ => clear H | H : _ \/ _ |- _ => clear H end; lia.
Ltac cc := match goal with |- ?p ?x = false => match goal with H : ?q x = true |- _ =>
  clear - H; unfold blankb, digitb, upperb, lowerb, signb in *; lia end end.
Lemma decimal_number : forall s, decimal s = number s.
Proof.
  intros s. unfold decimal. assert (G : forall s v, fold_left (fun v c => v * 10 + (c - 48)) s v = v * 10 ^ Z.of_nat (length s) + number s).
  { clear s. induction s as [ | c s IH]; intros v; cbn [fold_left number length].
    - change (10 ^ Z.of_nat 0) with 1. lia.
    - rewrite IH, Nat2Z.inj_succ, Z.pow_succ_r by lia. lia. }
  rewrite G. lia.
Qed.
Lemma at_sub : forall t i xs s, at_ t i (xs ++ s) -> sub t i (i + Z.of_nat (length xs)) = xs.
Proof.
  intros t i xs s (pre & -> & ->). unfold sub. rewrite Nat2Z.id.
  replace (Z.to_nat (Z.of_nat (length pre) + Z.of_nat (length xs) - Z.of_nat (length pre))) with (length xs) by lia.
  rewrite skipn_app, skipn_all, Nat.sub_diag. cbn [skipn app]. rewrite firstn_app, Nat.sub_diag, firstn_all. cbn [firstn]. apply app_nil_r.
Qed.
Lemma at_range : forall t i s, at_ t i s -> 0 <= i <= Z.of_nat (length t).
Proof. intros t i s (pre & -> & ->). rewrite app_length. lia. Qed.

Section Steps.
  Variable beyond : Z -> Z.
  Variable prefix : Z.

  Definition found (t : list Z) (nocase : bool) (r : regex) (i : Z) : option (list (option Z) * list (option Z)) :=
    match ways t nocase (i =? 0) r 1 i with
    | [] => None
    | (j, ev) :: _ => Some (match_starts i ev, match_ends j ev)
    end.
  Lemma looks : forall r re t i nocase, show r = re -> fits r t nocase -> 0 <= i <= Z.of_nat (length t) ->
    exists f0, forall f, (f0 <= f)%nat -> look beyond f re t i nocase = Ok (found t nocase r i).
  Proof.
    intros r re t i nocase <- F R. destruct (C39_looking_at_partial beyond r t i nocase F R) as (f0 & H). exists f0. intros f Hf.
    unfold look, found. rewrite (H f Hf). destruct (ways t nocase (i =? 0) r 1 i) as [ | [j ev] l]; reflexivity.
  Qed.
  Lemma found_hd : forall t nocase r i j ev, hd_error (ways t nocase (i =? 0) r 1 i) = Some (j, ev) ->
    found t nocase r i = Some (match_starts i ev, match_ends j ev).
  Proof. intros t nocase r i j ev H. unfold found. destruct (ways _ _ _ _ _ _) as [ | w l]; [discriminate | ]. injection H as ->. reflexivity. Qed.
  Lemma found_nil : forall t nocase r i, ways t nocase (i =? 0) r 1 i = [] -> found t nocase r i = None.
  Proof. intros t nocase r i H. unfold found. now rewrite H. Qed.

  (** * What a token does to the variables *)
  Definition with_number (v : vars) (ds : list Z) : vars :=
    if (0 <=? v_day v) || (2 <? Z.of_nat (length ds))
    then mkvars (v_day_abbrev v) (v_day v) (v_month_abbrev v) (v_month v)
           (if Z.of_nat (length ds) =? 2 then 100 * prefix + number ds else number ds)
           (v_hour v) (v_minute v) (v_second v) (v_timezone v)
    else mkvars (v_day_abbrev v) (number ds) (v_month_abbrev v) (v_month v) (v_year v)
           (v_hour v) (v_minute v) (v_second v) (v_timezone v).
  Definition with_time (v : vars) (h mi s tz : Z) : vars :=
    mkvars (v_day_abbrev v) (v_day v) (v_month_abbrev v) (v_month v) (v_year v) h mi s tz.
  Definition with_day (v : vars) (nm : list Z) : vars :=
    mkvars nm (v_day v) (v_month_abbrev v) (v_month v) (v_year v) (v_hour v) (v_minute v) (v_second v) (v_timezone v).
  Definition with_month (v : vars) (nm : list Z) (m : option Z) : vars :=
    mkvars (v_day_abbrev v) (v_day v) (Some nm) m (v_year v) (v_hour v) (v_minute v) (v_second v) (v_timezone v).
  Definition with_iso (v : vars) (y m d : Z) : vars :=
    mkvars (v_day_abbrev v) d (rassq m month_alist) (Some m) y (v_hour v) (v_minute v) (v_second v) (v_timezone v).

  (** * Time zones *)
  Lemma offset_hd : forall c h1 h2 m1 m2 t0, signb c = true -> allb digitb [h1; h2; m1; m2] ->
    hd_error (ways (c :: h1 :: h2 :: m1 :: m2 :: t0) false true r_offset 1 0) =
    Some (5, [Opened 1 1; Closed 1 3; Opened 2 3; Closed 2 5]).
  Proof.
    intros c h1 h2 m1 m2 t0 C F. set (t := c :: h1 :: h2 :: m1 :: m2 :: t0).
    assert (A : at_ t 0 (c :: h1 :: h2 :: m1 :: m2 :: t0)) by (exists []; split; reflexivity).
    pose proof (at_cons _ _ _ _ A) as A1. pose proof (at_cons _ _ _ _ A1) as A2. pose proof (at_cons _ _ _ _ A2) as A3.
    pose proof (at_cons _ _ _ _ A3) as A4. cbn [Z.add Pos.add Pos.succ] in A1, A2, A3, A4.
    unfold allb in F. repeat match goal with H : Forall _ (_ :: _) |- _ => inversion H; clear H; subst end.
    unfold r_offset. rewrite ways_alt1.
    change [Opened 1 1; Closed 1 3; Opened 2 3; Closed 2 5] with ([] ++ [Opened 1 1; Closed 1 3] ++ [Opened 2 3; Closed 2 5] ++ []).
    apply (piece_hd t false true _ _ _ 1 0 1 []).
    - rewrite (cls_one t false true _ _ c _ 0 A), cls_sign, C. reflexivity.
    - apply (piece_hd t false true _ _ _ 1 1 3 [Opened 1 1; Closed 1 3]).
      + change [Opened 1 1; Closed 1 3] with (Opened 1 1 :: [] ++ [Closed 1 3]). apply grp_hd. rewrite ways_alt1. unfold two.
        eapply dg_hd; [exact A1 | assumption | ]. eapply dg_hd; [exact A2 | assumption | ]. reflexivity.
      + apply (piece_hd t false true _ _ _ 2 3 5 [Opened 2 3; Closed 2 5]).
        * change [Opened 2 3; Closed 2 5] with (Opened 2 3 :: [] ++ [Closed 2 5]). apply grp_hd. rewrite ways_alt1. unfold two.
          eapply dg_hd; [exact A3 | assumption | ]. eapply dg_hd; [exact A4 | assumption | ]. reflexivity.
        * reflexivity.
  Qed.
  Lemma offset_ok : forall c hh mm, signb c = true -> digits hh -> digits mm -> length hh = 2%nat -> length mm = 2%nat ->
    exists f0, forall f, (f0 <= f)%nat ->
      parse_timezone beyond f (c :: hh ++ mm) = Ok ((if c =? 43 then 1 else -1) * (60 * number hh + number mm)).
  Proof.
    intros c hh mm C [_ Fh] [_ Fm] Lh Lm. destruct hh as [ | h1 [ | h2 [ | ]]]; try discriminate. destruct mm as [ | m1 [ | m2 [ | ]]]; try discriminate.
    cbn [app]. apply digits_allb in Fh, Fm.
    assert (F : allb digitb [h1; h2; m1; m2]) by (unfold allb in *; apply Forall_app with (l1 := [h1; h2]); auto).
    assert (Ch : Forall char [c; h1; h2; m1; m2]).
    { constructor; [unfold signb, char in *; lia | ]. apply (Forall_impl char) with (2 := F). intros a H. unfold digitb, char in *. lia. }
    destruct (looks r_offset re_offset [c; h1; h2; m1; m2] 0 false ltac:(reflexivity) (offset_fits _ _ Ch) ltac:(cbn; lia)) as (f0 & H).
    exists f0. intros f Hf. unfold parse_timezone.
    replace (assoc [c; h1; h2; m1; m2] timezone_alist) with (@None Z).
    2: { unfold signb in C. assert (c = 43 \/ c = 45) as [-> | ->] by lia; reflexivity. }
    rewrite (H f Hf). rewrite (found_hd [c; h1; h2; m1; m2] false r_offset 0 _ _ (offset_hd c h1 h2 m1 m2 [] C F)). cbn [bind].
    unfold group, pos. cbn [match_starts match_ends map seq last_opened last_closed Nat.eqb nth bind].
    change (sub [c; h1; h2; m1; m2] 1 3) with [h1; h2]. change (sub [c; h1; h2; m1; m2] 3 5) with [m1; m2].
    rewrite !decimal_number. reflexivity.
  Qed.
  Lemma zone_ok : forall z tz, zone z tz -> exists f0, forall f, (f0 <= f)%nat -> parse_timezone beyond f z = Ok tz.
  Proof.
    intros z tz H. destruct H as [ | | | | | | | | | | hh mm Dh Dm Lh Lm | hh mm Dh Dm Lh Lm]; try (exists 0%nat; intros; reflexivity).
    - destruct (offset_ok 43 hh mm eq_refl Dh Dm Lh Lm) as (f0 & O). exists f0. intros f Hf. rewrite (O f Hf). change (43 =? 43) with true. cbv iota. now rewrite Z.mul_1_l.
    - destruct (offset_ok 45 hh mm eq_refl Dh Dm Lh Lm) as (f0 & O). exists f0. intros f Hf. rewrite (O f Hf). change (45 =? 43) with false. cbv iota. now rewrite (Z.mul_comm (-1)), <- Z.opp_eq_mul_m1.
  Qed.

  (** * Steps *)
  Section Text.
    Variable t : list Z.
    Hypothesis C : Forall char t.
    Notation step f := (parse_step beyond f prefix t).

    Lemma step_number : forall i b ds s v, at_ t i (b ++ ds ++ s) -> blanks b -> digits ds -> (s = [] \/ starts blankb s = true) ->
      exists f0, forall f, (f0 <= f)%nat ->
        step f i v = Ok (with_number v ds, i + Z.of_nat (length (b ++ ds))).
    Proof.
      intros i b ds s v A Fb [Nd Fd] E. apply blanks_allb in Fb. apply digits_allb in Fd.
      destruct (looks r_number re_number t i false eq_refl (number_fits _ _ C) (at_range _ _ _ A)) as (f0 & H). exists f0. intros f Hf.
      destruct (number_hd t false (i =? 0) i b ds s A Fb Nd Fd E) as (j & ev & H1 & H2 & H3).
      unfold parse_step. rewrite (H f Hf), (found_hd _ _ _ _ _ _ H1). cbn [bind]. unfold pos. cbn [match_starts match_ends map seq nth].
      rewrite H2, H3. cbn [bind]. rewrite (at_sub t _ ds s (at_app _ _ _ _ A)), decimal_number.
      replace (i + Z.of_nat (length b) + Z.of_nat (length ds) - (i + Z.of_nat (length b))) with (Z.of_nat (length ds)) by lia.
      rewrite app_length. replace (i + Z.of_nat (length b + length ds)) with (i + Z.of_nat (length b) + Z.of_nat (length ds)) by lia.
      unfold with_number. reflexivity.
    Qed.

    Lemma no_number : forall i b ds c s, at_ t i (b ++ ds ++ c :: s) -> blanks b -> Forall is_digit ds -> digitb c = false -> blankb c = false ->
      found t false r_number i = None.
    Proof.
      intros i b ds c s A Fb Fd Dc Bc. apply found_nil. apply (number_nil t false (i =? 0) i b ds c s A); auto using blanks_allb, digits_allb.
    Qed.

    Lemma zone_shape : forall z tz, zone z tz ->
      (z <> [] /\ allb upperb z) \/ exists c ds, z = c :: ds /\ signb c = true /\ ds <> [] /\ allb digitb ds.
    Proof.
      intros z tz H. destruct H as [ | | | | | | | | | | hh mm [N1 F1] [N2 F2] L1 L2 | hh mm [N1 F1] [N2 F2] L1 L2];
        try solve [left; split; [discriminate | repeat constructor]]; right; eexists; exists (hh ++ mm);
        (split; [reflexivity | split; [reflexivity | split; [now destruct hh | apply digits_allb; apply Forall_app; auto]]]).
    Qed.

    Lemma step_time : forall i b hh mm sec sv zn tz b3 s v, at_ t i (b ++ hh ++ 58 :: mm ++ sec ++ zn ++ b3 ++ s) ->
      blanks b -> digits hh -> digits mm -> sec_text sec sv -> zone_text zn tz -> blanks b3 ->
      starts blankb s = false -> starts upperb s = false -> starts lowerb s = false -> starts signb s = false ->
      starts (Z.eqb 58) s = false -> starts digitb (b3 ++ s) = false ->
      exists f0, forall f, (f0 <= f)%nat ->
        step f i v = Ok (with_time v (number hh) (number mm) sv tz, i + Z.of_nat (length (b ++ hh ++ 58 :: mm ++ sec ++ zn ++ b3))).
    Proof.
      intros i b hh mm sec sv zn tz b3 s v A Fb [Nh Fh] [Nm Fm] Hs Hz F3 Sb Su Sl Sg Sc Sd.
      apply blanks_allb in Fb, F3. apply digits_allb in Fh, Fm.
      pose proof (at_app _ _ _ _ A) as A1. pose proof (at_app _ _ _ _ A1) as A2. pose proof (at_cons _ _ _ _ A2) as A3. pose proof (at_app _ _ _ _ A3) as A4.
      pose proof (at_app _ _ _ _ A4) as A5. pose proof (at_app _ _ _ _ A5) as A6.
      set (i1 := i + Z.of_nat (length b)) in *. set (i2 := i1 + Z.of_nat (length hh)) in *. set (i3 := i2 + 1 + Z.of_nat (length mm)) in *.
      set (i4 := i3 + Z.of_nat (length sec)) in *. set (i5 := i4 + Z.of_nat (length zn)) in *. set (i6 := i5 + Z.of_nat (length b3)).
      (* starts of what follows the seconds *)
      assert (ZS : starts digitb (zn ++ b3 ++ s) = false /\ starts (Z.eqb 58) (zn ++ b3 ++ s) = false).
      { destruct Hz as [ | bz z tz Hb Hz].
        - cbn [app]. split; [exact Sd | ]. destruct b3 as [ | x b3]; [exact Sc | ]. inversion F3; subst. cbn [starts app]. repeat split; cc.
        - apply blanks_allb in Hb. destruct bz as [ | x bz].
          + cbn [app]. destruct (zone_shape z tz Hz) as [[Nz Fz] | (c & ds & -> & Cz & _)].
            * destruct z as [ | x z]; [congruence | ]. inversion Fz; subst. cbn [starts app]. repeat split; cc.
            * cbn [starts app]. repeat split; cc.
          + inversion Hb; subst. cbn [starts app]. repeat split; cc. }
      destruct ZS as [ZS1 ZS2].
      (* the zone and what follows *)
      assert (HZ : exists ev, hd_error (ways_branch t false (i =? 0) (P sp star (P (Grp r_zone) opt (P sp star Nil))) 4 i4) = Some (i6, ev) /\
                   ((ev = [] /\ tz = 0) \/ exists z a, ev = [Opened 4 a; Closed 4 (a + Z.of_nat (length z))] /\ zone z tz /\
                      sub t a (a + Z.of_nat (length z)) = z /\ z <> [])).
      { destruct Hz as [ | bz z tz Hb Hz].
        - exists []. split; [ | left; auto]. cbn [app length] in *. apply (blanks_hd t false (i =? 0) _ _ _ b3 s _ A5 F3 Sb).
          apply (zone_none t false (i =? 0) _ _ _ s _ (at_app _ _ _ _ A5) Su Sg).
          apply (blanks_hd t false (i =? 0) _ _ _ [] s _ (at_app _ _ _ _ A5)); [constructor | exact Sb | ].
          cbn [Regexp_Spec.ways_branch hd_error length]. subst i5 i6. f_equal. f_equal. cbn [length]. fl.
        - apply blanks_allb in Hb. rewrite <- app_assoc in A5. pose proof (at_app _ _ _ _ A5) as A51. pose proof (at_app _ _ _ _ A51) as A52.
          exists [Opened 4 (i4 + Z.of_nat (length bz)); Closed 4 (i4 + Z.of_nat (length bz) + Z.of_nat (length z))].
          assert (L : hd_error (ways_branch t false (i =? 0) (P sp star Nil) (4 + 1) (i4 + Z.of_nat (length bz) + Z.of_nat (length z))) = Some (i6, [])).
          { apply (blanks_hd t false (i =? 0) _ _ _ b3 s _ A52 F3 Sb). cbn [Regexp_Spec.ways_branch hd_error]. f_equal. f_equal.
            subst i6 i5. rewrite app_length. fl. }
          assert (S3 : starts upperb (b3 ++ s) = false).
          { destruct b3 as [ | x b3]; [exact Su | ]. inversion F3; subst. cbn [starts app]. repeat split; cc. }
          pose proof (zone_shape z tz Hz) as Sh.
          split.
          + apply (blanks_hd t false (i =? 0) _ _ _ bz _ _ A5 Hb).
            * destruct Sh as [[Nz Fz] | (c & ds & -> & Cz & _)].
              -- destruct z as [ | x z]; [congruence | ]. inversion Fz; subst. cbn [starts app]. repeat split; cc.
              -- cbn [starts app]. repeat split; cc.
            * destruct Sh as [[Nz Fz] | (c & ds & -> & Cz & Nd & Fd)].
              -- apply (zone_letters t false (i =? 0) _ _ _ z (b3 ++ s) _ [] A51 Nz Fz S3 L).
              -- cbn [length] in L |- *. replace (i4 + Z.of_nat (length bz) + Z.of_nat (S (length ds))) with (i4 + Z.of_nat (length bz) + 1 + Z.of_nat (length ds)) in L |- * by fl.
                 apply (zone_signed t false (i =? 0) _ _ _ c ds (b3 ++ s) _ [] A51 Cz Nd Fd Sd L).
          + right. exists z, (i4 + Z.of_nat (length bz)). repeat split; auto.
            * apply (at_sub t _ z (b3 ++ s) A51).
            * destruct Sh as [[Nz _] | (c & ds & -> & _)]; [exact Nz | discriminate]. }
      destruct HZ as (evz & HZ & EZ).
      assert (HS : exists evs, hd_error (ways_branch t false (i =? 0) tail_time 3 i3) = Some (i6, evs ++ evz) /\
                   ((evs = [] /\ sv = 0) \/ exists e, evs = [Opened 3 i3; Closed 3 e] /\ i3 < e /\ decimal (sub t (i3 + 1) e) = sv)).
      { destruct Hs as [ | ss [Ns Fs]].
        - exists []. split; [ | left; auto]. cbn [app length] in *. subst i4. cbn [length Z.of_nat] in *. rewrite Z.add_0_r in *.
          apply (sec_none t false (i =? 0) _ _ _ _ _ A4 ZS2). exact HZ.
        - exists [Opened 3 i3; Closed 3 i4]. cbn [app length] in *. apply digits_allb in Fs.
          assert (E4 : i4 = i3 + 1 + Z.of_nat (length ss)) by (subst i4; cbn [length]; fl). split.
          + rewrite E4. apply (sec_some t false (i =? 0) _ _ _ ss _ _ _ A4 Ns Fs ZS1). rewrite <- E4. exact HZ.
          + right. exists i4. split; [reflexivity | ]. split; [fl | ]. rewrite E4, (at_sub t _ ss _ (at_cons _ _ _ _ A4)). apply decimal_number. }
      destruct HS as (evs & HS & ES).
      assert (SM : starts digitb (sec ++ zn ++ b3 ++ s) = false) by (destruct Hs; [exact ZS1 | reflexivity]).
      pose proof (time_start t false (i =? 0) i b hh mm _ _ _ A Fb Nh Fh Nm Fm SM HS) as HT. fold i1 in HT. fold i2 in HT. fold i3 in HT.
      assert (Hz' : exists f0, forall f, (f0 <= f)%nat -> parse_timezone beyond f (if same_pos (nth 4 (match_starts i evz) None) (nth 4 (match_ends i6 evz) None) then [85; 84] else
                      match nth 4 (match_starts i evz) None, nth 4 (match_ends i6 evz) None with Some a, Some b => sub t a b | _, _ => [] end) = Ok tz).
      { destruct EZ as [[-> ->] | (z & a & -> & Zz & Sz & Nz)]; [exists 0%nat; intros; reflexivity | ].
        cbn [match_starts match_ends map seq nth last_opened last_closed Nat.eqb same_pos].
        assert (a =? a + Z.of_nat (length z) = false) as -> by (destruct z; [congruence | cbn [length]; fl]). rewrite Sz. apply zone_ok. exact Zz. }
      destruct Hz' as (fz & Hz').
      destruct (looks r_number re_number t i false eq_refl (number_fits _ _ C) (at_range _ _ _ A)) as (f1 & H1).
      destruct (looks r_time re_time t i false eq_refl (time_fits _ _ C) (at_range _ _ _ A)) as (f2 & H2).
      exists (fz + f1 + f2)%nat. intros f Hf. unfold parse_step. rewrite (H1 f ltac:(fl)).
      rewrite (found_nil t false r_number i) by (apply (number_nil t false (i =? 0) i b hh 58 (mm ++ sec ++ zn ++ b3 ++ s) A); auto).
      cbn [bind]. rewrite (H2 f ltac:(fl)), (found_hd t false r_time i _ _ HT). cbn [bind].
      specialize (Hz' f ltac:(fl)).
      assert (E6 : i6 = i + Z.of_nat (length (b ++ hh ++ 58 :: mm ++ sec ++ zn ++ b3))).
      { subst i6 i5 i4 i3 i2 i1. rewrite !app_length. cbn [length]. rewrite !app_length. fl. }
      pose proof (at_sub t i1 hh _ A1) as U1. fold i2 in U1. pose proof (at_sub t (i2 + 1) mm _ A3) as U2. fold i3 in U2.
      unfold group, pos.
      destruct ES as [[-> ->] | (e & -> & Le & Se)]; destruct EZ as [[-> ->] | (z & a & -> & Zz & Sz & Nz)];
        cbn [app match_starts match_ends map seq nth last_opened last_closed Nat.eqb bind same_pos] in *;
        rewrite ?U1, ?U2, ?Z.eqb_refl; cbn [bind];
        try (replace (i3 =? e) with false by fl); cbn [bind];
        try (assert (Ea : a =? a + Z.of_nat (length z) = false) by (destruct z; [congruence | cbn [length]; fl]); rewrite Ea in *); cbn [bind] in *;
        rewrite ?Hz'; cbn [bind]; rewrite ?Se, !decimal_number, <- ?E6; reflexivity.
    Qed.
    Lemma no_time : forall i b ds c s, at_ t i (b ++ ds ++ c :: s) -> blanks b -> Forall is_digit ds -> digitb c = false -> blankb c = false -> c <> 58 ->
      found t false r_time i = None.
    Proof.
      intros i b ds c s A Fb Fd Dc Bc Cc. apply found_nil. apply (time_nil t false (i =? 0) i b ds c s A); auto using blanks_allb, digits_allb.
    Qed.

    Lemma day_letter : forall w, (w < 7)%nat -> exists c l, day_name w = c :: l /\ upperb c = true /\ length l = 2%nat.
    Proof. intros w H. do 7 (destruct w as [ | w]; [eexists; eexists; repeat split | ]). lia. Qed.
    Lemma month_letter : forall m, 1 <= m <= 12 -> exists c l, month_name m = c :: l /\ upperb c = true /\ length l = 2%nat.
    Proof.
      intros m H. destruct (month_cases m H) as [->|[->|[->|[->|[->|[->|[->|[->|[->|[->|[->| ->]]]]]]]]]]]; eexists; eexists; repeat split.
    Qed.
    Lemma lower_allb : forall tl, Forall lower_case tl -> allb lowerb tl.
    Proof. intros tl. apply Forall_impl. unfold lower_case, lowerb. intros; lia. Qed.
    Lemma day_literal : forall w i s, (w < 7)%nat -> at_ t i (day_name w ++ s) ->
      exists x, In x ([77; 111; 110] :: days_in_order) /\ literal t true x i = true.
    Proof.
      intros w i s H A. exists (day_name w). rewrite (literal_at t true _ i _ A).
      do 7 (destruct w as [ | w]; [split; [cbn; tauto | reflexivity] | ]). lia.
    Qed.
    Lemma month_literal : forall m i s, 1 <= m <= 12 -> at_ t i (month_name m ++ s) ->
      exists x, In x ([74; 97; 110] :: months_in_order) /\ literal t true x i = true.
    Proof.
      intros m i s H A. exists (month_name m). rewrite (literal_at t true _ i _ A).
      destruct (month_cases m H) as [->|[->|[->|[->|[->|[->|[->|[->|[->|[->|[->| ->]]]]]]]]]]]; (split; [cbn; tauto | reflexivity]).
    Qed.
    Lemma month_not_day : forall m i s x, 1 <= m <= 12 -> at_ t i (month_name m ++ s) -> In x ([77; 111; 110] :: days_in_order) ->
      literal t true x i = false.
    Proof.
      intros m i s x H A I. rewrite (literal_at t true _ i _ A).
      destruct (month_cases m H) as [->|[->|[->|[->|[->|[->|[->|[->|[->|[->|[->| ->]]]]]]]]]]];
        repeat (destruct I as [<- | I]; [reflexivity | ]); destruct I.
    Qed.
    Lemma month_assoc : forall m, 1 <= m <= 12 -> assoc (month_name m) month_alist = Some m.
    Proof.
      intros m H. destruct (month_cases m H) as [->|[->|[->|[->|[->|[->|[->|[->|[->|[->|[->| ->]]]]]]]]]]]; reflexivity.
    Qed.
    Lemma month_rassq : forall m, 1 <= m <= 12 -> rassq m month_alist = Some (month_name m).
    Proof.
      intros m H. destruct (month_cases m H) as [->|[->|[->|[->|[->|[->|[->|[->|[->|[->|[->| ->]]]]]]]]]]]; reflexivity.
    Qed.

    Lemma step_day : forall i b w tl b2 cm b3 s v, at_ t i (b ++ day_name w ++ tl ++ b2 ++ cm ++ b3 ++ s) -> (w < 7)%nat ->
      blanks b -> Forall lower_case tl -> blanks b2 -> blanks b3 -> (cm = [44] \/ cm = [] /\ b3 = [] /\ starts (Z.eqb 44) s = false) ->
      starts lowerb s = false -> starts blankb s = false ->
      exists f0, forall f, (f0 <= f)%nat ->
        step f i v = Ok (with_day v (day_name w), i + Z.of_nat (length (b ++ day_name w ++ tl ++ b2 ++ cm ++ b3))).
    Proof.
      intros i b w tl b2 cm b3 s v A Hw Fb Ft F2 F3 Hc Sl Sb.
      destruct (day_letter w Hw) as (c & l & En & Uc & Ll). pose proof (at_app _ _ _ _ A) as A1.
      destruct (day_literal w _ _ Hw A1) as (x & Ix & Lx).
      assert (Cc : digitb c = false /\ blankb c = false /\ c <> 58) by (clear - Uc; unfold upperb, digitb, blankb in *; lia).
      destruct Cc as (Cd & Cb & C5).
      assert (SL : starts lowerb (b2 ++ cm ++ b3 ++ s) = false).
      { destruct b2 as [ | y b2]; [ | apply blanks_allb in F2; inversion F2; subst; cbn [app starts]; cc].
        destruct Hc as [-> | (-> & -> & _)]; [reflexivity | exact Sl]. }
      pose proof (day_hd t true (i =? 0) i b (day_name w) tl b2 cm b3 s x A (blanks_allb _ Fb) ltac:(rewrite En; cbn [length]; lia)
        ltac:(rewrite En; exact Cb) (lower_allb _ Ft) (blanks_allb _ F2) (blanks_allb _ F3) Hc SL Sb Ix Lx) as H. cbv zeta in H.
      destruct (looks r_number re_number t i false eq_refl (number_fits _ _ C) (at_range _ _ _ A)) as (f1 & H1).
      destruct (looks r_time re_time t i false eq_refl (time_fits _ _ C) (at_range _ _ _ A)) as (f2 & H2).
      destruct (looks r_day re_day t i true eq_refl (day_fits _ _ C) (at_range _ _ _ A)) as (f3 & H3).
      assert (A' : at_ t i (b ++ [] ++ c :: l ++ tl ++ b2 ++ cm ++ b3 ++ s)) by (rewrite En in A; exact A).
      exists (f1 + f2 + f3)%nat. intros f Hf. unfold parse_step. rewrite (H1 f ltac:(fl)), (no_number i b [] c _ A' Fb ltac:(constructor) Cd Cb). cbn [bind].
      rewrite (H2 f ltac:(fl)), (no_time i b [] c _ A' Fb ltac:(constructor) Cd Cb C5). cbn [bind].
      rewrite (H3 f ltac:(fl)), (found_hd t true r_day i _ _ H). cbn [bind]. unfold group, pos.
      cbn [match_starts match_ends map seq nth last_opened last_closed Nat.eqb bind].
      pose proof (at_sub t _ (day_name w) _ A1) as U. rewrite En in U at 1. cbn [length] in U. rewrite Ll in U. change (Z.of_nat 3) with 3 in U. rewrite U. reflexivity.
    Qed.

    Lemma step_month : forall i b m tl b2 s v, at_ t i (b ++ month_name m ++ tl ++ b2 ++ s) -> 1 <= m <= 12 ->
      blanks b -> Forall lower_case tl -> blanks b2 -> starts lowerb s = false -> starts blankb s = false ->
      exists f0, forall f, (f0 <= f)%nat ->
        step f i v = Ok (with_month v (month_name m) (Some m), i + Z.of_nat (length (b ++ month_name m ++ tl ++ b2))).
    Proof.
      intros i b m tl b2 s v A Hm Fb Ft F2 Sl Sb.
      destruct (month_letter m Hm) as (c & l & En & Uc & Ll). pose proof (at_app _ _ _ _ A) as A1.
      destruct (month_literal m _ _ Hm A1) as (x & Ix & Lx).
      assert (Cc : digitb c = false /\ blankb c = false /\ c <> 58) by (clear - Uc; unfold upperb, digitb, blankb in *; lia).
      destruct Cc as (Cd & Cb & C5).
      assert (SL : starts lowerb (b2 ++ s) = false).
      { destruct b2 as [ | y b2]; [exact Sl | apply blanks_allb in F2; inversion F2; subst; cbn [app starts]; cc]. }
      assert (SB : starts blankb (month_name m ++ tl ++ b2 ++ s) = false) by (rewrite En; exact Cb).
      pose proof (month_hd t true (i =? 0) i b (month_name m) tl b2 s x A (blanks_allb _ Fb) ltac:(rewrite En; cbn [length]; lia)
        ltac:(rewrite En; exact Cb) (lower_allb _ Ft) (blanks_allb _ F2) SL Sb Ix Lx) as H. cbv zeta in H.
      destruct (looks r_number re_number t i false eq_refl (number_fits _ _ C) (at_range _ _ _ A)) as (f1 & H1).
      destruct (looks r_time re_time t i false eq_refl (time_fits _ _ C) (at_range _ _ _ A)) as (f2 & H2).
      destruct (looks r_day re_day t i true eq_refl (day_fits _ _ C) (at_range _ _ _ A)) as (f3 & H3).
      destruct (looks r_month re_month t i true eq_refl (month_fits _ _ C) (at_range _ _ _ A)) as (f4 & H4).
      assert (A' : at_ t i (b ++ [] ++ c :: l ++ tl ++ b2 ++ s)) by (rewrite En in A; exact A).
      exists (f1 + f2 + f3 + f4)%nat. intros f Hf. unfold parse_step. rewrite (H1 f ltac:(fl)), (no_number i b [] c _ A' Fb ltac:(constructor) Cd Cb). cbn [bind].
      rewrite (H2 f ltac:(fl)), (no_time i b [] c _ A' Fb ltac:(constructor) Cd Cb C5). cbn [bind].
      rewrite (H3 f ltac:(fl)), (found_nil t true r_day i).
      2: { apply (day_nil t true (i =? 0) i b _ A (blanks_allb _ Fb) SB). intros y Iy. exact (month_not_day m _ _ y Hm A1 Iy). }
      cbn [bind]. rewrite (H4 f ltac:(fl)), (found_hd t true r_month i _ _ H). cbn [bind]. unfold group, pos.
      cbn [match_starts match_ends map seq nth last_opened last_closed Nat.eqb bind].
      pose proof (at_sub t _ (month_name m) _ A1) as U. rewrite En in U at 1. cbn [length] in U. rewrite Ll in U. change (Z.of_nat 3) with 3 in U. rewrite U.
      rewrite (month_assoc m Hm). reflexivity.
    Qed.

    Lemma step_iso : forall i b yy mm dd b2 s v, at_ t i (b ++ yy ++ 45 :: mm ++ 45 :: dd ++ b2 ++ s) -> blanks b ->
      digits yy -> length yy = 4%nat -> digits mm -> length mm = 2%nat -> digits dd -> length dd = 2%nat -> blanks b2 -> starts blankb s = false ->
      exists f0, forall f, (f0 <= f)%nat ->
        step f i v = Ok (with_iso v (number yy) (number mm) (number dd), i + Z.of_nat (length (b ++ yy ++ 45 :: mm ++ 45 :: dd ++ b2))).
    Proof.
      intros i b yy mm dd b2 s v A Fb [_ Fy] Ly [_ Fm] Lm [_ Fd] Ld F2 Sb.
      pose proof (at_app _ _ _ _ A) as A1. set (i1 := i + Z.of_nat (length b)) in *.
      pose proof (at_app _ _ _ _ A1) as A2. pose proof (at_cons _ _ _ _ A2) as A3. pose proof (at_app _ _ _ _ A3) as A4. pose proof (at_cons _ _ _ _ A4) as A5.
      pose proof (at_sub t _ _ _ A1) as U1. pose proof (at_sub t _ _ _ A3) as U2. pose proof (at_sub t _ _ _ A5) as U3.
      rewrite Ly in U1, U2, U3. rewrite Lm in U2, U3. rewrite Ld in U3.
      replace (i1 + Z.of_nat 4) with (i1 + 4) in * by fl. replace (i1 + 4 + 1) with (i1 + 5) in * by fl.
      replace (i1 + 5 + Z.of_nat 2) with (i1 + 7) in * by fl. replace (i1 + 7 + 1) with (i1 + 8) in * by fl.
      replace (i1 + 8 + Z.of_nat 2) with (i1 + 10) in * by fl.
      destruct yy as [ | y1 [ | y2 [ | y3 [ | y4 [ | ]]]]]; try discriminate. destruct mm as [ | m1 [ | m2 [ | ]]]; try discriminate.
      destruct dd as [ | d1 [ | d2 [ | ]]]; try discriminate.
      assert (FF : allb digitb [y1; y2; y3; y4; m1; m2; d1; d2]).
      { apply digits_allb. apply (Forall_app is_digit [y1; y2; y3; y4]). split; [exact Fy | ]. apply (Forall_app is_digit [m1; m2]). auto. }
      pose proof (iso_hd t false (i =? 0) i b y1 y2 y3 y4 m1 m2 d1 d2 b2 s A (blanks_allb _ Fb) FF (blanks_allb _ F2) Sb) as H. cbv zeta in H. fold i1 in H.
      destruct (looks r_number re_number t i false eq_refl (number_fits _ _ C) (at_range _ _ _ A)) as (f1 & H1).
      destruct (looks r_time re_time t i false eq_refl (time_fits _ _ C) (at_range _ _ _ A)) as (f2 & H2).
      destruct (looks r_day re_day t i true eq_refl (day_fits _ _ C) (at_range _ _ _ A)) as (f3 & H3).
      destruct (looks r_month re_month t i true eq_refl (month_fits _ _ C) (at_range _ _ _ A)) as (f4 & H4).
      destruct (looks r_iso re_iso t i false eq_refl (iso_fits _ _ C) (at_range _ _ _ A)) as (f5 & H5).
      assert (D1 : digitb y1 = true) by (inversion FF; assumption).
      assert (SB : forall z, starts blankb (y1 :: z) = false) by (intros z; cbn [starts]; cc).
      pose proof (digit_odd y1 D1) as O1.
      exists (f1 + f2 + f3 + f4 + f5)%nat. intros f Hf. unfold parse_step.
      rewrite (H1 f ltac:(fl)), (no_number i b [y1; y2; y3; y4] 45 _ A Fb Fy eq_refl eq_refl). cbn [bind].
      rewrite (H2 f ltac:(fl)), (no_time i b [y1; y2; y3; y4] 45 _ A Fb Fy eq_refl eq_refl ltac:(discriminate)). cbn [bind].
      rewrite (H3 f ltac:(fl)), (found_nil t true r_day i).
      2: { apply (day_nil t true (i =? 0) i b _ A (blanks_allb _ Fb) (SB _)). intros x Ix. exact (odd_day t true _ y1 _ x A1 O1 Ix). }
      cbn [bind]. rewrite (H4 f ltac:(fl)), (found_nil t true r_month i).
      2: { apply (month_nil t true (i =? 0) i b _ A (blanks_allb _ Fb) (SB _)). intros x Ix. exact (odd_month t true _ y1 _ x A1 O1 Ix). }
      cbn [bind]. rewrite (H5 f ltac:(fl)), (found_hd t false r_iso i _ _ H). cbn [bind]. unfold group, pos.
      cbn [match_starts match_ends map seq nth last_opened last_closed Nat.eqb bind]. rewrite U1, U2, U3, !decimal_number. unfold with_iso. f_equal. f_equal.
      subst i1. rewrite !app_length. cbn [length app]. clear. lia.
    Qed.

    (** * Sequences of steps *)
    Definition Steps (i : Z) (v v' : vars) : Prop :=
      exists f0, forall f n, (f0 <= f)%nat -> (f0 <= n)%nat -> parse_loop beyond f prefix n t i v = Ok v'.
    Lemma steps_end : forall i v, at_ t i [] -> Steps i v v.
    Proof.
      intros i v A. exists 0%nat. intros f n _ _. pose proof (at_length _ _ _ A) as L. cbn [length] in L.
      destruct n; cbn [parse_loop]; destruct (Z.ltb_spec i (Z.of_nat (length t))); auto; lia.
    Qed.
    Lemma steps_cons : forall i c s v v1 i1 v', at_ t i (c :: s) -> (exists f0, forall f, (f0 <= f)%nat -> step f i v = Ok (v1, i1)) ->
      Steps i1 v1 v' -> Steps i v v'.
    Proof.
      intros i c s v v1 i1 v' A (f0 & H) (f1 & H'). exists (S (f0 + f1)). intros f n Hf Hn. destruct n as [ | n]; [lia | ].
      pose proof (at_length _ _ _ A) as L. cbn [length] in L. cbn [parse_loop]. destruct (Z.ltb_spec i (Z.of_nat (length t))); [ | lia].
      rewrite (H f ltac:(lia)). cbn [bind]. apply H'; lia.
    Qed.
  End Text.
End Steps.
