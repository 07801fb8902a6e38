(** Which of the regexps of parse-date match at the pieces of a date, and what. *)
From Coq Require Import ZArith List Bool Lia ZifyBool.
From Verif Require Import Regexp_Model Regexp_Spec Dates_Model Dates_Spec Dates_Scan.
Import ListNotations.
Open Scope Z_scope.

Definition blankb (c : Z) : bool := (c =? 9) || (c =? 32).
Definition digitb (c : Z) : bool := (48 <=? c) && (c <=? 57).
Definition upperb (c : Z) : bool := (65 <=? c) && (c <=? 90).
Definition lowerb (c : Z) : bool := (97 <=? c) && (c <=? 122).
Definition signb (c : Z) : bool := (c =? 43) || (c =? 45).

Lemma cls_blank : forall c, cls c_blank c = blankb c.
Proof. intros c. unfold cls, blankb. cbn. now rewrite orb_false_r. Qed.
Lemma cls_digit : forall c, cls c_digit c = digitb c.
Proof. intros c. unfold cls, digitb. cbn. now rewrite orb_false_r. Qed.
Lemma cls_upper : forall c, cls c_upper c = upperb c.
Proof. intros c. unfold cls, upperb. cbn. now rewrite orb_false_r. Qed.
Lemma cls_lower : forall c, cls c_lower c = lowerb c.
Proof. intros c. unfold cls, lowerb. cbn. now rewrite orb_false_r. Qed.
Lemma cls_sign : forall c, cls c_sign c = signb c.
Proof. intros c. unfold cls, signb. cbn. now rewrite orb_false_r. Qed.
Lemma forall_cls : forall l p, (forall c, cls l c = p c) -> forall xs, Forall (fun c => p c = true) xs -> Forall (fun x => cls l x = true) xs.
Proof. intros l p E xs. apply Forall_impl. intros c H. now rewrite E. Qed.
Lemma starts_cls : forall l p s, (forall c, cls l c = p c) -> starts (cls l) s = starts p s.
Proof. intros l p [ | c s] E; [reflexivity | apply E]. Qed.

Definition allb (p : Z -> bool) (s : list Z) : Prop := Forall (fun c => p c = true) s.
Lemma blanks_allb : forall b, blanks b -> allb blankb b.
Proof. intros b. apply Forall_impl. intros c [-> | ->]; reflexivity. Qed.
Lemma digits_allb : forall b, Forall is_digit b -> allb digitb b.
Proof. intros b. apply Forall_impl. unfold is_digit, digitb. intros; lia. Qed.

Section Tokens.
  Variable t : list Z.
  Variable nocase at_start : bool.
  Notation ways := (ways t nocase at_start).
  Notation W := (ways_branch t nocase at_start).
  Notation ways_atom := (ways_atom t nocase at_start).
  Notation times := (times t).
  Notation at_ := (at_ t).
  Notation literal := (literal t nocase).

  Lemma ways_alt : forall b r n i, ways (Alt b r) n i = W b n i ++ ways r (n + groups_branch b) i.
  Proof. reflexivity. Qed.
  Lemma ways_alt1 : forall b n i, ways (Alt1 b) n i = W b n i.
  Proof. reflexivity. Qed.
  Lemma blanks_hd : forall B n i b s w, at_ i (b ++ s) -> allb blankb b -> starts blankb s = false ->
    hd_error (W B n (i + Z.of_nat (length b))) = Some w -> hd_error (W (P sp star B) n i) = Some w.
  Proof.
    intros B n i b s [j ev] A Fb S H. change ev with ([] ++ ev).
    apply (piece_hd t nocase at_start _ _ _ n i (i + Z.of_nat (length b)) []).
    - eapply star_hd; [exact A | exact (forall_cls _ _ cls_blank _ Fb) | now rewrite (starts_cls _ _ _ cls_blank)].
    - cbn [groups_atom sp]. rewrite Nat.add_0_r. exact H.
  Qed.
  Lemma blanks_nil : forall B n i b s, at_ i (b ++ s) -> allb blankb b -> starts blankb s = false ->
    (forall j c s', at_ j (c :: s') -> blankb c = true -> W B n j = []) ->
    W B n (i + Z.of_nat (length b)) = [] -> W (P sp star B) n i = [].
  Proof.
    intros B n i b s A Fb S Hb H. apply piece_nil. intros e ev I.
    apply (star_in _ _ _ _ _ b s) in I; [ | exact A | exact (forall_cls _ _ cls_blank _ Fb) | now rewrite (starts_cls _ _ _ cls_blank)].
    destruct I as (k & K & ->). cbn [groups_atom sp]. rewrite Nat.add_0_r.
    destruct (Nat.eq_dec k (length b)) as [-> | N]; [exact H | ].
    destruct (at_inside t i b s k A ltac:(lia)) as (c & s' & I & A'). apply (Hb _ c s' A'). now apply (proj1 (Forall_forall _ _) Fb).
  Qed.
  Lemma cls_star_hd : forall l p B n i b s w, (forall c, cls l c = p c) -> at_ i (b ++ s) -> allb p b -> starts p s = false ->
    hd_error (W B n (i + Z.of_nat (length b))) = Some w -> hd_error (W (P (Cls false l) star B) n i) = Some w.
  Proof.
    intros l p B n i b s [j ev] E A Fb S H. change ev with ([] ++ ev).
    apply (piece_hd t nocase at_start _ _ _ n i (i + Z.of_nat (length b)) []).
    - eapply star_hd; [exact A | exact (forall_cls _ _ E _ Fb) | now rewrite (starts_cls _ _ _ E)].
    - cbn [groups_atom]. rewrite Nat.add_0_r. exact H.
  Qed.

  Lemma digits_hd : forall n i ds s, at_ i (ds ++ s) -> ds <> [] -> allb digitb ds -> starts digitb s = false ->
    hd_error (times One (ways_atom (G (P dg plus Nil)) n) i) =
    Some (i + Z.of_nat (length ds), [Opened n i; Closed n (i + Z.of_nat (length ds))]).
  Proof.
    intros n i ds s A N F S. change [Opened n i; Closed n (i + Z.of_nat (length ds))] with
      (Opened n i :: (@nil event ++ []) ++ [Closed n (i + Z.of_nat (length ds))]).
    apply grp_hd. change (ways (Alt1 (P dg plus Nil)) (Datatypes.S n) i) with (W (P dg plus Nil) (Datatypes.S n) i).
    eapply piece_hd; [ | reflexivity].
    eapply plus_hd; [exact A | exact N | exact (forall_cls _ _ cls_digit _ F) | now rewrite (starts_cls _ _ _ cls_digit)].
  Qed.
  Lemma digits_in : forall n i ds s e ev, at_ i (ds ++ s) -> allb digitb ds -> starts digitb s = false ->
    In (e, ev) (times One (ways_atom (G (P dg plus Nil)) n) i) -> exists k, (1 <= k <= length ds)%nat /\ e = i + Z.of_nat k.
  Proof.
    intros n i ds s e ev A F S I. apply grp_in in I. destruct I as (ev' & I).
    change (ways (Alt1 (P dg plus Nil)) (Datatypes.S n) i) with (and_then (times plus (ways_atom dg (Datatypes.S n)) i) (W Nil (Datatypes.S n + 0))) in I.
    unfold and_then in I. apply in_flat_map in I. destruct I as ([e1 ev1] & I1 & I2). cbn [fst snd map Regexp_Spec.ways_branch] in I2.
    destruct I2 as [I2 | []]. injection I2 as <- _.
    eapply plus_in; [exact A | exact (forall_cls _ _ cls_digit _ F) | rewrite (starts_cls _ _ _ cls_digit); exact S | exact I1].
  Qed.
  Lemma no_digits : forall B n i s, at_ i s -> starts digitb s = false -> W (P (G (P dg plus Nil)) One B) n i = [].
  Proof.
    intros B n i s A S. apply piece_nil. intros e ev I. destruct (digits_in n i [] s e ev A ltac:(constructor) S I) as (k & K & _).
    cbn in K. lia.
  Qed.
  (** Digits, after which nothing fits *)
  Lemma digits_nil : forall B n i ds s, at_ i (ds ++ s) -> allb digitb ds -> starts digitb s = false ->
    (forall j c s', at_ j (c :: s') -> digitb c = true -> W B (n + 1) j = []) ->
    (ds <> [] -> W B (n + 1) (i + Z.of_nat (length ds)) = []) -> W (P (G (P dg plus Nil)) One B) n i = [].
  Proof.
    intros B n i ds s A F S Hd H. apply piece_nil. intros e ev I.
    destruct (digits_in n i ds s e ev A F S I) as (k & K & ->). cbn [groups_atom groups groups_branch dg Nat.add].
    destruct (Nat.eq_dec k (length ds)) as [-> | N]; [apply H; intros ->; cbn in K; lia | ].
    destruct (at_inside t i ds s k A ltac:(lia)) as (c & s' & I' & A'). apply (Hd _ c s' A'). now apply (proj1 (Forall_forall _ _) F).
  Qed.
  Lemma lit_nil : forall B n i c s x, at_ i (x :: s) -> eqc nocase c x = false -> W (P (Lit [c]) One B) n i = [].
  Proof.
    intros B n i c s x A E. apply piece_nil. intros e ev I. rewrite lit_times, (literal_at t nocase [c] i _ A), E in I. destruct I.
  Qed.
  Lemma lit_end : forall B n i c, at_ i [] -> W (P (Lit [c]) One B) n i = [].
  Proof. intros B n i c A. apply piece_nil. intros e ev I. rewrite lit_times, (literal_at t nocase [c] i _ A) in I. destruct I. Qed.
  Lemma lit_hd : forall B n i c s w, at_ i (c :: s) -> hd_error (W B n (i + 1)) = Some w -> hd_error (W (P (Lit [c]) One B) n i) = Some w.
  Proof.
    intros B n i c s [j ev] A H. change ev with ([] ++ ev). apply (piece_hd t nocase at_start _ _ _ n i (i + 1) []).
    - rewrite lit_times, (literal_at t nocase [c] i _ A). unfold eqc. destruct nocase; rewrite Z.eqb_refl; reflexivity.
    - cbn [groups_atom]. rewrite Nat.add_0_r. exact H.
  Qed.
  Lemma dg_hd : forall B n i c s w, at_ i (c :: s) -> digitb c = true -> hd_error (W B n (i + 1)) = Some w ->
    hd_error (W (P dg One B) n i) = Some w.
  Proof.
    intros B n i c s [j ev] A D H. change ev with ([] ++ ev). apply (piece_hd t nocase at_start _ _ _ n i (i + 1) []).
    - unfold dg. rewrite (cls_one t nocase at_start _ _ c s i A), cls_digit, D. reflexivity.
    - cbn [groups_atom dg]. rewrite Nat.add_0_r. exact H.
  Qed.

  (** * A number *)

  Definition tail_number : branch := P (Grp (Alt (P sp plus Nil) (Alt1 (P Eol One Nil)))) One Nil.
  Lemma tail_number_nil : forall n i c s, at_ i (c :: s) -> blankb c = false -> W tail_number n i = [].
  Proof.
    intros n i c s A Nb. apply piece_nil. intros e ev I. exfalso. apply grp_in in I. destruct I as (ev' & I).
    rewrite ways_alt in I. apply in_app_or in I. destruct I as [I | I].
    - rewrite (piece_nil t nocase at_start sp plus Nil _ i) in I; [destruct I | ]. intros e' ev2 I2.
      destruct (plus_in t nocase at_start c_blank (S n) [] (c :: s) i e' ev2 A ltac:(constructor)) as (k & K & _);
        [now rewrite (starts_cls _ _ _ cls_blank) | exact I2 | cbn in K; lia].
    - change (In (e, ev') (and_then (if i =? Z.of_nat (length t) then [(i, [])] else []) (W Nil (S n + groups_branch (P sp plus Nil) + 0)))) in I.
      pose proof (at_length t i _ A) as L. cbn [length] in L. destruct (Z.eqb_spec i (Z.of_nat (length t))); [lia | ]. destruct I.
  Qed.
  Lemma tail_number_hd : forall n i s, at_ i s -> s = [] \/ starts blankb s = true ->
    exists j ev e, hd_error (W tail_number n i) = Some (j, Opened n i :: ev ++ [Closed n e]) /\ Forall (fun x => match x with Opened k _ | Closed k _ => k = n end) ev.
  Proof.
    intros n i s A H.
    assert (G : exists e, hd_error (ways (Alt (P sp plus Nil) (Alt1 (P Eol One Nil))) (S n) i) = Some (e, [])).
    { destruct H as [-> | H].
      - exists i. change (ways (Alt (P sp plus Nil) (Alt1 (P Eol One Nil))) (S n) i) with
          (W (P sp plus Nil) (S n) i ++ and_then (if i =? Z.of_nat (length t) then [(i, [])] else []) (W Nil (S n + 0 + 0))).
        rewrite (piece_nil t nocase at_start sp plus Nil _ i).
        + pose proof (at_length t i _ A) as L. cbn [length] in L. destruct (Z.eqb_spec i (Z.of_nat (length t))); [reflexivity | lia].
        + intros e' ev2 I2.
          destruct (plus_in t nocase at_start c_blank (S n) [] [] i e' ev2 A ltac:(constructor)) as (k & K & _); [reflexivity | exact I2 | cbn in K; lia].
      - destruct s as [ | c s]; [discriminate | ]. cbn [starts] in H.
        assert (exists bs r, c :: s = bs ++ r /\ bs <> [] /\ allb blankb bs /\ starts blankb r = false) as (bs & r & E & N & F & S).
        { clear - H. assert (exists bs r, s = bs ++ r /\ allb blankb bs /\ starts blankb r = false) as (bs & r & E & F & S).
          { clear. induction s as [ | x s IH]; [exists [], []; repeat split; constructor | ].
            destruct (blankb x) eqn:B; [ | exists [], (x :: s); repeat split; [constructor | exact B]].
            destruct IH as (bs & r & -> & F & S). exists (x :: bs), r. repeat split; [constructor; auto | exact S]. }
          exists (c :: bs), r. subst s. repeat split; auto; [discriminate | constructor; auto]. }
        rewrite E in A. exists (i + Z.of_nat (length bs)).
        assert (X : hd_error (W (P sp plus Nil) (Datatypes.S n) i) = Some (i + Z.of_nat (length bs), [])).
        { change (@nil event) with (@nil event ++ []). eapply piece_hd; [ | reflexivity].
          eapply plus_hd; [exact A | exact N | exact (forall_cls _ _ cls_blank _ F) | now rewrite (starts_cls _ _ _ cls_blank)]. }
        change (ways (Alt (P sp plus Nil) (Alt1 (P Eol One Nil))) (Datatypes.S n) i) with
          (W (P sp plus Nil) (Datatypes.S n) i ++ ways (Alt1 (P Eol One Nil)) (Datatypes.S n + 0) i).
        destruct (W (P sp plus Nil) (Datatypes.S n) i); [discriminate | exact X]. }
    destruct G as (e & G). exists e, [], e. split; [ | constructor].
    change (Opened n i :: [] ++ [Closed n e]) with ((Opened n i :: [] ++ [Closed n e]) ++ []).
    eapply piece_hd; [ | reflexivity]. apply grp_hd. exact G.
  Qed.

  Lemma number_hd : forall i b ds s, at_ i (b ++ ds ++ s) -> allb blankb b -> ds <> [] -> allb digitb ds -> (s = [] \/ starts blankb s = true) ->
    exists j ev, hd_error (ways r_number 1 i) = Some (j, ev) /\
      last_opened 1 ev = Some (i + Z.of_nat (length b)) /\
      last_closed 1 ev = Some (i + Z.of_nat (length b) + Z.of_nat (length ds)).
  Proof.
    intros i b ds s A Fb N Fd E. pose proof (at_app _ _ _ _ A) as A1. pose proof (at_app _ _ _ _ A1) as A2.
    assert (Sd : starts digitb s = false).
    { destruct E as [-> | E]; [reflexivity | ]. destruct s as [ | c s]; [reflexivity | ]. cbn [starts] in *. unfold blankb, digitb in *. lia. }
    destruct (tail_number_hd 2 _ s A2 E) as (j & ev & e & H & F).
    set (i1 := i + Z.of_nat (length b)) in *. set (i2 := i1 + Z.of_nat (length ds)) in *.
    exists j, ([Opened 1 i1; Closed 1 i2] ++ Opened 2 i2 :: ev ++ [Closed 2 e]). split.
    - change (ways r_number 1 i) with (W (P sp star (P (G (P dg plus Nil)) One tail_number)) 1 i).
      apply (blanks_hd _ _ _ b (ds ++ s)); auto.
      + destruct ds as [ | d ds]; [congruence | ]. inversion Fd; subst. cbn [starts app]. unfold blankb, digitb in *. lia.
      + apply (piece_hd t nocase at_start _ _ _ 1 i1 i2 [Opened 1 i1; Closed 1 i2]).
        * apply (digits_hd 1 i1 ds s); auto.
        * exact H.
    - assert (Q : forall l, Forall (fun x => match x with Opened k _ | Closed k _ => k = 2%nat end) l ->
                  last_opened 1 l = None /\ last_closed 1 l = None).
      { induction l as [ | x l IH]; [split; reflexivity | ]. intros X. inversion X as [ | x' l' X1 X2]; subst. destruct (IH X2) as [I1 I2].
        cbn [last_opened last_closed]. rewrite I1, I2. destruct x; subst; split; reflexivity. }
      destruct (Q (Opened 2 i2 :: ev ++ [Closed 2 e])) as [Q1 Q2].
      { constructor; [reflexivity | ]. apply Forall_app. split; [exact F | repeat constructor]. }
      split.
      + change (match last_opened 1 (Closed 1 i2 :: Opened 2 i2 :: ev ++ [Closed 2 e]) with Some x => Some x | None => Some i1 end = Some i1).
        change (last_opened 1 (Closed 1 i2 :: Opened 2 i2 :: ev ++ [Closed 2 e])) with
          (match last_opened 1 (Opened 2 i2 :: ev ++ [Closed 2 e]) with Some x => Some x | None => None end). rewrite Q1. reflexivity.
      + change (match match last_closed 1 (Opened 2 i2 :: ev ++ [Closed 2 e]) with Some x => Some x | None => Some i2 end with Some x => Some x | None => None end = Some i2).
        rewrite Q2. reflexivity.
  Qed.
  Lemma number_nil : forall i b ds c s, at_ i (b ++ ds ++ c :: s) -> allb blankb b -> allb digitb ds ->
    digitb c = false -> blankb c = false -> ways r_number 1 i = [].
  Proof.
    intros i b ds c s A Fb Fd Dc Bc. change (ways r_number 1 i) with (W (P sp star (P (G (P dg plus Nil)) One tail_number)) 1 i).
    pose proof (at_app _ _ _ _ A) as A1. pose proof (at_app _ _ _ _ A1) as A2. apply (blanks_nil _ _ _ b (ds ++ c :: s)); auto.
    - destruct ds as [ | d ds]; [exact Bc | ]. inversion Fd; subst. cbn [starts app]. unfold blankb, digitb in *. lia.
    - intros j c' s' A' B'. apply (no_digits _ _ _ _ A'). cbn [starts]. unfold blankb, digitb in *. lia.
    - apply (digits_nil _ _ _ ds (c :: s)); auto.
      + intros j c' s' A' D'. apply (tail_number_nil _ _ c' s' A'). unfold blankb, digitb in *. lia.
      + intros _. exact (tail_number_nil _ _ c s A2 Bc).
  Qed.

  (** * A time *)

  Definition g_sec : branch := P (Lit [58]) One (P dg plus Nil).
  Lemma sec_some : forall B n i ss s j ev, at_ i (58 :: ss ++ s) -> ss <> [] -> allb digitb ss -> starts digitb s = false ->
    let e := i + 1 + Z.of_nat (length ss) in
    hd_error (W B (n + 1) e) = Some (j, ev) -> hd_error (W (P (G g_sec) opt B) n i) = Some (j, [Opened n i; Closed n e] ++ ev).
  Proof.
    intros B n i ss s j ev A N F S e H. apply (piece_hd t nocase at_start _ _ _ n i e [Opened n i; Closed n e]); [ | exact H].
    apply opt_hd. change [Opened n i; Closed n e] with (Opened n i :: [] ++ [Closed n e]). apply grp_hd. rewrite ways_alt1.
    apply (lit_hd _ _ _ _ (ss ++ s)); [exact A | ]. change (@nil event) with (@nil event ++ []). eapply piece_hd; [ | reflexivity].
    apply (plus_hd t nocase at_start c_digit _ ss s); auto; [exact (at_cons _ _ _ _ A) | exact (forall_cls _ _ cls_digit _ F) | now rewrite (starts_cls _ _ _ cls_digit)].
  Qed.
  Lemma sec_none : forall B n i s w, at_ i s -> starts (Z.eqb 58) s = false ->
    hd_error (W B (n + 1) i) = Some w -> hd_error (W (P (G g_sec) opt B) n i) = Some w.
  Proof.
    intros B n i s [j ev] A S H. change ev with ([] ++ ev). apply (piece_hd t nocase at_start _ _ _ n i i []); [ | exact H].
    apply opt_no. cbn [Regexp_Spec.times]. change (ways_atom (G g_sec) n i) with
      (map (fun w : way => (fst w, Opened n i :: snd w ++ [Closed n (fst w)])) (W g_sec (Datatypes.S n) i)).
    replace (W g_sec (Datatypes.S n) i) with (@nil way); [reflexivity | ]. symmetry. destruct s as [ | c s]; [apply lit_end; exact A | ].
    apply (lit_nil _ _ _ _ s c); [exact A | ]. cbn [starts] in S. unfold eqc, upper. destruct nocase; [ | exact S].
    change ((97 <=? 58) && (58 <=? 122)) with false. cbv iota. destruct ((97 <=? c) && (c <=? 122)) eqn:X; lia.
  Qed.

  Definition r_zone : regex := Alt (P (Cls false c_upper) plus Nil) (Alt1 (P (Cls false c_sign) One (P dg plus Nil))).
  Lemma zone_letters : forall B n i zs s j ev, at_ i (zs ++ s) -> zs <> [] -> allb upperb zs -> starts upperb s = false ->
    let e := i + Z.of_nat (length zs) in
    hd_error (W B (n + 1) e) = Some (j, ev) -> hd_error (W (P (Grp r_zone) opt B) n i) = Some (j, [Opened n i; Closed n e] ++ ev).
  Proof.
    intros B n i zs s j ev A N F S e H. apply (piece_hd t nocase at_start _ _ _ n i e [Opened n i; Closed n e]); [ | exact H].
    apply opt_hd. change [Opened n i; Closed n e] with (Opened n i :: [] ++ [Closed n e]). apply grp_hd. unfold r_zone. rewrite ways_alt.
    assert (X : hd_error (W (P (Cls false c_upper) plus Nil) (Datatypes.S n) i) = Some (e, [])).
    { change (@nil event) with (@nil event ++ []). eapply piece_hd; [ | reflexivity].
      apply (plus_hd t nocase at_start c_upper _ zs s); auto; [exact (forall_cls _ _ cls_upper _ F) | now rewrite (starts_cls _ _ _ cls_upper)]. }
    destruct (W (P (Cls false c_upper) plus Nil) (Datatypes.S n) i); [discriminate | exact X].
  Qed.
  Lemma zone_upper_nil : forall n i s, at_ i s -> starts upperb s = false -> W (P (Cls false c_upper) plus Nil) n i = [].
  Proof.
    intros n i s A S. apply piece_nil. intros e ev I.
    destruct (plus_in t nocase at_start c_upper n [] s i e ev A ltac:(constructor)) as (k & K & _);
      [now rewrite (starts_cls _ _ _ cls_upper) | exact I | cbn in K; lia].
  Qed.
  Lemma zone_signed : forall B n i c ds s j ev, at_ i (c :: ds ++ s) -> signb c = true -> ds <> [] -> allb digitb ds -> starts digitb s = false ->
    let e := i + 1 + Z.of_nat (length ds) in
    hd_error (W B (n + 1) e) = Some (j, ev) -> hd_error (W (P (Grp r_zone) opt B) n i) = Some (j, [Opened n i; Closed n e] ++ ev).
  Proof.
    intros B n i c ds s j ev A C N F S e H. apply (piece_hd t nocase at_start _ _ _ n i e [Opened n i; Closed n e]); [ | exact H].
    apply opt_hd. change [Opened n i; Closed n e] with (Opened n i :: [] ++ [Closed n e]). apply grp_hd. unfold r_zone. rewrite ways_alt.
    rewrite (zone_upper_nil _ _ _ A) by (cbn [starts]; unfold signb, upperb in *; lia). cbn [app]. rewrite ways_alt1.
    change (@nil event) with (@nil event ++ []). apply (piece_hd t nocase at_start _ _ _ _ i (i + 1) []).
    - rewrite (cls_one t nocase at_start _ _ c (ds ++ s) i A), cls_sign, C. reflexivity.
    - change (@nil event) with (@nil event ++ []). eapply piece_hd; [ | reflexivity].
      apply (plus_hd t nocase at_start c_digit _ ds s); auto; [exact (at_cons _ _ _ _ A) | exact (forall_cls _ _ cls_digit _ F) | now rewrite (starts_cls _ _ _ cls_digit)].
  Qed.
  Lemma zone_none : forall B n i s w, at_ i s -> starts upperb s = false -> starts signb s = false ->
    hd_error (W B (n + 1) i) = Some w -> hd_error (W (P (Grp r_zone) opt B) n i) = Some w.
  Proof.
    intros B n i s [j ev] A S1 S2 H. change ev with ([] ++ ev). apply (piece_hd t nocase at_start _ _ _ n i i []); [ | exact H].
    apply opt_no. cbn [Regexp_Spec.times]. change (ways_atom (Grp r_zone) n i) with
      (map (fun w : way => (fst w, Opened n i :: snd w ++ [Closed n (fst w)])) (ways r_zone (S n) i)).
    replace (ways r_zone (S n) i) with (@nil way); [reflexivity | ]. symmetry. unfold r_zone. rewrite ways_alt.
    rewrite (zone_upper_nil _ _ _ A S1). cbn [app]. rewrite ways_alt1. apply piece_nil. intros e ev' I. exfalso.
    destruct s as [ | c s].
    - rewrite (cls_end t nocase at_start _ _ i A) in I. destruct I.
    - rewrite (cls_one t nocase at_start _ _ c s i A), cls_sign in I. cbn [starts] in S2. rewrite S2 in I. destruct I.
  Qed.

  Definition tail_time : branch := P (G g_sec) opt (P sp star (P (Grp r_zone) opt (P sp star Nil))).
  (** hh:mm and anything the rest can match *)
  Lemma time_start : forall i b hh mm s j ev, at_ i (b ++ hh ++ 58 :: mm ++ s) -> allb blankb b -> hh <> [] -> allb digitb hh ->
    mm <> [] -> allb digitb mm -> starts digitb s = false ->
    let i1 := i + Z.of_nat (length b) in let i2 := i1 + Z.of_nat (length hh) in let i3 := i2 + 1 + Z.of_nat (length mm) in
    hd_error (W tail_time 3 i3) = Some (j, ev) ->
    hd_error (ways r_time 1 i) = Some (j, Opened 1 i1 :: Closed 1 i2 :: Opened 2 (i2 + 1) :: Closed 2 i3 :: ev).
  Proof.
    intros i b hh mm s j ev A Fb Nh Fh Nm Fm S i1 i2 i3 H.
    pose proof (at_app _ _ _ _ A) as A1. fold i1 in A1. pose proof (at_app _ _ _ _ A1) as A2. fold i2 in A2.
    pose proof (at_cons _ _ _ _ A2) as A3.
    change (ways r_time 1 i) with (W (P sp star (P (G (P dg plus Nil)) One (P (Lit [58]) One (P (G (P dg plus Nil)) One tail_time)))) 1 i).
    apply (blanks_hd _ _ _ b (hh ++ 58 :: mm ++ s)); auto.
    - destruct hh as [ | d ds]; [congruence | ]. inversion Fh; subst. cbn [starts app]. unfold blankb, digitb in *. lia.
    - apply (piece_hd t nocase at_start _ _ _ 1 i1 i2 [Opened 1 i1; Closed 1 i2]); [apply (digits_hd 1 i1 hh (58 :: mm ++ s)); auto | ].
      apply (lit_hd _ _ _ _ (mm ++ s)); [exact A2 | ].
      apply (piece_hd t nocase at_start _ _ _ 2 (i2 + 1) i3 [Opened 2 (i2 + 1); Closed 2 i3]); [apply (digits_hd 2 (i2 + 1) mm s); auto | ].
      exact H.
  Qed.
  Lemma time_nil : forall i b ds c s, at_ i (b ++ ds ++ c :: s) -> allb blankb b -> allb digitb ds ->
    digitb c = false -> blankb c = false -> c <> 58 -> nocase = false -> ways r_time 1 i = [].
  Proof.
    intros i b ds c s A Fb Fd Dc Bc Cc NC.
    change (ways r_time 1 i) with (W (P sp star (P (G (P dg plus Nil)) One (P (Lit [58]) One (P (G (P dg plus Nil)) One tail_time)))) 1 i).
    pose proof (at_app _ _ _ _ A) as A1. pose proof (at_app _ _ _ _ A1) as A2. apply (blanks_nil _ _ _ b (ds ++ c :: s)); auto.
    - destruct ds as [ | d ds]; [exact Bc | ]. inversion Fd; subst. cbn [starts app]. unfold blankb, digitb in *. lia.
    - intros j c' s' A' B'. apply (no_digits _ _ _ _ A'). cbn [starts]. unfold blankb, digitb in *. lia.
    - apply (digits_nil _ _ _ ds (c :: s)); auto.
      + intros j c' s' A' D'. apply (lit_nil _ _ _ _ s' c' A'). unfold eqc, digitb in *. rewrite NC. lia.
      + intros _. apply (lit_nil _ _ _ _ s c A2). unfold eqc. rewrite NC. lia.
  Qed.

  (** * Names *)

  Lemma alts_nil : forall l m n i, (forall x, In x (m :: l) -> literal x i = false) -> ways (alts m l) n i = [].
  Proof.
    assert (L : forall m n i, literal m i = false -> W (P (Lit m) One Nil) n i = []).
    { intros m n i H. apply piece_nil. intros e ev I. rewrite lit_times, H in I. destruct I. }
    induction l as [ | m' l IH]; intros m n i H; cbn [alts].
    - rewrite ways_alt1. apply L, H. now left.
    - rewrite ways_alt, L by (apply H; now left). cbn [app]. apply IH. intros x I. apply H. now right.
  Qed.
  Lemma alts_hd : forall l m n i x, In x (m :: l) -> literal x i = true -> Forall (fun y => length y = 3%nat) (m :: l) ->
    hd_error (ways (alts m l) n i) = Some (i + 3, []).
  Proof.
    assert (L : forall m n i, literal m i = true -> length m = 3%nat -> W (P (Lit m) One Nil) n i = [(i + 3, [])]).
    { intros m n i H E. change (W (P (Lit m) One Nil) n i) with (and_then (times One (ways_atom (Lit m) n) i) (W Nil (n + 0))).
      rewrite lit_times, H, E. reflexivity. }
    assert (L' : forall m n i, literal m i = false -> W (P (Lit m) One Nil) n i = []).
    { intros m n i H. apply piece_nil. intros e ev I. rewrite lit_times, H in I. destruct I. }
    induction l as [ | m' l IH]; intros m n i x I H F; cbn [alts].
    - destruct I as [-> | []]. rewrite ways_alt1, L by (auto; now inversion F). reflexivity.
    - rewrite ways_alt. inversion F as [ | y l' F1 F2]; subst. destruct (literal m i) eqn:E; [now rewrite L by auto | ].
      rewrite L' by exact E. cbn [app]. destruct I as [-> | I]; [congruence | ]. apply (IH m' _ i x); auto.
  Qed.
  Lemma grp_alts_nil : forall B l m n i, (forall x, In x (m :: l) -> literal x i = false) -> W (P (Grp (alts m l)) One B) n i = [].
  Proof.
    intros B l m n i H. apply piece_nil. intros e ev I. apply grp_in in I. destruct I as (ev' & I). rewrite alts_nil in I by exact H. destruct I.
  Qed.

  (** No name starts with this character *)
  Definition odd (c : Z) : Prop := ~ (65 <= c <= 90) /\ ~ (97 <= c <= 122).
  Lemma odd_literal : forall m l i c s, at_ i (c :: s) -> odd c -> 65 <= m <= 90 -> literal (m :: l) i = false.
  Proof.
    intros m l i c s A O M. rewrite (literal_at t nocase (m :: l) i _ A).
    replace (eqc nocase m c) with false; [reflexivity | ]. unfold eqc, upper, odd in *.
    destruct nocase; [ | lia]. destruct ((97 <=? m) && (m <=? 122)) eqn:X1; [lia | ]. destruct ((97 <=? c) && (c <=? 122)) eqn:X2; lia.
  Qed.
  Lemma odd_day : forall i c s x, at_ i (c :: s) -> odd c -> In x ([77; 111; 110] :: days_in_order) -> literal x i = false.
  Proof. intros i c s x A O I. repeat (destruct I as [<- | I]; [apply (odd_literal _ _ _ c s A O); lia | ]). destruct I. Qed.
  Lemma odd_month : forall i c s x, at_ i (c :: s) -> odd c -> In x ([74; 97; 110] :: months_in_order) -> literal x i = false.
  Proof. intros i c s x A O I. repeat (destruct I as [<- | I]; [apply (odd_literal _ _ _ c s A O); lia | ]). destruct I. Qed.
  Lemma blank_odd : forall c, blankb c = true -> odd c.
  Proof. unfold blankb, odd. intros; lia. Qed.
  Lemma digit_odd : forall c, digitb c = true -> odd c.
  Proof. unfold digitb, odd. intros; lia. Qed.

  Lemma day_nil : forall i b s, at_ i (b ++ s) -> allb blankb b -> starts blankb s = false ->
    (forall x, In x ([77; 111; 110] :: days_in_order) -> literal x (i + Z.of_nat (length b)) = false) -> ways r_day 1 i = [].
  Proof.
    intros i b s A Fb S H. unfold r_day. rewrite ways_alt1. apply (blanks_nil _ _ _ b s); auto.
    - intros j c s' A' B'. apply grp_alts_nil. intros x I. exact (odd_day j c s' x A' (blank_odd c B') I).
    - apply grp_alts_nil. exact H.
  Qed.
  Lemma month_nil : forall i b s, at_ i (b ++ s) -> allb blankb b -> starts blankb s = false ->
    (forall x, In x ([74; 97; 110] :: months_in_order) -> literal x (i + Z.of_nat (length b)) = false) -> ways r_month 1 i = [].
  Proof.
    intros i b s A Fb S H. unfold r_month. rewrite ways_alt1. apply (blanks_nil _ _ _ b s); auto.
    - intros j c s' A' B'. apply grp_alts_nil. intros x I. exact (odd_month j c s' x A' (blank_odd c B') I).
    - apply grp_alts_nil. exact H.
  Qed.
  (** A name, the rest of it, blanks, perhaps a comma and blanks *)
  Lemma day_hd : forall i b nm tl b2 cm b3 s x, at_ i (b ++ nm ++ tl ++ b2 ++ cm ++ b3 ++ s) -> allb blankb b -> length nm = 3%nat ->
    starts blankb nm = false -> allb lowerb tl -> allb blankb b2 -> allb blankb b3 -> (cm = [44] \/ cm = [] /\ b3 = [] /\ starts (Z.eqb 44) s = false) ->
    starts lowerb (b2 ++ cm ++ b3 ++ s) = false -> starts blankb s = false ->
    In x ([77; 111; 110] :: days_in_order) -> literal x (i + Z.of_nat (length b)) = true ->
    let i1 := i + Z.of_nat (length b) in
    hd_error (ways r_day 1 i) =
    Some (i + Z.of_nat (length (b ++ nm ++ tl ++ b2 ++ cm ++ b3)), [Opened 1 i1; Closed 1 (i1 + 3)]).
  Proof.
    intros i b nm tl b2 cm b3 s x A Fb L3 Sn Ft F2 F3 C Sl Ss I Lx i1. unfold r_day. rewrite ways_alt1.
    pose proof (at_app _ _ _ _ A) as A1. fold i1 in A1. pose proof (at_app _ _ _ _ A1) as A2. rewrite L3 in A2. change (Z.of_nat 3) with 3 in A2.
    pose proof (at_app _ _ _ _ A2) as A3. pose proof (at_app _ _ _ _ A3) as A4. pose proof (at_app _ _ _ _ A4) as A5.
    apply (blanks_hd _ _ _ b _ _ A Fb).
    - destruct nm as [ | c nm]; [discriminate | exact Sn].
    - change [Opened 1 i1; Closed 1 (i1 + 3)] with ([Opened 1 i1; Closed 1 (i1 + 3)] ++ []).
      apply (piece_hd t nocase at_start _ _ _ 1 i1 (i1 + 3) [Opened 1 i1; Closed 1 (i1 + 3)]).
      + change [Opened 1 i1; Closed 1 (i1 + 3)] with (Opened 1 i1 :: [] ++ [Closed 1 (i1 + 3)]). apply grp_hd.
        apply (alts_hd _ _ _ _ x I Lx). repeat constructor.
      + apply (cls_star_hd _ _ _ _ _ tl _ _ cls_lower A2 Ft Sl). apply (blanks_hd _ _ _ b2 _ _ A3 F2).
        * destruct C as [-> | (-> & -> & Sc)]; [reflexivity | exact Ss].
        * replace (i + Z.of_nat (length (b ++ nm ++ tl ++ b2 ++ cm ++ b3))) with
            (i1 + 3 + Z.of_nat (length tl) + Z.of_nat (length b2) + Z.of_nat (length cm) + Z.of_nat (length b3))
            by (subst i1; rewrite !app_length, L3; lia).
          destruct C as [-> | (-> & -> & Sc)].
          -- change (@nil event) with (@nil event ++ []).
             apply (piece_hd t nocase at_start _ _ _ _ _ (i1 + 3 + Z.of_nat (length tl) + Z.of_nat (length b2) + 1) []).
             ++ apply opt_hd. rewrite lit_times, (literal_at t nocase [44] _ _ A4). unfold eqc. destruct nocase; reflexivity.
             ++ change (Z.of_nat (length [44])) with 1 in *. apply (blanks_hd _ _ _ b3 s); auto.
          -- change (@nil event) with (@nil event ++ []).
             apply (piece_hd t nocase at_start _ _ _ _ _ (i1 + 3 + Z.of_nat (length tl) + Z.of_nat (length b2)) []).
             ++ apply opt_no. rewrite lit_times, (literal_at t nocase [44] _ _ A4). cbn [app]. destruct s as [ | c s]; [reflexivity | ].
                cbn [starts] in Sc. replace (eqc nocase 44 c) with false; [reflexivity | ]. unfold eqc, upper.
                change ((97 <=? 44) && (44 <=? 122)) with false. cbv iota. destruct nocase; [ | lia]. destruct ((97 <=? c) && (c <=? 122)) eqn:X; lia.
             ++ cbn [length Z.of_nat] in *. rewrite !Z.add_0_r. apply (blanks_hd _ _ _ [] s); auto.
                cbn [length Z.of_nat]. rewrite !Z.add_0_r. reflexivity.
  Qed.
  Lemma month_hd : forall i b nm tl b2 s x, at_ i (b ++ nm ++ tl ++ b2 ++ s) -> allb blankb b -> length nm = 3%nat ->
    starts blankb nm = false -> allb lowerb tl -> allb blankb b2 -> starts lowerb (b2 ++ s) = false -> starts blankb s = false ->
    In x ([74; 97; 110] :: months_in_order) -> literal x (i + Z.of_nat (length b)) = true ->
    let i1 := i + Z.of_nat (length b) in
    hd_error (ways r_month 1 i) =
    Some (i + Z.of_nat (length (b ++ nm ++ tl ++ b2)), [Opened 1 i1; Closed 1 (i1 + 3)]).
  Proof.
    intros i b nm tl b2 s x A Fb L3 Sn Ft F2 Sl Ss I Lx i1. unfold r_month. rewrite ways_alt1.
    pose proof (at_app _ _ _ _ A) as A1. fold i1 in A1. pose proof (at_app _ _ _ _ A1) as A2. rewrite L3 in A2. change (Z.of_nat 3) with 3 in A2.
    pose proof (at_app _ _ _ _ A2) as A3. apply (blanks_hd _ _ _ b _ _ A Fb).
    - destruct nm as [ | c nm]; [discriminate | exact Sn].
    - change [Opened 1 i1; Closed 1 (i1 + 3)] with ([Opened 1 i1; Closed 1 (i1 + 3)] ++ []).
      apply (piece_hd t nocase at_start _ _ _ 1 i1 (i1 + 3) [Opened 1 i1; Closed 1 (i1 + 3)]).
      + change [Opened 1 i1; Closed 1 (i1 + 3)] with (Opened 1 i1 :: [] ++ [Closed 1 (i1 + 3)]). apply grp_hd.
        apply (alts_hd _ _ _ _ x I Lx). repeat constructor.
      + apply (cls_star_hd _ _ _ _ _ tl _ _ cls_lower A2 Ft Sl). apply (blanks_hd _ _ _ b2 _ _ A3 F2 Ss).
        replace (i + Z.of_nat (length (b ++ nm ++ tl ++ b2))) with
            (i1 + 3 + Z.of_nat (length tl) + Z.of_nat (length b2))
            by (subst i1; rewrite !app_length, L3; lia). reflexivity.
  Qed.

  (** * ISO dates *)

  Lemma iso_hd : forall i b y1 y2 y3 y4 m1 m2 d1 d2 b2 s,
    at_ i (b ++ y1 :: y2 :: y3 :: y4 :: 45 :: m1 :: m2 :: 45 :: d1 :: d2 :: b2 ++ s) -> allb blankb b -> allb digitb [y1; y2; y3; y4; m1; m2; d1; d2] ->
    allb blankb b2 -> starts blankb s = false ->
    let i1 := i + Z.of_nat (length b) in
    hd_error (ways r_iso 1 i) =
    Some (i1 + 10 + Z.of_nat (length b2),
          [Opened 1 i1; Closed 1 (i1 + 4); Opened 2 (i1 + 5); Closed 2 (i1 + 7); Opened 3 (i1 + 8); Closed 3 (i1 + 10)]).
  Proof.
    intros i b y1 y2 y3 y4 m1 m2 d1 d2 b2 s A Fb Fd F2 Ss i1. unfold r_iso. rewrite ways_alt1.
    pose proof (at_app _ _ _ _ A) as A1. fold i1 in A1.
    pose proof (at_cons _ _ _ _ A1) as A2. pose proof (at_cons _ _ _ _ A2) as A3. pose proof (at_cons _ _ _ _ A3) as A4.
    pose proof (at_cons _ _ _ _ A4) as A5. pose proof (at_cons _ _ _ _ A5) as A6. pose proof (at_cons _ _ _ _ A6) as A7.
    pose proof (at_cons _ _ _ _ A7) as A8. pose proof (at_cons _ _ _ _ A8) as A9. pose proof (at_cons _ _ _ _ A9) as A10.
    pose proof (at_cons _ _ _ _ A10) as A11.
    unfold allb in Fd. repeat match goal with H : Forall _ (_ :: _) |- _ => inversion H; clear H; subst end.
    apply (blanks_hd _ _ _ b _ _ A Fb).
    - cbn [starts]. unfold blankb, digitb in *. lia.
    - change [Opened 1 i1; Closed 1 (i1 + 4); Opened 2 (i1 + 5); Closed 2 (i1 + 7); Opened 3 (i1 + 8); Closed 3 (i1 + 10)] with
        ([Opened 1 i1; Closed 1 (i1 + 4)] ++ [Opened 2 (i1 + 5); Closed 2 (i1 + 7)] ++ [Opened 3 (i1 + 8); Closed 3 (i1 + 10)] ++ []).
      apply (piece_hd t nocase at_start _ _ _ 1 i1 (i1 + 4) [Opened 1 i1; Closed 1 (i1 + 4)]).
      + change [Opened 1 i1; Closed 1 (i1 + 4)] with (Opened 1 i1 :: [] ++ [Closed 1 (i1 + 4)]). apply grp_hd. rewrite ways_alt1. unfold four.
        eapply dg_hd; [exact A1 | assumption | ]. eapply dg_hd; [exact A2 | assumption | ]. eapply dg_hd; [exact A3 | assumption | ].
        eapply dg_hd; [exact A4 | assumption | ]. cbn [Regexp_Spec.ways_branch hd_error]. f_equal. f_equal. clear - i1; lia.
      + eapply lit_hd; [replace (i1 + 4) with (i1 + 1 + 1 + 1 + 1) by (clear - i1; lia); exact A5 | ].
        replace (i1 + 4 + 1) with (i1 + 5) by (clear - i1; lia).
        apply (piece_hd t nocase at_start _ _ _ 2 (i1 + 5) (i1 + 7) [Opened 2 (i1 + 5); Closed 2 (i1 + 7)]).
        * change [Opened 2 (i1 + 5); Closed 2 (i1 + 7)] with (Opened 2 (i1 + 5) :: [] ++ [Closed 2 (i1 + 7)]). apply grp_hd. rewrite ways_alt1. unfold two.
          eapply dg_hd; [replace (i1 + 5) with (i1 + 1 + 1 + 1 + 1 + 1) by (clear - i1; lia); exact A6 | assumption | ].
          eapply dg_hd; [replace (i1 + 5 + 1) with (i1 + 1 + 1 + 1 + 1 + 1 + 1) by (clear - i1; lia); exact A7 | assumption | ].
          cbn [Regexp_Spec.ways_branch hd_error]. f_equal. f_equal. clear - i1; lia.
        * eapply lit_hd; [replace (i1 + 7) with (i1 + 1 + 1 + 1 + 1 + 1 + 1 + 1) by (clear - i1; lia); exact A8 | ].
          replace (i1 + 7 + 1) with (i1 + 8) by (clear - i1; lia).
          apply (piece_hd t nocase at_start _ _ _ 3 (i1 + 8) (i1 + 10) [Opened 3 (i1 + 8); Closed 3 (i1 + 10)]).
          -- change [Opened 3 (i1 + 8); Closed 3 (i1 + 10)] with (Opened 3 (i1 + 8) :: [] ++ [Closed 3 (i1 + 10)]). apply grp_hd. rewrite ways_alt1. unfold two.
             eapply dg_hd; [replace (i1 + 8) with (i1 + 1 + 1 + 1 + 1 + 1 + 1 + 1 + 1) by (clear - i1; lia); exact A9 | assumption | ].
             eapply dg_hd; [replace (i1 + 8 + 1) with (i1 + 1 + 1 + 1 + 1 + 1 + 1 + 1 + 1 + 1) by (clear - i1; lia); exact A10 | assumption | ].
             cbn [Regexp_Spec.ways_branch hd_error]. f_equal. f_equal. clear - i1; lia.
          -- apply (blanks_hd _ _ _ b2 s); auto. replace (i1 + 10) with (i1 + 1 + 1 + 1 + 1 + 1 + 1 + 1 + 1 + 1 + 1) by (clear - i1; lia). exact A11.
  Qed.
End Tokens.
