(** Proofs about timestamps and the calendar. *)
From Coq Require Import ZArith List Bool Lia ZifyBool.
From Verif Require Import Dates_Model Dates_Spec.
Import ListNotations.
Open Scope Z_scope.

(** * Timestamps *)

Lemma get_time_ok : forall t, 0 <= instant t < 2 ^ 64 -> get_time t = instant t.
Proof. intros t H. unfold get_time. fold (instant t). apply Z.mod_small. exact H. Qed.

Lemma fix_time_ok : forall t, 0 <= instant t < 2 ^ 64 ->
  instant (fix_time t) = instant t /\ normal (fix_time t).
Proof.
  intros t H. unfold fix_time. rewrite (get_time_ok t H). unfold instant at 1, normal. cbn [fst snd].
  pose proof (Z.div_mod (instant t) 86400 ltac:(lia)). pose proof (Z.mod_pos_bound (instant t) 86400 ltac:(lia)). lia.
Qed.

Lemma normal_unique : forall t u, normal t -> normal u -> instant t = instant u -> t = u.
Proof.
  intros [a b] [c d]. unfold normal, instant. cbn [fst snd]. intros. assert (a = c) by lia. assert (b = d) by lia. now subst.
Qed.

(** * The calendar *)

Lemma leapb_leap : forall y, leapb y = true <-> leap y.
Proof. intros y. unfold leapb, leap. lia. Qed.

Lemma div_step : forall y k, 0 < k -> y / k - (y - 1) / k = if y mod k =? 0 then 1 else 0.
Proof.
  intros y k Hk. pose proof (Z.div_mod y k ltac:(lia)) as E. pose proof (Z.mod_pos_bound y k Hk) as B.
  destruct (Z.eqb_spec (y mod k) 0) as [Z0 | NZ].
  - rewrite Z0 in E. assert ((y - 1) / k = y / k - 1) as ->; [ | lia].
    symmetry. apply (Z.div_unique_pos _ _ _ (k - 1)); lia.
  - assert ((y - 1) / k = y / k) as ->; [ | lia].
    symmetry. apply (Z.div_unique_pos _ _ _ (y mod k - 1)); lia.
Qed.

Lemma month_cases : forall m, 1 <= m <= 12 ->
  m = 1 \/ m = 2 \/ m = 3 \/ m = 4 \/ m = 5 \/ m = 6 \/ m = 7 \/ m = 8 \/ m = 9 \/ m = 10 \/ m = 11 \/ m = 12.
Proof. lia. Qed.

(** The years' days before the first of March *)
Definition years (y : Z) : Z := (y / 4 - y / 100) + y / 400 + y * 365.
Lemma years_step : forall y, years y - years (y - 1) = if leapb y then 366 else 365.
Proof.
  intros y. unfold years, leapb. pose proof (div_step y 4 ltac:(lia)) as A. pose proof (div_step y 100 ltac:(lia)) as B.
  pose proof (div_step y 400 ltac:(lia)) as C.
  assert (D : y mod 400 = 0 -> y mod 100 = 0) by (intros E; pose proof (Z.div_mod y 400 ltac:(lia)); rewrite E in *;
    replace y with (4 * (y / 400) * 100) by lia; apply Z.mod_mul; lia).
  assert (D' : y mod 100 = 0 -> y mod 4 = 0) by (intros E; pose proof (Z.div_mod y 100 ltac:(lia)); rewrite E in *;
    replace y with (25 * (y / 100) * 4) by lia; apply Z.mod_mul; lia).
  destruct (Z.eqb_spec (y mod 4) 0), (Z.eqb_spec (y mod 100) 0), (Z.eqb_spec (y mod 400) 0); cbn [andb orb negb] in *;
    try lia; exfalso; auto.
Qed.

Lemma total_days_eq : forall y m d, 1 <= y -> 1 <= m <= 12 ->
  total_days y m d = years (if m <=? 2 then y - 1 else y) + (367 * (if m <=? 2 then m + 10 else m - 2)) / 12 + d - 719499.
Proof.
  intros y m d Hy Hm. unfold total_days, years.
  destruct (Z.leb_spec (m - 2) 0), (Z.leb_spec m 2); try lia; rewrite !Z.quot_div_nonneg by lia.
  - replace (m - 2 + 12) with (m + 10) by lia. lia.
  - lia.
Qed.


Ltac closed :=
  repeat match goal with
  | |- context [Z.leb (Zpos ?a) ?b] => let v := eval vm_compute in (Z.leb (Zpos a) b) in change (Z.leb (Zpos a) b) with v
  | |- context [Z.eqb (Zpos ?a) ?b] => let v := eval vm_compute in (Z.eqb (Zpos a) b) in change (Z.eqb (Zpos a) b) with v
  | |- context [Z.div (Z.mul 367 ?c) 12] => let v := eval vm_compute in (Z.div (Z.mul 367 c) 12) in change (Z.div (Z.mul 367 c) 12) with v
  end; cbn [orb].

(** The day of the year *)
Definition before (l : bool) (m : Z) : Z :=
  (367 * (if m <=? 2 then m + 10 else m - 2)) / 12 - 336 + (if m <=? 2 then 0 else if l then 366 else 365).
Lemma total_days_doy : forall y m d, 1 <= y -> 1 <= m <= 12 ->
  total_days y m d = years (y - 1) + before (leapb y) m + d + 336 - 719499.
Proof.
  intros y m d Hy Hm. rewrite total_days_eq by assumption. unfold before. pose proof (years_step y).
  destruct (m <=? 2); destruct (leapb y); lia.
Qed.
Lemma before_step : forall y m, 1 <= m < 12 -> before (leapb y) (m + 1) = before (leapb y) m + month_length y m.
Proof.
  intros y m Hm. unfold before, month_length.
  destruct (month_cases m ltac:(lia)) as [->|[->|[->|[->|[->|[->|[->|[->|[->|[->|[->| ->]]]]]]]]]]]; try lia;
    match goal with |- context [?a + 1 <=? 2] => let v := eval vm_compute in (a + 1) in change (a + 1) with v end;
    closed; destruct (leapb y); reflexivity.
Qed.
Lemma before_1 : forall l, before l 1 = 0.
Proof. intros []; reflexivity. Qed.
Lemma before_12 : forall y, before (leapb y) 12 + month_length y 12 = if leapb y then 366 else 365.
Proof. intros y. unfold before, month_length. closed. destruct (leapb y); reflexivity. Qed.
Lemma month_length_pos : forall y m, 28 <= month_length y m <= 31.
Proof.
  intros y m. unfold month_length. destruct (m =? 2), (leapb y), ((m =? 4) || (m =? 6) || (m =? 9) || (m =? 11))%bool; lia.
Qed.

Lemma next_ok : forall d, valid d -> 1 <= d_year d ->
  let d' := next_day d in
  total_days (d_year d') (d_month d') (d_day d') = total_days (d_year d) (d_month d) (d_day d) + 1 /\
  valid d' /\ d_year d <= d_year d'.
Proof.
  intros [y m d] [Hm Hd] Hy. cbn [d_year d_month d_day] in *. unfold next_day. cbn [d_year d_month d_day].
  destruct (Z.ltb_spec d (month_length y m)) as [L | L]; cbn [d_year d_month d_day].
  - rewrite !total_days_eq by lia. unfold valid. cbn [d_year d_month d_day]. lia.
  - assert (d = month_length y m) by lia. subst d. clear L Hd.
    destruct (Z.ltb_spec m 12) as [L | L]; cbn [d_year d_month d_day].
    + split; [ | split; [ | lia]].
      * rewrite !total_days_doy by lia. rewrite before_step by lia. lia.
      * unfold valid. cbn [d_year d_month d_day]. pose proof (month_length_pos y (m + 1)). lia.
    + assert (m = 12) by lia. subst m. split; [ | split; [ | lia]].
      * rewrite !total_days_doy by lia. rewrite before_1. pose proof (before_12 y). pose proof (years_step y).
        replace (y + 1 - 1) with y by lia. destruct (leapb y); lia.
      * unfold valid. cbn [d_year d_month d_day]. pose proof (month_length_pos (y + 1) 1). lia.
Qed.

Lemma day_ok : forall n, total_days (d_year (day n)) (d_month (day n)) (d_day (day n)) = Z.of_nat n /\
  valid (day n) /\ 1970 <= d_year (day n).
Proof.
  induction n as [ | n (IH1 & IH2 & IH3)].
  - split; [reflexivity | ]. unfold day, epoch, valid. cbn. lia.
  - change (day (S n)) with (next_day (day n)). destruct (next_ok (day n) IH2 ltac:(lia)) as (A & B & C).
    cbv zeta in A. split; [rewrite A, IH1; lia | ]. split; [exact B | lia].
Qed.

(** Dates are in order *)
Lemma before_mono : forall y m k, 1 <= m -> m + Z.of_nat k < 12 ->
  before (leapb y) m + month_length y m <= before (leapb y) (m + 1 + Z.of_nat k).
Proof.
  intros y m k Hm. induction k as [ | k IH]; intros H.
  - replace (m + 1 + Z.of_nat 0) with (m + 1) by lia. rewrite before_step by lia. lia.
  - specialize (IH ltac:(lia)). replace (m + 1 + Z.of_nat (S k)) with (m + 1 + Z.of_nat k + 1) by lia.
    rewrite before_step by lia. pose proof (month_length_pos y (m + 1 + Z.of_nat k)). lia.
Qed.
Lemma before_lt : forall y m m', 1 <= m < m' -> m' <= 12 ->
  before (leapb y) m + month_length y m <= before (leapb y) m'.
Proof.
  intros y m m' H H'. pose proof (before_mono y m (Z.to_nat (m' - m - 1)) ltac:(lia) ltac:(lia)) as B.
  replace (m + 1 + Z.of_nat (Z.to_nat (m' - m - 1))) with m' in B by lia. exact B.
Qed.
Lemma doy_range : forall y m d, valid (mkdate y m d) -> 1 <= before (leapb y) m + d <= if leapb y then 366 else 365.
Proof.
  intros y m d [Hm Hd]. cbn [d_year d_month d_day] in *. pose proof (before_12 y) as E. split.
  - destruct (Z.eq_dec m 1) as [-> | N]; [rewrite before_1; lia | ].
    pose proof (before_lt y 1 m ltac:(lia) ltac:(lia)). rewrite before_1 in *. pose proof (month_length_pos y 1). lia.
  - destruct (Z.eq_dec m 12) as [-> | N]; [lia | ].
    pose proof (before_lt y m 12 ltac:(lia) ltac:(lia)). pose proof (month_length_pos y 12). lia.
Qed.
Lemma years_mono : forall y k, years y <= years (y + Z.of_nat k).
Proof.
  intros y. induction k as [ | k IH].
  - replace (y + Z.of_nat 0) with y by lia. lia.
  - pose proof (years_step (y + Z.of_nat (S k))) as Y. replace (y + Z.of_nat (S k) - 1) with (y + Z.of_nat k) in Y by lia.
    destruct (leapb (y + Z.of_nat (S k))); lia.
Qed.
(** Comparing dates: years, then months, then days *)
Lemma total_days_lt : forall y m d y' m' d', 1 <= y -> 1 <= y' -> valid (mkdate y m d) -> valid (mkdate y' m' d') ->
  (y < y' \/ y = y' /\ (m < m' \/ m = m' /\ d < d')) -> total_days y m d < total_days y' m' d'.
Proof.
  intros y m d y' m' d' Hy Hy' V V' O. pose proof (doy_range y m d V). pose proof (doy_range y' m' d' V').
  destruct V as [Hm Hd], V' as [Hm' Hd']. cbn [d_year d_month d_day] in *. rewrite !total_days_doy by lia.
  destruct O as [O | [<- [O | [<- O]]]].
  - pose proof (years_mono y (Z.to_nat (y' - 1 - y))) as M. replace (y + Z.of_nat (Z.to_nat (y' - 1 - y))) with (y' - 1) in M by lia.
    pose proof (years_step y). destruct (leapb y); lia.
  - pose proof (before_lt y m m' ltac:(lia) ltac:(lia)). lia.
  - lia.
Qed.
Lemma total_days_inj : forall y m d y' m' d', 1 <= y -> 1 <= y' -> valid (mkdate y m d) -> valid (mkdate y' m' d') ->
  total_days y m d = total_days y' m' d' -> mkdate y m d = mkdate y' m' d'.
Proof.
  intros y m d y' m' d' Hy Hy' V V' E.
  destruct (Z.eq_dec y y') as [<- | N].
  2: { exfalso. assert (y < y' \/ y' < y) as [L | L] by lia;
       [pose proof (total_days_lt y m d y' m' d' Hy Hy' V V' (or_introl L)) | pose proof (total_days_lt y' m' d' y m d Hy' Hy V' V (or_introl L))]; lia. }
  destruct (Z.eq_dec m m') as [<- | N].
  2: { exfalso. assert (m < m' \/ m' < m) as [L | L] by lia;
       [pose proof (total_days_lt y m d y m' d' Hy Hy' V V' ltac:(lia)) | pose proof (total_days_lt y m' d' y m d Hy' Hy V' V ltac:(lia))]; lia. }
  rewrite !total_days_doy in E by (destruct V; cbn [d_month] in *; lia). f_equal. lia.
Qed.

Lemma day_reached : forall d, valid d -> 1970 <= d_year d ->
  0 <= total_days (d_year d) (d_month d) (d_day d) /\
  day (Z.to_nat (total_days (d_year d) (d_month d) (d_day d))) = d.
Proof.
  intros [y m d] V Hy. cbn [d_year d_month d_day] in *.
  assert (0 <= total_days y m d).
  { change 0 with (total_days 1970 1 1). destruct (Z.eq_dec (total_days y m d) (total_days 1970 1 1)); [lia | ].
    assert (1970 < y \/ 1970 = y /\ (1 < m \/ 1 = m /\ 1 < d) \/ (y = 1970 /\ m = 1 /\ d = 1)) as O.
    { destruct V as [V1 V2]. cbn [d_year d_month d_day] in *. lia. }
    destruct O as [O | [O | (-> & -> & ->)]]; [ | | lia];
      apply Z.lt_le_incl, total_days_lt; auto; try lia; unfold valid; cbn; lia. }
  split; [assumption | ].
  destruct (day_ok (Z.to_nat (total_days y m d))) as (A & B & C). rewrite Z2Nat.id in A by assumption.
  destruct (day (Z.to_nat (total_days y m d))) as [y' m' d'] eqn:E. cbn [d_year d_month d_day] in *.
  apply total_days_inj; auto; lia.
Qed.

(** * Days of the week *)

Lemma weekday_ok : forall n, Z.of_nat (weekday n) = (Z.of_nat n + 4) mod 7.
Proof.
  induction n as [ | n IH]; [reflexivity | ].
  change (weekday (S n)) with ((fun w => match w with 6 => 0 | _ => S w end)%nat (weekday n)).
  replace (Z.of_nat (S n) + 4) with ((Z.of_nat n + 4) + 1) by lia. rewrite <- Zplus_mod_idemp_l, <- IH.
  assert (weekday n < 7)%nat as L by (pose proof (Z.mod_pos_bound (Z.of_nat n + 4) 7); lia).
  destruct (weekday n) as [ | [ | [ | [ | [ | [ | [ | w]]]]]]]; try reflexivity. lia.
Qed.
Lemma day_of_week_ok : forall t, 0 <= fst t -> day_of_week t = Z.of_nat (weekday (Z.to_nat (fst t))).
Proof.
  intros t H. rewrite weekday_ok, Z2Nat.id by exact H. unfold day_of_week.
  rewrite Z.rem_mod_nonneg by lia. pose proof (Z.mod_pos_bound (fst t + 4) 7 ltac:(lia)).
  destruct (Z.ltb_spec ((fst t + 4) mod 7) 0); lia.
Qed.

(** * The whole computation *)

Lemma epoch_time_ok : forall d h mi s tz,
  valid d -> 1970 <= d_year d ->
  exists n, day n = d /\
    (0 <= second_of (Z.of_nat n) h mi s tz < 2 ^ 64 ->
     let t := epoch_time (d_year d) (d_month d) (d_day d) h mi s tz in
     normal t /\ instant t = second_of (Z.of_nat n) h mi s tz).
Proof.
  intros d h mi s tz V Y. destruct (day_reached d V Y) as (P & E).
  exists (Z.to_nat (total_days (d_year d) (d_month d) (d_day d))). split; [exact E | ]. rewrite Z2Nat.id by exact P.
  intros R. unfold epoch_time.
  assert (I : instant (total_days (d_year d) (d_month d) (d_day d), total_seconds h mi s tz) =
              second_of (total_days (d_year d) (d_month d) (d_day d)) h mi s tz).
  { unfold instant, total_seconds, second_of. cbn [fst snd]. lia. }
  destruct (fix_time_ok (total_days (d_year d) (d_month d) (d_day d), total_seconds h mi s tz)) as (A & B); [rewrite I; exact R | ].
  rewrite A, I. auto.
Qed.
