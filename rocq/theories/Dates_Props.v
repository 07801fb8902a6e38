(** Timestamps, dates and reading them. *)
From Coq Require Import String.
From Coq Require Import ZArith List Bool Lia.
From Verif Require Import Regexp_Model Regexp_Spec Dates_Model Dates_Spec Dates_Proofs Dates_Whole Dates_Total Reader_Spec.
Import ListNotations.
Open Scope Z_scope.

(** * C59: timestamps *)

(** fix-time keeps the instant and leaves less than a day of seconds, and there
    is one such timestamp.  Partial: instants from 1970 on that an unsigned
    long can hold. *)
Theorem C59_fix_partial : forall t, 0 <= instant t < 2 ^ 64 ->
  normal (fix_time t) /\ instant (fix_time t) = instant t /\
  (forall u, normal u -> instant u = instant t -> u = fix_time t).
Proof.
  intros t H. destruct (fix_time_ok t H) as [A B]. split; [exact B | ]. split; [exact A | ].
  intros u N E. apply normal_unique; [exact N | exact B | congruence].
Qed.
Print Assumptions C59_fix_partial.
Example fix_ex : 0 <= instant (3, -90000) < 2 ^ 64 /\ fix_time (3, -90000) = (1, 82800).
Proof. vm_compute. repeat split; congruence. Qed.

(** A timestamp one second before 1970 becomes one far in the future. *)
Theorem C59_fix_negative_refuted : exists t, fix_time t <> t /\ instant (fix_time t) <> instant t /\ instant t = -1 /\ normal t.
Proof. exists (-1, 86399). vm_compute. repeat split; congruence. Qed.
Print Assumptions C59_fix_negative_refuted.

(** time-later-p compares instants, whether or not the timestamps are fixed. *)
Theorem C59_later_partial : forall t u, 0 <= instant t < 2 ^ 64 -> 0 <= instant u < 2 ^ 64 ->
  (time_later_p t u = true <-> instant u < instant t).
Proof. intros t u Ht Hu. unfold time_later_p. rewrite !get_time_ok by assumption. apply Z.ltb_lt. Qed.
Print Assumptions C59_later_partial.
Example later_ex : time_later_p (1, 5) (0, 86404) = true /\ time_later_p (0, 86405) (1, 5) = false.
Proof. vm_compute. auto. Qed.

(** Every second before 1970 is later than every second after: true of all of
    them, not of some only. *)
Theorem C59_later_before_1970 : forall t u,
  - 2 ^ 63 <= instant t < 0 -> 0 <= instant u < 2 ^ 63 -> instant t < instant u /\ time_later_p t u = true.
Proof.
  intros t u Ht Hu. split; [lia | ]. unfold time_later_p. rewrite (get_time_ok u) by lia. apply Z.ltb_lt.
  change (get_time t) with (instant t mod 2 ^ 64).
  rewrite <- (Z.mod_unique_pos (instant t) (2 ^ 64) (-1) (instant t + 2 ^ 64)); lia.
Qed.
Print Assumptions C59_later_before_1970.
Theorem C59_later_refuted : exists t u, instant t < instant u /\ time_later_p t u = true.
Proof. exists (-1, 0), (20000, 0). vm_compute. auto. Qed.
Print Assumptions C59_later_refuted.
Example later_refuted_ex : - 2 ^ 63 <= instant (-1, 0) < 0 /\ 0 <= instant (20000, 0) < 2 ^ 63.
Proof. vm_compute. repeat split; congruence. Qed.

(** seconds->time and time->seconds are inverse to each other, and time- is the
    distance.  Partial: from 1970 on. *)
Theorem C59_seconds_partial : forall s, 0 <= s ->
  normal (seconds_to_time s) /\ instant (seconds_to_time s) = s /\ time_to_seconds (seconds_to_time s) = s /\
  (forall t, normal t -> 0 <= fst t -> seconds_to_time (time_to_seconds t) = t).
Proof.
  assert (G : forall s, 0 <= s -> normal (seconds_to_time s) /\ instant (seconds_to_time s) = s).
  { intros s H. unfold seconds_to_time, normal, instant, seconds_per_day. cbn [fst snd]. rewrite Z.quot_div_nonneg by lia.
    pose proof (Z.div_mod s 86400 ltac:(lia)). pose proof (Z.mod_pos_bound s 86400 ltac:(lia)). lia. }
  intros s H. destruct (G s H) as [A B]. split; [exact A | ]. split; [exact B | ]. split; [exact B | ].
  intros t N F. assert (I : 0 <= instant t) by (unfold instant, normal in *; lia).
  apply normal_unique; [apply (G _ I) | exact N | ]. change (time_to_seconds t) with (instant t). apply (G _ I).
Qed.
Print Assumptions C59_seconds_partial.
Example seconds_ex : seconds_to_time 100000 = (1, 13600) /\ time_to_seconds (1, 13600) = 100000.
Proof. vm_compute. auto. Qed.

(** Before 1970, seconds->time is a day late unless the second begins a day. *)
Theorem C59_seconds_before_1970 : forall s, s < 0 -> s mod 86400 <> 0 ->
  time_to_seconds (seconds_to_time s) = s + 86400.
Proof.
  intros s H N. unfold seconds_to_time, time_to_seconds, seconds_per_day. cbn [fst snd].
  pose proof (Z.quot_rem' s 86400). pose proof (Z.rem_bound_pos_neg s 86400). pose proof (Z.mod_pos_bound s 86400 ltac:(lia)).
  pose proof (Z.div_mod s 86400 ltac:(lia)).
  assert (-86400 < Z.rem s 86400 <= 0) by (pose proof (Z.rem_bound_neg_pos s 86400); lia). lia.
Qed.
Print Assumptions C59_seconds_before_1970.
Theorem C59_seconds_refuted : exists s, time_to_seconds (seconds_to_time s) <> s.
Proof. exists (-1). vm_compute. congruence. Qed.
Print Assumptions C59_seconds_refuted.
Example seconds_refuted_ex : (-1 < 0) /\ (-1) mod 86400 <> 0 /\ seconds_to_time (-1) = (0, 86399).
Proof. vm_compute. repeat split; congruence. Qed.

(** time- is the seconds between two instants, whatever they are. *)
Theorem C59_minus : forall t u, instant u + time_minus t u = instant t.
Proof. intros t u. unfold time_minus, time_to_seconds, instant, seconds_per_day. lia. Qed.
Print Assumptions C59_minus.
Example minus_ex : time_minus (-1, 0) (2, 30) = -259230.
Proof. vm_compute. auto. Qed.

(** * C60: the calendar *)

(** The day that is n days after 1970-01-01 has the number n, and it is a date
    of the calendar. *)
Theorem C60_day_number : forall n,
  total_days (d_year (day n)) (d_month (day n)) (d_day (day n)) = Z.of_nat n /\ valid (day n).
Proof. intros n. destruct (day_ok n) as (A & B & _). auto. Qed.
Print Assumptions C60_day_number.
Example day_ex : day 14278 = mkdate 2009 2 3 /\ total_days 2009 2 3 = 14278.
Proof. vm_compute. auto. Qed.

(** Every date from 1970 on is counted. *)
Theorem C60_every_day : forall d, valid d -> 1970 <= d_year d ->
  exists n, day n = d /\ total_days (d_year d) (d_month d) (d_day d) = Z.of_nat n.
Proof.
  intros d V Y. destruct (day_reached d V Y) as [P E]. exists (Z.to_nat (total_days (d_year d) (d_month d) (d_day d))).
  split; [exact E | ]. rewrite Z2Nat.id by exact P. reflexivity.
Qed.
Print Assumptions C60_every_day.
Example every_day_ex : valid (mkdate 2000 2 29) /\ ~ valid (mkdate 2100 2 29).
Proof.
  split; [unfold valid; vm_compute; repeat split; congruence | ].
  intros [_ [_ H]]. vm_compute in H. apply H. reflexivity.
Qed.

(** Each day has the number after the one of the day before, since the year 1
    (Gregorian before 1582, too), and different days have different numbers. *)
Theorem C60_next_day_partial : forall d, valid d -> 1 <= d_year d ->
  total_days (d_year (next_day d)) (d_month (next_day d)) (d_day (next_day d)) =
  total_days (d_year d) (d_month d) (d_day d) + 1 /\ valid (next_day d) /\
  (forall e, valid e -> 1 <= d_year e ->
     total_days (d_year e) (d_month e) (d_day e) = total_days (d_year d) (d_month d) (d_day d) -> e = d).
Proof.
  intros d V Y. destruct (next_ok d V Y) as (A & B & _). split; [exact A | ]. split; [exact B | ].
  intros [y m a] Ve Ye E. destruct d as [y' m' a']. cbn [d_year d_month d_day] in *. now apply total_days_inj.
Qed.
Print Assumptions C60_next_day_partial.
Example next_day_ex : next_day (mkdate 1900 2 28) = mkdate 1900 3 1 /\ next_day (mkdate 1600 2 28) = mkdate 1600 2 29.
Proof. vm_compute. auto. Qed.

(** Missing: the year 0 and earlier.  1 March of the year 0 gets the number of
    29 February. *)
Theorem C60_year_zero_refuted : exists d, valid d /\
  total_days (d_year (next_day d)) (d_month (next_day d)) (d_day (next_day d)) = total_days (d_year d) (d_month d) (d_day d).
Proof. exists (mkdate 0 2 29). split; [unfold valid; vm_compute; repeat split; congruence | vm_compute; reflexivity]. Qed.
Print Assumptions C60_year_zero_refuted.

(** The name of the day.  Partial: days from 1970 on. *)
Theorem C60_weekday_partial : forall t, 0 <= fst t ->
  nth (Z.to_nat (day_of_week t)) day_names [] = day_name (weekday (Z.to_nat (fst t))).
Proof. intros t H. rewrite (day_of_week_ok t H), Nat2Z.id. reflexivity. Qed.
Print Assumptions C60_weekday_partial.
Example weekday_ex : nth (Z.to_nat (day_of_week (20774, 0))) day_names [] = codes "Tue" /\ day 20774 = mkdate 2026 11 17.
Proof. vm_compute. auto. Qed.

(** The timestamp of a date, a time and a time zone is the instant meant.
    Partial: from 1970 on. *)
Theorem C60_instant_partial : forall d h mi s tz, valid d -> 1970 <= d_year d ->
  exists n, day n = d /\
    (0 <= second_of (Z.of_nat n) h mi s tz < 2 ^ 64 ->
     let t := epoch_time (d_year d) (d_month d) (d_day d) h mi s tz in
     normal t /\ instant t = second_of (Z.of_nat n) h mi s tz).
Proof. exact epoch_time_ok. Qed.
Print Assumptions C60_instant_partial.
Example instant_ex : epoch_time 2009 2 3 0 30 5 60 = (14277, 84605) /\ second_of 14278 0 30 5 60 = 14277 * 86400 + 84605.
Proof. vm_compute. auto. Qed.

(** The last day of 1969 has the right number, -1, and a timestamp that is
    584 thousand million years away. *)
Theorem C60_pre_epoch_refuted : exists d, valid d /\ next_day d = epoch /\
  total_days (d_year d) (d_month d) (d_day d) = -1 /\
  instant (epoch_time (d_year d) (d_month d) (d_day d) 0 0 0 0) = 2 ^ 64 - 86400.
Proof. exists (mkdate 1969 12 31). split; [unfold valid; vm_compute; repeat split; congruence | ]. vm_compute. auto. Qed.
Print Assumptions C60_pre_epoch_refuted.

(** * C61: reading dates *)

(** Dates as in mail, with or without the day's name, the time, the seconds and
    the zone.  Partial: names of months spelled as there, and what [reads_as]
    leaves out: instants before 1970, and the name of the day being that of
    the day in UTC. *)
Theorem C61_rfc822_partial : forall beyond prefix now, 0 <= prefix ->
  forall t w y m d h mi s tz, rfc822 prefix t w y m d h mi s tz ->
  exists f0, forall f n, (f0 <= f)%nat -> (f0 <= n)%nat ->
    reads_as (parse_date beyond f prefix now n t 0) w y m d h mi s tz.
Proof. exact rfc822_ok. Qed.
Print Assumptions C61_rfc822_partial.
Definition tue : string := "Tue, 3 Feb 2009 10:30:05 +0100".
Example rfc822_ex : rfc822 20 (codes tue) (codes "Tue") 2009 2 3 10 30 5 60.
Proof.
  change 60 with (60 * number [48; 49] + number [48; 48]).
  apply (Rfc822_time 20 [] (day_name 2 ++ [] ++ [] ++ [44] ++ [32]) (day_name 2) [51] [32] (month_name 2 ++ [] ++ [32]) 2 [50; 48; 48; 57] [32]
    ([49; 48] ++ 58 :: [51; 48] ++ (58 :: [48; 53]) ++ ([32] ++ (43 :: [48; 49] ++ [48; 48])))
    10 30 5 (60 * number [48; 49] + number [48; 48]) []);
  repeat first [left; reflexivity | right; reflexivity | right; split; reflexivity | constructor | discriminate | lia | left; reflexivity | right; reflexivity | unfold is_blank, is_digit, lower_case, blanks, digits, gap].

Qed.

(** As current-time-string writes them. *)
Theorem C61_ctime_partial : forall beyond prefix now, 0 <= prefix ->
  forall t w y m d h mi s tz, ctime prefix t w y m d h mi s tz ->
  exists f0, forall f n, (f0 <= f)%nat -> (f0 <= n)%nat ->
    reads_as (parse_date beyond f prefix now n t 0) w y m d h mi s tz.
Proof. exact ctime_ok. Qed.
Print Assumptions C61_ctime_partial.
Example ctime_ex : ctime 20 (codes "Tue Nov 17 18:30:00 2026") (codes "Tue") 2026 11 17 18 30 0 0.
Proof.
  apply (Ctime 20 [] (day_name 2 ++ [] ++ [32] ++ [] ++ []) (day_name 2) (month_name 11 ++ [] ++ [32]) 11 [49; 55] [32] [49; 56] [51; 48] [48; 48] [32] [50; 48; 50; 54]);
  repeat first [left; reflexivity | right; reflexivity | right; split; reflexivity | constructor | discriminate | lia | right; split; reflexivity | right; reflexivity | unfold is_blank, is_digit, lower_case, blanks, digits, gap].
Qed.

(** As in ISO 8601, with blanks before the time. *)
Theorem C61_iso_partial : forall beyond prefix now t w y m d h mi s tz, iso8601 t w y m d h mi s tz -> 1 <= m <= 12 ->
  exists f0, forall f n, (f0 <= f)%nat -> (f0 <= n)%nat ->
    reads_as (parse_date beyond f prefix now n t 0) w y m d h mi s tz.
Proof. exact iso8601_ok. Qed.
Print Assumptions C61_iso_partial.
Example iso_ex : iso8601 (codes "2026-11-17 18:30") [] 2026 11 17 18 30 0 0.
Proof.
  apply (Iso_time [] [50; 48; 50; 54] [49; 49] [49; 55] [32] ([49; 56] ++ 58 :: [51; 48] ++ [] ++ []) 18 30 0 0 []);
  repeat first [left; reflexivity | right; reflexivity | right; split; reflexivity | constructor | discriminate | lia | right; reflexivity | unfold is_blank, is_digit, blanks, digits].
Qed.

(** Every text is read to its end, from any place, and what is answered does
    not depend on how much time or stack there was beyond the needed one.  The
    only error is about a month that is not spelled "Jan", ..., "Dec". *)
Theorem C61_terminates : forall beyond prefix t, Forall char t -> forall now i, 0 <= i ->
  exists f0 r, (forall f n, (f0 <= f)%nat -> (f0 <= n)%nat -> parse_date beyond f prefix now n t i = r) /\
    ((exists x, r = Ok x) \/ r = Err /\ misspelt t).
Proof. exact parse_total. Qed.
Print Assumptions C61_terminates.
Definition read (s : string) : res (vars * time) := parse_date (fun _ => 0) 2000 20 (2026, 11, 17) 50 (codes s) 0.
Example terminates_ex : (exists x, read "?? 17 foo 10:99" = Ok x) /\ Forall char (codes "?? 17 foo 10:99").
Proof. split; [eexists; vm_compute; reflexivity | cbn; repeat constructor; unfold char; lia]. Qed.

(** Names of months are matched in any letters and looked up in one spelling
    only. *)
Theorem C61_case_refuted : exists s, s = codes "1 jan 2009" /\ misspelt s /\ parse_date (fun _ => 0) 2000 20 (2026, 11, 17) 50 s 0 = Err.
Proof.
  eexists. split; [reflexivity | ]. split; [ | vm_compute; reflexivity].
  exists 2, 1. split; [lia | ]. split; [vm_compute; reflexivity | vm_compute; discriminate].
Qed.
Print Assumptions C61_case_refuted.

(** A month after a time loses its first letter to the zone, and the date is
    that of today. *)
Theorem C61_zone_eats_month_refuted : exists v t, read "10:30 Jan 1 2020" = Ok (v, t) /\
  (v_year v, v_month v, v_day v) = (2026, Some 11, 17).
Proof. eexists. eexists. split; [vm_compute; reflexivity | reflexivity]. Qed.
Print Assumptions C61_zone_eats_month_refuted.

(** The T of ISO 8601 ends the date: the time is lost. *)
Theorem C61_iso_t_refuted : exists v t, read "2026-11-17T18:30" = Ok (v, t) /\
  (v_year v, v_month v, v_day v) = (2026, Some 11, 17) /\ (v_hour v, v_minute v) = (0, 0).
Proof. eexists. eexists. split; [vm_compute; reflexivity | split; reflexivity]. Qed.
Print Assumptions C61_iso_t_refuted.

(** The day's name that is added is that of the day in UTC, not that of the
    date in the answer: 1 January 2020 was a Wednesday. *)
Theorem C61_weekday_local_refuted : exists v t, read "1 Jan 2020 00:30 +0100" = Ok (v, t) /\
  (v_year v, v_month v, v_day v) = (2020, Some 1, 1) /\ v_day_abbrev v = codes "Tue" /\
  day 18262 = mkdate 2020 1 1 /\ day_name (weekday 18262) = codes "Wed".
Proof. eexists. eexists. split; [vm_compute; reflexivity | ]. split; [reflexivity | ]. split; [reflexivity | ]. vm_compute. auto. Qed.
Print Assumptions C61_weekday_local_refuted.
