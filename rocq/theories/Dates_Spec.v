(** Timestamps, the Gregorian calendar, and how dates are written. *)
From Coq Require Import ZArith List Bool.
From Verif Require Import Regexp_Model Dates_Model.
Import ListNotations.
Open Scope Z_scope.

(** * Timestamps *)

(** (DAYS . SECONDS) stands for this second since the epoch *)
Definition instant (t : Z * Z) : Z := fst t * 86400 + snd t.
(** The seconds are those of the day *)
Definition normal (t : Z * Z) : Prop := 0 <= snd t < 86400.

(** * The Gregorian calendar: what the next day is *)

Definition leap (y : Z) : Prop := y mod 4 = 0 /\ (y mod 100 <> 0 \/ y mod 400 = 0).
Definition leapb (y : Z) : bool := (y mod 4 =? 0) && (negb (y mod 100 =? 0) || (y mod 400 =? 0)).
Definition month_length (y m : Z) : Z :=
  if m =? 2 then if leapb y then 29 else 28
  else if (m =? 4) || (m =? 6) || (m =? 9) || (m =? 11) then 30 else 31.
Record date := mkdate { d_year : Z; d_month : Z; d_day : Z }.
Definition valid (d : date) : Prop :=
  1 <= d_month d <= 12 /\ 1 <= d_day d <= month_length (d_year d) (d_month d).
Definition next_day (d : date) : date :=
  if d_day d <? month_length (d_year d) (d_month d) then mkdate (d_year d) (d_month d) (d_day d + 1)
  else if d_month d <? 12 then mkdate (d_year d) (d_month d + 1) 1
  else mkdate (d_year d + 1) 1 1.
Definition epoch : date := mkdate 1970 1 1.
(** n days after the epoch *)
Definition day (n : nat) : date := Nat.iter n next_day epoch.

(** 1970-01-01 was a Thursday (4, Sunday being 0) *)
Definition weekday (n : nat) : nat := Nat.iter n (fun w => match w with 6 => 0 | _ => S w end)%nat 4%nat.

(** The second at which it is h:mi:s on the n'th day at a place whose clocks
    are tz minutes ahead of UTC *)
Definition second_of (n h mi s tz : Z) : Z := n * 86400 + h * 3600 + mi * 60 + s - tz * 60.

(** * Text *)

Definition is_digit (c : Z) : Prop := 48 <= c <= 57.
Definition is_blank (c : Z) : Prop := c = 9 \/ c = 32.
Definition digits (s : list Z) : Prop := s <> [] /\ Forall is_digit s.
Definition blanks (s : list Z) : Prop := Forall is_blank s.
Definition gap (s : list Z) : Prop := s <> [] /\ blanks s.
(** The number that digits denote *)
Fixpoint number (s : list Z) : Z :=
  match s with [] => 0 | c :: s => (c - 48) * 10 ^ Z.of_nat (length s) + number s end.
Definition lower_case (c : Z) : Prop := 97 <= c <= 122.
Definition lower (s : list Z) : list Z := map (fun c => if (65 <=? c) && (c <=? 90) then c + 32 else c) s.

(** Names, Sunday and January first *)
Definition day_name (n : nat) : list Z :=
  nth n [[83; 117; 110]; [77; 111; 110]; [84; 117; 101]; [87; 101; 100]; [84; 104; 117]; [70; 114; 105]; [83; 97; 116]] [].
Definition month_name (m : Z) : list Z :=
  nth (Z.to_nat (m - 1))
    [[74; 97; 110]; [70; 101; 98]; [77; 97; 114]; [65; 112; 114]; [77; 97; 121]; [74; 117; 110];
     [74; 117; 108]; [65; 117; 103]; [83; 101; 112]; [79; 99; 116]; [78; 111; 118]; [68; 101; 99]] [].

(** Time zones as in RFC 822: names, or the hours and minutes ahead of UTC *)
Inductive zone : list Z -> Z -> Prop :=
| Z_ut : zone [85; 84] 0
| Z_gmt : zone [71; 77; 84] 0
| Z_est : zone [69; 83; 84] (-5 * 60)
| Z_edt : zone [69; 68; 84] (-4 * 60)
| Z_cst : zone [67; 83; 84] (-6 * 60)
| Z_cdt : zone [67; 68; 84] (-5 * 60)
| Z_mst : zone [77; 83; 84] (-7 * 60)
| Z_mdt : zone [77; 68; 84] (-6 * 60)
| Z_pst : zone [80; 83; 84] (-8 * 60)
| Z_pdt : zone [80; 68; 84] (-7 * 60)
| Z_ahead hh mm : digits hh -> digits mm -> length hh = 2%nat -> length mm = 2%nat ->
    zone (43 :: hh ++ mm) (60 * number hh + number mm)
| Z_behind hh mm : digits hh -> digits mm -> length hh = 2%nat -> length mm = 2%nat ->
    zone (45 :: hh ++ mm) (- (60 * number hh + number mm)).

(** Optional seconds and time zone, with what they say *)
Inductive sec_text : list Z -> Z -> Prop :=
| Sec_none : sec_text [] 0
| Sec_some ss : digits ss -> sec_text (58 :: ss) (number ss).
Inductive zone_text : list Z -> Z -> Prop :=
| Zn_none : zone_text [] 0
| Zn_some b z tz : blanks b -> zone z tz -> zone_text (b ++ z) tz.
(** hh:mm[:ss] [zone] *)
Inductive clock_text : list Z -> Z -> Z -> Z -> Z -> Prop :=
| Clock hh mm sec s zn tz : digits hh -> digits mm -> sec_text sec s -> zone_text zn tz ->
    clock_text (hh ++ 58 :: mm ++ sec ++ zn) (number hh) (number mm) s tz.
(** The name of a day, perhaps in full, perhaps with a comma: Tue, *)
Inductive weekday_text : list Z -> list Z -> Prop :=
| No_weekday : weekday_text [] []
| Weekday w tl b2 cm b3 : (w < 7)%nat -> Forall lower_case tl -> blanks b2 -> blanks b3 -> (cm = [44] \/ cm = [] /\ b3 = []) ->
    weekday_text (day_name w ++ tl ++ b2 ++ cm ++ b3) (day_name w).
(** The name of a month, perhaps in full *)
Inductive month_text : list Z -> Z -> Prop :=
| Month m tl b2 : 1 <= m <= 12 -> Forall lower_case tl -> blanks b2 -> month_text (month_name m ++ tl ++ b2) m.
(** Years with two digits are in the current century *)
Definition year_number (prefix : Z) (yy : list Z) : Z :=
  if Nat.eqb (length yy) 2 then 100 * prefix + number yy else number yy.

(** RFC 822: [Tue,] 17 Nov 2026 [18:30[:00] [+0100]] *)
Inductive rfc822 (prefix : Z) : list Z -> list Z -> Z -> Z -> Z -> Z -> Z -> Z -> Z -> Prop :=
| Rfc822_date b0 wt w dd g mt m yy :
    blanks b0 -> weekday_text wt w -> digits dd -> (length dd <= 2)%nat -> gap g -> month_text mt m -> digits yy ->
    rfc822 prefix (b0 ++ wt ++ dd ++ g ++ mt ++ yy) w (year_number prefix yy) m (number dd) 0 0 0 0
| Rfc822_time b0 wt w dd g mt m yy g2 ct h mi s tz b3 :
    blanks b0 -> weekday_text wt w -> digits dd -> (length dd <= 2)%nat -> gap g -> month_text mt m -> digits yy ->
    gap g2 -> clock_text ct h mi s tz -> blanks b3 ->
    rfc822 prefix (b0 ++ wt ++ dd ++ g ++ mt ++ yy ++ g2 ++ ct ++ b3) w (year_number prefix yy) m (number dd) h mi s tz.
(** As current-time-string writes it: Tue Nov 17 18:30:00 2026 *)
Inductive ctime (prefix : Z) : list Z -> list Z -> Z -> Z -> Z -> Z -> Z -> Z -> Z -> Prop :=
| Ctime b0 wt w mt m dd g hh mm ss g2 yy :
    blanks b0 -> weekday_text wt w -> month_text mt m -> digits dd -> (length dd <= 2)%nat -> gap g ->
    digits hh -> digits mm -> digits ss -> gap g2 -> digits yy ->
    ctime prefix (b0 ++ wt ++ mt ++ dd ++ g ++ hh ++ 58 :: mm ++ 58 :: ss ++ g2 ++ yy) w
      (year_number prefix yy) m (number dd) (number hh) (number mm) (number ss) 0.
(** ISO 8601: 2026-11-17 [18:30[:00] [+0100]] *)
Inductive iso8601 : list Z -> list Z -> Z -> Z -> Z -> Z -> Z -> Z -> Z -> Prop :=
| Iso_date b0 yy mm dd b1 :
    blanks b0 -> digits yy -> length yy = 4%nat -> digits mm -> length mm = 2%nat -> digits dd -> length dd = 2%nat -> blanks b1 ->
    iso8601 (b0 ++ yy ++ 45 :: mm ++ 45 :: dd ++ b1) [] (number yy) (number mm) (number dd) 0 0 0 0
| Iso_time b0 yy mm dd b1 ct h mi s tz b3 :
    blanks b0 -> digits yy -> length yy = 4%nat -> digits mm -> length mm = 2%nat -> digits dd -> length dd = 2%nat -> blanks b1 ->
    clock_text ct h mi s tz -> blanks b3 ->
    iso8601 (b0 ++ yy ++ 45 :: mm ++ 45 :: dd ++ b1 ++ ct ++ b3) [] (number yy) (number mm) (number dd) h mi s tz.

(** What parse-date has to return: the fields, with the name of the day if it
    was not given, and the second meant *)
Definition reads_as (r : res (vars * time)) (w : list Z) (y m d h mi s tz : Z) : Prop :=
  exists name tm, r = Ok (mkvars name d (Some (month_name m)) (Some m) y h mi s tz, tm) /\
    name = match w with [] => day_name (weekday (Z.to_nat (fst tm))) | _ => w end /\
    (valid (mkdate y m d) -> 1970 <= y ->
     exists n, day n = mkdate y m d /\
       (0 <= second_of (Z.of_nat n) h mi s tz < 2 ^ 64 -> normal tm /\ instant tm = second_of (Z.of_nat n) h mi s tz)).

(** There is the name of a month in other letters than "Jan", ..., "Dec" *)
Definition misspelt (t : list Z) : Prop :=
  exists i m, 1 <= m <= 12 /\ lower (sub t i (i + 3)) = lower (month_name m) /\ sub t i (i + 3) <> month_name m.
