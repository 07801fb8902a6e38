(** Timestamps and dates: fix-time and time-later-p of src/misc.c, the macros
    of src/rep_lisp.h, lisp/rep/util/time.jl and lisp/rep/util/date.jl.
    A timestamp is a pair (DAYS . SECONDS).  Lisp integers are exact (fixnums
    and bignums alike, as the Numbers model shows), [quotient] truncates, [mod]
    rounds down and [%] has the sign of the dividend; string->number of a run
    of digits is its decimal value.  Strings are lists of bytes. *)
From Coq Require Import ZArith List Bool.
From Verif Require Import Regexp_Model.
Import ListNotations.
Open Scope Z_scope.

Definition time := (Z * Z)%type.

(** rep_lisp.h 930-931 rep_GET_TIME, as a C long converted to unsigned long
    (misc.c 251, 254 and 300-304).  The two parts have to be fixnums, which
    rep_TIMEP (933) does not check. *)
Definition get_time (t : time) : Z := (fst t * 86400 + snd t) mod 2 ^ 64.
(** misc.c 243-258 Ffix_time, the new contents of the cell *)
Definition fix_time (t : time) : time := (get_time t / 86400, get_time t mod 86400).
(** misc.c 290-306 Ftime_later_p *)
Definition time_later_p (t1 t2 : time) : bool := get_time t2 <? get_time t1.

(** time.jl 33 *)
Definition seconds_per_day := 86400.
(** time.jl 35-37 *)
Definition time_to_seconds (t : time) : Z := fst t * seconds_per_day + snd t.
(** time.jl 39-41 *)
Definition seconds_to_time (secs : Z) : time := (Z.quot secs seconds_per_day, secs mod seconds_per_day).
(** time.jl 43-45 *)
Definition time_minus (t1 t2 : time) : Z := time_to_seconds t1 - time_to_seconds t2.

(** date.jl 208-214 and 216-222: the days from 1970-01-01 *)
Definition total_days (year month day : Z) : Z :=
  let g := month - 2 in
  let '(gm, gy) := if g <=? 0 then (g + 12, year - 1) else (g, year) in
  (Z.quot gy 4 - Z.quot gy 100) + Z.quot gy 400 + Z.quot (367 * gm) 12 + day + gy * 365 + -719499.
(** date.jl 223-225 *)
Definition total_seconds (hour minute second timezone : Z) : Z :=
  second + 60 * (minute + - timezone + 60 * hour).
(** date.jl 226 *)
Definition epoch_time (year month day hour minute second timezone : Z) : time :=
  fix_time (total_days year month day, total_seconds hour minute second timezone).
(** date.jl 230-233: the index into the names of the days, Sunday 0 *)
Definition day_of_week (t : time) : Z :=
  let dow := Z.rem (fst t + 4) 7 in if dow <? 0 then dow + 7 else dow.

(** * Parsing *)

(** date.jl 44-51 date-month-alist *)
Definition month_alist : list (list Z * Z) :=
  [([74; 97; 110], 1); ([70; 101; 98], 2); ([77; 97; 114], 3); ([65; 112; 114], 4);
   ([77; 97; 121], 5); ([74; 117; 110], 6); ([74; 117; 108], 7); ([65; 117; 103], 8);
   ([83; 101; 112], 9); ([79; 99; 116], 10); ([78; 111; 118], 11); ([68; 101; 99], 12);
   ([74; 97; 110; 117; 97; 114; 121], 1); ([70; 101; 98; 114; 117; 97; 114; 121], 2);
   ([77; 97; 114; 99; 104], 3); ([65; 112; 114; 105; 108], 4); ([74; 117; 110; 101], 6);
   ([74; 117; 108; 121], 7); ([65; 117; 103; 117; 115; 116], 8);
   ([83; 101; 112; 116; 101; 109; 98; 101; 114], 9); ([79; 99; 116; 111; 98; 101; 114], 10);
   ([78; 111; 118; 101; 109; 98; 101; 114], 11); ([68; 101; 99; 101; 109; 98; 101; 114], 12)].
(** date.jl 54-59 date-timezone-alist *)
Definition timezone_alist : list (list Z * Z) :=
  [([85; 84], 0); ([71; 77; 84], 0); ([69; 83; 84], -300); ([69; 68; 84], -240);
   ([67; 83; 84], -360); ([67; 68; 84], -300); ([77; 83; 84], -420); ([77; 68; 84], -360);
   ([80; 83; 84], -480); ([80; 68; 84], -420)].
(** date.jl 235 *)
Definition day_names : list (list Z) :=
  [[83; 117; 110]; [77; 111; 110]; [84; 117; 101]; [87; 101; 100]; [84; 104; 117]; [70; 114; 105]; [83; 97; 116]].

Fixpoint str_eqb (a b : list Z) : bool :=
  match a, b with
  | [], [] => true
  | x :: a, y :: b => (x =? y) && str_eqb a b
  | _, _ => false
  end.
(** (cdr (assoc KEY ALIST)), None for nil *)
Fixpoint assoc (key : list Z) (l : list (list Z * Z)) : option Z :=
  match l with
  | [] => None
  | (k, v) :: l => if str_eqb k key then Some v else assoc key l
  end.
(** (car (rassq V ALIST)) *)
Fixpoint rassq (v : Z) (l : list (list Z * Z)) : option (list Z) :=
  match l with
  | [] => None
  | (k, x) :: l => if x =? v then Some k else rassq v l
  end.
Definition decimal (s : list Z) : Z := fold_left (fun v c => v * 10 + (c - 48)) s 0.
Definition sub (s : list Z) (a b : Z) : list Z := firstn (Z.to_nat (b - a)) (skipn (Z.to_nat a) s).

(** The regexps of date.jl 102, 121, 150, 157 and 165, and the one of 137 *)
(* [\t ]*([0-9]+)([\t ]+|$) *)
Definition re_number : list Z :=
  [91; 9; 32; 93; 42; 40; 91; 48; 45; 57; 93; 43; 41; 40; 91; 9; 32; 93; 43; 124; 36; 41].
(* [\t ]*([0-9]+):([0-9]+)(:[0-9]+)?[\t ]*([A-Z]+|[+-][0-9]+)?[\t ]* *)
Definition re_time : list Z :=
  [91; 9; 32; 93; 42; 40; 91; 48; 45; 57; 93; 43; 41; 58; 40; 91; 48; 45; 57; 93; 43; 41;
   40; 58; 91; 48; 45; 57; 93; 43; 41; 63; 91; 9; 32; 93; 42;
   40; 91; 65; 45; 90; 93; 43; 124; 91; 43; 45; 93; 91; 48; 45; 57; 93; 43; 41; 63; 91; 9; 32; 93; 42].
(* [\t ]*(Mon|Tue|Wed|Thu|Fri|Sat|Sun)[a-z]*[\t ]*,?[\t ]* *)
Definition re_day : list Z :=
  [91; 9; 32; 93; 42; 40; 77; 111; 110; 124; 84; 117; 101; 124; 87; 101; 100; 124; 84; 104; 117; 124;
   70; 114; 105; 124; 83; 97; 116; 124; 83; 117; 110; 41; 91; 97; 45; 122; 93; 42; 91; 9; 32; 93; 42;
   44; 63; 91; 9; 32; 93; 42].
(* [\t ]*(Jan|Feb|Mar|Apr|May|Jun|Jul|Aug|Sep|Oct|Nov|Dec)[a-z]*[\t ]* *)
Definition re_month : list Z :=
  [91; 9; 32; 93; 42; 40; 74; 97; 110; 124; 70; 101; 98; 124; 77; 97; 114; 124; 65; 112; 114; 124;
   77; 97; 121; 124; 74; 117; 110; 124; 74; 117; 108; 124; 65; 117; 103; 124; 83; 101; 112; 124;
   79; 99; 116; 124; 78; 111; 118; 124; 68; 101; 99; 41; 91; 97; 45; 122; 93; 42; 91; 9; 32; 93; 42].
(* [\t ]*([0-9][0-9][0-9][0-9])-([0-9][0-9])-([0-9][0-9])[\t ]* *)
Definition re_iso : list Z :=
  [91; 9; 32; 93; 42; 40; 91; 48; 45; 57; 93; 91; 48; 45; 57; 93; 91; 48; 45; 57; 93; 91; 48; 45; 57; 93; 41; 45;
   40; 91; 48; 45; 57; 93; 91; 48; 45; 57; 93; 41; 45; 40; 91; 48; 45; 57; 93; 91; 48; 45; 57; 93; 41;
   91; 9; 32; 93; 42].
(* [+-]([0-9][0-9])([0-9][0-9]) *)
Definition re_offset : list Z :=
  [91; 43; 45; 93; 40; 91; 48; 45; 57; 93; 91; 48; 45; 57; 93; 41; 40; 91; 48; 45; 57; 93; 91; 48; 45; 57; 93; 41].

(** The variables of date.jl 87-97.  Strings are None for nil, the month is
    None for nil (what assoc and rassq may give) *)
Record vars := mkvars {
  v_day_abbrev : list Z; v_day : Z; v_month_abbrev : option (list Z); v_month : option Z; v_year : Z;
  v_hour : Z; v_minute : Z; v_second : Z; v_timezone : Z }.
Definition vars0 : vars := mkvars [] (-1) (Some []) (Some (-1)) (-1) 0 0 0 0.

Section Parse.
  Variable beyond : Z -> Z.     (* memory beyond strings, see Regexp_Model *)
  Variable fuel : nat.          (* for the regexp engine *)
  Variable prefix : Z.          (* date-two-digit-year-prefix as a number, 61-64 *)
  Variable now : Z * Z * Z.     (* the current year, month and day, 195-202 *)

  (** string-looking-at: the match data, or None for nil *)
  Definition look (re s : list Z) (point : Z) (nocase : bool) : res (option (list (option Z) * list (option Z))) :=
    match string_looking_at beyond fuel re s point nocase with
    | MYes _ sp ep false => Ok (Some (sp, ep))
    | MNo false => Ok None
    | MYes _ _ _ true | MNo true => Err
    | MWild => Wild
    | MFuel => Fuel
    end.
  (** match-start and match-end of a group that has to have matched: nil as an
      argument of substring, - or setq point is an error sooner or later *)
  Definition pos (l : list (option Z)) (n : nat) : res Z :=
    match nth n l None with Some i => Ok i | None => Err end.
  Definition same_pos (a b : option Z) : bool :=
    match a, b with Some a, Some b => a =? b | None, None => true | _, _ => false end.
  (** (substring string (match-start N) (match-end N)) *)
  Definition group (s : list Z) (sp ep : list (option Z)) (n : nat) : res (list Z) :=
    let* a := pos sp n in let* b := pos ep n in Ok (sub s a b).

  (** date.jl 133-147 *)
  Definition parse_timezone (tz : list Z) : res Z :=
    match assoc tz timezone_alist with
    | Some v => Ok v
    | None =>
        let* m := look re_offset tz 0 false in
        match m with
        | Some (sp, ep) =>
            let* hh := group tz sp ep 1 in
            let* mm := group tz sp ep 2 in
            Ok ((if nth 0 tz 0 =? 43 then 1 else -1) * (60 * decimal hh + decimal mm))
        | None => Ok 0
        end
    end.

  (** The body of the loop, 99-181: the new variables and point *)
  Definition parse_step (s : list Z) (point : Z) (v : vars) : res (vars * Z) :=
    let* m := look re_number s point false in
    match m with
    | Some (sp, ep) =>                                  (* 102-116 *)
        let* start := pos sp 1 in
        let* end_ := pos ep 1 in
        let value := decimal (sub s start end_) in
        let width := end_ - start in
        Ok (if (0 <=? v_day v) || (2 <? width)
            then mkvars (v_day_abbrev v) (v_day v) (v_month_abbrev v) (v_month v)
                   (if width =? 2 then 100 * prefix + value else value)
                   (v_hour v) (v_minute v) (v_second v) (v_timezone v)
            else mkvars (v_day_abbrev v) value (v_month_abbrev v) (v_month v) (v_year v)
                   (v_hour v) (v_minute v) (v_second v) (v_timezone v), end_)
    | None =>
    let* m := look re_time s point false in
    match m with
    | Some (sp, ep) =>                                  (* 118-147 *)
        let* point := pos ep 0 in
        let* hh := group s sp ep 1 in
        let* mm := group s sp ep 2 in
        let* ss := (if same_pos (nth 3 sp None) (nth 3 ep None) then Ok 0
                    else let* a := pos sp 3 in let* b := pos ep 3 in Ok (decimal (sub s (a + 1) b))) in
        let* tz := (if same_pos (nth 4 sp None) (nth 4 ep None) then Ok [85; 84] else group s sp ep 4) in
        let* zone := parse_timezone tz in
        Ok (mkvars (v_day_abbrev v) (v_day v) (v_month_abbrev v) (v_month v) (v_year v)
              (decimal hh) (decimal mm) ss zone, point)
    | None =>
    let* m := look re_day s point true in
    match m with
    | Some (sp, ep) =>                                  (* 149-154 *)
        let* name := group s sp ep 1 in
        let* point := pos ep 0 in
        Ok (mkvars name (v_day v) (v_month_abbrev v) (v_month v) (v_year v)
              (v_hour v) (v_minute v) (v_second v) (v_timezone v), point)
    | None =>
    let* m := look re_month s point true in
    match m with
    | Some (sp, ep) =>                                  (* 156-162 *)
        let* name := group s sp ep 1 in
        let* point := pos ep 0 in
        Ok (mkvars (v_day_abbrev v) (v_day v) (Some name) (assoc name month_alist) (v_year v)
              (v_hour v) (v_minute v) (v_second v) (v_timezone v), point)
    | None =>
    let* m := look re_iso s point false in
    match m with
    | Some (sp, ep) =>                                  (* 164-173; expand-last-match gives the groups *)
        let* yy := group s sp ep 1 in
        let* mm := group s sp ep 2 in
        let* dd := group s sp ep 3 in
        let* point := pos ep 0 in
        Ok (mkvars (v_day_abbrev v) (decimal dd) (rassq (decimal mm) month_alist) (Some (decimal mm)) (decimal yy)
              (v_hour v) (v_minute v) (v_second v) (v_timezone v), point)
    | None => Ok (v, Z.of_nat (length s))               (* 175-177 *)
    end end end end end.

  (** The loop of 98-177, [n] bounding the iterations *)
  Fixpoint parse_loop (n : nat) (s : list Z) (point : Z) (v : vars) : res vars :=
    if point <? Z.of_nat (length s) then
      match n with
      | O => Fuel
      | S n => let* (v, point) := parse_step s point v in parse_loop n s point v
      end
    else Ok v.

  (** date.jl 179-238: the rest.  A month nil is not less than 0 (comparing it
      gives 1) and no argument for [-]. *)
  Definition finish (v : vars) : res (vars * time) :=
    let '(ny, nm, nd) := now in
    let year := if v_year v <? 0 then ny else v_year v in
    match v_month v with
    | None => Err
    | Some m =>
        let month := if m <? 0 then nm else m in
        let day := if v_day v <? 0 then nd else v_day v in
        let t := epoch_time year month day (v_hour v) (v_minute v) (v_second v) (v_timezone v) in
        let name := if str_eqb (v_day_abbrev v) [] then nth (Z.to_nat (day_of_week t)) day_names [] else v_day_abbrev v in
        Ok (mkvars name day (v_month_abbrev v) (Some month) year (v_hour v) (v_minute v) (v_second v) (v_timezone v), t)
    end.

  (** parse-date, date.jl 84-238 *)
  Definition parse_date (n : nat) (s : list Z) (point : Z) : res (vars * time) :=
    let* v := parse_loop n s point vars0 in finish v.
End Parse.
