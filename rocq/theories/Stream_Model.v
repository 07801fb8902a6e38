(** Streams: src/streams.c.  String output streams (STRING . LENGTH), string
    input streams (POSITION . STRING), reading from local files, and format.
    Other types of stream are left out.  The int variables holding lengths do
    not overflow; allocation does not fail; nothing interrupts. *)
From Coq Require Import List ZArith Bool.
From Verif Require Import Numbers_Model.
Import ListNotations.
Open Scope Z_scope.

(** [Err]: an error was signalled; [Wild]: memory was accessed that does not
    belong to the string, or the bits of a pointer were used as an integer;
    [Fuel]: the loop has not ended *)
Inductive res (A : Type) := Ok (a : A) | Err | Wild | Fuel.
Arguments Ok {A}. Arguments Err {A}. Arguments Wild {A}. Arguments Fuel {A}.
Definition bind {A B} (r : res A) (f : A -> res B) : res B :=
  match r with Ok a => f a | Err => Err | Wild => Wild | Fuel => Fuel end.
Notation "'let*' x ':=' r 'in' e" := (bind r (fun x => e)) (at level 200, x pattern, right associativity).

(** * String output streams *)

(** A string: its characters, their number being the length in its header, and
    the bytes allocated for it (values.c 256-290).  Strings are never freed. *)
Record str := mkstr { chars : list Z; room : Z }.
Definition heap := list str.
Definition upd (h : heap) (a : nat) (s : str) : heap := firstn a h ++ s :: skipn (S a) h.
Definition slen (s : str) : Z := Z.of_nat (length (chars s)).
(** rep_string_dupn, values.c 280-290 *)
Definition dupn (h : heap) (l : list Z) : nat * heap := (length h, h ++ [mkstr l (Z.of_nat (length l) + 1)]).

(** The cons: the address of the string, and the integer *)
Record ostream := mko { sbuf : nat; actual : Z }.

(** The case rep_Cons of rep_stream_putc, 229-251 *)
Definition putc (h : heap) (st : ostream) (c : Z) : res (heap * ostream) :=
  match nth_error h (sbuf st) with
  | None => Wild
  | Some s =>
      let len := slen s in
      let put r := if len + 1 <? r then Ok (mkstr (chars s ++ [c mod 256]) r) else Wild in
      if actual st <=? len + 1 then
        let newlen := if actual st <? 16 then 32 else actual st * 2 in
        if newlen + 1 <? len then Wild
        else let* s := put (newlen + 1) in Ok (h ++ [s], mko (length h) newlen)
      else let* s := put (room s) in Ok (upd h (sbuf st) s, st)
  end.

(** The case rep_Cons of rep_stream_puts, 343-370; buf has bufLen characters *)
Definition puts (h : heap) (st : ostream) (buf : list Z) : res (heap * ostream) :=
  match nth_error h (sbuf st) with
  | None => Wild
  | Some s =>
      let len := slen s in
      let bufLen := Z.of_nat (length buf) in
      let put r := if len + bufLen <? r then Ok (mkstr (chars s ++ buf) r) else Wild in
      let newlen := len + bufLen + 1 in
      if actual st <=? newlen then
        let tmp := if actual st <? 16 then 32 else actual st * 2 in
        let newlen := if newlen <? tmp then tmp else newlen in
        let* s := put (newlen + 1) in Ok (h ++ [s], mko (length h) newlen)
      else let* s := put (room s) in Ok (upd h (sbuf st) s, st)
  end.

(** make-string-output-stream, 1151-1160 *)
Definition make_ostream (h : heap) : heap * ostream := let '(a, h) := dupn h [] in (h, mko a 0).
(** get-output-stream-string, 1162-1193, with copy-sequence (lispcmds.c
    1151-1153): the address of the string returned *)
Definition get_string (h : heap) (st : ostream) : res (nat * heap * ostream) :=
  match nth_error h (sbuf st) with
  | None => Wild
  | Some s =>
      let '(a, h) := if slen s =? actual st then (sbuf st, h) else dupn h (chars s) in
      let '(b, h) := dupn h [] in
      Ok (a, h, mko b 0)
  end.

(** Conversion to int *)
Definition to_int (n : Z) : Z := (n + 2 ^ 31) mod 2 ^ 32 - 2 ^ 31.
(** write, 527-577, of a string with LENGTH, which is made an int and then
    compared as unsigned *)
Definition write_string (h : heap) (st : ostream) (s : list Z) (len : option Z) : res (Z * heap * ostream) :=
  match len with
  | None => let* (h, st) := puts h st s in Ok (Z.of_nat (length s), h, st)
  | Some n =>
      let n := to_int n in
      if (n <? 0) || (Z.of_nat (length s) <? n) then Err
      else let* (h, st) := puts h st (firstn (Z.to_nat n) s) in Ok (n, h, st)
  end.

(** What a program does with the streams it made, by their number *)
Inductive op := Make | Putc (k : nat) (c : Z) | Write (k : nat) (s : list Z) (len : option Z) | Get (k : nat).
Definition set_stream (l : list ostream) (k : nat) (s : ostream) : list ostream := firstn k l ++ s :: skipn (S k) l.
Definition with_stream {A} (l : list ostream) (k : nat) (f : ostream -> res A) : res A :=
  match nth_error l k with Some s => f s | None => Err end.
(** The strings returned by [Get], by address *)
Fixpoint run (h : heap) (l : list ostream) (ops : list op) : res (list nat * heap) :=
  match ops with
  | [] => Ok ([], h)
  | Make :: ops => let '(h, s) := make_ostream h in run h (l ++ [s]) ops
  | Putc k c :: ops =>
      with_stream l k (fun s => let* (h, s) := putc h s c in run h (set_stream l k s) ops)
  | Write k t n :: ops =>
      with_stream l k (fun s => let* (_, h, s) := write_string h s t n in run h (set_stream l k s) ops)
  | Get k :: ops =>
      with_stream l k (fun s =>
        let* (a, h, s) := get_string h s in
        let* (r, h) := run h (set_stream l k s) ops in Ok (a :: r, h))
  end.

(** * Input *)

(** (POSITION . STRING), 89-101; the position is compared as unsigned *)
Record istream := mki { ipos : Z; istr : list Z }.
Definition getc (st : istream) : option Z * istream :=
  if (0 <=? ipos st) && (ipos st <? Z.of_nat (length (istr st))) then
    (Some (nth (Z.to_nat (ipos st)) (istr st) 0), mki (ipos st + 1) (istr st))
  else (None, st).
(** rep_stream_ungetc, 164-170 *)
Definition ungetc (st : istream) : istream := mki (ipos st - 1) (istr st).
(** read-char 579-592, peek-char 594-611 *)
Definition read_char := getc.
Definition peek_char (st : istream) : option Z * istream :=
  let '(c, st) := getc st in
  match c with Some c => (Some c, ungetc st) | None => (None, st) end.
(** read-chars 613-650: the loop 637-643, with [n] more to read *)
Fixpoint chars_loop (n : nat) (st : istream) (buf : list Z) : list Z * istream :=
  match n with
  | O => (buf, st)
  | S n => let '(c, st) := getc st in
           match c with Some c => chars_loop n st (buf ++ [c]) | None => (buf, st) end
  end.
Definition read_chars (st : istream) (count : Z) : option (list Z) * istream :=
  let '(buf, st) := chars_loop (Z.to_nat count) st [] in
  (match buf with [] => None | _ => Some buf end, st).

(** A source of lines: what one pass of the loop of read-line reads into
    offbuf, at most maxread characters, and readlen *)
Definition reader (S : Type) := nat -> S -> list Z * nat * S.
(** 688-696 for a string stream *)
Fixpoint string_chunk (maxread : nat) (st : istream) : list Z * istream :=
  match maxread with
  | O => ([], st)
  | S n => let '(c, st) := getc st in
           match c with
           | None => ([], st)
           | Some c => if c =? 10 then ([c], st) else let '(l, st) := string_chunk n st in (c :: l, st)
           end
  end.
Definition string_reader : reader istream :=
  fun maxread st => let '(l, st) := string_chunk maxread st in (l, length l, st).
(** 679-685 for a local file, of which the rest is given: fgets, strlen *)
Fixpoint fgets (maxread : nat) (rest : list Z) : list Z * list Z :=
  match maxread, rest with
  | O, _ | _, [] => ([], rest)
  | S n, c :: rest => if c =? 10 then ([c], rest) else let '(l, rest) := fgets n rest in (c :: l, rest)
  end.
Fixpoint cstr (l : list Z) : list Z :=
  match l with [] => [] | b :: l => if b =? 0 then [] else b :: cstr l end.
Definition file_reader : reader (list Z) :=
  fun maxread rest => let '(l, rest) := fgets maxread rest in (l, length (cstr l), rest).

(** read-line 652-708; [full] is fullbuf up to offset *)
Fixpoint line_loop {S : Type} (read : reader S) (fuel : nat) (bufsize : nat) (full : list Z) (st : S) : res (option (list Z) * S) :=
  match fuel with
  | O => Fuel
  | Datatypes.S n =>
      let offset := length full in
      let maxread := (bufsize - offset - 1)%nat in
      let '(l, readlen, st) := read maxread st in
      if Nat.ltb readlen maxread || (nth (readlen - 1) l 0 =? 10) then
        let s := full ++ firstn readlen l in
        Ok (match s with [] => None | _ => Some s end, st)
      else line_loop read n (bufsize * 2) (full ++ l) st
  end.
Definition read_line {S : Type} (read : reader S) (fuel : nat) (st : S) := line_loop read fuel 500 [] st.

(** copy-stream 710-741 from a string stream to another; BUFSIZ is glibc's *)
Definition BUFSIZ : nat := Z.to_nat 8192.
Fixpoint copy_loop (fuel : nat) (src : istream) (h : heap) (dst : ostream) (buf : list Z) (len : Z) : res (Z * istream * heap * ostream) :=
  match fuel with
  | O => Fuel
  | S n =>
      let '(c, src) := getc src in
      match c with
      | Some c =>
          let* (buf, h, dst) :=
            if Nat.eqb (length buf) BUFSIZ then let* (h, dst) := puts h dst buf in Ok ([], h, dst)
            else Ok (buf, h, dst) in
          copy_loop n src h dst (buf ++ [c]) (len + 1)
      | None =>
          match buf with
          | [] => Ok (len, src, h, dst)
          | _ => let* (h, dst) := puts h dst buf in Ok (len, src, h, dst)
          end
      end
  end.
Definition copy_stream (fuel : nat) (src : istream) (h : heap) (dst : ostream) := copy_loop fuel src h dst [] 0.

(** * format, 823-1138 *)

(** Arguments: integers, strings, and other values with what princ and prin1
    write for them.  Rationals and floats, the only use of a precision, are not
    modelled. *)
Inductive value := Num (n : num) | Str (s : list Z) | Other (princ prin1 : list Z).
(** What Fnth gives past the end: nil *)
Definition nil_value := Other [40; 41] [40; 41].
(** One call of rep_stream_putc, of rep_stream_puts *)
Inductive out := C (c : Z) | S_ (l : list Z).

Definition isdigit (c : Z) : bool := (48 <=? c) && (c <=? 57).
Record spec := mksp { left_justify : bool; truncate : bool; pad_zeros : bool; leading : Z; width : Z }.

Section Format.
  Variable prin1_string : list Z -> list Z.      (* rep_print_val of a string *)
  Variable hooks : Z -> option (value -> value). (* format-hooks-alist; nil made ""; none for 0 *)
  Variable args : list value.

  (** rep_princ_val, rep_print_val *)
  Definition princ (v : value) : list Z :=
    match v with Num n => print_integer n 10 | Str s => s | Other p _ => p end.
  Definition prin1 (v : value) : list Z :=
    match v with Num n => print_integer n 10 | Str s => prin1_string s | Other _ p => p end.

  (** 920-944, the n$ prefix: this_arg and the rest *)
  Fixpoint span_digits (l : list Z) : list Z * list Z :=
    match l with
    | c :: l' => if isdigit c then let '(d, r) := span_digits l' in (c :: d, r) else ([], l)
    | [] => ([], [])
    end.
  Definition atoi (d : list Z) : Z := fold_left (fun a c => a * 10 + (c - 48)) d 0.
  Definition parse_index (fmt : list Z) (this_arg : nat) : nat * list Z :=
    let '(d, r) := span_digits fmt in
    match r with
    | c :: r' => if (c =? 36) && (0 <? atoi d) then (Z.to_nat (atoi d - 1), r') else (this_arg, fmt)
    | [] => (this_arg, fmt)
    end.
  (** 946-970, flags *)
  Fixpoint parse_flags (fmt : list Z) (s : spec) : spec * list Z :=
    match fmt with
    | [] => (s, [])
    | c :: fmt' =>
        if c =? 45 then parse_flags fmt' (mksp true (truncate s) (pad_zeros s) (leading s) (width s))
        else if c =? 94 then parse_flags fmt' (mksp (left_justify s) true (pad_zeros s) (leading s) (width s))
        else if c =? 48 then parse_flags fmt' (mksp (left_justify s) (truncate s) true (leading s) (width s))
        else if (c =? 43) || (c =? 32) then parse_flags fmt' (mksp (left_justify s) (truncate s) (pad_zeros s) c (width s))
        else (s, fmt)
    end.
  (** 973-991, field width and precision; the conversion, 0 at the end *)
  Definition parse_spec (fmt : list Z) : spec * Z * list Z :=
    let '(s, fmt) := parse_flags fmt (mksp false false false 0 0) in
    let '(d, fmt) := span_digits fmt in
    let s := mksp (left_justify s) (truncate s) (pad_zeros s) (leading s) (atoi d) in
    let fmt := if hd 0 fmt =? 46 then snd (span_digits (tl fmt)) else fmt in
    (s, hd 0 fmt, tl fmt).

  (** string_out, 1043-1080; ptr has len characters.  A length of -1 makes
      rep_stream_puts use strlen. *)
  Definition string_out (s : spec) (ptr : list Z) : list out :=
    let len := Z.of_nat (length ptr) in
    let lead := if (leading s =? 0) || (hd 0 ptr =? 45) then 0 else leading s in
    let has := if lead =? 0 then 0 else 1 in
    let actual_len := len + has in
    let l := if lead =? 0 then [] else [C lead] in
    if (width s =? 0) || (width s <=? actual_len) then
      l ++ [S_ (if truncate s
                then let n := width s - has in if n =? -1 then cstr ptr else firstn (Z.to_nat n) ptr
                else ptr)]
    else
      let n := Z.min (width s - actual_len) 256 in
      let pad := S_ (repeat (if pad_zeros s then 48 else 32) (Z.to_nat n)) in
      if left_justify s then l ++ [S_ ptr; pad] else pad :: l ++ [S_ ptr].

  (** The case 's', 1032-1041, also after a hook *)
  Definition unquoted (s : spec) (v : value) : list out :=
    match v with
    | Str p => if left_justify s && (width s =? 0) then [S_ p] else string_out s p
    | v => [S_ (princ v)]
    end.
  (** rep_print_number_to_string: "#<non-number>" *)
  Definition number_text (v : value) (radix : Z) : list Z :=
    match v with Num n => print_integer n radix | _ => [35; 60; 110; 111; 110; 45; 110; 117; 109; 98; 101; 114; 62] end.
  (** 1004-1113; rep_INT of anything but a fixnum is [Wild] *)
  Definition convert (s : spec) (c : Z) (v : value) : res (list out) :=
    if c =? 99 then match v with Num (Fix z) => Ok [C z] | _ => Wild end
    else if (c =? 120) || (c =? 88) then Ok (string_out s (number_text v 16))
    else if c =? 111 then Ok (string_out s (number_text v 8))
    else if c =? 100 then Ok (string_out s (number_text v 10))
    else if c =? 115 then Ok (unquoted s v)
    else if c =? 83 then Ok [S_ (prin1 v)]
    else match hooks c with Some f => Ok (unquoted s (f v)) | None => Err end.

  (** The loop 901-1121; [last] is what is between last_fmt and fmt *)
  Definition flush (last : list Z) : list out := match last with [] => [] | _ => [S_ last] end.
  Fixpoint format_loop (fuel : nat) (fmt : list Z) (last : list Z) (this_arg : nat) : list out * res unit :=
    match fuel with
    | O => ([], Fuel)
    | S n =>
        match fmt with
        | [] => (flush last, Ok tt)
        | c :: fmt =>
            if c =? 0 then (flush last, Ok tt)
            else if c =? 37 then
              let '(this_arg, fmt) := parse_index fmt this_arg in
              let '(s, c, fmt) := parse_spec fmt in
              if c =? 37 then
                let '(o, r) := format_loop n fmt [] this_arg in (flush last ++ C 37 :: o, r)
              else
                match convert s c (nth this_arg args nil_value) with
                | Ok w => let '(o, r) := format_loop n fmt [] (S this_arg) in (flush last ++ w ++ o, r)
                | Err => (flush last, Err) | Wild => (flush last, Wild) | Fuel => (flush last, Fuel)
                end
            else format_loop n fmt (last ++ [c]) this_arg
        end
    end.
  Definition format_out (fmt : list Z) : list out * res unit := format_loop (S (length fmt)) fmt [] 0.

  Fixpoint emit (h : heap) (st : ostream) (l : list out) : res (heap * ostream) :=
    match l with
    | [] => Ok (h, st)
    | C c :: l => let* (h, st) := putc h st c in emit h st l
    | S_ s :: l => let* (h, st) := puts h st s in emit h st l
    end.
  (** (format STREAM FMT ARGS...); what was written before an error stays *)
  Definition format_to (h : heap) (st : ostream) (fmt : list Z) : res (heap * ostream) :=
    let '(o, r) := format_out fmt in
    let* (h, st) := emit h st o in
    let* _ := r in Ok (h, st).
  (** (format nil FMT ARGS...): 881-885, 1122-1131; the contents of the string *)
  Definition format_nil (h : heap) (fmt : list Z) : res (list Z) :=
    let '(h, st) := make_ostream h in
    let* (h, st) := format_to h st fmt in
    match nth_error h (sbuf st) with Some s => Ok (chars s) | None => Wild end.
End Format.
