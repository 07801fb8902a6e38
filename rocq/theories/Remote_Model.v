(** Files on other machines: the program src/rep-remote.c and its client,
    lisp/rep/io/file-handlers/remote/rep.jl.

    Bytes are numbers from 0 to 255. A pipe delivers what was written in pieces. What
    the server does to its files, the caching of directories, passwords (only that one
    is sent) and sessions are not modelled. *)

From Coq Require Import ZArith List Bool.
From Verif Require Import Reader_Model.
Import ListNotations.
Open Scope Z_scope.

(** ** Numbers on the wire *)

(** A digit of the conversion x *)
Definition hexchar (d : Z) : Z := if d <? 10 then 48 + d else 87 + d.
(** The n last hexadecimal digits of v *)
Fixpoint hexn (n : nat) (v : Z) : list Z :=
  match n with
  | O => []
  | S n => hexn n (v / 16) ++ [hexchar (v mod 16)]
  end.
(** sprintf (buf, "%08lx", value): at least eight digits *)
Definition hex08 (v : Z) : list Z :=
  let u := v mod 2 ^ 64 in hexn (Nat.max 8 (Z.to_nat (Z.log2 u / 4 + 1))) u.

(** rep-remote.c 106-113 send_long: a buffer of ten bytes (None: written beyond its
    end), of which eight are sent *)
Definition send_long (v : Z) : option (list Z) :=
  let t := hex08 v in
  if Nat.leb (length t + 1) 10 then Some (firstn 8 t) else None.
(** 125-132 send_string *)
Definition send_string (s : list Z) : option (list Z) :=
  match send_long (Z.of_nat (length s)) with
  | None => None
  | Some t => Some (t ++ s)
  end.
(** 145-149 send_success, 151-156 send_errno *)
Definition send_success : list Z := [1].
Definition send_errno (msg : list Z) : option (list Z) :=
  match send_string msg with None => None | Some t => Some (127 :: t) end.

(** 115-123 read_long: strtol in base 16 of eight bytes; the digits up to the first
    other byte. Blanks, signs and 0x before the digits are not modelled; the client does
    not send them. None: fewer than eight bytes *)
Definition hexvalue (c : Z) : option Z :=
  if (48 <=? c) && (c <=? 57) then Some (c - 48)
  else if (97 <=? c) && (c <=? 102) then Some (c - 87)
  else if (65 <=? c) && (c <=? 70) then Some (c - 55)
  else None.
Fixpoint strtol16 (acc : Z) (t : list Z) : Z :=
  match t with
  | [] => acc
  | c :: t => match hexvalue c with None => acc | Some d => strtol16 (16 * acc + d) t end
  end.
Definition read_long (t : list Z) : option (Z * list Z) :=
  if Nat.ltb (length t) 8 then None else Some (strtol16 0 (firstn 8 t), skipn 8 t).
(** 134-143 read_string; the bytes are used as a C string, up to the first zero. *)
Fixpoint c_string (s : list Z) : list Z :=
  match s with [] => [] | c :: s => if c =? 0 then [] else c :: c_string s end.
Definition read_string (t : list Z) : option (list Z * list Z) :=
  match read_long t with
  | None => None
  | Some (n, t) =>
      if (n <? 0) || (Z.of_nat (length t) <? n) then None
      else Some (c_string (firstn (Z.to_nat n) t), skipn (Z.to_nat n) t)
  end.
Fixpoint read_strings (n : nat) (t : list Z) : option (list (list Z) * list Z) :=
  match n with
  | O => Some ([], t)
  | S n =>
      match read_string t with
      | None => None
      | Some (s, t) => match read_strings n t with None => None | Some (l, t) => Some (s :: l, t) end
      end
  end.
(** 97-104 read_char gives a signed char, so that 255 is EOF; 507-520: a command with
    its arguments. None: the program ends. *)
Definition signed_char (c : Z) : Z := if c <? 128 then c else c - 256.
Definition read_command (t : list Z) : option (Z * list (list Z) * list Z) :=
  match t with
  | c :: n :: t =>
      if (signed_char c =? -1) || (signed_char n =? -1) || (64 <=? signed_char n) then None
      else match read_strings (Z.to_nat (signed_char n)) t with
           | None => None
           | Some (l, t) => Some (signed_char c, l, t)
           end
  | _ => None
  end.

(** rep.jl 193-198 remote-rep-send-int, remote-rep-send-string; 215-217 what is sent for
    a command. The number of arguments is sent as a character. *)
Definition client_int (n : Z) : list Z := hexn (Nat.max 8 (Z.to_nat (Z.log2 n / 4 + 1))) n.
Definition client_string (s : list Z) : list Z := client_int (Z.of_nat (length s)) ++ s.
Definition client_command (type : Z) (args : list (list Z)) : list Z :=
  [type; Z.of_nat (length args)] ++ concat (map client_string args).

(** ** Moving files *)

(** rep-remote.c 244-274 do_get for a regular file: its size is sent, and then the file
    in parts of at most BUFSIZ; None also when the file ends early *)
Fixpoint get_parts (fuel : nat) (bufsiz size : nat) (file : list Z) : option (list Z) :=
  match fuel with
  | O => None
  | S fuel =>
      if Nat.eqb size 0 then Some []
      else
        let part := firstn (Nat.min size bufsiz) file in
        if Nat.eqb (length part) 0 then None
        else match get_parts fuel bufsiz (size - length part) (skipn (length part) file) with
             | None => None
             | Some t => Some (part ++ t)
             end
  end.
Definition do_get (bufsiz : nat) (file : list Z) : option (list Z) :=
  match send_long (Z.of_nat (length file)), get_parts (S (length file)) bufsiz (length file) file with
  | Some l, Some t => Some (send_success ++ l ++ t)
  | _, _ => None
  end.

(** read (0, buf, n) of a pipe: what has arrived as one piece, at most n bytes; nothing
    when the other side has gone *)
Definition read_pipe (n : nat) (pipe : list (list Z)) : list Z * list (list Z) :=
  match pipe with
  | [] => ([], [])
  | p :: pipe => if Nat.leb (length p) n then (p, pipe) else (firstn n p, skipn n p :: pipe)
  end.
(** 276-305 do_put behind the size: the loop; what is written and what is left *)
Fixpoint put_loop (fuel bufsiz : nat) (todo : nat) (file : list Z) (pipe : list (list Z)) : option (list Z * list (list Z)) :=
  match fuel with
  | O => None
  | S fuel =>
      if Nat.eqb todo 0 then Some (file, pipe)
      else let (part, pipe) := read_pipe (Nat.min todo bufsiz) pipe in
           put_loop fuel bufsiz (todo - length part) (file ++ part) pipe
  end.

(** 158-187 quote_string *)
Definition quote_char (c : Z) : list Z := if c =? 34 then [92; 34] else if c =? 92 then [92; 92] else [c].
Definition quote_string (s : list Z) : list Z := [34] ++ concat (map quote_char (c_string s)) ++ [34].

(** ** The client reads *)

(** rep.jl 73-85 remote-rep-hex-map: 128 entries, 0 where there is no digit; None: aref
    beyond the end *)
Definition hex_map (c : Z) : option Z :=
  if (0 <=? c) && (c <? 128) then Some (match hexvalue c with Some d => d | None => 0 end) else None.
(** 235-245 remote-rep-read-length, of the text from point on: not yet, error, number *)
Inductive len := Wait | Bad | Len (n : Z).
Definition read_length (t : list Z) : len :=
  match t with
  | a :: b :: c :: d :: e :: f :: g :: h :: _ =>
      match hex_map h, hex_map g, hex_map f, hex_map e, hex_map d, hex_map c, hex_map b, hex_map a with
      | Some h, Some g, Some f, Some e, Some d, Some c, Some b, Some a =>
          Len (h + g * 2 ^ 4 + f * 2 ^ 8 + e * 2 ^ 12 + d * 2 ^ 16 + c * 2 ^ 20 + b * 2 ^ 24 + a * 2 ^ 28)
      | _, _, _, _, _, _, _, _ => Bad
      end
  | _ => Wait
  end.
(** 248-252 remote-rep-read-string *)
Inductive str_read := SWait | SBad | SRead (s : list Z).
Definition read_msg (t : list Z) : str_read :=
  match read_length t with
  | Wait => SWait
  | Bad => SBad
  | Len n => if Z.of_nat (length t) <? 8 + n then SWait else SRead (firstn (Z.to_nat n) (skipn 8 t))
  end.

(** 88-100: the part of a session used here; Wrong: an error has been signalled in the
    output filter *)
Inductive status := Busy | Success | Failure (msg : list Z) | Wrong.
Record session := mks { st : status; pending : list Z; protocol : option Z; sent_passwords : nat }.
Definition with_st (x : status) (s : session) : session := mks x (pending s) (protocol s) (sent_passwords s).
Definition with_pending (p : list Z) (s : session) : session := mks (st s) p (protocol s) (sent_passwords s).

(** 255-257, 262-263: pending output goes before the new one, and is dropped *)
Definition incoming (s : session) (piece : list Z) : list Z * session := (pending s ++ piece, with_pending [] s).

(** 68, 268 remote-rep-passwd-msgs somewhere in the text *)
Fixpoint starts_with (p t : list Z) : bool :=
  match p, t with
  | [], _ => true
  | _, [] => false
  | x :: p, y :: t => (x =? y) && starts_with p t
  end.
Definition assword : list Z := [97; 115; 115; 119; 111; 114; 100; 58].
Fixpoint passwd_in (t : list Z) : bool :=
  match t with
  | [] => false
  | c :: t => (one_of c [80; 112] && starts_with assword t) || passwd_in t
  end.
(** 66, 282-285 remote-rep-signature: the first place where it matches; the number and
    what follows *)
Definition sig_text : list Z :=
  [2; 114; 101; 112; 45; 114; 101; 109; 111; 116; 101; 59; 32; 112; 114; 111; 116; 111; 99; 111; 108; 32].
Fixpoint number_end (acc : Z) (seen : bool) (t : list Z) : option (Z * list Z) :=
  match t with
  | [] => None
  | c :: t =>
      if (48 <=? c) && (c <=? 57) then number_end (10 * acc + (c - 48)) true t
      else if (c =? 2) && seen then Some (acc, t) else None
  end.
Definition sig_here (t : list Z) : option (Z * list Z) :=
  if starts_with sig_text t then number_end 0 false (skipn (length sig_text) t) else None.
Fixpoint sig_in (t : list Z) : option (Z * list Z) :=
  match sig_here t with
  | Some r => Some r
  | None => match t with [] => None | _ :: t => sig_in t end
  end.

(** 264-306: the loop of the output filter without a callback; t is the output from point
    on *)
Fixpoint filter_loop (fuel : nat) (s : session) (t : list Z) : session :=
  match fuel with
  | O => s
  | S fuel =>
      match t with
      | [] => s
      | c :: t' =>
          if match protocol s with None => passwd_in t | Some _ => false end then
            mks Busy (pending s) (protocol s) (S (sent_passwords s))
          else
            match sig_in t with
            | Some (n, rest) => filter_loop fuel (mks (st s) (pending s) (Some n) (sent_passwords s)) rest
            | None =>
                if c =? 1 then filter_loop fuel (with_st Success s) t'
                else if c =? 127 then
                  match read_msg t' with
                  | SRead msg => filter_loop fuel (with_st (Failure msg) s) (skipn (8 + length msg) t')
                  | SWait => with_pending t s
                  | SBad => with_st Wrong s
                  end
                else s
            end
      end
  end.
Definition output_filter (s : session) (piece : list Z) : session :=
  let (t, s) := incoming s piece in filter_loop (length t) s t.

(** 331-378 remote-rep-get: the session, remote-rep-len and what has been written *)
Record getting := mkg { g_s : session; g_len : option Z; g_file : list Z }.
(** 365-374 *)
Definition get_write (g : getting) (t : list Z) : getting :=
  match g_len g with
  | None => g
  | Some n =>
      let this := Z.min n (Z.of_nat (length t)) in
      let n := n - this in
      mkg (if n =? 0 then with_st Success (g_s g) else g_s g) (Some n) (g_file g ++ firstn (Z.to_nat this) t)
  end.
(** 339-374, the callback; in 363 aset lacks its first argument *)
Definition get_piece (g : getting) (piece : list Z) : getting :=
  let (t, s) := incoming (g_s g) piece in
  match g_len g with
  | Some _ => get_write (mkg s (g_len g) (g_file g)) t
  | None =>
      match t with
      | [] => mkg (with_st Wrong s) None (g_file g)
      | c :: t' =>
          if c =? 1 then
            match read_length t' with
            | Len n => get_write (mkg s (Some n) (g_file g)) (skipn 8 t')
            | Wait => mkg (with_pending t s) None (g_file g)
            | Bad => mkg (with_st Wrong s) None (g_file g)
            end
          else if c =? 127 then
            match read_msg t' with
            | SRead msg => mkg (with_st (Failure msg) s) None (g_file g)
            | SWait | SBad => mkg (with_st Wrong s) None (g_file g)
            end
          else mkg s None (g_file g)
      end
  end.

(** 436-463 remote-rep-read-symlink: the session and remote-rep-link *)
Definition link_piece (x : session * option (list Z)) (piece : list Z) : session * option (list Z) :=
  let (t, s) := incoming (fst x) piece in
  match t with
  | [] => (with_st Wrong s, snd x)
  | c :: t' =>
      if c =? 1 then
        match read_msg t' with
        | SRead l => (with_st Success s, Some l)
        | SWait => (with_pending t s, None)
        | SBad => (with_st Wrong s, snd x)
        end
      else if c =? 127 then
        match read_msg t' with
        | SRead msg => (with_st (Failure msg) s, snd x)
        | SWait => (with_pending t s, snd x)
        | SBad => (with_st Wrong s, snd x)
        end
      else (s, snd x)
  end.

(** 138-143, 187-191: after a command has been written; protocol as found when the
    session was opened. (An error ends the command: pieces that come later are then
    no longer given to its callback. Here they are.) *)
Definition commanded (p : option Z) : session := mks Busy [] p 0.
Definition after_pieces (p : option Z) (pieces : list (list Z)) : session := fold_left output_filter pieces (commanded p).
Definition get_pieces (p : option Z) (pieces : list (list Z)) : getting := fold_left get_piece pieces (mkg (commanded p) None []).
Definition link_pieces (p : option Z) (pieces : list (list Z)) := fold_left link_piece pieces (commanded p, None).
(** rep-remote.c 482-489 print_signature *)
Definition signature : list Z := sig_text ++ [49; 2; 1].

(** ** Directories *)

(** rep-remote.c 420-478 do_readdir: a record for every entry, of which only the text is
    modelled *)
Fixpoint send_entries (l : list (list Z)) : option (list Z) :=
  match l with
  | [] => Some send_success
  | e :: l => match send_string e, send_entries l with Some t, Some r => Some (2 :: t ++ r) | _, _ => None end
  end.

(** rep.jl 566-568: what follows the first byte 2 *)
Fixpoint after_two (t : list Z) : option (list Z) :=
  match t with [] => None | c :: t => if c =? 2 then Some t else after_two t end.
(** 565-580: the text from point on, the entries found; None: an error. The texts of the
    entries are kept instead of what read-from-string makes of them. *)
Fixpoint dir_loop (fuel : nat) (t : list Z) (found : list (list Z)) : option (list Z * list (list Z)) :=
  match fuel with
  | O => None
  | S fuel =>
      match after_two t with
      | None => Some (t, found)
      | Some r =>
          match read_msg r with
          | SRead e => dir_loop fuel (skipn (8 + length e) r) (e :: found)
          | SWait => Some (t, found)
          | SBad => None
          end
      end
  end.
(** 564-599 remote-rep-dircache-callback: the session and the entries, last one first *)
Definition dir_piece (x : session * list (list Z)) (piece : list Z) : session * list (list Z) :=
  let (t, s) := incoming (fst x) piece in
  match dir_loop (S (length t)) t (snd x) with
  | None => (with_st Wrong s, snd x)
  | Some (t, found) =>
      match t with
      | [] => (s, found)
      | c :: t' =>
          if c =? 1 then (with_st Success s, found)
          else if c =? 127 then
            match read_msg t' with
            | SRead msg => (with_st (Failure msg) s, found)
            | SWait => (with_pending t s, found)
            | SBad => (with_st Wrong s, found)
            end
          else (with_pending t s, found)
      end
  end.
Definition dir_pieces (p : option Z) (pieces : list (list Z)) := fold_left dir_piece pieces (commanded p, []).
