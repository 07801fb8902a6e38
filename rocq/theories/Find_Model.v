(** The Lisp side of regular expressions: src/find.c (quote-regexp, match
    data, the cache of compiled regexps), src/regsub.c (expand-last-match),
    lisp/rep/regexp.jl (string-replace, string-split) and
    lisp/rep/www/quote-url.jl.  Buffers (rep_reg_obj, in Jade only) are left
    out; allocation does not fail; int does not overflow. *)
From Coq Require Import List ZArith Bool.
From Verif Require Import Regexp_Model.
Import ListNotations.
Open Scope Z_scope.

(** * quote-regexp, find.c 432-501 *)

(** 470-481: asterisk + ? . [ ] ( ) | ^ $ \ *)
Definition quoted_char (c : Z) : bool :=
  ismult c || (c =? 46) || (c =? 91) || (c =? 93) || (c =? 40) || (c =? 41) || (c =? 124) || (c =? 94) ||
  (c =? 36) || (c =? 92).
(** The loop of 453-491: buf (0 .. i) and quoted; the growing of buf does not
    change its contents *)
Fixpoint quote_loop (s : list Z) (buf : list Z) (quoted : bool) : list Z * bool :=
  match s with
  | [] => (buf, quoted)
  | c :: s => if quoted_char c then quote_loop s (buf ++ [92; c]) true else quote_loop s (buf ++ [c]) quoted
  end.
(** The contents of the string returned (492-495) *)
Definition quote_regexp (s : list Z) : list Z :=
  let '(buf, quoted) := quote_loop s [] false in if quoted then buf else s.

(** * Match data *)

(** last_match_data and last_matches (find.c 182-184): the contents of the
    string and the positions of the pointers into it *)
Record mdata := mkmd { mstr : list Z; msp : list (option Z); mep : list (option Z) }.
(** None: as initialised, last_match_data is NULL and so are the pointers *)
Definition mstate := option mdata.

(** match-start 362-396, match-end 398-432: n the argument, nil the same as 0;
    None for nil *)
Definition match_pos (p : mdata -> list (option Z)) (m : mstate) (n : Z) : res (option Z) :=
  if (NSUBEXP <=? n) || (n <? 0) then Err
  else match m with None => Ok None | Some m => Ok (nth (Z.to_nat n) (p m) None) end.
Definition match_start := match_pos msp.
Definition match_end := match_pos mep.

(** string-match 267-303, string-looking-at 305-335 with what they do to the
    match data; true for t.  An error that was signalled while matching makes
    the call fail, after the match data was set if there was a match. *)
Definition matched (r : mres) (s : list Z) (m : mstate) : res bool * mstate :=
  match r with
  | MYes j sp ep e => (if e then Err else Ok true, Some (mkmd s sp ep))
  | MNo e => (if e then Err else Ok false, m)
  | MWild => (Wild, m)
  | MFuel => (Fuel, m)
  end.

(** * expand-last-match, find.c 337-360 *)

(** regsub.c 71-75: the template from src on: what is to be done with the
    first character and the rest of the template *)
Inductive item := Plain (c : Z) | Sub (no : nat).
Definition next_item (c : Z) (src : list Z) : item * list Z :=
  let x := hd 0 src in
  if c =? 38 then (Sub 0, src)
  else if (c =? 92) && (48 <=? x) && (x <=? 57) then (Sub (Z.to_nat (x - 48)), tl src)
  else if (c =? 92) && ((x =? 92) || (x =? 38)) then (Plain x, tl src)
  else (Plain c, src).
(** strncpy (dst, m + a, len) *)
Fixpoint strncpy (m : Z -> Z) (a : Z) (len : nat) : list Z :=
  match len with
  | O => []
  | S n => if m a =? 0 then repeat 0 (S n) else m a :: strncpy m (a + 1) n
  end.
(** rep_default_regsub 40-101: what it writes before the final zero; true if
    it ends with "damaged match string" *)
Fixpoint regsub (fuel : nat) (m : Z -> Z) (sp ep : list (option Z)) (src : list Z) (dst : list Z) : res (list Z * bool) :=
  match fuel with
  | O => Fuel
  | S f =>
      match src with
      | [] => Ok (dst, false)
      | c :: src =>
          if c =? 0 then Ok (dst, false)
          else match next_item c src with
               | (Plain x, src) => regsub f m sp ep src (dst ++ [x])
               | (Sub no, src) =>
                   match nth no sp None, nth no ep None with
                   | Some a, Some b =>
                       let copy := strncpy m a (Z.to_nat (b - a)) in
                       if (negb (b =? a)) && (last copy 1 =? 0) then Ok (dst ++ copy, true)
                       else regsub f m sp ep src (dst ++ copy)
                   | _, _ => regsub f m sp ep src dst
                   end
               end
      end
  end.
(** rep_default_regsublen 107-164, without the one for the final zero *)
Fixpoint regsublen (fuel : nat) (sp ep : list (option Z)) (src : list Z) (len : Z) : res Z :=
  match fuel with
  | O => Fuel
  | S f =>
      match src with
      | [] => Ok len
      | c :: src =>
          if c =? 0 then Ok len
          else match next_item c src with
               | (Plain _, src) => regsublen f sp ep src (len + 1)
               | (Sub no, src) =>
                   regsublen f sp ep src
                     (len + match nth no sp None, nth no ep None with Some a, Some b => b - a | _, _ => 0 end)
               end
      end
  end.
(** expand-last-match; the bytes of the result that regsub does not write are
    those of [junk].  rep_STRINGP of the NULL in last_match_data reads address
    0.  Writing more than was allocated is [Wild]. *)
Definition expand_last_match (beyond junk : Z -> Z) (m : mstate) (template : list Z) : res (list Z) :=
  match m with
  | None => Wild
  | Some m =>
      let mem := memory (mstr m) beyond in
      let* len := regsublen (S (length template)) (msp m) (mep m) template 0 in
      let* (dst, damaged) := regsub (S (length template)) mem (msp m) (mep m) template [] in
      if len <? Z.of_nat (length dst) then Wild
      else if damaged then Err
      else Ok (dst ++ map (fun i => junk (Z.of_nat i)) (seq (length dst) (Z.to_nat len - length dst)))
  end.

(** * string-replace and string-split, lisp/rep/regexp.jl 29-58 *)

(** substring, lispcmds.c 945-969 *)
Definition substring (s : list Z) (a b : Z) : res (list Z) :=
  if (Z.of_nat (length s) <? a) || (a <? 0) || (Z.of_nat (length s) <? b) || (b <? a) then Err
  else Ok (firstn (Z.to_nat (b - a)) (skipn (Z.to_nat a) s)).

(** A position that cannot be nil is an integer argument *)
Definition the_pos (r : res (option Z)) : res Z :=
  let* p := r in match p with Some i => Ok i | None => Err end.

Section Replace.
  Variable beyond : Z -> Z.
  Variable f : nat.                 (* step budget of each match *)
  Variable re s : list Z.
  (** TEMPLATE: a function of STRING and the match data, with the match data
      it leaves behind.  What it returns may be a character, for concat a
      string of one. *)
  Variable template : list Z -> mstate -> res (list Z) * mstate.

  (** 40-50; the arguments are evaluated from left to right: (match-end), the
      template, (match-start) *)
  Fixpoint replace_loop (fuel : nat) (point : Z) (out : list (list Z)) (m : mstate) : res (list Z) :=
    match fuel with
    | O => Fuel
    | S n =>
        let '(r, m) := matched (string_match beyond f re s point false) s m in
        let* found := r in
        if found then
          let* point' := the_pos (match_end m 0) in
          let '(v, m) := template s m in
          let* v := v in
          let* i := the_pos (match_start m 0) in
          let* before := substring s point i in
          replace_loop n point' (v :: before :: out) m
        else if match out with [] => true | _ => false end then Ok s
        else let* rest := substring s point (Z.of_nat (length s)) in
             Ok (concat (rev (rest :: out)))
    end.
  Definition string_replace (fuel : nat) (m : mstate) : res (list Z) := replace_loop fuel 0 [] m.

  (** string-split, 52-58 *)
  Fixpoint split_loop (fuel : nat) (point : Z) (parts : list (list Z)) (m : mstate) : res (list (list Z)) :=
    match fuel with
    | O => Fuel
    | S n =>
        let '(r, m) := matched (string_match beyond f re s point false) s m in
        let* found := r in
        if found then
          let* point' := the_pos (match_end m 0) in
          let* i := the_pos (match_start m 0) in
          let* part := substring s point i in
          split_loop n point' (part :: parts) m
        else let* rest := substring s point (Z.of_nat (length s)) in
             Ok (rev (rest :: parts))
    end.
  Definition string_split (fuel : nat) (m : mstate) : res (list (list Z)) := split_loop fuel 0 [] m.
End Replace.

(** The template of string-replace when TEMPLATE is a string *)
Definition string_template (beyond junk : Z -> Z) (template : list Z) : list Z -> mstate -> res (list Z) * mstate :=
  fun _ m => (expand_last_match beyond junk m template, m).

(** * quote-url.jl *)

(** url-meta-re, 39: [^a-zA-Z0-9$_.!~*'(),-] *)
Definition url_meta_re : list Z :=
  [91; 94; 97; 45; 122; 65; 45; 90; 48; 45; 57; 36; 95; 46; 33; 126; 42; 39; 40; 41; 44; 45; 93].
(** (string-upcase (format nil "%%%02x" c)) for a character, 48-49 *)
Definition hex_digit (d : Z) : Z := if d <? 10 then 48 + d else 55 + d.
Definition percent (c : Z) : list Z := [37; hex_digit (c / 16); hex_digit (c mod 16)].
(** 46-49; aref signals an error outside the string *)
Definition quote_template (s : list Z) (m : mstate) : res (list Z) * mstate :=
  (let* i := the_pos (match_start m 0) in
   if (i <? 0) || (Z.of_nat (length s) <=? i) then Err else Ok (percent (nth (Z.to_nat i) s 0)), m).
Definition quote_url (beyond : Z -> Z) (f n : nat) (m : mstate) (s : list Z) : res (list Z) :=
  string_replace beyond f url_meta_re s quote_template n m.
(** unquote-url, 53-58: %([0-9A-Fa-f][0-9A-Fa-f]).  string->number with radix
    16; of anything else than two hexadecimal digits it is not modelled. *)
Definition unquote_re : list Z :=
  [37; 40; 91; 48; 45; 57; 65; 45; 70; 97; 45; 102; 93; 91; 48; 45; 57; 65; 45; 70; 97; 45; 102; 93; 41].
Definition hex_value (c : Z) : option Z :=
  if isdigit c then Some (c - 48)
  else if (65 <=? c) && (c <=? 70) then Some (c - 55)
  else if (97 <=? c) && (c <=? 102) then Some (c - 87)
  else None.
Definition unquote_template (beyond junk : Z -> Z) (s : list Z) (m : mstate) : res (list Z) * mstate :=
  (let* d := expand_last_match beyond junk m [92; 49] in
   match d with
   | [a; b] => match hex_value a, hex_value b with Some x, Some y => Ok [16 * x + y] | _, _ => Wild end
   | _ => Wild
   end, m).
Definition unquote_url (beyond junk : Z -> Z) (f n : nat) (m : mstate) (s : list Z) : res (list Z) :=
  string_replace beyond f unquote_re s (unquote_template beyond junk) n m.

(** * The cache of compiled regexps, find.c 47-160 *)

(** Strings by address; None: no string there *)
Definition heap : Type := nat -> option (list Z).
Definition upd (h : heap) (a : nat) (v : option (list Z)) : heap := fun b => if Nat.eqb b a then v else h b.
(** struct cached_regexp: regexp and compiled *)
Definition entry : Type := nat * regexp.
Record cstate := mkc { strings : heap; cache : list entry; limit : Z }.

(** The list with the entry found moved to its head (64-88): the first whose
    string is [re], or has its contents; [Wild] for an entry whose string is
    gone *)
Fixpoint lookup (h : heap) (re : nat) (s : list Z) (before after : list entry) : res (option (regexp * list entry)) :=
  match after with
  | [] => Ok None
  | (a, p) :: after' =>
      let hit := Ok (Some (p, (a, p) :: before ++ after')) in
      if Nat.eqb a re then hit
      else match h a with
           | None => Wild
           | Some s' => if list_eq_dec Z.eq_dec s' s then hit else lookup h re s (before ++ [(a, p)]) after'
           end
  end.
(** rep_compile_regexp 60-112 *)
Definition compile (st : cstate) (re : nat) : res (res regexp * cstate) :=
  match strings st re with
  | None => Wild
  | Some s =>
      let* found := lookup (strings st) re s [] (cache st) in
      match found with
      | Some (p, c) => Ok (Ok p, mkc (strings st) c (limit st))
      | None =>
          match regcomp s with
          | Ok p => Ok (Ok p, mkc (strings st) ((re, p) :: cache st) (limit st))
          | r => Ok (r, st)
          end
      end
  end.

(** rep_string_modified 115-130.  After an entry was removed x points to the
    next field of the entry following it; if there is none the address of the
    field of the NULL entry is read. *)
Fixpoint string_modified (a : nat) (c : list entry) : res (list entry) :=
  match c with
  | [] => Ok []
  | (b, p) :: c' =>
      if Nat.eqb b a then
        match c' with
        | [] => Wild
        | e :: c'' => let* r := string_modified a c'' in Ok (e :: r)
        end
      else let* r := string_modified a c' in Ok ((b, p) :: r)
  end.

(** Bytes of an entry: struct cached_regexp, struct rep_regexp and program *)
Definition entry_size (p : regexp) : Z := 24 + (200 + Z.of_nat (length (program p))).
(** 139-145: the entries marked, and the rest of the list *)
Fixpoint marked (limit : Z) (total : Z) (c : list entry) : list entry * list entry :=
  match c with
  | [] => ([], [])
  | (a, p) :: c' =>
      if total <? limit then let '(x, y) := marked limit (total + entry_size p) c' in ((a, p) :: x, y)
      else ([], c)
  end.
(** mark_cached_regexps 132-160 and the sweep: the entries after the last that
    was marked are freed, if any was; strings neither marked nor [live] go *)
Definition collect (st : cstate) (live : nat -> bool) : cstate :=
  let '(x, y) := marked (limit st) 0 (cache st) in
  mkc (fun a => if live a || existsb (fun e => Nat.eqb (fst e) a) x then strings st a else None)
      (match x with [] => cache st | _ => x end) (limit st).

(** regexp_cache_limit as an int, compared as unsigned long (132-139) *)
Definition as_limit (n : Z) : Z :=
  let i := n mod 2 ^ 32 in if i <? 2 ^ 31 then i else i + (2 ^ 64 - 2 ^ 32).

(** What a program does: [Change] is aset (lispcmds.c 868-880) or
    translate-string (misc.c 427-439), which call rep_string_modified; [Write]
    is output to a stream (STRING . LENGTH) with room in STRING (streams.c
    229-251, 344-371), which does not; [Limit] is regexp-cache-control.  A
    string can only be used where there is one, and a new one only be where
    there is none: else [Err]. *)
Inductive op :=
| New (a : nat) (s : list Z) | Change (a : nat) (s : list Z) | Write (a : nat) (s : list Z)
| Use (a : nat) | Gc (live : nat -> bool) | Limit (n : Z).
Definition step (st : cstate) (o : op) : res (cstate * option (res regexp)) :=
  match o with
  | New a s => match strings st a with
               | None => Ok (mkc (upd (strings st) a (Some s)) (cache st) (limit st), None)
               | Some _ => Err
               end
  | Change a s => match strings st a with
                  | Some _ => let* c := string_modified a (cache st) in
                              Ok (mkc (upd (strings st) a (Some s)) c (limit st), None)
                  | None => Err
                  end
  | Write a s => match strings st a with
                 | Some _ => Ok (mkc (upd (strings st) a (Some s)) (cache st) (limit st), None)
                 | None => Err
                 end
  | Use a => match strings st a with
             | Some _ => let* (r, st) := compile st a in Ok (st, Some r)
             | None => Err
             end
  | Gc live => Ok (collect st live, None)
  | Limit n => Ok (if 0 <=? n then mkc (strings st) (cache st) (as_limit n) else st, None)
  end.
(** The compiled regexps used, in order *)
Fixpoint run (st : cstate) (ops : list op) : res (list (res regexp)) :=
  match ops with
  | [] => Ok []
  | o :: ops => let* (st, r) := step st o in
                let* l := run st ops in
                Ok (match r with Some r => r :: l | None => l end)
  end.
(** regexp_cache_limit, 55 *)
Definition cinit : cstate := mkc (fun _ => None) [] 1024.
