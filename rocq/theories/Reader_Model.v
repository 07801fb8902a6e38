(** Model of the Lisp reader and printer: /repo/src/lisp.c (read_comment to
    readl, rep_lisp_prin, rep_string_print), /repo/src/symbols.c (symbol_print)
    and /repo/src/streams.c (rep_stream_read_esc).

    A character is its code (0 to 255).  The text being read is a list whose
    head is the lookahead character c (or c_p) of the source and whose tail is
    what is left in the stream; the empty list is EOF.  Reading a character is
    taking the tail, rep_stream_ungetc after it gives the old list back.
    isalpha, toupper, isxdigit, iscntrl are those of the C locale.  print-length
    and print-level are taken to be nil.  The origin table (rep_record_origin),
    garbage collection and running out of memory are not modelled.  Floats are
    kept as their text. *)
From Coq Require Import ZArith QArith Qreduction List Bool.
From Verif Require Import Numbers_Model.
Import ListNotations.
Open Scope Z_scope.

(** Lisp data as far as they have a read syntax.  A symbol is known by its
    name: find-symbol/intern-symbol give the one symbol of that name. *)
Inductive sexp :=
| SNil
| SNum (n : num)
| SFloat (text : list Z) (sign : Z)
| SStr (s : list Z)
| SSym (name : list Z)       (** a symbol in the main obarray *)
| SNew (name : list Z)       (** a symbol created although one of this name was interned already *)
| SKey (name : list Z)       (** a keyword, in the keyword obarray *)
| SLit (name : list Z)       (** #t #f #undefined #!optional #!rest #!key *)
| SCons (a d : sexp)
| SVec (l : list sexp)
| SComp (l : list sexp).

(** Result of a reading function: value and rest of the text, an error
    signalled, or the step budget of the model used up. *)
Inductive rd (A : Type) := ROk (a : A) (text : list Z) | RErr | RFuel.
Arguments ROk {A} a text.
Arguments RErr {A}.
Arguments RFuel {A}.

Definition one_of (c : Z) (l : list Z) : bool := existsb (Z.eqb c) l.
Definition white (c : Z) : bool := one_of c [32; 9; 10; 12; 13].
(** lisp.c 453-456: white space, parentheses, brackets, the two quotes, semicolon, comma, backquote *)
Definition delim (c : Z) : bool := white c || one_of c [40; 41; 91; 93; 39; 34; 59; 44; 96].
Definition is_digit (c : Z) : bool := (48 <=? c) && (c <=? 57).
Definition is_octal (c : Z) : bool := (48 <=? c) && (c <=? 55).
Definition is_xdigit (c : Z) : bool :=
  is_digit c || ((65 <=? c) && (c <=? 70)) || ((97 <=? c) && (c <=? 102)).
Definition is_alpha (c : Z) : bool := ((65 <=? c) && (c <=? 90)) || ((97 <=? c) && (c <=? 122)).
Definition is_cntrl (c : Z) : bool := (c <? 32) || (c =? 127).
Definition tolower (c : Z) : Z := if (65 <=? c) && (c <=? 90) then c + 32 else c.

(** ** Strings *)

(** streams.c 457-529 rep_stream_read_esc: [text] begins with the first
    character of the escape (in c_p); the result is the (signed) char and the
    text from the new c_p on. *)
Fixpoint read_hex (text : list Z) (c : Z) : Z * list Z :=
  match text with
  | d :: t =>
    if is_xdigit d then
      read_hex t (wrap 8 (if is_digit d then c * 16 + (d - 48) else c * 16 + (toupper d - 65) + 10))
    else (c, text)
  | [] => (c, [])
  end.
Definition read_esc (text : list Z) : Z * list Z :=
  match text with
  | [] => (-1, [])
  | c :: t =>
    if c =? 110 then (10, t)
    else if c =? 114 then (13, t)
    else if c =? 102 then (12, t)
    else if c =? 116 then (9, t)
    else if c =? 118 then (11, t)
    else if c =? 97 then (7, t)
    else if c =? 94 then
      match t with
      | x :: t' => (wrap 8 (Z.lxor (toupper x) 64), t')
      | [] => (wrap 8 (Z.lxor (-1) 64), [])
      end
    else if is_octal c then
      match t with
      | d1 :: t1 =>
        if is_octal d1 then
          match t1 with
          | d2 :: t2 =>
            if is_octal d2 then (wrap 8 (wrap 8 ((c - 48) * 8 + (d1 - 48)) * 8 + (d2 - 48)), t2)
            else (wrap 8 ((c - 48) * 8 + (d1 - 48)), t1)
          | [] => (wrap 8 ((c - 48) * 8 + (d1 - 48)), t1)
          end
        else (c - 48, t)
      | [] => (c - 48, t)
      end
    else if c =? 120 then read_hex t 0
    else (wrap 8 c, t)
  end.

(** lisp.c 726-782 read_str; [text] begins after the opening quote.  A char
    stored in the string is its code modulo 256. *)
Fixpoint str_loop (fuel : nat) (text acc : list Z) : rd (list Z) :=
  match fuel with
  | O => RFuel
  | S fuel' =>
    match text with
    | [] => RErr
    | c :: t =>
      if c =? 34 then ROk (rev acc) t
      else if c =? 92 then
        match t with
        | [] => RErr
        | d :: t' => if d =? 10 then str_loop fuel' t' acc
                     else let (b, t'') := read_esc t in str_loop fuel' t'' (b mod 256 :: acc)
        end
      else str_loop fuel' t (c :: acc)
    end
  end.
Definition read_str (text : list Z) : rd sexp :=
  match str_loop (S (length text)) text [] with
  | ROk s t => ROk (SStr s) t
  | RErr => RErr
  | RFuel => RFuel
  end.

(** print-escape: newlines, t or anything else (lisp.c 2311-2318) *)
Inductive escape := EscNone | EscNewlines | EscAll.

(** lisp.c 2293-2371 rep_string_print *)
Definition print_char (m : escape) (c : Z) : list Z :=
  let escape_all := match m with EscAll => true | _ => false end in
  let escape_newlines := match m with EscNone => false | _ => true end in
  if escape_all && ((c <? 32) || (126 <? c)) then
    [92; 48 + c / 64; 48 + (c mod 64) / 8; 48 + c mod 8]
  else if one_of c [9; 10; 13; 12] then
    if negb escape_newlines then [c]
    else [92; if c =? 9 then 116 else if c =? 10 then 110 else if c =? 13 then 114 else 102]
  else if c =? 92 then [92; 92]
  else if c =? 34 then [92; 34]
  else [c].
Definition print_string (m : escape) (s : list Z) : list Z := [34] ++ concat (map (print_char m) s) ++ [34].

(** ** Symbols and numbers *)

(** The variables of read_symbol that recognise numbers, lisp.c 425-431 *)
Record nstate := mk_n { radix : Z; sign : Z; nfirst : nat; exact_ : bool; rational : bool;
                        exponent : bool; had_sign : bool; prefix : bool; force : Z }.
Definition n_start := mk_n (-1) 1 0 true false false false false 0.
Definition set_radix (r : Z) (s : nstate) : nstate :=
  mk_n r (sign s) (nfirst s) (exact_ s) (rational s) (exponent s) (had_sign s) (prefix s) (force s).
Definition set_nfirst (n : nat) (s : nstate) : nstate :=
  mk_n (radix s) (sign s) n (exact_ s) (rational s) (exponent s) (had_sign s) (prefix s) (force s).
Definition set_exact (e : bool) (s : nstate) : nstate :=
  mk_n (radix s) (sign s) (nfirst s) e (rational s) (exponent s) (had_sign s) (prefix s) (force s).
Definition set_rational (r : bool) (s : nstate) : nstate :=
  mk_n (radix s) (sign s) (nfirst s) (exact_ s) r (exponent s) (had_sign s) (prefix s) (force s).
Definition set_exponent (e : bool) (s : nstate) : nstate :=
  mk_n (radix s) (sign s) (nfirst s) (exact_ s) (rational s) e (had_sign s) (prefix s) (force s).
Definition set_sign (g : Z) (s : nstate) : nstate :=
  mk_n (radix s) g (nfirst s) (exact_ s) (rational s) (exponent s) true (prefix s) (force s).
Definition set_prefix (p : bool) (s : nstate) : nstate :=
  mk_n (radix s) (sign s) (nfirst s) (exact_ s) (rational s) (exponent s) (had_sign s) p (force s).
Definition set_force (f : Z) (s : nstate) : nstate :=
  mk_n (radix s) (sign s) (nfirst s) (exact_ s) (rational s) (exponent s) (had_sign s) (prefix s) f.

(** lisp.c 636-643: a digit of the radix or no number *)
Definition n_digit (c : Z) (s : nstate) : nstate :=
  if (radix s <=? 10) && negb ((48 <=? c) && (c <=? 48 + radix s - 1)) then set_radix 0 s
  else if (radix s =? 16) && negb (is_xdigit c) then set_radix 0 s
  else s.

(** lisp.c 490-646: the character [c] at position [i] while it may still be a
    number (radix not 0) *)
Definition n_step (i : nat) (c : Z) (s : nstate) : nstate :=
  if prefix s then
    let s1 :=
      if one_of c [98; 66] then set_radix 2 s
      else if one_of c [111; 79] then set_radix 8 s
      else if one_of c [100; 68] then set_radix 10 s
      else if one_of c [120; 88] then set_radix 16 s
      else if one_of c [101; 69] then set_force 1 s
      else if one_of c [105; 73] then set_force (-1) s
      else set_radix 0 s in
    set_nfirst (S i) (set_prefix false s1)
  else if Nat.eqb i (nfirst s) && one_of c [45; 43; 35] then
    let s1 := if c =? 35 then (if had_sign s then set_radix 0 s else set_prefix true s)
              else set_sign (if c =? 45 then -1 else 1) s in
    set_nfirst (S i) s1
  else if radix s =? -1 then
    if c =? 46 then set_exact false (set_radix 10 s)
    else if negb (is_digit c) then set_radix 0 s
    else if c =? 48 then set_radix 1 s
    else set_radix 10 s
  else if radix s =? 1 then
    if one_of c [120; 88] then set_nfirst (S i) (set_radix 16 s)
    else if is_octal c then set_nfirst i (set_radix 8 s)
    else if one_of c [46; 101; 69] then set_exact false (set_radix 10 s)
    else if c =? 47 then set_rational true (set_radix 10 s)
    else set_radix 0 s
  else
    if c =? 46 then
      if exact_ s && (radix s =? 10) && negb (rational s) then set_exact false s else set_radix 0 s
    else if c =? 47 then
      if exact_ s && negb (rational s) then set_rational true s else set_radix 0 s
    else if one_of c [45; 43] then
      if negb (exponent s) then n_digit c s else s
    else if one_of c [101; 69] && (radix s =? 10) then
      if negb (rational s) && negb (exponent s) then set_exact false (set_exponent true s)
      else set_radix 0 s
    else n_digit c s.

(** lisp.c 441-651: the loop.  [buf] is the buffer backwards and [i] its
    length; [bar] is set inside |...|, whose inner loop stops when [i] reaches
    [buflen] and then drops a character (lisp.c 477).  At the top of the outer
    loop a full buffer is doubled (443-450). *)
Fixpoint sym_loop (text : list Z) (buflen i : nat) (buf : list Z) (s : nstate) (bar : bool)
  : rd (list Z * nstate) :=
  match text with
  | [] => if bar then RErr else ROk (rev buf, s) []
  | c :: t =>
    if bar then
      if c =? 124 then sym_loop t buflen i buf s false
      else if Nat.ltb i buflen then sym_loop t buflen (S i) (c :: buf) s true
      else sym_loop t buflen i buf s false
    else
      let buflen := if Nat.eqb i buflen then (buflen * 2)%nat else buflen in
      if delim c then ROk (rev buf, s) text
      else if (c =? 35) && (radix s =? 0) then ROk (rev buf, s) text
      else if c =? 92 then
        match t with
        | d :: t' => sym_loop t' buflen (S i) (d :: buf) (set_radix 0 s) false
        | [] => RErr
        end
      else if c =? 124 then sym_loop t buflen i buf (set_radix 0 s) true
      else sym_loop t buflen (S i) (c :: buf) (if radix s =? 0 then s else n_step i c s) false
  end.

(** numbers.c 1041-1062: a ratio; mpz_set_str rejects the empty string.
    strchr finds the first '/'. *)
Fixpoint split_slash (l : list Z) : option (list Z * list Z) :=
  match l with
  | [] => None
  | c :: l' => if c =? 47 then Some ([], l')
               else match split_slash l' with Some (a, b) => Some (c :: a, b) | None => None end
  end.
Definition mpz_text (r : Z) (l : list Z) : option Z :=
  match l with [] => None | _ => mpz_set_str r l 0 end.
Definition parse_rational (text : list Z) (r sgn : Z) : option num :=
  match split_slash text with
  | None => None
  | Some (a, b) =>
    match mpz_text r a, mpz_text r b with
    | Some n, Some d =>
      if d =? 0 then None
      else Some (maybe_demote (Rat (let q := ratio n d in if sgn <? 0 then Qred (- q) else q)))
    | _, _ => None
    end
  end.

(** numbers.c 1076-1088: does strtod accept all of a text made of digits, '.',
    'e', '+' and '-' beginning with a digit or '.'?  Digits with at most one
    point, at least one digit, and an optional exponent with at least one digit. *)
Fixpoint span_digits (l : list Z) : nat * list Z :=
  match l with
  | c :: l' => if is_digit c then let (n, r) := span_digits l' in (S n, r) else (O, l)
  | [] => (O, [])
  end.
Definition strtod_accepts (l : list Z) : bool :=
  let (n1, l1) := span_digits l in
  let (n2, l2) := match l1 with 46 :: l' => span_digits l' | _ => (O, l1) end in
  Nat.ltb 0 (n1 + n2) &&
  match l2 with
  | [] => true
  | c :: l3 =>
    one_of c [101; 69] &&
    let l4 := match l3 with d :: l' => if one_of d [43; 45] then l' else l3 | [] => [] end in
    match span_digits l4 with (S _, []) => true | _ => false end
  end.

(** lisp.c 652-688: what the collected text is.  #e and #i (inexact->exact,
    exact->inexact) are not applied.
    [full] tells that the name is longer than the buffer: the lookup is done on
    the old buffer (lisp.c 677), whose bytes from 240 on are not those of the
    name, so that no symbol is found and a new one is made. *)
Definition symbol_or_number (buf : list Z) (s : nstate) (full : bool) : option sexp :=
  let intern := Some (if full then SNew buf else SSym buf) in
  match buf with
  | [] => None
  | _ =>
    if (0 <? radix s) && Nat.ltb (nfirst s) (length buf) then
      let txt := skipn (nfirst s) buf in
      if radix s =? 1 then Some (SNum (Fix 0))
      else if negb (exact_ s) then (if strtod_accepts txt then Some (SFloat txt (sign s)) else intern)
      else if rational s then
        match parse_rational txt (radix s) (sign s) with Some n => Some (SNum n) | None => intern end
      else match parse_number txt (radix s) (sign s) with
           | Ok n => Some (SNum n)
           | _ => intern
           end
    else intern
  end.

(** The static buffer is 240 characters long at the start (lisp.c 418). *)
Definition start_buflen : nat := 240.

(** lisp.c 414-688 read_symbol *)
Definition read_symbol (text : list Z) : rd sexp :=
  match sym_loop text start_buflen 0 [] n_start false with
  | ROk (buf, s) t =>
    match symbol_or_number buf s (Nat.ltb start_buflen (length buf)) with
    | Some v => ROk v t
    | None => RErr
    end
  | RErr => RErr
  | RFuel => RFuel
  end.

(** symbols.c 163-186: does the name look like a number made of digits, '/'
    and '.'?  A NUL ends the C string. *)
Fixpoint scan_digits (l : list Z) (seen : bool) : bool :=
  match l with
  | [] => seen
  | c :: r => if c =? 0 then seen
              else if is_digit c then scan_digits r true
              else if one_of c [47; 46] then scan_digits r seen
              else false
  end.
Definition escape_first (name : list Z) : bool :=
  match name with
  | [] => false
  | c :: r => if is_digit c then scan_digits r true
              else if one_of c [45; 43; 46] then scan_digits r false
              else false
  end.

(** symbols.c 188-215: [first] at the first character, [key] for keywords *)
Fixpoint print_name (l : list Z) (first key : bool) : list Z :=
  match l with
  | [] => []
  | c :: r =>
    if c =? 0 then []
    else
      let esc := one_of c [32; 9; 10; 12; 40; 41; 91; 93; 39; 34; 59; 92; 124; 44; 96]
                 || (if c =? 35 then negb (key && first) else is_cntrl c) in
      (if esc then [92; c] else [c]) ++ print_name r false key
  end.

(** symbols.c 148-218 symbol_print *)
Definition print_symbol (name : list Z) (key : bool) : list Z :=
  (if escape_first name then [92] else []) ++ print_name name true key.

(** ** The reader *)

(** lisp.c 259-295 read_comment; [text] begins with the character examined at
    the label again *)
Fixpoint read_comment (terminator : Z) (text : list Z) (depth : Z) : option (list Z) :=
  match text with
  | [] => None
  | c :: t =>
    if c =? terminator then
      match t with
      | [] => None
      | c2 :: t' =>
        if c2 =? 35 then if depth - 1 =? 0 then Some t' else read_comment terminator t (depth - 1)
        else read_comment terminator t depth
      end
    else if c =? 35 then
      match t with
      | [] => None
      | c2 :: t' => if c2 =? terminator then read_comment terminator t' (depth + 1)
                    else read_comment terminator t depth
      end
    else read_comment terminator t depth
  end.

(** lisp.c 844-852: skip a comment line; [text] begins after the ';'.  The line
    end itself is read too. *)
Fixpoint skip_line (text : list Z) : list Z :=
  match text with
  | [] => []
  | c :: t => if one_of c [10; 12; 13] then t else skip_line t
  end.

(** lisp.c 784-818 skip_chars *)
Fixpoint skip_chars (str : list Z) (ret : sexp) (text : list Z) : rd sexp :=
  match str, text with
  | [], [] => ROk ret []
  | [], c :: _ => if delim c then ROk ret text else RErr
  | x :: str', c :: t => if c =? x then skip_chars str' ret t else RErr
  | _ :: _, [] => RErr
  end.

(** lisp.c 989-1002 char_names *)
Definition char_names : list (list Z * Z) :=
  [([115; 112; 97; 99; 101], 32);
   ([110; 101; 119; 108; 105; 110; 101], 10);
   ([98; 97; 99; 107; 115; 112; 97; 99; 101], 8);
   ([116; 97; 98], 9);
   ([108; 105; 110; 101; 102; 101; 101; 100], 10);
   ([114; 101; 116; 117; 114; 110], 13);
   ([112; 97; 103; 101], 12);
   ([114; 117; 98; 111; 117; 116], 127)].
(** lisp.c 1030-1040 *)
Fixpoint match_name (ptr text : list Z) (value : Z) : rd sexp :=
  match ptr, text with
  | [], _ => ROk (SNum (make_int value)) text
  | x :: ptr', c :: t => if tolower c =? x then match_name ptr' t value else RErr
  | _ :: _, [] => RErr
  end.
(** lisp.c 1004-1043: [text] begins after #\ *)
Definition read_char_name (text : list Z) : rd sexp :=
  match text with
  | [] => RErr
  | c :: t =>
    if negb (is_alpha c) then ROk (SNum (make_int c)) t
    else match t with
         | [] => ROk (SNum (make_int c)) []
         | c2 :: t' =>
           if negb (is_alpha c2) then ROk (SNum (make_int c)) t
           else match find (fun e => match fst e with
                                     | a :: b :: _ => (a =? tolower c) && (b =? tolower c2)
                                     | _ => false end) char_names with
                | Some (name, v) => match_name (skipn 2 name) t' v
                | None => RErr
                end
         end
  end.

Definition sym_quote := [113; 117; 111; 116; 101].
Definition sym_backquote := [98; 97; 99; 107; 113; 117; 111; 116; 101].
Definition sym_unquote := sym_backquote ++ [45; 117; 110; 113; 117; 111; 116; 101].
Definition sym_splice := sym_backquote ++ [45; 115; 112; 108; 105; 99; 101].
Definition sym_function := [102; 117; 110; 99; 116; 105; 111; 110].
Definition sym_structure_ref := [115; 116; 114; 117; 99; 116; 117; 114; 101; 45; 114; 101; 102].
Definition lit_optional := [35; 33; 111; 112; 116; 105; 111; 110; 97; 108].
Definition lit_rest := [35; 33; 114; 101; 115; 116].
Definition lit_key := [35; 33; 107; 101; 121].
Definition lit_true := [35; 116].
Definition lit_false := [35; 102].
Definition lit_undefined := [35; 117; 110; 100; 101; 102; 105; 110; 101; 100].

Definition list2 (a b : sexp) : sexp := SCons a (SCons b SNil).
Definition list3 (a b c : sexp) : sexp := SCons a (SCons b (SCons c SNil)).

(** The list whose elements backwards are [rev_elems] and whose last cdr is [tail] *)
Definition build (rev_elems : list sexp) (tail : sexp) : sexp := fold_left (fun t a => SCons a t) rev_elems tail.
(** read_vector, lisp.c 699-716: the elements of the list read *)
Fixpoint elements (v : sexp) : list sexp :=
  match v with SCons a d => a :: elements d | _ => [] end.

(** lisp.c 961-964 *)
Definition compiled_ok (l : list sexp) : bool :=
  match l with
  | SStr _ :: SVec _ :: SNum (Fix _) :: _ => true
  | _ => false
  end.

Definition rd_map {A B} (f : A -> B) (r : rd A) : rd B :=
  match r with ROk a t => ROk (f a) t | RErr => RErr | RFuel => RFuel end.

(** lisp.c 823-1118 readl and 297-411 read_list.  In read_list, [last] is NULL
    iff no element was read ([elems] empty), and the cdr of the last cell is
    [tail]; [text] is at c_p.  The case #! at the start of a file (position 2)
    is not modelled. *)
Fixpoint readl (fuel : nat) (text : list Z) : rd sexp :=
  match fuel with
  | O => RFuel
  | S f =>
    match text with
    | [] => RErr
    | c :: t =>
      let identifier txt :=
        match read_symbol txt with
        | ROk form (x :: t') =>
          if (x =? 35) && match form with SSym _ | SNew _ => true | _ => false end then
            match read_symbol t' with
            | ROk var t'' => ROk (list3 (SSym sym_structure_ref) form var) t''
            | r => r
            end
          else ROk form (x :: t')
        | r => r
        end in
      if white c then readl f t
      else if c =? 59 then readl f (skip_line t)
      else if c =? 40 then read_list f t [] SNil
      else if c =? 39 then rd_map (list2 (SSym sym_quote)) (readl f t)
      else if c =? 96 then rd_map (list2 (SSym sym_backquote)) (readl f t)
      else if c =? 44 then
        match t with
        | [] => RErr
        | x :: t' => if x =? 64 then rd_map (list2 (SSym sym_splice)) (readl f t')
                     else rd_map (list2 (SSym sym_unquote)) (readl f t)
        end
      else if c =? 91 then rd_map (fun l => SVec (elements l)) (read_list f t [] SNil)
      else if c =? 34 then read_str t
      else if c =? 63 then
        match t with
        | [] => RErr
        | d :: t' =>
          if d =? 92 then
            match t' with
            | [] => RErr
            | _ => let (v, t'') := read_esc t' in ROk (SNum (make_int v)) t''
            end
          else ROk (SNum (make_int d)) t'
        end
      else if c =? 35 then
        match t with
        | [] => RErr
        | d :: t' =>
          if d =? 39 then rd_map (list2 (SSym sym_function)) (readl f t')
          else if d =? 91 then
            match read_list f t' [] SNil with
            | ROk l t'' => if compiled_ok (elements l) then ROk (SComp (elements l)) t'' else RErr
            | r => r
            end
          else if d =? 40 then rd_map (fun l => SVec (elements l)) (read_list f t' [] SNil)
          else if d =? 124 then
            match read_comment 124 t' 1 with Some t'' => readl f t'' | None => RErr end
          else if d =? 92 then read_char_name t'
          else if d =? 33 then
            match t' with
            | [] => RErr
            | e :: t'' =>
              if e =? 111 then skip_chars [112; 116; 105; 111; 110; 97; 108] (SLit lit_optional) t''
              else if e =? 114 then skip_chars [101; 115; 116] (SLit lit_rest) t''
              else if e =? 107 then skip_chars [101; 121] (SLit lit_key) t''
              else RErr
            end
          else if d =? 58 then
            rd_map (fun v => match v with SSym n | SNew n => SKey n | _ => v end) (read_symbol text)
          else if one_of d [116; 84] then ROk (SLit lit_true) t'
          else if one_of d [102; 70] then ROk (SLit lit_false) t'
          else if one_of d [98; 66; 111; 79; 100; 68; 120; 88; 101; 69; 105; 73] then identifier text
          else if d =? 117 then skip_chars [110; 100; 101; 102; 105; 110; 101; 100] (SLit lit_undefined) t'
          else RErr
        end
      else identifier text
    end
  end
with read_list (fuel : nat) (text : list Z) (elems : list sexp) (tail : sexp) : rd sexp :=
  match fuel with
  | O => RFuel
  | S f =>
    let element txt :=
      match readl f txt with
      | ROk v t' => read_list f t' (v :: elems) SNil
      | r => r
      end in
    match text with
    | [] => RErr
    | c :: t =>
      if white c then read_list f t elems tail
      else if c =? 59 then read_list f (skip_line t) elems tail
      else if one_of c [41; 93] then ROk (build elems tail) t
      else if c =? 46 then
        match t with
        | [] => RErr
        | d :: _ =>
          if white d then
            match elems with
            | [] => RErr
            | _ => match readl f t with
                   | ROk v t' => read_list f t' elems v
                   | r => r
                   end
            end
          else element text
        end
      else if c =? 35 then
        match t with
        | [] => ROk (build elems tail) text
        | d :: t' =>
          if d =? 124 then
            match read_comment 124 t' 1 with Some t'' => read_list f t'' elems tail | None => RErr end
          else element text
        end
      else element text
    end
  end.

(** streams.c 721-745 Fread *)
Definition Fread (fuel : nat) (text : list Z) : rd sexp := readl fuel text.

(** ** The printer *)

(** numbers.c 1096-1180 in radix 10 (number_prin): mpq_get_str for ratios *)
Definition print_num (n : num) : list Z :=
  match n with
  | Rat q => signed_digits 10 (Qnum q) ++ [47] ++ digits 10 (Z.pos (Qden q))
  | _ => print_integer n 10
  end.

(** lisp.c 2143-2215 rep_lisp_prin with rep_string_print, symbol_print,
    number_prin and (for nil) datum_print, datums.c 59-65 *)
Fixpoint print_val (m : escape) (v : sexp) : list Z :=
  let fix vec (l : list sexp) : list Z :=
    match l with
    | [] => []
    | [a] => print_val m a
    | a :: l' => print_val m a ++ [32] ++ vec l'
    end in
  let fix cells (v : sexp) : list Z :=
    match v with
    | SCons a d =>
      match d with
      | SCons _ _ => print_val m a ++ [32] ++ cells d
      | SNil => print_val m a
      | _ => print_val m a ++ [32; 46; 32] ++ print_val m d
      end
    | _ => []
    end in
  match v with
  | SNil => [40; 41]
  | SNum n => print_num n
  | SFloat text sgn => (if sgn <? 0 then [45] else []) ++ text
  | SStr s => print_string m s
  | SSym name => print_symbol name false
  | SNew name => print_symbol name false
  | SKey name => print_symbol name true
  | SLit name => name
  | SCons _ _ => [40] ++ cells v ++ [41]
  | SVec l => [91] ++ vec l ++ [93]
  | SComp l => [35; 91] ++ vec l ++ [93]
  end.

(** ** The static buffer of read_symbol *)

(** lisp.c 417-450: [buflen] is static and is doubled when full, but the new
    string is not stored in [buffer], which stays 242 bytes long (buflen + 2 at
    the first call, 433-437).  Reading a symbol of [n] characters: the length
    left in [buflen], and whether every byte written (indices 0 to n, the last
    one the NUL) was inside the string written to. *)
Definition buffer_bytes : nat := 242.
Fixpoint grow (fuel buflen n : nat) : nat :=
  match fuel with
  | O => buflen
  | S f => if Nat.leb buflen n then grow f (buflen * 2)%nat n else buflen
  end.
Definition read_symbol_buffer (buflen n : nat) : nat * bool :=
  (grow n buflen n,
   (** while i < buflen the writes go to [buffer]; later ones to a string of
       the doubled length plus two *)
   if Nat.ltb n buflen then Nat.ltb n buffer_bytes else Nat.leb buflen buffer_bytes).
