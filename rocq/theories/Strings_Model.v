(** Strings and vectors: the sequence functions of src/lispcmds.c, the string
    functions of src/misc.c, their allocation in src/values.c, and
    lisp/rep/data/string-util.jl.
    Strings and vectors live in a heap and are known by their place in it.
    Lists are given by their elements (these functions do not write to lists;
    a dotted end is not looked at).  Left out: interrupts, the garbage
    collector, lack of memory, the cache of regexps that rep_string_modified
    looks at (see Find_Model).  Signed arithmetic of int wraps, as compiled by
    gcc and clang. *)
From Coq Require Import ZArith List Bool.
Import ListNotations.
Open Scope Z_scope.

Inductive val :=
| VInt (z : Z)               (* fixnum *)
| VStr (p : nat)
| VVec (p : nat)             (* vector or bytecode *)
| VList (l : list val)       (* [VList nil] is nil *)
| VOther (id : Z).           (* anything else *)

(** rep_lisp.h 367-375; the bytes are followed by a zero byte.  [s_const]:
    rep_CELL_STATIC_BIT *)
Record str := mkstr { s_bytes : list Z; s_const : bool }.
(** rep_lisp.h 462-466: the length that the header says, and the slots there
    are *)
Record vec := mkvec { v_len : Z; v_slots : list val; v_const : bool; v_compiled : bool }.
Record heap := mkheap { strs : list str; vecs : list vec }.

(** [NoValue]: rep_NULL without an exception set; [Wild]: memory is read or
    written that does not belong to the object *)
Inductive res := Ret (v : val) | Sig | NoValue | Wild.

Definition nil : val := VList [].
Definition get_str (h : heap) (p : nat) : str := nth p (strs h) (mkstr [] true).
Definition get_vec (h : heap) (p : nat) : vec := nth p (vecs h) (mkvec 0 [] true false).
Fixpoint set_nth {A} (l : list A) (n : nat) (x : A) : list A :=
  match l, n with
  | [], _ => []
  | _ :: l, O => x :: l
  | y :: l, S n => y :: set_nth l n x
  end.
Definition set_str (h : heap) (p : nat) (s : str) : heap := mkheap (set_nth (strs h) p s) (vecs h).
Definition set_vec (h : heap) (p : nat) (v : vec) : heap := mkheap (strs h) (set_nth (vecs h) p v).
Definition zlen {A} (l : list A) : Z := Z.of_nat (length l).

(** Conversion of long to int *)
Definition wrap32 (z : Z) : Z := (z + 2 ^ 31) mod 2 ^ 32 - 2 ^ 31.

(** * Allocation *)

(** values.c 230-290 rep_box_string, rep_make_string, rep_string_dupn: a new
    string of these bytes *)
Definition new_str (h : heap) (b : list Z) : res * heap :=
  if zlen b <=? 2 ^ 56 - 1 then (Ret (VStr (length (strs h))), mkheap (strs h ++ [mkstr b false]) (vecs h))
  else (Sig, h).
(** values.c 217-222: the one empty string, which is constant, is the first
    string of the heap *)
Definition null_string : val := VStr 0.

(** values.c 594-608 rep_make_vector for an int, rep_lisp.h 469-475: the
    number of bytes is an int; the length is shifted as an int, extended to
    unsigned long and shifted back. *)
Inductive made := Made (len : Z) (slots : Z) | MNull | MWild.
Definition rep_make_vector (size : Z) : made :=
  let bytes := wrap32 (8 * (size - 1) + 24) in
  if bytes <? 0 then MNull                       (* no allocator gives 2^64 - 2^31 bytes *)
  else if bytes <? 16 then MWild                 (* the header is written beyond the cell *)
  else Made ((wrap32 (size * 256)) mod 2 ^ 64 / 256) ((bytes - 16) / 8).

(** A new vector of [vals], which are written to the slots from the first on *)
Definition new_vec (h : heap) (size : Z) (vals : list val) (const compiled : bool) (len : option Z) : res * heap :=
  match rep_make_vector size with
  | MNull => (NoValue, h)
  | MWild => (Wild, h)
  | Made l slots =>
      if slots <? zlen vals then (Wild, h)
      else (Ret (VVec (length (vecs h))),
            mkheap (strs h) (vecs h ++ [mkvec (match len with Some n => n | None => l end)
                                          (vals ++ repeat (VOther 0) (Z.to_nat slots - length vals)) const compiled]))
  end.

(** lispcmds.c 808-823 Fvector: argc is an int *)
Definition vector (h : heap) (args : list val) : res * heap :=
  new_vec h (wrap32 (zlen args)) args false false None.
(** lispcmds.c 825-847 Fmake_vector *)
Definition make_vector (h : heap) (size init : val) : res * heap :=
  match size with
  | VInt n =>
      if n <? 0 then (Sig, h)
      else let len := wrap32 n in new_vec h len (repeat init (Z.to_nat len)) false false None
  | _ => (Sig, h)
  end.
(** lispcmds.c 924-943 Fmake_string *)
Definition make_string (h : heap) (len init : val) : res * heap :=
  match len with
  | VInt n =>
      if n <? 0 then (Sig, h)
      else new_str h (repeat (match init with VInt c => c mod 256 | _ => 32 end) (Z.to_nat n))
  | _ => (Sig, h)
  end.

(** * Elements *)

(** lispcmds.c 849-857 *)
Definition arrayp (v : val) : bool := match v with VStr _ | VVec _ => true | _ => false end.

(** lispcmds.c 859-896 Faset *)
Definition aset (h : heap) (array index new : val) : res * heap :=
  match index with
  | VInt i =>
      if i <? 0 then (Sig, h) else
      match array with
      | VStr p =>
          let s := get_str h p in
          if s_const s then (Sig, h)
          else if i <? zlen (s_bytes s) then
            match new with
            | VInt c => (Ret new, set_str h p (mkstr (set_nth (s_bytes s) (Z.to_nat i) (c mod 256)) false))
            | _ => (Sig, h)
            end
          else (Sig, h)
      | VVec p =>
          let v := get_vec h p in
          if v_const v then (Sig, h)
          else if i <? v_len v then
            if i <? zlen (v_slots v)
            then (Ret new, set_vec h p (mkvec (v_len v) (set_nth (v_slots v) (Z.to_nat i) new) false (v_compiled v)))
            else (Wild, h)
          else (Sig, h)
      | _ => (Sig, h)
      end
  | _ => (Sig, h)
  end.

(** lispcmds.c 898-922 Faref *)
Definition aref (h : heap) (array index : val) : res :=
  match index with
  | VInt i =>
      if i <? 0 then Sig else
      match array with
      | VStr p =>
          if i <? zlen (s_bytes (get_str h p)) then Ret (VInt (nth (Z.to_nat i) (s_bytes (get_str h p)) 0)) else Sig
      | VVec p =>
          if i <? v_len (get_vec h p) then
            match nth_error (v_slots (get_vec h p)) (Z.to_nat i) with Some x => Ret x | None => Wild end
          else Sig
      | _ => Sig
      end
  | _ => Sig
  end.

(** lispcmds.c 1078-1112 Flength: elements of a list are counted in an int *)
Definition length_ (h : heap) (v : val) : res :=
  match v with
  | VStr p => Ret (VInt (zlen (s_bytes (get_str h p))))
  | VVec p => Ret (VInt (v_len (get_vec h p)))
  | VList l => Ret (VInt (wrap32 (zlen l)))
  | _ => Sig
  end.

(** lispcmds.c 1114-1158 Fcopy_sequence: the header of a vector is copied,
    flags included *)
Definition copy_sequence (h : heap) (v : val) : res * heap :=
  match v with
  | VList l => (Ret (VList l), h)
  | VVec p =>
      let x := get_vec h p in
      let len := wrap32 (v_len x) in
      if zlen (v_slots x) <? len then (Wild, h)
      else new_vec h len (firstn (Z.to_nat len) (v_slots x)) (v_const x) (v_compiled x) (Some (v_len x))
  | VStr p => new_str h (s_bytes (get_str h p))
  | _ => (Sig, h)
  end.

(** lispcmds.c 454-475 Fnth, the index converted to int; 1160-1171 Felt *)
Definition nth_ (index list : val) : res :=
  match index, list with
  | VInt n, VList l => if wrap32 n <? 0 then Sig else Ret (nth (Z.to_nat (wrap32 n)) l nil)
  | _, _ => Sig
  end.
Definition elt (h : heap) (seq index : val) : res :=
  if arrayp seq then aref h seq index else nth_ index seq.

(** * Parts and sums of strings *)

(** lispcmds.c 945-969 Fsubstring: slen is an int *)
Definition substring (h : heap) (string start end_ : val) : res * heap :=
  match string, start with
  | VStr p, VInt a =>
      let b := s_bytes (get_str h p) in
      let slen := wrap32 (zlen b) in
      match end_ with
      | VInt e =>
          if (slen <? a) || (a <? 0) then (Sig, h)
          else if (slen <? e) || (e <? a) then (Sig, h)
          else new_str h (firstn (Z.to_nat (e - a)) (skipn (Z.to_nat a) b))
      | VList [] =>
          if (slen <? a) || (a <? 0) then (Sig, h)
          else new_str h (firstn (Z.to_nat (slen - a)) (skipn (Z.to_nat a) b))
      | _ => (Sig, h)
      end
  | _, _ => (Sig, h)
  end.

(** lispcmds.c 979-1015, what an argument adds to [length] *)
Definition concat_len (h : heap) (v : val) : Z :=
  match v with
  | VInt _ => 1
  | VList l => zlen l
  | VStr p => zlen (s_bytes (get_str h p))
  | VVec p => if v_compiled (get_vec h p) then 0 else v_len (get_vec h p)
  | VOther _ => 0
  end.
Definition chars (l : list val) : list Z := flat_map (fun v => match v with VInt c => [c mod 256] | _ => [] end) l.
(** 1024-1066, the bytes written for it; None: slots are read that do not
    exist *)
Definition concat_bytes (h : heap) (v : val) : option (list Z) :=
  match v with
  | VInt c => Some [c mod 256]
  | VList l => Some (chars l)
  | VStr p => Some (s_bytes (get_str h p))
  | VVec p =>
      let x := get_vec h p in
      if v_compiled x then Some []
      else if zlen (v_slots x) <? v_len x then None
      else Some (chars (firstn (Z.to_nat (v_len x)) (v_slots x)))
  | VOther _ => Some []
  end.
Fixpoint concat_write (h : heap) (args : list val) : option (list Z) :=
  match args with
  | [] => Some []
  | a :: args =>
      match concat_bytes h a, concat_write h args with
      | Some x, Some y => Some (x ++ y)
      | _, _ => None
      end
  end.
(** lispcmds.c 971-1076 Fconcat: the length is an unsigned int, one more is
    allocated, and a zero byte is written behind the characters *)
Definition concat (h : heap) (args : list val) : res * heap :=
  let length := fold_left (fun n v => (n + concat_len h v) mod 2 ^ 32) args 0 in
  if length =? 0 then (Ret null_string, h)
  else match concat_write h args with
       | None => (Wild, h)
       | Some b => if zlen b + 1 <=? (length + 1) mod 2 ^ 32 then new_str h b else (Wild, h)
       end.

(** * Comparing *)

(** char is signed *)
Definition schar (c : Z) : Z := if c <? 128 then c else c - 256.

(** Strings end at the first zero byte: the one in them or the one behind them *)
Definition c_string (b : list Z) : list Z := b ++ [0].

(** lispcmds.c 1585-1597 string-head-eq, s1 and s2 with their ends *)
Fixpoint head_eq_loop (s1 s2 : list Z) : bool :=
  match s1, s2 with
  | x :: s1', y :: s2' =>
      if negb (x =? 0) && negb (y =? 0) then if x =? y then head_eq_loop s1' s2' else false
      else negb (x =? 0) || (x =? y)
  | _, _ => false
  end.
Definition string_head_eq (a b : list Z) : bool := head_eq_loop (c_string a) (c_string b).

Section Locale.
  (** toupper and tolower as the C library and the locale have them *)
  Variables toupper tolower : Z -> Z.

  (** lispcmds.c 1607-1618 string-equal *)
  Fixpoint equal_loop (s1 s2 : list Z) : bool :=
    match s1, s2 with
    | x :: s1', y :: s2' =>
        if negb (x =? 0) && negb (y =? 0)
        then if toupper (schar x) =? toupper (schar y) then equal_loop s1' s2' else false
        else negb (negb (x =? 0) || negb (y =? 0))
    | _, _ => false
    end.
  Definition string_equal (a b : list Z) : bool := equal_loop (c_string a) (c_string b).

  (** lispcmds.c 1628-1641 string-lessp *)
  Fixpoint lessp_loop (s1 s2 : list Z) : bool :=
    match s1, s2 with
    | x :: s1', y :: s2' =>
        if negb (x =? 0) && negb (y =? 0)
        then if toupper (schar x) =? toupper (schar y) then lessp_loop s1' s2'
             else toupper (schar x) <? toupper (schar y)
        else negb (y =? 0)
    | _, _ => false
    end.
  Definition string_lessp (a b : list Z) : bool := lessp_loop (c_string a) (c_string b).

  (** * complete-string, misc.c 156-215 *)

  (** strncmp = 0 and strncasecmp = 0; the latter compares unsigned chars *)
  Fixpoint strn_eq (fold : bool) (n : nat) (a b : list Z) : bool :=
    match n with
    | O => true
    | S n =>
        match a, b with
        | x :: a, y :: b =>
            if (if fold then tolower x =? tolower y else x =? y) then if x =? 0 then true else strn_eq fold n a b else false
        | _, _ => false
        end
    end.
  (** 186-199: how far tmp2 moves *)
  Fixpoint common (fold : bool) (a b : list Z) : nat :=
    match a, b with
    | x :: a, y :: b =>
        if (x =? 0) || (y =? 0) then O
        else if (if fold then tolower (schar x) =? tolower (schar y) else x =? y) then S (common fold a b) else O
    | _, _ => O
    end.
  (** strlen *)
  Fixpoint strlen (a : list Z) : Z := match a with [] => 0 | x :: a => if x =? 0 then 0 else 1 + strlen a end.

  (** 175-210, [m] the bytes of match and matchlen; None: match or tmp is moved
      past the end of its string *)
  Fixpoint complete_loop (h : heap) (orig : list Z) (fold : bool) (args : list val) (m : option (list Z * Z)) : option (option (list Z * Z)) :=
    match args with
    | [] => Some m
    | VStr p :: args =>
        let tmp := s_bytes (get_str h p) in
        if strn_eq fold (length orig) (c_string orig) (c_string tmp) then
          match m with
          | None => complete_loop h orig fold args (Some (tmp, wrap32 (strlen tmp)))
          | Some (mt, ml) =>
              if ((length tmp <? length orig) || (length mt <? length orig))%nat then None
              else
                let d := zlen orig + Z.of_nat (common fold (c_string (skipn (length orig) mt)) (c_string (skipn (length orig) tmp))) in
                complete_loop h orig fold args (Some (mt, if d <? ml then d else ml))
          end
        else complete_loop h orig fold args m
    | _ :: args => complete_loop h orig fold args m
    end.
  Definition complete_string (h : heap) (existing arg_list fold : val) : res * heap :=
    match existing, arg_list with
    | VStr p, VList l =>
        match complete_loop h (s_bytes (get_str h p)) (match fold with VList [] => false | _ => true end) l None with
        | None => (Wild, h)
        | Some None => (Ret nil, h)
        | Some (Some (mt, ml)) => new_str h (firstn (Z.to_nat ml) mt)
        end
    | _, _ => (Sig, h)
    end.

  (** * Characters, misc.c 442-522 *)

  (** isalpha and so on are defined for -1 (EOF) to 255, toupper too; the
      argument is converted to int.  The C locale. *)
  Definition char_class (f : Z -> bool) (ch : val) : res :=
    match ch with
    | VInt z =>
        let c := wrap32 z in
        if (c <? -1) || (255 <? c) then Wild
        else Ret (if f c then VOther 1 else nil)
    | _ => Ret nil
    end.
  Definition isupper (c : Z) : bool := (65 <=? c) && (c <=? 90).
  Definition islower (c : Z) : bool := (97 <=? c) && (c <=? 122).
  Definition isdigit (c : Z) : bool := (48 <=? c) && (c <=? 57).
  Definition isspace (c : Z) : bool := (c =? 32) || ((9 <=? c) && (c <=? 13)).
  Definition alpha_char_p : val -> res := char_class (fun c => isupper c || islower c).
  Definition upper_case_p : val -> res := char_class isupper.
  Definition lower_case_p : val -> res := char_class islower.
  Definition digit_char_p : val -> res := char_class isdigit.
  Definition alphanumericp : val -> res := char_class (fun c => isupper c || islower c || isdigit c).
  Definition space_char_p : val -> res := char_class isspace.
  Definition char_upcase (ch : val) : res := match ch with VInt z => Ret (VInt (toupper (wrap32 z))) | _ => Sig end.
  Definition char_downcase (ch : val) : res := match ch with VInt z => Ret (VInt (tolower (wrap32 z))) | _ => Sig end.

  (** * translate-string, misc.c 412-440: in place, the table is read while the
      string is written; both lengths are ints *)
  Fixpoint translate_loop (n : nat) (i : nat) (h : heap) (p tp : nat) (tablen : Z) : heap :=
    match n with
    | O => h
    | S n =>
        let b := s_bytes (get_str h p) in
        let c := nth i b 0 in
        let c' := if c <? tablen then nth (Z.to_nat c) (s_bytes (get_str h tp)) 0 else c in
        translate_loop n (S i) (set_str h p (mkstr (set_nth b i c') (s_const (get_str h p)))) p tp tablen
    end.
  Definition translate_string (h : heap) (string table : val) : res * heap :=
    match string, table with
    | VStr p, VStr tp =>
        if s_const (get_str h p) then (Sig, h)
        else
          let tablen := wrap32 (zlen (s_bytes (get_str h tp))) in
          let slen := wrap32 (zlen (s_bytes (get_str h p))) in
          (Ret string, translate_loop (Z.to_nat slen) 0 h p tp tablen)
    | _, _ => (Sig, h)
    end.

  (** misc.c 645-662 and 664-673: the tables *)
  Definition upcase_table : list Z := map (fun i => toupper (Z.of_nat i) mod 256) (seq 0 256).
  Definition downcase_table : list Z := map (fun i => tolower (Z.of_nat i) mod 256) (seq 0 256).
  Definition flatten_table : list Z := map Z.of_nat (seq 0 10) ++ [32].

  (** * string-util.jl; [up] is the value of upcase-table *)

  Definition bind (r : res * heap) (k : val -> heap -> res * heap) : res * heap :=
    match r with (Ret v, h) => k v h | (r, h) => (r, h) end.
  (** 58-66 string-upcase and string-downcase *)
  Definition string_upcase (h : heap) (up x : val) : res * heap :=
    bind (copy_sequence h x) (fun s h => translate_string h s up).
  (** 69-75 capitalize-string *)
  Definition capitalize_string (h : heap) (x : val) : res * heap :=
    bind (length_ h x, h) (fun n h =>
    if match n with VInt n => n =? 0 | _ => false end then (Ret x, h)
    else
      bind (copy_sequence h x) (fun new h =>
      bind (aref h new (VInt 0), h) (fun c h =>
      bind (char_upcase c, h) (fun c h =>
      bind (aset h new (VInt 0) c) (fun _ h => (Ret new, h)))))).
  (** 27-38 string-upper-case-p, the loop from a place on with the rest of the
      string; [good] upper-case-p and [bad] lower-case-p *)
  Fixpoint case_loop (good bad : Z -> bool) (s : list Z) (seen : bool) : bool :=
    match s with
    | [] => seen
    | c :: s => if bad c then false else case_loop good bad s (seen || good c)
    end.
  Definition string_upper_case_p (s : list Z) : bool := case_loop isupper islower s false.
  Definition string_lower_case_p (s : list Z) : bool := case_loop islower isupper s false.
  (** 53-55 *)
  Definition string_capitalized_p (s : list Z) : bool := match s with [] => false | c :: _ => isupper c end.

  (** 77-102 mapconcat for a function without effects.  The fragments are
      collected in reverse.  The literal "" is taken to be the null string. *)
  Fixpoint map_list (f : val -> val) (separator : val) (rest : list val) (frags : list val) : list val :=
    match rest with
    | [] => rev frags
    | x :: rest => map_list f separator rest (f x :: separator :: frags)
    end.
  Fixpoint map_array (n : nat) (f : val -> val) (h : heap) (seq separator : val) (i : Z) (frags : list val) : res * list val :=
    match n with
    | O => (Ret nil, rev frags)
    | S n =>
        match elt h seq (VInt i) with
        | Ret x => map_array n f h seq separator (i + 1) (f x :: separator :: frags)
        | r => (r, [])
        end
    end.
  Definition mapconcat (h : heap) (f : val -> val) (sequence separator : val) : res * heap :=
    match sequence with
    | VList [] => (Ret null_string, h)
    | VList (x :: l) => concat h (map_list f separator l [f x])
    | _ =>
        match length_ h sequence with
        | Ret (VInt n) =>
            if n =? 0 then (Ret null_string, h)
            else match elt h sequence (VInt 0) with
                 | Ret x =>
                     match map_array (Z.to_nat n - 1) f h sequence separator 1 [f x] with
                     | (Ret _, frags) => concat h frags
                     | (r, _) => (r, h)
                     end
                 | r => (r, h)
                 end
        | r => (r, h)
        end
    end.
End Locale.
