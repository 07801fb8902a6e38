(** Symbols: obarrays, keywords, gensym and property lists, src/symbols.c
    (with the parts of src/lispcmds.c and src/rep_lisp.h they use).

    Not modelled: the value slots of symbols (Modules, Fluids), the garbage
    collector (an interned symbol is kept alive by its obarray), obarrays that
    are written to with aset, the dumped (read-only) cells of 1253, errors for
    arguments of the wrong type. *)
From Coq Require Import ZArith List Bool.
From Verif Require Import Numbers_Model Values_Model.
Import ListNotations.
Open Scope Z_scope.

(** ** The heap *)

(** What the "next" slot of a symbol and a bucket of an obarray hold:
    rep_NULL, OB_NIL (80-83: any object that is not a symbol), or a symbol. *)
Inductive ref := Null | End | Sym (s : nat).

(** rep_lisp.h 405-460 rep_symbol: the name is a reference to a Lisp string,
    the flag is rep_SF_KEYWORD. *)
Record symbol := MkSymbol { sname : nat; snext : ref; skey : bool }.

(** Strings (their bytes), symbols, obarrays (their buckets), and rep_obarray,
    the default obarray.  rep_keyword_obarray (63) is obarray number 1. *)
Record state := MkState {
  strs : list (list Z);
  syms : list symbol;
  obs  : list (list ref);
  cur  : nat
}.

Definition keyword_ob : nat := 1.

(** Results: a value, a signalled error, rep_NULL returned with nothing
    signalled, a read through rep_NULL, a loop that does not end. *)
Inductive value := VNil | VSym (s : nat) | VStr (n : nat) | VOb (o : nat) | VList (l : list nat).
Inductive out := Ret (v : value) | Signal | NoResult | Crash | Hang.

Fixpoint upd {A} (n : nat) (x : A) (l : list A) : list A :=
  match n, l with
  | _, [] => []
  | O, _ :: l' => x :: l'
  | S n', y :: l' => y :: upd n' x l'
  end.

Definition bytes (st : state) (n : nat) : list Z := nth n (strs st) [].
Definition symbol0 : symbol := MkSymbol 0 Null false.
Definition get_sym (st : state) (s : nat) : symbol := nth s (syms st) symbol0.
Definition buckets (st : state) (o : nat) : list ref := nth o (obs st) [].

Definition set_sym (st : state) (s : nat) (x : symbol) : state :=
  MkState (strs st) (upd s x (syms st)) (obs st) (cur st).
Definition set_next (st : state) (s : nat) (r : ref) : state :=
  set_sym st s (MkSymbol (sname (get_sym st s)) r (skey (get_sym st s))).
Definition set_bucket (st : state) (o h : nat) (r : ref) : state :=
  MkState (strs st) (syms st) (upd o (upd h r (buckets st o)) (obs st)) (cur st).

(** rep_STR as a C string: what strcmp and the hash function see. *)
Fixpoint cstr (b : list Z) : list Z :=
  match b with
  | [] => []
  | c :: b' => if c =? 0 then [] else c :: cstr b'
  end.

(** strcmp (a, b) == 0 *)
Fixpoint streq (a b : list Z) : bool :=
  match a, b with
  | [], [] => true
  | x :: a', y :: b' => (x =? y) && streq a' b'
  | _, _ => false
  end.
Definition strcmp0 (a b : list Z) : bool := streq (cstr a) (cstr b).

(** 229-236 hash: unsigned long, plain char signed *)
Fixpoint hash_from (v : Z) (s : list Z) : Z :=
  match s with
  | [] => v
  | c :: s' => hash_from ((v * 33 + schar c) mod 2 ^ 64) s'
  end.
Definition hash (b : list Z) : Z := hash_from 0 (cstr b).
Definition hashid (b : list Z) (vsize : nat) : nat :=
  Z.to_nat (hash b mod Z.of_nat vsize).

(** ** Creating things *)

(** A string made by any means. *)
Definition make_string (st : state) (b : list Z) : out * state :=
  (Ret (VStr (length (strs st))), MkState (strs st ++ [b]) (syms st) (obs st) (cur st)).

(** lispcmds.c aset on a string: writes one byte of it. *)
Definition aset (st : state) (n i : nat) (c : Z) : out * state :=
  if (i <? length (bytes st n))%nat
  then (Ret VNil, MkState (upd n (upd i c (bytes st n)) (strs st)) (syms st) (obs st) (cur st))
  else (Signal, st).

(** 101-110 make-symbol: the symbol refers to the very string it is given. *)
Definition make_symbol (st : state) (n : nat) : out * state :=
  (Ret (VSym (length (syms st))),
   MkState (strs st) (syms st ++ [MkSymbol n Null false]) (obs st) (cur st)).

(** 1035-1045 symbol-name: returns that string, not a copy. *)
Definition symbol_name (st : state) (s : nat) : out := Ret (VStr (sname (get_sym st s))).

(** 238-248 make-obarray, lispcmds.c 825-847 make-vector *)
Definition make_obarray (st : state) (size : Z) : out * state :=
  if size <? 0 then (Signal, st)
  else (Ret (VOb (length (obs st))),
        MkState (strs st) (syms st) (obs st ++ [repeat End (Z.to_nat size)]) (cur st)).

(** 1379-1390 obarray *)
Definition set_obarray (st : state) (o : nat) : out * state :=
  (Ret (VOb o), MkState (strs st) (syms st) (obs st) o).

(** if (!rep_VECTORP (ob)) ob = rep_obarray; *)
Definition which (st : state) (ob : option nat) : nat :=
  match ob with Some o => o | None => cur st end.

(** ** Looking up *)

(** 264-270: the loop along a chain.  rep_SYMBOLP reads the cell it is given,
    so at rep_NULL it reads through a null pointer (rep_lisp.h 316-317, 448).
    [n] bounds the number of steps. *)
Fixpoint find_chain (n : nat) (st : state) (b : list Z) (r : ref) : out :=
  match n with
  | O => Hang
  | S n' =>
    match r with
    | Null => Crash
    | End => Ret VNil
    | Sym s =>
      if strcmp0 b (bytes st (sname (get_sym st s))) then Ret (VSym s)
      else find_chain n' st b (snext (get_sym st s))
    end
  end.

(** More steps than there are symbols: a chain that long repeats. *)
Definition enough (st : state) : nat := S (S (length (syms st))).

(** 250-272 find-symbol *)
Definition find_symbol (st : state) (n : nat) (ob : option nat) : out :=
  let o := which st ob in
  let vsize := length (buckets st o) in
  if (vsize =? 0)%nat then Ret VNil
  else find_chain (enough st) st (bytes st n)
         (nth (hashid (bytes st n) vsize) (buckets st o) End).

(** 276-299 intern-symbol *)
Definition intern_symbol (st : state) (s : nat) (ob : option nat) : out * state :=
  match snext (get_sym st s) with
  | Null =>
    let o := which st ob in
    let vsize := length (buckets st o) in
    if (vsize =? 0)%nat then (NoResult, st)
    else
      let h := hashid (bytes st (sname (get_sym st s))) vsize in
      let st1 := set_next st s (nth h (buckets st o) End) in
      (Ret (VSym s), set_bucket st1 o h (Sym s))
  | _ => (Signal, st)
  end.

(** 301-319 intern *)
Definition intern (st : state) (n : nat) (ob : option nat) : out * state :=
  match find_symbol st n ob with
  | Ret VNil =>
    match make_symbol st n with
    | (Ret (VSym s), st1) => intern_symbol st1 s ob
    | r => r
    end
  | r => (r, st)
  end.

(** 338-347: the loop of unintern, which pushes all other symbols of the
    bucket back onto it. *)
Fixpoint relink (n : nat) (st : state) (o h s : nat) (list : ref) : option (option state) :=
  match n with
  | O => None
  | S n' =>
    match list with
    | Null => Some None
    | End => Some (Some st)
    | Sym x =>
      let nxt := snext (get_sym st x) in
      let st' := if (x =? s)%nat then st
                 else set_bucket (set_next st x (nth h (buckets st o) End)) o h (Sym x) in
      relink n' st' o h s nxt
    end
  end.

(** 321-350 unintern *)
Definition unintern (st : state) (s : nat) (ob : option nat) : out * state :=
  let o := which st ob in
  let vsize := length (buckets st o) in
  if (vsize =? 0)%nat then (NoResult, st)
  else
    let h := hashid (bytes st (sname (get_sym st s))) vsize in
    let list := nth h (buckets st o) End in
    match relink (enough st) (set_bucket st o h End) o h s list with
    | None => (Hang, st)
    | Some None => (Crash, st)
    | Some (Some st') => (Ret (VSym s), set_next st' s Null)
    end.

(** 1291-1311: the loops of apropos, with a predicate on names that has no
    side effects (the regular expression and PREDICATE together). *)
Fixpoint apropos_chain (n : nat) (st : state) (p : list Z -> bool) (r : ref) (last : list nat)
  : option (option (list nat)) :=
  match n with
  | O => None
  | S n' =>
    match r with
    | Null => Some None
    | End => Some (Some last)
    | Sym s =>
      apropos_chain n' st p (snext (get_sym st s))
        (if p (cstr (bytes st (sname (get_sym st s)))) then s :: last else last)
    end
  end.
Fixpoint apropos_buckets (st : state) (p : list Z -> bool) (l : list ref) (last : list nat) : out :=
  match l with
  | [] => Ret (VList last)
  | r :: l' =>
    match apropos_chain (enough st) st p r last with
    | None => Hang
    | Some None => Crash
    | Some (Some last') => apropos_buckets st p l' last'
    end
  end.
Definition apropos (st : state) (p : list Z -> bool) (ob : option nat) : out :=
  apropos_buckets st p (buckets st (which st ob)) [].

(** 1392-1417 make-keyword: "#:" before the name; interned in the keyword
    obarray; the flag is set. *)
Definition make_keyword (st : state) (s : nat) : out * state :=
  if skey (get_sym st s) then (Signal, st)
  else
    match make_string st (35 :: 58 :: bytes st (sname (get_sym st s))) with
    | (Ret (VStr n), st1) =>
      match intern st1 n (Some keyword_ob) with
      | (Ret (VSym k), st2) =>
        (Ret (VSym k), set_sym st2 k (MkSymbol (sname (get_sym st2 k)) (snext (get_sym st2 k)) true))
      | (Ret _, st2) => (Crash, st2)
      | r => r
      end
    | r => r
    end.

(** 1419-1427 keywordp *)
Definition keywordp (st : state) (s : nat) : bool := skey (get_sym st s).

(** 1430-1444 rep_pre_symbols_init, sizes 51-52 *)
Definition start : state :=
  MkState [] [] [repeat End 509; repeat End 127] 0.

(** ** gensym, 1098-1115: a static int counter, "G%04d" *)

Definition pad4 (l : list Z) : list Z := repeat 48 (4 - length l)%nat ++ l.

(** "%04d": the sign counts towards the width. *)
Definition print04 (i : Z) : list Z :=
  if i <? 0 then 45 :: repeat 48 (3 - length (digits 10 (- i)))%nat ++ digits 10 (- i)
  else pad4 (digits 10 i).

(** The counter is a 32-bit int; counter++ past 2147483647 is undefined in C,
    here it wraps. *)
Definition gensym (counter : Z) : list Z * Z :=
  let c := wrap32 (counter + 1) in (71 :: print04 c, c).

(** ** Property lists *)

(** Objects that can be properties and values.  Symbols are told apart by
    identity; other objects have an identity and are compared by
    rep_value_cmp, which is given by the class of the object. *)
Inductive obj := PNil | PSym (s : nat) | PObj (i : nat) | PCell (c : nat).

(** Cells (car . cdr), and the property list of each symbol: the bindings of
    plist_structure (66), Qnil when unbound. *)
Record pstate := MkP {
  cells : list (obj * obj);
  plists : nat -> obj
}.

Definition car (ps : pstate) (c : nat) : obj := fst (nth c (cells ps) (PNil, PNil)).
Definition cdr (ps : pstate) (c : nat) : obj := snd (nth c (cells ps) (PNil, PNil)).
Definition set_car (ps : pstate) (c : nat) (v : obj) : pstate :=
  MkP (upd c (v, cdr ps c) (cells ps)) (plists ps).
Definition cons (ps : pstate) (a d : obj) : obj * pstate :=
  (PCell (length (cells ps)), MkP (cells ps ++ [(a, d)]) (plists ps)).
Definition define (ps : pstate) (s : nat) (l : obj) : pstate :=
  MkP (cells ps) (fun x => if (x =? s)%nat then l else plists ps x).

Definition obj_eqb (a b : obj) : bool :=
  match a, b with
  | PNil, PNil => true
  | PSym x, PSym y | PObj x, PObj y | PCell x, PCell y => (x =? y)%nat
  | _, _ => false
  end.

(** rep_value_cmp (a, b) == 0 where b is not a symbol: [cls] gives the class
    of an object up to equal.  Lists as properties are left out: two cells
    are compared as if eq. *)
Definition obj_equal (cls : nat -> nat) (a b : obj) : bool :=
  match a, b with
  | PObj x, PObj y => (cls x =? cls y)%nat
  | _, _ => obj_eqb a b
  end.

(** 1217-1219, 1248-1250: the test both loops use *)
Definition is_symbol (a : obj) : bool := match a with PSym _ => true | _ => false end.
Definition prop_match (cls : nat -> nat) (key prop : obj) : bool :=
  obj_eqb key prop || (negb (is_symbol prop) && obj_equal cls key prop).

(** The loop of 1215-1225 and of 1246-1263: the cell that holds the value of
    PROP, if any.  [None]: the loop does not end. *)
Fixpoint lookup (n : nat) (cls : nat -> nat) (ps : pstate) (prop l : obj) : option (option nat) :=
  match n with
  | O => None
  | S n' =>
    match l with
    | PCell c =>
      match cdr ps c with
      | PCell d => if prop_match cls (car ps c) prop then Some (Some d)
                   else lookup n' cls ps prop (cdr ps d)
      | _ => Some None
      end
    | _ => Some None
    end
  end.

Definition plenty (ps : pstate) : nat := S (length (cells ps)).

Inductive pout := PRet (v : obj) | PSignal | PHang.

(** 1202-1228 get *)
Definition get (cls : nat -> nat) (ps : pstate) (s : nat) (prop : obj) : pout :=
  match lookup (plenty ps) cls ps prop (plists ps s) with
  | None => PHang
  | Some None => PRet PNil
  | Some (Some d) => PRet (car ps d)
  end.

(** 1230-1267 put.  [allowed] is false where search_special_environment
    answers 0: the symbol is not in the restricted special environment. *)
Definition put (cls : nat -> nat) (allowed : nat -> bool) (ps : pstate) (s : nat) (prop val : obj)
  : pout * pstate :=
  if negb (allowed s) then (PSignal, ps)
  else
    match lookup (plenty ps) cls ps prop (plists ps s) with
    | None => (PHang, ps)
    | Some (Some d) => (PRet val, set_car ps d val)
    | Some None =>
      let (c2, ps1) := cons ps val (plists ps s) in
      let (c1, ps2) := cons ps1 prop c2 in
      (PRet val, define ps2 s c1)
    end.

(** 1018-1033 setplist *)
Definition setplist (allowed : nat -> bool) (ps : pstate) (s : nat) (l : obj) : pout * pstate :=
  if negb (allowed s) then (PSignal, ps) else (PRet l, define ps s l).

(** 1079-1096 symbol-plist *)
Definition symbol_plist (allowed : nat -> bool) (ps : pstate) (s : nat) : pout :=
  if negb (allowed s) then PSignal else PRet (plists ps s).
