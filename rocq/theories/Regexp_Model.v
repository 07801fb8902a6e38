(** Regular expressions: src/regexp.c (compiling and matching), src/regsub.c
    and src/find.c (string-match, string-looking-at, match data, the cache,
    quote-regexp, expand-last-match).

    Characters are integers 0..255.  A compiled program is the list of its
    bytes, a pointer into it its index, NULL is [None].  Reading outside the
    program is the outcome [Wild]; loops have a step budget, [Fuel] when it
    runs out.  The characters around the string being matched are an arbitrary
    function.  ctype functions are those of the C locale.  malloc does not
    fail. *)
From Coq Require Import List ZArith Bool.
Import ListNotations.
Open Scope Z_scope.

Inductive res (A : Type) := Ok (a : A) | Err | Wild | Fuel.
Arguments Ok {A}.
Arguments Err {A}.
Arguments Wild {A}.
Arguments Fuel {A}.
Definition bind {A B} (r : res A) (f : A -> res B) : res B :=
  match r with Ok a => f a | Err => Err | Wild => Wild | Fuel => Fuel end.
Notation "'let*' x ':=' r 'in' e" := (bind r (fun x => e)) (at level 200, x pattern, right associativity).

(** * Opcodes, rep_regexp.h 95-139 *)
Definition END := 0.      Definition BOL := 1.      Definition EOL := 2.
Definition ANY := 3.      Definition ANYOF := 4.    Definition ANYBUT := 5.
Definition BRANCH := 6.   Definition BACK := 7.     Definition EXACTLY := 8.
Definition NOTHING := 9.  Definition STAR := 10.    Definition PLUS := 11.
Definition WORD := 12.    Definition NWORD := 13.   Definition WSPC := 14.
Definition NWSPC := 15.   Definition DIGI := 16.    Definition NDIGI := 17.
Definition WEDGE := 18.   Definition NWEDGE := 19.  Definition OPEN := 20.
Definition CLOSE := 30.   Definition NGSTAR := 40.  Definition NGPLUS := 41.
Definition MAGIC := 156.
(** rep_regexp.h 35 *)
Definition NSUBEXP := 10.

(** * Programs *)

(** OP(p), rep_regexp.h 160: the byte at p *)
Definition op_at (c : list Z) (p : nat) : res Z :=
  match nth_error c p with Some b => Ok b | None => Wild end.

(** regnext, regexp.c 1196-1213, with NEXT (rep_regexp.h 161) *)
Definition regnext (c : list Z) (p : nat) : res (option nat) :=
  match nth_error c p, nth_error c (p + 1), nth_error c (p + 2) with
  | Some op, Some h, Some l =>
      let off := Z.to_nat (h * 256 + l) in
      if Nat.eqb off 0 then Ok None
      else if op =? BACK then
        if Nat.leb off p then Ok (Some (p - off)%nat) else Wild
      else Ok (Some (p + off)%nat)
  | _, _, _ => Wild
  end.

(** the string at p, up to a zero byte: what strlen and strcmp look at *)
Fixpoint cstr (l : list Z) : list Z :=
  match l with [] => [] | b :: l => if b =? 0 then [] else b :: cstr l end.
Definition str_at (c : list Z) (p : nat) : list Z := cstr (skipn p c).

(** * Compiling *)

(** ISMULT, 50 *)
Definition ismult (c : Z) : bool := (c =? 42) || (c =? 43) || (c =? 63).
(** META, 51: ^ $ . [ ( ) | ? + * \ and the zero byte at its end, at which
    strcspn stops *)
Definition meta (c : Z) : bool :=
  (c =? 94) || (c =? 36) || (c =? 46) || (c =? 91) || (c =? 40) || (c =? 41) ||
  (c =? 124) || ismult c || (c =? 92) || (c =? 0).

(** The global variables of 62-66: the rest of the pattern from regparse,
    regnpar, and the code emitted (regcode is its end).  The first pass
    (123-131) runs the same functions with regcode = &regdummy, counting bytes
    instead of emitting them; only the second is modelled, with the check of
    the size after it. *)
Record st := mkst { parse : list Z; npar : Z; code : list Z }.
(** *regparse, regparse[1] *)
Definition cur (s : st) : Z := hd 0 (parse s).
Definition cur1 (s : st) : Z := hd 0 (tl (parse s)).
Definition advance (s : st) : st := mkst (tl (parse s)) (npar s) (code s).
Definition with_code (s : st) (c : list Z) : st := mkst (parse s) (npar s) c.

(** regnode 554-572 *)
Definition regnode (op : Z) (s : st) : nat * st :=
  (length (code s), with_code s (code s ++ [op; 0; 0])).
(** regc 577-584 *)
Definition regc (b : Z) (s : st) : st := with_code s (code s ++ [b]).
(** reginsert 591-613 *)
Definition reginsert (op : Z) (p : nat) (s : st) : st :=
  with_code s (firstn p (code s) ++ [op; 0; 0] ++ skipn p (code s)).

(** The stores of 638-639 *)
Definition set_next (c : list Z) (p : nat) (off : Z) : list Z :=
  firstn (p + 1) c ++ [(off / 256) mod 256; off mod 256] ++ skipn (p + 3) c.

(** regtail 618-640; 624-631: find the last node *)
Fixpoint last_node (fuel : nat) (c : list Z) (scan : nat) : res nat :=
  match fuel with
  | O => Fuel
  | S f => let* n := regnext c scan in
           match n with None => Ok scan | Some t => last_node f c t end
  end.
Definition regtail (p val : nat) (s : st) : res st :=
  let c := code s in
  let* scan := last_node (S (length c)) c p in
  let* op := op_at c scan in
  let off := if op =? BACK then Z.of_nat scan - Z.of_nat val else Z.of_nat val - Z.of_nat scan in
  Ok (with_code s (set_next c scan off)).

(** regoptail 645-652 *)
Definition regoptail (p val : nat) (s : st) : res st :=
  let* op := op_at (code s) p in
  if op =? BRANCH then regtail (p + 3) val s else Ok s.

(** Flags, 56-59 *)
Record flags := mkfl { hasw : bool; simple : bool; spstart : bool }.
Definition worst := mkfl false false false.

(** The characters of a range, 441-442: class to classend *)
Fixpoint range (n : nat) (class : Z) : list Z :=
  match n with O => [] | S n => class :: range n (class + 1) end.

(** 429-447, the loop over the characters between brackets; [prev] is the
    character before regparse (read by regparse - 2 in 436).  None: invalid
    range. *)
Fixpoint regclass (fuel : nat) (prev : Z) (s : st) : res st :=
  match fuel with
  | O => Fuel
  | S f =>
      if (cur s =? 0) || (cur s =? 93) then Ok s
      else if cur s =? 45 then
        let s := advance s in
        if (cur s =? 93) || (cur s =? 0) then regclass f 45 (regc 45 s)
        else
          let class := prev + 1 in
          let classend := cur s in
          if classend + 1 <? class then Err
          else regclass f classend
                 (advance (with_code s (code s ++ range (Z.to_nat (classend + 1 - class)) class)))
      else regclass f (cur s) (advance (regc (cur s) s))
  end.

(** strcspn (regparse, META), 530 *)
Fixpoint run_length (l : list Z) : nat :=
  match l with [] => O | c :: l => if meta c then O else S (run_length l) end.

(** regpiece 308-400 after the atom, whose node is [ret] *)
Definition quantify (ret : nat) (fl : flags) (s : st) : res (flags * st) :=
  let op := cur s in
  if negb (ismult op) then Ok (fl, s)
  else if negb (hasw fl) && negb (op =? 63) then Err
  else
    let fl' := if op =? 43 then mkfl true false false else mkfl false false true in
    let greedy := negb (cur1 s =? 63) in
    let* s' :=
      if (op =? 42) && simple fl then Ok (reginsert (if greedy then STAR else NGSTAR) ret s)
      else if op =? 42 then
        if greedy then
          let s := reginsert BRANCH ret s in
          let '(b, s) := regnode BACK s in
          let* s := regoptail ret b s in
          let* s := regoptail ret ret s in
          let '(b, s) := regnode BRANCH s in
          let* s := regtail ret b s in
          let '(b, s) := regnode NOTHING s in
          regtail ret b s
        else
          let s := reginsert BRANCH ret s in
          let s := reginsert NOTHING ret s in
          let s := reginsert BRANCH ret s in
          let '(b, s) := regnode BACK s in
          let* s := regtail (ret + 9) b s in
          let* s := regtail (ret + 9) ret s in
          let* s := regtail ret (ret + 6) s in
          regtail (ret + 3) (length (code s)) s
      else if (op =? 43) && simple fl then Ok (reginsert (if greedy then PLUS else NGPLUS) ret s)
      else if op =? 43 then
        if greedy then
          let '(next, s) := regnode BRANCH s in
          let* s := regtail ret next s in
          let '(b, s) := regnode BACK s in
          let* s := regtail b ret s in
          let '(b, s) := regnode BRANCH s in
          let* s := regtail next b s in
          let '(b, s) := regnode NOTHING s in
          regtail ret b s
        else
          let '(next, s) := regnode BRANCH s in
          let* s := regtail ret next s in
          let '(null, s) := regnode NOTHING s in
          let '(b2, s) := regnode BRANCH s in
          let '(b, s) := regnode BACK s in
          let* s := regtail b ret s in
          let* s := regtail next b2 s in
          regtail null (length (code s)) s
      else
        if greedy then
          let s := reginsert BRANCH ret s in
          let '(b, s) := regnode BRANCH s in
          let* s := regtail ret b s in
          let '(next, s) := regnode NOTHING s in
          let* s := regtail ret next s in
          regoptail ret next s
        else
          let s := reginsert BRANCH ret s in
          let s := reginsert NOTHING ret s in
          let s := reginsert BRANCH ret s in
          let* s := regoptail ret (length (code s)) s in
          let* s := regtail ret (ret + 6) s in
          regtail ret (length (code s)) s in
    let s := advance s' in
    let s := if greedy then s else advance s in
    if ismult (cur s) then Err else Ok (fl', s).

(** reg 205, 250-252: hook the tails of the branches to the closing node *)
Fixpoint hook (fuel : nat) (br : option nat) (ender : nat) (s : st) : res st :=
  match fuel with
  | O => Fuel
  | S f => match br with
           | None => Ok s
           | Some b => let* s := regoptail b ender s in
                       let* n := regnext (code s) b in
                       hook f n ender s
           end
  end.

(** One node without operand *)
Definition leaf (op : Z) (fl : flags) (s : st) : res (nat * flags * st) :=
  let '(r, s) := regnode op s in Ok (r, fl, s).
Definition width := mkfl true true false.

(** The escapes of 483-527 *)
Definition regescape (s : st) : res (nat * flags * st) :=
  let c := cur s in
  let s := advance s in
  if c =? 0 then Err
  else if c =? 119 then leaf WORD width s
  else if c =? 87 then leaf NWORD width s
  else if c =? 115 then leaf WSPC width s
  else if c =? 83 then leaf NWSPC width s
  else if c =? 100 then leaf DIGI width s
  else if c =? 68 then leaf NDIGI width s
  else if c =? 98 then leaf WEDGE worst s
  else if c =? 66 then leaf NWEDGE worst s
  else let '(r, s) := regnode EXACTLY s in Ok (r, width, regc 0 (regc c s)).

(** regbranch 275-300: the loop; [chain] is the last piece *)
Definition stop (c : Z) : bool := (c =? 0) || (c =? 124) || (c =? 41).

(** reg 200-264, regbranch 275-300, regpiece 308-400, regatom 411-549.  [reg
    paren], [branches] (the loop of 233-242 after a branch with flags fl, ret
    the first node), [pieces] (the loop of 285-296), [regatom]. *)
Fixpoint reg (fuel : nat) (paren : bool) (s : st) : res (nat * flags * st) :=
  match fuel with
  | O => Fuel
  | S f =>
      if paren && (NSUBEXP <=? npar s) then Err
      else
        let parno := npar s in
        let '(open, s) := if paren
                          then regnode (OPEN + parno) (mkst (parse s) (npar s + 1) (code s))
                          else (O, s) in
        let* (br, fl, s) := regbranch f s in
        let ret := if paren then open else br in
        let* s := if paren then regtail ret br s else Ok s in
        let* (fl, s) := branches f ret (mkfl (hasw fl) false (spstart fl)) s in
        let '(ender, s) := regnode (if paren then CLOSE + parno else END) s in
        let* s := regtail ret ender s in
        let* s := hook (S (length (code s))) (Some ret) ender s in
        if paren then
          if cur s =? 41 then Ok (ret, fl, advance s) else Err
        else if cur s =? 0 then Ok (ret, fl, s) else Err
  end
with branches (fuel : nat) (ret : nat) (fl : flags) (s : st) : res (flags * st) :=
  match fuel with
  | O => Fuel
  | S f =>
      if cur s =? 124 then
        let* (br, fl', s) := regbranch f (advance s) in
        let* s := regtail ret br s in
        branches f ret (mkfl (hasw fl && hasw fl') false (spstart fl || spstart fl')) s
      else Ok (fl, s)
  end
with regbranch (fuel : nat) (s : st) : res (nat * flags * st) :=
  match fuel with
  | O => Fuel
  | S f =>
      let '(ret, s) := regnode BRANCH s in
      let* (fl, s) := pieces f None worst s in
      Ok (ret, fl, s)
  end
with pieces (fuel : nat) (chain : option nat) (fl : flags) (s : st) : res (flags * st) :=
  match fuel with
  | O => Fuel
  | S f =>
      if stop (cur s) then
        Ok (fl, match chain with None => snd (regnode NOTHING s) | Some _ => s end)
      else
        let* (latest, afl, s) := regatom f s in
        let* (pfl, s) := quantify latest afl s in
        let* s := match chain with None => Ok s | Some c => regtail c latest s end in
        pieces f (Some latest)
          (mkfl (hasw fl || hasw pfl) false
                (match chain with None => spstart pfl | Some _ => spstart fl end)) s
  end
with regatom (fuel : nat) (s : st) : res (nat * flags * st) :=
  match fuel with
  | O => Fuel
  | S f =>
      let c := cur s in
      let s1 := advance s in
      if c =? 94 then leaf BOL worst s1
      else if c =? 36 then leaf EOL worst s1
      else if c =? 46 then leaf ANY width s1
      else if c =? 91 then
        let '(ret, s2) := if cur s1 =? 94 then regnode ANYBUT (advance s1) else regnode ANYOF s1 in
        let first := (cur s2 =? 93) || (cur s2 =? 45) in
        let prev := if first then cur s2 else 91 in
        let s3 := if first then advance (regc (cur s2) s2) else s2 in
        let* s4 := regclass (S (length (parse s3))) prev s3 in
        let s5 := regc 0 s4 in
        if cur s5 =? 93 then Ok (ret, width, advance s5) else Err
      else if c =? 40 then
        let* (ret, fl, s2) := reg f true s1 in
        Ok (ret, mkfl (hasw fl) false (spstart fl), s2)
      else if stop c then Err
      else if ismult c then Err
      else if c =? 92 then regescape s1
      else
        let len := run_length (parse s) in
        let ender := hd 0 (skipn len (parse s)) in
        let len := if Nat.ltb 1 len && ismult ender then (len - 1)%nat else len in
        let '(ret, s2) := regnode EXACTLY s in
        Ok (ret, mkfl true (Nat.eqb len 1) false,
            mkst (skipn len (parse s2)) (npar s2) (code s2 ++ firstn len (parse s2) ++ [0]))
  end.

(** struct rep_regexp, rep_regexp.h 57-68 (the fields used in matching);
    regstart 0 for none *)
Record regexp := mkre { program : list Z; regstart : Z; reganch : bool; regmust : option (list Z) }.

(** 172-178: the longest EXACTLY string of the chain *)
Fixpoint longest (fuel : nat) (c : list Z) (scan : nat) (best : option (list Z)) : res (option (list Z)) :=
  match fuel with
  | O => Fuel
  | S f =>
      let* op := op_at c scan in
      let best := if op =? EXACTLY then
                    let o := str_at c (scan + 3) in
                    if Nat.leb (match best with Some b => length b | None => O end) (length o)
                    then Some o else best
                  else best in
      let* n := regnext c scan in
      match n with None => Ok best | Some t => longest f c t best end
  end.

(** rep_regcomp 108-191 *)
Definition regcomp (exp : list Z) : res regexp :=
  let* (_, fl, s) := reg (4 * length exp + 10) false (mkst exp 1 [MAGIC]) in
  let c := code s in
  if 32767 <=? Z.of_nat (length c) then Err
  else
    let* n := regnext c 1 in
    match n with
    | None => Wild
    | Some n =>
        let* op := op_at c n in
        if op =? END then
          let* op := op_at c 4 in
          let start := if op =? EXACTLY then hd 0 (str_at c 7) else 0 in
          let* must := if spstart fl then longest (S (length c)) c 4 None else Ok None in
          Ok (mkre c start (op =? BOL) must)
        else Ok (mkre c 0 false None)
    end.

(** * Matching *)

Definition isdigit (c : Z) : bool := (48 <=? c) && (c <=? 57).
Definition isupper (c : Z) : bool := (65 <=? c) && (c <=? 90).
Definition islower (c : Z) : bool := (97 <=? c) && (c <=? 122).
Definition isalnum (c : Z) : bool := isdigit c || isupper c || islower c.
Definition isspace (c : Z) : bool := (c =? 32) || ((9 <=? c) && (c <=? 13)).
Definition toupper (c : Z) : Z := if islower c then c - 32 else c.
Definition tolower (c : Z) : Z := if isupper c then c + 32 else c.
(** '_' or isalnum *)
Definition wordc (c : Z) : bool := (c =? 95) || isalnum c.
(** the value of a char variable holding byte b *)
Definition schar (b : Z) : Z := if b <? 128 then b else b - 256.

(** What regmatch returns, with reginput, startp and endp after success, and
    whether rep_regerror was called *)
Inductive mres := MYes (i : Z) (sp ep : list (option Z)) (err : bool) | MNo (err : bool) | MWild | MFuel.

Definition no_subs : list (option Z) := repeat None 10.
Definition set_nth (l : list (option Z)) (n : nat) (v : Z) : list (option Z) :=
  firstn n l ++ Some v :: skipn (S n) l.
(** 868-869, 895-896: don't set if some later invocation already has *)
Definition fill (l : list (option Z)) (n : nat) (v : Z) : list (option Z) :=
  match nth n l None with None => set_nth l n v | Some _ => l end.
Definition add_err (e : bool) (r : mres) : mres :=
  match r with MYes i sp ep e' => MYes i sp ep (e || e') | MNo e' => MNo (e || e') | r => r end.
Definition of_res {A} (r : res A) (f : A -> mres) : mres :=
  match r with Ok a => f a | Err => MNo true | Wild => MWild | Fuel => MFuel end.

Section Match.
  Variable m : Z -> Z.          (* the memory: the string and what is around it *)
  Variable c : list Z.          (* the program *)
  Variable nocase : bool.       (* regnocase *)
  Variable bol : option Z.      (* regbol; None: not in the string *)
  Variable limit : Z.           (* rep_regexp_max_depth *)

  (** *opnd = *reginput, folding case (830-848, 1113-1124) *)
  Definition same (a b : Z) : bool := if nocase then toupper a =? toupper b else a =? b.
  (** strncmp, strncasecmp (len characters of o, none of them 0) = 0 *)
  Fixpoint equal_at (o : list Z) (i : Z) : bool :=
    match o with
    | [] => true
    | a :: o => (if nocase then tolower a =? tolower (m i) else a =? m i) && equal_at o (i + 1)
    end.
  (** EXACTLY, 824-852; the operand is not empty *)
  Definition exactly (o : list Z) (i : Z) : bool :=
    same (hd 0 o) (m i) && (if Nat.ltb 1 (length o) then equal_at o i else true).

  (** The test for one character of the simple operand at p, as regmatch
      (820-823, 854-863, 1003-1032) ... *)
  Definition one_char (op : Z) (o : list Z) (x : Z) : bool :=
    if op =? ANY then negb (x =? 0)
    else if op =? ANYOF then negb (x =? 0) && existsb (Z.eqb x) o
    else if op =? ANYBUT then negb (x =? 0) && negb (existsb (Z.eqb x) o)
    else if op =? WORD then wordc x
    else if op =? NWORD then negb (wordc x)
    else if op =? WSPC then isspace x
    else if op =? NWSPC then negb (isspace x)
    else if op =? DIGI then isdigit x
    else negb (isdigit x).
  Definition is_one_char (op : Z) : bool :=
    (op =? ANY) || (op =? ANYOF) || (op =? ANYBUT) || ((WORD <=? op) && (op <=? NDIGI)).
  (** ... and as regrepeat (1108-1178) does it; EXACTLY compares one character *)
  Definition repeated (op : Z) (o : list Z) (x : Z) : bool :=
    if op =? EXACTLY then same (hd 0 o) x else negb (x =? 0) && one_char op o x.
  (** regrepeat 1096-1191: how many *)
  Fixpoint count (fuel : nat) (op : Z) (o : list Z) (i : Z) : res nat :=
    match fuel with
    | O => Fuel
    | S f => if repeated op o (m i) then let* n := count f op o (i + 1) in Ok (S n) else Ok O
    end.
  Definition regrepeat (fuel : nat) (p : nat) (i : Z) : res nat :=
    let* op := op_at c p in
    if is_one_char op || (op =? EXACTLY) then count fuel op (str_at c (p + 3)) i else Err.

  (** WEDGE, 1033-1040 *)
  Definition wedge (i : Z) : bool :=
    (match bol with Some b => i =? b | None => false end) || (m i =? 0) ||
    (wordc (m (i - 1)) && negb (wordc (m i))) || (negb (wordc (m (i - 1))) && wordc (m i)).

  (** 934-945 and 974-988: could the next node match at i? *)
  Definition lookahead (next : nat) (i : Z) : res bool :=
    let* op := op_at c next in
    let nextch := if op =? EXACTLY then schar (hd 0 (str_at c (next + 3))) else 0 in
    let nextch := if nocase then toupper nextch else nextch in
    Ok ((nextch =? 0) || ((if nocase then toupper (m i) else schar (m i)) =? nextch)).

  (** 936-952: from [no] repetitions down to [min] *)
  Fixpoint shrink (go : Z -> mres) (next : nat) (min no : nat) (save : Z) : mres :=
    if Nat.ltb no min then MNo false
    else
      of_res (lookahead next (save + Z.of_nat no)) (fun ok =>
        let r := if ok then go (save + Z.of_nat no) else MNo false in
        match r with
        | MNo e => match no with
                   | O => MNo e
                   | S no => add_err e (shrink go next min no save)
                   end
        | r => r
        end).
  (** 978-992: from [no] repetitions up, [k] times *)
  Fixpoint grow (go : Z -> mres) (next : nat) (k no : nat) (save : Z) : mres :=
    match k with
    | O => MNo false
    | S k =>
      of_res (lookahead next (save + Z.of_nat no)) (fun ok =>
        let r := if ok then go (save + Z.of_nat no) else MNo false in
        match r with MNo e => add_err e (grow go next k (S no) save) | r => r end)
    end.

  (** 911-919: the alternatives from the BRANCH at scan *)
  Fixpoint alternatives (go : nat -> mres) (fuel : nat) (scan : nat) : mres :=
    match fuel with
    | O => MFuel
    | S f =>
        match go (scan + 3)%nat with
        | MNo e =>
            add_err e
              (of_res (regnext c scan) (fun n =>
                 match n with
                 | None => MNo false
                 | Some s => of_res (op_at c s) (fun op =>
                     if op =? BRANCH then alternatives go f s else MNo false)
                 end))
        | r => r
        end
    end.

  (** regmatch 778-1091.  [loop] is the loop from the node scan; [enter] is
      nested_regmatch (761-769) with the check of 784-789. *)
  Fixpoint loop (fuel : nat) (nest : Z) (scan : option nat) (i : Z) : mres :=
    match fuel with
    | O => MFuel
    | S f =>
        let enter q j := if limit <=? nest + 1 then MNo true else loop f (nest + 1) q j in
        match scan with
        | None => MNo true
        | Some p =>
            of_res (op_at c p) (fun op =>
            of_res (regnext c p) (fun next =>
            let continue j := loop f nest next j in
            if op =? BOL then
              if match bol with Some b => i =? b | None => false end then continue i else MNo false
            else if op =? EOL then if m i =? 0 then continue i else MNo false
            else if op =? EXACTLY then
              let o := str_at c (p + 3) in
              if exactly o i then continue (i + Z.of_nat (length o)) else MNo false
            else if is_one_char op then
              if one_char op (str_at c (p + 3)) (m i) then continue (i + 1) else MNo false
            else if (op =? NOTHING) || (op =? BACK) then continue i
            else if (OPEN <? op) && (op <? OPEN + NSUBEXP) then
              match enter next i with
              | MYes j sp ep e => MYes j (fill sp (Z.to_nat (op - OPEN)) i) ep e
              | r => r
              end
            else if (CLOSE <? op) && (op <? CLOSE + NSUBEXP) then
              match enter next i with
              | MYes j sp ep e => MYes j sp (fill ep (Z.to_nat (op - CLOSE)) i) e
              | r => r
              end
            else if op =? BRANCH then
              match next with
              | None => MWild
              | Some n => of_res (op_at c n) (fun nop =>
                  if nop =? BRANCH then alternatives (fun q => enter (Some q) i) f p
                  else loop f nest (Some (p + 3)%nat) i)
              end
            else if (op =? STAR) || (op =? PLUS) then
              match next with
              | None => MWild
              | Some n => of_res (regrepeat f (p + 3) i) (fun no =>
                  shrink (enter next) n (if op =? STAR then 0 else 1) no i)
              end
            else if (op =? NGSTAR) || (op =? NGPLUS) then
              match next with
              | None => MWild
              | Some n => of_res (regrepeat f (p + 3) i) (fun max =>
                  let min := if op =? NGSTAR then 0%nat else 1%nat in
                  grow (enter next) n (S max - min) min i)
              end
            else if op =? WEDGE then if wedge i then continue i else MNo false
            else if op =? NWEDGE then if wedge i then MNo false else continue i
            else if op =? END then MYes i no_subs no_subs false
            else MNo true))
        end
    end.

  (** regtry 733-758: regnest is 0 *)
  Definition regtry (fuel : nat) (i : Z) : mres :=
    if limit <=? 0 then MNo true
    else match loop fuel 0 (Some 1%nat) i with
         | MYes j sp ep e => MYes j (set_nth sp 0 i) (set_nth ep 0 j) e
         | r => r
         end.

  (** The searches of 601-612 (m is looked for from i on; 0 is found
      nowhere) *)
  Definition first_char (x y : Z) : bool :=
    if nocase then (y =? tolower x) || (y =? toupper x) else y =? x.
  Fixpoint find_must (fuel : nat) (must : list Z) (i : Z) : res bool :=
    match fuel with
    | O => Fuel
    | S f =>
        if first_char (hd 0 must) (m i) && equal_at must i then Ok true
        else if m i =? 0 then Ok false
        else find_must f must (i + 1)
    end.

  (** The searches of 723-751: try at each position from i on at which [start]
      allows a match *)
  Fixpoint search (fuel : nat) (start : Z) (i : Z) : mres :=
    match fuel with
    | O => MFuel
    | S f =>
        let here := if start =? 0 then true else first_char start (m i) && negb (m i =? 0) in
        let r := if here then regtry fuel i else MNo false in
        match r with
        | MNo e => add_err e (if m i =? 0 then MNo false else search f start (i + 1))
        | r => r
        end
    end.
End Match.

(** rep_regexp_max_depth, 665 *)
Definition max_depth := 2048.

(** rep_regexec2 681-754, rep_regmatch_string 760-771.  REG_NOTBOL is given
    when the start is not 0 (find.c 319, 354) *)
Definition regexec2 (m : Z -> Z) (fuel : nat) (prog : regexp) (i : Z) (notbol nocase : bool) : mres :=
  let bol := if notbol then None else Some i in
  of_res (match regmust prog with None => Ok true | Some must => find_must m nocase fuel must i end) (fun found =>
  if negb found then MNo false
  else if reganch prog then regtry m (program prog) nocase bol max_depth fuel i
  else search m (program prog) nocase bol max_depth fuel (regstart prog) i).
Definition regmatch_string (m : Z -> Z) (fuel : nat) (prog : regexp) (i : Z) (notbol nocase : bool) : mres :=
  regtry m (program prog) nocase (if notbol then None else Some i) max_depth fuel i.

(** The memory around a Lisp string: its characters, a zero, and anything
    elsewhere *)
Definition memory (s : list Z) (beyond : Z -> Z) (p : Z) : Z :=
  if (0 <=? p) && (p <? Z.of_nat (length s)) then nth (Z.to_nat p) s 0
  else if p =? Z.of_nat (length s) then 0
  else beyond p.

(** string-match (find.c 289-325) and string-looking-at (327-360) with the
    regexp compiled *)
Definition string_match (beyond : Z -> Z) (fuel : nat) (re s : list Z) (start : Z) (nocase : bool) : mres :=
  of_res (regcomp re) (fun prog =>
    regexec2 (memory s beyond) fuel prog start (negb (start =? 0)) nocase).
Definition string_looking_at (beyond : Z -> Z) (fuel : nat) (re s : list Z) (start : Z) (nocase : bool) : mres :=
  of_res (regcomp re) (fun prog =>
    regmatch_string (memory s beyond) fuel prog start (negb (start =? 0)) nocase).
