(** What regular expressions mean: man/lang.texi 9123-9330. *)
From Coq Require Import List ZArith Bool.
Import ListNotations.
Open Scope Z_scope.

(** * Syntax *)

Inductive how := Greedy | Lazy.
Inductive quant := One | Opt (h : how) | Star (h : how) | Plus (h : how).
(** An element of a range: a character or two separated by - *)
Inductive citem := CChr (c : Z) | CRange (a b : Z).
(** \w \s \d *)
Inductive kind := Word | Space | Digit.
Inductive atom :=
| Lit (cs : list Z)                      (* characters without significance *)
| Esc (c : Z)                            (* \c *)
| Bol | Eol | Any | Edge | NEdge         (* ^ $ . \b \B *)
| Cls (neg : bool) (l : list citem)      (* [...] [^...] *)
| Kind (k : kind) (neg : bool)           (* \w \W ... *)
| Grp (r : regex)                        (* (...) *)
with regex := Alt1 (b : branch) | Alt (b : branch) (r : regex)
with branch := Nil | Piece (a : atom) (q : quant) (b : branch).

Scheme atom_mind := Induction for atom Sort Prop
  with regex_mind := Induction for regex Sort Prop
  with branch_mind := Induction for branch Sort Prop.
Combined Scheme re_mind from atom_mind, regex_mind, branch_mind.

(** How it is written *)
Definition show_citem (i : citem) : list Z :=
  match i with CChr c => [c] | CRange a b => [a; 45; b] end.
Definition kind_char (k : kind) (neg : bool) : Z :=
  match k, neg with
  | Word, false => 119 | Word, true => 87
  | Space, false => 115 | Space, true => 83
  | Digit, false => 100 | Digit, true => 68
  end.
Definition show_how (h : how) : list Z := match h with Greedy => [] | Lazy => [63] end.
Definition show_quant (q : quant) : list Z :=
  match q with
  | One => [] | Opt h => 63 :: show_how h | Star h => 42 :: show_how h | Plus h => 43 :: show_how h
  end.
Fixpoint show_atom (a : atom) : list Z :=
  match a with
  | Lit cs => cs
  | Esc c => [92; c]
  | Bol => [94] | Eol => [36] | Any => [46] | Edge => [92; 98] | NEdge => [92; 66]
  | Cls neg l => 91 :: (if neg then [94] else []) ++ flat_map show_citem l ++ [93]
  | Kind k neg => [92; kind_char k neg]
  | Grp r => 40 :: show r ++ [41]
  end
with show (r : regex) : list Z :=
  match r with Alt1 b => show_branch b | Alt b r => show_branch b ++ 124 :: show r end
with show_branch (b : branch) : list Z :=
  match b with Nil => [] | Piece a q b => show_atom a ++ show_quant q ++ show_branch b end.

(** Number of parenthesised expressions *)
Fixpoint groups_atom (a : atom) : nat := match a with Grp r => S (groups r) | _ => 0 end
with groups (r : regex) : nat :=
  match r with Alt1 b => groups_branch b | Alt b r => (groups_branch b + groups r)%nat end
with groups_branch (b : branch) : nat :=
  match b with Nil => 0 | Piece a _ b => (groups_atom a + groups_branch b)%nat end.

(** Cannot match the null string (by its form) *)
Fixpoint width_atom (a : atom) : bool :=
  match a with Bol | Eol | Edge | NEdge => false | Grp r => width r | _ => true end
with width (r : regex) : bool :=
  match r with Alt1 b => width_branch b | Alt b r => width_branch b && width r end
with width_branch (b : branch) : bool :=
  match b with
  | Nil => false
  | Piece a q b => match q with One => width_atom a | Plus _ => true | _ => false end || width_branch b
  end.

(** Atoms that match one character *)
Definition single (a : atom) : bool :=
  match a with
  | Lit [_] | Esc _ | Any | Cls _ _ | Kind _ _ => true
  | _ => false
  end.

(** Characters that need a backslash: ^ $ . [ ( ) | ? + * and \ *)
Definition special (c : Z) : Prop := In c [94; 36; 46; 91; 40; 41; 124; 63; 43; 42; 92].
Definition char (c : Z) : Prop := 0 < c < 256.
(** w W s S d D b B *)
Definition escape_letter (c : Z) : Prop := In c [119; 87; 115; 83; 100; 68; 98; 66].

(** The elements of a range, as lang.texi 9154-9163 says they must be written:
    ] only first, - first or last *)
Fixpoint good_items (first : bool) (neg : bool) (l : list citem) : Prop :=
  match l with
  | [] => first = false
  | CChr c :: l' =>
      char c /\ (c = 93 -> first = true) /\ (c = 45 -> first = true \/ l' = []) /\
      (c = 94 -> first = true -> neg = true) /\ good_items false neg l'
  | CRange a b :: l' =>
      char a /\ char b /\ a <= b /\ b <> 93 /\ (a = 93 -> first = true) /\ (a = 45 -> first = true) /\
      (a = 94 -> first = true -> neg = true) /\ good_items false neg l'
  end.

(** Regular expressions as the manual defines them: a run of ordinary
    characters is one [Lit] as long as possible, only a single character is
    repeated, and what is repeated any number of times cannot match the null
    string (the code refuses that, the manual does not say so) *)
Fixpoint good_atom (a : atom) : Prop :=
  match a with
  | Lit cs => cs <> [] /\ Forall (fun c => char c /\ ~ special c) cs
  | Esc c => char c /\ ~ escape_letter c
  | Cls neg l => good_items true neg l
  | Grp r => good r
  | _ => True
  end
with good (r : regex) : Prop :=
  match r with Alt1 b => good_branch b | Alt b r => good_branch b /\ good r end
with good_branch (b : branch) : Prop :=
  match b with
  | Nil => True
  | Piece a q b =>
      good_atom a /\
      match q with
      | Star _ | Plus _ => width_atom a = true
      | _ => True
      end /\
      match a, q with
      | Lit cs, One => match b with Piece (Lit _) One _ => False | _ => True end
      | Lit cs, _ => length cs = 1%nat
      | _, _ => True
      end /\
      good_branch b
  end.

(** Expressions the code treats as documented: no ??; no *? or +? after a
    group at the end of an alternative that is not the last; \W \S \D only
    repeated with * or + *)
Fixpoint usable_atom (a : atom) : Prop := match a with Grp r => usable r | _ => True end
with usable (r : regex) : Prop :=
  match r with Alt1 b => usable_branch true b | Alt b r => usable_branch false b /\ usable r end
with usable_branch (last : bool) (b : branch) : Prop :=
  match b with
  | Nil => True
  | Piece a q b =>
      usable_atom a /\
      match q with
      | Opt Lazy => False
      | Star Lazy | Plus Lazy => single a = true \/ b <> Nil \/ last = true
      | _ => True
      end /\
      match a, q with
      | Kind _ true, Star _ | Kind _ true, Plus _ => True
      | Kind _ true, _ => False
      | _, _ => True
      end /\
      usable_branch last b
  end.

(** All literal characters are ASCII *)
Fixpoint ascii_atom (a : atom) : Prop :=
  match a with Lit cs => Forall (fun c => c < 128) cs | Esc c => c < 128 | Grp r => ascii r | _ => True end
with ascii (r : regex) : Prop :=
  match r with Alt1 b => ascii_branch b | Alt b r => ascii_branch b /\ ascii r end
with ascii_branch (b : branch) : Prop :=
  match b with Nil => True | Piece a _ b => ascii_atom a /\ ascii_branch b end.

(** There is a single character repeated with * or + *)
Fixpoint repeats_atom (a : atom) : bool := match a with Grp r => repeats r | _ => false end
with repeats (r : regex) : bool :=
  match r with Alt1 b => repeats_branch b | Alt b r => repeats_branch b || repeats r end
with repeats_branch (b : branch) : bool :=
  match b with
  | Nil => false
  | Piece a q b => (match q with Star _ | Plus _ => single a | _ => false end) || repeats_atom a || repeats_branch b
  end.

(** Bytes of the compiled form, which has to be smaller than 32 K *)
Definition citem_size (i : citem) : nat :=
  match i with CChr _ => 1 | CRange a b => Z.to_nat (b - a + 1) end.
Fixpoint size_atom (a : atom) : nat :=
  match a with
  | Lit cs => length cs + 4
  | Esc _ => 5
  | Cls _ l => list_sum (map citem_size l) + 4
  | Grp r => size r + 6
  | _ => 3
  end
with size (r : regex) : nat :=
  match r with Alt1 b => 3 + size_branch b | Alt b r => 3 + size_branch b + size r end
with size_branch (b : branch) : nat :=
  match b with
  | Nil => 3
  | Piece a q b =>
      size_atom a +
      match q with One => 0 | Opt _ => 9 | Star _ | Plus _ => if single a then 3 else 12 end +
      match b with Nil => 0 | _ => size_branch b end
  end%nat.
Definition compiled_size (r : regex) : nat := (size r + 4)%nat.

(** Nested calls needed to match: at most [depth0 r + depth1 r * n] on n
    characters *)
Fixpoint depth_atom (a : atom) : Z * Z :=
  match a with Grp r => let '(x, y) := depth r in (x + 2, y) | _ => (0, 0) end
with depth (r : regex) : Z * Z :=
  match r with
  | Alt1 b => depth_branch b
  | Alt b r => let '(x, y) := depth_branch b in let '(x', y') := depth r in (x + x' + 1, y + y')
  end
with depth_branch (b : branch) : Z * Z :=
  match b with
  | Nil => (0, 0)
  | Piece a q b =>
      let '(x, y) := depth_atom a in
      let '(x', y') := depth_branch b in
      match q with
      | One => (x + x', y + y')
      | Opt _ => (x + x' + 1, y + y')
      | _ => if single a then (1 + x', y') else (x + x' + 1, x + y + 1 + y')
      end
  end.

(** * Meaning *)

Definition upper (c : Z) : Z := if (97 <=? c) && (c <=? 122) then c - 32 else c.
Definition alnum (c : Z) : bool :=
  ((48 <=? c) && (c <=? 57)) || ((65 <=? c) && (c <=? 90)) || ((97 <=? c) && (c <=? 122)).
Definition of_kind (k : kind) (c : Z) : bool :=
  match k with
  | Word => (c =? 95) || alnum c
  | Space => (c =? 32) || ((9 <=? c) && (c <=? 13))
  | Digit => (48 <=? c) && (c <=? 57)
  end.
Definition in_item (c : Z) (i : citem) : bool :=
  match i with CChr a => c =? a | CRange a b => (a <=? c) && (c <=? b) end.

(** Where parentheses were opened and closed *)
Inductive event := Opened (n : nat) (i : Z) | Closed (n : nat) (i : Z).
(** A way to match: where it ends, and its parentheses in order *)
Definition way : Type := Z * list event.
Definition and_then (l : list way) (f : Z -> list way) : list way :=
  flat_map (fun w => map (fun w' => (fst w', snd w ++ snd w')) (f (fst w))) l.

Section Meaning.
  Variable t : list Z.          (* the string *)
  Variable nocase : bool.
  Variable at_start : bool.     (* matching started at the beginning *)

  Definition char_at (i : Z) : option Z := if i <? 0 then None else nth_error t (Z.to_nat i).
  Definition eqc (a b : Z) : bool := if nocase then upper a =? upper b else a =? b.
  Fixpoint literal (cs : list Z) (i : Z) : bool :=
    match cs with
    | [] => true
    | c :: cs => match char_at i with Some x => eqc c x && literal cs (i + 1) | None => false end
    end.
  Definition one (f : Z -> bool) (i : Z) : list way :=
    match char_at i with Some x => if f x then [(i + 1, [])] else [] | None => [] end.
  Definition is_word (i : Z) : bool :=
    match char_at i with Some x => of_kind Word x | None => false end.
  (** \b: between a word and another character; the code also takes the ends
      of the string for boundaries *)
  Definition edge (i : Z) : bool :=
    (at_start && (i =? 0)) || (i =? Z.of_nat (length t)) || xorb (is_word (i - 1)) (is_word i).
  Definition when (b : bool) (i : Z) : list way := if b then [(i, [])] else [].

  (** Any number of times; [n] is as large as the string *)
  Fixpoint many (h : how) (f : Z -> list way) (n : nat) (i : Z) : list way :=
    match n with
    | O => []
    | S n =>
        match h with
        | Greedy => and_then (f i) (many h f n) ++ [(i, [])]
        | Lazy => (i, []) :: and_then (f i) (many h f n)
        end
    end.
  Definition times (q : quant) (f : Z -> list way) (i : Z) : list way :=
    match q with
    | One => f i
    | Opt Greedy => f i ++ [(i, [])]
    | Opt Lazy => (i, []) :: f i
    | Star h => many h f (S (length t)) i
    | Plus h => and_then (f i) (many h f (S (length t)))
    end.

  (** The ways to match at position i, the preferred ones first.  [n] is the
      number of the first parenthesis. *)
  Fixpoint ways_atom (a : atom) (n : nat) (i : Z) : list way :=
    match a with
    | Lit cs => if literal cs i then [(i + Z.of_nat (length cs), [])] else []
    | Esc c => one (eqc c) i
    | Bol => when (at_start && (i =? 0)) i
    | Eol => when (i =? Z.of_nat (length t)) i
    | Any => one (fun _ => true) i
    | Edge => when (edge i) i
    | NEdge => when (negb (edge i)) i
    | Cls neg l => one (fun x => xorb neg (existsb (in_item x) l)) i
    | Kind k neg => one (fun x => xorb neg (of_kind k x)) i
    | Grp r => map (fun w => (fst w, Opened n i :: snd w ++ [Closed n (fst w)])) (ways r (S n) i)
    end
  with ways (r : regex) (n : nat) (i : Z) : list way :=
    match r with
    | Alt1 b => ways_branch b n i
    | Alt b r => ways_branch b n i ++ ways r (n + groups_branch b) i
    end
  with ways_branch (b : branch) (n : nat) (i : Z) : list way :=
    match b with
    | Nil => [(i, [])]
    | Piece a q b => and_then (times q (ways_atom a n) i) (ways_branch b (n + groups_atom a))
    end.

  (** The same without preference: [r] matches the string from i to j *)
  Inductive matches_atom : atom -> Z -> Z -> Prop :=
  | M_lit cs i : literal cs i = true -> matches_atom (Lit cs) i (i + Z.of_nat (length cs))
  | M_esc c i x : char_at i = Some x -> eqc c x = true -> matches_atom (Esc c) i (i + 1)
  | M_bol : at_start = true -> matches_atom Bol 0 0
  | M_eol : matches_atom Eol (Z.of_nat (length t)) (Z.of_nat (length t))
  | M_any i x : char_at i = Some x -> matches_atom Any i (i + 1)
  | M_edge i : edge i = true -> matches_atom Edge i i
  | M_nedge i : edge i = false -> matches_atom NEdge i i
  | M_cls (neg : bool) l i x :
      char_at i = Some x ->
      (if neg then ~ exists it, In it l /\ in_item x it = true else exists it, In it l /\ in_item x it = true) ->
      matches_atom (Cls neg l) i (i + 1)
  | M_kind k neg i x : char_at i = Some x -> of_kind k x = negb neg -> matches_atom (Kind k neg) i (i + 1)
  | M_grp r i j : matches r i j -> matches_atom (Grp r) i j
  with matches : regex -> Z -> Z -> Prop :=
  | M_one b i j : matches_branch b i j -> matches (Alt1 b) i j
  | M_left b r i j : matches_branch b i j -> matches (Alt b r) i j
  | M_right b r i j : matches r i j -> matches (Alt b r) i j
  with matches_branch : branch -> Z -> Z -> Prop :=
  | M_nil i : matches_branch Nil i i
  | M_piece a q b i j k : matches_piece a q i j -> matches_branch b j k -> matches_branch (Piece a q b) i k
  with matches_piece : atom -> quant -> Z -> Z -> Prop :=
  | M_once a i j : matches_atom a i j -> matches_piece a One i j
  | M_opt0 a h i : matches_piece a (Opt h) i i
  | M_opt1 a h i j : matches_atom a i j -> matches_piece a (Opt h) i j
  | M_star0 a h i : matches_piece a (Star h) i i
  | M_star1 a h i j k : matches_atom a i j -> matches_piece a (Star h) j k -> matches_piece a (Star h) i k
  | M_plus a h i j k : matches_atom a i j -> matches_piece a (Star h) j k -> matches_piece a (Plus h) i k.
End Meaning.

Scheme matches_atom_m := Minimality for matches_atom Sort Prop
  with matches_m := Minimality for matches Sort Prop
  with matches_branch_m := Minimality for matches_branch Sort Prop
  with matches_piece_m := Minimality for matches_piece Sort Prop.
Combined Scheme matches_mind from matches_atom_m, matches_m, matches_branch_m, matches_piece_m.

(** Where the parentheses number n were opened and closed last *)
Fixpoint last_opened (n : nat) (l : list event) : option Z :=
  match l with
  | [] => None
  | e :: l => match last_opened n l with
              | Some i => Some i
              | None => match e with Opened m i => if Nat.eqb m n then Some i else None | _ => None end
              end
  end.
Fixpoint last_closed (n : nat) (l : list event) : option Z :=
  match l with
  | [] => None
  | e :: l => match last_closed n l with
              | Some i => Some i
              | None => match e with Closed m i => if Nat.eqb m n then Some i else None | _ => None end
              end
  end.
(** The match data of a match from i to j *)
Definition match_starts (i : Z) (l : list event) : list (option Z) :=
  Some i :: map (fun n => last_opened n l) (seq 1 9).
Definition match_ends (j : Z) (l : list event) : list (option Z) :=
  Some j :: map (fun n => last_closed n l) (seq 1 9).

(** The expression in the parentheses number n, the first being number k *)
Fixpoint nth_group_atom (a : atom) (k n : nat) : option regex :=
  match a with Grp r => if Nat.eqb n k then Some r else nth_group r (S k) n | _ => None end
with nth_group (r : regex) (k n : nat) : option regex :=
  match r with
  | Alt1 b => nth_group_branch b k n
  | Alt b r => if Nat.ltb n (k + groups_branch b) then nth_group_branch b k n else nth_group r (k + groups_branch b) n
  end
with nth_group_branch (b : branch) (k n : nat) : option regex :=
  match b with
  | Nil => None
  | Piece a _ b => if Nat.ltb n (k + groups_atom a) then nth_group_atom a k n else nth_group_branch b (k + groups_atom a) n
  end.

(** Regexps and strings the theorems are about: no zero bytes, at most nine
    groups, a compiled form below 32 K, and less than 2048 nested calls *)
Definition fits (r : regex) (t : list Z) (nocase : bool) : Prop :=
  Forall char t /\ good r /\ usable r /\ (nocase = true -> repeats r = true -> ascii r) /\
  (groups r <= 9)%nat /\ Z.of_nat (compiled_size r) < 32767 /\
  fst (depth r) + snd (depth r) * Z.of_nat (length t) < 2048.

(** \b as the manual has it: between \w and \W characters *)
Definition doc_edge (t : list Z) (i : Z) : Prop :=
  exists x y, char_at t (i - 1) = Some x /\ char_at t i = Some y /\ of_kind Word x <> of_kind Word y.
