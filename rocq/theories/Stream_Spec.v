(** What streams and format are to do, independently of the code *)
From Coq Require Import List ZArith Bool.
From Verif Require Import Numbers_Model Stream_Model.
Import ListNotations.
Open Scope Z_scope.

(** * Output streams: a list of characters each *)
Definition set_nth {A} (l : list A) (k : nat) (x : A) : list A := firstn k l ++ x :: skipn (S k) l.
(** The part of a string that write is to write *)
Definition part (s : list Z) (len : option Z) : option (list Z) :=
  match len with
  | None => Some s
  | Some n => if (0 <=? n) && (n <=? Z.of_nat (length s)) then Some (firstn (Z.to_nat n) s) else None
  end.
(** The texts that the calls of get-output-stream-string return, one after the
    other; None if an operation is not valid *)
Fixpoint texts (p : list (list Z)) (ops : list op) : option (list (list Z)) :=
  match ops with
  | [] => Some []
  | Make :: ops => texts (p ++ [[]]) ops
  | Putc k c :: ops =>
      match nth_error p k with Some t => texts (set_nth p k (t ++ [c mod 256])) ops | None => None end
  | Write k s n :: ops =>
      match nth_error p k, part s n with
      | Some t, Some u => texts (set_nth p k (t ++ u)) ops
      | _, _ => None
      end
  | Get k :: ops =>
      match nth_error p k with
      | Some t => option_map (cons t) (texts (set_nth p k []) ops)
      | None => None
      end
  end.
(** LENGTH arguments fit an int *)
Definition int_lengths (ops : list op) : Prop :=
  forall k s n, In (Write k s (Some n)) ops -> - 2 ^ 31 <= n < 2 ^ 31.
Definition contents (h : heap) (a : nat) : option (list Z) := option_map chars (nth_error h a).

(** A stream that has collected the text [t]: the integer does not claim more
    than the string has room for *)
Definition collected (h : heap) (st : ostream) (t : list Z) : Prop :=
  exists s, nth_error h (sbuf st) = Some s /\ chars s = t /\
    ((t = [] /\ actual st = 0) \/ (slen s < actual st /\ actual st < room s)).

(** * Input: what is left to read *)
Definition remaining (st : istream) : list Z := skipn (Z.to_nat (ipos st)) (istr st).
Definition ready (st : istream) : Prop := 0 <= ipos st <= Z.of_nat (length (istr st)).
(** [after st n st']: the same stream, n characters further *)
Definition after (st : istream) (n : nat) (st' : istream) : Prop :=
  istr st' = istr st /\ ipos st' = ipos st + Z.of_nat n.
(** The first line of a text, with its newline if there is one, and the rest *)
Inductive first_line : list Z -> list Z -> list Z -> Prop :=
| ended : forall x r, ~ In 10 x -> first_line (x ++ 10 :: r) (x ++ [10]) r
| unended : forall x, ~ In 10 x -> first_line x x [].
Definition or_nil (l : list Z) : option (list Z) := match l with [] => None | _ => Some l end.

(** * format *)
(** Numerals in a radix, without leading zeros *)
Definition digit_of (d : Z) : Z := if d <? 10 then 48 + d else 97 + (d - 10).
Inductive numeral (r : Z) : Z -> list Z -> Prop :=
| one : forall d, 0 <= d < r -> numeral r d [digit_of d]
| more : forall n t d, 0 < n -> numeral r n t -> 0 <= d < r -> numeral r (n * r + d) (t ++ [digit_of d]).
Inductive signed (r : Z) : Z -> list Z -> Prop :=
| natural : forall z t, 0 <= z -> numeral r z t -> signed r z t
| negative : forall z t, z < 0 -> numeral r (- z) t -> signed r z (45 :: t).

Inductive flag := Left | Trunc | Zeros | Plus | Space.
Definition flag_char (f : flag) : Z :=
  match f with Left => 45 | Trunc => 94 | Zeros => 48 | Plus => 43 | Space => 32 end.
Inductive conv := Princ | Prin1 | Radix (c r : Z) | Char | Hook (c : Z).
Definition conv_char (c : conv) : Z :=
  match c with Princ => 115 | Prin1 => 83 | Radix c _ => c | Char => 99 | Hook c => c end.
Inductive tok :=
| Text (l : list Z)
| Percent
| Sub (index : option Z) (flags : list flag) (width : Z) (c : conv).

(** How templates are written.  A hook's character is none with a meaning of
    its own. *)
Definition reserved : list Z := [0; 36; 37; 45; 94; 48; 49; 50; 51; 52; 53; 54; 55; 56; 57; 43; 32; 46; 99; 120; 88; 111; 100; 115; 83].
Definition conv_ok (c : conv) : Prop :=
  match c with
  | Radix c r => In (c, r) [(100, 10); (111, 8); (120, 16); (88, 16)]
  | Hook c => ~ In c reserved
  | _ => True
  end.
Definition shows_index (i : option Z) (l : list Z) : Prop :=
  match i with None => l = [] | Some n => 0 < n /\ exists t, numeral 10 n t /\ l = t ++ [36] end.
Definition shows_width (w : Z) (l : list Z) : Prop := (w = 0 /\ l = []) \/ (0 < w /\ numeral 10 w l).
Inductive template : list tok -> list Z -> Prop :=
| t_end : template [] []
| t_text : forall l ts f, ~ In 37 l -> ~ In 0 l -> template ts f -> template (Text l :: ts) (l ++ f)
| t_percent : forall ts f, template ts f -> template (Percent :: ts) (37 :: 37 :: f)
| t_sub : forall i li fl w lw c ts f,
    shows_index i li -> shows_width w lw -> conv_ok c -> template ts f ->
    template (Sub i fl w c :: ts) (37 :: li ++ map flag_char fl ++ lw ++ conv_char c :: f).

Section Meaning.
  Variable prin1_string : list Z -> list Z.
  Variable hooks : Z -> option (value -> value).
  Variable args : list value.

  (** Fields *)
  Definition has (f : flag) (fl : list flag) : bool :=
    existsb (fun g => match f, g with
                      | Left, Left | Trunc, Trunc | Zeros, Zeros | Plus, Plus | Space, Space => true
                      | _, _ => false end) fl.
  Definition with_sign (fl : list flag) (t : list Z) : list Z :=
    if hd 0 t =? 45 then t
    else if has Plus fl then 43 :: t else if has Space fl then 32 :: t else t.
  Definition field (fl : list flag) (w : Z) (t : list Z) : list Z :=
    let pad := repeat (if has Zeros fl then 48 else 32) (Z.to_nat (w - Z.of_nat (length t))) in
    if Z.of_nat (length t) <? w then if has Left fl then t ++ pad else pad ++ t
    else if has Trunc fl then firstn (Z.to_nat w) t else t.
  (** What is left out: padding by more than 256 characters, truncation without
      a width *)
  Definition fits (fl : list flag) (w : Z) (t : list Z) : Prop :=
    (has Trunc fl = true -> 0 < w) /\ w - Z.of_nat (length t) <= 256.
  Definition no_sign (fl : list flag) : Prop := has Plus fl = false /\ has Space fl = false.

  (** Fixnums have 62 bits *)
  Definition integer (v : value) (z : Z) : Prop :=
    (v = Num (Fix z) /\ - 2 ^ 61 <= z < 2 ^ 61) \/ v = Num (Big z).
  Definition no_string (v : value) : Prop := forall s, v <> Str s.
  (** What princ and prin1 write *)
  Inductive unquoted_text : value -> list Z -> Prop :=
  | u_int : forall v z t, integer v z -> signed 10 z t -> unquoted_text v t
  | u_str : forall s, unquoted_text (Str s) s
  | u_other : forall p q, unquoted_text (Other p q) p.
  Inductive quoted_text : value -> list Z -> Prop :=
  | q_int : forall v z t, integer v z -> signed 10 z t -> quoted_text v t
  | q_str : forall s, quoted_text (Str s) (prin1_string s)
  | q_other : forall p q, quoted_text (Other p q) q.

  (** What a substitution writes.  Left out besides the above: negative fixnums
      in octal or hexadecimal, both sign flags at once, sign flags with
      strings. *)
  Inductive substitution : list flag -> Z -> conv -> value -> list Z -> Prop :=
  | s_number : forall fl w c r v z t,
      integer v z -> signed r z t -> (r = 10 \/ 0 <= z \/ v = Num (Big z)) ->
      has Plus fl && has Space fl = false -> fits fl w (with_sign fl t) ->
      substitution fl w (Radix c r) v (field fl w (with_sign fl t))
  | s_string : forall fl w s, no_sign fl -> fits fl w s -> substitution fl w Princ (Str s) (field fl w s)
  | s_princ : forall fl w v t, no_string v -> unquoted_text v t -> substitution fl w Princ v t
  | s_prin1 : forall fl w v t, quoted_text v t -> substitution fl w Prin1 v t
  | s_char : forall fl w z, substitution fl w Char (Num (Fix z)) [z mod 256]
  | s_hook : forall fl w c f v t, hooks c = Some f -> substitution fl w Princ (f v) t -> substitution fl w (Hook c) v t.

  (** What a template writes, the next value being number [k] *)
  Inductive writes : nat -> list tok -> list Z -> Prop :=
  | w_end : forall k, writes k [] []
  | w_text : forall k l ts o, writes k ts o -> writes k (Text l :: ts) (l ++ o)
  | w_percent : forall k ts o, writes k ts o -> writes k (Percent :: ts) (37 :: o)
  | w_sub : forall k i fl w c ts t o,
      let j := match i with None => k | Some n => Z.to_nat (n - 1) end in
      substitution fl w c (nth j args nil_value) t -> writes (S j) ts o ->
      writes k (Sub i fl w c :: ts) (t ++ o).
End Meaning.
