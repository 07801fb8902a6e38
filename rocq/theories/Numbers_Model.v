(** Model of the exact-number part of /repo/src/numbers.c (GMP build, LP64)
    and of the comparison functions of /repo/src/lispcmds.c and lispmach.h.

    Floats are not modelled.  GMP's mpz/mpq functions are taken to be the
    mathematical operations on Z and Q (mpq results in lowest terms). *)
From Coq Require Import ZArith QArith Qreduction List Bool.
Import ListNotations.
Open Scope Z_scope.

(** Two's complement truncation to [bits] bits, what a C conversion to (or,
    with gcc, signed overflow in) a [bits]-bit signed type leaves. *)
Definition wrap (bits z : Z) : Z :=
  (z + 2 ^ (bits - 1)) mod 2 ^ bits - 2 ^ (bits - 1).

(** C [long] and [long long] (both 64 bits, configure.ac 506-512) and [int]. *)
Definition wrap64 := wrap 64.
Definition wrap32 := wrap 32.

(** rep_lisp.h 133-137: rep_LISP_INT_BITS = 64 - 2, and its bounds. *)
Definition int_bits : Z := 62.
Definition max_int : Z := 2 ^ (int_bits - 1) - 1.
Definition min_int : Z := - 2 ^ (int_bits - 1).

(** A numeric repv: a fixnum held in the pointer, or a cell of type bignum
    (mpz) or rational (mpq).  numbers.c 95-125, rep_lisp.h 339-362. *)
Inductive num :=
| Fix (z : Z)
| Big (z : Z)
| Rat (q : Q).

(** Outcome of a call: a number, the arith-error "Divide by zero", a bad-arg
    error, the death of the process by a null pointer access or abort(), or C
    undefined behaviour that has no conventional result. *)
Inductive res :=
| Ok (n : num)
| DivZero
| BadArg
| Crash
| Undef.

(** rep_lisp.h 125-130: rep_MAKE_INT shifts left by two bits in a 64-bit word,
    rep_INT shifts back arithmetically; what survives is 62 bits. *)
Definition make_int (x : Z) : num := Fix (wrap int_bits x).

(** numbers.c 553-567 rep_make_long_int; IN is a C long. *)
Definition make_long_int (i : Z) : num :=
  if (min_int <=? i) && (i <=? max_int) then make_int i else Big i.

(** numbers.c 720-724 rep_make_longlong_int when sizeof(long long) is
    sizeof(long), as on LP64. *)
Definition make_longlong_int (i : Z) : num := make_long_int (wrap64 i).

(** numbers.c 416-451 maybe_demote (the argument is never a fixnum). *)
Definition maybe_demote (n : num) : num :=
  let demote_z z :=
    if (z <=? max_int) && (min_int <=? z) then make_int z else Big z in
  match n with
  | Rat q => if (Qden q =? 1)%positive then demote_z (Qnum q) else Rat q
  | Big z => demote_z z
  | Fix z => Fix z
  end.

(** rep_lisp.h 346-359 rep_NUMERIC_TYPE, as the rank of the type. *)
Definition num_type (n : num) : nat :=
  match n with Fix _ => 0 | Big _ => 1 | Rat _ => 2 end%nat.

(** numbers.c 329-414 promote_to (targets up to rational). *)
Definition promote_to (n : num) (ty : nat) : num :=
  if Nat.leb ty (num_type n) then n
  else match n, ty with
       | Fix z, 1%nat => Big z
       | Fix z, _ => Rat (inject_Z z)
       | Big z, _ => Rat (inject_Z z)
       | Rat q, _ => Rat q
       end.

(** numbers.c 485-533 promote / promote_dup: both operands get the higher of
    the two types.  (The copy made by promote_dup is not visible here.) *)
Definition promote (x y : num) : num * num :=
  if Nat.ltb (num_type y) (num_type x) then (x, promote_to y (num_type x))
  else if Nat.ltb (num_type x) (num_type y) then (promote_to x (num_type y), y)
  else (x, y).

(** numbers.c 1354-1393 rep_number_add *)
Definition number_add (x y : num) : res :=
  match promote x y with
  | (Fix a, Fix b) => Ok (make_long_int (wrap64 (a + b)))
  | (Big a, Big b) => Ok (maybe_demote (Big (a + b)))
  | (Rat a, Rat b) => Ok (maybe_demote (Rat (Qred (a + b))))
  | _ => Undef
  end.

(** numbers.c 1395-1431 rep_number_neg (no maybe_demote in the source) *)
Definition number_neg (x : num) : res :=
  match x with
  | Fix a => Ok (make_long_int (wrap64 (- a)))
  | Big a => Ok (Big (- a))
  | Rat q => Ok (Rat (Qred (- q)))
  end.

(** numbers.c 1433-1472 rep_number_sub *)
Definition number_sub (x y : num) : res :=
  match promote x y with
  | (Fix a, Fix b) => Ok (make_long_int (wrap64 (a - b)))
  | (Big a, Big b) => Ok (maybe_demote (Big (a - b)))
  | (Rat a, Rat b) => Ok (maybe_demote (Rat (Qred (a - b))))
  | _ => Undef
  end.

(** numbers.c 1474-1516 rep_number_mul: the fixnum product is computed in a
    64-bit long long. *)
Definition number_mul (x y : num) : res :=
  match promote x y with
  | (Fix a, Fix b) => Ok (make_longlong_int (wrap64 (a * b)))
  | (Big a, Big b) => Ok (maybe_demote (Big (a * b)))
  | (Rat a, Rat b) => Ok (maybe_demote (Rat (Qred (a * b))))
  | _ => Undef
  end.

(** numbers.c 155-156 ZEROP and 2047-2078 Fzerop *)
Definition zerop (x : num) : bool :=
  match x with
  | Fix a => a =? 0
  | Big a => a =? 0
  | Rat q => Qnum q =? 0
  end.

(** The quotient a/b of integers (b <> 0) as mpq_canonicalize / mpq_div leave it. *)
Definition ratio (a b : Z) : Q := Qred (inject_Z a / inject_Z b).

(** numbers.c 1518-1609 rep_number_div.  In the fixnum case the source sets
    x/|y|, canonicalizes and negates if y < 0. *)
Definition number_div (x y : num) : res :=
  if zerop y then DivZero
  else match promote x y with
       | (Fix a, Fix b) =>
         if Z.rem a b =? 0 then Ok (make_int (Z.quot a b))
         else let q := ratio a (Z.abs b) in
              Ok (Rat (if b <? 0 then Qred (- q) else q))
       | (Big a, Big b) =>
         if Z.rem a b =? 0 then Ok (maybe_demote (Big (Z.quot a b)))
         else Ok (Rat (ratio a b))
       | (Rat a, Rat b) => Ok (maybe_demote (Rat (Qred (a / b))))
       | _ => Undef
       end.

(** numbers.c 1611-1639 rep_number_lognot *)
Definition number_lognot (x : num) : res :=
  match x with
  | Fix a => Ok (make_int (Z.lnot a))
  | Big a => Ok (Big (Z.lnot a))
  | Rat _ => BadArg
  end.

(** numbers.c 1641-1666 rep_number_logior (no maybe_demote in the source) *)
Definition number_logior (x y : num) : res :=
  match promote x y with
  | (Fix a, Fix b) => Ok (make_int (Z.lor a b))
  | (Big a, Big b) => Ok (Big (Z.lor a b))
  | _ => BadArg
  end.

(** numbers.c 1668-1703 rep_number_logxor: on bignums (x|y) & ~(x&y) *)
Definition number_logxor (x y : num) : res :=
  match promote x y with
  | (Fix a, Fix b) => Ok (make_int (Z.lxor a b))
  | (Big a, Big b) =>
    Ok (Big (Z.land (Z.lnot (Z.land a b)) (Z.lor a b)))
  | _ => BadArg
  end.

(** numbers.c 1705-1730 rep_number_logand *)
Definition number_logand (x y : num) : res :=
  match promote x y with
  | (Fix a, Fix b) => Ok (make_int (Z.land a b))
  | (Big a, Big b) => Ok (Big (Z.land a b))
  | _ => BadArg
  end.

(** numbers.c 1768-1778: the loop of Euclid's algorithm on two longs.  [fuel]
    bounds the iterations; the bound used below always suffices (proved). *)
Fixpoint euclid (fuel : nat) (m n : Z) : option Z :=
  match fuel with
  | O => None
  | S f => if m =? 0 then Some n else euclid f (Z.rem n m) m
  end.

(** numbers.c 1762-1797 rep_integer_gcd (arguments checked to be integers by
    the callers, 2567-2584) *)
Definition integer_gcd (x y : num) : res :=
  match promote x y with
  | (Fix a, Fix b) =>
    let m := wrap64 (Z.abs a) in
    match euclid (S (Z.to_nat (2 * Z.log2 m + 2))) m (wrap64 (Z.abs b)) with
    | Some n => Ok (make_int n)
    | None => Undef
    end
  | (Big a, Big b) => Ok (Big (Z.gcd a b))
  | _ => BadArg
  end.

(** numbers.c 1856-1893 Fremainder *)
Definition remainder (x y : num) : res :=
  if zerop y then DivZero
  else match promote x y with
       | (Fix a, Fix b) => Ok (make_int (Z.rem a b))
       | (Big a, Big b) => Ok (maybe_demote (Big (Z.rem a b)))
       | _ => BadArg
       end.

(** numbers.c 1895-1955 Fmod: C remainder, then corrected by adding the
    divisor when its sign is wrong. *)
Definition fix_sign (r d : Z) : Z :=
  if (if d <? 0 then 0 <? r else r <? 0) then r + d else r.

Definition modulo (x y : num) : res :=
  if zerop y then DivZero
  else match promote x y with
       | (Fix a, Fix b) => Ok (make_int (fix_sign (Z.rem a b) b))
       | (Big a, Big b) => Ok (maybe_demote (Big (fix_sign (Z.rem a b) b)))
       | _ => BadArg
       end.

(** numbers.c 1957-1983 Fquotient *)
Definition quotient (x y : num) : res :=
  match x, y with
  | Rat _, _ | _, Rat _ => BadArg
  | _, _ =>
    if zerop y then DivZero
    else match promote x y with
         | (Fix a, Fix b) => Ok (make_int (Z.quot a b))
         | (Big a, Big b) => Ok (maybe_demote (Big (Z.quot a b)))
         | _ => Undef
         end
  end.

(** numbers.c 2080-2122 Fplus1 *)
Definition plus1 (x : num) : res :=
  match x with
  | Fix a => Ok (make_long_int (wrap64 (a + 1)))
  | Big a => Ok (maybe_demote (Big (a + 1)))
  | Rat q => Ok (maybe_demote (Rat (Qred (q + 1))))
  end.

(** numbers.c 2124-2166 Fsub1 *)
Definition sub1 (x : num) : res :=
  match x with
  | Fix a => Ok (make_long_int (wrap64 (a - 1)))
  | Big a => Ok (maybe_demote (Big (a - 1)))
  | Rat q => Ok (maybe_demote (Rat (Qred (q - 1))))
  end.

(** numbers.c 2168-2235 Fash.  The count is taken to be a fixnum (the source
    first truncates a bignum count to 62 bits).  Shifting a 64-bit word right
    by 64 or more places is undefined in C. mpz_div_2exp rounds down. *)
Definition ash_big (a s : Z) : num :=
  maybe_demote (Big (if 0 <? s then a * 2 ^ s else Z.shiftr a (- s))).

Definition ash (x : num) (s : Z) : res :=
  match x with
  | Fix a =>
    if int_bits <=? s then Ok (ash_big a s)
    else if 0 <? s then Ok (make_longlong_int (wrap64 (Z.shiftl a s)))
    else if 64 <=? - s then Undef
    else Ok (make_longlong_int (Z.shiftr a (- s)))
  | Big a => Ok (ash_big a s)
  | Rat _ => BadArg
  end.

(** numbers.c 2512-2565 Fexpt, integer base and fixnum exponent; the mpz
    result is returned as it is, without maybe_demote. *)
Definition expt (x : num) (e : Z) : res :=
  match x with
  | Rat _ => BadArg
  | Fix a | Big a =>
    if e <? 0 then number_div (make_int 1) (Big (a ^ (- e)))
    else Ok (Big (a ^ e))
  end.

(** numbers.c 784-815 rep_compare_numbers and 817-857 number_cmp on exact
    numbers: the result type is C int, so the difference of two fixnums (a
    long) is truncated to 32 bits. *)
Definition sign_of (c : comparison) : Z :=
  match c with Lt => -1 | Eq => 0 | Gt => 1 end.

Definition compare_numbers (x y : num) : Z :=
  match promote x y with
  | (Fix a, Fix b) => wrap32 (wrap64 (a - b))
  | (Big a, Big b) => sign_of (a ?= b)
  | (Rat a, Rat b) => sign_of (Qcompare a b)
  | _ => 1
  end.

(** Identity of two numeric repv's ([v1 == v2] in values.c 168): certain for
    equal fixnums; different cells are never identical, and one cell compares
    as 0 with itself anyway, so only the fixnum case matters. *)
Definition same_fixnum (x y : num) : bool :=
  match x, y with Fix a, Fix b => a =? b | _, _ => false end.

(** values.c 161-172 rep_value_cmp on two numbers (type functions are
    number_cmp, numbers.c 3059-3063), hence Fequal lispcmds.c 1548. *)
Definition value_cmp (x y : num) : Z :=
  if same_fixnum x y then 0 else compare_numbers x y.

(** lispcmds.c 1642-1656 APPLY_COMPARISON; [op] is the C test against 0. *)
Definition apply1 (op : Z -> bool) (a b : num) : bool :=
  let sign :=
    match a, b with
    | Fix _, Fix _ => value_cmp a b
    | _, _ => compare_numbers a b
    end in
  op sign.

Fixpoint apply_comparison (op : Z -> bool) (a : num) (l : list num) : bool :=
  match l with
  | [] => true
  | b :: l' => if apply1 op a b then apply_comparison op b l' else false
  end.

(** lispcmds.c 1658-1730: =, /=, >, >=, <, <= of two or more arguments. *)
Definition num_eq a b l := apply_comparison (fun s => s =? 0) a (b :: l).
Definition num_noteq a b l := negb (num_eq a b l).
Definition gtthan a b l := apply_comparison (fun s => 0 <? s) a (b :: l).
Definition gethan a b l := apply_comparison (fun s => 0 <=? s) a (b :: l).
Definition ltthan a b l := apply_comparison (fun s => s <? 0) a (b :: l).
Definition lethan a b l := apply_comparison (fun s => s <=? 0) a (b :: l).

(** numbers.c 2029-2045 Feql; lispcmds.c 1548 Fequal *)
Definition eql (x y : num) : bool := compare_numbers x y =? 0.
Definition equal (x y : num) : bool := value_cmp x y =? 0.

(** lispmach.h 1343-1421, 2002-2020: the bytecode instructions compare two
    fixnums directly and otherwise call rep_compare_numbers. *)
Definition vm_gt (x y : num) : bool :=
  match x, y with Fix a, Fix b => b <? a | _, _ => 0 <? compare_numbers x y end.
Definition vm_ge (x y : num) : bool :=
  match x, y with Fix a, Fix b => b <=? a | _, _ => 0 <=? compare_numbers x y end.
Definition vm_lt (x y : num) : bool :=
  match x, y with Fix a, Fix b => a <? b | _, _ => compare_numbers x y <? 0 end.
Definition vm_le (x y : num) : bool :=
  match x, y with Fix a, Fix b => a <=? b | _, _ => compare_numbers x y <=? 0 end.
Definition vm_num_eq (x y : num) : bool :=
  match x, y with Fix a, Fix b => a =? b | _, _ => compare_numbers x y =? 0 end.

(** numbers.c 1732-1760 rep_number_max / min on exact numbers *)
Definition number_max (x y : num) : num :=
  match x, y with
  | Fix _, Fix _ => if 0 <=? value_cmp x y then x else y
  | _, _ => if 0 <=? compare_numbers x y then x else y
  end.
Definition number_min (x y : num) : num :=
  match x, y with
  | Fix _, Fix _ => if value_cmp x y <=? 0 then x else y
  | _, _ => if compare_numbers x y <=? 0 then x else y
  end.

(** numbers.c 1247-1268 number_foldv: the result of OP is not tested, so an
    error (null) result followed by another argument makes OP examine a null
    pointer (rep_NUMERICP reads the cell header): the process dies. *)
Fixpoint number_foldv (op : num -> num -> res) (sum : num) (l : list num) : res :=
  match l with
  | [] => Ok sum
  | a :: l' =>
    match op sum a with
    | Ok s => number_foldv op s l'
    | e => match l' with [] => e | _ => Crash end
    end
  end.

(** numbers.c 1799-1854 Fplus Fminus Fproduct Fdivide *)
Definition Fplus (l : list num) : res :=
  match l with [] => Ok (make_int 0) | a :: l' => number_foldv number_add a l' end.
Definition Fminus (a : num) (l : list num) : res :=
  match l with [] => number_neg a | _ => number_foldv number_sub a l end.
Definition Fproduct (l : list num) : res :=
  match l with [] => Ok (make_int 1) | a :: l' => number_foldv number_mul a l' end.
Definition Fdivide (a : num) (l : list num) : res :=
  match l with [] => number_div (make_int 1) a | _ => number_foldv number_div a l end.

(** lispmach.h 1228-1276, 1423-1451: ADD NEG SUB INC DEC with the open-coded
    fixnum case. *)
Definition vm_add (x y : num) : res :=
  match x, y with
  | Fix a, Fix b =>
    let s := wrap64 (a + b) in
    if (min_int <=? s) && (s <=? max_int) then Ok (make_int s) else number_add x y
  | _, _ => number_add x y
  end.
Definition vm_neg (x : num) : res :=
  match x with
  | Fix a =>
    let s := wrap64 (- a) in
    if (min_int <=? s) && (s <=? max_int) then Ok (make_int s) else number_neg x
  | _ => number_neg x
  end.
Definition vm_sub (x y : num) : res :=
  match x, y with
  | Fix a, Fix b =>
    let s := wrap64 (a - b) in
    if (min_int <=? s) && (s <=? max_int) then Ok (make_int s) else number_sub x y
  | _, _ => number_sub x y
  end.
Definition vm_inc (x : num) : res :=
  match x with
  | Fix a => let s := wrap64 (a + 1) in
             if s <=? max_int then Ok (make_int s) else plus1 x
  | _ => plus1 x
  end.
Definition vm_dec (x : num) : res :=
  match x with
  | Fix a => let s := wrap64 (a - 1) in
             if min_int <=? s then Ok (make_int s) else sub1 x
  | _ => sub1 x
  end.

(** Printing.  Digits are character codes. *)
Definition digit_char (d : Z) : Z := if d <? 10 then 48 + d else 87 + d.

(** Most significant first digits of a natural number; what printf("%ld"),
    "%lx", "%lo" and mpz_get_str produce.  [fuel] is enough when at least the
    bit length. *)
Fixpoint digits_acc (fuel : nat) (radix n : Z) (acc : list Z) : list Z :=
  match fuel with
  | O => acc
  | S f =>
    let acc' := digit_char (n mod radix) :: acc in
    if n / radix =? 0 then acc' else digits_acc f radix (n / radix) acc'
  end.
Definition digits (radix n : Z) : list Z :=
  digits_acc (S (Z.to_nat (Z.log2 n))) radix n [].

(** Sign and magnitude, as "%ld" and mpz_get_str print. *)
Definition signed_digits (radix z : Z) : list Z :=
  if z <? 0 then 45 :: digits radix (- z) else digits radix z.

(** numbers.c 1096-1159 rep_print_number_to_string on integers: "%lx" and
    "%lo" print the 64-bit word as unsigned. *)
Definition print_integer (n : num) (radix : Z) : list Z :=
  match n with
  | Fix z =>
    if radix =? 10 then signed_digits 10 z
    else if radix =? 16 then digits 16 (z mod 2 ^ 64)
    else if radix =? 8 then digits 8 (z mod 2 ^ 64)
    else signed_digits radix z
  | Big z => signed_digits radix z
  | Rat _ => []
  end.

(** toupper in the C locale *)
Definition toupper (c : Z) : Z := if (97 <=? c) && (c <=? 122) then c - 32 else c.

(** numbers.c 857-865 map[] and MAP_SIZE, indexed by toupper(c) - '0' *)
Definition digit_map (d : Z) : Z :=
  if (0 <=? d) && (d <=? 9) then d
  else if (17 <=? d) && (d <=? 43) then d - 7
  else -1.

Definition char_digit (c : Z) : Z :=
  let d := toupper c - 48 in
  if (d <? 0) || (44 <=? d) then -1 else digit_map d.

(** numbers.c 949-981: the accumulation loop, VALUE a long (the bit bound
    tested before makes overflow impossible; wrap64 keeps it explicit).  In
    radix 10 the source tests c < '0' || c > '9'. *)
Fixpoint parse_fix (radix : Z) (buf : list Z) (value : Z) : option Z :=
  match buf with
  | [] => Some value
  | c :: buf' =>
    if radix =? 10 then
      if (c <? 48) || (57 <? c) then None
      else parse_fix radix buf' (wrap64 (value * 10 + (c - 48)))
    else
      let d := char_digit c in
      if (d <? 0) || (radix <=? d) then None
      else parse_fix radix buf' (wrap64 (value * radix + d))
  end.

(** mpz_init_set_str on a digit string in RADIX.  (GMP also accepts white
    space and a minus sign, which are rejected here: simplification.) *)
Fixpoint mpz_set_str (radix : Z) (buf : list Z) (value : Z) : option Z :=
  match buf with
  | [] => Some value
  | c :: buf' =>
    let d := char_digit c in
    if (d <? 0) || (radix <=? d) then None
    else mpz_set_str radix buf' (value * radix + d)
  end.

(** numbers.c 923-947: upper bound on the number of bits; [None] is abort(). *)
Definition bit_bound (radix len : Z) : option Z :=
  if radix =? 2 then Some len
  else if radix =? 8 then Some (len * 3)
  else if radix =? 10 then Some (len * 27 / 8)
  else if radix =? 16 then Some (len * 4)
  else None.

(** numbers.c 908-1000 rep_parse_number, case 0 (integers), GMP build.
    [Ok] a number, [BadArg] not a number (NULL), [Crash] abort(). *)
Definition parse_number (buf : list Z) (radix sign : Z) : res :=
  match buf with
  | [] => BadArg
  | _ =>
    match bit_bound radix (Z.of_nat (length buf)) with
    | None => Crash
    | Some bits =>
      if bits <? int_bits then
        match parse_fix radix buf 0 with
        | None => BadArg
        | Some v => Ok (if 0 <? sign then make_int v else make_int (wrap64 (v * -1)))
        end
      else
        match mpz_set_str radix buf 0 with
        | None => BadArg
        | Some z => Ok (maybe_demote (Big (if sign <? 0 then - z else z)))
        end
    end
  end.

(** numbers.c 2807-2890 Fstring_to_number for strings without '#', '/', '.',
    and, in radix 10, without 'e' (other notations are not modelled). *)
Definition string_to_number (s : list Z) (radix : Z) : res :=
  match s with
  | 45 :: s' => parse_number s' radix (-1)
  | 43 :: s' => parse_number s' radix 1
  | _ => parse_number s radix 1
  end.
