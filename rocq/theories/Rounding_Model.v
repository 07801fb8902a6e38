(** Rounding of exact numbers, their parts, abs and lcm: src/numbers.c
    2237-2361, 2567-2584, 2725-2779 with rationalize 2661-2682, and
    lisp/rep/lang/math.jl 52-69 (GMP build, LP64).

    A double is a pair: (m, e) stands for m * 2^e.  Rationals are converted to
    doubles by mpq_get_d, which truncates towards zero to 53 bits, and to
    multiples of 2^-1074; an exponent that is too great for a double does not
    matter here since the result does not fit in a long either. *)
From Coq Require Import ZArith QArith List Bool.
From Verif Require Import Numbers_Model.
Import ListNotations.
Open Scope Z_scope.

Definition dbl : Type := Z * Z.

(** 2^e for e >= 0, and 2^-e for e <= 0 *)
Definition up (e : Z) : Z := 2 ^ Z.max 0 e.
Definition down (e : Z) : Z := 2 ^ Z.max 0 (- e).

(** The exponent of the leading bit of n/d, for n and d > 0 *)
Definition qlog2 (n d : Z) : Z :=
  let l := Z.log2 n - Z.log2 d in
  if n * down l <? d * up l then l - 1 else l.

(** GMP mpq_get_d *)
Definition mpq_get_d (q : Q) : dbl :=
  let n := Z.abs (Qnum q) in
  let d := Zpos (Qden q) in
  if n =? 0 then (0, 0)
  else
    let e := Z.max (qlog2 n d - 52) (-1074) in
    (Z.sgn (Qnum q) * ((n * down e) / (d * up e)), e).

(** floor and ceil of the C library: exact *)
Definition dfloor (x : dbl) : Z := let '(m, e) := x in (m * up e) / down e.
Definition dceil (x : dbl) : Z := let '(m, e) := x in - ((- m * up e) / down e).
(** x == floor (x) *)
Definition integral (x : dbl) : bool := let '(m, e) := x in (m * up e) mod down e =? 0.
(** x / 2 *)
Definition half (x : dbl) : dbl := let '(m, e) := x in (m, e - 1).
(** The double nearest to m * 2^e; of two that are as near the even one *)
Definition rne (m e : Z) : dbl :=
  let b := Z.log2 (Z.abs m) + 1 - 53 in
  if b <=? 0 then (m, e)
  else
    let s := 2 ^ b in
    let k := Z.abs m / s in
    let r := Z.abs m mod s in
    let k := if 2 * r <? s then k else if s <? 2 * r then k + 1 else if Z.even k then k else k + 1 in
    (Z.sgn m * k, e + b).
(** d + 0.5 *)
Definition plus_half (x : dbl) : dbl :=
  let '(m, e) := x in rne (2 * (m * up e) + down e) (-1 - Z.max 0 (- e)).

(** (long) of a double that is an integer, and rep_make_long_int *)
Definition to_long (z : Z) : res :=
  if (- 2 ^ 63 <=? z) && (z <? 2 ^ 63) then Ok (make_long_int z) else Undef.

(** 2237-2261 *)
Definition floor (x : num) : res :=
  match x with
  | Rat q => to_long (dfloor (mpq_get_d q))
  | _ => Ok x
  end.
(** 2263-2287 *)
Definition ceiling (x : num) : res :=
  match x with
  | Rat q => to_long (dceil (mpq_get_d q))
  | _ => Ok x
  end.
(** 2289-2321 *)
Definition truncate (x : num) : res :=
  match x with
  | Rat q =>
      let '(m, e) := mpq_get_d q in
      to_long (if m <? 0 then - dfloor (- m, e) else dfloor (m, e))
  | _ => Ok x
  end.
(** 2323-2361 *)
Definition round (x : num) : res :=
  match x with
  | Rat q =>
      let ph := plus_half (mpq_get_d q) in
      let result := dfloor ph in
      to_long (if integral ph && negb (integral (half ph)) then result - 1 else result)
  | _ => Ok x
  end.

(** What numerator and denominator can do besides giving an exact number *)
Inductive part := Exact (n : num) | Float | Dies.

(** GMP mpz_get_d truncates; frexp then makes it a fraction: the 53 bits of
    the mantissa, and the exponent of frexp.  For |z| >= 2^53 *)
Definition mpz_mantissa (z : Z) : Z := Z.sgn z * (Z.abs z / 2 ^ (Z.log2 (Z.abs z) - 52)).
(** 2661-2682: x is m * 2^(k-53) after k turns; the test x - floor (x) > 2^-52 *)
Fixpoint rationalize (fuel : nat) (m k : Z) : Z :=
  match fuel with
  | O => k
  | S fuel => if 2 <? m mod 2 ^ (53 - k) * 2 ^ k then rationalize fuel m (k + 1) else k
  end.

(** 2725-2752.  rep_NUMBER_RATIONAL_P reads the cell of its argument, and a
    fixnum is none *)
Definition numerator (x : num) : part :=
  match x with
  | Rat q => Exact (maybe_demote (Big (Qnum q)))
  | Fix _ => Dies
  | Big z =>
      let m := mpz_mantissa z in
      let k := rationalize 53 m 0 in
      if m mod 2 ^ (53 - k) =? 0 then Exact (make_long_int (m / 2 ^ (53 - k))) else Float
  end.
(** 2754-2781; y is 2^(k - exponent) *)
Definition denominator (x : num) : part :=
  match x with
  | Rat q => Exact (maybe_demote (Big (Zpos (Qden q))))
  | Fix _ => Dies
  | Big z =>
      let k := rationalize 53 (mpz_mantissa z) 0 in
      let p := k - (Z.log2 (Z.abs z) + 1) in
      if 0 <=? p then Exact (make_long_int (2 ^ p)) else Float
  end.

(** math.jl 60-62: (max x (- x)) *)
Definition abs (x : num) : res :=
  match number_neg x with
  | Ok y => Ok (number_max x y)
  | e => e
  end.
(** numbers.c 2567-2584; the arguments are integers *)
Definition Fgcd (l : list num) : res :=
  match l with
  | [] => Ok (make_int 0)
  | [a] => integer_gcd a a
  | a :: l => number_foldv integer_gcd a l
  end.
Fixpoint map_abs (l : list num) : option (list num) :=
  match l with
  | [] => Some []
  | a :: l => match abs a, map_abs l with Ok b, Some l => Some (b :: l) | _, _ => None end
  end.
(** math.jl 64-68 *)
Definition lcm (l : list num) : res :=
  match l with
  | [] => Ok (make_int 1)
  | _ =>
      match map_abs l with
      | Some la =>
          match Fproduct la, Fgcd l with
          | Ok p, Ok g => quotient p g
          | Ok _, e => e
          | e, _ => e
          end
      | None => BadArg
      end
  end.
(** math.jl 50-58 *)
Definition evenp (x : num) : option bool :=
  match modulo x (make_int 2) with Ok r => Some (zerop r) | _ => None end.
Definition oddp (x : num) : option bool :=
  match evenp x with Some b => Some (negb b) | None => None end.
