(** Model of /repo/lisp/rep/util/base64.jl.

    The input stream is the list of its characters (bytes, as integers), read
    from the front; read-char at its end gives nil and goes on giving nil.  The
    output stream is the list of the characters written.  lsh is ash
    (lang/math.jl 72); the values shifted here stay below 2^24, where ash is
    the shift of Z (theorem C13_ash_partial). *)
From Coq Require Import ZArith List Bool.
Import ListNotations.
Open Scope Z_scope.

(** base64.jl 36-37 mime-base64-alphabet: the character codes *)
Definition alphabet : list Z :=
  [65; 66; 67; 68; 69; 70; 71; 72; 73; 74; 75; 76; 77; 78; 79; 80; 81; 82; 83; 84; 85; 86; 87; 88; 89; 90;
   97; 98; 99; 100; 101; 102; 103; 104; 105; 106; 107; 108; 109; 110; 111; 112; 113; 114; 115; 116; 117;
   118; 119; 120; 121; 122; 48; 49; 50; 51; 52; 53; 54; 55; 56; 57; 43; 47].

(** (aref mime-base64-alphabet i); an index outside the string is an error *)
Definition letter (i : Z) : option Z := if i <? 0 then None else nth_error alphabet (Z.to_nat i).

Definition newline : Z := 10.
Definition pad : Z := 61.

Definition write_all (cs : list (option Z)) : option (list Z) :=
  fold_right (fun c r => match c, r with Some c, Some r => Some (c :: r) | _, _ => None end) (Some []) cs.

(** base64.jl 39-82 base64-encode: one round of the loop takes three characters *)
Fixpoint encode_loop (input : list Z) (col : Z) : option (list Z) :=
  match input with
  | reg1 :: reg2 :: reg3 :: rest =>
    let reg := Z.lor (Z.lor (Z.shiftl reg1 16) (Z.shiftl reg2 8)) reg3 in
    let cs := write_all [letter (Z.shiftr reg 18); letter (Z.land (Z.shiftr reg 12) 63);
                         letter (Z.land (Z.shiftr reg 6) 63); letter (Z.land reg 63)] in
    let col' := col + 4 in
    let brk := 76 <=? col' in
    match cs, encode_loop rest (if brk then 0 else col') with
    | Some cs, Some out => Some (cs ++ (if brk then [newline] else []) ++ out)
    | _, _ => None
    end
  | [reg1; reg2] =>
    let reg := Z.shiftl (Z.lor (Z.shiftl reg1 8) reg2) 2 in
    write_all [letter (Z.shiftr reg 12); letter (Z.land (Z.shiftr reg 6) 63); letter (Z.land reg 63); Some pad;
               Some newline]
  | [reg1] =>
    let reg := Z.shiftl reg1 4 in
    write_all [letter (Z.shiftr reg 6); letter (Z.land reg 63); Some pad; Some pad; Some newline]
  | [] => Some [newline]
  end.
Definition encode (input : list Z) : option (list Z) := encode_loop input 0.

(** base64.jl 89-100: the value of a character *)
Definition char_value (c : Z) : option Z :=
  if (65 <=? c) && (c <=? 90) then Some (c - 65)
  else if (97 <=? c) && (c <=? 122) then Some (26 + (c - 97))
  else if (48 <=? c) && (c <=? 57) then Some (52 + (c - 48))
  else if c =? 43 then Some 62
  else if c =? 47 then Some 63
  else None.

(** base64.jl 104-108: the inner loop; its budget is the number of bits *)
Fixpoint flush (fuel : nat) (reg bits : Z) : Z * Z * list Z :=
  match fuel with
  | O => (reg, bits, [])
  | S fuel' =>
    if 8 <=? bits then
      let char := Z.shiftl reg (8 - bits) in
      let reg' := Z.lxor reg (Z.shiftl char (bits - 8)) in
      let '(reg'', bits'', out) := flush fuel' reg' (bits - 8) in
      (reg'', bits'', char :: out)
    else (reg, bits, [])
  end.

(** base64.jl 84-108 base64-decode *)
Fixpoint decode_loop (input : list Z) (reg bits : Z) : list Z :=
  match input with
  | [] => []
  | c :: rest =>
    let '(reg1, bits1) := match char_value c with
                          | Some v => (Z.lor (Z.shiftl reg 6) v, bits + 6)
                          | None => (reg, bits)
                          end in
    let '(reg2, bits2, out) := flush (Z.to_nat bits1) reg1 bits1 in
    out ++ decode_loop rest reg2 bits2
  end.
Definition decode (input : list Z) : list Z := decode_loop input 0 0.
