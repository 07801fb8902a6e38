(** What arrays, strings, their order and their completion are. *)
From Coq Require Import ZArith List.
From Verif Require Import Strings_Model.
Import ListNotations.
Open Scope Z_scope.

(** * Arrays *)

(** The elements of an array: characters are integers *)
Definition elements (h : heap) (v : val) : list val :=
  match v with
  | VStr p => map VInt (s_bytes (get_str h p))
  | VVec p => v_slots (get_vec h p)
  | _ => []
  end.
Definition text (h : heap) (p : nat) : list Z := s_bytes (get_str h p).
Definition constant (h : heap) (v : val) : bool :=
  match v with VStr p => s_const (get_str h p) | VVec p => v_const (get_vec h p) | _ => true end.
Definition live (h : heap) (v : val) : Prop :=
  match v with VStr p => (p < length (strs h))%nat | VVec p => (p < length (vecs h))%nat | _ => True end.
Definition byte (c : Z) : Prop := 0 <= c <= 255.

(** Headers tell the number of slots, characters are bytes, and the empty
    string is where it has to be.  Strings have less than 2^56 characters. *)
Definition sound (h : heap) : Prop :=
  (exists l, strs h = mkstr [] true :: l) /\
  Forall (fun s => Forall byte (s_bytes s) /\ zlen (s_bytes s) < 2 ^ 56) (strs h) /\
  Forall (fun v => v_len v = zlen (v_slots v)) (vecs h).

(** Nothing that was there has changed *)
Definition kept (h h' : heap) : Prop :=
  (forall p, (p < length (strs h))%nat -> get_str h' p = get_str h p) /\
  (forall p, (p < length (vecs h))%nat -> get_vec h' p = get_vec h p).
(** r is a new array with these elements, everything else is as before *)
Definition fresh (h : heap) (r : res * heap) (v : val) (l : list val) : Prop :=
  fst r = Ret v /\ ~ live h v /\ live (snd r) v /\ arrayp v = true /\
  elements (snd r) v = l /\ kept h (snd r) /\ sound (snd r).
Definition fresh_string (h : heap) (r : res * heap) (b : list Z) : Prop :=
  exists p, fresh h r (VStr p) (map VInt b) /\ text (snd r) p = b /\ constant (snd r) (VStr p) = false.

(** What an array keeps of a value: strings the low byte *)
Definition kept_value (a v : val) : val := match a, v with VStr _, VInt c => VInt (c mod 256) | _, _ => v end.

(** When aset can be done *)
Definition settable (h : heap) (a : val) (i : Z) (v : val) : Prop :=
  arrayp a = true /\ constant h a = false /\ 0 <= i < zlen (elements h a) /\ (match a with VStr _ => exists c, v = VInt c | _ => True end).

(** A history of (array, index, value) given to aset, the oldest first: what
    the last one said about an element, or what was there *)
Fixpoint last_said (hist : list (val * Z * val)) (a : val) (i : Z) (before : option val) : option val :=
  match hist with
  | [] => before
  | (b, j, v) :: rest =>
      last_said rest a i
        (match a, b with
         | VStr p, VStr q | VVec p, VVec q => if (Nat.eqb p q && (i =? j))%bool then Some (kept_value b v) else before
         | _, _ => before
         end)
  end.
(** An element as aref gives it *)
Definition element (h : heap) (a : val) (i : Z) : option val := match aref h a (VInt i) with Ret v => Some v | _ => None end.

(** Calling aset for each of them, each call successful *)
Fixpoint do_all (h : heap) (hist : list (val * Z * val)) : option heap :=
  match hist with
  | [] => Some h
  | (a, i, v) :: rest => match aset h a (VInt i) v with (Ret _, h') => do_all h' rest | _ => None end
  end.

(** * Strings *)

(** The characters among values *)
Inductive letters : list val -> list Z -> Prop :=
| L_none : letters [] []
| L_char c l b : letters l b -> letters (VInt c :: l) (c mod 256 :: b)
| L_other v l b : (forall c, v <> VInt c) -> letters l b -> letters (v :: l) b.
(** The characters of a value, as concat takes it *)
Inductive spelled (h : heap) : val -> list Z -> Prop :=
| Sp_char c : spelled h (VInt c) [c mod 256]
| Sp_string p : spelled h (VStr p) (text h p)
| Sp_vector p b : v_compiled (get_vec h p) = false -> letters (v_slots (get_vec h p)) b -> spelled h (VVec p) b
| Sp_code p : v_compiled (get_vec h p) = true -> spelled h (VVec p) []
| Sp_list l b : letters l b -> spelled h (VList l) b
| Sp_other i : spelled h (VOther i) [].

(** How much there is to concatenate *)
Definition size (h : heap) (v : val) : Z :=
  match v with VInt _ => 1 | VList l => zlen l | _ => zlen (elements h v) end.
Definition sizes (h : heap) (l : list val) : Z := fold_right (fun v n => size h v + n) 0 l.
(** r is a string of these characters; it is new unless it is empty *)
Definition string_of (h : heap) (r : res * heap) (b : list Z) : Prop :=
  exists p, fst r = Ret (VStr p) /\ text (snd r) p = b /\ live (snd r) (VStr p) /\ kept h (snd r) /\ sound (snd r) /\
    (b <> [] -> fresh_string h r b).

Fixpoint intercalate (sep : list Z) (l : list (list Z)) : list Z :=
  match l with [] => [] | [x] => x | x :: l => x ++ sep ++ intercalate sep l end.

(** Values with a separator between each two *)
Fixpoint between (sep : val) (l : list val) : list val :=
  match l with [] => [] | [x] => [x] | x :: l => x :: sep :: between sep l end.
(** The elements of a list, string or vector *)
Definition items (h : heap) (v : val) : list val := match v with VList l => l | _ => elements h v end.
Definition sequence (v : val) : Prop := match v with VList _ | VStr _ | VVec _ => True | _ => False end.

Definition prefix_of {A} (a b : list A) : Prop := exists r, b = a ++ r.

(** Dictionary order *)
Inductive lex : list Z -> list Z -> Prop :=
| Lex_end y b : lex [] (y :: b)
| Lex_here x y a b : x < y -> lex (x :: a) (y :: b)
| Lex_later x a b : lex a b -> lex (x :: a) (x :: b).

(** Strings of C end before the first zero *)
Fixpoint until_zero (s : list Z) : list Z :=
  match s with [] => [] | c :: s => if c =? 0 then [] else c :: until_zero s end.
(** Letters of the ASCII alphabet *)
Definition upper (c : Z) : Z := if ((97 <=? c) && (c <=? 122))%bool then c - 32 else c.
Definition lower (c : Z) : Z := if ((65 <=? c) && (c <=? 90))%bool then c + 32 else c.
Definition ascii (c : Z) : Prop := 1 <= c <= 127.
Definition no_zero (s : list Z) : Prop := Forall (fun c => byte c /\ c <> 0) s.
(** The C library on ASCII *)
Definition upper_library (f : Z -> Z) : Prop := forall c, 0 <= c <= 127 -> f c = upper c.
Definition lower_library (f : Z -> Z) : Prop := forall c, 0 <= c <= 127 -> f c = lower c.

(** The strings of a list *)
Definition strings (h : heap) (l : list val) : list (list Z) :=
  flat_map (fun v => match v with VStr p => [text h p] | _ => [] end) l.
(** Equal up to case, if [fold] *)
Definition key (fold : bool) (s : list Z) : list Z := if fold then map lower s else s.
(** No zero bytes; letter case is known for ASCII only *)
Definition plain (fold : bool) (s : list Z) : Prop := no_zero s /\ (fold = true -> Forall ascii s).
(** b completes orig: as much of the first match as all matches begin with *)
Definition completes (fold : bool) (orig : list Z) (l : list (list Z)) (b : list Z) : Prop :=
  exists l1 first l2, l = l1 ++ first :: l2 /\
    (forall t, In t l1 -> ~ prefix_of (key fold orig) (key fold t)) /\
    prefix_of (key fold orig) (key fold first) /\
    prefix_of b first /\ prefix_of (key fold orig) (key fold b) /\
    (forall t, In t l -> prefix_of (key fold orig) (key fold t) -> prefix_of (key fold b) (key fold t)) /\
    (forall b', prefix_of b' first ->
       (forall t, In t l -> prefix_of (key fold orig) (key fold t) -> prefix_of (key fold b') (key fold t)) ->
       (length b' <= length b)%nat).

(** A character after translation by a table *)
Definition translated (table : list Z) (c : Z) : Z := nth (Z.to_nat c) table c.
