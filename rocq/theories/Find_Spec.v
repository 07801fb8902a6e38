(** What quote-regexp, expand-last-match, string-replace, string-split,
    quote-url and the regexp cache promise: man/lang.texi 9222-9375. *)
From Coq Require Import List ZArith Bool.
From Verif Require Import Regexp_Model Regexp_Spec Find_Model.
Import ListNotations.
Open Scope Z_scope.

(** Characters a .. b-1 of t *)
Definition slice (t : list Z) (a b : Z) : list Z := firstn (Z.to_nat (b - a)) (skipn (Z.to_nat a) t).

(** s is in t at position k, with or without regard to case *)
Definition fold (nocase : bool) (c : Z) : Z := if nocase then upper c else c.
Definition occurs (nocase : bool) (s t : list Z) (k : Z) : Prop :=
  0 <= k /\ k + Z.of_nat (length s) <= Z.of_nat (length t) /\
  map (fold nocase) (slice t k (k + Z.of_nat (length s))) = map (fold nocase) s.

(** Templates of expand-last-match: \0 ... \9 and \\ as documented; & alone,
    not documented, for the whole match *)
Inductive token := Chr (c : Z) | Group (n : nat) | Backslash | Amp.
Definition show_token (x : token) : list Z :=
  match x with Chr c => [c] | Group n => [92; 48 + Z.of_nat n] | Backslash => [92; 92] | Amp => [38] end.
Definition good_token (x : token) : Prop :=
  match x with Chr c => char c /\ c <> 92 /\ c <> 38 | Group n => (n <= 9)%nat | _ => True end.
(** [pos n]: where the n-th parenthesised expression (0: all) was matched *)
Definition token_value (t : list Z) (pos : nat -> option (Z * Z)) (x : token) : list Z :=
  match x with
  | Chr c => [c]
  | Group n => match pos n with Some (a, b) => slice t a b | None => [] end
  | Backslash => [92]
  | Amp => match pos O with Some (a, b) => slice t a b | None => [] end
  end.
(** as the match data have it *)
Definition recorded (sp ep : list (option Z)) (n : nat) : option (Z * Z) :=
  match nth n sp None, nth n ep None with Some a, Some b => Some (a, b) | _, _ => None end.
(** as match-start and match-end report it *)
Definition reported (m : mstate) (n : nat) : option (Z * Z) :=
  match match_start m (Z.of_nat n), match_end m (Z.of_nat n) with
  | Ok (Some a), Ok (Some b) => Some (a, b)
  | _, _ => None
  end.

Section Replaced.
  Variable t : list Z.
  Variable r : regex.
  (** the leftmost match from point on is at k, and its preferred way w *)
  Definition first_match (point k : Z) (w : way) : Prop :=
    point <= k <= Z.of_nat (length t) /\
    (forall k', point <= k' < k -> ways t false (point =? 0) r 1 k' = []) /\
    hd_error (ways t false (point =? 0) r 1 k) = Some w.
  Definition no_match (point : Z) : Prop :=
    forall k, point <= k <= Z.of_nat (length t) -> ways t false (point =? 0) r 1 k = [].

  (** One match after the other replaced *)
  Inductive replaced (v : Z -> way -> list Z) : Z -> list Z -> Prop :=
  | Rest point : no_match point -> replaced v point (slice t point (Z.of_nat (length t)))
  | Next point k w out : first_match point k w -> replaced v (fst w) out ->
      replaced v point (slice t point k ++ v k w ++ out).
  (** What is between the matches *)
  Inductive parted : Z -> list (list Z) -> Prop :=
  | Last point : no_match point -> parted point [slice t point (Z.of_nat (length t))]
  | More point k w parts : first_match point k w -> parted (fst w) parts ->
      parted point (slice t point k :: parts).
End Replaced.

Fixpoint join (s : list Z) (l : list (list Z)) : list Z :=
  match l with [] => [] | [x] => x | x :: l => x ++ s ++ join s l end.

(** Characters quote-url leaves alone: letters, digits and $_.!~*'(),- *)
Definition unreserved (c : Z) : bool :=
  alnum c || existsb (Z.eqb c) [36; 95; 46; 33; 126; 42; 39; 40; 41; 44; 45].
Definition upper_hex (d : Z) : Z := nth (Z.to_nat d) [48; 49; 50; 51; 52; 53; 54; 55; 56; 57; 65; 66; 67; 68; 69; 70] 0.
Definition url_char (c : Z) : list Z :=
  if unreserved c then [c] else [37; upper_hex (c / 16); upper_hex (c mod 16)].

(** Without a cache every use of a regexp compiles its present contents *)
Fixpoint fresh (h : nat -> option (list Z)) (ops : list op) : list (res regexp) :=
  match ops with
  | [] => []
  | New a s :: ops | Change a s :: ops | Write a s :: ops =>
      fresh (fun b => if Nat.eqb b a then Some s else h b) ops
  | Use a :: ops => match h a with Some s => regcomp s :: fresh h ops | None => fresh h ops end
  | Gc live :: ops => fresh (fun b => if live b then h b else None) ops
  | Limit _ :: ops => fresh h ops
  end.
(** Programs use only strings they have *)
Fixpoint sensible (h : nat -> option (list Z)) (ops : list op) : Prop :=
  match ops with
  | [] => True
  | New a s :: ops => sensible (fun b => if Nat.eqb b a then Some s else h b) ops
  | Change a s :: ops | Write a s :: ops => h a <> None /\ sensible (fun b => if Nat.eqb b a then Some s else h b) ops
  | Use a :: ops => h a <> None /\ sensible h ops
  | Gc live :: ops => sensible (fun b => if live b then h b else None) ops
  | Limit _ :: ops => sensible h ops
  end.
(** No output to strings, and no cache limit that the int type takes for 0 *)
Definition careful (o : op) : Prop :=
  match o with Write _ _ => False | Limit n => 0 <= n -> n mod 2 ^ 32 <> 0 | _ => True end.
