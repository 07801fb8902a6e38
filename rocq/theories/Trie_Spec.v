(* What a trie is to its users: a set of words. The part of it below a string
   is a view: the words that start with that string, without it. *)
From Coq Require Import List Arith Bool.
Import ListNotations.
From Verif Require Import Trie_Model.

Definition word_dec : forall a b : word, {a = b} + {a <> b} := list_eq_dec Nat.eq_dec.
(* the sets, as lists of the words put in *)
Definition sets := list (list word).
Inductive view := View (k : nat) (prefix : word).

Fixpoint starts (p w : word) : bool :=
  match p, w with
  | [], _ => true
  | x :: p, y :: w => Nat.eqb x y && starts p w
  | _ :: _, [] => false
  end.

Definition put (s : sets) (k : nat) (w : word) : sets := firstn k s ++ (w :: nth k s []) :: skipn (S k) s.
Definition sreg (regs : list (option view)) (n : nat) : option view := nth n regs None.

Inductive sanswer := SDone | SError | SIsTrie (b : bool) | SIsIn (b : bool) | SWords (v : word -> Prop).

Definition sstep (s : sets) (regs : list (option view)) (o : op) : sanswer * sets * option view :=
  match o with
  | Make => (SIsTrie true, s ++ [[]], Some (View (length s) []))
  | Insert t w =>
      match sreg regs t with
      | Some (View k p) => (SDone, put s k (p ++ w), None)
      | None => (SError, s, None)
      end
  (* there is a view at the root, and below every string with which one of the words starts *)
  | StringRef t w =>
      match sreg regs t with
      | Some (View k p) =>
          if match w with [] => true | _ => existsb (starts (p ++ w)) (nth k s []) end
          then (SIsTrie true, s, Some (View k (p ++ w)))
          else (SIsTrie false, s, None)
      | None => (SIsTrie false, s, None)
      end
  | Contains t w =>
      (SIsIn match sreg regs t with
             | Some (View k p) => if in_dec word_dec (p ++ w) (nth k s []) then true else false
             | None => false
             end, s, None)
  | Foreach t =>
      (SWords (fun w => match sreg regs t with
                        | Some (View k p) => In (p ++ w) (nth k s [])
                        | None => False
                        end), s, None)
  end.
Fixpoint srun (s : sets) (regs : list (option view)) (p : list op) : list sanswer :=
  match p with
  | [] => []
  | o :: p => let '(a, s, t) := sstep s regs o in a :: srun s (regs ++ [t]) p
  end.

(* An answer that is right: for foreach, exactly the words of the set,
   each of them once. *)
Definition right (a : answer) (b : sanswer) : Prop :=
  match a, b with
  | Done, SDone => True
  | Error, SError => True
  | IsTrie x, SIsTrie y => x = y
  | IsIn x, SIsIn y => x = y
  | Words (Some l), SWords P => NoDup l /\ forall w, In w l <-> P w
  | _, _ => False
  end.
