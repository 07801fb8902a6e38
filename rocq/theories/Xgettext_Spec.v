(** How a file of messages is read, and what should be in it *)

From Coq Require Import ZArith List Bool.
From Verif Require Import Xgettext_Model.
Import ListNotations.
Open Scope Z_scope.

(** Strings in the notation of C, each on its line, are put together. Inside quotes a
    line must not end *)
Definition unescape (e : Z) : option Z :=
  if e =? 110 then Some 10 else if e =? 116 then Some 9 else if e =? 114 then Some 13
  else if e =? 102 then Some 12 else if e =? 92 then Some 92 else if e =? 34 then Some 34 else None.
Definition put (c : Z) (r : option (list Z * list Z)) : option (list Z * list Z) :=
  match r with Some (s, t) => Some (c :: s, t) | None => None end.
Fixpoint read_inside (fuel : nat) (t : list Z) : option (list Z * list Z) :=
  match fuel with
  | O => None
  | S fuel =>
      match t with
      | [] => None
      | 34 :: 10 :: 34 :: r => read_inside fuel r
      | 34 :: r => Some ([], r)
      | 92 :: e :: r => match unescape e with Some c => put c (read_inside fuel r) | None => None end
      | 10 :: _ => None
      | c :: r => put c (read_inside fuel r)
      end
  end.
Definition read_message (t : list Z) : option (list Z * list Z) :=
  match t with 34 :: r => read_inside (length t) r | _ => None end.
(** q is the message s, when a line end and no other string come behind it *)
Definition means (q s : list Z) : Prop :=
  forall rest, hd 0 rest <> 34 -> read_message (q ++ 10 :: rest) = Some (s, 10 :: rest).

(** A file of messages with the files where they are *)
Inductive messages : list Z -> list (list Z * list (list Z)) -> Prop :=
| Ms_nil : messages [] []
| Ms_entry s fs q t l : means q s -> messages t l ->
    messages (concat (map (fun f => [35; 58; 32] ++ f ++ [32; 10]) fs) ++ [109; 115; 103; 105; 100; 32] ++ q
              ++ [10; 109; 115; 103; 115; 116; 114; 32; 34; 34; 10; 10] ++ t) ((s, fs) :: l).

(** Each once, in the order of the first occurrences *)
Fixpoint firsts (l : list (list Z)) : list (list Z) :=
  match l with
  | [] => []
  | x :: l => x :: filter (fun y => if bytes_dec y x then false else true) (firsts l)
  end.
(** The files in which a string is *)
Definition files_of (s : list Z) (regs : list (list Z * list Z)) : list (list Z) :=
  map fst (filter (fun r => if bytes_dec (snd r) s then true else false) regs).
(** Each string once; with it its files, each once, the last one first *)
Definition expected (regs : list (list Z * list Z)) : list (list Z * list (list Z)) :=
  map (fun s => (s, rev (firsts (files_of s regs)))) (firsts (map snd regs)).
