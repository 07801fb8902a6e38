(** Where a form was read, told from what has happened. *)
From Coq Require Import ZArith List Bool Arith.
From Verif Require Import Origins_Model.
Import ListNotations.

(** What was last said about the cell with this address, since it was last
    given out. *)
Definition now_said (said : nat -> option origin) (o : op) : nat -> option origin :=
  match o with
  | Cons p _ _ => fun q => if q =? p then None else said q
  | Record_ true (Ptr p) (mk_stream true false nm ln) start =>
      fun q => if q =? p then Some (nm, if Z.ltb 0 start then start else ln) else said q
  | _ => said
  end.
Definition said_by (l : list op) : nat -> option origin := fold_left now_said l (fun _ => None).

(** A form as a tree of cells *)
Inductive form := FSym (n : nat) | FCons (p : nat) (a d : form).
Fixpoint is_form (s : state) (v : val) (t : form) : Prop :=
  match t with
  | FSym n => v = Sym n
  | FCons p a d => v = Ptr p /\ own s p = true /\ is_form s (fst (mem s p)) a /\ is_form s (snd (mem s p)) d
  end.

(** The origin of a form: what was said about it, or else about the first of its
    elements that has an origin. *)
Fixpoint form_origin (said : nat -> option origin) (t : form) : option origin :=
  match t with
  | FSym _ => None
  | FCons p a d =>
    match said p with
    | Some o => Some o
    | None =>
      match form_origin said a with
      | Some o => Some o
      | None => (fix elements (t : form) : option origin :=
                   match t with
                   | FSym _ => None
                   | FCons _ a' d' => match form_origin said a' with Some o => Some o | None => elements d' end
                   end) d
      end
    end
  end.

Fixpoint size (t : form) : nat := match t with FSym _ => 1 | FCons _ a d => S (size a + size d) end.
