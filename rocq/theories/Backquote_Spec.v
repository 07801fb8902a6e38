(* What backquote templates mean (man/lang.texi:4358-4377; backquote.jl:50-62).  Evaluation is any that
   treats quote, list, cons, list*, append, numbers and () as rep does. *)
From Coq Require Import List Bool Arith ZArith.
Import ListNotations.
From Verif Require Import Backquote_Model.

Section Spec.
Variable St : Type.
(* value and new state; None: an error *)
Variable E : St -> sexp -> option (sexp * St).

(* arguments, left to right *)
Fixpoint evals (s : St) (l : list sexp) : option (list sexp * St) :=
  match l with
  | [] => Some ([], s)
  | f :: l =>
    match E s f with
    | Some (v, s) => match evals s l with Some (vs, s) => Some (v :: vs, s) | None => None end
    | None => None
    end
  end.
Record evaluator : Prop := mkE {
  law_nil : forall s, E s Nil = Some (Nil, s);
  law_num : forall s z, E s (Num z) = Some (Num z, s);
  law_quote : forall s x, E s (quoted x) = Some (x, s);
  law_list : forall s l, E s (Cons (Sym SList) (mklist l)) = option_map (fun r => (mklist (fst r), snd r)) (evals s l);
  law_cons : forall s f g, E s (mklist [Sym SCons; f; g]) = option_map (fun r => (list_star (fst r), snd r)) (evals s [f; g]);
  law_star : forall s l, E s (Cons (Sym SListStar) (mklist l)) = option_map (fun r => (list_star (fst r), snd r)) (evals s l);
  law_append : forall s l, E s (Cons (Sym SAppend) (mklist l)) =
    match evals s l with Some (vs, s) => option_map (fun v => (v, s)) (append vs) | None => None end }.

(* Un: nothing is said *)
Inductive res := Ok (v : sexp) (s : St) | Err | Un.
Definition bind (r : res) (k : sexp -> St -> res) : res := match r with Ok v s => k v s | Err => Err | Un => Un end.
Definition eval (s : St) (f : sexp) : res := match E s f with Some (v, s) => Ok v s | None => Err end.

Fixpoint proper (x : sexp) : bool := match x with Nil => true | Cons _ d => proper d | _ => false end.
Definition as_splice (x : sexp) : option sexp :=
  match x with Cons h (Cons f Nil) => if is SSplice h then Some f else None | _ => None end.

(* The value: ,x is that of x; ,@x puts the elements of the list x there; the rest is itself.  Nothing is
   said about nested backquotes and about vectors (for those, see below). *)
Fixpoint inst (s : St) (t : sexp) : res :=
  match t with
  | Nil | Sym _ | Num _ => Ok t s
  | Vec _ => Un
  | Cons a d =>
    if is SUnquote a then match d with Cons f Nil => eval s f | _ => Un end
    else if is SSplice a || is SBackquote a then Un
    else match as_splice a with
    | Some f =>
      match d with
      | Nil => eval s f
      | _ => bind (eval s f) (fun v s => bind (inst s d) (fun w s => if proper v then Ok (append2 v w) s else Un))
      end
    | None => bind (inst s a) (fun v s => bind (inst s d) (fun w s => Ok (Cons v w) s))
    end
  end.
(* vectors work just like lists *)
Definition inst_vector (s : St) (l : list sexp) : res :=
  bind (inst s (mklist l)) (fun v s =>
    (fix elements (x : sexp) (acc : list sexp) : res :=
       match x with Cons a d => elements d (a :: acc) | Nil => Ok (Vec (rev acc)) s | _ => Un end) v []).

Definition agrees (r : res) (o : option (sexp * St)) : Prop :=
  match r with
  | Ok v s => o = Some (v, s)
  | Err => o = None
  | Un => True
  end.
End Spec.

(* No vectors and nested backquotes in the template (,@ only before elements of lists), and no list that is
   just one spliced constant: see C26_quote_refuted.  whole: t is a list, not the rest of one. *)
Fixpoint fine (whole : bool) (t : sexp) : bool :=
  match t with
  | Vec _ => false
  | Cons a d =>
    if is SUnquote a then true
    else
      negb (is SSplice a || is SBackquote a)
      && negb (whole && match as_splice a, d with Some f, Nil => is Quote (car f) | _, _ => false end)
      && (match as_splice a with Some _ => true | None => fine true a end)
      && fine false d
  | _ => true
  end.
Fixpoint size (t : sexp) : nat := match t with Cons a d => S (size a + size d) | _ => 1 end.
