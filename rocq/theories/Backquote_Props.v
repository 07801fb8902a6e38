(* C26: backquote templates. *)
From Coq Require Import List Bool Arith ZArith Lia.
Import ListNotations.
From Verif Require Import Backquote_Model Backquote_Spec Backquote_Proofs.

(* The expansion of a template has the value of the template, for any template without vectors and nested
   backquotes: elements and rests of lists, in order, evaluated from left to right, each once; an error in
   one is an error of the whole.  Missing: vectors (refuted below), nested backquotes, and lists that are
   one spliced constant (refuted below). *)
Theorem C26_template_partial : forall St E, evaluator St E -> forall n t, size t < n -> fine true t = true ->
  exists f, backquote n t = Some f /\ forall s, agrees St (inst St E s t) (E s f).
Proof. intros St E HE. exact (backquote_ok St E HE). Qed.
Print Assumptions C26_template_partial.

(* `(,@'(a b)) is not (a b), but the template itself. *)
Definition sy (n : nat) : sexp := Sym (User n).
Definition unquote (x : sexp) : sexp := mklist [Sym SUnquote; x].
Definition splice (x : sexp) : sexp := mklist [Sym SSplice; x].
Theorem C26_quote_refuted : exists t v, v <> t /\ forall St E, evaluator St E -> forall s,
  inst St E s t = Ok St v s
  /\ exists f, backquote 5 t = Some f /\ E s f = Some (t, s).
Proof.
  exists (mklist [splice (quoted (mklist [sy 0; sy 1]))]), (mklist [sy 0; sy 1]). split; [discriminate |].
  intros St E HE s. split.
  - change (eval St E s (quoted (mklist [sy 0; sy 1])) = Ok St (mklist [sy 0; sy 1]) s). unfold eval. rewrite (law_quote _ _ HE). reflexivity.
  - eexists. split; [reflexivity |]. apply (law_quote _ _ HE).
Qed.
Print Assumptions C26_quote_refuted.

(* Vectors do not work like lists: no vector in a template is expanded, even a constant one. *)
Lemma vector_none : forall n l, process n (Vec l) = None.
Proof. destruct n; reflexivity. Qed.
Theorem C26_vector_refuted : exists l v, (forall St E, evaluator St E -> forall s, inst_vector St E s l = Ok St v s)
  /\ (forall n, backquote n (Vec l) = None) /\ (forall n, backquote n (mklist [Num 0; Vec l]) = None).
Proof.
  exists [Num 1; Num 2], (Vec [Num 1; Num 2]). split; [reflexivity |]. split.
  - intros n. unfold backquote. rewrite vector_none. reflexivity.
  - intros [| n]; [reflexivity |]. unfold backquote. destruct n as [| n]; reflexivity.
Qed.
Print Assumptions C26_vector_refuted.

(* --- an evaluator --- *)

(* x is (1 2), (next) counts, every other symbol or function is void *)
Definition next (s : nat) : option (sexp * nat) := Some (Num (Z.of_nat s), S s).
Fixpoint ev2 (t : sexp) : (nat -> option (sexp * nat)) * (nat -> option (list sexp * nat)) :=
  match t with
  | Nil => (fun s => Some (Nil, s), fun s => Some ([], s))
  | Num z => (fun s => Some (Num z, s), fun s => Some ([], s))
  | Vec l => (fun s => Some (Vec l, s), fun s => Some ([], s))
  | Sym x => (fun s => if sym_eq_dec x (User 0) then Some (mklist [Num 1; Num 2], s) else None, fun s => Some ([], s))
  | Cons a d =>
    (fun s =>
       match a with
       | Sym Quote => Some (car d, s)
       | Sym SList => option_map (fun r => (mklist (fst r), snd r)) (snd (ev2 d) s)
       | Sym SListStar => option_map (fun r => (list_star (fst r), snd r)) (snd (ev2 d) s)
       | Sym SCons => option_map (fun r => (list_star (fst r), snd r)) (snd (ev2 d) s)
       | Sym SAppend => match snd (ev2 d) s with Some (vs, s) => option_map (fun v => (v, s)) (append vs) | None => None end
       | Sym (User 1) => next s
       | _ => None
       end,
     fun s =>
       match fst (ev2 a) s with
       | Some (v, s) => match snd (ev2 d) s with Some (vs, s) => Some (v :: vs, s) | None => None end
       | None => None
       end)
  end.
Definition ev (s : nat) (f : sexp) : option (sexp * nat) := fst (ev2 f) s.
Example ev_evaluator : evaluator nat ev.
Proof.
  assert (A : forall l s, snd (ev2 (mklist l)) s = evals nat ev s l).
  { induction l as [| f l IH]; intros s; [reflexivity |]. cbn [mklist ev2 snd evals]. unfold ev at 1. destruct (fst (ev2 f) s) as [[v s1] |]; [| reflexivity]. rewrite IH. reflexivity. }
  constructor; intros; try reflexivity; unfold ev at 1; cbn [ev2 fst].
  all: rewrite A; reflexivity.
Qed.

(* `(5 ,(next) ,@x (,(next) . ,x) ,@(list (next)) z . ,(next)) *)
Definition nx : sexp := mklist [sy 1].
Definition tmpl : sexp :=
  Cons (Num 5) (Cons (unquote nx) (Cons (splice (sy 0)) (Cons (Cons (unquote nx) (unquote (sy 0)))
    (Cons (splice (mklist [Sym SList; nx])) (Cons (sy 9) (unquote nx)))))).
Example tmpl_fine : fine true tmpl = true /\ size tmpl < 100.
Proof. split; [reflexivity | apply Nat.ltb_lt; reflexivity]. Qed.
Example tmpl_value : inst nat ev 10 tmpl =
  Ok nat (Cons (Num 5) (Cons (Num 10) (Cons (Num 1) (Cons (Num 2) (Cons (mklist [Num 11; Num 1; Num 2])
    (Cons (Num 12) (Cons (sy 9) (Num 13)))))))) 14.
Proof. reflexivity. Qed.
(* (list* 5 (next) (append x (list (cons (next) x)) (list (next)) '(z) (next))) *)
Example tmpl_expansion : backquote 100 tmpl = Some
  (mklist [Sym SListStar; Num 5; nx;
     mklist [Sym SAppend; sy 0; mklist [Sym SList; mklist [Sym SCons; nx; sy 0]]; mklist [Sym SList; nx]; quoted (mklist [sy 9]); nx]]).
Proof. reflexivity. Qed.
Example tmpl_error : inst nat ev 0 (mklist [unquote nx; unquote (sy 7)]) = Err nat.
Proof. reflexivity. Qed.
Example constant : backquote 9 (mklist [sy 3; Nil; mklist [sy 4]]) = Some (quoted (mklist [sy 3; Nil; mklist [sy 4]])).
Proof. reflexivity. Qed.
(* a nested template: ``(a ,,x) is (list 'list ''a x) *)
Example nested : backquote 50 (mklist [Sym SBackquote; mklist [sy 3; unquote (unquote (sy 0))]])
  = Some (mklist [Sym SList; quoted (Sym SList); quoted (quoted (sy 3)); sy 0]).
Proof. reflexivity. Qed.
