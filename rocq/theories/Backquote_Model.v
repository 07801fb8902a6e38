(* Model of the backquote macro (lisp/rep/lang/backquote.jl:49-175) and of the functions its expansions call
   (src/lispcmds.c: quote 96-107, car cdr 122-147, list list* 149-187, append 205-239, nth 454-475).

   Interrupts and circular lists are not modelled.  rep's () is not a symbol. *)
From Coq Require Import List Bool Arith ZArith.
Import ListNotations.

(* the symbols named in the code, and others *)
Inductive sym := Quote | SList | SCons | SListStar | SAppend | SVector | SVconcat | SApply | SFunction
  | SBackquote | SUnquote | SSplice | User (n : nat).
Definition sym_eq_dec : forall a b : sym, {a = b} + {a <> b}.
Proof. decide equality. apply Nat.eq_dec. Defined.
Inductive sexp := Nil | Sym (s : sym) | Num (z : Z) | Cons (a d : sexp) | Vec (l : list sexp).

Definition car (x : sexp) : sexp := match x with Cons a _ => a | _ => Nil end.
Definition cdr (x : sexp) : sexp := match x with Cons _ d => d | _ => Nil end.
Definition consp (x : sexp) : bool := match x with Cons _ _ => true | _ => false end.
(* eq with a symbol *)
Definition is (s : sym) (x : sexp) : bool := match x with Sym t => if sym_eq_dec s t then true else false | _ => false end.
Definition nonnil (x : sexp) : bool := match x with Nil => false | _ => true end.
Definition nth1 (x : sexp) : sexp := car (cdr x).
(* a list of elements *)
Fixpoint mklist (l : list sexp) : sexp := match l with [] => Nil | x :: l => Cons x (mklist l) end.
Definition quoted (x : sexp) : sexp := mklist [Sym Quote; x].

(* (TAG . FORM) *)
Definition tagged : Type := nat * sexp.

(* backquote-eval, 147-150 *)
Definition backquote_eval (form : sexp) : sexp := if is Quote (car form) then nth1 form else form.

(* backquote-listify, 152-175.  The loop, 157-162; old: whether old-tail is still there *)
Fixpoint listify_loop (lst : list tagged) (old : bool) (heads : list sexp) (tail : sexp) : list sexp * sexp :=
  match lst with
  | [] => (heads, tail)
  | (tag, f) :: lst =>
    if (match heads with [] => false | _ => true end) || old || negb (tag =? 0)
    then listify_loop lst old (f :: heads) tail
    else listify_loop lst old heads (Cons (backquote_eval f) tail)
  end.
Definition listify (lst : list tagged) (old_tail : tagged) : sexp :=
  let (tag, t) := old_tail in
  let old := negb (tag =? 0) in
  let (heads, tail) := listify_loop lst old [] (if old then t else backquote_eval t) in
  if nonnil tail then
    let tail := if old then tail else quoted tail in
    match heads with
    | [] => tail
    | h :: hs =>
      let use_star := match hs with [] => consp h && is SSplice (car h) | _ => true end in
      mklist (Sym (if use_star then SListStar else SCons) :: heads ++ [tail])
    end
  else mklist (Sym SList :: heads).

(* backquote-process, 70-140; None: an error.  The loop, 104-123, then 126-140 *)
Section Loop.
Variable proc : sexp -> option tagged.
Variable s : sexp.
Definition finish (rest : sexp) (firstlist lst : list tagged) (lists : list sexp) : option tagged :=
  let lists :=
    if nonnil rest || (match lst with [] => false | _ => true end)
    then option_map (fun p => listify lst p :: lists) (proc rest)
    else Some lists in
  match lists with
  | None => None
  | Some lists =>
    let expression :=
      if (match lists with _ :: _ :: _ => true | _ => false end) || is SSplice (car (hd Nil lists))
      then Cons (Sym SAppend) (mklist (rev lists))
      else hd Nil lists in
    let expression := match firstlist with [] => expression | _ => listify firstlist (1, expression) end in
    if is Quote (car expression) then Some (0, quoted s) else Some (1, expression)
  end.
(* 109-122 *)
Definition add (item : tagged) (firstlist lst : list tagged) (lists : list sexp) : list tagged * list tagged * list sexp :=
  if fst item =? 2 then
    let (firstlist, lst) := match lists with [] => (lst, []) | _ => (firstlist, lst) end in
    let lists := match lst with [] => lists | _ => listify lst (0, Nil) :: lists end in
    (firstlist, [], snd item :: lists)
  else (firstlist, item :: lst, lists).
Fixpoint loop (rest : sexp) (firstlist lst : list tagged) (lists : list sexp) : option tagged :=
  match rest with
  | Cons a d =>
    if is SUnquote a then
      match proc (mklist [Sym SSplice; nth1 rest]) with
      | Some item => let '(firstlist, lst, lists) := add item firstlist lst lists in finish Nil firstlist lst lists
      | None => None
      end
    else
      match proc a with
      | Some item => let '(firstlist, lst, lists) := add item firstlist lst lists in loop d firstlist lst lists
      | None => None
      end
  | _ => finish rest firstlist lst lists
  end.
End Loop.

(* (append s ()) of a vector is an error: append wants lists, except as the last argument *)
Fixpoint process (n : nat) (s : sexp) : option tagged :=
  match n with
  | O => None
  | S n =>
    match s with
    | Vec _ => None
    | Nil => Some (0, Nil)
    | Num z => Some (0, Num z)
    | Sym _ => Some (0, quoted s)
    | Cons a d =>
      if is SUnquote a then Some (1, nth1 s)
      else if is SSplice a then Some (2, nth1 s)
      else if is SBackquote a then
        match process n (nth1 s) with Some (_, f) => process n f | None => None end
      else loop (process n) s s [] [] []
    end
  end.
(* the expansion *)
Definition backquote (n : nat) (s : sexp) : option sexp := option_map snd (process n s).

(* the functions called *)
Fixpoint append2 (x y : sexp) : sexp := match x with Cons a d => Cons a (append2 d y) | _ => y end.
Definition listp (x : sexp) : bool := match x with Nil | Cons _ _ => true | _ => false end.
Fixpoint append (l : list sexp) : option sexp :=
  match l with
  | [] => Some Nil
  | [x] => Some x
  | x :: l => if listp x then option_map (append2 x) (append l) else None
  end.
Fixpoint list_star (l : list sexp) : sexp :=
  match l with
  | [] => Nil
  | [x] => x
  | x :: l => Cons x (list_star l)
  end.
