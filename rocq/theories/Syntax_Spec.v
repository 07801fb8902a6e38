(** What the syntax means, without expansions: each construct in terms of the
    evaluation of the forms in it. *)
From Coq Require Import String ZArith List Bool Arith.
From Verif Require Import Syntax_Model.
Import ListNotations.

(** The standard names have no local bindings. *)
Definition plain (e : env) : Prop := forall x, std x <> None -> lookup e x = None.
(** A name for a variable *)
Definition variable (x : sexp) : Prop := symbolp x = true /\ std x = None.

Section Spec.
  Variable world : Type.
  Variable call_prim : nat -> list value -> world -> world * (sexp + sexp).
  Notation state := (state world).

  (** Evaluating a form, and a list of forms for the last value *)
  Definition ev (e : env) (s : state) (f : sexp) (s' : state) (r : res) : Prop :=
    exists n, eval call_prim n e s f = Some (s', r).
  Definition evs (e : env) (s : state) (fs : sexp) (s' : state) (r : res) : Prop :=
    exists n, progn call_prim n e s fs = Some (s', r).

  (** [new e s x v]: a new place for the variable [x], holding [v] *)
  Definition here (s : state) : nat := length (store s).
  Definition push (s : state) (vs : list value) : state := set_store s (store s ++ vs).
  Fixpoint names (e : env) (k : nat) (xs : list sexp) : env :=
    match xs with [] => e | x :: xs' => names ((x, k) :: e) (S k) xs' end.

  (** ** Conditionals *)
  Inductive if_means (e : env) (s : state) (c a b : sexp) : state -> res -> Prop :=
  | If_exit : forall s1 x, ev e s c s1 (Exit x) -> if_means e s c a b s1 (Exit x)
  | If_true : forall s1 v s2 r, ev e s c s1 (Ret v) -> nilp v = false -> ev e s1 a s2 r -> if_means e s c a b s2 r
  | If_false : forall s1 v s2 r, ev e s c s1 (Ret v) -> nilp v = true -> evs e s1 b s2 r -> if_means e s c a b s2 r.

  Inductive or_means (e : env) : state -> list sexp -> state -> res -> Prop :=
  | Or_none : forall s, or_means e s [] s (Ret (VAtom Nil))
  | Or_exit : forall s a l s1 x, ev e s a s1 (Exit x) -> or_means e s (a :: l) s1 (Exit x)
  | Or_true : forall s a l s1 v, ev e s a s1 (Ret v) -> nilp v = false -> or_means e s (a :: l) s1 (Ret v)
  | Or_next : forall s a l s1 v s2 r, ev e s a s1 (Ret v) -> nilp v = true ->
      or_means e s1 l s2 r -> or_means e s (a :: l) s2 r.

  Inductive and_means (e : env) : state -> list sexp -> state -> res -> Prop :=
  | And_none : forall s, and_means e s [] s (Ret (VAtom (Sym "t")))
  | And_exit : forall s a l s1 x, ev e s a s1 (Exit x) -> and_means e s (a :: l) s1 (Exit x)
  | And_false : forall s a l s1 v, ev e s a s1 (Ret v) -> nilp v = true -> and_means e s (a :: l) s1 (Ret v)
  | And_last : forall s a s1 v, ev e s a s1 (Ret v) -> and_means e s [a] s1 (Ret v)
  | And_next : forall s a b l s1 v s2 r, ev e s a s1 (Ret v) -> nilp v = false ->
      and_means e s1 (b :: l) s2 r -> and_means e s (a :: b :: l) s2 r.

  (** ** Bindings: a variable, and the forms for its value or nothing *)
  Definition binding := (sexp * option sexp)%type.
  Definition binding_form (b : binding) : sexp :=
    match snd b with Some fs => Cons (fst b) fs | None => fst b end.
  Definition init (e : env) (s : state) (b : binding) (s' : state) (r : res) : Prop :=
    match snd b with Some fs => evs e s fs s' r | None => s' = s /\ r = Ret (VAtom Nil) end.

  Inductive inits (e : env) : state -> list binding -> state -> (value + list value) -> Prop :=
  | Inits_none : forall s, inits e s [] s (inr [])
  | Inits_exit : forall s b l s1 x, init e s b s1 (Exit x) -> inits e s (b :: l) s1 (inl x)
  | Inits_later : forall s b l s1 v s2 x, init e s b s1 (Ret v) -> inits e s1 l s2 (inl x) -> inits e s (b :: l) s2 (inl x)
  | Inits_value : forall s b l s1 v s2 vs, init e s b s1 (Ret v) -> inits e s1 l s2 (inr vs) -> inits e s (b :: l) s2 (inr (v :: vs)).

  (** let: all values first, in order, then all variables *)
  Inductive let_means (e : env) (s : state) (bs : list binding) (body : sexp) : state -> res -> Prop :=
  | Let_exit : forall s1 x, inits e s bs s1 (inl x) -> let_means e s bs body s1 (Exit x)
  | Let_body : forall s1 vs s2 r, inits e s bs s1 (inr vs) ->
      evs (names e (here s1) (map fst bs)) (push s1 vs) body s2 r -> let_means e s bs body s2 r.

  (** let*: one after the other *)
  Inductive lets_means (body : sexp) : env -> state -> list binding -> state -> res -> Prop :=
  | Lets_body : forall e s s2 r, evs e s body s2 r -> lets_means body e s [] s2 r
  | Lets_exit : forall e s b l s1 x, init e s b s1 (Exit x) -> lets_means body e s (b :: l) s1 (Exit x)
  | Lets_next : forall e s b l s1 v s2 r, init e s b s1 (Ret v) ->
      lets_means body ((fst b, here s1) :: e) (push s1 [v]) l s2 r -> lets_means body e s (b :: l) s2 r.

  (** letrec: the variables first, holding nil; then each is given its value *)
  Inductive sets (e : env) (body : sexp) : state -> list binding -> state -> res -> Prop :=
  | Sets_body : forall s s2 r, evs e s body s2 r -> sets e body s [] s2 r
  | Sets_exit : forall s b l s1 x, init e s b s1 (Exit x) -> sets e body s (b :: l) s1 (Exit x)
  | Sets_next : forall s b l s1 v p s2 r, init e s b s1 (Ret v) -> lookup e (fst b) = Some p ->
      sets e body (set_store s1 (update p v (store s1))) l s2 r -> sets e body s (b :: l) s2 r.
  Definition letrec_means (e : env) (s : state) (bs : list binding) (body : sexp) (s' : state) (r : res) : Prop :=
    sets (names e (here s) (map fst bs)) body (push s (map (fun _ => VAtom Nil) bs)) bs s' r.

  (** named let: a function of the variables, called with the values *)
  Definition named_let_means (e : env) (s : state) (fn : sexp) (bs : list binding) (body : sexp) (s' : state) (r : res) : Prop :=
    let e' := (fn, here s) :: e in
    let_means e' (push s [Clo (Cons (form_list (map fst bs)) body) e']) bs body s' r.

  (** ** case: the items are compared with the key in turn; None: t *)
  Definition clause := (option (list sexp) * sexp)%type.
  Definition clause_form (c : clause) : sexp :=
    Cons (match fst c with Some items => form_list items | None => Sym "t" end) (snd c).
  Definition matches (v : value) (c : clause) : bool :=
    match fst c with Some items => existsb (fun i => eql v (quoted i)) items | None => true end.
  Inductive case_means (e : env) (s : state) (key : sexp) (cs : list clause) : state -> res -> Prop :=
  | Case_exit : forall s1 x, ev e (gensym s) key s1 (Exit x) -> case_means e s key cs s1 (Exit x)
  | Case_none : forall s1 v, ev e (gensym s) key s1 (Ret v) -> (forall c, In c cs -> matches v c = false) ->
      case_means e s key cs (push s1 [v]) (Ret (VAtom Nil))
  | Case_body : forall s1 v before c after s2 r, ev e (gensym s) key s1 (Ret v) ->
      cs = (before ++ c :: after)%list -> (forall d, In d before -> matches v d = false) -> matches v c = true ->
      evs ((Gen (next_gen s), here s1) :: e) (push s1 [v]) (snd c) s2 r -> case_means e s key cs s2 r.

  (** ** prog1 *)
  Inductive prog1_means (e : env) (s : state) (f : sexp) (fs : sexp) : state -> res -> Prop :=
  | Prog1_exit : forall s1 x, ev e (gensym s) f s1 (Exit x) -> prog1_means e s f fs s1 (Exit x)
  | Prog1_later : forall s1 v s2 x, ev e (gensym s) f s1 (Ret v) ->
      evs ((Gen (next_gen s), here s1) :: e) (push s1 [v]) fs s2 (Exit x) -> prog1_means e s f fs s2 (Exit x)
  | Prog1_value : forall s1 v s2 w, ev e (gensym s) f s1 (Ret v) ->
      evs ((Gen (next_gen s), here s1) :: e) (push s1 [v]) fs s2 (Ret w) -> prog1_means e s f fs s2 (Ret v).

  (** ** Loops *)
  Inductive while_means (e : env) (c body : sexp) : state -> state -> res -> Prop :=
  | While_exit : forall s s1 x, ev e s c s1 (Exit x) -> while_means e c body s s1 (Exit x)
  | While_end : forall s s1 v, ev e s c s1 (Ret v) -> nilp v = true -> while_means e c body s s1 (Ret (VAtom Nil))
  | While_body : forall s s1 v s2 x, ev e s c s1 (Ret v) -> nilp v = false -> evs e s1 body s2 (Exit x) ->
      while_means e c body s s2 (Exit x)
  | While_again : forall s s1 v s2 w s3 r, ev e s c s1 (Ret v) -> nilp v = false -> evs e s1 body s2 (Ret w) ->
      while_means e c body s2 s3 r -> while_means e c body s s3 r.

  (** do: a variable has an initial value and a step, or keeps its value *)
  Definition do_var := (sexp * sexp * option sexp)%type.
  Definition do_var_form (v : do_var) : sexp :=
    match v with
    | (x, i, Some st) => form_list [x; i; st]
    | (x, i, None) => form_list [x; i]
    end.
  Definition do_names (vs : list do_var) : list sexp := map (fun v => fst (fst v)) vs.
  Definition do_inits (vs : list do_var) : list binding := map (fun v => (fst (fst v), Some (form_list [snd (fst v)]))) vs.
  Definition do_steps (vs : list do_var) : list binding :=
    map (fun v => (fst (fst v), Some (form_list [match snd v with Some st => st | None => fst (fst v) end]))) vs.
  (** one round after the other, each with new variables *)
  Inductive do_means (e : env) (vs : list do_var) (c ends body : sexp) : state -> list value -> state -> res -> Prop :=
  | Do_exit : forall s us s1 x, ev (names e (here s) (do_names vs)) (push s us) c s1 (Exit x) ->
      do_means e vs c ends body s us s1 (Exit x)
  | Do_end : forall s us s1 v s2 r, ev (names e (here s) (do_names vs)) (push s us) c s1 (Ret v) -> nilp v = false ->
      evs (names e (here s) (do_names vs)) s1 ends s2 r -> do_means e vs c ends body s us s2 r
  | Do_body : forall s us s1 v s2 x, ev (names e (here s) (do_names vs)) (push s us) c s1 (Ret v) -> nilp v = true ->
      evs (names e (here s) (do_names vs)) s1 body s2 (Exit x) -> do_means e vs c ends body s us s2 (Exit x)
  | Do_step : forall s us s1 v s2 w s3 x, ev (names e (here s) (do_names vs)) (push s us) c s1 (Ret v) -> nilp v = true ->
      evs (names e (here s) (do_names vs)) s1 body s2 (Ret w) ->
      inits (names e (here s) (do_names vs)) s2 (do_steps vs) s3 (inl x) -> do_means e vs c ends body s us s3 (Exit x)
  | Do_again : forall s us s1 v s2 w s3 us' s4 r, ev (names e (here s) (do_names vs)) (push s us) c s1 (Ret v) -> nilp v = true ->
      evs (names e (here s) (do_names vs)) s1 body s2 (Ret w) ->
      inits (names e (here s) (do_names vs)) s2 (do_steps vs) s3 (inr us') ->
      do_means e vs c ends body s3 us' s4 r -> do_means e vs c ends body s us s4 r.

  (** ** The symbol of gensym is new *)
  Fixpoint absent (g : nat) (f : sexp) : Prop :=
    match f with Gen n => n <> g | Cons a d => absent g a /\ absent g d | _ => True end.
  Definition env_fresh (g k : nat) (e : env) : Prop := forall x p, In (x, p) e -> absent g x /\ p < k.
  Fixpoint value_fresh (g k : nat) (v : value) : Prop :=
    match v with
    | VPair a d => value_fresh g k a /\ value_fresh g k d
    | Clo lam e => absent g lam /\ env_fresh g k e
    | _ => True
    end.
  (** nothing in the store mentions the next symbol, nor a place outside *)
  Definition state_fresh (s : state) : Prop :=
    (forall v, In v (store s) -> value_fresh (next_gen s) (here s) v) /\
    (forall x v, globals s x = Some v -> value_fresh (next_gen s) (here s) v).
End Spec.
