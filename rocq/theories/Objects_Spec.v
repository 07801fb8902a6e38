(** Single inheritance, without messages passed on. *)

From Coq Require Import List Arith Bool ZArith.
Import ListNotations.
Require Import Verif.Objects_Model.

(** The method that an object has: its own, or that of its base *)
Inductive has_method (objects : list object) : nat -> val -> method -> Prop :=
| own o op m : find_method op (methods (get_obj objects o)) = Some m -> has_method objects o op m
| inherited o b op m : find_method op (methods (get_obj objects o)) = None -> base (get_obj objects o) = Obj b ->
    has_method objects b op m -> has_method objects o op m.

(** A parameter has the argument of its place, or nil; the rest parameter what
    is left; later names hide earlier ones, and self *)
Definition is_param (params : list nat) (rest : option nat) (args : list val) (x : nat) (v : val) : Prop :=
  (rest = Some x /\ v = Lst (skipn (length params) args)) \/
  (rest <> Some x /\ exists i, nth_error params i = Some x /\ v = nth i args Nil /\
     forall j, i < j -> nth_error params j <> Some x).
Definition sees (params : list nat) (rest : option nat) (args : list val) (self : val) (E : env) : Prop :=
  forall x, (forall v, is_param params rest args x v -> assq x E = Some v) /\
    (rest <> Some x -> ~ In x params -> assq x E = if Nat.eqb x self_name then Some self else None).

(** Each object was made after its base *)
Definition made_after (objects : list object) : Prop :=
  forall o, o < length objects -> base (get_obj objects o) = Nil \/ exists b, base (get_obj objects o) = Obj b /\ b < o.

(** Nowhere is the keyword #:self *)
Inductive free : val -> Prop :=
| fr_nil : free Nil
| fr_num z : free (Num z)
| fr_sym s : free (Sym s)
| fr_obj o : free (Obj o)
| fr_lst l : Forall free l -> free (Lst l).
Inductive free_expr : expr -> Prop :=
| fe_lit v : free v -> free_expr (Lit v)
| fe_local x : free_expr (Local x)
| fe_cell c : free_expr (Cell c)
| fe_set c e : free_expr e -> free_expr (SetCell c e)
| fe_progn a b : free_expr a -> free_expr b -> free_expr (Progn a b)
| fe_send o op args : free_expr o -> free_expr op -> Forall free_expr args -> free_expr (Send o op args).
Definition free_objects (objects : list object) : Prop :=
  forall o n p r e, In (n, Body p r e) (methods (get_obj objects o)) -> free_expr e.
Definition free_prim (prim : nat -> list val -> option val) : Prop :=
  forall p args v, Forall free args -> prim p args = Some v -> free v.

(** The meaning of programs: a relation.  A message to [o] runs the method that
    [o] has with self being [o] *)
Section Means.
  Variable objects : list object.
  Variable prim : nat -> list val -> option val.

  Inductive out := Value (v : val) | Error (e : error).

  Inductive means : env -> expr -> list val -> out -> list val -> Prop :=
  | m_lit E v st : means E (Lit v) st (Value v) st
  | m_local E x v st : assq x E = Some v -> means E (Local x) st (Value v) st
  | m_unbound E x st : assq x E = None -> means E (Local x) st (Error (Unbound x)) st
  | m_cell E c st : means E (Cell c) st (Value (nth c st Nil)) st
  | m_set E c e st v st' : means E e st (Value v) st' -> means E (SetCell c e) st (Value v) (set_nth st' c v)
  | m_set_err E c e st x st' : means E e st (Error x) st' -> means E (SetCell c e) st (Error x) st'
  | m_progn E a b st v st' r st'' : means E a st (Value v) st' -> means E b st' r st'' -> means E (Progn a b) st r st''
  | m_progn_err E a b st x st' : means E a st (Error x) st' -> means E (Progn a b) st (Error x) st'
  | m_send_o E o op args st x st' : means E o st (Error x) st' -> means E (Send o op args) st (Error x) st'
  | m_send_op E o op args st f st1 x st2 : means E o st (Value f) st1 -> means E op st1 (Error x) st2 ->
      means E (Send o op args) st (Error x) st2
  | m_send_args E o op args st f st1 n st2 x st3 : means E o st (Value f) st1 -> means E op st1 (Value n) st2 ->
      means_list E args st2 (inr x) st3 -> means E (Send o op args) st (Error x) st3
  | m_send E o op args st f st1 n st2 vs st3 r st4 : means E o st (Value f) st1 -> means E op st1 (Value n) st2 ->
      means_list E args st2 (inl vs) st3 -> answers f n vs st3 r st4 -> means E (Send o op args) st r st4
  with means_list : env -> list expr -> list val -> list val + error -> list val -> Prop :=
  | l_nil E st : means_list E [] st (inl []) st
  | l_err E e l st x st' : means E e st (Error x) st' -> means_list E (e :: l) st (inr x) st'
  | l_cons E e l st v st' vs st'' : means E e st (Value v) st' -> means_list E l st' (inl vs) st'' ->
      means_list E (e :: l) st (inl (v :: vs)) st''
  | l_cons_err E e l st v st' x st'' : means E e st (Value v) st' -> means_list E l st' (inr x) st'' ->
      means_list E (e :: l) st (inr x) st''
  with answers : val -> val -> list val -> list val -> out -> list val -> Prop :=
  | a_body o n vs st p r e E res st' : has_method objects o n (Body p r e) -> sees p r vs (Obj o) E ->
      means E e st res st' -> answers (Obj o) n vs st res st'
  | a_fun o n vs st p v : has_method objects o n (Function p) -> prim p vs = Some v -> answers (Obj o) n vs st (Value v) st
  | a_fun_err o n vs st p : has_method objects o n (Function p) -> prim p vs = None -> answers (Obj o) n vs st (Error Bad) st
  | a_unknown o n vs st : (forall m, ~ has_method objects o n m) -> answers (Obj o) n vs st (Error (Unknown n)) st
  | a_other f n vs st : (forall o, f <> Obj o) -> answers f n vs st (Error NotFunction) st.
End Means.
