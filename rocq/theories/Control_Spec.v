(** What non-local exits are to do, said without the interpreter, the compiler
    or the machine. *)
From Coq Require Import List ZArith Bool.
Import ListNotations.
From Verif Require Import Control_Model.
Open Scope Z_scope.

(** The same object *)
Definition same (a b : val) : Prop :=
  match a, b with
  | Atom m, Atom n => m = n
  | Cons p _ _, Cons q _ _ => p = q
  | _, _ => False
  end.
Fixpoint member (x l : val) : Prop :=
  match l with Cons _ a d => same a x \/ member x d | Atom _ => False end.

(** The type of the error (error . d) *)
Definition error_type (d : val) : val := match d with Cons _ a _ => a | Atom _ => nil_ end.
(** The manual: a handler names a symbol, or a list of symbols; the symbol error
    stands for all errors *)
Definition handles (spec : val) (d : val) : Prop :=
  same spec error_ \/ same spec (error_type d) \/ member (error_type d) spec.
Fixpoint handler_list (hs : handlers) : list (val * form) :=
  match hs with HNil => [] | HCons spec body hs => (spec, body) :: handler_list hs end.
(** [body] is the handler for d: the first that handles it *)
Definition first_handler (hs : handlers) (d : val) (body : form) : Prop :=
  exists before spec after,
    handler_list hs = before ++ (spec, body) :: after /\ handles spec d /\
    Forall (fun h => ~ handles (fst h) d) before.
Definition unhandled (hs : handlers) (d : val) : Prop := Forall (fun h => ~ handles (fst h) d) (handler_list hs).

Section World.
  Variable world : Type.
  Variable ext : nat -> list val -> world -> outcome * world.

  (** * Natural semantics: [runs names e s o s']: e, begun in s, ends with o in s' *)
  Inductive runs : list nat -> form -> state world -> outcome -> state world -> Prop :=
  | R_quote names v s : runs names (Quote v) s (Ret v) s
  | R_var names x i s : index x names = Some i -> runs names (Var x) s (Ret (nth i (fst s) nil_)) s
  | R_unbound names x s : index x names = None -> runs names (Var x) s (Ret nil_) s
  | R_set names x i e s v env w : index x names = Some i -> runs names e s (Ret v) (env, w) ->
      runs names (Set_ x e) s (Ret v) (set_nth env i v, w)
  | R_set_unbound names x e s v s' : index x names = None -> runs names e s (Ret v) s' ->
      runs names (Set_ x e) s (Ret v) s'
  | R_set_exit names x e s ex s' : runs names e s (Exit ex) s' -> runs names (Set_ x e) s (Exit ex) s'
  | R_let names x e body s v env w o v' env' w' :
      runs names e s (Ret v) (env, w) -> runs (x :: names) body (v :: env, w) o (v' :: env', w') ->
      runs names (Let x e body) s o (env', w')
  | R_let_exit names x e body s ex s' : runs names e s (Exit ex) s' -> runs names (Let x e body) s (Exit ex) s'
  | R_progn names a b s v s1 o s2 : runs names a s (Ret v) s1 -> runs names b s1 o s2 -> runs names (Progn a b) s o s2
  | R_progn_exit names a b s ex s1 : runs names a s (Exit ex) s1 -> runs names (Progn a b) s (Exit ex) s1
  | R_if_true names c a b s v s1 o s2 : runs names c s (Ret v) s1 -> ~ same v nil_ -> runs names a s1 o s2 ->
      runs names (If c a b) s o s2
  | R_if_false names c a b s v s1 o s2 : runs names c s (Ret v) s1 -> same v nil_ -> runs names b s1 o s2 ->
      runs names (If c a b) s o s2
  | R_if_exit names c a b s ex s1 : runs names c s (Exit ex) s1 -> runs names (If c a b) s (Exit ex) s1
  | R_call names f args s vs env w o w' : runs_list names args s (inl vs) (env, w) -> ext f vs w = (o, w') ->
      runs names (Call f args) s o (env, w')
  | R_call_exit names f args s ex s' : runs_list names args s (inr ex) s' -> runs names (Call f args) s (Exit ex) s'
  | R_throw names tag value s t s1 v s2 : runs names tag s (Ret t) s1 -> runs names value s1 (Ret v) s2 ->
      runs names (Throw tag value) s (Exit (t, v)) s2
  | R_throw_tag names tag value s ex s1 : runs names tag s (Exit ex) s1 -> runs names (Throw tag value) s (Exit ex) s1
  | R_throw_value names tag value s t s1 ex s2 : runs names tag s (Ret t) s1 -> runs names value s1 (Exit ex) s2 ->
      runs names (Throw tag value) s (Exit ex) s2
  (* catch *)
  | R_catch_normal names tag body s t s1 v s2 : runs names tag s (Ret t) s1 -> runs names body s1 (Ret v) s2 ->
      runs names (Catch tag body) s (Ret v) s2
  | R_catch_caught names tag body s t s1 t' v s2 :
      runs names tag s (Ret t) s1 -> runs names body s1 (Exit (t', v)) s2 -> same t' t ->
      runs names (Catch tag body) s (Ret v) s2
  | R_catch_passes names tag body s t s1 t' v s2 :
      runs names tag s (Ret t) s1 -> runs names body s1 (Exit (t', v)) s2 -> ~ same t' t ->
      runs names (Catch tag body) s (Exit (t', v)) s2
  | R_catch_tag names tag body s ex s1 : runs names tag s (Exit ex) s1 -> runs names (Catch tag body) s (Exit ex) s1
  (* unwind-protect: the cleanup runs, once, after the body, whatever the body does *)
  | R_unwind names body cleanup s o s1 v s2 : runs names body s o s1 -> runs names cleanup s1 (Ret v) s2 ->
      runs names (Unwind body cleanup) s o s2
  | R_unwind_exit names body cleanup s o s1 ex s2 : runs names body s o s1 -> runs names cleanup s1 (Exit ex) s2 ->
      runs names (Unwind body cleanup) s (Exit ex) s2
  (* condition-case *)
  | R_cond_normal names x body hs s v s1 : runs names body s (Ret v) s1 -> runs names (Cond x body hs) s (Ret v) s1
  | R_cond_throw names x body hs s t v s1 : runs names body s (Exit (t, v)) s1 -> ~ same t error_ ->
      runs names (Cond x body hs) s (Exit (t, v)) s1
  | R_cond_unhandled names x body hs s t d s1 : runs names body s (Exit (t, d)) s1 -> same t error_ -> unhandled hs d ->
      runs names (Cond x body hs) s (Exit (t, d)) s1
  | R_cond_handled names x body hs s t d env w h o d' env' w' :
      runs names body s (Exit (t, d)) (env, w) -> same t error_ -> first_handler hs d h ->
      runs (x :: names) h (d :: env, w) o (d' :: env', w') ->
      runs names (Cond x body hs) s o (env', w')
  with runs_list : list nat -> forms -> state world -> list val + exn -> state world -> Prop :=
  | L_nil names s : runs_list names FNil s (inl []) s
  | L_cons names e l s v s1 vs s2 : runs names e s (Ret v) s1 -> runs_list names l s1 (inl vs) s2 ->
      runs_list names (FCons e l) s (inl (v :: vs)) s2
  | L_first names e l s ex s1 : runs names e s (Exit ex) s1 -> runs_list names (FCons e l) s (inr ex) s1
  | L_rest names e l s v s1 ex s2 : runs names e s (Ret v) s1 -> runs_list names l s1 (inr ex) s2 ->
      runs_list names (FCons e l) s (inr ex) s2.

  (** * Forms around a form that is the first thing they evaluate *)
  Inductive frame :=
  | In_catch (t : val)
  | In_unwind (cleanup : form)
  | In_cond (x : nat) (hs : handlers)
  | In_set (x : nat)
  | In_progn (b : form)
  | In_if (a b : form)
  | In_throw (value : form)
  | In_let (x : nat) (body : form)
  | In_args (f : nat) (l : forms).
  Definition put (k : frame) (e : form) : form :=
    match k with
    | In_catch t => Catch (Quote t) e
    | In_unwind c => Unwind e c
    | In_cond x hs => Cond x e hs
    | In_set x => Set_ x e
    | In_progn b => Progn e b
    | In_if a b => If e a b
    | In_throw v => Throw e v
    | In_let x body => Let x e body
    | In_args f l => Call f (FCons e l)
    end.
  (** Innermost first *)
  Fixpoint within (ks : list frame) (e : form) : form :=
    match ks with [] => e | k :: ks => within ks (put k e) end.
  (** The exception x goes through k *)
  Definition lets_through (x : exn) (k : frame) : Prop :=
    match k with
    | In_catch t => ~ same (fst x) t
    | In_cond _ hs => same (fst x) error_ -> unhandled hs (snd x)
    | _ => True
    end.
  (** The cleanup forms of ks, innermost first, run from s to s', all returning *)
  Inductive cleanups (names : list nat) : list frame -> state world -> state world -> Prop :=
  | Cl_nil s : cleanups names [] s s
  | Cl_unwind c ks s v s1 s2 : runs names c s (Ret v) s1 -> cleanups names ks s1 s2 ->
      cleanups names (In_unwind c :: ks) s s2
  | Cl_other k ks s s' : (forall c, k <> In_unwind c) -> cleanups names ks s s' -> cleanups names (k :: ks) s s'.

  (** * The machine *)
  Inductive steps (code : list insn) : config world -> config world -> Prop :=
  | S_refl c : steps code c c
  | S_step c c1 c2 : step world ext code c = Some c1 -> steps code c1 c2 -> steps code c c2.
  (** Code run on its own in s ends with o in s', its stacks as they were *)
  Definition machine (code : list insn) (s : state world) (o : outcome) (s' : state world) : Prop :=
    match o with
    | Ret v => steps code (Run world 0 [] [] s) (Run world (length code) [V v] [] s')
    | Exit x => exists st, steps code (Run world 0 [] [] s) (Error world x st [] s')
    end.

  (** An error has the form (error SYMBOL . DATA) *)
  Definition proper (x : exn) : Prop :=
    same (fst x) error_ -> exists a n d, snd x = Cons a (Atom n) d.
  Definition functions_proper : Prop := forall f vs w x w', ext f vs w = (Exit x, w') -> proper x.
End World.

(** Variables that a form sets *)
Fixpoint sets (x : nat) (e : form) : bool :=
  match e with
  | Quote _ | Var _ => false
  | Set_ y e => Nat.eqb x y || sets x e
  | Let _ e b | Progn e b | Throw e b | Catch e b | Unwind e b => sets x e || sets x b
  | If c a b => sets x c || sets x a || sets x b
  | Call _ l => sets_list x l
  | Cond _ b hs => sets x b || sets_handlers x hs
  end
with sets_list (x : nat) (l : forms) : bool :=
  match l with FNil => false | FCons e l => sets x e || sets_list x l end
with sets_handlers (x : nat) (hs : handlers) : bool :=
  match hs with HNil => false | HCons _ b hs => sets x b || sets_handlers x hs end.

(** Forms that are compiled right: tags of catch are constants, or variables
    that the body does not set; throw is not used to make errors; there is a
    handler in each condition-case *)
Fixpoint plain (e : form) : Prop :=
  match e with
  | Quote _ | Var _ => True
  | Set_ _ e => plain e
  | Let _ e b | Progn e b | Unwind e b => plain e /\ plain b
  | If c a b => plain c /\ plain a /\ plain b
  | Call _ l => plain_list l
  | Throw t v => match t with Quote t => ~ same t error_ | _ => False end /\ plain v
  | Catch t b => match t with Quote _ => True | Var x => sets x b = false | _ => False end /\ plain b
  | Cond _ b hs => hs <> HNil /\ plain b /\ plain_handlers hs
  end
with plain_list (l : forms) : Prop :=
  match l with FNil => True | FCons e l => plain e /\ plain_list l end
with plain_handlers (hs : handlers) : Prop :=
  match hs with HNil => True | HCons _ b hs => plain b /\ plain_handlers hs end.

(** Functions that a form calls *)
Fixpoint calls (f : nat) (e : form) : bool :=
  match e with
  | Quote _ | Var _ => false
  | Set_ _ e => calls f e
  | Let _ e b | Progn e b | Throw e b | Catch e b | Unwind e b => calls f e || calls f b
  | If c a b => calls f c || calls f a || calls f b
  | Call g l => Nat.eqb f g || calls_list f l
  | Cond _ b hs => calls f b || calls_handlers f hs
  end
with calls_list (f : nat) (l : forms) : bool :=
  match l with FNil => false | FCons e l => calls f e || calls_list f l end
with calls_handlers (f : nat) (hs : handlers) : bool :=
  match hs with HNil => false | HCons _ b hs => calls f b || calls_handlers f hs end.

(** A world that keeps a record of the calls made, the latest first *)
Definition logged {world : Type} (ext : nat -> list val -> world -> outcome * world)
  (f : nat) (vs : list val) (w : list nat * world) : outcome * (list nat * world) :=
  let '(o, w') := ext f vs (snd w) in (o, (f :: fst w, w')).
