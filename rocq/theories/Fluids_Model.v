(* Model of dynamic binding: fluids (src/fluids.c), special variables and the frames
   of the interpreter (src/symbols.c:540-680, repint.h:165-169), and the binding
   stack of the virtual machine (src/lispmach.h:80-122, 580-605, 747-860, 1140-1148,
   1555-1577, 1963-1996, 2215-2268).

   A program is the tree of what it does next, depending on the values it reads; so
   each terminating execution of each program is one of a tree.  Values are
   integers.  Fluids and special variables are numbered by one sequence.  All specials
   are accessible (the special environment is t), buffer-local values are not modelled.
   Interrupts do not happen. *)
From Coq Require Import ZArith List Bool.
Import ListNotations.
Open Scope Z_scope.

(* a value, a throw or error, or the invocation of the continuation labelled l *)
Inductive result := Val (v : Z) | Throw (v : Z) | Esc (l : nat) (v : Z).

(* rep_env; only how long it is matters *)
Definition env := list nat.

(* Get: symbol-value or fluid; Put: set or fluid-set; With: with-fluids, None is an argument that is not
   a fluid; Lambda: the call of an interpreted closure with environment e,
   its parameters being special (true) or lexical; CallCC: call/cc, the body being what
   it calls; Code: the call of a compiled closure.  k is what follows, given a value or an
   exception. *)
Inductive prog :=
| Done (r : result)
| Get (x : nat) (k : Z -> prog)
| Put (x : nat) (v : Z) (k : prog)
| With (fs : list (option nat)) (vs : list Z) (thunk : prog) (k : result -> prog)
| Lambda (e : env) (ps : list (bool * nat * Z)) (body : prog) (k : result -> prog)
| CallCC (l : nat) (body : prog) (k : result -> prog)
| Code (e : env) (c : vm) (k : result -> prog)
(* instructions: Do: any that calls C code or interpreted closures; init-bind, bind,
   spec-bind, fluid-bind, unbind, unbindall, unbindall-0, binderr, throw, return; Call:
   call of a compiled closure; Tail: one followed by a return.  h is given the throw value. *)
with vm :=
| Do (p : prog) (k : Z -> vm)
| Init (c : vm)
| Bind (c : vm)
| Spec (x : nat) (v : Z) (c : vm)
| Fluid (x : nat) (v : Z) (c : vm)
| Unbind (c : vm)
| UnbindAll (c : vm)
| UnbindAll0 (c : vm)
| BindErr (h : Z -> vm) (c : vm)
| Raise (v : Z)
| Return (v : Z)
| Call (e : env) (c : vm) (k : Z -> vm)
| Tail (e : env) (c : vm).

(* spec: rep_special_bindings; each cell (SYMBOL . VALUE) is given by its address, in store is
   the VALUE.  glob: the value in the fluid or in the structure of specials.  deep: the greatest
   rep_lisp_depth (of calls of compiled code) there was. *)
Record st := mkSt { spec : list (nat * nat); store : nat -> Z; glob : nat -> Z; env_of : env; nxt : nat; deep : nat }.

Definition init (g : nat -> Z) (e : env) : st := mkSt [] (fun _ => 0) g e 0 0.

(* the program came to an end, it read memory that is not there, or n was too small *)
Inductive out := Ok (s : st) (r : result) | Crash | NoFuel.

Definition upd (f : nat -> Z) (x : nat) (v : Z) : nat -> Z := fun y => if Nat.eqb y x then v else f y.

(* symbols.c:543-553 *)
Fixpoint search (l : list (nat * nat)) (x : nat) : option nat :=
  match l with
  | [] => None
  | (y, a) :: r => if Nat.eqb y x then Some a else search r x
  end.
(* Ffluid (fluids.c:67-86), Fsymbol_value (symbols.c:861-866) *)
Definition value (s : st) (x : nat) : Z :=
  match search (spec s) x with Some a => store s a | None => glob s x end.
(* Ffluid_set (fluids.c:89-106), do_set (symbols.c:948-952) *)
Definition assign (s : st) (x : nat) (v : Z) : st :=
  match search (spec s) x with
  | Some a => mkSt (spec s) (upd (store s) a v) (glob s) (env_of s) (nxt s) (deep s)
  | None => mkSt (spec s) (store s) (upd (glob s) x v) (env_of s) (nxt s) (deep s)
  end.
(* Fcons (Fcons (x, v), rep_special_bindings) *)
Definition push (s : st) (x : nat) (v : Z) : st :=
  mkSt ((x, nxt s) :: spec s) (upd (store s) (nxt s) v) (glob s) (env_of s) (S (nxt s)) (deep s).
Definition push_lex (s : st) : st := mkSt (spec s) (store s) (glob s) (0%nat :: env_of s) (nxt s) (deep s).
Definition s_spec (s : st) (l : list (nat * nat)) : st := mkSt l (store s) (glob s) (env_of s) (nxt s) (deep s).
Definition s_env (s : st) (e : env) : st := mkSt (spec s) (store s) (glob s) e (nxt s) (deep s).
Definition s_deep (s : st) (d : nat) : st := mkSt (spec s) (store s) (glob s) (env_of s) (nxt s) (Nat.max d (deep s)).

(* repint.h:165-168.  int is 32 bits *)
Definition mark_lex (x : Z) : Z := x + 1.
Definition mark_spec (x : Z) : Z := x + 65536.
Definition lex_bindings (x : Z) : Z := x mod 65536.
Definition spec_bindings (x : Z) : Z := (x / 65536 + 2147483648) mod 4294967296 - 2147483648.

(* n times rep_CDR; that of nil is a crash *)
Fixpoint tail {A} (l : list A) (n : nat) {struct n} : option (list A) :=
  match n, l with
  | O, _ => Some l
  | S n, _ :: r => tail r n
  | S _, [] => None
  end.
(* rep_unbind_symbols (symbols.c:648-682), inline_unbind (lispmach.h:90-99) *)
Definition unbind (s : st) (x : Z) : option st :=
  match tail (env_of s) (Z.to_nat (lex_bindings x)), tail (spec s) (Z.to_nat (spec_bindings x)) with
  | Some e, Some l => Some (mkSt l (store s) (glob s) e (nxt s) (deep s))
  | _, _ => None
  end.

(* rep_bind_symbol (symbols.c:627-644) for each parameter (lisp.c:1359-1369) *)
Fixpoint bind_all (s : st) (x : Z) (ps : list (bool * nat * Z)) : st * Z :=
  match ps with
  | [] => (s, x)
  | (sp, y, v) :: r => if sp : bool then bind_all (push s y v) (mark_spec x) r else bind_all (push_lex s) (mark_lex x) r
  end.

(* fluids.c:132-146: false if an argument is not a fluid *)
Fixpoint push_all (s : st) (fs : list (option nat)) (vs : list Z) : st * bool :=
  match fs, vs with
  | Some f :: fs, v :: vs => push_all (push s f v) fs vs
  | None :: _, _ :: _ => (s, false)
  | _, _ => (s, true)
  end.
(* the error signalled *)
Definition bad_arg : Z := 0.

(* entries of the binding stack, top first; there is one of Frame 0 at the start *)
Inductive item := Frame (x : Z) | Handler (h : Z -> vm).

(* the loop at 2216-2262: to the next handler, if any *)
Fixpoint unwind (s : st) (bs : list item) (imp : Z) : option (st * option ((Z -> vm) * list item * Z)) :=
  match bs with
  | [] => Some (s, None)
  | Frame x :: r => match unbind s x with Some s => unwind s r (imp - spec_bindings x) | None => None end
  | Handler h :: r => Some (s, Some (h, r, imp - 1))
  end.
(* unbind_n (115-120) *)
Fixpoint unbind_n (s : st) (bs : list item) : option st :=
  match bs with
  | [] => Some s
  | Frame x :: r => match unbind s x with Some s => unbind_n s r | None => None end
  | Handler _ :: r => unbind_n s r
  end.
Fixpoint bottom (bs : list item) : option item :=
  match bs with
  | [] => None
  | [i] => Some i
  | _ :: r => bottom r
  end.

(* run: n is fuel, d is rep_lisp_depth *)
Fixpoint run (n : nat) (d : nat) (s : st) (p : prog) {struct n} : out :=
  match n with
  | O => NoFuel
  | S n =>
    (* what follows, with the environment of the caller (rep_POP_CALL) *)
    let next e o (k : st -> result -> out) := match o with
      | Ok s (Esc l v) => Ok s (Esc l v)
      | Ok s r => k (s_env s e) r
      | o => o
      end in
    match p with
    | Done r => Ok s r
    | Get x k => run n d s (k (value s x))
    | Put x v k => run n d (assign s x v) k
    | With fs vs thunk k =>
      (* fluids.c:108-152 *)
      if Nat.eqb (length fs) (length vs) then
        let (s1, ok) := push_all s fs vs in
        if ok then next (env_of s) (run n d s1 thunk) (fun s2 r => run n d (s_spec s2 (spec s)) (k r))
        else run n d s1 (k (Throw bad_arg))
      else run n d s (k (Throw bad_arg))
    | Lambda e ps body k =>
      (* lisp.c:1401-1452, 1577, 1681, 1740 *)
      let (s1, x) := bind_all (s_env s e) 0 ps in
      match run n d s1 body with
      | Ok s2 (Esc l v) => Ok s2 (Esc l v)
      | Ok s2 r =>
        match unbind s2 x with
        | Some s3 => run n d (s_env s3 (env_of s)) (k r)
        | None => Crash
        end
      | o => o
      end
    | CallCC l body k =>
      (* continuations.c:640-747 *)
      match run n d s body with
      | Ok s1 (Esc m v) =>
        if Nat.eqb l m then run n d (s_env (s_spec s1 (spec s)) (env_of s)) (k (Val v)) else Ok s1 (Esc m v)
      | Ok s1 r => run n d (s_env s1 (env_of s)) (k r)
      | o => o
      end
    | Code e c k =>
      next (env_of s) (vrun n (S d) (s_deep (s_env s e) (S d)) [Frame 0] 0 c) (fun s r => run n d s (k r))
    end
  end
(* imp: impurity *)
with vrun (n : nat) (d : nat) (s : st) (bs : list item) (imp : Z) (c : vm) {struct n} : out :=
  match n with
  | O => NoFuel
  | S n =>
    let error s bs imp v :=
      match unwind s bs imp with
      | Some (s, None) => Ok s (Throw v)
      | Some (s, Some (h, bs, imp)) => vrun n d s bs imp (h v)
      | None => Crash
      end in
    let next e bs imp o (k : st -> Z -> out) := match o with
      | Ok s (Val v) => k (s_env s e) v
      | Ok s (Throw v) => error (s_env s e) bs imp v
      | o => o
      end in
    match c with
    | Do p k => next (env_of s) bs imp (run n d s p) (fun s v => vrun n d s bs imp (k v))
    | Init c => vrun n d s (Frame 0 :: bs) imp c
    | Bind c =>
      match bs with
      | Frame x :: r => vrun n d (push_lex s) (Frame (mark_lex x) :: r) imp c
      | _ => Crash
      end
    | Spec x v c | Fluid x v c =>
      match bs with
      | Frame y :: r => vrun n d (push s x v) (Frame (mark_spec y) :: r) (imp + 1) c
      | _ => Crash
      end
    | Unbind c =>
      match bs with
      | Frame x :: r => match unbind s x with Some s => vrun n d s r (imp - spec_bindings x) c | None => Crash end
      | Handler _ :: r => vrun n d s r imp c
      | [] => Crash
      end
    | UnbindAll c =>
      match bottom bs with
      | Some (Frame x) =>
        match unbind_n s (removelast bs) with Some s => vrun n d s [Frame x] (spec_bindings x) c | None => Crash end
      | _ => Crash
      end
    | UnbindAll0 c =>
      match unbind_n s bs with Some s => vrun n d s [] 0 c | None => Crash end
    | BindErr h c => vrun n d s (Handler h :: bs) (imp + 1) c
    | Raise v => error s bs imp v
    | Return v => match unbind_n s bs with Some s => Ok s (Val v) | None => Crash end
    | Call e c k => next (env_of s) bs imp (vrun n (S d) (s_deep (s_env s e) (S d)) [Frame 0] 0 c) (fun s v => vrun n d s bs imp (k v))
    | Tail e c =>
      (* 751-830, 1871-1902 *)
      if imp =? 0 then vrun n d (s_env s e) [Frame 0] 0 c
      else next (env_of s) bs imp (vrun n (S d) (s_deep (s_env s e) (S d)) [Frame 0] 0 c)
             (fun s v => match unbind_n s bs with Some s => Ok s (Val v) | None => Crash end)
    end
  end.

(* What let-fluids is compiled to (lisp/rep/vm/compiler/rep.jl:512-529): all fluids and values are pushed
   in order, then bound from the top of the stack. *)
Definition let_fluids (l : list (nat * Z)) (body : prog) : vm :=
  Init (fold_right (fun p c => Fluid (fst p) (snd p) c) (Do body (fun v => Unbind (Return v))) (rev l)).
