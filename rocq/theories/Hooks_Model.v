(** Hooks: call-hook of /repo/src/lispcmds.c and the functions of
    /repo/lisp/rep/system.jl that change a hook, over the heap of cons cells of
    Lists_Model.

    Hook functions are arbitrary Lisp.  Here a function is known by what it does
    to hooks: a list of actions, then an answer or a non-local exit.  What it
    does may depend on everything that was called before ([log]).  Arguments are
    left out.  Functions are atoms: symbols, subrs and closures, which equal
    compares by address (values.c 413-417, 1082-1098); a list (lambda ...), which
    equal compares by contents, is not modelled.  Neither are interrupts. *)
From Coq Require Import ZArith List Bool Arith.
From Verif Require Import Lists_Model.
Import ListNotations.

(** [var]: the value of each hook symbol, None when it is unbound.  Hook symbols
    are special variables without dynamic bindings (symbols.c 836-886). *)
Record world := mk_world { hp : heap; var : nat -> option val; log : list val }.

Definition set_var (w : world) (h : heap) (k : nat) (v : val) : world :=
  mk_world h (fun i => if i =? k then Some v else var w i) (log w).
Definition note_call (w : world) (f : val) : world := mk_world (hp w) (var w) (f :: log w).

(** The TYPE argument of call-hook *)
Inductive hook_type := TNil | TAnd | TOr.

(** What a function can do to hooks *)
Inductive act :=
| Add (k : nat) (f : val) (at_end : bool)
| Remove (k : nat) (f : val)
| RemoveNamed (k : nat) (n : Z)
| Run (k : nat) (ty : hook_type).

(** What a function gives: a value or a non-local exit *)
Inductive ans := Ret (v : val) | Thrown.

(** What an action gives: no answer within the budget, a non-local exit, or a
    new state. *)
Inductive did := Unfinished | Failed (w : world) | Did (w : world).

Section Hooks.
  (** what a function does, given what has been called before *)
  Variable does : val -> list val -> list act * ans.
  (** interpreter.jl 583-588 function-name *)
  Variable name_of : val -> Z.

  (** system.jl 36-45 add-hook.  [bound]: after lines 40-42 the variable is
      bound; nconc signals an error when its first argument is not a list. *)
  Definition add_hook (fuel : nat) (w : world) (k : nat) (f : val) (at_end : bool) : did :=
    let bound := match var w k with Some v => v | None => Nil end in
    if at_end then
      if listp bound then
        let (h1, c) := cons (hp w) f Nil in
        match nconc fuel h1 [bound; c] with
        | Some (h2, v) => Did (set_var w h2 k v)
        | None => Unfinished
        end
      else Failed w
    else
      let (h1, c) := cons (hp w) f bound in
      Did (set_var w h1 k c).

  (** system.jl 47-57 remove-hook and remove-hook-by-name: [del] says which
      elements go. *)
  Definition remove_by (fuel : nat) (w : world) (k : nat) (del : val -> bool) : did :=
    match var w k with
    | None => Did w
    | Some v =>
      if listp v then
        match delete_by fuel del (hp w) v with
        | Some (h', v') => Did (set_var w h' k v')
        | None => Unfinished
        end
      else Failed w
    end.
  Definition remove_hook fuel w k f := remove_by fuel w k (val_eqb f).
  Definition remove_hook_by_name fuel w k n := remove_by fuel w k (fun f => Z.eqb (name_of f) n).

  (** lispcmds.c 1938-1940: the loop ends after this answer *)
  Definition stops (ty : hook_type) (a : ans) : bool :=
    match a with
    | Thrown => true
    | Ret v => match ty, v with
               | TNil, _ => false
               | TAnd, Nil => true
               | TAnd, _ => false
               | TOr, Nil => false
               | TOr, _ => true
               end
    end.

  (** lispcmds.c 1921-1928: the list that is run; nothing but a cons is run *)
  Definition hook_value (w : world) (k : nat) : val :=
    match var w k with Some v => v | None => Nil end.

  (** What a call of call-hook gives: the state, the functions it called with
      what each gave, in order, and its own answer. *)
  Definition ran := (world * list (val * ans) * ans)%type.

  (** lispcmds.c 1932-1943: [res] is the answer so far.  Note that the next cell
      is read after the function has been called.  [do_acts] is the body of a
      hook function. *)
  Fixpoint call_loop (fuel : nat) (w : world) (hook : val) (ty : hook_type) (res : ans) : option ran :=
    match fuel with
    | 0 => None
    | S n =>
      match hook with
      | Cell p =>
        let f := fst (mem (hp w) p) in
        let '(acts, a) := does f (log w) in
        let after :=
          match do_acts n (note_call w f) acts with
          | Unfinished => None
          | Failed w' => Some (w', Thrown)
          | Did w' => Some (w', a)
          end in
        match after with
        | None => None
        | Some (w', res') =>
          let hook' := snd (mem (hp w') p) in
          if stops ty res' then Some (w', [(f, res')], res')
          else match call_loop n w' hook' ty res' with
               | Some (w'', calls, r) => Some (w'', (f, res') :: calls, r)
               | None => None
               end
        end
      | _ => Some (w, [], res)
      end
    end
  with do_acts (fuel : nat) (w : world) (acts : list act) : did :=
    match fuel with
    | 0 => Unfinished
    | S n =>
      match acts with
      | [] => Did w
      | a :: rest =>
        let d := match a with
                 | Add k f e => add_hook n w k f e
                 | Remove k f => remove_hook n w k f
                 | RemoveNamed k m => remove_hook_by_name n w k m
                 | Run k ty => match call_loop n w (hook_value w k) ty (Ret Nil) with
                               | None => Unfinished
                               | Some (w', _, Thrown) => Failed w'
                               | Some (w', _, Ret _) => Did w'
                               end
                 end in
        match d with
        | Did w' => do_acts n w' rest
        | _ => d
        end
      end
    end.

  (** lispcmds.c 1902-1945 call-hook of a symbol *)
  Definition call_hook (fuel : nat) (w : world) (k : nat) (ty : hook_type) : option ran :=
    call_loop fuel w (hook_value w k) ty (Ret Nil).
End Hooks.

(** system.jl 59-61 in-hook-p, with memq of lispcmds.c 643-665 *)
Definition in_hook_p (fuel : nat) (w : world) (k : nat) (f : val) : option val :=
  match var w k with
  | None => Some Nil
  | Some v => member_loop fuel (val_eqb f) (hp w) v
  end.
