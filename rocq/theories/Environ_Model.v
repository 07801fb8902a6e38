(** The environment of processes: lisp/rep/system/environ.jl 30-66.

    process-environment is a list of strings, here a list of lists of bytes;
    changing a cell of it is replacing an element.  Elements that are no
    strings (string-looking-at signals an error) are not modelled. *)
From Coq Require Import List ZArith Bool.
From Verif Require Import Regexp_Model Find_Model.
Import ListNotations.
Open Scope Z_scope.

Definition equals : Z := 61.

Section Environ.
  Variable beyond : Z -> Z.     (* memory beyond strings, see Regexp_Model *)
  Variable fuel : nat.          (* for the regexp engine *)

  (** string-looking-at: match-end, or None for nil *)
  Definition look (re s : list Z) : res (option Z) :=
    match string_looking_at beyond fuel re s 0 false with
    | MYes _ _ ep false => Ok (nth 0 ep None)
    | MNo false => Ok None
    | MYes _ _ _ true | MNo true => Err
    | MWild => Wild
    | MFuel => Fuel
    end.
  (** 33, 44, 58: (concat (quote-regexp name) ?=) *)
  Definition name_regexp (name : list Z) : list Z := quote_regexp name ++ [equals].

  (** getenv, 30-38 *)
  Fixpoint get_loop (re : list Z) (rest : list (list Z)) : res (option (list Z)) :=
    match rest with
    | [] => Ok None
    | e :: rest =>
        let* m := look re e in
        match m with
        | Some j => Ok (Some (skipn (Z.to_nat j) e))
        | None => get_loop re rest
        end
    end.
  Definition getenv (name : list Z) (env : list (list Z)) : res (option (list Z)) := get_loop (name_regexp name) env.

  (** setenv, 41-52; the new process-environment.  None: the end was reached *)
  Fixpoint set_loop (re entry : list Z) (rest : list (list Z)) : res (option (list (list Z))) :=
    match rest with
    | [] => Ok None
    | e :: rest =>
        let* m := look re e in
        match m with
        | Some _ => Ok (Some (entry :: rest))
        | None =>
            let* r := set_loop re entry rest in
            Ok (match r with Some rest => Some (e :: rest) | None => None end)
        end
    end.
  Definition setenv (name value : list Z) (env : list (list Z)) : res (list (list Z)) :=
    let entry := name ++ equals :: value in
    let* r := set_loop (name_regexp name) entry env in
    Ok (match r with Some env => env | None => entry :: env end).

  (** unsetenv, 55-60, with delete-if *)
  Fixpoint delete_loop (re : list Z) (rest : list (list Z)) : res (list (list Z)) :=
    match rest with
    | [] => Ok []
    | e :: rest =>
        let* m := look re e in
        let* r := delete_loop re rest in
        Ok (match m with Some _ => r | None => e :: r end)
    end.
  Definition unsetenv (name : list Z) (env : list (list Z)) : res (list (list Z)) := delete_loop (name_regexp name) env.
End Environ.

(** rep_sys_os_init, src/unix_main.c 943-951: process-environment at the start *)
Definition init_environment (environ : list (list Z)) : list (list Z) :=
  fold_left (fun env e => e :: env) environ [].
(** child_build_environ, src/unix_processes.c 528-551: the environment of a new
    process; environ is that of rep.  As C strings: up to a zero byte *)
Fixpoint c_string (s : list Z) : list Z :=
  match s with [] => [] | c :: s => if c =? 0 then [] else c :: c_string s end.
Definition child_environ (environ env : list (list Z)) : list (list Z) :=
  match env with [] => environ | _ => map c_string env end.
