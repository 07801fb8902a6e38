(** Domain names: lisp/rep/net/domain-name.jl.  Names are strings of bytes;
    the regular expression is matched by the model of src/regexp.c. *)

From Coq Require Import List ZArith Bool.
From Verif Require Import Regexp_Model Find_Model.
Import ListNotations.
Open Scope Z_scope.

Notation str := (list Z).

(** The regexp of 40 and 44: a backslash and a dot *)
Definition dot_re : str := [92; 46].

Section Domain.
  Variable beyond : Z -> Z.         (* what lies in memory after the string *)
  Variable f n : nat.               (* step budgets of a match and of a loop *)

  (** domain-parts, 38-40; m: the match data before the call *)
  Definition domain_parts (d : str) (m : mstate) : res (list str) :=
    string_split beyond f dot_re d n m.

  (** domain-above, 42-45; None is nil *)
  Definition domain_above (d : str) (m : mstate) : res (option str) :=
    let '(r, m) := matched (string_match beyond f dot_re d 0 false) d m in
    let* found := r in
    if found then
      let* e := the_pos (match_end m 0) in
      let* s := substring d e (Z.of_nat (length d)) in
      Ok (Some s)
    else Ok None.

  (** string=, that is equal, on two strings *)
  Fixpoint string_eq (a b : str) : bool :=
    match a, b with
    | [], [] => true
    | x :: a, y :: b => (x =? y) && string_eq a b
    | _, _ => false
    end.

  (** The loop of compare-domains, 50-61; None is nil *)
  Fixpoint compare_loop (fuel : nat) (p1 p2 : list str) (ret : Z) : res (option Z) :=
    match fuel with
    | O => Fuel
    | S k =>
        if Nat.ltb (length p2) (length p1) then compare_loop k (tl p1) p2 (ret + 1)
        else if Nat.ltb (length p1) (length p2) then compare_loop k p1 (tl p2) (ret - 1)
        else match p1, p2 with
             | a :: p1, b :: p2 => if string_eq a b then compare_loop k p1 p2 ret else Ok None
             | _, _ => Ok (Some ret)
             end
    end.
  Definition compare_domains (d1 d2 : str) (m m' : mstate) : res (option Z) :=
    let* p1 := domain_parts d1 m in
    let* p2 := domain_parts d2 m' in
    compare_loop n p1 p2 0.

  (** 63-75 *)
  Definition domain_above_p (d1 d2 : str) (m m' : mstate) : res bool :=
    let* v := compare_domains d1 d2 m m' in
    Ok (match v with Some v => v <? 0 | None => false end).
  Definition domain_below_p (d1 d2 : str) (m m' : mstate) : res bool :=
    let* v := compare_domains d1 d2 m m' in
    Ok (match v with Some v => 0 <? v | None => false end).
  Definition domain_equal_p (d1 d2 : str) : bool := string_eq d1 d2.

  (** map-domains, 77-81: the names FUN is called with, in order.  FUN returns
      and leaves the names alone; ms k is the match data it leaves. *)
  Fixpoint map_domains (fuel : nat) (d : option str) (ms : nat -> mstate) : res (list str) :=
    match fuel with
    | O => Fuel
    | S k =>
        match d with
        | None => Ok []
        | Some d =>
            let* up := domain_above d (ms k) in
            let* rest := map_domains k up ms in
            Ok (d :: rest)
        end
    end.

  (** map-domains-downwards, 83-90: the loop, then the function; the list of
      parts is not empty *)
  Fixpoint down_loop (current : str) (todo : list str) : list str :=
    current :: match todo with
               | [] => []
               | t :: todo => down_loop (t ++ [46] ++ current) todo
               end.
  Definition map_domains_downwards (d : str) (m : mstate) : res (list str) :=
    let* parts := domain_parts d m in
    match rev parts with
    | [] => Err
    | c :: todo => Ok (down_loop c todo)
    end.
End Domain.
