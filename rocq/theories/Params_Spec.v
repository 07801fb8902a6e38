(* What the manual says about lambda lists (man/lang.texi:3823-3930). *)
From Coq Require Import List Bool Arith.
Import ListNotations.
From Verif Require Import Params_Model.

(* ([required...] [#!optional optional...] [#!key keyword...] [#!rest rest | . rest]) *)
Record params := mkP { req : list nat; opt : list (nat * option form); key : list (nat * option form); rest : option nat; dotted : bool }.
Definition syntax (p : params) : llist :=
  (map (fun x => Par x None) (req p)
   ++ match opt p with [] => [] | l => MOpt :: map (fun q => Par (fst q) (snd q)) l end
   ++ match key p with [] => [] | l => MKey :: map (fun q => Par (fst q) (snd q)) l end
   ++ match rest p with Some x => if dotted p then [] else [MRest; Par x None] | None => [] end,
   if dotted p then rest p else None).

(* given, or left to the default *)
Inductive source := Given (v : val) | Default (d : option form).
Fixpoint optionals (l : list (nat * option form)) (args : list val) : list (nat * source) :=
  match l, args with
  | [], _ => []
  | (x, _) :: l, v :: args => (x, Given v) :: optionals l args
  | (x, d) :: l, [] => (x, Default d) :: optionals l []
  end.
(* each pair is checked for the keyword; the arguments without it *)
Fixpoint key_arg (x : nat) (args : list val) : option (val * list val) :=
  match args with
  | k :: v :: r => if is_key x k then Some (v, r) else match key_arg x r with Some (w, r') => Some (w, k :: v :: r') | None => None end
  | _ => None
  end.
Fixpoint keywords (l : list (nat * option form)) (args : list val) : list (nat * source) * list val :=
  match l with
  | [] => ([], args)
  | (x, d) :: l =>
    match key_arg x args with
    | Some (v, args) => let (r, a) := keywords l args in ((x, Given v) :: r, a)
    | None => let (r, a) := keywords l args in ((x, Default d) :: r, a)
    end
  end.
(* defaults are evaluated in order; one that is not given is false *)
Fixpoint settle (ev : evals) (hist : list form) (l : list (nat * source)) : option (list (nat * val)) :=
  match l with
  | [] => Some []
  | (x, s) :: l =>
    match s with
    | Given v => option_map (cons (x, v)) (settle ev hist l)
    | Default None => option_map (cons (x, Nil)) (settle ev hist l)
    | Default (Some f) =>
      match ev hist f with
      | Some v => option_map (cons (x, v)) (settle ev (hist ++ [f]) l)
      | None => None
      end
    end
  end.
Definition documented (ev : evals) (p : params) (args : list val) : bres :=
  if length args <? length (req p) then Missing (nth (length args) (req p) 0)
  else
    let a1 := skipn (length (req p)) args in
    let a2 := skipn (length (opt p)) a1 in
    let (ks, a3) := keywords (key p) a2 in
    let all := map (fun q => (fst q, Given (snd q))) (combine (req p) args) ++ optionals (opt p) a1 ++ ks
      ++ match rest p with Some x => [(x, Given (Lst a3))] | None => [] end in
    match settle ev [] all with
    | Some l => Bound l
    | None => Failed
    end.

(* the arguments left to keyword and rest parameters *)
Definition left_over (p : params) (args : list val) : list val := skipn (length (req p) + length (opt p)) args.
(* no value of a pair is itself a keyword of the lambda list *)
Fixpoint clean (ks : list nat) (args : list val) : bool :=
  match args with
  | _ :: v :: r => negb (existsb (fun x => is_key x v) ks) && clean ks r
  | _ => true
  end.
Definition reversed (r : bres) : bres := match r with Bound l => Bound (rev l) | r => r end.
(* keyword parameters without a default *)
Definition no_default (q : nat * option form) : bool := match snd q with None => true | Some _ => false end.
Definition names (p : params) : list nat :=
  req p ++ map fst (opt p) ++ map fst (key p) ++ match rest p with Some x => [x] | None => [] end.
(* every name has the same value, or the same error *)
Definition same_result (r r' : bres) : Prop :=
  match r, r' with
  | Bound l, Bound l' => forall x, visible l x = visible l' x
  | _, _ => r = r'
  end.
