(* C25: lambda lists bind arguments as documented. *)
From Coq Require Import List Bool Arith.
Import ListNotations.
From Verif Require Import Params_Model Params_Spec Params_Proofs Params_CompProofs Params_InlineProofs.

(* Interpreted functions: every lambda list and argument list, as long as no value of the keyword part is a
   keyword of the lambda list.  What is missing is refuted below. *)
Theorem C25_interpreted_partial : forall ev p args,
  clean (map fst (key p)) (left_over p args) = true ->
  interpreted ev (syntax p) args = documented ev p args.
Proof. exact interpreted_ok. Qed.
Print Assumptions C25_interpreted_partial.

(* Compiled functions: the same bindings, made in the other order; only keyword parameters without default
   have the problem. *)
Theorem C25_compiled_partial : forall ev p args,
  clean (map fst (filter no_default (key p))) (left_over p args) = true ->
  compiled ev (syntax p) args = reversed (documented ev p args).
Proof. exact compiled_ok. Qed.
Print Assumptions C25_compiled_partial.

(* Lambda expressions called where they stand and compiled: no arguments too many. *)
Theorem C25_inlined_partial : forall ev p args,
  key p = [] -> (rest p <> None \/ length args <= length (req p) + length (opt p)) ->
  inlined ev (syntax p) args = reversed (documented ev p args).
Proof. exact inlined_ok. Qed.
Print Assumptions C25_inlined_partial.

(* Compiling a function does not change what its parameters are. *)
Theorem C25_agree_partial : forall ev p args,
  NoDup (names p) -> clean (map fst (key p)) (left_over p args) = true ->
  same_result (interpreted ev (syntax p) args) (compiled ev (syntax p) args).
Proof. exact agree_ok. Qed.
Print Assumptions C25_agree_partial.

(* An error is signalled for a missing argument exactly if there are fewer arguments than required
   parameters: here without any condition on keywords. *)
Theorem C25_missing : forall ev p args,
  (exists x, interpreted ev (syntax p) args = Missing x) <-> length args < length (req p).
Proof. exact missing_iff. Qed.
Print Assumptions C25_missing.

(* A value that is itself a keyword of the lambda list is taken for a keyword: given #:b #:a #:c 1, which is
   #:a for b and 1 for c, the interpreter also gives a the value #:c, leaving nothing for b. *)
Definition a := 1. Definition b := 2. Definition c := 3.
Definition no_eval : evals := fun _ _ => None.
Definition abc : params := mkP [] [] [(a, None); (b, None); (c, None)] None false.
Theorem C25_keywords_refuted : exists p args,
  documented no_eval p args = Bound [(a, Nil); (b, Kw a); (c, Obj 1)]
  /\ interpreted no_eval (syntax p) args = Bound [(a, Kw c); (b, Nil); (c, Nil)].
Proof. exists abc, [Kw b; Kw a; Kw c; Obj 1]. split; reflexivity. Qed.
Print Assumptions C25_keywords_refuted.

(* Compiled, the null pointer that marks an argument as used becomes the value of a parameter. *)
Theorem C25_null_refuted : exists p args,
  compiled no_eval (syntax p) args = Null
  /\ exists l, interpreted no_eval (syntax p) args = Bound l.
Proof. exists abc, [Kw b; Kw a; Kw c; Obj 1]. split; [reflexivity |]. eexists. reflexivity. Qed.
Print Assumptions C25_null_refuted.

(* Called where it stands, (lambda (a) ...) with the arguments 1 and 2 gets 2 once compiled. *)
Theorem C25_inlined_refuted : exists p args,
  interpreted no_eval (syntax p) args = Bound [(a, Obj 1)]
  /\ compiled no_eval (syntax p) args = Bound [(a, Obj 1)]
  /\ inlined no_eval (syntax p) args = Bound [(a, Obj 2)].
Proof. exists (mkP [a] [] [] None false), [Obj 1; Obj 2]. repeat split. Qed.
Print Assumptions C25_inlined_refuted.

(* A parameter named twice has its second argument when interpreted, its first when compiled. *)
Theorem C25_duplicate_refuted : exists p args l l',
  interpreted no_eval (syntax p) args = Bound l /\ visible l a = Some (Obj 2)
  /\ compiled no_eval (syntax p) args = Bound l' /\ visible l' a = Some (Obj 1).
Proof. exists (mkP [a; a] [] [] None false), [Obj 1; Obj 2]. do 2 eexists. repeat split. Qed.
Print Assumptions C25_duplicate_refuted.

(* --- cases --- *)

(* (x #!optional (y F0) z #!key (k F1) l . r), where F1 fails unless F0 was evaluated before *)
Definition all : params := mkP [10] [(11, Some 0); (12, None)] [(13, Some 1); (14, None)] (Some 15) true.
Definition evs : evals := fun h f => if f =? 0 then Some (Obj 100) else match h with [0] => Some (Obj 101) | _ => None end.
Example syntax_all : syntax all =
  ([Par 10 None; MOpt; Par 11 (Some 0); Par 12 None; MKey; Par 13 (Some 1); Par 14 None], Some 15).
Proof. reflexivity. Qed.
Example few : interpreted evs (syntax all) [Obj 0] =
  Bound [(10, Obj 0); (11, Obj 100); (12, Nil); (13, Obj 101); (14, Nil); (15, Lst [])].
Proof. reflexivity. Qed.
Example none : interpreted evs (syntax all) [] = Missing 10 /\ compiled evs (syntax all) [] = Missing 10.
Proof. split; reflexivity. Qed.
Example failing : interpreted evs (syntax all) [Obj 0; Obj 1] = Failed /\ compiled evs (syntax all) [Obj 0; Obj 1] = Failed.
Proof. split; reflexivity. Qed.
Definition many : list val := [Obj 0; Obj 1; Obj 2; Obj 3; Obj 4; Kw 14; Obj 5; Kw 13; Kw 99; Obj 6].
Example many_clean : clean (map fst (key all)) (left_over all many) = true.
Proof. reflexivity. Qed.
Example many_interpreted : interpreted evs (syntax all) many =
  Bound [(10, Obj 0); (11, Obj 1); (12, Obj 2); (13, Kw 99); (14, Obj 5); (15, Lst [Obj 3; Obj 4; Obj 6])].
Proof. reflexivity. Qed.
Example many_compiled : compiled evs (syntax all) many =
  Bound [(15, Lst [Obj 3; Obj 4; Obj 6]); (14, Obj 5); (13, Kw 99); (12, Obj 2); (11, Obj 1); (10, Obj 0)].
Proof. reflexivity. Qed.
Example inlined_rest : inlined evs (syntax (mkP [10] [(11, Some 0)] [] (Some 15) false)) [Obj 0; Obj 1; Obj 2; Obj 3]
  = Bound [(15, Lst [Obj 2; Obj 3]); (11, Obj 1); (10, Obj 0)].
Proof. reflexivity. Qed.
Example inlined_default : inlined evs (syntax (mkP [10] [(11, Some 0)] [] (Some 15) false)) [Obj 0]
  = Bound [(15, Lst []); (11, Obj 100); (10, Obj 0)].
Proof. reflexivity. Qed.
