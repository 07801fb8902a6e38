(** C51-C52: compiled code and the interpreter. *)
From Coq Require Import List Arith Bool ZArith Lia.
From Verif Require Import Compile_Model Compile_Spec Compile_Proofs Compile_Sim Compile_Top Compile_Total.
Import ListNotations.
Open Scope Z_scope.

(** Instructions for the examples: + - = < times *)
Definition arith : prims := fun k ks =>
  match k, ks with
  | 0%nat, [KNum a; KNum b] => Some (KNum (a + b))
  | 1%nat, [KNum a; KNum b] => Some (KNum (a - b))
  | 2%nat, [KNum a; KNum b] => Some (if a =? b then KT else KNil)
  | 3%nat, [KNum a; KNum b] => Some (if a <? b then KT else KNil)
  | 4%nat, [KNum a; KNum b] => Some (KNum (a * b))
  | _, _ => None
  end.
Definition add a b := EBin (OP 0 2) [a; b].
Definition sub a b := EBin (OP 1 2) [a; b].
Definition mul a b := EBin (OP 4 2) [a; b].
Definition eqn a b := EPrim (OP 2 2) [a; b].
Definition lt a b := EPrim (OP 3 2) [a; b].
Definition num (z : Z) := EConst (KNum z).
Definition eif c a b := ECond [(c, [a]); (EConst KT, [b])].
Definition ps l := {| req := l; opt := []; rest := None |}.
Definition elet bs b := EInline (ps (map fst bs)) b (map snd bs).
Definition nlet f bs b :=
  ELetrec [(f, [ELam (ps (map fst bs)) b])] [ECall (EVar f) (map snd bs)].
Arguments num z%Z.
Open Scope nat_scope.

(** * C51: compiled code does what the interpreter does *)

(** What is missing for C51 in full: programs that are not [plain], which the
    refutations below show to be necessary in most cases; self tail calls and
    named-let loops whose variables are not shadowed; and programs that assign
    to a variable nobody has defined. *)

(** The interpreter returns: compiled code returns something that looks the
    same, and leaves the same global variables *)
Theorem C51_value_partial : forall P unsafe e f gs n v s,
  plain None false true e = true -> small [] e = true -> compile unsafe [] e = Some f ->
  eval P n e [] (initial gs) = RVal v s ->
  exists m v' h g, run P m (start f (data_globs gs)) = inr (Ret v' h g)
                   /\ same v v' /\ same_globs (globs s) g.
Proof.
  intros P u e f gs n v s Hp Sm C E. pose proof (compile_sim P u false e f gs Hp Sm C n) as A.
  rewrite E in A. destruct A as [m [v' [h [g [R [S G]]]]]]. exists m, v', h, g. auto.
Qed.
Print Assumptions C51_value_partial.

(** (let ((x 5)) (let ((f (lambda (y) (+ y x)))) (setq x 10) (f 7))): the
    binding of x is shared with the function *)
Definition shared := elet [(0, num 5)]
  [elet [(1, ELam (ps [2]) [add (EVar 2) (EVar 0)])]
     [ESet 0 (num 10); ECall (EVar 1) [num 7]]].
Example value_ex :
  plain None false true shared = true /\ small [] shared = true /\
  (exists f, compile false [] shared = Some f /\
   exists h, run arith 100 (start f []) = inr (Ret (VNum 17) h [])) /\
  exists s, eval arith 3 shared [] (initial []) = RVal (VNum 17) s.
Proof.
  split; [reflexivity|split; [vm_compute; reflexivity|split]].
  - eexists. split; [vm_compute; reflexivity|]. eexists. vm_compute. reflexivity.
  - eexists. vm_compute. reflexivity.
Qed.

(** mutual recursion, not in tail position of one's own name:
    (defun odd (n) (if (= n 0) nil (even (- n 1))))
    (defun even (n) (if (= n 0) t (odd (- n 1))))
    (list (odd 7) (even 7)) *)
Definition parity := EProgn
  [EDefun 0 (ps [2]) [eif (eqn (EVar 2) (num 0)) (EConst KNil) (ECall (EVar 1) [sub (EVar 2) (num 1)])];
   EDefun 1 (ps [2]) [eif (eqn (EVar 2) (num 0)) (EConst KT) (ECall (EVar 0) [sub (EVar 2) (num 1)])];
   EList [ECall (EVar 0) [num 7]; ECall (EVar 1) [num 7]]].
Example value_ex_2 :
  plain None false true parity = true /\ small [] parity = true /\
  (exists f, compile false [] parity = Some f /\
   exists h g, run arith 500 (start f []) = inr (Ret (VPair VT (VPair VNil VNil)) h g)) /\
  exists s, eval arith 20 parity [] (initial []) = RVal (VPair VT (VPair VNil VNil)) s.
Proof.
  split; [reflexivity|split; [vm_compute; reflexivity|split]].
  - eexists. split; [vm_compute; reflexivity|]. do 2 eexists. vm_compute. reflexivity.
  - eexists. vm_compute. reflexivity.
Qed.

(** The interpreter signals an error: compiled code signals the same one, the
    global variables being the same *)
Theorem C51_error_partial : forall P unsafe eff e f gs n er s,
  plain None eff true e = true -> small [] e = true -> compile unsafe [] e = Some f ->
  eval P n e [] (initial gs) = RErr er s -> is_unset er = false ->
  exists m h g, run P m (start f (data_globs gs)) = inr (Err er h g)
                /\ same_globs (globs s) g.
Proof.
  intros P u eff e f gs n er s Hp Sm C E U. pose proof (compile_sim P u eff e f gs Hp Sm C n) as A.
  rewrite E in A. destruct A as [A|A]; [congruence|exact A].
Qed.
Print Assumptions C51_error_partial.

(** (defun f (a) (setq g a) (+ a b)) (f 3), b without value *)
Definition failing := EProgn
  [EDefun 0 (ps [1]) [ESet 3 (EVar 1); add (EVar 1) (EVar 2)]; ECall (EVar 0) [num 3]].
Example error_ex :
  plain None false true failing = true /\ small [] failing = true /\
  (exists f, compile false [] failing = Some f /\
   exists h g, run arith 500 (start f (data_globs [(3, KNil)])) = inr (Err (Void 2) h g)
               /\ assoc 3 g = Some (VNum 3)) /\
  exists s, eval arith 20 failing [] (initial [(3, KNil)]) = RErr (Void 2) s
            /\ assoc 3 (globs s) = Some (VNum 3).
Proof.
  split; [reflexivity|split; [vm_compute; reflexivity|split]].
  - eexists. split; [vm_compute; reflexivity|]. do 2 eexists. vm_compute. split; reflexivity.
  - eexists. vm_compute. split; reflexivity.
Qed.

(** Programs run for their effect: definitions *)
Theorem C51_effect_partial : forall P unsafe e f gs n v s,
  plain None true true e = true -> small [] e = true -> compile unsafe [] e = Some f ->
  eval P n e [] (initial gs) = RVal v s ->
  exists m v' h g, run P m (start f (data_globs gs)) = inr (Ret v' h g)
                   /\ same_globs (globs s) g.
Proof.
  intros P u e f gs n v s Hp Sm C E. pose proof (compile_sim P u true e f gs Hp Sm C n) as A.
  rewrite E in A. destruct A as [m [v' [h [g [R [_ G]]]]]]. exists m, v', h, g. auto.
Qed.
Print Assumptions C51_effect_partial.

(** (define x (let* ((a 2) (b ( * a a))) (+ a b))) *)
Definition defining := EDefine 0
  (ELets [(1, [num 2]); (2, [mul (EVar 1) (EVar 1)])] [add (EVar 1) (EVar 2)]).
Example effect_ex :
  plain None true true defining = true /\ small [] defining = true /\
  (exists f, compile false [] defining = Some f /\
   exists v h, run arith 500 (start f []) = inr (Ret v h [(0, VNum 6)])) /\
  exists v s, eval arith 20 defining [] (initial []) = RVal v s /\ globs s = [(0, VNum 6)].
Proof.
  split; [reflexivity|split; [vm_compute; reflexivity|split]].
  - eexists. split; [vm_compute; reflexivity|]. do 2 eexists. vm_compute. reflexivity.
  - do 2 eexists. vm_compute. split; reflexivity.
Qed.

(** The interpreter never stops: compiled code never stops *)
Theorem C51_diverges_partial : forall P unsafe eff e f gs,
  plain None eff true e = true -> small [] e = true -> compile unsafe [] e = Some f ->
  (forall n, eval P n e [] (initial gs) = ROut) ->
  forall m, exists s, run P m (start f (data_globs gs)) = inl s.
Proof.
  intros P u eff e f gs Hp Sm C D m. pose proof (compile_sim P u eff e f gs Hp Sm C m) as A.
  rewrite D in A. exact A.
Qed.
Print Assumptions C51_diverges_partial.

(** (while t) *)
Example diverges_ex :
  plain None false true (EWhile (EConst KT) []) = true /\
  small [] (EWhile (EConst KT) []) = true /\
  (exists f, compile false [] (EWhile (EConst KT) []) = Some f) /\
  forall n, eval arith n (EWhile (EConst KT) []) [] (initial []) = ROut.
Proof.
  split; [reflexivity|split; [vm_compute; reflexivity|split]].
  - eexists. vm_compute. reflexivity.
  - induction n as [|n IH]; [reflexivity|]. exact IH.
Qed.

(** Compiled code stops: so does the interpreter, with as much fuel as the
    machine took steps, and with the same result *)
Theorem C51_converse_partial : forall P unsafe e f gs m o,
  plain None false true e = true -> small [] e = true -> compile unsafe [] e = Some f ->
  run P m (start f (data_globs gs)) = inr o ->
  match eval P m e [] (initial gs) with
  | RVal v s => exists v' h g, o = Ret v' h g /\ same v v' /\ same_globs (globs s) g
  | RErr er s => is_unset er = true \/ exists h g, o = Err er h g /\ same_globs (globs s) g
  | ROut => False
  end.
Proof.
  intros P u e f gs m o Hp Sm C R.
  pose proof (agrees_stop _ _ _ _ _ _ _ (compile_sim P u false e f gs Hp Sm C m) R) as A.
  destruct (eval P m e [] (initial gs)); [|exact A..].
  destruct A as [v' [h [g [-> [S G]]]]]. exists v', h, g. auto.
Qed.
Print Assumptions C51_converse_partial.

(** (cond ((car x)) (t (case 2 ((1 2) (prog1 8 9))))) *)
Definition choosing := ECond
  [(EPrim OCar [EVar 0], []);
   (EConst KT, [ECase (num 2) [(Some [KNum 1; KNum 2], [EProg1 (num 8) [num 9]])]])].
Example converse_ex :
  plain None false true choosing = true /\ small [] choosing = true /\
  (exists f, compile false [] choosing = Some f /\
   (exists h g, run arith 40 (start f (data_globs [(0, KNil)])) = inr (Ret (VNum 8) h g)) /\
   (exists h g, run arith 40 (start f (data_globs [(0, KPair KT KNil)])) = inr (Ret VT h g)) /\
   (exists h g, run arith 40 (start f (data_globs [])) = inr (Err (Void 0) h g))).
Proof.
  split; [reflexivity|split; [vm_compute; reflexivity|]].
  eexists. split; [vm_compute; reflexivity|].
  repeat split; do 2 eexists; vm_compute; reflexivity.
Qed.

(** The compiler accepts every such program, if functions that are called where
    they are written get the arguments they require and are nested no more than
    63 deep, and clauses of case list a key *)
Theorem C51_compiles_partial : forall unsafe eff e,
  plain None eff true e = true -> shape 63 e = true -> exists f, compile unsafe [] e = Some f.
Proof. exact compile_total. Qed.
Print Assumptions C51_compiles_partial.

(** a function in a function in a function, using the variables of all:
    ((lambda (x) (lambda (y) (lambda () (setq x (+ x y))))) 1) *)
Definition nested := EInline (ps [0])
  [ELam (ps [1]) [ELam (ps []) [ESet 0 (add (EVar 0) (EVar 1))]]] [num 1].
Example compiles_ex :
  plain None false true nested = true /\ shape 63 nested = true /\
  shape 63 (EInline (ps [0]) [EVar 0] []) = false /\
  compile false [] (EInline (ps [0]) [EVar 0] []) = None.
Proof. repeat (apply conj; [vm_compute; reflexivity|]). vm_compute. reflexivity. Qed.

(** C51 is false of programs in general; each of these is a program that the
    compiler accepts without complaint. *)

(** A self tail call assigns to the parameters by name: when a parameter is
    shadowed at the call, the inner variable is assigned to, and the loop never
    ends.  (defun f (x) (if (= x 0) 7 (let ((x (- x 1))) (f x)))) (f 3) *)
Definition shadowing := EProgn
  [EDefun 0 (ps [1]) [eif (eqn (EVar 1) (num 0)) (num 7)
      (elet [(1, sub (EVar 1) (num 1))] [ECall (EVar 0) [EVar 1]])];
   ECall (EVar 0) [num 3]].
Theorem C51_shadowed_parameter_refuted :
  exists P e f, compile false [] e = Some f /\ small [] e = true /\
  (exists n s, eval P n e [] (initial []) = RVal (VNum 7) s) /\
  (forall m, exists s, run P m (start f []) = inl s).
Proof.
  exists arith, shadowing. eexists. split; [vm_compute; reflexivity|].
  split; [vm_compute; reflexivity|split].
  - exists 10. eexists. vm_compute. reflexivity.
  - eapply (run_loop _ 25 13); vm_compute; reflexivity.
Qed.
Print Assumptions C51_shadowed_parameter_refuted.

(** The same when the name of the function is shadowed: the call is a jump to
    the beginning of the function.
    (defun f (x) (let ((f (lambda (y) 42))) (f x))) (f 3) *)
Definition shadowed_name := EProgn
  [EDefun 0 (ps [1]) [elet [(0, ELam (ps [3]) [num 42])] [ECall (EVar 0) [EVar 1]]];
   ECall (EVar 0) [num 3]].
Theorem C51_shadowed_name_refuted :
  exists P e f, compile false [] e = Some f /\ small [] e = true /\
  (exists n s, eval P n e [] (initial []) = RVal (VNum 42) s) /\
  (forall m, exists o, run P m (start f []) = inl o).
Proof.
  exists arith, shadowed_name. eexists. split; [vm_compute; reflexivity|].
  split; [vm_compute; reflexivity|split].
  - exists 10. eexists. vm_compute. reflexivity.
  - eapply (run_loop _ 30 8); vm_compute; reflexivity.
Qed.
Print Assumptions C51_shadowed_name_refuted.

(** A function declared inline that calls itself, not in tail position, where
    it is expanded in tail position: the inner call is a jump.
    (defsubst fact (n) (if (= n 0) 1 ( * n (fact (- n 1))))) (fact 3) *)
Definition fact := (ps [1], [eif (eqn (EVar 1) (num 0)) (num 1)
                               (mul (EVar 1) (ECall (EVar 0) [sub (EVar 1) (num 1)]))]).
Theorem C51_inline_recursion_refuted :
  exists P p b e f, compile false [(0, (p, b))] e = Some f /\
  (exists n s, eval P n (EProgn [EDefun 0 p b; e]) [] (initial []) = RVal (VNum 6) s) /\
  ~ exists m h g, run P m (start f []) = inr (Ret (VNum 6) h g).
Proof.
  exists arith, (fst fact), (snd fact), (ECall (EVar 0) [num 3]).
  eexists. split; [vm_compute; reflexivity|split].
  - exists 10. eexists. vm_compute. reflexivity.
  - intros [m [h [g R]]].
    match type of R with run ?p _ ?s = _ =>
      assert (X : exists o, run p 200 s = inr o /\ match o with Ret (VNum 6) _ _ => False | _ => True end)
      by (eexists; split; [vm_compute; reflexivity|exact I]) end.
    destruct X as [o [X N]]. rewrite (run_one _ _ _ _ _ _ X R) in N. exact N.
Qed.
Print Assumptions C51_inline_recursion_refuted.

(** More arguments than parameters, in ((lambda (x) x) 1 2): the interpreter
    drops the last, compiled code the first *)
Theorem C51_surplus_arguments_refuted :
  exists P e f s h, compile false [] e = Some f /\
  eval P 5 e [] (initial []) = RVal (VNum 1) s /\
  run P 50 (start f []) = inr (Ret (VNum 2) h []).
Proof.
  exists arith, (EInline (ps [0]) [EVar 0] [num 1; num 2]). do 3 eexists.
  split; [vm_compute; reflexivity|]. split; vm_compute; reflexivity.
Qed.
Print Assumptions C51_surplus_arguments_refuted.

(** Two parameters of the same name: the interpreter binds the last one last,
    compiled code, taking the values from the stack, the first *)
Theorem C51_same_names_refuted :
  exists P e f s h, compile false [] e = Some f /\
  eval P 5 e [] (initial []) = RVal (VNum 2) s /\
  run P 50 (start f []) = inr (Ret (VNum 1) h []).
Proof.
  exists arith, (EInline (ps [0; 0]) [EVar 0] [num 1; num 2]). do 3 eexists.
  split; [vm_compute; reflexivity|]. split; vm_compute; reflexivity.
Qed.
Print Assumptions C51_same_names_refuted.

(** Assignment to a variable without a value: the interpreter stops there,
    compiled code goes on and signals the error when it returns.
    (setq a 1) (setq b 2) with b defined *)
Theorem C51_void_setq_refuted :
  exists P e f s h g, compile false [] e = Some f /\ plain None false true e = true /\
  eval P 5 e [] (initial [(1, KNil)]) = RErr (Unset 0) s /\ assoc 1 (globs s) = Some VNil /\
  run P 50 (start f (data_globs [(1, KNil)])) = inr (Err (Unset 0) h g) /\
  assoc 1 g = Some (VNum 2).
Proof.
  exists arith, (EProgn [ESet 0 (num 1); ESet 1 (num 2)]). do 4 eexists.
  split; [vm_compute; reflexivity|]. split; [reflexivity|]. repeat (apply conj; [vm_compute; reflexivity|]); vm_compute; reflexivity.
Qed.
Print Assumptions C51_void_setq_refuted.

(** The value of a definition: #undefined, or the value that was defined *)
Theorem C51_definition_value_refuted :
  exists P e f s h g, compile false [] e = Some f /\
  eval P 5 e [] (initial []) = RVal VUndef s /\
  run P 50 (start f []) = inr (Ret (VNum 1) h g).
Proof.
  exists arith, (EDefine 0 (num 1)). do 4 eexists.
  split; [vm_compute; reflexivity|]. split; vm_compute; reflexivity.
Qed.
Print Assumptions C51_definition_value_refuted.

(** A clause of case without forms: nil, or the value of the test *)
Theorem C51_empty_clause_refuted :
  exists P e f s h, compile false [] e = Some f /\
  eval P 5 e [] (initial []) = RVal VT s /\
  run P 50 (start f []) = inr (Ret VNil h []).
Proof.
  exists arith, (ECase (num 1) [(Some [KNum 1%Z], [])]). do 3 eexists.
  split; [vm_compute; reflexivity|]. split; vm_compute; reflexivity.
Qed.
Print Assumptions C51_empty_clause_refuted.

(** More arguments than an instruction takes: (car x (setq y 2)), the last is
    not evaluated *)
Theorem C51_instruction_arguments_refuted :
  exists P e f s h g, compile false [] e = Some f /\
  eval P 5 e [] (initial [(1, KNil)]) = RVal VNil s /\ assoc 1 (globs s) = Some (VNum 2) /\
  run P 50 (start f (data_globs [(1, KNil)])) = inr (Ret VNil h g) /\ assoc 1 g = Some VNil.
Proof.
  exists arith, (EPrim OCar [EConst KNil; ESet 1 (num 2)]). do 4 eexists.
  split; [vm_compute; reflexivity|]. repeat (apply conj; [vm_compute; reflexivity|]); vm_compute; reflexivity.
Qed.
Print Assumptions C51_instruction_arguments_refuted.

(** * C52: the sizes a function declares for its stacks suffice *)

(** No run of compiled code takes from an empty stack, or puts more on a stack
    than it was allocated for, jumps to a label that is not there, or reads a
    variable that has no place; unless the interpreter complains of an
    assignment to an undefined variable *)
Theorem C52_never_stuck_partial : forall P unsafe eff e f gs m,
  plain None eff true e = true -> small [] e = true -> compile unsafe [] e = Some f ->
  run P m (start f (data_globs gs)) = inr Stuck ->
  exists x s, eval P m e [] (initial gs) = RErr (Unset x) s.
Proof.
  intros P u eff e f gs m Hp Sm C R.
  pose proof (agrees_stop _ _ _ _ _ _ _ (compile_sim P u eff e f gs Hp Sm C m) R) as A.
  destruct (eval P m e [] (initial gs)) as [v s|er s|]; [| |contradiction].
  - destruct A as [v' [h [g [E _]]]]. discriminate.
  - destruct A as [U|[h [g [E _]]]]; [|discriminate].
    destruct er as [x|x|k| |]; try discriminate. now exists x, s.
Qed.
Print Assumptions C52_never_stuck_partial.

(** (list 1 2 (let* ((x (list 3 4 5))) (f x 6 7))), f undefined or not a
    function *)
Definition deep := EList [num 1; num 2;
  ELets [(0, [EList [num 3; num 4; num 5]])] [ECall (EVar 1) [EVar 0; num 6; num 7]]].
Example never_stuck_ex :
  plain None false true deep = true /\ small [] deep = true /\
  (exists f, compile false [] deep = Some f /\
   exists h g, run arith 100 (start f (data_globs [(1, KT)])) = inr (Err NotFun h g)).
Proof.
  split; [reflexivity|split; [vm_compute; reflexivity|]].
  eexists. split; [vm_compute; reflexivity|]. do 2 eexists. vm_compute. reflexivity.
Qed.

(** The sizes are packed into ten bits each: (list 1 1 ... 1) with 1025
    arguments declares a stack of 1 *)
Theorem C52_ten_bits_refuted :
  exists P e f s v, plain None false true e = true /\ compile false [] e = Some f /\
  eval P 5 e [] (initial []) = RVal v s /\ run P 50 (start f []) = inr Stuck.
Proof.
  exists arith, (EList (repeat (num 1) 1025)). do 3 eexists.
  split; [vm_compute; reflexivity|]. split; [vm_compute; reflexivity|]. split; vm_compute; reflexivity.
Qed.
Print Assumptions C52_ten_bits_refuted.

(** (list 7 (funcall (lambda (a b c) (list a b c)) 1 2 3) (list 1 2 3 4)): the
    count for an open-coded funcall is wrong, and the stack too small *)
Definition open_funcall := EList [num 7;
  EFuncall (ELam (ps [0; 1; 2]) [EList [EVar 0; EVar 1; EVar 2]]) [num 1; num 2; num 3];
  EList [num 1; num 2; num 3; num 4]].
Theorem C52_funcall_refuted :
  exists P e f s v, compile false [] e = Some f /\ small [] e = true /\
  eval P 5 e [] (initial []) = RVal v s /\ run P 50 (start f []) = inr Stuck.
Proof.
  exists arith, open_funcall. do 3 eexists.
  split; [vm_compute; reflexivity|]. split; [vm_compute; reflexivity|]. split; vm_compute; reflexivity.
Qed.
Print Assumptions C52_funcall_refuted.

(** A case inside a named let that is an argument: leaving the loop's body by a
    jump to its head takes more from the stack than there is.
    (list 1 2 (let loop ((i 2)) (case i ((9) 0)) (if (< 0 i) (loop (- i 1)) i))) *)
Definition case_loop := EList [num 1; num 2; nlet 0 [(1, num 2)]
  [ECase (EVar 1) [(Some [KNum 9%Z], [num 0])];
   eif (lt (num 0) (EVar 1)) (ECall (EVar 0) [sub (EVar 1) (num 1)]) (EVar 1)]].
Theorem C52_case_in_loop_refuted :
  exists P e f s v, compile false [] e = Some f /\ small [] e = true /\
  eval P 9 e [] (initial []) = RVal v s /\ run P 200 (start f []) = inr Stuck.
Proof.
  exists arith, case_loop. do 3 eexists.
  split; [vm_compute; reflexivity|]. split; [vm_compute; reflexivity|]. split; vm_compute; reflexivity.
Qed.
Print Assumptions C52_case_in_loop_refuted.
