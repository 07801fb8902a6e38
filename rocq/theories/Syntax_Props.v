From Coq Require Import String ZArith List Bool Arith Lia.
From Verif Require Import Syntax_Model Syntax_Spec Syntax_Proofs Syntax_Forms Syntax_Keep Syntax_Loops.
Import ListNotations.
Open Scope string_scope.

(** ** Conditionals *)
Theorem C74_if : forall world call_prim e s c a b s' r, plain e ->
  (ev world call_prim e s (Cons (Sym "if") (Cons c (Cons a (form_list b)))) s' r <->
   if_means world call_prim e s c a (form_list b) s' r).
Proof. exact if_ok. Qed.
Print Assumptions C74_if.

Theorem C74_when : forall world call_prim e s c fs s' r, plain e ->
  (ev world call_prim e s (Cons (Sym "when") (Cons c fs)) s' r <->
   if_means world call_prim e s c (Cons (Sym "progn") fs) Nil s' r).
Proof. exact when_ok. Qed.
Print Assumptions C74_when.

Theorem C74_unless : forall world call_prim e s c fs s' r, plain e ->
  (ev world call_prim e s (Cons (Sym "unless") (Cons c fs)) s' r <->
   if_means world call_prim e s c Nil fs s' r).
Proof. exact unless_ok. Qed.
Print Assumptions C74_unless.

Theorem C74_progn : forall world call_prim e s fs s' r, plain e ->
  (ev world call_prim e s (Cons (Sym "progn") fs) s' r <-> evs world call_prim e s fs s' r).
Proof. exact ev_progn. Qed.
Print Assumptions C74_progn.

Theorem C74_or : forall world call_prim e l s s' r, plain e ->
  (ev world call_prim e s (Cons (Sym "or") (form_list l)) s' r <-> or_means world call_prim e s l s' r).
Proof. exact or_ok. Qed.
Print Assumptions C74_or.

Theorem C74_and : forall world call_prim e l s s' r, plain e ->
  (ev world call_prim e s (Cons (Sym "and") (form_list l)) s' r <-> and_means world call_prim e s l s' r).
Proof. exact and_ok. Qed.
Print Assumptions C74_and.

(** A clause of [case] has a body, and at least one item or t. *)
Theorem C74_case : forall world call_prim e s key cs s' r, plain e ->
  Forall (fun c => fst c <> Some [] /\ consp (snd c) = true) cs ->
  (ev world call_prim e s (Cons (Sym "case") (Cons key (form_list (map clause_form cs)))) s' r <->
   case_means world call_prim e s key cs s' r).
Proof. exact case_ok. Qed.
Print Assumptions C74_case.

(** ** Bindings *)
Theorem C74_let : forall world call_prim e s bs body s' r, plain e -> Forall variable (map fst bs) ->
  (ev world call_prim e s (Cons (Sym "let") (Cons (form_list (map binding_form bs)) body)) s' r <->
   let_means world call_prim e s bs body s' r).
Proof. exact let_ok. Qed.
Print Assumptions C74_let.

Theorem C74_let_star : forall world call_prim e s bs body s' r, plain e -> Forall variable (map fst bs) ->
  (ev world call_prim e s (Cons (Sym "let*") (Cons (form_list (map binding_form bs)) body)) s' r <->
   lets_means world call_prim body e s bs s' r).
Proof. exact lets_ok. Qed.
Print Assumptions C74_let_star.

Theorem C74_letrec : forall world call_prim e s bs body s' r, plain e -> Forall variable (map fst bs) -> consp body = true ->
  (ev world call_prim e s (Cons (Sym "letrec") (Cons (form_list (map binding_form bs)) body)) s' r <->
   letrec_means world call_prim e s bs body s' r).
Proof. exact letrec_ok. Qed.
Print Assumptions C74_letrec.

Theorem C74_named_let : forall world call_prim e s fn bs body s' r, plain e -> variable fn -> Forall variable (map fst bs) ->
  (ev world call_prim e s (Cons (Sym "let") (Cons fn (Cons (form_list (map binding_form bs)) body))) s' r <->
   named_let_means world call_prim e s fn bs body s' r).
Proof. exact named_let_ok. Qed.
Print Assumptions C74_named_let.

(** ** Sequences and loops: the symbol of gensym is hidden from the program *)
Theorem C74_prog1 : forall world call_prim e s f l s' r, plain e ->
  state_fresh world s -> env_fresh (next_gen s) (here world s) e ->
  absent (next_gen s) f -> absent (next_gen s) (form_list l) ->
  (ev world call_prim e s (Cons (Sym "prog1") (Cons f (form_list l))) s' r <->
   prog1_means world call_prim e s f (form_list l) s' r).
Proof. exact prog1_ok. Qed.
Print Assumptions C74_prog1.

Theorem C74_prog2 : forall world call_prim e s a b fs s' r, plain e ->
  (ev world call_prim e s (Cons (Sym "prog2") (Cons a (Cons b fs))) s' r <->
   (exists x, ev world call_prim e s a s' (Exit x) /\ r = Exit x) \/
   (exists s1 v, ev world call_prim e s a s1 (Ret v) /\
      ev world call_prim e s1 (Cons (Sym "prog1") (Cons b fs)) s' r)).
Proof. exact prog2_ok. Qed.
Print Assumptions C74_prog2.

Theorem C74_while : forall world call_prim e s c b, plain e ->
  state_fresh world s -> env_fresh (next_gen s) (here world s) e ->
  absent (next_gen s) c -> absent (next_gen s) b ->
  exists hidden, forall s' r, ev world call_prim e s (Cons (Sym "while") (Cons c b)) s' r <->
    while_means world call_prim ((Gen (next_gen s), here world s) :: e) c b (push world (gensym s) [hidden]) s' r.
Proof. exact while_ok. Qed.
Print Assumptions C74_while.

Theorem C74_do : forall world call_prim e s vs c ends bl, plain e ->
  state_fresh world s -> env_fresh (next_gen s) (here world s) e -> Forall variable (do_names vs) ->
  absent (next_gen s) (form_list (map do_var_form vs)) -> absent (next_gen s) c ->
  absent (next_gen s) ends -> absent (next_gen s) (form_list bl) ->
  exists hidden, forall s' r,
    ev world call_prim e s (Cons (Sym "do") (Cons (form_list (map do_var_form vs)) (Cons (Cons c ends) (form_list bl)))) s' r <->
    (let e' := (Gen (next_gen s), here world s) :: e in
     (exists x, inits world call_prim e' (push world (gensym s) [hidden]) (do_inits vs) s' (inl x) /\ r = Exit x) \/
     (exists s1 us, inits world call_prim e' (push world (gensym s) [hidden]) (do_inits vs) s1 (inr us) /\
        do_means world call_prim e' vs c ends (form_list bl) s1 us s' r)).
Proof. exact do_ok. Qed.
Print Assumptions C74_do.

(** Nothing evaluated under the hypotheses of the last three changes what the
    hidden symbol stands for or leaves a use of it where it can be found, unless
    the loop itself is still running: *)
Theorem C74_hidden_kept : forall world call_prim e s v f s' r, plain e ->
  state_fresh world s -> env_fresh (next_gen s) (here world s) e ->
  value_fresh (next_gen s) (here world s) v -> absent (next_gen s) f ->
  ev world call_prim ((Gen (next_gen s), here world s) :: e) (push world (gensym s) [v]) f s' r ->
  nth_error (store s') (here world s) = Some v.
Proof.
  intros world call_prim e s v f s' r P SF EF VF A H. set (g := next_gen s) in *.
  assert (O : oks world g (Some (here world s)) (push world (gensym s) [v])).
  { apply (hide_state world call_prim g (gensym s)); [apply (fresh_state world call_prim); auto|].
    apply okval_le with (k := here world s); [auto|]. apply (hide_val world call_prim). apply (fresh_val world call_prim). auto. }
  destruct (keep_ev world call_prim g (Some (here world s)) ((Gen g, here world s) :: e) (push world (gensym s) [v]) f s' r O) as ((_ & X) & _); auto.
  - replace (here world (push world (gensym s) [v])) with (S (here world s)).
    + apply hide_env_new. apply fresh_env. auto.
    + unfold here, push. cbn [set_store store gensym]. rewrite app_length. cbn. lia.
  - rewrite X by auto. apply (push_nth world (gensym s)).
Qed.
Print Assumptions C74_hidden_kept.

(** ** Examples: [call_prim] 0 adds one, 1 adds its argument to the sum outside *)
Definition prims (k : nat) (vs : list value) (w : Z) : Z * (sexp + sexp) :=
  match k, vs with
  | 0, VAtom (Num z) :: _ => (w, inl (Num (z + 1)))
  | 1, VAtom (Num z) :: _ => ((w + z)%Z, inl (Num (w + z)))
  | _, _ => (w, inr (Sym "bad-arg"))
  end.
Definition start : state Z :=
  mk_state [] (fun x => match x with
                        | Sym n => if String.eqb n "inc" then Some (Prim (POther 0))
                                   else if String.eqb n "add" then Some (Prim (POther 1))
                                   else if String.eqb n "f" then Some (VAtom (Num 1)) else None
                        | _ => None end) 0 0%Z.
Definition run (f : sexp) : option (Z * res) :=
  match eval prims 200 [] start f with Some (s, r) => Some (outside s, r) | None => None end.
Definition sy (x : string) : sexp := Sym x.
Definition L := form_list.
Definition N (z : Z) : sexp := Num z.

Lemma start_plain : plain [].
Proof. intros x _. reflexivity. Qed.
Lemma start_fresh : state_fresh Z start /\ env_fresh (next_gen start) (here Z start) [].
Proof.
  split; [split|].
  - intros v [].
  - intros x v H. cbn in H. destruct x; try discriminate.
    repeat match type of H with (if ?b then _ else _) = _ => destruct b end; inversion H; exact I.
  - intros x p [].
Qed.

(* (let ((i 0)) (while (not (eql i 4)) (setq i (inc i)) (add i)) i) adds 1, 2, 3 and 4 *)
Example while_runs : run (L [sy "let"; L [L [sy "i"; N 0]];
    L [sy "while"; L [sy "not"; L [sy "eql"; sy "i"; N 4]]; L [sy "setq"; sy "i"; L [sy "inc"; sy "i"]]; L [sy "add"; sy "i"]]; sy "i"])
  = Some (10%Z, Ret (VAtom (Num 4))).
Proof. vm_compute. reflexivity. Qed.
(* (do ((i 0 (inc i)) (last nil i)) ((eql i 3) last) (add i)) *)
Example do_runs : run (L [sy "do"; L [L [sy "i"; N 0; L [sy "inc"; sy "i"]]; L [sy "last"; Nil; sy "i"]];
    L [L [sy "eql"; sy "i"; N 3]; sy "last"]; L [sy "add"; sy "i"]])
  = Some (3%Z, Ret (VAtom (Num 2))).
Proof. vm_compute. reflexivity. Qed.
(* (case (inc 2) ((1 2) 'low) ((3) (prog1 'three (add 5))) (t 'other)) *)
Example case_runs : run (L [sy "case"; L [sy "inc"; N 2]; L [L [N 1; N 2]; L [sy "quote"; sy "low"]];
    L [L [N 3]; L [sy "prog1"; L [sy "quote"; sy "three"]; L [sy "add"; N 5]]]; L [sy "t"; L [sy "quote"; sy "other"]]])
  = Some (5%Z, Ret (VAtom (Sym "three"))).
Proof. vm_compute. reflexivity. Qed.
(* (letrec ((loop (lambda (n) (or (eql n 3) (loop (inc n)))))) (and (loop 0) (let* ((a 1) (b (inc a))) b))) *)
Example letrec_runs : run (L [sy "letrec"; L [L [sy "loop"; L [sy "lambda"; L [sy "n"]; L [sy "or"; L [sy "eql"; sy "n"; N 3]; L [sy "loop"; L [sy "inc"; sy "n"]]]]]];
    L [sy "and"; L [sy "loop"; N 0]; L [sy "let*"; L [L [sy "a"; N 1]; L [sy "b"; L [sy "inc"; sy "a"]]]; sy "b"]]])
  = Some (0%Z, Ret (VAtom (Num 2))).
Proof. vm_compute. reflexivity. Qed.
(* (let sum ((i 0) (acc 0)) (if (eql i 3) acc (sum (inc i) (inc (inc acc))))) *)
Example named_let_runs : run (L [sy "let"; sy "sum"; L [L [sy "i"; N 0]; L [sy "acc"; N 0]];
    L [sy "if"; L [sy "eql"; sy "i"; N 3]; sy "acc"; L [sy "sum"; L [sy "inc"; sy "i"]; L [sy "inc"; L [sy "inc"; sy "acc"]]]]])
  = Some (0%Z, Ret (VAtom (Num 6))).
Proof. vm_compute. reflexivity. Qed.
(* (prog2 (add 1) (add 2) (add 4)) *)
Example prog2_runs : run (L [sy "prog2"; L [sy "add"; N 1]; L [sy "add"; N 2]; L [sy "add"; N 4]]) = Some (7%Z, Ret (VAtom (Num 3))).
Proof. vm_compute. reflexivity. Qed.
(* (when (unless t (add 1)) (add 2)) *)
Example when_runs : run (L [sy "when"; L [sy "unless"; sy "t"; L [sy "add"; N 1]]; L [sy "add"; N 2]]) = Some (0%Z, Ret (VAtom Nil)).
Proof. vm_compute. reflexivity. Qed.
(* an error in a loop leaves it: (while (add 1) (add 'x)) *)
Example exit_runs : run (L [sy "while"; L [sy "add"; N 1]; L [sy "add"; L [sy "quote"; sy "x"]]]) = Some (1%Z, Exit (VAtom (Sym "bad-arg"))).
Proof. vm_compute. reflexivity. Qed.

(** ** What does not hold *)

Lemma run_ev : forall e s f s' r n, eval prims n e s f = Some (s', r) -> ev Z prims e s f s' r.
Proof. intros. exists n. auto. Qed.
Definition after (n : nat) (e : env) (s : state Z) (f : sexp) : state Z := match eval prims n e s f with Some (s', _) => s' | None => s end.
Definition result (n : nat) (e : env) (s : state Z) (f : sexp) : res := match eval prims n e s f with Some (_, r) => r | None => Exit (VAtom Nil) end.
Lemma after_ev : forall n e s f, match eval prims n e s f with Some _ => true | None => false end = true ->
  ev Z prims e s f (after n e s f) (result n e s f).
Proof. intros n e s f H. exists n. unfold after, result. destruct (eval prims n e s f) as [[]|]; [reflexivity|discriminate]. Qed.

(** A clause of [case] with no items matches nil: (case nil (() 1)) is 1. *)
Theorem C74_case_empty_refuted : exists e s key cs s' r, plain e /\ Forall (fun c => consp (snd c) = true) cs /\
  ev Z prims e s (Cons (Sym "case") (Cons key (form_list (map clause_form cs)))) s' r /\
  ~ case_means Z prims e s key cs s' r.
Proof.
  exists [], start, Nil, [(Some [], L [N 1])], (push Z (gensym start) [VAtom Nil]), (Ret (VAtom (Num 1))).
  split; [apply start_plain|]. split; [repeat constructor|]. split.
  - apply (run_ev _ _ _ _ _ 50). vm_compute. reflexivity.
  - intros H. inversion H as [s1 x K|s1 v K M|s1 v before c after s2 r K E M1 M2 B]; subst.
    destruct before as [|d [|]]; inversion E; subst. discriminate.
Qed.
Print Assumptions C74_case_empty_refuted.

(** The values of a named let are evaluated where the name already stands for
    the function: (let f ((x f)) x), with f a variable outside. *)
Theorem C74_named_let_scope_refuted : exists e s fn bs body s1 vs s2 r, plain e /\ variable fn /\ Forall variable (map fst bs) /\
  inits Z prims e s bs s1 (inr vs) /\ vs = [VAtom (Num 1)] /\
  ev Z prims e s (Cons (Sym "let") (Cons fn (Cons (form_list (map binding_form bs)) body))) s2 r /\
  body = L [Sym "x"] /\ map fst bs = [Sym "x"] /\ r <> Ret (VAtom (Num 1)).
Proof.
  exists [], start, (Sym "f"), [(Sym "x", Some (L [Sym "f"]))], (L [Sym "x"]), start, [VAtom (Num 1)].
  set (f := Cons (Sym "let") (Cons (Sym "f") (Cons (form_list (map binding_form [(Sym "x", Some (L [Sym "f"]))])) (L [Sym "x"])))).
  exists (after 40 [] start f), (result 40 [] start f).
  split; [apply start_plain|]. split; [split; reflexivity|]. split; [repeat constructor|].
  split. { eapply Inits_value; [|constructor]. exists 3. reflexivity. }
  split; [reflexivity|]. split; [|split; [reflexivity|split; [reflexivity|]]].
  - apply after_ev. vm_compute. reflexivity.
  - assert (E : match result 40 [] start f with Ret (Clo _ _) => true | _ => false end = true) by (vm_compute; reflexivity).
    intros H. rewrite H in E. discriminate.
Qed.
Print Assumptions C74_named_let_scope_refuted.

(** The expansions refer to [not] and [eql] by name: a local variable of that
    name changes what unless does. *)
Theorem C74_unless_local_refuted : exists e s c fs s1 s' r,
  ev Z prims e s c s1 (Ret (VAtom Nil)) /\
  ev Z prims e s (Cons (Sym "unless") (Cons c fs)) s' r /\ fs = L [N 7] /\ r = Ret (VAtom Nil).
Proof.
  exists [(Sym "not", 0)], (mk_state [Prim PMemql] (globals start) 0 0%Z), Nil, (L [N 7]).
  set (e := [(Sym "not", 0)]). set (s := mk_state [Prim PMemql] (globals start) 0 0%Z). set (f := Cons (Sym "unless") (Cons Nil (L [N 7]))).
  exists s, (after 40 e s f), (result 40 e s f). split; [exists 1; reflexivity|].
  split; [apply after_ev; vm_compute; reflexivity|]. split; [reflexivity|vm_compute; reflexivity].
Qed.
Print Assumptions C74_unless_local_refuted.

(** (letrec ((x 1))) is 1: with no body the last value set is returned *)
Theorem C74_letrec_empty_refuted : exists e s bs s' r, plain e /\ Forall variable (map fst bs) /\
  ev Z prims e s (Cons (Sym "letrec") (Cons (form_list (map binding_form bs)) Nil)) s' r /\
  ~ letrec_means Z prims e s bs Nil s' r.
Proof.
  exists [], start, [(Sym "x", Some (L [N 1]))], (push Z start [VAtom (Num 1)]), (Ret (VAtom (Num 1))).
  split; [apply start_plain|]. split; [repeat constructor|]. split.
  - apply (run_ev _ _ _ _ _ 40). vm_compute. reflexivity.
  - intros H. unfold letrec_means in H. cbn [map fst names] in H.
    inversion H as [ | |s1 b l s2 v p s3 r K LK K2]; subst.
    inversion K2 as [s4 s5 r5 K3| |]; subst. apply evs_atom in K3; [|reflexivity]. destruct K3; discriminate.
Qed.
Print Assumptions C74_letrec_empty_refuted.
