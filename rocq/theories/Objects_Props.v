(** C80: message-passing objects (lisp/rep/data/objects.jl). *)

From Coq Require Import List Arith Bool ZArith Lia.
Import ListNotations.
Require Import Verif.Objects_Model Verif.Objects_Spec Verif.Objects_Proofs.

(** A program gives a value, or an error, and leaves the store, exactly if
    single inheritance says so: methods come from the nearest object, and self
    in them is the object that the message was sent to, however far away the
    method was found.  Objects do not answer for ever by passing on. *)
Theorem C80_inheritance : forall objects prim E e st,
  made_after objects -> free_objects objects -> free_prim prim ->
  Forall (fun b => free (snd b)) E ->
  free_expr e -> Forall free st ->
  forall st',
  (forall v, (exists fuel, eval objects prim fuel E e st = Done v st') <-> means objects prim E e st (Value v) st') /\
  (forall x, (exists fuel, eval objects prim fuel E e st = Err x st') <-> means objects prim E e st (Error x) st').
Proof.
  intros objects prim E e st MA FO FP FE Fe FS st'. split; intros r; split.
  - intros (fuel & H). assert (S := eval_sound objects prim MA FO FP fuel E e st FE Fe FS). rewrite H in S. exact (proj1 S).
  - intros M. destruct (proj1 (complete objects prim MA FO FP) _ _ _ _ _ M E (fun x => eq_refl) FE Fe FS) as (_ & _ & f & H).
    exists f. exact (H f (le_n f)).
  - intros (fuel & H). assert (S := eval_sound objects prim MA FO FP fuel E e st FE Fe FS). rewrite H in S. exact (proj1 S).
  - intros M. destruct (proj1 (complete objects prim MA FO FP) _ _ _ _ _ M E (fun x => eq_refl) FE Fe FS) as (_ & _ & f & H).
    exists f. exact (H f (le_n f)).
Qed.
Print Assumptions C80_inheritance.

(** A message finds its method, or is refused, whatever the methods do: the
    number of objects bounds how often it is passed on *)
Theorem C80_found : forall objects prim ev o op args st,
  made_after objects -> Forall free args ->
  (exists p r e, has_method objects o op (Body p r e) /\
     exists E, sees p r args (Obj o) E /\ call objects prim ev (length objects) o op args st = ev E e st) \/
  (exists p, has_method objects o op (Function p) /\
     call objects prim ev (length objects) o op args st = match prim p args with Some v => Done v st | None => Err Bad st end) \/
  ((forall m, ~ has_method objects o op m) /\ call objects prim ev (length objects) o op args st = Err (Unknown op) st).
Proof.
  intros objects prim ev o op args st MA FA. destruct (call_start objects prim MA ev op args st o FA) as [(m & H & E)|H].
  - destruct m as [p r e|p].
    + left. exists p, r, e. split; [exact H|]. exists (rev (bindings p r 0 args) ++ [(self_name, Obj o)]). split; [apply bound_sees|exact E].
    + right. left. exists p. split; [exact H|exact E].
  - right. right. exact H.
Qed.
Print Assumptions C80_found.

(** An object has one method of a name *)
Theorem C80_one_method : forall objects o op m m',
  has_method objects o op m -> has_method objects o op m' -> m = m'.
Proof. exact has_method_fun. Qed.
Print Assumptions C80_one_method.

(** Three objects: 0 has `twice', which sends `get' to self twice and keeps the
    answer in variable 0, and `get'; 1 is based on 0; 2 on 1 with another `get'.
    Names: twice 1, get 2, self 0, x 5 *)
Definition ex_objects : list object :=
  [ mko Nil [ (Sym 1, Body [5] None (Progn (SetCell 0 (Send (Local self_name) (Lit (Sym 2)) [Local 5])) (Send (Local self_name) (Lit (Sym 2)) [Cell 0])));
              (Sym 2, Body [5] None (Local 5)) ];
    mko (Obj 0) [ (Sym 3, Function 0) ];
    mko (Obj 1) [ (Sym 2, Body [5] (Some 6) (Send (Lit (Obj 1)) (Lit (Sym 3)) [Local 5])) ] ].
Definition ex_prim (p : nat) (args : list val) : option val :=
  match args with Num z :: _ => Some (Num (z + 10)) | _ => None end.

Example ex_made_after : made_after ex_objects.
Proof.
  intros [|[|[|o]]] L; cbn in *; [left; reflexivity|right; exists 0; split; [reflexivity|lia]|right; exists 1; split; [reflexivity|lia]|lia].
Qed.
Example ex_free : free_objects ex_objects /\ free_prim ex_prim.
Proof.
  split.
  - intros o n p r e I. destruct o as [|[|[|o]]]; cbn in I.
    + destruct I as [[= <- <- <- <-]|[[= <- <- <- <-]|[]]]; repeat constructor.
    + destruct I as [I|[]]; discriminate.
    + destruct I as [[= <- <- <- <-]|[]]; repeat constructor.
    + destruct o; contradiction.
  - intros p args v F H. destruct args as [|[] ?]; try discriminate. injection H as <-. constructor.
Qed.
(** `twice' of 0, sent to 2, uses the `get' of 2; sent to 1 that of 0 *)
Example ex_twice :
  eval ex_objects ex_prim 20 [] (Send (Lit (Obj 2)) (Lit (Sym 1)) [Lit (Num 1)]) [Nil] = Done (Num 21) [Num 11] /\
  eval ex_objects ex_prim 20 [] (Send (Lit (Obj 1)) (Lit (Sym 1)) [Lit (Num 1)]) [Nil] = Done (Num 1) [Num 1] /\
  eval ex_objects ex_prim 20 [] (Send (Lit (Obj 1)) (Lit (Sym 9)) [Lit (Num 1)]) [Nil] = Err (Unknown (Sym 9)) [Nil].
Proof. repeat split; vm_compute; reflexivity. Qed.

(** Not so if an argument is the keyword #:self: (o 'get #:self 7), for a `get'
    with one parameter, runs with self being 7 and without an argument; single
    inheritance gives the parameter the keyword *)
Theorem C80_self_argument_refuted : exists objects prim E e st v,
  made_after objects /\ free_prim prim /\ free_objects objects /\ (exists fuel, eval objects prim fuel E e st = Done v st) /\
  forall v', means objects prim E e st (Value v') st -> v' = KwSelf /\ v <> v'.
Proof.
  exists ex_objects, ex_prim, [], (Send (Lit (Obj 0)) (Lit (Sym 2)) [Lit KwSelf; Lit (Num 7)]), [], Nil.
  split; [exact ex_made_after|]. split; [exact (proj2 ex_free)|]. split; [exact (proj1 ex_free)|]. split; [exists 5; reflexivity|].
  intros v' M. enough (v' = KwSelf) by (subst; split; [reflexivity|discriminate]).
  inversion M as [| | | | | | | | | | |E o op args st0 f st1 n st2 vs st3 r st4 M1 M2 M3 M4]; subst.
  inversion M1; subst. inversion M2; subst.
  inversion M3 as [| |E e l st v1 st' vs' st'' L1 L2|]; subst. inversion L1; subst.
  assert (HB : has_method ex_objects 0 (Sym 2) (Body [5] None (Local 5))) by (apply own; reflexivity).
  inversion M4 as [o n vs st p r e E res st' HM SE ME|o n vs st p w HM Q| | |f n vs st NF]; subst.
  - assert (Q := has_method_fun _ _ _ _ _ HM HB). injection Q as -> -> ->.
    destruct (SE 5) as [A _]. assert (P : is_param [5] None (KwSelf :: vs') 5 KwSelf).
    { right. split; [discriminate|]. exists 0. split; [reflexivity|]. split; [reflexivity|]. intros [|[|j]] L H; [lia|discriminate|discriminate]. }
    specialize (A _ P). inversion ME; subst. congruence.
  - assert (Q' := has_method_fun _ _ _ _ _ HM HB). discriminate.
Qed.
Print Assumptions C80_self_argument_refuted.

(** So a caller can have a method run for another self than the receiver: a
    method that answers self *)
Theorem C80_spoofed_refuted : exists objects prim o other,
  o <> other /\ made_after objects /\
  exists fuel, eval objects prim fuel [] (Send (Lit (Obj o)) (Lit (Sym 1)) [Lit KwSelf; Lit (Obj other)]) [] = Done (Obj other) [].
Proof.
  exists [mko Nil [(Sym 1, Body [] None (Local self_name))]; mko Nil []], ex_prim, 0, 1. split; [discriminate|]. split.
  - intros [|[|o]] L; left; try reflexivity. cbn in L. lia.
  - exists 5. reflexivity.
Qed.
Print Assumptions C80_spoofed_refuted.
