(** C103: autoloaded definitions. *)
From Coq Require Import List ZArith Bool Lia.
Import ListNotations.
From Verif Require Import Autoload_Model Autoload_Spec Autoload_Proofs.

(** Module 1 defines symbols 10 and 11, module 2 defines symbol 12, others define nothing. *)
Definition ex_body (m : nat) : list (nat * Z) :=
  match m with
  | 1 => [(10, 5%Z); (11, 6%Z)]
  | 2 => [(12, 7%Z)]
  | _ => []
  end.
Definition ex_ops : list op :=
  [Auto 10 1; Auto 11 1; Define 20 3; Auto 12 2; Ref 11; Define 20 4; Ref 10; Ref 20].

(** Full statement: a reference gives the definition of the module that was named for the symbol,
    else the last definition by the program, for all programs.  Missing: modules that do not define
    what they are named for, and definitions by the program of what modules define (both refuted
    below); bodies of modules only define. *)
Theorem C103_reference_partial : forall body ops s, tidy body ops ->
  (exists m, In (Auto s m) ops) \/ (forall m v, ~ In (s, v) (body m)) ->
  must_give body s ops (snd (autoload_ref body (fst (run body ops)) s)).
Proof. exact ref_gives. Qed.
Print Assumptions C103_reference_partial.

Lemma ex_agree : forall m1 m2 s v w, In (s, v) (ex_body m1) -> In (s, w) (ex_body m2) -> v = w.
Proof.
  intros m1 m2 s v w A B.
  destruct m1 as [|[|[|m1]]]; cbn [ex_body In] in A; try tauto;
  destruct m2 as [|[|[|m2]]]; cbn [ex_body In] in B; try tauto;
  repeat match goal with
  | H : _ \/ _ |- _ => destruct H
  | H : False |- _ => destruct H
  | H : (_, _) = (_, _) |- _ => injection H; clear H; intros
  end; subst; try reflexivity; discriminate.
Qed.

Lemma ex_left : forall m w, ~ In (20, w) (ex_body m).
Proof.
  intros m w H. destruct m as [|[|[|m]]]; cbn [ex_body In] in H;
  repeat match goal with
  | H : _ \/ _ |- _ => destruct H
  | H : False |- _ => destruct H
  end; discriminate.
Qed.

Example C103_reference_case : tidy ex_body ex_ops /\
  snd (run ex_body ex_ops) = [VDef 6; VDef 5; VDef 4] /\ loaded (fst (run ex_body ex_ops)) = [1] /\
  snd (autoload_ref ex_body (fst (run ex_body ex_ops)) 12) = VDef 7.
Proof.
  split; [|repeat split].
  constructor.
  - intros s m I. unfold ex_ops in I. cbn [In] in I.
    destruct I as [I|[I|[I|[I|[I|[I|[I|[I|[]]]]]]]]]; try discriminate I; injection I as <- <-.
    + exists 5%Z. now left.
    + exists 6%Z. right. now left.
    + exists 7%Z. now left.
  - exact ex_agree.
  - intros s v m w I. unfold ex_ops in I. cbn [In] in I.
    destruct I as [I|[I|[I|[I|[I|[I|[I|[I|[]]]]]]]]]; try discriminate I; injection I as <- <-;
      apply ex_left.
Qed.

(** No module is loaded before it is needed, and none twice. *)
Theorem C103_loads : forall body ops, NoDup (loaded (fst (run body ops))) /\
  forall m, In m (loaded (fst (run body ops))) -> has_reason ops m.
Proof. intros body ops. destruct (loads_run body ops) as (_ & A & B). now split. Qed.
Print Assumptions C103_loads.

Example C103_loads_case : loaded (fst (run ex_body (ex_ops ++ [Ref 12; Ref 11]))) = [1; 2] /\
  has_reason ex_ops 1.
Proof.
  split; [reflexivity|].
  exists [Auto 10 1; Auto 11 1; Define 20 3; Auto 12 2], 11, [Define 20 4; Ref 10; Ref 20].
  split; [reflexivity | cbn [In]; tauto].
Qed.

(** A definition by the program stays whatever autoloads are installed for the symbol before or
    behind it, as long as no module that is named defines it, and nothing is loaded for it. *)
Theorem C103_definition : forall body pre s v post,
  (forall w, ~ In (Define s w) post) ->
  (forall x m w, In (Auto x m) (pre ++ Define s v :: post) -> ~ In (s, w) (body m)) ->
  let st := fst (run body (pre ++ Define s v :: post)) in autoload_ref body st s = (st, VDef v).
Proof.
  intros body pre s v post N M st. unfold autoload_ref, st. now rewrite (own_kept body pre s v post N M).
Qed.
Print Assumptions C103_definition.

Example C103_definition_case :
  let ops := [Auto 20 2; Auto 10 1] ++ Define 20 3 :: [Auto 20 1; Ref 10; Ref 20] in
  snd (run ex_body ops) = [VDef 5; VDef 3] /\ loaded (fst (run ex_body ops)) = [1].
Proof. split; reflexivity. Qed.

(** When the module does not define the symbol, the reference gives the cell of the autoload
    itself as if it were the definition. *)
Theorem C103_cell_refuted : exists body ops s m,
  In (Auto s m) ops /\ snd (autoload_ref body (fst (run body ops)) s) = VCell m.
Proof. exists ex_body, [Auto 13 2], 13, 2. split; [now left | reflexivity]. Qed.
Print Assumptions C103_cell_refuted.

(** A definition that the program made of a symbol is lost when the module is loaded for another
    symbol. *)
Theorem C103_overwritten_refuted : exists body ops s v, last_definition s ops (Some v) /\
  snd (autoload_ref body (fst (run body ops)) s) <> VDef v.
Proof.
  exists ex_body, [Auto 10 1; Auto 11 1; Define 10 9; Ref 11], 10, 9%Z. split.
  - apply (LSome 10 [Auto 10 1; Auto 11 1] 9%Z [Ref 11]). intros w [H|[]]. discriminate H.
  - vm_compute. intros H. discriminate H.
Qed.
Print Assumptions C103_overwritten_refuted.
