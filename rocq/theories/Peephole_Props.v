(** C27: the peephole optimiser preserves meaning. *)
From Coq Require Import List Arith Bool ZArith Lia.
From Verif Require Import Peephole_Model Peephole_Spec Peephole_SimProofs
  Peephole_WinProofs Peephole_JumpProofs Peephole_Proofs Peephole_PlainProofs.
Import ListNotations.

(** A program ends in at most one way, so [keeps] compares outcomes. *)
Theorem C27_deterministic : forall S lax c s o o',
  behaves S lax c s o -> behaves S lax c s o' -> o = o'.
Proof.
  intros S lax c s o o' [f H] [f' H'].
  assert (M : forall f r s o n, run S lax f c r s = Some o -> run S lax (f + n) c r s = Some o).
  { clear. induction f as [|f IH]; intros r s o n H; [discriminate|].
    cbn [run plus] in *. destruct r as [|i r]; auto.
    destruct (step S lax i s) as [s'|l s'|o']; auto. destruct (find l c); auto. }
  apply (M _ _ _ _ f') in H. apply (M _ _ _ _ f) in H'.
  rewrite Nat.add_comm in H'. congruence.
Qed.
Print Assumptions C27_deterministic.

(** Every rewrite, wherever its window is in the program.  Missing for the
    full property: the applications [allowed] excludes, which change the
    meaning of programs (refuted below); with [lax] the program is one whose
    side-effect-free instructions do not fail. *)
Theorem C27_rewrite_partial : forall S lax h pre rest n h' pre' rest' b,
  binding_free S ->
  well_formed (full pre rest) ->
  rules h pre rest = (n, Upd h' pre' rest' b) ->
  allowed lax n h pre rest = true ->
  keeps S lax (resolve h (full pre rest)) (resolve h' (full pre' rest')) /\
  well_formed (full pre' rest').
Proof. intros. eapply rules_ok; eauto. Qed.
Print Assumptions C27_rewrite_partial.

Theorem C27_last_rewrite_partial : forall S lax h pre rest n h' pre' rest' b,
  well_formed (full pre rest) ->
  last_rules h pre rest = (n, Upd h' pre' rest' b) ->
  allowed lax n h pre rest = true ->
  keeps S lax (resolve h (full pre rest)) (resolve h' (full pre' rest')) /\
  well_formed (full pre' rest').
Proof. intros. eapply last_rules_ok; eauto. Qed.
Print Assumptions C27_last_rewrite_partial.

(** The whole optimiser, when none of the wrong rewrites is applied. *)
Theorem C27_optimizer_partial : forall S lax fuel h c h' c',
  binding_free S -> well_formed c ->
  optimize fuel h c = Result h' c' ->
  run_allowed lax fuel h c = true ->
  keeps S lax (resolve h c) (resolve h' c') /\ well_formed c'.
Proof. intros. eapply optimize_ok; eauto. Qed.
Print Assumptions C27_optimizer_partial.

(** Programs to which no wrong rewrite can be applied. *)
Theorem C27_plain_partial : forall S lax fuel h c h' c',
  binding_free S -> well_formed c -> forallb (plain lax) c = true ->
  optimize fuel h c = Result h' c' ->
  keeps S lax (resolve h c) (resolve h' c').
Proof.
  intros S lax fuel h c h' c' BF WF P H.
  eapply optimize_ok; eauto. apply run_plain, P.
Qed.
Print Assumptions C27_plain_partial.

(** * The hypotheses can be met *)

Example machine_binding_free : binding_free machine.
Proof. split; reflexivity. Qed.

Definition cells_of (l : list nat) : heap := fun c => nth c l 0.
Definition started (ev : list val) : st machine :=
  @Build_st machine [] ev [Fr 0 []] [] [].

(** a loop, a conditional, bindings: many rewrites, all allowed *)
Definition loop_code : code :=
  [I InitBind; I (Refn 0); I Bind; Lbl 1;
   I (Refn 0); I (Push (Num 0)); I NumEq; I Not; J Jn 0;
   I (Refn 0); I (Push (Num 1)); I Sub; I Dup; I (Setn 0); I Pop; J Jmp 1;
   Lbl 2; I (Push Tee); I Unbind; J Jmp 2; I (Other 3); Lbl 3; I Return].
Example optimised_loop :
  match optimize 1000 (cells_of [2; 1; 3]) loop_code with
  | Result h c => resolve h c
  | _ => []
  end =
  [I InitBind; I (Refn 0); I Bind; Lbl 1; I (Refn 0); I Zerop; J Jt 2;
   I (Refn 0); I Dec; I (Setn 0); J Jmp 1; Lbl 2; I Unbind; I (Push Tee); I Return] /\
  run_allowed false 1000 (cells_of [2; 1; 3]) loop_code = true.
Proof. split; vm_compute; reflexivity. Qed.
Example optimised_loop_runs :
  behaves machine false (resolve (cells_of [2; 1; 3]) loop_code) (started [Num 2]) (@Ret machine Tee []).
Proof. exists 100. vm_compute. reflexivity. Qed.

Example plain_code :
  let c := [I (Push (Num 1)); I Dup; I (Setn 0); I Pop; J Jmp 0; I Return; Lbl 1; I (Refn 1); I (Refn 1); I Cons; I Return] in
  forallb (plain false) c = true /\
  match optimize 1000 (cells_of [1]) c with Result h c => resolve h c | _ => [] end =
  [I (Push (Num 1)); I (Setn 0); I (Refn 1); I Dup; I Cons; I Return].
Proof. split; vm_compute; reflexivity. Qed.

(** * Programs that are changed *)

Ltac show f ev :=
  split; [repeat constructor; cbn; intuition discriminate|];
  exists 1000; do 2 eexists; exists (started ev); do 2 eexists;
  split; [vm_compute; reflexivity|];
  split; [repeat constructor|];
  split; [exists 100; vm_compute; reflexivity|];
  split; [discriminate|];
  split; [exists 100; vm_compute; reflexivity|discriminate].

(** (if (if p (or a b) c) x y): the jump of [or] is given the operand cell of
    the jump to the end of the inner [if] (line 426), and then that cell is
    changed (line 490).  The value of b is no longer tested. *)
Definition inner_or : code :=
  [I (Refn 0); J Jn 0; I (Refn 1); J Jtp 1; I (Refn 2); Lbl 2; J Jmp 2; Lbl 1;
   I (Refn 3); Lbl 3; J Jn 3; I (Other 4); J Jmp 4; Lbl 4; I (Other 5); Lbl 5;
   I Return].
Theorem C27_shared_cell_refuted : miscompiled machine (cells_of [1; 2; 3; 4; 5]) inner_or.
Proof. show 0 [Tee; Nil; Nil; Nil]. Qed.
Print Assumptions C27_shared_cell_refuted.
Example shared_cell_code :
  match optimize 1000 (cells_of [1; 2; 3; 4; 5]) inner_or with
  | Result h c => resolve h c | _ => [] end =
  [I (Refn 0); J Jn 1; I (Refn 1); J Jt 5; I (Refn 2); J Jmp 5; Lbl 1; I (Refn 3);
   J Jn 4; Lbl 5; I (Other 4); I Return; Lbl 4; I (Other 5); I Return].
Proof. vm_compute. reflexivity. Qed.

(** jtp X; ... X: jpn Y: the value is popped by the new jump (line 458) *)
Theorem C27_jtp_jpn_refuted : miscompiled machine (cells_of [1; 2])
  [I (Refn 0); J Jtp 0; I (Other 9); I Return; Lbl 1; J Jpn 1; I (Push (Num 8));
   I Cons; I Return; Lbl 2; I (Other 3); I Return].
Proof. show 0 [Num 5]. Qed.
Print Assumptions C27_jtp_jpn_refuted.

(** (+ x 0) of something that is not a number is no longer an error *)
Theorem C27_add_zero_refuted : miscompiled machine (cells_of [])
  [I (Refn 0); I (Push (Num 0)); I Add; I Return].
Proof. show 0 [Tee]. Qed.
Print Assumptions C27_add_zero_refuted.

(** a reference to a void variable whose value is not used *)
Theorem C27_unused_error_refuted : miscompiled machine (cells_of [])
  [I (Refg 0); I Pop; I (Push Tee); I Return].
Proof. show 0 (@nil val). Qed.
Print Assumptions C27_unused_error_refuted.

(** (setq x x) of a global: no error, no assignment *)
Theorem C27_self_assignment_refuted : miscompiled machine (cells_of [])
  [I (Push Nil); I (Setg 0); I (Refg 0); I (Setg 0); I (Push Tee); I Return].
Proof. show 0 (@nil val). Qed.
Print Assumptions C27_self_assignment_refuted.

(** test-scm-f; scm-test of #f, and the value of test-scm; scm-test *)
Theorem C27_scm_test_refuted :
  miscompiled machine (cells_of [1])
    [I (Refn 0); I TestScmF; I ScmTest; J Jn 0; I (Other 1); I Return;
     Lbl 1; I (Other 2); I Return] /\
  miscompiled machine (cells_of [])
    [I (Refn 0); I TestScm; I ScmTest; I Return].
Proof. split; [show 0 [ScmF]|show 0 [Num 5]]. Qed.
Print Assumptions C27_scm_test_refuted.

(** equal strings become one object *)
Theorem C27_equal_strings_refuted : miscompiled machine (cells_of [])
  [I (Push (Str 0 7)); I (Push (Str 1 7)); I Cons; I Return].
Proof. show 0 (@nil val). Qed.
Print Assumptions C27_equal_strings_refuted.

(** The optimiser does not end: a jump to itself that keeps its operand, and
    a label at the end of the program. *)
Theorem C27_terminates_refuted :
  exists h c, well_formed c /\ forall fuel, optimize fuel h c = OutOfFuel.
Proof.
  exists (cells_of [1]), [Lbl 1; J Jtp 0; I Return].
  split; [repeat constructor; cbn; intuition|].
  intro fuel. unfold optimize.
  assert (L : forall n fuel h kg, fuel <= n -> h 0 = 1 ->
    loop fuel h [] [Lbl 1; J Jtp 0; I Return] kg = OutOfFuel).
  { clear. induction n as [|n IH]; intros fuel h kg Hf H.
    - destruct fuel; [reflexivity|lia].
    - destruct fuel as [|fuel]; [reflexivity|]. cbn [loop].
      assert (R : rules h [] [Lbl 1; J Jtp 0; I Return] = (0, NoMatch)).
      { unfold rules. cbn [first r1 r2 r3 r4 r5 r6 r7 r8 r9 r10 r11 r12 r13 r14 r15 r16 r17 r18
          r19 r20 r21 r22 r23 r24 r25 r26 r28 r29 r30 r31 r32].
        unfold r27. cbn. rewrite H. reflexivity. }
      rewrite R. cbn [snd shift].
      destruct fuel as [|fuel]; [reflexivity|]. cbn [loop].
      assert (R2 : rules h [Lbl 1] [J Jtp 0; I Return] =
                   (31, Upd (set_cell h 0 1) [Lbl 1] [J Jtp 0; I Return] true)).
      { unfold rules. cbn [first r1 r2 r3 r4 r5 r6 r7 r8 r9 r10 r11 r12 r13 r14 r15 r16 r17 r18
          r19 r20 r21 r22 r23 r24 r25 r26 r27 r28 r30 r32].
        unfold r29, r31. cbn. rewrite H. cbn. rewrite ?H. reflexivity. }
      rewrite R2. cbn [snd shift].
      destruct fuel as [|fuel]; [reflexivity|]. cbn [loop].
      change (rules (set_cell h 0 1) [J Jtp 0; Lbl 1] [I Return]) with (0, NoMatch).
      cbn [snd shift]. rewrite orb_true_r.
      destruct fuel as [|fuel]; [reflexivity|]. cbn [loop rev app].
      apply IH; [lia|reflexivity]. }
  rewrite (L fuel fuel); auto.
Qed.
Print Assumptions C27_terminates_refuted.
