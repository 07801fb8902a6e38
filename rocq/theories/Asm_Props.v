(** C28: assembling and executing the byte code. *)
From Coq Require Import List ZArith Bool Lia.
From Verif Require Import Asm_Model Asm_Spec Asm_Proofs.
Import ListNotations.
Open Scope Z_scope.

(** What the machine reads from an assembled program are its instructions
    with their operands, and jumps lead to their labels.  Missing: programs
    whose constants are [equal] but not the same, programs of 64 KB and more;
    and the effect of executing the instructions. *)
Theorem C28_assembled_partial : forall p start bytes cs,
  0 <= start -> good p -> distinct_constants p ->
  assemble p start = Some (bytes, cs) -> Z.of_nat (length bytes) <= 65535 ->
  faithful p start bytes cs.
Proof. exact assemble_correct. Qed.
Print Assumptions C28_assembled_partial.

(** Within the limits of the format the assembler gives a result ... *)
Theorem C28_assembles : forall p start,
  Forall good_insn p -> in_limits p -> exists bytes cs, assemble p start = Some (bytes, cs).
Proof. exact assemble_ok. Qed.
Print Assumptions C28_assembles.

(** ... and a label defined twice is an error. *)
Theorem C28_duplicate_label : forall p start,
  ~ NoDup (flat_map label p) -> assemble p start = None.
Proof. exact assemble_dup. Qed.
Print Assumptions C28_duplicate_label.

(** A program with forward and backward jumps, immediate and vector operands,
    and a long argument *)
Definition sample : list src :=
  [Push (OFix 70000); Label 1; Push (OStr 3 [104; 105]); Jump 0xf9 2; Push (OFix (-300));
   WithConst 0x18 (OAtom 4); Insn 0x08 (Some 300); Push (OStr 3 [104; 105]);
   Jump 0xff 1; Label 2; PushLabel 1; Insn 0x59 None].
Example C28_sample :
  good sample /\ distinct_constants sample /\ in_limits sample /\
  assemble sample 0 =
    Some ([0x10; 0x11; 0xf9; 0; 16; 0xa0; 1; 44; 0x1a; 0x0f; 1; 44; 0x11; 0xff; 0; 1; 0xa1; 0; 1; 0x59],
          [OFix 70000; OStr 3 [104; 105]; OAtom 4]).
Proof.
  split; [ | split; [ | split]].
  - split; [repeat constructor; cbn; lia | ]. cbn. intros x X. cbn in *. intuition.
  - intros v w. cbn. intros V W E.
    repeat (destruct V as [V | V]; [subst v | ]); try tauto;
      repeat (destruct W as [W | W]; [subst w | ]); try tauto; vm_compute in E; first [contradiction | congruence].
  - split; [cbn; repeat constructor; cbn; intuition congruence | ]. split; [cbn; lia | ].
    repeat constructor; lia.
  - vm_compute. reflexivity.
Qed.
Example C28_sample_twice :
  ~ NoDup (flat_map label [Label 1; Jump 0xff 1; Label 1]).
Proof. cbn. intros H. inversion H. subst. cbn in *. tauto. Qed.

(** FALSE without the limit on the size: a jump over 64 KB leads elsewhere. *)
Theorem C28_long_program_refuted :
  exists p bytes cs, good p /\ distinct_constants p /\ assemble p 0 = Some (bytes, cs) /\
  ~ faithful p 0 bytes cs.
Proof. exact long_refuted. Qed.
Print Assumptions C28_long_program_refuted.

(** FALSE for programs with the constants 2^32 and 2^33, which [equal] takes
    for the same: both instructions push 2^32. *)
Theorem C28_large_integers_refuted :
  exists p bytes cs, good p /\ assemble p 0 = Some (bytes, cs) /\ Z.of_nat (length bytes) <= 65535 /\
  ~ faithful p 0 bytes cs.
Proof. exact equal_refuted. Qed.
Print Assumptions C28_large_integers_refuted.

(** FALSE that an undefined label is an error: the jump goes to #x2020. *)
Theorem C28_undefined_label_refuted :
  exists p bytes cs ds, Forall good_insn p /\ distinct_constants p /\ in_limits p /\
  assemble p 0 = Some (bytes, cs) /\ disassembles bytes cs 0 ds /\
  map snd ds = [DJump 0xff 0x2020].
Proof. exact undefined_refuted. Qed.
Print Assumptions C28_undefined_label_refuted.

(** The disassembler finds the instructions that the machine executes, except
    after the byte #x3f ... *)
Theorem C28_disassembler_partial : forall bytes cs p i p',
  Forall (fun b => 0 <= b < 256) bytes ->
  decode bytes cs p = Some (i, p') -> fetch bytes p <> Some 0x3f ->
  disasm_next bytes p = Some p'.
Proof. exact disasm_agrees. Qed.
Print Assumptions C28_disassembler_partial.
Example C28_disassembler_case :
  decode [0x9f; 200; 0x17; 0; 1] [ONil; OT] 2 = Some (DPush OT, 5) /\
  fetch [0x9f; 200; 0x17; 0; 1] 2 <> Some 0x3f.
Proof. split; [reflexivity | discriminate]. Qed.

(** ... FALSE there: (refn 300). *)
Theorem C28_disassembler_refuted :
  exists p bytes cs a i a', good p /\ assemble p 0 = Some (bytes, cs) /\
  decode bytes cs a = Some (i, a') /\ disasm_next bytes a <> Some a'.
Proof. exact disasm_refuted. Qed.
Print Assumptions C28_disassembler_refuted.

(** The machine reserves the stack space the compiler asks for, if both kinds
    of stack are less than 1024 deep ... *)
Theorem C28_stack_sizes_partial : forall v b s,
  0 <= v < 1024 -> 0 <= b < 1024 -> 0 <= s -> stack_sizes (stack_word v b s) = (v, b, s).
Proof. exact stack_word_ok. Qed.
Print Assumptions C28_stack_sizes_partial.
Example C28_stack_case : stack_sizes (stack_word 1000 3 70) = (1000, 3, 70).
Proof. reflexivity. Qed.

(** ... FALSE otherwise: a function that needs 1100 values on its stack gets
    room for 76. *)
Theorem C28_stack_sizes_refuted :
  exists v b s, 0 <= v /\ 0 <= b /\ 0 <= s /\ fst (fst (stack_sizes (stack_word v b s))) < v.
Proof. exists 1100, 0, 0. vm_compute. repeat split; congruence. Qed.
Print Assumptions C28_stack_sizes_refuted.
