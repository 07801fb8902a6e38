(** Programs all of whose rewrites are allowed. *)
From Coq Require Import List Arith Bool ZArith Lia.
From Verif Require Import Peephole_Model Peephole_Spec Peephole_SimProofs
  Peephole_WinProofs Peephole_Proofs.
Import ListNotations.

Section Plain.
Variable lax : bool.
Local Notation pl c := (forallb (plain lax) c = true).

Ltac inv H := inversion H; subst; clear H.
Ltac crush H :=
  repeat match type of H with
  | context [match ?x with _ => _ end] => destruct x eqn:?; try discriminate H
  end.
Ltac split_pl :=
  repeat match goal with
  | H : andb _ _ = true |- _ => apply andb_prop in H; destruct H
  | H : forallb _ (_ :: _) = true |- _ => cbn [forallb] in H
  end.
Ltac fin := cbn [forallb plain]; repeat (apply andb_true_intro; split); auto;
  try match goal with H : plain lax _ = true |- _ => exact H end;
  try match goal with H : plain lax _ = true |- lax = true => cbn in H; rewrite orb_false_r in H; exact H end.

Section One.
Variable h : heap.
Variable pre rest : code.
Variable h' : heap.
Variable pre' rest' : code.
Variable b : bool.
Hypothesis P1 : pl pre.
Hypothesis P2 : pl rest.
Local Notation makes r := (r = Upd h' pre' rest' b).
Local Notation good := (pl pre' /\ pl rest').

Lemma p1 : makes (r1 h pre rest) -> good.
Proof.
  unfold r1. intros H. destruct rest as [|[| |i] [|[| |[]] r]]; try discriminate.
  destruct (side_effect_free i); [|discriminate]. destruct (stack_delta i); inv H;
  split_pl; split; fin.
Qed.
Lemma p2 : makes (r2 h pre rest) -> good.
Proof.
  unfold r2. intros H. destruct rest as [|[| |x] [|[| |y] [|[| |z] r]]]; try discriminate.
  destruct (_ && _); inv H. split_pl; split; fin.
Qed.
Lemma p3 : makes (r3 h pre rest) -> good.
Proof.
  unfold r3. intros H. destruct rest as [|[| |x] [|[| |y] r]]; try discriminate.
  destruct (set_then_ref x y); inv H. split_pl; split; fin. destruct lax; reflexivity.
Qed.
Lemma p4 : makes (r4 h pre rest) -> good.
Proof.
  unfold r4. intros H.
  destruct rest as [|[| |[]] [|[| |y] [|[| |[]] r]]]; try discriminate.
  destruct (varset_or_bind y); inv H. split_pl; split; fin.
Qed.
Lemma p5 : makes (r5 h pre rest) -> good.
Proof.
  unfold r5. intros H. destruct rest as [|[| |x] [|[| |y] r]]; try discriminate.
  destruct (_ && _); inv H. split_pl; split; fin. destruct lax; reflexivity.
Qed.
Lemma p6 : makes (r6 h pre rest) -> good.
Proof.
  unfold r6. intros H. destruct rest as [|[| |x] [|[| |y] r]]; try discriminate;
  try (destruct x; discriminate).
  destruct x; try discriminate; destruct y; try discriminate; destruct (Nat.eqb _ _); inv H;
   split_pl; split; fin.
Qed.
Lemma p7 : makes (r7 h pre rest) -> good.
Proof.
  unfold r7. intros H. destruct rest as [|[| |x] [|[| |y] r]]; try discriminate;
  try (destruct x; discriminate).
  destruct x; try discriminate; destruct y; try discriminate; inv H;
   split_pl; split; fin; destruct lax; reflexivity.
Qed.
Lemma p8 : makes (r8 h pre rest) -> False.
Proof.
  unfold r8. intros H. destruct rest as [|[| |x] [|[| |y] r]]; try discriminate;
  try (destruct x; discriminate).
  destruct x; try discriminate; destruct y; try discriminate; split_pl; discriminate.
Qed.
Lemma p9 : makes (r9 h pre rest) -> good.
Proof.
  unfold r9. intros H. destruct rest as [|[| |[[]| | | | | | | | | | | | | | | | | | | | | | | | | | | | | | | | | | | | |]] [|[| |y] r]];
    try discriminate.
  destruct y; try discriminate;
    (destruct (Z.eqb z 1); [|destruct (Z.eqb z (-1)); [|discriminate]]); inv H;
    split_pl; split; fin.
Qed.
Lemma p10 : makes (r10 h pre rest) -> lax = true /\ good.
Proof.
  unfold r10. intros H. destruct rest as [|[| |[[]| | | | | | | | | | | | | | | | | | | | | | | | | | | | | | | | | | | | |]] [|[| |y] r]];
    try discriminate.
  destruct y; try discriminate; destruct (Z.eqb z 0); inv H;
    split_pl; (split; [destruct lax; [reflexivity|discriminate]|split; fin]).
Qed.
Lemma p11 : makes (r11 h pre rest) -> good.
Proof.
  unfold r11. intros H. destruct rest as [|[| |[[]| | | | | | | | | | | | | | | | | | | | | | | | | | | | | | | | | | | | |]] [|[| |y] r]];
    try discriminate.
  destruct y; try discriminate; destruct (Z.eqb z 0); inv H;
    split_pl; split; fin; destruct lax; reflexivity.
Qed.
Lemma p12 : makes (r12 h pre rest) -> good.
Proof.
  unfold r12. intros H. destruct rest as [|[| |x] [|[| |y] r]]; try discriminate;
  try (destruct x; discriminate).
  destruct x; try discriminate; destruct y; try discriminate; inv H;
   split_pl; split; fin; destruct lax; reflexivity.
Qed.
Lemma p13 : makes (r13 h pre rest) -> good.
Proof.
  unfold r13. intros H. destruct rest as [|[|[] c|] [|[x| |] r]]; try discriminate.
  destruct (Nat.eqb _ _); inv H. split_pl; split; fin.
Qed.
Ltac nocond := split_pl; exfalso; match goal with
  | H : plain _ (J _ _) = true |- _ => discriminate H end.
Lemma p14 : makes (r14 h pre rest) -> good.
Proof.
  unfold r14. intros H. destruct rest as [|[|[] c|] [|[x| |] r]]; try discriminate; nocond.
Qed.
Lemma p15 : makes (r15 h pre rest) -> good.
Proof.
  unfold r15. intros H. destruct rest as [|[|[] c|] [|[x| |[]] r]]; try discriminate; nocond.
Qed.
Lemma p16 : makes (r16 h pre rest) -> good.
Proof.
  unfold r16. intros H. destruct rest as [|[| |[]] [|[|[] c|] r]]; try discriminate; nocond.
Qed.
Lemma p17 : makes (r17 h pre rest) -> good.
Proof.
  unfold r17. intros H. destruct rest as [|[|[] c|] r]; try discriminate; nocond.
Qed.
Lemma p18 : makes (r18 h pre rest) -> good.
Proof.
  unfold r18. intros H. destruct rest as [|[|[] c|] r]; try discriminate; nocond.
Qed.
Lemma p19 : makes (r19 h pre rest) -> good.
Proof.
  unfold r19. intros H. destruct rest as [|[| |[]] [|[|k c|] r]]; try discriminate.
  destruct (cond_jmp k) eqn:E; [|discriminate].
  split_pl. exfalso. match goal with H : plain _ (J _ _) = true |- _ =>
    cbn [plain] in H; rewrite E in H; discriminate H end.
Qed.
Lemma p20 : makes (r20 h pre rest) -> good.
Proof.
  unfold r20. intros H. destruct rest as [|[| |x] [|[| |y] r]]; try discriminate.
  destruct y; try discriminate. destruct (varref_free x); inv H. split_pl; split; fin.
Qed.
Lemma p21 : makes (r21 h pre rest) -> good.
Proof.
  unfold r21. intros H. destruct rest as [|[| |[]] [|[| |[]] r]]; try discriminate; inv H.
  split_pl; split; fin.
Qed.
Lemma p22 : makes (r22 h pre rest) -> good.
Proof.
  unfold r22. intros H. destruct rest as [|[| |[]] [|[| |[]] r]]; try discriminate; inv H.
  split_pl; split; fin.
Qed.
Lemma p23 : makes (r23 h pre rest) -> good.
Proof.
  unfold r23. intros H. destruct rest as [|[| |[]] [|[| |[]] r]]; try discriminate; inv H;
  split_pl; split; fin.
Qed.
Lemma p24 : makes (r24 h pre rest) -> good.
Proof.
  unfold r24. intros H. destruct rest as [|[| |[]] [|[| |[]] r]]; try discriminate; inv H.
  split_pl; split; fin.
Qed.
Lemma pl_app x y : forallb (plain lax) (x ++ y) = forallb (plain lax) x && forallb (plain lax) y.
Proof. apply forallb_app. Qed.
Lemma pl_dups n : pl (repeat (I Dup) n).
Proof. induction n; cbn [repeat forallb plain]; auto. rewrite IHn. destruct lax; reflexivity. Qed.
Lemma p25 : makes (r25 h pre rest) -> good.
Proof.
  unfold r25. intros H. destruct rest as [|[| |x] [|[| |y] r]]; try discriminate.
  destruct y; try discriminate. destruct (varref x) eqn:E; [|discriminate].
  destruct (dups_then x (I Dup :: r)) as [r0|] eqn:D.
  - inv H. destruct (dups_then_spec x E _ _ D) as (n & R & E1 & ->). rewrite E1 in P2.
    cbn [forallb] in *. rewrite pl_app in *. cbn [forallb] in *. split_pl. split; fin.
    destruct lax; reflexivity.
  - inv H. auto.
Qed.
Lemma p26 : makes (r26 h pre rest) -> good.
Proof.
  unfold r26. intros H. destruct rest as [|[x| |] [|[y| |] r]]; try discriminate; inv H;
  split_pl; split; fin.
Qed.
Lemma p27 : makes (r27 h pre rest) -> good.
Proof.
  unfold r27. intros H. destruct rest as [|[x| |] r]; try discriminate.
  destruct (existsb _ _); inv H; split_pl; split; fin.
Qed.
Lemma p28 : makes (r28 h pre rest) -> good.
Proof.
  unfold r28. intros H. destruct rest as [|i [|i1 r]]; try discriminate.
  - destruct i as [|[]|[]]; discriminate.
  - assert (H' : (if is_label i1 then NoMatch
                  else upd h pre (i :: to_label (i1 :: r))) = Upd h' pre' rest' b).
    { destruct i as [|[]|[]]; try discriminate; exact H. }
    destruct (is_label i1); [discriminate|]. inv H'.
    destruct (to_label_spec (i1 :: r)) as (X & E & _). cbn [forallb] in P2.
    change (plain lax i1 && forallb (plain lax) r) with (forallb (plain lax) (i1 :: r)) in P2.
    rewrite E, pl_app in P2. split_pl. split; fin.
Qed.
Lemma p29 : makes (r29 h pre rest) -> good.
Proof.
  unfold r29. intros H. destruct rest as [|[|k c|] r]; try discriminate.
  destruct (jmp_insn k); [|discriminate].
  destruct (find _ _) as [[|[|[] d|] t]|]; try discriminate.
  destruct (Nat.eqb _ _); inv H. split_pl; split; fin.
Qed.
Lemma p30 : makes (r30 h pre rest) -> good.
Proof.
  unfold r30. intros H. destruct rest as [|[|[] c|] r]; try discriminate.
  destruct (find _ _) as [[|[| |[]] t]|]; try discriminate.
  inv H. split_pl; split; fin. destruct lax; reflexivity.
Qed.
Lemma p31 : makes (r31 h pre rest) -> False.
Proof.
  unfold r31. intros H. destruct rest as [|[|[] c|] r]; try discriminate; nocond.
Qed.
Lemma p32 : makes (r32 h pre rest) -> good.
Proof.
  unfold r32. intros H.
  destruct rest as [|[|k c|] [|[|k2 d|] [|[x| |] r]]]; try discriminate;
    try (destruct k2; discriminate).
  destruct k2; try discriminate.
  destruct (Nat.eqb (h c) x); [|discriminate].
  destruct k; try discriminate; nocond.
Qed.
Lemma p33 : makes (last1 h pre rest) -> good.
Proof.
  unfold last1. intros H.
  destruct rest as [|[| |[]] [|[| |y] [|[| |[]] r]]]; try discriminate.
  destruct (_ && _); inv H. split_pl; split; fin. destruct lax; reflexivity.
Qed.
Lemma p34 : makes (last2 h pre rest) -> good.
Proof.
  unfold last2. intros H. destruct rest as [|[| |a] r]; try discriminate.
  destruct (match a with Push _ => true | _ => varref a end); inv H.
  cbn [forallb] in P2. split_pl. split; auto. cbn [forallb]. apply andb_true_intro. split; auto.
  match goal with H : pl r |- _ => revert H end. clear. revert r.
  induction r as [|i r IH]; intro H; [reflexivity|].
  cbn [dup_all]. destruct i as [| |i]; auto.
  assert (G : pl (I Dup :: dup_all a r)).
  { split_pl. fin. destruct lax; reflexivity. }
  destruct i; auto; destruct (insn_equal a _); auto.
Qed.
End One.

Lemma rules_plain h pre rest n h' pre' rest' b : pl pre -> pl rest ->
  rules h pre rest = (n, Upd h' pre' rest' b) ->
  allowed lax n h pre rest = true /\ pl pre' /\ pl rest'.
Proof.
  intros P1 P2 H. unfold rules in H. cbn [first] in H.
  destruct (r1 h pre rest) eqn:E1; [|discriminate|].
  2:{ inv H. split; [|first [exact (p1 _ _ _ _ _ _ _ P1 P2 E1) | exact (p1 _ _ _ _ _ _ _ P2 E1)]]. cbn [allowed]. unfold r1 in E1.
      destruct rest as [|[| |i] r]; auto. split_pl.
      match goal with H : plain _ (I i) = true |- _ => revert H end. clear.
      destruct i, lax; auto. }
  destruct (r2 h pre rest) eqn:E2; [|discriminate|inv H; split; [reflexivity|]; first [exact (p2 _ _ _ _ _ _ _ P1 P2 E2) | exact (p2 _ _ _ _ _ _ _ P2 E2)]].
  destruct (r3 h pre rest) eqn:E3; [|discriminate|inv H; split; [reflexivity|]; first [exact (p3 _ _ _ _ _ _ _ P1 P2 E3) | exact (p3 _ _ _ _ _ _ _ P2 E3)]].
  destruct (r4 h pre rest) eqn:E4; [|discriminate|inv H; split; [reflexivity|]; first [exact (p4 _ _ _ _ _ _ _ P1 P2 E4) | exact (p4 _ _ _ _ _ _ _ P2 E4)]].
  destruct (r5 h pre rest) eqn:E5; [|discriminate|inv H; split; [reflexivity|]; first [exact (p5 _ _ _ _ _ _ _ P1 P2 E5) | exact (p5 _ _ _ _ _ _ _ P2 E5)]].
  destruct (r6 h pre rest) eqn:E6; [|discriminate|].
  2:{ inv H. split; [|first [exact (p6 _ _ _ _ _ _ _ P1 P2 E6) | exact (p6 _ _ _ _ _ _ _ P2 E6)]]. cbn [allowed]. unfold r6 in E6.
      destruct rest as [|[| |x] r]; auto. destruct x; auto.
      destruct r as [|[| |y] r]; auto; try discriminate. destruct y; try discriminate.
      split_pl. discriminate. }
  destruct (r7 h pre rest) eqn:E7; [|discriminate|inv H; split; [reflexivity|]; first [exact (p7 _ _ _ _ _ _ _ P1 P2 E7) | exact (p7 _ _ _ _ _ _ _ P2 E7)]].
  destruct (r8 h pre rest) eqn:E8; [|discriminate|inv H; exfalso; eapply p8; [exact P2|eassumption]].
  destruct (r9 h pre rest) eqn:E9; [|discriminate|inv H; split; [reflexivity|]; first [exact (p9 _ _ _ _ _ _ _ P1 P2 E9) | exact (p9 _ _ _ _ _ _ _ P2 E9)]].
  destruct (r10 h pre rest) eqn:E10; [|discriminate|inv H; first [exact (p10 _ _ _ _ _ _ _ P1 P2 E10) | exact (p10 _ _ _ _ _ _ _ P2 E10)]].
  destruct (r11 h pre rest) eqn:E11; [|discriminate|inv H; split; [reflexivity|]; first [exact (p11 _ _ _ _ _ _ _ P1 P2 E11) | exact (p11 _ _ _ _ _ _ _ P2 E11)]].
  destruct (r12 h pre rest) eqn:E12; [|discriminate|inv H; split; [reflexivity|]; first [exact (p12 _ _ _ _ _ _ _ P1 P2 E12) | exact (p12 _ _ _ _ _ _ _ P2 E12)]].
  destruct (r13 h pre rest) eqn:E13; [|discriminate|inv H; split; [reflexivity|]; first [exact (p13 _ _ _ _ _ _ _ P1 P2 E13) | exact (p13 _ _ _ _ _ _ _ P2 E13)]].
  destruct (r14 h pre rest) eqn:E14; [|discriminate|inv H; split; [reflexivity|]; first [exact (p14 _ _ _ _ _ _ _ P1 P2 E14) | exact (p14 _ _ _ _ _ _ _ P2 E14)]].
  destruct (r15 h pre rest) eqn:E15; [|discriminate|inv H; split; [reflexivity|]; first [exact (p15 _ _ _ _ _ _ _ P1 P2 E15) | exact (p15 _ _ _ _ _ _ _ P2 E15)]].
  destruct (r16 h pre rest) eqn:E16; [|discriminate|inv H; split; [reflexivity|]; first [exact (p16 _ _ _ _ _ _ _ P1 P2 E16) | exact (p16 _ _ _ _ _ _ _ P2 E16)]].
  destruct (r17 h pre rest) eqn:E17; [|discriminate|inv H; split; [reflexivity|]; first [exact (p17 _ _ _ _ _ _ _ P1 P2 E17) | exact (p17 _ _ _ _ _ _ _ P2 E17)]].
  destruct (r18 h pre rest) eqn:E18; [|discriminate|inv H; split; [reflexivity|]; first [exact (p18 _ _ _ _ _ _ _ P1 P2 E18) | exact (p18 _ _ _ _ _ _ _ P2 E18)]].
  destruct (r19 h pre rest) eqn:E19; [|discriminate|inv H; split; [reflexivity|]; first [exact (p19 _ _ _ _ _ _ _ P1 P2 E19) | exact (p19 _ _ _ _ _ _ _ P2 E19)]].
  destruct (r20 h pre rest) eqn:E20; [|discriminate|inv H; split; [reflexivity|]; first [exact (p20 _ _ _ _ _ _ _ P1 P2 E20) | exact (p20 _ _ _ _ _ _ _ P2 E20)]].
  destruct (r21 h pre rest) eqn:E21; [|discriminate|inv H; split; [reflexivity|]; first [exact (p21 _ _ _ _ _ _ _ P1 P2 E21) | exact (p21 _ _ _ _ _ _ _ P2 E21)]].
  destruct (r22 h pre rest) eqn:E22; [|discriminate|inv H; split; [reflexivity|]; first [exact (p22 _ _ _ _ _ _ _ P1 P2 E22) | exact (p22 _ _ _ _ _ _ _ P2 E22)]].
  destruct (r23 h pre rest) eqn:E23; [|discriminate|inv H; split; [reflexivity|]; first [exact (p23 _ _ _ _ _ _ _ P1 P2 E23) | exact (p23 _ _ _ _ _ _ _ P2 E23)]].
  destruct (r24 h pre rest) eqn:E24; [|discriminate|inv H; split; [reflexivity|]; first [exact (p24 _ _ _ _ _ _ _ P1 P2 E24) | exact (p24 _ _ _ _ _ _ _ P2 E24)]].
  destruct (r25 h pre rest) eqn:E25; [|discriminate|inv H; split; [reflexivity|]; first [exact (p25 _ _ _ _ _ _ _ P1 P2 E25) | exact (p25 _ _ _ _ _ _ _ P2 E25)]].
  destruct (r26 h pre rest) eqn:E26; [|discriminate|inv H; split; [reflexivity|]; first [exact (p26 _ _ _ _ _ _ _ P1 P2 E26) | exact (p26 _ _ _ _ _ _ _ P2 E26)]].
  destruct (r27 h pre rest) eqn:E27; [|discriminate|inv H; split; [reflexivity|]; first [exact (p27 _ _ _ _ _ _ _ P1 P2 E27) | exact (p27 _ _ _ _ _ _ _ P2 E27)]].
  destruct (r28 h pre rest) eqn:E28; [|discriminate|inv H; split; [reflexivity|]; first [exact (p28 _ _ _ _ _ _ _ P1 P2 E28) | exact (p28 _ _ _ _ _ _ _ P2 E28)]].
  destruct (r29 h pre rest) eqn:E29; [|discriminate|inv H; split; [reflexivity|]; first [exact (p29 _ _ _ _ _ _ _ P1 P2 E29) | exact (p29 _ _ _ _ _ _ _ P2 E29)]].
  destruct (r30 h pre rest) eqn:E30; [|discriminate|inv H; split; [reflexivity|]; first [exact (p30 _ _ _ _ _ _ _ P1 P2 E30) | exact (p30 _ _ _ _ _ _ _ P2 E30)]].
  destruct (r31 h pre rest) eqn:E31; [|discriminate|inv H; exfalso; eapply p31; [exact P2|eassumption]].
  destruct (r32 h pre rest) eqn:E32; [discriminate|discriminate|inv H; split; [reflexivity|]; first [exact (p32 _ _ _ _ _ _ _ P1 P2 E32) | exact (p32 _ _ _ _ _ _ _ P2 E32)]].
Qed.

Lemma last_rules_plain h pre rest n h' pre' rest' b : pl pre -> pl rest ->
  last_rules h pre rest = (n, Upd h' pre' rest' b) ->
  allowed lax n h pre rest = true /\ pl pre' /\ pl rest'.
Proof.
  intros P1 P2 H. unfold last_rules in H. cbn [first] in H.
  assert (A : forall n, n = 33 \/ n = 34 -> allowed lax n h pre rest = true).
  { intros m Hm. assert (G : match rest with I (Push v) :: _ => negb (has_str v) | _ => true end = true).
    { destruct rest as [|[| |[]] r]; auto. split_pl. auto. }
    destruct Hm as [-> | ->]; exact G. }
  destruct (last1 h pre rest) eqn:E1; [|discriminate|inv H; split; [apply A; auto|first [exact (p33 _ _ _ _ _ _ _ P1 P2 E1) | exact (p33 _ _ _ _ _ _ _ P2 E1)]]].
  destruct (last2 h pre rest) eqn:E2; [discriminate|discriminate|inv H; split; [apply A; auto|first [exact (p34 _ _ _ _ _ _ _ P1 P2 E2) | exact (p34 _ _ _ _ _ _ _ P2 E2)]]].
Qed.

Lemma shift_plain pre rest : pl pre -> pl rest ->
  pl (fst (shift pre rest)) /\ pl (snd (shift pre rest)).
Proof.
  intros P1 P2. destruct rest; auto. cbn [shift fst snd]. split_pl. split; fin.
Qed.
Lemma pl_rev c : pl c -> pl (rev c).
Proof.
  intro H. apply forallb_forall. intros i Hi. apply in_rev in Hi.
  rewrite forallb_forall in H. auto.
Qed.

Lemma loop_plain fuel : forall h pre rest kg, pl pre -> pl rest ->
  loop_allowed lax fuel h pre rest kg = true /\
  forall h' c', loop fuel h pre rest kg = Result h' c' -> pl c'.
Proof.
  induction fuel as [|fuel IH]; intros h pre rest kg P1 P2; [split; [reflexivity|discriminate]|].
  cbn [loop loop_allowed]. destruct rest as [|i r].
  - destruct kg; [apply IH; auto; apply pl_rev; auto|]. split; auto. intros h' c' H. inv H.
    apply pl_rev; auto.
  - destruct (rules h pre (i :: r)) as [n u] eqn:E. cbn [snd]. destruct u as [| |h2 pre2 rest2 b].
    + destruct (shift_plain pre (i :: r) P1 P2). cbn [shift fst snd] in *. apply IH; auto.
    + split; [reflexivity|discriminate].
    + destruct (rules_plain _ _ _ _ _ _ _ _ P1 P2 E) as (A & Q1 & Q2).
      destruct (shift_plain pre2 rest2 Q1 Q2) as [Q3 Q4].
      destruct (shift pre2 rest2). cbn [fst snd] in *. rewrite A. cbn [andb]. apply IH; auto.
Qed.
Lemma last_loop_plain fuel : forall h pre rest, pl pre -> pl rest ->
  last_allowed lax fuel h pre rest = true.
Proof.
  induction fuel as [|fuel IH]; intros h pre rest P1 P2; [reflexivity|].
  cbn [last_allowed]. destruct rest as [|i r]; auto.
  destruct (last_rules h pre (i :: r)) as [n u] eqn:E.
  destruct (shift_plain pre (i :: r) P1 P2).
  destruct u as [| |h2 pre2 rest2 b]; cbn [shift fst snd] in *; auto.
  destruct (last_rules_plain _ _ _ _ _ _ _ _ P1 P2 E) as (A & Q1 & Q2).
  destruct (shift_plain pre2 rest2 Q1 Q2) as [Q3 Q4].
  destruct (shift pre2 rest2). cbn [fst snd] in *. rewrite A. cbn [andb]. apply IH; auto.
Qed.
Lemma run_plain fuel h c : pl c -> run_allowed lax fuel h c = true.
Proof.
  intro P. unfold run_allowed. destruct (loop_plain fuel h [] c false eq_refl P) as [A B].
  rewrite A. cbn [andb]. destruct (loop fuel h [] c false); auto.
  apply last_loop_plain; auto. eapply B; eauto.
Qed.
End Plain.
