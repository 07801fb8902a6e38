(** Every rewrite, and the whole optimiser. *)
From Coq Require Import List Arith Bool ZArith Lia.
From Verif Require Import Peephole_Model Peephole_Spec Peephole_SimProofs
  Peephole_WinProofs Peephole_JumpProofs.
Import ListNotations.

Lemma find_resolve h l c : find l (resolve h c) = option_map (resolve h) (find l c).
Proof.
  induction c as [|[z|k z|i] c IH]; cbn; auto. destruct (Nat.eqb l z); auto.
Qed.

Section Rules.
Variable sm : sem.
Variable lax : bool.
Hypothesis BF : binding_free sm.
Local Notation wx := (wx sm lax).

Definition ok h pre rest h' pre' rest' : Prop :=
  keeps sm lax (resolve h (full pre rest)) (resolve h' (full pre' rest')) /\
  NoDup (labels (full pre' rest')).
Definition nd pre rest := NoDup (labels (full pre rest)).

Lemma win_rule h pre A B R : free A -> free B ->
  (forall s, wx (resolve h A) s = Done Stuck \/ wx (resolve h A) s = wx (resolve h B) s) ->
  nd pre (A ++ R) -> ok h pre (A ++ R) h pre (B ++ R).
Proof.
  intros FA FB Hw Hn. split.
  - unfold full. rewrite !resolve_app. apply local_free; auto;
      unfold free; rewrite labels_resolve; auto.
  - unfold nd, full in *. rewrite !labels_app in *. unfold free in *. rewrite FA in Hn.
    rewrite FB. exact Hn.
Qed.

Lemma norm_rule h pre A B x R : free A -> free B -> nd pre (A ++ Lbl x :: R) ->
  In x (map h (cells A)) ->
  (forall s, wx (resolve h A) s = Done Stuck \/
             norm sm x (wx (resolve h A) s) = norm sm x (wx (resolve h B) s)) ->
  ok h pre (A ++ Lbl x :: R) h pre (B ++ Lbl x :: R).
Proof.
  intros FA FB Hn Hx Hw. split.
  - unfold full. rewrite !resolve_app. cbn [resolve map resolve1]. apply local_norm; auto.
    + unfold free; rewrite labels_resolve; auto.
    + unfold free; rewrite labels_resolve; auto.
    + unfold nd, full in Hn. rewrite !labels_app in *. cbn [labels flat_map app] in *.
      fold (labels R) in Hn. fold (labels (map (resolve1 h) R)).
      change (map (resolve1 h) R) with (resolve h R). rewrite !labels_resolve. exact Hn.
    + rewrite !targets_app, !in_app_iff. right. left. rewrite targets_resolve. exact Hx.
  - unfold nd, full in *. rewrite !labels_app in *. unfold free in *. rewrite FA in Hn.
    rewrite FB. exact Hn.
Qed.

Ltac inv H := inversion H; subst; clear H.
Ltac crush H :=
  repeat match type of H with
  | context [match ?x with _ => _ end] => destruct x eqn:?; try discriminate
  end.

Lemma dups_then_spec a : varref a = true -> forall r r', dups_then a r = Some r' ->
  exists n R, r = repeat (I Dup) n ++ I a :: R /\ r' = repeat (I Dup) n ++ I Dup :: R.
Proof.
  intro Ha. induction r as [|i r IH]; intros r' H; [discriminate|].
  destruct i as [| |i]; try discriminate.
  destruct (match i with Dup => true | _ => false end) eqn:Ei.
  - destruct i; try discriminate. cbn [dups_then] in H.
    destruct (dups_then a r) as [r0|] eqn:E; [|discriminate]. inv H.
    destruct (IH _ eq_refl) as (n & R & -> & ->). exists (S n), R. split; reflexivity.
  - assert (H' : (if insn_equal a i then Some (I Dup :: r) else None) = Some r')
      by (destruct i; try discriminate; exact H).
    destruct (insn_equal a i) eqn:E; [|discriminate]. inv H'.
    apply insn_equal_varref in E; auto. subst i. exists 0, r. split; reflexivity.
Qed.

Lemma free_dups n : free (repeat (I Dup) n).
Proof. unfold free. induction n; cbn in *; auto. Qed.
Lemma resolve_dups h n : resolve h (repeat (I Dup) n) = repeat (I Dup) n.
Proof. unfold resolve. induction n; cbn in *; [reflexivity|]. f_equal. exact IHn. Qed.

Lemma to_label_spec r : exists X, r = X ++ to_label r /\ free X.
Proof.
  induction r as [|i r [X [E F]]].
  - exists []. split; reflexivity.
  - destruct i.
    + exists []. split; reflexivity.
    + exists (J k c :: X). cbn [to_label app]. split; [f_equal; exact E|exact F].
    + exists (I i :: X). cbn [to_label app]. split; [f_equal; exact E|exact F].
Qed.
Lemma free_resolve h X : free X -> free (resolve h X).
Proof. unfold free. rewrite labels_resolve. auto. Qed.

Lemma dead_rule h pre i r :
  (match i with J Jmp _ | J Ejmp _ | I Return => true | _ => false end) = true ->
  nd pre (i :: r) -> ok h pre (i :: r) h pre (i :: to_label r).
Proof.
  intros Hi Hn. destruct (to_label_spec r) as (X & E & F).
  rewrite E in Hn. rewrite E at 1.
  apply (win_rule h pre (i :: X) [i] (to_label r)); auto.
  - unfold free in *. destruct i; [discriminate|exact F|exact F].
  - destruct i; [discriminate|reflexivity|reflexivity].
  - intro s. apply (w28 sm lax (resolve1 h i) (resolve h X)).
    destruct i as [|[]|]; auto.
Qed.

Section One.
Variable h : heap.
Variable pre rest : code.
Variable h' : heap.
Variable pre' rest' : code.
Variable b : bool.
Hypothesis Hn : nd pre rest.
Local Notation result := (ok h pre rest h' pre' rest').
Local Notation makes r := (r = Upd h' pre' rest' b).

Lemma ok1 : makes (r1 h pre rest) -> allowed lax 1 h pre rest = true -> result.
Proof.
  unfold r1. intros H A. destruct rest as [|[| |i] [|[| |[]] r]]; try discriminate.
  destruct (side_effect_free i) eqn:E; [|discriminate]. cbn [allowed] in A.
  pose proof (w1 sm lax i E A) as W.
  destruct (stack_delta i); inv H.
  - apply (win_rule h' pre' [I i; I Pop] []); auto; reflexivity.
  - apply (win_rule h' pre' [I i; I Pop] [I Pop]); auto; reflexivity.
  - apply (win_rule h' pre' [I i; I Pop] [I Pop; I Pop]); auto; reflexivity.
Qed.

Lemma ok2 : makes (r2 h pre rest) -> result.
Proof.
  unfold r2. intros H. destruct rest as [|[| |x] [|[| |y] [|[| |z] r]]]; try discriminate.
  destruct (set_then_ref y z) eqn:E; [|discriminate]. cbn [andb] in H.
  destruct (match x with Dup | Push _ => true | _ => false end) eqn:E'; [|discriminate].
  inv H. apply (win_rule h' pre' [I x; I y; I z] [I x; I y; I x]); try reflexivity; auto.
  apply w2; auto.
Qed.

Lemma ok3 : makes (r3 h pre rest) -> result.
Proof.
  unfold r3. intros H. destruct rest as [|[| |x] [|[| |y] r]]; try discriminate.
  destruct (set_then_ref x y) eqn:E; [|discriminate]. inv H.
  apply (win_rule h' pre' [I x; I y] [I Dup; I x]); try reflexivity; auto. apply w3; auto.
Qed.

Lemma ok4 : makes (r4 h pre rest) -> result.
Proof.
  unfold r4. intros H.
  destruct rest as [|[| |[]] [|[| |y] [|[| |[]] r]]]; try discriminate.
  destruct (varset_or_bind y) eqn:E; [|discriminate]. inv H.
  apply (win_rule h' pre' [I Dup; I y; I Pop] [I y]); try reflexivity; auto. apply w4; auto.
Qed.

Lemma ok5 : makes (r5 h pre rest) -> result.
Proof.
  unfold r5. intros H. destruct rest as [|[| |x] [|[| |y] r]]; try discriminate.
  destruct (varref x && insn_equal x y) eqn:E; [|discriminate]. inv H.
  apply (win_rule h' pre' [I x; I y] [I x; I Dup]); try reflexivity; auto. apply w5; auto.
Qed.

Lemma ok6 : makes (r6 h pre rest) -> allowed lax 6 h pre rest = true -> result.
Proof.
  unfold r6. intros H A. destruct rest as [|[| |x] [|[| |y] r]]; try discriminate.
  - destruct x; discriminate.
  - destruct x; discriminate.
  - destruct x; discriminate.
  - destruct x; try discriminate; destruct y; try discriminate;
    destruct (Nat.eqb n n0) eqn:E; try discriminate; inv H.
    + apply (win_rule h' pre' [I (Refn n); I (Setn n0)] []); try reflexivity; auto.
      apply w6; auto.
    + apply (win_rule h' pre' [I (SlotRef n); I (SlotSet n0)] []); try reflexivity; auto.
      apply w6; auto.
Qed.

Lemma ok7 : makes (r7 h pre rest) -> result.
Proof.
  unfold r7. intros H. destruct rest as [|[| |x] [|[| |y] r]]; try discriminate;
    try (destruct x; discriminate).
  destruct x; try discriminate; destruct y; try discriminate; inv H.
  - apply (win_rule h' pre' [I Car; I Car] [I Caar]); try reflexivity; auto. apply w7; auto.
  - apply (win_rule h' pre' [I Car; I Cdr] [I Cdar]); try reflexivity; auto. apply w7; auto.
  - apply (win_rule h' pre' [I Cdr; I Car] [I Cadr]); try reflexivity; auto. apply w7; auto.
  - apply (win_rule h' pre' [I Cdr; I Cdr] [I Cddr]); try reflexivity; auto. apply w7; auto.
Qed.

Lemma ok8 : makes (r8 h pre rest) -> allowed lax 8 h pre rest = true -> result.
Proof.
  unfold r8. intros H A. destruct rest as [|[| |x] [|[| |y] r]]; try discriminate;
    try (destruct x; discriminate).
  destruct x; try discriminate; destruct y; try discriminate; inv H; cbn [allowed] in A;
    try discriminate.
  destruct rest' as [|[|k c|] r]; try discriminate.
  destruct k; try discriminate.
  - apply (win_rule h' pre' [I TestScm; I ScmTest; J Jn c] [J Jn c]); try reflexivity; auto.
    apply w8; auto.
  - apply (win_rule h' pre' [I TestScm; I ScmTest; J Jt c] [J Jt c]); try reflexivity; auto.
    apply w8; auto.
Qed.

Lemma ok9 : makes (r9 h pre rest) -> result.
Proof.
  unfold r9. intros H. destruct rest as [|[| |[[]| | | | | | | | | | | | | | | | | | | | | | | | | | | | | | | | | | | | |]] [|[| |y] r]];
    try discriminate.
  destruct y; try discriminate;
    (destruct (Z.eqb z 1) eqn:E1; [|destruct (Z.eqb z (-1)) eqn:E2; [|discriminate]]); inv H.
  - apply (win_rule h' pre' [I (Push (Num z)); I Add] [I Inc]); try reflexivity; auto. apply w9; auto.
  - apply (win_rule h' pre' [I (Push (Num z)); I Add] [I Dec]); try reflexivity; auto. apply w9; auto.
  - apply (win_rule h' pre' [I (Push (Num z)); I Sub] [I Dec]); try reflexivity; auto. apply w9; auto.
  - apply (win_rule h' pre' [I (Push (Num z)); I Sub] [I Inc]); try reflexivity; auto. apply w9; auto.
Qed.

Lemma ok10 : makes (r10 h pre rest) -> allowed lax 10 h pre rest = true -> result.
Proof.
  unfold r10. cbn [allowed]. intros H A.
  destruct rest as [|[| |[[]| | | | | | | | | | | | | | | | | | | | | | | | | | | | | | | | | | | | |]] [|[| |y] r]];
    try discriminate.
  destruct y; try discriminate; (destruct (Z.eqb z 0) eqn:E1; [|discriminate]);
    apply Z.eqb_eq in E1; subst z; inv H.
  - apply (win_rule h' pre' [I (Push (Num 0)); I Add] []); try reflexivity; auto. apply w10; auto.
  - apply (win_rule h' pre' [I (Push (Num 0)); I Sub] []); try reflexivity; auto. apply w10; auto.
Qed.

Lemma ok11 : makes (r11 h pre rest) -> result.
Proof.
  unfold r11. intros H.
  destruct rest as [|[| |[[]| | | | | | | | | | | | | | | | | | | | | | | | | | | | | | | | | | | | |]] [|[| |y] r]];
    try discriminate.
  destruct y; try discriminate. destruct (Z.eqb z 0) eqn:E1; [|discriminate].
  apply Z.eqb_eq in E1; subst z; inv H.
  apply (win_rule h' pre' [I (Push (Num 0)); I NumEq] [I Zerop]); try reflexivity; auto. apply w11.
Qed.

Lemma ok12 : makes (r12 h pre rest) -> result.
Proof.
  unfold r12. intros H. destruct rest as [|[| |x] [|[| |y] r]]; try discriminate;
    try (destruct x; discriminate).
  destruct x; try discriminate; destruct y; try discriminate. inv H.
  apply (win_rule h' pre' [I Zerop; I Not] [I NotZerop]); try reflexivity; auto. apply w12.
Qed.

Lemma ok13 : makes (r13 h pre rest) -> result.
Proof.
  unfold r13. intros H. destruct rest as [|[|k c|] [|[x| |] r]]; try discriminate;
    try (destruct k; discriminate).
  destruct k; try discriminate. destruct (Nat.eqb_spec (h c) x) as [E|]; [|discriminate]. inv H.
  apply (norm_rule h' pre' [J Jmp c] []); try reflexivity; auto.
  cbn. auto.
Qed.

Lemma ok14 : makes (r14 h pre rest) -> result.
Proof.
  unfold r14. intros H. destruct rest as [|[|k c|] [|[x| |] r]]; try discriminate;
    try (destruct k; discriminate).
  destruct k; try discriminate; (destruct (Nat.eqb_spec (h c) x) as [E|]; [|discriminate]); inv H.
  - apply (norm_rule h' pre' [J Jn c] [I Pop]); try reflexivity; auto; [cbn; auto|].
    apply w14; auto.
  - apply (norm_rule h' pre' [J Jt c] [I Pop]); try reflexivity; auto; [cbn; auto|].
    apply w14; auto.
Qed.

Lemma ok15 : makes (r15 h pre rest) -> result.
Proof.
  unfold r15. intros H. destruct rest as [|[|k c|] [|[| |y] r]]; try discriminate;
    try (destruct k; discriminate).
  destruct k; try discriminate; destruct y; try discriminate; inv H.
  - apply (win_rule h' pre' [J Jpn c; I Pop] [J Jn c]); try reflexivity; auto. apply w15; auto.
  - apply (win_rule h' pre' [J Jpt c; I Pop] [J Jt c]); try reflexivity; auto. apply w15; auto.
Qed.

Lemma ok16 : makes (r16 h pre rest) -> result.
Proof.
  unfold r16. intros H. destruct rest as [|[| |y] [|[|k c|] r]]; try discriminate;
    try (destruct y; discriminate).
  destruct y; try discriminate; destruct k; try discriminate; inv H.
  - apply (win_rule h' pre' [I Not; J Jn c] [J Jt c]); try reflexivity; auto. apply w16; auto.
  - apply (win_rule h' pre' [I Not; J Jt c] [J Jn c]); try reflexivity; auto. apply w16; auto.
Qed.

Lemma ok17 : makes (r17 h pre rest) -> result.
Proof.
  unfold r17. intros H. destruct rest as [|[|k c|] [|[| |y] r]]; try discriminate;
    try (destruct k; discriminate).
  destruct k; try discriminate; destruct y; try discriminate. destruct v; try discriminate. inv H.
  apply (win_rule h' pre' [J Jt c; I (Push Nil)] [J Jpt c]); try reflexivity; auto. apply w17.
Qed.

Lemma ok18 : makes (r18 h pre rest) -> result.
Proof.
  unfold r18. intros H.
  destruct rest as [|[|k c|] [|[|k2 d|] [|[x| |] r]]]; try discriminate;
    try (destruct k; discriminate); try (destruct k; try discriminate; destruct k2; discriminate).
  destruct k; try discriminate; destruct k2; try discriminate;
    (destruct (Nat.eqb_spec (h c) x) as [E|]; [|discriminate]); inv H.
  - apply (norm_rule h' pre' [J Jn c; J Jmp d] [J Jt d]); try reflexivity; auto; [cbn; auto|].
    apply w18; auto.
  - apply (norm_rule h' pre' [J Jt c; J Jmp d] [J Jn d]); try reflexivity; auto; [cbn; auto|].
    apply w18; auto.
Qed.

Lemma ok32 : makes (r32 h pre rest) -> result.
Proof.
  unfold r32. intros H.
  destruct rest as [|[|k c|] [|[|k2 d|] [|[x| |] r]]]; try discriminate;
    try (destruct k2; discriminate).
  destruct k2; try discriminate.
  destruct (Nat.eqb_spec (h c) x) as [E|]; [|discriminate].
  destruct k; try discriminate; inv H;
  match goal with |- ok _ _ (J ?k1 c :: _) _ _ (J ?k2 d :: _) =>
    apply (norm_rule h' pre' [J k1 c; J Jmp d] [J k2 d]) end;
    try reflexivity; auto; [cbn; auto| | cbn; auto| |cbn; auto| |cbn; auto| ];
    apply w18; auto.
Qed.

Lemma ok19 : makes (r19 h pre rest) -> result.
Proof.
  unfold r19. intros H. destruct rest as [|[| |y] [|[|k c|] r]]; try discriminate;
    try (destruct y; discriminate).
  destruct y; try discriminate.
  destruct (cond_jmp k) eqn:E; [|discriminate].
  pose proof (w19 sm lax v k (h c) E) as W.
  destruct k; try discriminate; destruct (nilp v) eqn:N; inv H; cbn in W;
  match goal with
  | |- ok _ _ (I (Push v) :: J ?k1 c :: rest') _ _ rest' =>
      apply (win_rule h' pre' [I (Push v); J k1 c] [])
  | |- ok _ _ (I (Push v) :: J ?k1 c :: ?r) _ _ (J Jmp c :: ?r) =>
      apply (win_rule h' pre' [I (Push v); J k1 c] [J Jmp c])
  | |- ok _ _ (I (Push v) :: J ?k1 c :: ?r) _ _ (I (Push v) :: J Jmp c :: ?r) =>
      apply (win_rule h' pre' [I (Push v); J k1 c] [I (Push v); J Jmp c])
  | |- ok _ _ (I (Push v) :: J ?k1 c :: ?r) _ _ (I (Push v) :: ?r) =>
      apply (win_rule h' pre' [I (Push v); J k1 c] [I (Push v)])
  end; try reflexivity; auto.
Qed.

Lemma ok20 : makes (r20 h pre rest) -> result.
Proof.
  unfold r20. intros H. destruct rest as [|[| |x] [|[| |y] r]]; try discriminate.
  destruct y; try discriminate. destruct (varref_free x) eqn:E; [|discriminate]. inv H.
  apply (win_rule h' pre' [I x; I Unbind] [I Unbind; I x]); try reflexivity; auto.
  apply w20; auto.
Qed.

Lemma ok21 : makes (r21 h pre rest) -> result.
Proof.
  unfold r21. intros H. destruct rest as [|[| |x] [|[| |y] r]]; try discriminate;
    try (destruct x; discriminate).
  destruct x; try discriminate; destruct y; try discriminate. inv H.
  apply (win_rule h' pre' [I Bind; I Unbind] [I Pop; I Unbind]); try reflexivity; auto. apply w21.
Qed.
Lemma ok22 : makes (r22 h pre rest) -> result.
Proof.
  unfold r22. intros H. destruct rest as [|[| |x] [|[| |y] r]]; try discriminate;
    try (destruct x; discriminate).
  destruct x; try discriminate; destruct y; try discriminate. inv H.
  apply (win_rule h' pre' [I InitBind; I Unbind] []); try reflexivity; auto. apply w22.
Qed.
Lemma ok23 : makes (r23 h pre rest) -> result.
Proof.
  unfold r23. intros H. destruct rest as [|[| |x] [|[| |y] r]]; try discriminate;
    try (destruct x; discriminate).
  destruct x; try discriminate; destruct y; try discriminate; inv H.
  - apply (win_rule h' pre' [I InitBind; I Unbindall] [I Unbindall]); try reflexivity; auto. apply w23; auto.
  - apply (win_rule h' pre' [I InitBind; I Return] [I Return]); try reflexivity; auto. apply w23; auto.
Qed.
Lemma ok24 : makes (r24 h pre rest) -> result.
Proof.
  unfold r24. intros H. destruct rest as [|[| |x] [|[| |y] r]]; try discriminate;
    try (destruct x; discriminate).
  destruct x; try discriminate; destruct y; try discriminate. inv H.
  apply (win_rule h' pre' [I Unbind; I Return] [I Return]); try reflexivity; auto. apply w24.
Qed.

Lemma ok_refl : h' = h -> pre' = pre -> rest' = rest -> result.
Proof. intros -> -> ->. split; [apply keeps_refl|exact Hn]. Qed.

Lemma ok25 : makes (r25 h pre rest) -> result.
Proof.
  unfold r25. intros H. destruct rest as [|[| |x] [|[| |y] r]]; try discriminate.
  destruct y; try discriminate. destruct (varref x) eqn:E; [|discriminate].
  destruct (dups_then x (I Dup :: r)) as [r0|] eqn:D.
  - inv H. destruct (dups_then_spec x E _ _ D) as (n & R & E1 & ->). rewrite E1 in *.
    replace (I x :: repeat (I Dup) n ++ I x :: R)
      with ((I x :: repeat (I Dup) n ++ [I x]) ++ R) in *
      by (cbn; rewrite <- app_assoc; reflexivity).
    replace (I x :: repeat (I Dup) n ++ I Dup :: R)
      with ((I x :: repeat (I Dup) n ++ [I Dup]) ++ R)
      by (cbn; rewrite <- app_assoc; reflexivity).
    apply win_rule; auto.
    + unfold free. cbn. fold (labels (repeat (I Dup) n ++ [I x])).
      rewrite labels_app, free_dups. reflexivity.
    + unfold free. cbn. fold (labels (repeat (I Dup) n ++ [I Dup])).
      rewrite labels_app, free_dups. reflexivity.
    + intro s. right. cbn [resolve map resolve1]. fold (resolve h').
      change (map (resolve1 h')) with (resolve h'). rewrite !resolve_app, resolve_dups.
      assert (A : again x = true) by (destruct x; auto).
      change (resolve h' [I x]) with [I x]. change (resolve h' [I Dup]) with [I Dup].
      rewrite (wagain sm lax x (repeat (I Dup) n ++ [I x]) A).
      * rewrite (wagain sm lax x (repeat (I Dup) n ++ [I Dup]) A).
        -- rewrite !app_length. reflexivity.
        -- apply Forall_app. split; [|constructor; [left; reflexivity|constructor]].
           apply Forall_forall. intros i Hi. apply repeat_spec in Hi. left. exact Hi.
      * apply Forall_app. split; [|constructor; [right; reflexivity|constructor]].
        apply Forall_forall. intros i Hi. apply repeat_spec in Hi. left. exact Hi.
  - inv H. split; [apply keeps_refl|exact Hn].
Qed.

(** labels *)
Lemma ok27 : makes (r27 h pre rest) -> result.
Proof.
  unfold r27. intros H. destruct rest as [|[x| |] r]; try discriminate.
  destruct (existsb _ _) eqn:E; [discriminate|]. inv H. split.
  - unfold full. rewrite !resolve_app. cbn [resolve map resolve1].
    apply del_label. rewrite <- resolve_app, targets_resolve. intro Hi.
    apply in_map_iff in Hi. destruct Hi as (c & Ec & Hc).
    assert (T : existsb (fun c => Nat.eqb (h' c) x) (cells (full pre' (Lbl x :: rest'))) = true).
    { apply existsb_exists. exists c. split; [|apply Nat.eqb_eq; exact Ec].
      unfold full. rewrite cells_app in *. exact Hc. }
    congruence.
  - unfold nd, full in *. rewrite labels_app in *. cbn in Hn.
    apply NoDup_remove_1 in Hn. exact Hn.
Qed.

Lemma ok26 : makes (r26 h pre rest) -> result.
Proof.
  unfold r26. intros H. destruct rest as [|[x| |] r]; try discriminate.
  destruct r as [|[y| |] r]; try discriminate.
  - inv H. split; [apply keeps_refl|exact Hn].
  - inv H. split.
    + set (all := cells (full pre' (Lbl x :: Lbl y :: r))).
      set (h2 := fun c => if Nat.eqb (h c) y && existsb (Nat.eqb c) all then x else h c).
      assert (E : forall c, incl (cells c) all -> resolve h2 c = map (ren_i (rho x y)) (resolve h c)).
      { unfold resolve. intros c Hc. rewrite map_map. apply map_ext_in. intros i Hi.
        destruct i as [|k c0|]; cbn; auto. f_equal. unfold rho, h2.
        assert (C : existsb (Nat.eqb c0) all = true).
        { apply existsb_exists. exists c0. split; [|apply Nat.eqb_refl]. apply Hc.
          apply in_flat_map. exists (J k c0). split; [exact Hi|cbn; auto]. }
        rewrite C, andb_true_r. reflexivity. }
      assert (I1 : incl (cells (rev pre')) all).
      { unfold all, full. rewrite cells_app. intros c Hc. apply in_app_iff. left. exact Hc. }
      assert (I2 : incl (cells r) all).
      { unfold all, full. rewrite cells_app. intros c Hc. apply in_app_iff. right. exact Hc. }
      clearbody h2. unfold full. rewrite !resolve_app. rewrite (E _ I1).
      change (resolve h2 (Lbl x :: r)) with (Lbl x :: resolve h2 r). rewrite (E _ I2).
      change (resolve h (Lbl x :: Lbl y :: r)) with (Lbl x :: Lbl y :: resolve h r).
      apply merge_keeps. unfold nd, full in Hn. rewrite labels_app in *.
      change (NoDup (labels (resolve h (rev pre')) ++ x :: y :: labels (resolve h r))).
      rewrite !labels_resolve. exact Hn.
    + unfold nd, full in *. rewrite labels_app in *.
      change (NoDup (labels (rev pre') ++ x :: labels r)).
      assert (Hn' : NoDup ((labels (rev pre') ++ [x]) ++ y :: labels r))
        by (rewrite <- app_assoc; exact Hn).
      apply NoDup_remove_1 in Hn'. rewrite <- app_assoc in Hn'. exact Hn'.
Qed.

(** dead code *)
Lemma ok28 : makes (r28 h pre rest) -> result.
Proof.
  unfold r28. intros H. destruct rest as [|i [|i1 r]]; try discriminate.
  - destruct i as [|[]|[]]; discriminate.
  - assert (Hi : (match i with J Jmp _ | J Ejmp _ | I Return => true | _ => false end) = true).
    { destruct i as [|[]|[]]; try discriminate; reflexivity. }
    assert (H' : (if is_label i1 then NoMatch
                  else upd h pre (i :: to_label (i1 :: r))) = Upd h' pre' rest' b).
    { destruct i as [|[]|[]]; try discriminate; exact H. }
    destruct (is_label i1); [discriminate|]. inv H'. apply dead_rule; auto.
Qed.

Lemma ok29 : makes (r29 h pre rest) -> result.
Proof.
  unfold r29. intros H. destruct rest as [|[|k c|] r]; try discriminate.
  destruct (jmp_insn k) eqn:Hk; [|discriminate].
  destruct (find (h c) (full pre (J k c :: r))) as [t|] eqn:F; [|discriminate].
  destruct t as [|[|[] d|] t]; try discriminate.
  destruct (Nat.eqb (h c) (h d)); [discriminate|]. inv H. split.
  - unfold full. rewrite !resolve_app. cbn [resolve map resolve1].
    apply (thread_jmp sm lax (resolve h' (rev pre')) (resolve h' r) k (h' c) (h' d) (resolve h' t)); auto.
    change (J k (h' c) :: resolve h' r) with (resolve h' (J k c :: r)).
    rewrite <- resolve_app, find_resolve. unfold full in F. rewrite F. reflexivity.
  - unfold nd, full in *. rewrite !labels_app in *. exact Hn.
Qed.

Lemma ok30 : makes (r30 h pre rest) -> result.
Proof.
  unfold r30. intros H. destruct rest as [|[|k c|] r]; try discriminate.
  destruct k; try discriminate.
  destruct (find (h c) (full pre (J Jmp c :: r))) as [t|] eqn:F; [|discriminate].
  destruct t as [|[| |[]] t]; try discriminate. inv H. split.
  - unfold full. rewrite !resolve_app. cbn [resolve map resolve1].
    apply (thread_return sm lax (resolve h' (rev pre')) (resolve h' r) Jmp (h' c) (resolve h' t)); auto.
    change (J Jmp (h' c) :: resolve h' r) with (resolve h' (J Jmp c :: r)).
    rewrite <- resolve_app, find_resolve. unfold full in F. rewrite F. reflexivity.
  - unfold nd, full in *. rewrite !labels_app in *. exact Hn.
Qed.

Lemma ok33 : makes (last1 h pre rest) -> allowed lax 33 h pre rest = true -> result.
Proof.
  unfold last1. intros H A.
  destruct rest as [|[| |[]] [|[| |y] [|[| |[]] r]]]; try discriminate.
  destruct (varset_or_bind y) eqn:E; [|discriminate]. cbn [andb] in H.
  destruct (equalv v v0) eqn:V; [|discriminate]. cbn [allowed] in A.
  apply negb_true_iff in A. apply equalv_eq in V; auto. subst v0. inv H.
  apply (win_rule h' pre' [I (Push v); I y; I (Push v)] [I (Push v); I Dup; I y]);
    try reflexivity; auto. apply w33; auto.
Qed.

Lemma ok34 : makes (last2 h pre rest) -> allowed lax 34 h pre rest = true -> result.
Proof.
  unfold last2. intros H A. destruct rest as [|[| |a] r]; try discriminate.
  destruct (match a with Push _ => true | _ => varref a end) eqn:E; [|discriminate]. inv H.
  assert (AE : forall i, insn_equal a i = true -> i = a).
  { intros i Hi. destruct a; try discriminate;
      try (apply insn_equal_varref in Hi; auto; fail).
    cbn [allowed] in A. apply negb_true_iff in A.
    destruct i; try discriminate. cbn [insn_equal] in Hi. apply equalv_eq in Hi; auto.
    subst. reflexivity. }
  assert (SP : exists X R, r = X ++ R /\ dup_all a r = repeat (I Dup) (length X) ++ R /\
                 Forall (again_of a) X).
  { clear - AE. induction r as [|i r (X & R & E1 & E2 & F)].
    - exists [], []. repeat split; constructor.
    - destruct i as [|k c|i]; try (exists []; eexists; repeat split; constructor).
      destruct (match i with Dup => true | _ => insn_equal a i end) eqn:B.
      + exists (I i :: X), R. repeat split.
        * cbn. f_equal. exact E1.
        * cbn [length repeat app]. rewrite <- E2. cbn [dup_all].
          destruct i; try reflexivity; rewrite B; reflexivity.
        * constructor; auto. destruct i; try (left; reflexivity); right; f_equal; auto.
      + exists [], (I i :: r). repeat split; [|constructor]. cbn [dup_all app length repeat].
        destruct i; try discriminate; rewrite B; reflexivity. }
  destruct SP as (X & R & -> & -> & F).
  assert (FX : free X).
  { clear - F. unfold free. induction F as [|i X Hi F IH]; [reflexivity|].
    destruct Hi; subst i; exact IH. }
  apply (win_rule h' pre' (I a :: X) (I a :: repeat (I Dup) (length X)) R); auto.
  - apply free_dups.
  - intro s. right. cbn [resolve map resolve1].
    change (map (resolve1 h')) with (resolve h').
    assert (RX : resolve h' X = X).
    { clear - F. unfold resolve. induction F as [|i X Hi F IH]; [reflexivity|].
      destruct Hi; subst i; cbn; f_equal; exact IH. }
    rewrite RX, resolve_dups. apply wagain; auto.
Qed.
End One.

Lemma set_cell_other h c v X : ~ In c (cells X) -> resolve (set_cell h c v) X = resolve h X.
Proof.
  unfold resolve. intro N. apply map_ext_in. intros i Hi. destruct i as [|k d|]; cbn; auto.
  unfold set_cell. destruct (Nat.eqb_spec d c) as [->|]; auto. destruct N.
  apply in_flat_map. exists (J k c). split; [exact Hi|cbn; auto].
Qed.

Lemma count_one P k c R : (count c (cells (P ++ J k c :: R)) =? 1) = true ->
  ~ In c (cells P) /\ ~ In c (cells R).
Proof.
  intro H. apply Nat.eqb_eq in H. unfold count in H. rewrite cells_app in H.
  rewrite filter_app, app_length in H. cbn [cells flat_map app filter] in H.
  rewrite Nat.eqb_refl in H. cbn [length] in H.
  assert (Z : forall l, length (filter (Nat.eqb c) l) = 0 -> ~ In c l).
  { intros l Hl Hi. assert (In c (filter (Nat.eqb c) l)) by
      (apply filter_In; split; [exact Hi|apply Nat.eqb_refl]).
    destruct (filter (Nat.eqb c) l); [contradiction|discriminate]. }
  split; apply Z; fold (cells R) in H; lia.
Qed.

Lemma insert_spec x z i T c : find x c = Some (i :: T) ->
  exists p, find x p = None /\ c = p ++ Lbl x :: i :: T /\
            insert_after x z c = p ++ Lbl x :: i :: Lbl z :: T.
Proof.
  induction c as [|j c IH]; [discriminate|]. cbn [find insert_after]. intro H.
  destruct j as [y|k d|j].
  - destruct (Nat.eqb_spec x y) as [<-|N].
    + inv H. exists []. repeat split.
    + destruct (IH H) as (p & F & -> & ->). exists (Lbl y :: p). repeat split.
      cbn. apply Nat.eqb_neq in N. rewrite N. exact F.
  - destruct (IH H) as (p & F & -> & ->). exists (J k d :: p). repeat split. exact F.
  - destruct (IH H) as (p & F & -> & ->). exists (I j :: p). repeat split. exact F.
Qed.

Lemma max_list_le n l : In n l -> n <= max_list l.
Proof. induction l; cbn; [tauto|]. intros [->|H]; [|specialize (IHl H)]; lia. Qed.
Lemma gensym_fresh h pre rest :
  ~ In (gensym h pre rest) (labels (full pre rest)) /\
  ~ In (gensym h pre rest) (map h (cells (full pre rest))).
Proof.
  assert (F : ~ In (gensym h pre rest) (labels (full pre rest) ++ map h (cells (full pre rest)))).
  { intro H. apply max_list_le in H. unfold gensym in H. lia. }
  rewrite in_app_iff in F. tauto.
Qed.

(** a new label after the second jump *)
Lemma insert_keeps h p i z T : ~ In z (map h (cells (p ++ i :: T))) ->
  ~ In z (labels (p ++ i :: T)) -> NoDup (labels (p ++ i :: T)) -> is_label i = false ->
  keeps sm lax (resolve h (p ++ i :: T)) (resolve h (p ++ i :: Lbl z :: T)) /\
  NoDup (labels (p ++ i :: Lbl z :: T)) /\
  find z (p ++ i :: Lbl z :: T) = Some T.
Proof.
  intros HT HL ND Hi.
  replace (p ++ i :: T) with ((p ++ [i]) ++ T) in * by (rewrite <- app_assoc; reflexivity).
  replace (p ++ i :: Lbl z :: T) with ((p ++ [i]) ++ Lbl z :: T) by (rewrite <- app_assoc; reflexivity).
  split; [|split].
  - rewrite (resolve_app h (p ++ [i]) T), (resolve_app h (p ++ [i]) (Lbl z :: T)).
    change (resolve h (Lbl z :: T)) with (Lbl z :: resolve h T).
    apply ins_label. rewrite <- resolve_app, targets_resolve. exact HT.
  - rewrite labels_app in *.
    change (NoDup (labels (p ++ [i]) ++ z :: labels T)).
    apply (NoDup_Add (Add_app z (labels (p ++ [i])) (labels T))). split; auto.
  - rewrite find_app. assert (N : find z (p ++ [i]) = None).
    { apply find_none. intro H. apply HL. rewrite labels_app. apply in_app_iff. left. exact H. }
    rewrite N. cbn [find]. rewrite Nat.eqb_refl. reflexivity.
Qed.

Lemma ok31 h pre rest h' pre' rest' b : nd pre rest ->
  r31 h pre rest = Upd h' pre' rest' b -> allowed lax 31 h pre rest = true ->
  ok h pre rest h' pre' rest'.
Proof.
  intros Hn H A. destruct rest as [|[|k c|] r]; try discriminate.
  assert (Hk : k = Jnp \/ k = Jtp) by (unfold r31 in H; destruct k; try discriminate; auto).
  assert (H' : match find (h c) (full pre (J k c :: r)) with
      | None => OptError
      | Some (J k' d :: _) =>
          if cond_jmp k' then
            let '(nk, new) := thread k k' in
            if new then
              let z := gensym h pre (J k c :: r) in
              let h' := set_cell h c z in
              match find (h c) (rev pre) with
              | Some (_ :: _) =>
                  Upd h' (rev (insert_after (h c) z (rev pre))) (J nk c :: r) true
              | _ => Upd h' pre (J nk c :: insert_after (h c) z r) true
              end
            else Upd (set_cell h c (h d)) pre (J nk c :: r) true
          else NoMatch
      | _ => NoMatch
      end = Upd h' pre' rest' b)
   by (destruct Hk as [-> | ->]; exact H).
  clear H. cbn [allowed] in A. apply andb_true_iff in A. destruct A as [A1 A2].
  unfold full in A1. apply count_one in A1. destruct A1 as [CP CR].
  destruct (find (h c) (full pre (J k c :: r))) as [t|] eqn:F; [|discriminate].
  destruct t as [|[|k' d|] t]; try discriminate.
  destruct (cond_jmp k') eqn:Hk'; [|discriminate].
  assert (Hbad : ~ (k = Jtp /\ k' = Jpn)).
  { intros [-> ->]. discriminate. }
  destruct (thread k k') as [nk new] eqn:Ht. cbv zeta in H'.
  destruct new.
  2:{ inv H'. split.
    - unfold full. rewrite !resolve_app. rewrite (set_cell_other h c (h d) _ CP).
      change (resolve (set_cell h c (h d)) (J nk c :: r)) with
        (J nk (set_cell h c (h d) c) :: resolve (set_cell h c (h d)) r).
      change (resolve h (J k c :: r)) with (J k (h c) :: resolve h r). rewrite (set_cell_other h c (h d) _ CR).
      unfold set_cell. rewrite Nat.eqb_refl.
      apply (thread_cond sm lax (resolve h (rev pre')) (resolve h r) k (h c) k' (h d)
              (resolve h t) nk false 0 []); auto; [|discriminate].
      change (J k (h c) :: resolve h r) with (resolve h (J k c :: r)).
      rewrite <- resolve_app, find_resolve. unfold full in F. rewrite F. reflexivity.
    - unfold nd, full in *. rewrite !labels_app in *. exact Hn. }
  destruct (gensym_fresh h pre (J k c :: r)) as [GL GT].
  set (z := gensym h pre (J k c :: r)) in *. clearbody z.
  unfold nd, full in *.
  assert (NS : k' <> k).
  { intros ->. destruct Hk as [-> | ->]; discriminate. }
  destruct (find (h c) (rev pre)) as [[|j T]|] eqn:FP.
  - exfalso. rewrite find_app, FP in F. inversion F. congruence.
  - rewrite find_app, FP in F. cbn [app] in F.
    assert (j = J k' d /\ t = T ++ J k c :: r) as [-> ->] by (inversion F; auto). clear F.
    destruct (insert_spec (h c) z _ _ _ FP) as (p & Fp & E1 & E2).
    rewrite E2 in H'. rewrite E1 in *.
    assert (E3 : (p ++ Lbl (h c) :: J k' d :: T) ++ J k c :: r =
                 (p ++ [Lbl (h c)]) ++ J k' d :: (T ++ J k c :: r))
      by (rewrite <- !app_assoc; reflexivity).
    assert (E4 : (p ++ Lbl (h c) :: J k' d :: Lbl z :: T) ++ J k c :: r =
                 (p ++ [Lbl (h c)]) ++ J k' d :: Lbl z :: (T ++ J k c :: r))
      by (rewrite <- !app_assoc; reflexivity).
    inv H'. unfold ok, full. rewrite rev_involutive.
    destruct (insert_keeps h (p ++ [Lbl (h c)]) (J k' d) z (T ++ J k c :: r)) as (K1 & K2 & K3);
      try rewrite <- E3; auto.
    rewrite <- E3, <- E4 in *. split.
    + rewrite E1. eapply keeps_trans; [exact K1|].
      assert (CP' : ~ In c (cells (p ++ Lbl (h c) :: J k' d :: Lbl z :: T))).
      { rewrite cells_app in *. exact CP. }
      rewrite (resolve_app h (p ++ Lbl (h c) :: J k' d :: Lbl z :: T)).
      rewrite (resolve_app _ (p ++ Lbl (h c) :: J k' d :: Lbl z :: T)).
      rewrite (set_cell_other h c z _ CP').
      change (resolve (set_cell h c z) (J nk c :: r)) with
        (J nk (set_cell h c z c) :: resolve (set_cell h c z) r).
      rewrite (set_cell_other h c z _ CR). unfold set_cell. rewrite Nat.eqb_refl.
      apply (thread_cond sm lax (resolve h (p ++ Lbl (h c) :: J k' d :: Lbl z :: T))
               (resolve h r) k (h c) k' (h d) (Lbl z :: resolve h (T ++ J k c :: r)) nk true z
               (resolve h (T ++ J k c :: r))); auto.
      * change (J k (h c) :: resolve h r) with (resolve h (J k c :: r)).
        rewrite <- resolve_app, find_resolve. rewrite E4, <- app_assoc, find_app, Fp.
        cbn [app find]. rewrite Nat.eqb_refl. reflexivity.
      * intros _. split; [reflexivity|].
        change (J k (h c) :: resolve h r) with (resolve h (J k c :: r)).
        rewrite <- resolve_app, find_resolve, K3. reflexivity.
    + rewrite labels_app in *. exact K2.
  - rewrite find_app, FP in F. cbn [find] in F.
    destruct (insert_spec (h c) z _ _ _ F) as (p & Fp & E1 & E2).
    rewrite E2 in H'. rewrite E1 in *.
    assert (E3 : rev pre ++ J k c :: p ++ Lbl (h c) :: J k' d :: t =
                 (rev pre ++ J k c :: p ++ [Lbl (h c)]) ++ J k' d :: t)
      by (rewrite <- !app_assoc; cbn; rewrite <- app_assoc; reflexivity).
    assert (E4 : rev pre ++ J k c :: p ++ Lbl (h c) :: J k' d :: Lbl z :: t =
                 (rev pre ++ J k c :: p ++ [Lbl (h c)]) ++ J k' d :: Lbl z :: t)
      by (rewrite <- !app_assoc; cbn; rewrite <- app_assoc; reflexivity).
    inv H'. unfold ok, full.
    destruct (insert_keeps h (rev pre' ++ J k c :: p ++ [Lbl (h c)]) (J k' d) z t) as (K1 & K2 & K3);
      try rewrite <- E3; auto.
    rewrite <- E3, <- E4 in *. split.
    + eapply keeps_trans; [exact K1|].
      assert (CR' : ~ In c (cells (p ++ Lbl (h c) :: J k' d :: Lbl z :: t))).
      { rewrite cells_app in *. exact CR. }
      rewrite (resolve_app h (rev pre')), (resolve_app _ (rev pre')).
      rewrite (set_cell_other h c z _ CP).
      change (resolve (set_cell h c z) (J nk c :: p ++ Lbl (h c) :: J k' d :: Lbl z :: t))
        with (J nk (set_cell h c z c) ::
              resolve (set_cell h c z) (p ++ Lbl (h c) :: J k' d :: Lbl z :: t)).
      rewrite (set_cell_other h c z _ CR'). unfold set_cell. rewrite Nat.eqb_refl.
      apply (thread_cond sm lax (resolve h (rev pre'))
               (resolve h (p ++ Lbl (h c) :: J k' d :: Lbl z :: t)) k (h c) k' (h d)
               (Lbl z :: resolve h t) nk true z (resolve h t)); auto.
      * change (J k (h c) :: resolve h (p ++ Lbl (h c) :: J k' d :: Lbl z :: t))
          with (resolve h (J k c :: p ++ Lbl (h c) :: J k' d :: Lbl z :: t)).
        rewrite <- resolve_app, find_resolve, find_app, FP. cbn [find]. rewrite find_app, Fp.
        cbn [find]. rewrite Nat.eqb_refl. reflexivity.
      * intros _. split; [reflexivity|].
        change (J k (h c) :: resolve h (p ++ Lbl (h c) :: J k' d :: Lbl z :: t))
          with (resolve h (J k c :: p ++ Lbl (h c) :: J k' d :: Lbl z :: t)).
        rewrite <- resolve_app, find_resolve, K3. reflexivity.
    + rewrite labels_app in *. exact K2.
Qed.

(** * The whole *)
Lemma rules_ok h pre rest n h' pre' rest' b : nd pre rest ->
  rules h pre rest = (n, Upd h' pre' rest' b) -> allowed lax n h pre rest = true ->
  ok h pre rest h' pre' rest'.
Proof.
  intros Hn H A. unfold rules in H. cbn [first] in H.
  destruct (r1 h pre rest) eqn:E1; [|discriminate|inv H; eapply ok1; eauto].
  destruct (r2 h pre rest) eqn:E2; [|discriminate|inv H; eapply ok2; eauto].
  destruct (r3 h pre rest) eqn:E3; [|discriminate|inv H; eapply ok3; eauto].
  destruct (r4 h pre rest) eqn:E4; [|discriminate|inv H; eapply ok4; eauto].
  destruct (r5 h pre rest) eqn:E5; [|discriminate|inv H; eapply ok5; eauto].
  destruct (r6 h pre rest) eqn:E6; [|discriminate|inv H; eapply ok6; eauto].
  destruct (r7 h pre rest) eqn:E7; [|discriminate|inv H; eapply ok7; eauto].
  destruct (r8 h pre rest) eqn:E8; [|discriminate|inv H; eapply ok8; eauto].
  destruct (r9 h pre rest) eqn:E9; [|discriminate|inv H; eapply ok9; eauto].
  destruct (r10 h pre rest) eqn:E10; [|discriminate|inv H; eapply ok10; eauto].
  destruct (r11 h pre rest) eqn:E11; [|discriminate|inv H; eapply ok11; eauto].
  destruct (r12 h pre rest) eqn:E12; [|discriminate|inv H; eapply ok12; eauto].
  destruct (r13 h pre rest) eqn:E13; [|discriminate|inv H; eapply ok13; eauto].
  destruct (r14 h pre rest) eqn:E14; [|discriminate|inv H; eapply ok14; eauto].
  destruct (r15 h pre rest) eqn:E15; [|discriminate|inv H; eapply ok15; eauto].
  destruct (r16 h pre rest) eqn:E16; [|discriminate|inv H; eapply ok16; eauto].
  destruct (r17 h pre rest) eqn:E17; [|discriminate|inv H; eapply ok17; eauto].
  destruct (r18 h pre rest) eqn:E18; [|discriminate|inv H; eapply ok18; eauto].
  destruct (r19 h pre rest) eqn:E19; [|discriminate|inv H; eapply ok19; eauto].
  destruct (r20 h pre rest) eqn:E20; [|discriminate|inv H; eapply ok20; eauto].
  destruct (r21 h pre rest) eqn:E21; [|discriminate|inv H; eapply ok21; eauto].
  destruct (r22 h pre rest) eqn:E22; [|discriminate|inv H; eapply ok22; eauto].
  destruct (r23 h pre rest) eqn:E23; [|discriminate|inv H; eapply ok23; eauto].
  destruct (r24 h pre rest) eqn:E24; [|discriminate|inv H; eapply ok24; eauto].
  destruct (r25 h pre rest) eqn:E25; [|discriminate|inv H; eapply ok25; eauto].
  destruct (r26 h pre rest) eqn:E26; [|discriminate|inv H; eapply ok26; eauto].
  destruct (r27 h pre rest) eqn:E27; [|discriminate|inv H; eapply ok27; eauto].
  destruct (r28 h pre rest) eqn:E28; [|discriminate|inv H; eapply ok28; eauto].
  destruct (r29 h pre rest) eqn:E29; [|discriminate|inv H; eapply ok29; eauto].
  destruct (r30 h pre rest) eqn:E30; [|discriminate|inv H; eapply ok30; eauto].
  destruct (r31 h pre rest) eqn:E31; [|discriminate|inv H; eapply ok31; eauto].
  destruct (r32 h pre rest) eqn:E32; [discriminate|discriminate|inv H; eapply ok32; eauto].
Qed.

Lemma last_rules_ok h pre rest n h' pre' rest' b : nd pre rest ->
  last_rules h pre rest = (n, Upd h' pre' rest' b) -> allowed lax n h pre rest = true ->
  ok h pre rest h' pre' rest'.
Proof.
  intros Hn H A. unfold last_rules in H. cbn [first] in H.
  destruct (last1 h pre rest) eqn:E1; [|discriminate|inv H; eapply ok33; eauto].
  destruct (last2 h pre rest) eqn:E2; [discriminate|discriminate|inv H; eapply ok34; eauto].
Qed.

Lemma full_shift pre rest : full (fst (shift pre rest)) (snd (shift pre rest)) = full pre rest.
Proof.
  destruct rest; [reflexivity|]. cbn. unfold full. cbn. rewrite <- app_assoc. reflexivity.
Qed.

Lemma loop_ok fuel : forall h pre rest kg h' c', nd pre rest ->
  loop fuel h pre rest kg = Result h' c' -> loop_allowed lax fuel h pre rest kg = true ->
  keeps sm lax (resolve h (full pre rest)) (resolve h' c') /\ NoDup (labels c').
Proof.
  induction fuel as [|fuel IH]; intros h pre rest kg h' c' Hn H A; [discriminate|].
  cbn [loop loop_allowed] in H, A. destruct rest as [|i r].
  - destruct kg.
    + destruct (IH h [] (rev pre) false h' c') as [K N]; auto.
      * unfold nd, full in *. rewrite app_nil_r in Hn. exact Hn.
      * split; auto. unfold full in *. rewrite app_nil_r. exact K.
    + inv H. unfold nd, full in *. rewrite app_nil_r in *. split; auto. apply keeps_refl.
  - destruct (rules h pre (i :: r)) as [n u] eqn:E. cbn [snd] in H.
    destruct u as [| |h2 pre2 rest2 b].
    + cbn [shift] in *. assert (S := full_shift pre (i :: r)). cbn [shift fst snd] in S.
      destruct (IH h (i :: pre) r kg h' c') as [K N]; auto.
      * unfold nd in *. rewrite S. exact Hn.
      * rewrite S in K. auto.
    + discriminate.
    + assert (S := full_shift pre2 rest2). destruct (shift pre2 rest2) as [p2 r2'].
      cbn [fst snd] in S. apply andb_true_iff in A. destruct A as [A1 A2].
      destruct (rules_ok _ _ _ _ _ _ _ _ Hn E A1) as [K1 N1].
      destruct (IH h2 p2 r2' (kg || b) h' c') as [K N]; auto.
      * unfold nd. rewrite S. exact N1.
      * split; auto. rewrite S in K. eapply keeps_trans; eauto.
Qed.

Lemma last_loop_ok fuel : forall h pre rest h' c', nd pre rest ->
  last_loop fuel h pre rest = Result h' c' -> last_allowed lax fuel h pre rest = true ->
  keeps sm lax (resolve h (full pre rest)) (resolve h' c') /\ NoDup (labels c').
Proof.
  induction fuel as [|fuel IH]; intros h pre rest h' c' Hn H A; [discriminate|].
  cbn [last_loop last_allowed] in H, A. destruct rest as [|i r].
  - inv H. unfold nd, full in *. rewrite app_nil_r in *. split; auto. apply keeps_refl.
  - destruct (last_rules h pre (i :: r)) as [n u] eqn:E. cbn [snd] in H.
    assert (STEP : (let '(p, r) := shift pre (i :: r) in last_loop fuel h p r) = Result h' c' ->
       (let '(p, r) := shift pre (i :: r) in last_allowed lax fuel h p r) = true ->
       keeps sm lax (resolve h (full pre (i :: r))) (resolve h' c') /\ NoDup (labels c')).
    { cbn [shift]. intros H1 A1. assert (S := full_shift pre (i :: r)). cbn [shift fst snd] in S.
      destruct (IH h (i :: pre) r h' c') as [K N]; auto.
      * unfold nd in *. rewrite S. exact Hn.
      * rewrite S in K. auto. }
    destruct u as [| |h2 pre2 rest2 b]; auto.
    assert (S := full_shift pre2 rest2). destruct (shift pre2 rest2) as [p2 r2'].
    cbn [fst snd] in S. apply andb_true_iff in A. destruct A as [A1 A2].
    destruct (last_rules_ok _ _ _ _ _ _ _ _ Hn E A1) as [K1 N1].
    destruct (IH h2 p2 r2' h' c') as [K N]; auto.
    + unfold nd. rewrite S. exact N1.
    + split; auto. rewrite S in K. eapply keeps_trans; eauto.
Qed.

Lemma optimize_ok fuel h c h' c' : well_formed c ->
  optimize fuel h c = Result h' c' -> run_allowed lax fuel h c = true ->
  keeps sm lax (resolve h c) (resolve h' c') /\ well_formed c'.
Proof.
  unfold optimize, run_allowed, well_formed. intros Hn H A.
  apply andb_true_iff in A. destruct A as [A1 A2].
  destruct (loop fuel h [] c false) as [| |h1 c1] eqn:L; try discriminate.
  destruct (loop_ok fuel h [] c false h1 c1 Hn L A1) as [K1 N1].
  destruct (last_loop_ok fuel h1 [] c1 h' c' N1 H A2) as [K2 N2].
  split; auto. eapply keeps_trans; eauto.
Qed.
End Rules.
