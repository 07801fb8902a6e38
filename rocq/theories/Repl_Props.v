(** C100: the interactive interpreter finds commands and evaluates what was entered *)

From Coq Require Import ZArith List Bool Lia.
From Verif Require Import Repl_Model Repl_Spec Repl_Proofs.
Import ListNotations.
Open Scope Z_scope.

Section Commands.
Context {C : Type}.
Lemma nodup_same : forall (l : list (list Z * C)) c d, NoDup (map fst l) -> In c l -> In d l -> fst c = fst d -> c = d.
Proof.
  induction l as [|x l IH]; intros c d N I J E; [destruct I|]. cbn in N. inversion N as [|? ? N1 N2]; subst.
  destruct I as [->|I]; destruct J as [->|J]; [reflexivity| | |exact (IH c d N2 I J E)].
  - exfalso. apply N1. rewrite E. apply in_map, J.
  - exfalso. apply N1. rewrite <- E. apply in_map, I.
Qed.

(** A command is found exactly when the name is its own, or is nobody's and abbreviates only
    it *)
Theorem C100_command : forall n (l : list (list Z * C)) c, NoDup (map fst l) -> (find_command n l = Cell c <-> denotes n l c).
Proof.
  intros n l c N. unfold find_command. destruct (assq n l) as [d|] eqn:A.
  - apply assq_some in A as (I & E). split.
    + intros [= <-]. split; [exact I|left; exact E].
    + intros (J & [E'|(X & _)]); [f_equal; apply (nodup_same l); congruence|].
      exfalso. apply X. rewrite <- E. apply in_map, I.
  - apply assq_none in A. split.
    + intros H. apply find_loop_cell in H as (l1 & l2 & -> & B & O). split; [apply in_or_app; right; left; reflexivity|]. right.
      split; [exact A|]. split; [apply begins_spec, B|]. intros d I Ab. apply begins_spec in Ab.
      apply in_app_or in I as [I|[I|I]]; [|congruence|]; rewrite O in Ab by (apply in_or_app; auto); discriminate.
    + intros (I & [E|(_ & Ab & O)]); [exfalso; apply A; rewrite <- E; apply in_map, I|].
      destruct (find_loop n l None) as [d| |] eqn:L.
      * apply find_loop_cell in L as (l1 & l2 & -> & B & _). f_equal. apply O; [apply in_or_app; right; left; reflexivity|apply begins_spec, B].
      * apply begins_spec in Ab. rewrite (find_loop_unknown n l L c I) in Ab. discriminate.
      * exfalso. apply find_loop_ambiguous in L as (l1 & a & l2 & b & l3 & -> & Ba & Bb). apply begins_spec in Ba, Bb.
        assert (a = c) by (apply O; [apply in_or_app; right; left; reflexivity|exact Ba]).
        assert (b = c) by (apply O; [apply in_or_app; right; right; apply in_or_app; right; left; reflexivity|exact Bb]). subst a b.
        rewrite map_app in N. cbn in N. apply NoDup_remove_2 in N. apply N. apply in_or_app. right. rewrite map_app. apply in_or_app. right. left. reflexivity.
Qed.

(** It is said to be unknown exactly when it abbreviates nothing *)
Theorem C100_unknown : forall n (l : list (list Z * C)), find_command n l = Unknown <-> forall c, In c l -> ~ abbreviates n (fst c).
Proof.
  intros n l. unfold find_command. destruct (assq n l) as [d|] eqn:A.
  - apply assq_some in A as (I & E). split; [discriminate|]. intros H. exfalso. apply (H d I). exists []. rewrite app_nil_r. exact E.
  - split.
    + intros H c I Ab. apply begins_spec in Ab. rewrite (find_loop_unknown n l H c I) in Ab. discriminate.
    + intros H. destruct (find_loop n l None) as [d| |] eqn:L; [|reflexivity|]; exfalso.
      * apply find_loop_cell in L as (l1 & l2 & -> & B & _). apply (H d); [apply in_or_app; right; left; reflexivity|apply begins_spec, B].
      * apply find_loop_ambiguous in L as (l1 & a & l2 & b & l3 & -> & Ba & _). apply (H a); [apply in_or_app; right; left; reflexivity|apply begins_spec, Ba].
Qed.

(** After any definitions each name is there once, with its last definition *)
Theorem C100_definitions : forall (l : list (list Z * C)), NoDup (map fst (fold_left define_command l [])) /\
  forall k w, In (k, w) (fold_left define_command l []) <-> defined l k w.
Proof. exact definitions. Qed.
End Commands.
Print Assumptions C100_command.
Print Assumptions C100_unknown.
Print Assumptions C100_definitions.

Section Input.
Context {F : Type}.
Variable kind_of : list Z -> kind.
Variable read : list Z -> reading F.

(** Entries over any numbers of lines are each dealt with once, in order, and nothing is left *)
Theorem C100_entries : forall es lg, Forall (fun e => entry kind_of read (fst e) (snd e)) es ->
  run_repl kind_of read (mkrepl [] lg) (concat (map fst es)) = mkrepl [] (lg ++ map snd es).
Proof. exact (run_entries kind_of read). Qed.

(** Empty lines between entries do nothing *)
Theorem C100_blank : forall l lines lg, kind_of l = KBlank ->
  run_repl kind_of read (mkrepl [] lg) (l :: lines) = run_repl kind_of read (mkrepl [] lg) lines.
Proof. intros l lines lg H. cbn [run_repl]. unfold iterate. cbn [pending log app]. rewrite H. reflexivity. Qed.
End Input.
Print Assumptions C100_entries.
Print Assumptions C100_blank.

(** A small reader: digits are forms, an open bracket needs a closed one, spaces do not count *)
Fixpoint small_read (t : list Z) : reading Z :=
  match t with
  | [] => Premature
  | c :: r =>
      if (c =? 32) || (c =? 10) then small_read r
      else if c =? 40 then (if existsb (Z.eqb 41) r then Whole c [] else Premature)
      else if c =? 41 then Bad else Whole c r
  end.
Definition small_kind (t : list Z) : kind :=
  match t with 44 :: _ => KCommand | [10] => KBlank | _ => KForm end.

(** It is false that every form of a line is evaluated: those behind the first are dropped
    without a word *)
Theorem C100_rest_refuted : exists (line : list Z) (x y : Z) rest, small_read line = Whole x rest /\ small_read rest = Whole y [10] /\
  forall lg, run_repl small_kind small_read (mkrepl [] lg) [line] = mkrepl [] (lg ++ [Evaluated x]).
Proof. exists [49; 32; 50; 10], 49, 50, [32; 50; 10]. repeat split. Qed.
Print Assumptions C100_rest_refuted.

(** load, load-file, quit: l is ambiguous, load is not, q is enough *)
Definition some_commands : list (list Z * nat) :=
  fold_left define_command [([108; 111], 1%nat); ([108; 111; 45], 2%nat); ([113; 117], 3%nat); ([108; 111], 4%nat)] [].
Example commands_found : map (fun n => find_command n some_commands) [[108]; [108; 111]; [113]; [120]]
  = [Ambiguous; Cell ([108; 111], 4%nat); Cell ([113; 117], 3%nat); Unknown].
Proof. reflexivity. Qed.
(** An open bracket, a line, a closed one; then a command; then an error; then a digit *)
Example a_session : run_repl small_kind small_read (mkrepl [] []) [[40; 10]; [10]; [41; 10]; [44; 113; 10]; [10]; [41; 10]; [49; 10]]
  = mkrepl [] [Evaluated 40; Commanded [44; 113; 10]; Failed; Evaluated 49].
Proof. reflexivity. Qed.
Example it_is_an_entry : entry small_kind small_read [[40; 10]; [10]; [41; 10]] (Evaluated 40).
Proof.
  split; [discriminate|]. split; [|split; [reflexivity|exists []; reflexivity]].
  intros a b E Na Nb. destruct a as [|a1 [|a2 [|a3 a]]]; [congruence| | |].
  - injection E as <- <-. repeat split. discriminate.
  - injection E as <- <- <-. repeat split. discriminate.
  - injection E as <- <- <- E. destruct a; [destruct b; [congruence|discriminate]|discriminate].
Qed.
