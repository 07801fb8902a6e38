(** C98: the strings to be translated arrive in the file of messages *)

From Coq Require Import ZArith List Bool Lia.
From Verif Require Import Reader_Model Xgettext_Model Xgettext_Spec Xgettext_Proofs.
Import ListNotations.
Open Scope Z_scope.

(** However a string is printed over lines, it is read back as itself *)
Theorem C98_message : forall s, means (message s) s.
Proof. exact message_means. Qed.
Print Assumptions C98_message.

(** The file holds each string once, in the order in which they were found first, with the
    files where it is, each once *)
Theorem C98_file : forall regs, messages (extract regs) (expected regs).
Proof.
  intros regs. unfold extract, output_strings. rewrite found_is, rev_involutive. apply entries_mean.
Qed.
Print Assumptions C98_file.

(** The same without the order: nothing is missing and nothing is invented *)
Theorem C98_exactly : forall regs, exists l, messages (extract regs) l /\ NoDup (map fst l) /\
  (forall s fs, In (s, fs) l -> NoDup fs) /\
  (forall s f, In (f, s) regs <-> exists fs, In (s, fs) l /\ In f fs).
Proof.
  intros regs. exists (expected regs). split; [apply C98_file|]. unfold expected.
  assert (Fo : forall s f, In f (files_of s regs) <-> In (f, s) regs).
  { intros s f. unfold files_of. rewrite in_map_iff. split.
    - intros ((f', s') & <- & I). apply filter_In in I as (I & E). cbn [snd] in E. destruct (bytes_dec s' s) as [<-|]; [exact I|discriminate].
    - intros I. exists (f, s). split; [reflexivity|]. apply filter_In. split; [exact I|]. cbn [snd]. destruct (bytes_dec s s); congruence. }
  split; [|split].
  - rewrite map_map. cbn [fst]. rewrite map_id. apply firsts_nodup.
  - intros s fs I. apply in_map_iff in I as (x & E & _). injection E as <- <-. apply NoDup_rev, firsts_nodup.
  - intros s f. split.
    + intros I. exists (rev (firsts (files_of s regs))). split.
      * apply in_map_iff. exists s. split; [reflexivity|]. apply firsts_in. apply (in_map snd) in I. exact I.
      * rewrite <- in_rev, firsts_in, Fo. exact I.
    + intros (fs & I & If). apply in_map_iff in I as (x & E & _). injection E as <- <-. rewrite <- in_rev, firsts_in, Fo in If. exact If.
Qed.
Print Assumptions C98_exactly.

(** It is false that lines are only cut where the string has newlines: a backslash and n is
    taken for one *)
Theorem C98_lines_refuted : exists s, ~ In 10 s /\ In 10 (message s).
Proof. exists [92; 110; 97]. split; [cbn; intuition discriminate|vm_compute; tauto]. Qed.
Print Assumptions C98_lines_refuted.

(** a, newline, quote, tab, backslash, n, newline *)
Example printed : message [97; 10; 34; 9; 92; 110; 10] =
  [34; 97; 92; 110; 34; 10; 34; 92; 34; 92; 116; 92; 92; 110; 34; 10; 34; 92; 110; 34; 10; 34; 34].
Proof. reflexivity. Qed.
Example read_back : read_message (message [97; 10; 34; 9; 92; 110; 10] ++ [10; 109]) = Some ([97; 10; 34; 9; 92; 110; 10], [10; 109]).
Proof. reflexivity. Qed.
Example found : expected [([1], [97]); ([1], [98]); ([2], [97]); ([1], [97])] = [([97], [[2]; [1]]); ([98], [[1]])].
Proof. reflexivity. Qed.
