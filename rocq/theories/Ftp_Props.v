(** C95: replies of the ftp program are understood line by line, however they are cut. *)

From Coq Require Import ZArith List Bool Lia.
From Verif Require Import Ftp_Model Ftp_Spec Ftp_Proofs.
Import ListNotations.
Open Scope Z_scope.

Section Any.
Variable kind_of : list Z -> kind.
Variable asks : list Z -> bool.

(** At every moment the lines that have come whole, and no others, have been acted upon,
    in order and each once; what has come of the next one is kept. When all has come,
    all have been acted upon. *)
Theorem C95_lines : forall lines pieces later, Forall (plain kind_of asks) lines -> come pieces later (text_of lines) ->
  exists whole others kept, lines = whole ++ others /\ kept ++ later = text_of others /\ ~ In 10 kept /\
    ftp_pieces kind_of asks pieces = mkf (status_of kind_of whole) kept (rev (told kind_of whole)) /\
    (later = [] -> whole = lines).
Proof.
  intros lines pieces later F (_ & E).
  destruct (pieces_run kind_of asks lines F pieces later E) as (a & b & lf & -> & X & N & D).
  apply Forall_app in F as (Fa & Fb).
  exists a, b, lf. split; [reflexivity|]. split; [exact X|]. split; [exact N|]. split.
  - rewrite D. rewrite (handle_status kind_of asks a _ Fa), handle_told. cbn [ftp_commanded f_done]. rewrite app_nil_r. reflexivity.
  - intros ->. rewrite app_nil_r in X. destruct b as [|l b]; [rewrite app_nil_r; reflexivity|].
    exfalso. apply N. rewrite X. unfold text_of. cbn [map concat]. apply in_or_app. left. apply in_or_app. right. left. reflexivity.
Qed.

(** So the way in which a text of such lines is cut makes no difference. *)
Theorem C95_cutting : forall lines p1 p2, Forall (plain kind_of asks) lines ->
  come p1 [] (text_of lines) -> come p2 [] (text_of lines) ->
  ftp_pieces kind_of asks p1 = ftp_pieces kind_of asks p2 /\
  f_st (ftp_pieces kind_of asks p1) = status_of kind_of lines.
Proof.
  intros lines p1 p2 F C1 C2.
  assert (K : forall p, come p [] (text_of lines) ->
     ftp_pieces kind_of asks p = mkf (status_of kind_of lines) [] (rev (told kind_of lines))).
  { intros p C. destruct (C95_lines lines p [] F C) as (a & b & lf & E & X & N & D & W).
    specialize (W eq_refl). subst a.
    assert (b = []) as ->.
    { apply (f_equal (@length _)) in E. rewrite app_length in E. destruct b; [reflexivity|cbn in E; lia]. }
    cbn in X. rewrite app_nil_r in X. subst lf. exact D. }
  rewrite (K p1 C1), (K p2 C2). auto.
Qed.
End Any.
Print Assumptions C95_lines.
Print Assumptions C95_cutting.

(** Some of the kinds of 109-136: lines that begin with a space are skipped, 220 and a
    space is success, 530 and a space failure, 230- is shown. *)
Fixpoint begins (p t : list Z) : bool :=
  match p, t with [], _ => true | _, [] => false | x :: p, y :: t => (x =? y) && begins p t end.
Definition some_kinds (l : list Z) : kind :=
  if begins [32] l then Skip else if begins [50; 50; 48; 32] l then Good else if begins [53; 51; 48; 32] l then Bad
  else if begins [50; 51; 48; 45] l then Multi else Other.
Definition some_asks (t : list Z) : bool := begins [80; 97; 115; 115; 119; 111; 114; 100; 58] t.

Definition ok220 : list Z := [50; 50; 48; 32; 111; 107].
Definition hi230 : list Z := [50; 51; 48; 45; 104; 105].
Example case_plain : plain some_kinds some_asks ok220 /\ plain some_kinds some_asks hi230.
Proof.
  assert (A : forall l, hd 0 l <> 80 -> forall p q, p ++ q = l -> some_asks p = false).
  { intros l H p q <-. destruct p as [|c p]; [reflexivity|]. unfold some_asks. cbn [begins]. cbn in H.
    replace (80 =? c) with false by (symmetry; apply Z.eqb_neq; congruence). reflexivity. }
  split; (split; [cbn; intuition discriminate|]; split; [reflexivity|]; split; [cbn; discriminate|]; split; [vm_compute; discriminate|]; apply A; cbn; discriminate).
Qed.
Example case_cut : ftp_pieces some_kinds some_asks [[50; 51]; [48; 45; 104; 105; 10; 50]; [50; 48; 32; 111; 107]; [10]] =
  mkf FSuccess [] [Shown hi230].
Proof. vm_compute. reflexivity. Qed.

(** Behind a prompt it is not so: when the prompt is cut before its space, the space
    begins the line, the reply is skipped, and the command is never over. *)
Theorem C95_prompt_refuted : exists p1 p2, concat p1 = concat p2 /\ Forall (fun p => p <> []) p1 /\ Forall (fun p => p <> []) p2 /\
  f_st (ftp_pieces some_kinds some_asks p1) = FSuccess /\ f_st (ftp_pieces some_kinds some_asks p2) = FBusy.
Proof.
  exists [[102; 116; 112; 62; 32] ++ ok220 ++ [10]], [[102; 116; 112; 62]; 32 :: ok220 ++ [10]].
  split; [reflexivity|]. split; [repeat constructor; discriminate|]. split; [repeat constructor; discriminate|].
  vm_compute. auto.
Qed.
Print Assumptions C95_prompt_refuted.
(** Behind hash marks a prompt is only seen when they come in a piece of their own. *)
Theorem C95_hash_refuted : exists p1 p2, concat p1 = concat p2 /\ Forall (fun p => p <> []) p1 /\ Forall (fun p => p <> []) p2 /\
  f_st (ftp_pieces some_kinds some_asks p1) = FBusy /\ f_st (ftp_pieces some_kinds some_asks p2) = FSuccess.
Proof.
  exists [[35; 102; 116; 112; 62; 32] ++ ok220 ++ [10]], [[35]; [102; 116; 112; 62; 32] ++ ok220 ++ [10]].
  split; [reflexivity|]. split; [repeat constructor; discriminate|]. split; [repeat constructor; discriminate|].
  vm_compute. auto.
Qed.
Print Assumptions C95_hash_refuted.
