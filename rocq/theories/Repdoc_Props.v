(** C96: the documentation of sources arrives in the database *)

From Coq Require Import ZArith List Bool Lia.
From Verif Require Import Repdoc_Model Repdoc_Spec Repdoc_Proofs.
Import ListNotations.
Open Scope Z_scope.

(** Every block of every file is stored whole, under its name, without the last newline *)
Theorem C96_blocks : forall lsize size l fuel, (2 <= lsize)%nat ->
  Forall (well_formed lsize size) l -> (length (source l) < fuel)%nat ->
  scanfile fuel lsize size (source l) = Some (documented l).
Proof. exact scan_source. Qed.
Print Assumptions C96_blocks.

(** After all files a name has the text of its last block; other names keep theirs *)
Theorem C96_database : forall lsize size fuel files db, (2 <= lsize)%nat ->
  Forall (fun l => Forall (well_formed lsize size) l /\ (length (source l) < fuel)%nat) files ->
  exists db', scan_files fuel lsize size (map source files) db = Some db' /\
  forall k, says (flat_map documented files) k (fetch db k) (fetch db' k).
Proof.
  intros lsize size fuel files db LS F. eexists. split; [apply scan_files_all; assumption|].
  intros k. apply fetch_stored.
Qed.
Print Assumptions C96_database.

(** A block whose end is not reached before the buffer is full is never finished, wherever
    in a file it is *)
Theorem C96_long_endless : forall lsize size l pre id post t fuel, Forall (well_formed lsize size) l ->
  fits_in lsize (header pre id post) -> ~ In 58 pre -> ~ In 58 id ->
  (0 < size)%nat -> (size <= S (length t))%nat -> ~ occurs end_mark (firstn (size - 1) t) ->
  scanfile fuel lsize size (source l ++ ended (header pre id post) ++ t) = None.
Proof. exact scan_long. Qed.
Print Assumptions C96_long_endless.

(** So it is false that the program ends for every file, whatever the buffers *)
Theorem C96_ends_refuted : exists pre id post line : list Z, forall lsize size, (30 <= lsize)%nat -> (0 < size)%nat ->
  exists n, forall fuel, scanfile fuel lsize size (ended (header pre id post) ++ concat (repeat (ended line) n) ++ ended end_mark) = None.
Proof.
  exists [59], [120], [], []. intros lsize size LS S0. exists size. intros fuel.
  assert (E : forall n, concat (repeat (ended []) n) = repeat 10 n) by (induction n as [|n IH]; [reflexivity|cbn [repeat concat]; rewrite IH; reflexivity]).
  rewrite E.
  apply (C96_long_endless lsize size [] [59] [120] [] (repeat 10 size ++ ended end_mark) fuel).
  - constructor.
  - split; [cbn; lia|cbn; intuition discriminate].
  - cbn. intuition discriminate.
  - cbn. intuition discriminate.
  - exact S0.
  - rewrite app_length, repeat_length. lia.
  - intros (a & b & X). assert (H : In 58 (firstn (size - 1) (repeat 10 size ++ ended end_mark))).
    { rewrite X. apply in_or_app. right. left. reflexivity. }
    rewrite firstn_app, repeat_length in H. replace (size - 1 - size)%nat with 0%nat in H by lia.
    change (firstn 0 (ended end_mark)) with (@nil Z) in H. rewrite app_nil_r in H.
    assert (H' : In 58 (repeat 10 size)). { rewrite <- (firstn_skipn (size - 1)). apply in_or_app. left. exact H. }
    apply repeat_spec in H'. discriminate.
Qed.
Print Assumptions C96_ends_refuted.

(** It is false that the last line of a block is kept when it is also the line of the end:
    what is before the mark is lost *)
Theorem C96_end_line_refuted : exists (pre id post before behind : list Z), before <> [] /\
  forall lsize size fuel, (30 <= lsize)%nat -> (30 <= size)%nat -> (100 <= fuel)%nat ->
  scanfile fuel lsize size (ended (header pre id post) ++ ended (footer before behind)) = Some [(id, [])].
Proof.
  exists [59], [120], [], [97; 98], []. split; [discriminate|]. intros lsize size fuel L S F.
  pose proof (C96_blocks lsize size [Doc [59] [120] [] [] [97; 98] []] fuel) as H.
  unfold source in H. cbn [map concat item_text app] in H. rewrite app_nil_r in H. apply H.
  - lia.
  - constructor; [|constructor]. repeat split; try (cbn; lia); try (cbn; intuition discriminate). constructor.
  - cbn. lia.
Qed.
Print Assumptions C96_end_line_refuted.

(** ";::doc:x::" "a" "" "b" ";::end::" between two lines of code, and again with another text *)
Definition first_file : list item := [Code [59; 58; 58]; Doc [59] [120] [33] [[97]; []; [98]] [59] []; Code []].
Definition second_file : list item := [Doc [] [120] [] [[99]] [] [32]; Doc [] [121] [] [] [] []].
Example blocks_are : scanfile 100 64 64 (source first_file) = Some [([120], [97; 10; 10; 98])].
Proof. reflexivity. Qed.
Example the_last_one : option_map (fun db => (fetch db [120], fetch db [121], fetch db [122]))
  (scan_files 100 64 64 (map source [first_file; second_file]) [([122], [100]); ([120], [])])
  = Some (Some [99], Some [], Some [100]).
Proof. reflexivity. Qed.
Lemma no_occurrence : forall n t, strstr n t = None -> n <> [] -> ~ occurs n t.
Proof.
  intros n t E Ne (a & b & X). revert t E X. induction a as [|c a IH]; intros t E X.
  - cbn in X. subst t. destruct n as [|x n]; [congruence|]. assert (S := strip_app (x :: n) b).
    cbn [app] in *. cbn [strstr] in E. rewrite S in E. discriminate.
  - subst t. cbn [app strstr] in E. destruct (strip n (c :: a ++ n ++ b)); [discriminate|].
    destruct (strstr n (a ++ n ++ b)) as [(u, v)|] eqn:F; [discriminate|]. apply (IH _ F). reflexivity.
Qed.
Example the_files_are_well_formed : Forall (Forall (well_formed 64 64)) [first_file; second_file].
Proof.
  repeat (apply Forall_cons || apply Forall_nil); cbn [well_formed]; unfold fits_in; repeat split;
    try (cbn; lia); try (cbn; intuition discriminate); try (apply no_occurrence; [reflexivity|discriminate]);
    repeat (apply Forall_cons || apply Forall_nil); try split; try (cbn; intuition discriminate);
    try (apply no_occurrence; [reflexivity|discriminate]).
Qed.
