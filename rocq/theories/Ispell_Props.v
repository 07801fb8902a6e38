(** C101: each word gets its own answer from the process *)

From Coq Require Import ZArith List Bool Lia.
From Verif Require Import Ispell_Model Ispell_Spec Ispell_Proofs.
Import ListNotations.
Open Scope Z_scope.

(** A line is read whole, however it comes, and what is behind it is kept *)
Theorem C101_line : forall pieces pending l rest, ~ In 10 l -> pending ++ concat pieces = l ++ 10 :: rest ->
  exists pe ps, read_line pending (whole pieces) = (Some (l ++ [10]), pe, whole ps) /\ pe ++ concat ps = rest.
Proof. exact read_ok. Qed.
Print Assumptions C101_line.

(** When the process answers in time with a line and an empty line, each word gets its own
    answer, however the output is cut *)
Theorem C101_words : forall ls pieces pending rest, Forall proper ls -> pending ++ concat pieces = concat (map answer ls) ++ rest ->
  exists pe ps, check_words (length ls) pending (whole pieces) = (map (fun l => Some (l ++ [10])) ls, pe, whole ps) /\ pe ++ concat ps = rest.
Proof. exact words_ok. Qed.
Print Assumptions C101_words.

(** It is false that a word gets no answer but its own: after a delay the next word gets the
    answer to the one before, and so do all after it *)
Theorem C101_late_refuted : exists first : list Z, proper first /\ forall ls pieces, Forall proper ls ->
  concat pieces = concat (map answer (first :: ls)) ->
  exists pe ps, check_words (1 + length (first :: ls)) [] (None :: whole pieces) =
    (None :: map (fun l => Some (l ++ [10])) (first :: ls), pe, whole ps).
Proof.
  exists [42]. split; [split; [discriminate|cbn; intuition discriminate]|]. intros ls pieces F E.
  assert (P : proper [42]) by (split; [discriminate|cbn; intuition discriminate]).
  destruct (C101_words ([42] :: ls) pieces [] [] (Forall_cons _ P F)) as (pe & ps & R & _).
  - rewrite app_nil_r. exact E.
  - exists pe, ps.
    assert (St : forall n pe ps, check_words (S n) pe ps =
      match ispell_word pe ps with (r, pe, ps) => match check_words n pe ps with (rs, pe, ps) => (r :: rs, pe, ps) end end) by reflexivity.
    etransitivity; [exact (St (length ([42] :: ls)) [] (None :: whole pieces))|].
    change (ispell_word [] (None :: whole pieces)) with (@None (list Z), @nil Z, whole pieces). rewrite R. reflexivity.
Qed.
Print Assumptions C101_late_refuted.

(** Nor does an error that two answers in one cause (a text of two words) end with that
    text: the next word fails too, whatever the answer to it *)
Theorem C101_two_refuted : exists a b : list Z, proper a /\ proper b /\ forall l, proper l -> exists pe,
  check_words 2 [] [Some (a ++ [10] ++ answer b); Some (answer l)] = ([None; None], pe, [Some (answer l)]).
Proof.
  exists [42], [43]. split; [split; [discriminate|cbn; intuition discriminate]|]. split; [split; [discriminate|cbn; intuition discriminate]|].
  intros l _. eexists. reflexivity.
Qed.
Print Assumptions C101_two_refuted.

Example three_words : check_words 3 [] (whole [[42]; [10; 10; 38; 32]; [97; 10]; [10; 43; 10; 10]]) = ([Some [42; 10]; Some [38; 32; 97; 10]; Some [43; 10]], [], []).
Proof. reflexivity. Qed.
Example they_are_proper : Forall proper [[42]; [38; 32; 97]; [43]] /\ concat [[42]; [10; 10; 38; 32]; [97; 10]; [10; 43; 10; 10]] = concat (map answer [[42]; [38; 32; 97]; [43]]).
Proof. split; [|reflexivity]. repeat constructor; try discriminate; cbn; intuition discriminate. Qed.
