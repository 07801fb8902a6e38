(** C102: listings of tar files *)

From Coq Require Import ZArith List Bool Lia.
From Verif Require Import Tar_Model Tar_Spec Tar_Proofs.
Import ListNotations.
Open Scope Z_scope.

(** Every line of the listing gives its entry, in order, however the output is cut *)
Theorem C102_listing : forall (E : Type) (parse : list Z -> E) pieces lines rest,
  concat pieces = listing lines ++ rest -> Forall (fun l => ~ In 10 l) lines -> ~ In 10 rest ->
  read_listing parse [] pieces = (rest, map parse lines).
Proof.
  intros E parse pieces lines rest H F N. unfold read_listing. rewrite (pieces_are parse pieces lines rest H F N), rev_involutive. reflexivity.
Qed.
Print Assumptions C102_listing.

(** It is false that a listing does not depend on the one before: what was left of that, when
    tar was stopped in a line, becomes part of the first name *)
Theorem C102_pending_refuted : exists pieces pieces' : list (list Z), fst (read_listing (fun l => l) [] pieces) <> [] /\
  snd (read_listing (fun l => l) (fst (read_listing (fun l => l) [] pieces)) pieces') <> snd (read_listing (fun l => l) [] pieces').
Proof. exists [[97; 10; 98]], [[99; 10]]. split; discriminate. Qed.
Print Assumptions C102_pending_refuted.

(** The files of a directory are exactly what is directly in it, each once *)
Theorem C102_directory : forall dir names, NoDup (directory_files dir names) /\
  forall x, In x (directory_files dir names) <-> directly_in dir x names.
Proof.
  intros dir names. destruct (files_are dir names []) as (H1 & H2). split; [apply H2; constructor|].
  intros x. unfold directory_files. rewrite H1. split; [intros [[]|X]; exact X|auto].
Qed.
Print Assumptions C102_directory.

(** Following links ends at what they lead to, exactly when they lead anywhere *)
Theorem C102_links : forall (N T E : Type) (get : N -> option (file T E)) (expand : T -> N -> N) n r,
  (exists fuel, lookup_file get expand fuel n = Some r) <-> resolves get expand n r.
Proof.
  intros N T E get expand n r. split; [intros (fuel & H); exact (lookup_sound get expand fuel n r H)|apply lookup_complete].
Qed.
Print Assumptions C102_links.

(** It is false that it always ends: a link to itself is followed for ever *)
Theorem C102_loop_refuted : exists (get : nat -> option (file nat nat)) (n : nat), get n = Some (Link n) /\
  forall fuel, lookup_file get (fun t _ => t) fuel n = None.
Proof.
  exists (fun n => Some (Link n)), 0%nat. split; [reflexivity|]. induction fuel as [|fuel IH]; [reflexivity|exact IH].
Qed.
Print Assumptions C102_loop_refuted.

(** The modes of an entry are those that its letters show, whatever its type *)
Theorem C102_modes : forall c m, 0 <= m < 4096 -> get_modes (c :: mode_letters m) = m.
Proof. exact modes_back. Qed.
Print Assumptions C102_modes.

Example two_entries : read_listing (fun l => l) [] [[97]; [98; 10; 99]; [10; 100]] = ([100], [[97; 98]; [99]]).
Proof. reflexivity. Qed.
(** d/a, d/b/c, d/b/e, dx, d/ *)
Example in_d : directory_files [100; 47] [[100; 47; 97]; [100; 47; 98; 47; 99]; [100; 47; 98; 47; 101]; [100; 120]; [100; 47]] = [[98]; [97]].
Proof. reflexivity. Qed.
(** rwsr-x--T *)
Example letters : mode_letters 3048 = [114; 119; 115; 114; 45; 120; 45; 45; 84] /\ get_modes [45; 114; 119; 115; 114; 45; 120; 45; 45; 84] = 3048.
Proof. split; reflexivity. Qed.
