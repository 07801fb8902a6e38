(* C76: tries *)
From Coq Require Import List Arith Bool Lia.
Import ListNotations.
From Verif Require Import Trie_Model Trie_Spec Trie_Proofs.

(* Every program that makes tries, inserts strings, looks up parts of
   them and inserts there, asks for strings and lists them gets the answers of
   sets of words: a string is contained just when it was inserted there,
   inserting in one trie or part changes no other, there is a part below a
   string just when a word starts with it, and trie-foreach ends and
   gives each word of the trie once. *)
Theorem C76_tries : forall p, Forall2 right (run [] [] p) (srun [] [] p).
Proof.
  intro p. apply (run_ok p [] [] [] [] []); [|constructor].
  constructor; auto.
  - constructor.
    + intros a k c H. destruct a; destruct H.
    + intro a. destruct a; constructor.
    + intros i r H. destruct i; discriminate.
    + intros i j r r' ks ks' b H. destruct i; discriminate.
  - intros k r H. destruct k; discriminate.
Qed.
Print Assumptions C76_tries.

Definition demo : list op :=
  [ Make; Make; Insert 0 [97; 98]; Insert 0 [97]; Insert 0 [97; 98]; StringRef 0 [97]; Insert 5 [99; 100]; Insert 5 [];
    Contains 0 [97; 99; 100]; Contains 0 [97; 99]; Contains 5 [98]; Contains 1 [97]; StringRef 0 [120]; Insert 12 [97];
    Foreach 0; Foreach 5; Foreach 1 ].
Example demo_run : run [] [] demo =
  [ IsTrie true; IsTrie true; Done; Done; Done; IsTrie true; Done; Done;
    IsIn true; IsIn false; IsIn true; IsIn false; IsTrie false; Error;
    Words (Some [[97; 99; 100]; [97]; [97; 98]]); Words (Some [[99; 100]; []; [98]]); Words (Some []) ].
Proof. reflexivity. Qed.
