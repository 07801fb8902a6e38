(** Lines and what they do, without reference to the filter *)

From Coq Require Import ZArith List Bool.
From Verif Require Import Ftp_Model.
Import ListNotations.
Open Scope Z_scope.

Definition text_of (lines : list (list Z)) : list Z := concat (map (fun l => l ++ [10]) lines).
(** The pieces have arrived, later is still to come *)
Definition come (pieces : list (list Z)) (later text : list Z) : Prop :=
  Forall (fun p => p <> []) pieces /\ concat pieces ++ later = text.
Section Spec.
Variable kind_of : list Z -> kind.
Variable asks : list Z -> bool.
(** The status after some lines: that of the last reply that says success or failure *)
Definition status_of (lines : list (list Z)) : fstatus :=
  fold_left (fun x l => match kind_of l with Good => FSuccess | Bad => FFailure | _ => x end) lines FBusy.
(** The lines given to the callback or shown *)
Definition told (lines : list (list Z)) : list doing :=
  flat_map (fun l => match kind_of l with Other => [Called l] | Multi => [Shown l] | _ => [] end) lines.
(** A line without newline that is not preceded by a prompt or hash marks, does not
    begin like a question for a password, and does not end the session *)
Definition plain (l : list Z) : Prop :=
  ~ In 10 l /\ prompt_here l = None /\ hd 0 l <> 35 /\ kind_of l <> Reconnect /\ (forall p q, p ++ q = l -> asks p = false).
End Spec.
