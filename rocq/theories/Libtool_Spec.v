(** What a file of libtool says, line by line. *)
From Coq Require Import List ZArith.
Import ListNotations.
From Verif Require Import Libtool_Model.
Local Open Scope Z_scope.

(** the text of lines, and lines that fit *)
Definition text (ls : list bytes) : bytes := concat (map (fun l => l ++ [10]) ls).
Definition fits (l : bytes) : Prop := ~ In 10 l /\ (length l < 255)%nat.

Definition quoted (key l x : bytes) : Prop := exists rest, l = key ++ x ++ 39 :: rest /\ ~ In 39 x.
Definition says_name (l x : bytes) : Prop := quoted s_dlname l x /\ x <> [].
Definition says_globally (l : bytes) : Prop := exists rest, l = s_globally ++ s_yes ++ rest.
Definition says_requires (l x : bytes) : Prop := quoted s_requires l x.

Definition is_blank (c : Z) : Prop := c = 32 \/ c = 9.

(** the words of a text, between blanks *)
Inductive words : bytes -> list bytes -> Prop :=
| WNone : forall b, Forall is_blank b -> words b []
| WLast : forall b w, Forall is_blank b -> w <> [] -> Forall (fun c => ~ is_blank c) w -> words (b ++ w) [w]
| WMore : forall b w c t ws, Forall is_blank b -> w <> [] -> Forall (fun c => ~ is_blank c) w ->
    is_blank c -> words t ws -> words (b ++ w ++ c :: t) (w :: ws).

(** [says ls n g ws]: the last name, whether opened globally, and all that is required, in order *)
Inductive says : list bytes -> option bytes -> bool -> list bytes -> Prop :=
| SNone : says [] None false []
| SName : forall ls n g ws l x, says ls n g ws -> says_name l x -> says (ls ++ [l]) (Some x) g ws
| SGlobal : forall ls n g ws l, says ls n g ws -> says_globally l -> says (ls ++ [l]) n true ws
| SRequires : forall ls n g ws l x ws', says ls n g ws -> says_requires l x -> words x ws' ->
    says (ls ++ [l]) n g (ws ++ ws')
| SOther : forall ls n g ws l, says ls n g ws -> (forall x, ~ says_name l x) -> ~ says_globally l ->
    (forall x, ~ says_requires l x) -> says (ls ++ [l]) n g ws.

(** the directory of a name: up to and with the last slash *)
Definition in_directory (d name : bytes) : Prop :=
  exists base, name = d ++ base /\ ~ In 47 base /\ (d = [] \/ exists e, d = e ++ [47]).
