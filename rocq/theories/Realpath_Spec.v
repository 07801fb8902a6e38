(** How the kernel finds the file of a name, as POSIX has it. *)
From Coq Require Import List ZArith Bool.
From Verif Require Import Realpath_Model.
Import ListNotations.
Open Scope Z_scope.

Definition dot : str := [46].
Definition dotdot : str := [46; 46].
(** A name that can be that of a file *)
Definition ordinary (n : str) : Prop := n <> [] /\ ~ In 47 n /\ n <> dot /\ n <> dotdot.
Definition absolute (s : str) : Prop := exists s', s = 47 :: s'.

(** The components that s consists of: separated by slashes; a slash at the end
    stands for one more, the dot *)
Inductive parts : str -> list str -> Prop :=
| p_nil : parts [] []
| p_slash s l : parts s l -> parts (47 :: s) l
| p_last n : n <> [] -> ~ In 47 n -> parts n [n]
| p_end n s : n <> [] -> ~ In 47 n -> parts s [] -> parts (n ++ 47 :: s) [n; dot]
| p_more n s l : n <> [] -> ~ In 47 n -> parts s l -> l <> [] -> parts (n ++ 47 :: s) (n :: l).

Section Walk.
  Variable fs : filesys.
  (** [walk k d l p]: from the directory d on, the components l lead to p, over
      at most k symbolic links *)
  Inductive walk : nat -> list str -> list str -> list str -> Prop :=
  | w_end k d : walk k d [] d
  | w_dot k d l p : fs d = Some Directory -> walk k d l p -> walk k d (dot :: l) p
  | w_up k d l p : fs d = Some Directory -> walk k (removelast d) l p -> walk k d (dotdot :: l) p
  | w_name k d n x l p : ordinary n -> fs d = Some Directory -> fs (d ++ [n]) = Some x -> (forall t, x <> Symlink t) ->
      walk k (d ++ [n]) l p -> walk k d (n :: l) p
  | w_link k d n t ts l d' p : ordinary n -> fs d = Some Directory -> fs (d ++ [n]) = Some (Symlink t) -> parts t ts ->
      (absolute t -> d' = []) -> (~ absolute t -> d' = d) ->
      walk k d' (ts ++ l) p -> walk (S k) d (n :: l) p.
End Walk.

(** A canonical path of names and how it is written *)
Fixpoint written (p : list str) : str := match p with [] => [] | n :: p => 47 :: n ++ written p end.
Definition path_text (p : list str) : str := match p with [] => [47] | _ => written p end.
(** Names without . and .., all but the last directories, none a symbolic link *)
Definition canonical (fs : filesys) (p : list str) : Prop :=
  Forall ordinary p /\
  (forall a b, p = a ++ b -> b <> [] -> fs a = Some Directory) /\
  exists x, fs p = Some x /\ forall t, x <> Symlink t.
