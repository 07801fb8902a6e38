(** What is said about messages of remote procedure calls. *)

From Coq Require Import ZArith List Bool.
From Verif Require Import Numbers_Model Reader_Model Reader_Spec Rpc_Model.
Import ListNotations.
Open Scope Z_scope.

(** Data printed without a hash sign outside strings and names: no keywords,
    no literals such as the undefined value, no bytecode. *)
Inductive plain_data : sexp -> Prop :=
| D_nil : plain_data SNil
| D_num n : plain_data (SNum n)
| D_str s : plain_data (SStr s)
| D_sym n : plain_data (SSym n)
| D_cons a d : plain_data a -> plain_data d -> plain_data (SCons a d)
| D_vec l : all_plain l -> plain_data (SVec l)
with all_plain : list sexp -> Prop :=
| Ds_nil : all_plain []
| Ds_cons a l : plain_data a -> all_plain l -> all_plain (a :: l).

(** A message: a list of such data that can be read back. *)
Definition message (v : sexp) : Prop :=
  printable v /\ plain_data v /\ exists a d, v = SCons a d.
