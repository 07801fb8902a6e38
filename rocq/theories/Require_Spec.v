(** What users of modules and features count on. *)

From Coq Require Import List Arith Bool.
Import ListNotations.
Require Import Verif.Require_Model.

(** The files that follow the conventions: bare code that first provides its
    feature, or one structure of that name *)
Definition is_module (files : name -> option (list form)) (f : name) : Prop :=
  exists header body, files f = Some [Structure (Some f) header body].
Definition is_bare (files : name -> option (list form)) (f : name) : Prop :=
  exists rest, files f = Some (Provide f :: rest).

(** Code that opens and accesses modules only *)
Inductive clean (files : name -> option (list form)) : form -> Prop :=
| c_provide f : clean files (Provide f)
| c_require f : clean files (Require f)
| c_open l : Forall (is_module files) l -> clean files (Open l)
| c_access l : Forall (is_module files) l -> clean files (Access l)
| c_alias a b : clean files (Alias a b)
| c_structure nm h b : Forall (clean files) h -> Forall (clean files) b -> clean files (Structure nm h b)
| c_do n : clean files (Do n).
Definition polite (files : name -> option (list form)) : Prop :=
  forall f l, files f = Some l -> (is_module files f \/ is_bare files f) /\ Forall (clean files) l.

(** The loads of a trace *)
Definition loads (t : list event) : list (name * nat) :=
  flat_map (fun e => match e with Loaded f s => [(f, s)] | Did _ _ => [] end) t.
(** A module is loaded once, bare code once into each structure *)
Definition loaded_once (files : name -> option (list form)) (t : list event) : Prop :=
  NoDup (loads t) /\
  forall f i j, is_module files f -> In (f, i) (loads t) -> In (f, j) (loads t) -> i = j.

Definition world_of (o : outcome) : world := match o with Done _ w => w | Error w => w | OutOfFuel w => w end.

(** Bare code that makes no structures *)
Inductive flat : form -> Prop :=
| f_provide f : flat (Provide f)
| f_require f : flat (Require f)
| f_open l : flat (Open l)
| f_access l : flat (Access l)
| f_alias a b : flat (Alias a b)
| f_do n : flat (Do n).
Definition flat_bare (files : name -> option (list form)) : Prop :=
  forall f rest, files f = Some (Provide f :: rest) -> Forall flat rest.
(** There are finitely many files *)
Definition finite (files : name -> option (list form)) : Prop :=
  exists all, forall f, files f <> None -> In f all.
