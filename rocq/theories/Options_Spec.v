(** Command lines as they are written: flags, options with values in either
    form, other words. *)

From Coq Require Import ZArith List Bool Permutation.
From Verif Require Import Options_Model.
Import ListNotations.
Open Scope Z_scope.

Inductive item :=
| IFlag (o : str)
| IEq (o v : str)        (* o=v *)
| ISp (o v : str)        (* o v *)
| IWord (s : str).

Definition words (i : item) : list str :=
  match i with
  | IFlag o => [o]
  | IEq o v => [o ++ [61] ++ v]
  | ISp o v => [o; v]
  | IWord s => [s]
  end.
Definition written (its : list item) : list str := flat_map words its.

Definition name (i : item) : option str :=
  match i with
  | IFlag o | IEq o _ | ISp o _ => Some o
  | IWord _ => None
  end.

(** The answer an item is for one who asks for it. *)
Definition reply (i : item) : answer :=
  match i with
  | IFlag _ => Given
  | IEq _ v | ISp _ v => Arg v
  | IWord _ => Absent
  end.
Definition takes_value (i : item) : bool :=
  match i with IEq _ _ | ISp _ _ => true | _ => false end.

(** The word stands for the option. *)
Definition looks_like (o s : str) : Prop := s = o \/ exists v, s = o ++ [61] ++ v.

Definition string_of (e : elt) : option str :=
  match e with Str _ s => Some s | Other _ => None end.

(** The objects of a list are different, and its strings are these. *)
Definition holds (l : list elt) (ss : list str) : Prop :=
  NoDup (map elt_id l) /\ map string_of l = map Some ss.

Definition plain (s : str) : Prop := ~ In 0 s.
Definition no_equals (s : str) : Prop := ~ In 61 s.

(** A command line that is not ambiguous to one who asks these questions:
    names have no equals sign, options are asked for in the way they are
    given, and no value or other word looks like an option that is asked
    for. *)
Definition clear_for (qs : list (str * bool)) (its : list item) : Prop :=
  (forall q w, In (q, w) qs -> no_equals q /\ plain q) /\
  (forall i o, In i its -> name i = Some o -> no_equals o) /\
  (forall s, In s (written its) -> plain s) /\
  (forall i o w, In i its -> name i = Some o -> In (o, w) qs -> w = takes_value i) /\
  (forall o v q w, In (ISp o v) its -> In (q, w) qs -> ~ looks_like q v) /\
  (forall s q w, In (IWord s) its -> In (q, w) qs -> ~ looks_like q s).
(** No name is used twice. *)
Definition distinct (its : list item) : Prop :=
  forall pre i mid j post o, its = pre ++ i :: mid ++ j :: post ->
    name i = Some o -> name j <> Some o.

(** The items with a name, and the others. *)
Definition named (o : str) (i : item) : bool :=
  match name i with
  | Some n => if list_eq_dec Z.eq_dec n o then true else false
  | None => false
  end.
Definition others (o : str) (i : item) : bool := negb (named o i).

(** The answer that is right for an option, and what should be left. *)
Definition right_answer (its : list item) (o : str) (a : answer) : Prop :=
  (exists i, In i its /\ name i = Some o /\ a = reply i) \/
  ((forall i, In i its -> name i <> Some o) /\ a = Absent).
Inductive left_over (qs : list (str * bool)) : list item -> list item -> Prop :=
| left_nil : left_over qs [] []
| left_taken i o w its rest :
    name i = Some o -> In (o, w) qs -> left_over qs its rest ->
    left_over qs (i :: its) rest
| left_kept i its rest :
    (forall o w, name i = Some o -> ~ In (o, w) qs) -> left_over qs its rest ->
    left_over qs (i :: its) (i :: rest).

(** ** The actions of a command line *)

Inductive act_item :=
| ACall (long : bool) (f : str)
| ALoad (long : bool) (f : str)
| AScript (f : str).
Definition act_words (a : act_item) : list str :=
  match a with
  | ACall true f => [w_call; f]
  | ACall false f => [w_f; f]
  | ALoad true f => [w_load; f]
  | ALoad false f => [w_l; f]
  | AScript f => [f]
  end.
Definition act_action (a : act_item) : action :=
  match a with
  | ACall _ f => Call f
  | ALoad _ f => Load f
  | AScript f => Script f
  end.
Definition option_words : list str :=
  [w_call; w_f; w_load; w_l; w_check; w_help; w_version; w_quit; w_q].
Definition act_ok (a : act_item) : Prop :=
  match a with AScript f => ~ In f option_words | _ => True end.

(** The actions with the words that follow each. *)
Fixpoint course (acts : list act_item) (tail : list str) : list (action * list str) :=
  match acts with
  | [] => []
  | a :: r => (act_action a, flat_map act_words r ++ tail) :: course r tail
  end.
