(** What XML text says.  Independent of how the reader goes about it. *)
From Coq Require Import List ZArith Bool.
From Verif Require Import Regexp_Model Regexp_Spec Xml_Model.
Import ListNotations.
Open Scope Z_scope.

(** * Entities *)

(** The names of the entities and what they stand for, UTF-8 *)
Definition the_entities : list (list Z * list Z) :=
  [([108; 116], [60]); ([97; 109; 112], [38]); ([97; 112; 111; 115], [39]); ([113; 117; 111; 116], [34]); ([103; 116], [62]);
   ([65; 117; 109; 108], [195; 132]); ([97; 117; 109; 108], [195; 164]); ([85; 117; 109; 108], [195; 156]);
   ([117; 117; 109; 108], [195; 188]); ([79; 117; 109; 108], [195; 150]); ([111; 117; 109; 108], [195; 182]);
   ([115; 122; 108; 105; 103], [195; 159])].
(** [u] starts with the entity called [e]: & e ; *)
Definition starts_entity (u e : list Z) : Prop := exists u', u = 38 :: e ++ 59 :: u'.
(** The text [u] stands for [s]: entities for their values, the rest for
    itself *)
Inductive stands : list Z -> list Z -> Prop :=
| stands_nil : stands [] []
| stands_char c u s : (forall e v, In (e, v) the_entities -> ~ starts_entity (c :: u) e) -> stands u s -> stands (c :: u) (c :: s)
| stands_entity e v u s : In (e, v) the_entities -> stands u s -> stands (38 :: e ++ 59 :: u) (v ++ s).

(** * Items *)
Definition blank (c : Z) : Prop := In c [32; 10; 9; 13].
Definition name_char (c : Z) : Prop := ~ In c [32; 10; 9; 13; 62; 61; 47].
(** Names: of elements, of parameters and in tags starting with <? *)
Definition good_name (n : list Z) : Prop := n <> [] /\ Forall name_char n.
Definition elem_name (n : list Z) : Prop := good_name n /\ hd 0 n <> 33 /\ hd 0 n <> 63.
Definition param_name (n : list Z) : Prop := good_name n /\ hd 0 n <> 63.
(** What follows a name without being part of it *)
Definition after_name (t : list Z) : Prop := t = [] \/ In (hd 0 t) [32; 10; 9].

(** Parameters, with the white space around them *)
Inductive params_written : list (list Z * list Z) -> list Z -> Prop :=
| params_nil w : Forall blank w -> params_written [] w
| params_cons w n w1 w2 q u v ps t :
    Forall blank w -> param_name n -> Forall blank w1 -> after_name w1 -> Forall blank w2 ->
    q = 34 \/ q = 39 -> stands u v -> ~ In q u -> params_written ps t ->
    params_written ((n, v) :: ps) (w ++ n ++ w1 ++ 61 :: w2 ++ q :: u ++ q :: t).

Definition is_text (i : xml) : Prop := match i with Text _ => True | _ => False end.
Definition starts_text (l : list xml) : Prop := match l with i :: _ => is_text i | [] => False end.
(** [written i t]: the text [t] says [i] *)
Inductive written : xml -> list Z -> Prop :=
| written_text u s : stands u s -> u <> [] -> ~ In 60 u -> written (Text s) u
| written_empty n ps t : elem_name n -> params_written ps t -> after_name t -> written (Elem n ps []) (60 :: n ++ t ++ [47; 62])
| written_elem n ps t body u w w' :
    elem_name n -> params_written ps t -> after_name t -> body_written body u ->
    Forall blank w -> Forall blank w' -> after_name w' ->
    written (Elem n ps body) (60 :: n ++ t ++ 62 :: u ++ [60; 47] ++ w ++ n ++ w' ++ [62])
| written_question n ps t : good_name n -> params_written ps t -> after_name t -> t <> [] ->
    written (Elem (63 :: n) ps []) (60 :: 63 :: n ++ t ++ [63; 62])
| written_bang u s : stands u s -> ~ In 62 u -> written (Bang s) (60 :: 33 :: u ++ [62])
with body_written : list xml -> list Z -> Prop :=
| body_nil : body_written [] []
| body_cons i u l t : written i u -> (is_text i -> ~ starts_text l) -> body_written l t -> body_written (i :: l) (u ++ t).

(** What may follow an item: after text only a tag *)
Definition may_follow (i : xml) (rest : list Z) : Prop := is_text i -> rest = [] \/ hd 0 rest = 60.

(** * What can be printed and read back *)
Definition harmless (s : list Z) : Prop := Forall (fun c => char c /\ ~ In c [60; 38; 39; 34]) s.
Definition harmless_params (ps : list (list Z * list Z)) : Prop :=
  Forall (fun p => param_name (fst p) /\ Forall char (fst p) /\ harmless (snd p)) ps.
Inductive plain : xml -> Prop :=
| plain_text s : harmless s -> s <> [] -> plain (Text s)
| plain_elem n ps body : elem_name n -> Forall char n -> harmless_params ps -> plain_list body -> plain (Elem n ps body)
| plain_question n ps : good_name n -> Forall char n -> harmless_params ps -> ps <> [] -> plain (Elem (63 :: n) ps [])
with plain_list : list xml -> Prop :=
| plain_nil : plain_list []
| plain_cons i l : plain i -> (is_text i -> ~ starts_text l) -> plain_list l -> plain_list (i :: l).
(** What the printer puts for each character *)
Definition put_for (c : Z) : list Z :=
  if c =? 60 then [108; 116] else if c =? 38 then [97; 109; 112] else if c =? 39 then [97; 112; 111; 115]
  else if c =? 34 then [113; 117; 111; 116] else [c].
