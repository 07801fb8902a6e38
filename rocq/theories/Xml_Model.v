(** lisp/rep/xml/reader.jl and printer.jl.  Reading: the input stream is the
    bytes still to come, the first of them the current character (the cdr of
    the pair made by make-xml-input, 55-56); its end is nil for ever.  Symbols
    are their names (intern is the identity of names).  The strings that
    (apply concat chars) makes are not too long for apply.  An error and an
    uncaught throw are [Err].  Printing: what is written to the stream, in
    order; no error comes from the stream. *)
From Coq Require Import List ZArith Bool.
From Verif Require Import Regexp_Model Find_Model.
Import ListNotations.
Open Scope Z_scope.

(** A string, (NAME PARAMS . BODY) and (! DATA); PARAMS is an alist of
    symbols and strings.  [Elem] with the name ! is (! PARAMS . BODY). *)
Inductive xml :=
| Text (s : list Z)
| Elem (name : list Z) (params : list (list Z * list Z)) (body : list xml)
| Bang (data : list Z).

(** * The reader *)

(** 52: space newline tab > = / *)
Definition token_endings : list Z := [32; 10; 9; 62; 61; 47].
(** 53: space newline tab return *)
Definition whitespace_chars : list Z := [32; 10; 9; 13].
Definition memq (c : Z) (l : list Z) : bool := existsb (Z.eqb c) l.
(** (= (current stream) C); not true at the end of the input, where the caller
    signals its own error if [=] does not *)
Definition at_char (st : list Z) (c : Z) : bool := match st with x :: _ => x =? c | [] => false end.

(** eat-whitespace, 65-67 *)
Fixpoint eat_whitespace (st : list Z) : list Z :=
  match st with
  | c :: st' => if memq c whitespace_chars then eat_whitespace st' else st
  | [] => []
  end.
(** read-string-item, 69-74 *)
Fixpoint read_string_item (st endings : list Z) : list Z * list Z :=
  match st with
  | c :: st' =>
      if memq c endings then ([], st)
      else let '(s, st'') := read_string_item st' endings in (c :: s, st'')
  | [] => ([], [])
  end.
(** read-token, 95-97 *)
Definition read_token (st : list Z) : list Z * list Z := read_string_item (eat_whitespace st) token_endings.

(** substitute-entities, 76-93: the regexp
    &(lt|amp|apos|quot|gt|Auml|auml|Uuml|uuml|Ouml|ouml|szlig); *)
Definition entity_re : list Z :=
  [38; 40; 108; 116; 124; 97; 109; 112; 124; 97; 112; 111; 115; 124; 113; 117; 111; 116; 124; 103; 116; 124;
   65; 117; 109; 108; 124; 97; 117; 109; 108; 124; 85; 117; 109; 108; 124; 117; 117; 109; 108; 124;
   79; 117; 109; 108; 124; 111; 117; 109; 108; 124; 115; 122; 108; 105; 103; 41; 59].
(** 81-92; the umlauts are the two bytes each that the file contains *)
Definition entity_alist : list (list Z * list Z) :=
  [([108; 116], [60]); ([103; 116], [62]);
   ([65; 117; 109; 108], [195; 132]); ([97; 117; 109; 108], [195; 164]);
   ([85; 117; 109; 108], [195; 156]); ([117; 117; 109; 108], [195; 188]);
   ([79; 117; 109; 108], [195; 150]); ([111; 117; 109; 108], [195; 182]);
   ([115; 122; 108; 105; 103], [195; 159]);
   ([97; 109; 112], [38]); ([97; 112; 111; 115], [39]); ([113; 117; 111; 116], [34])].
Fixpoint assoc (k : list Z) (l : list (list Z * list Z)) : option (list Z) :=
  match l with
  | [] => None
  | (k', v) :: l => if list_eq_dec Z.eq_dec k k' then Some v else assoc k l
  end.
(** (cdr nil) is nil, for concat the same as an empty string *)
Definition entity_template (beyond junk : Z -> Z) (s : list Z) (m : mstate) : res (list Z) * mstate :=
  (let* k := expand_last_match beyond junk m [92; 49] in
   Ok (match assoc k entity_alist with Some v => v | None => [] end), m).
(** [f] the step budget of each match; string-replace goes round its loop at
    most once for each character.  The match data from before is not used. *)
Definition substitute_entities (beyond junk : Z -> Z) (f : nat) (s : list Z) : res (list Z) :=
  string_replace beyond f entity_re s (entity_template beyond junk) (S (length s)) None.

(** What read-xml-item does: returns an item, returns nil, or throws a name *)
Inductive outcome := Item (i : xml) | Nothing | Ended (name : list Z).

Section Reader.
  Variable entities : list Z -> res (list Z).    (* substitute-entities *)

  (** read-quoted-token, 102-110 *)
  Definition read_quoted_token (st : list Z) : res (list Z * list Z) :=
    match st with
    | c :: st' =>
        if isspace c then Ok ([], st)
        else if negb (memq c [34; 39]) then Ok (read_string_item st token_endings)
        else let '(s, st'') := read_string_item st' [c] in
             let* v := entities s in Ok (v, tl st'')
    | [] => Ok (read_string_item st token_endings)
    end.
  (** read-param-list, 112-124; params in reverse *)
  Fixpoint read_params (fuel : nat) (st : list Z) (params : list (list Z * list Z)) : res (list (list Z * list Z) * list Z) :=
    match fuel with
    | O => Fuel
    | S n =>
        let st := eat_whitespace st in
        if at_char st 63 || at_char st 47 || at_char st 62 then Ok (rev params, st)
        else
          let '(name, st) := read_token st in
          let st := eat_whitespace st in
          if negb (at_char st 61) then Err
          else
            let* (data, st) := read_quoted_token (eat_whitespace (tl st)) in
            read_params n st ((name, data) :: params)
    end.
  (** read-question-body, 126-132 *)
  Definition read_question_body (n : nat) (st : list Z) : res (outcome * list Z) :=
    let '(name, st) := read_token st in
    let* (params, st) := read_params n st [] in
    let st := tl st in
    if negb (at_char st 62) then Err else Ok (Item (Elem (63 :: name) params []), tl st).
  (** read-exclam-body, 134-139 *)
  Definition read_exclam_body (st : list Z) : res (outcome * list Z) :=
    let '(s, st) := read_string_item st [62] in
    let* data := entities s in
    if negb (at_char st 62) then Err else Ok (Item (Bang data), tl st).
  (** The end of an element, 169-176 *)
  Definition read_end (st : list Z) : res (outcome * list Z) :=
    let '(name, st) := read_token (eat_whitespace st) in
    let st := eat_whitespace st in
    if negb (at_char st 62) then Err else Ok (Ended name, tl st).
  (** (string= ended name), 158: ended is nil at the end of the input, and nil
      is the symbol whose name is nil *)
  Definition same_name (ended : option (list Z)) (name : list Z) : bool :=
    if list_eq_dec Z.eq_dec (match ended with Some e => e | None => [110; 105; 108] end) name then true else false.

  (** read-xml-item, 162-188, with read-tag-body, 141-160, and the loop of
      155-157: the name thrown, or nil, and the items in reverse *)
  Fixpoint read_item (fuel : nat) (st : list Z) : res (outcome * list Z) :=
    match fuel with
    | O => Fuel
    | S n =>
        match st with
        | [] => Ok (Nothing, [])
        | c :: st1 =>
            if c =? 60 then
              if at_char st1 47 then read_end (tl st1)
              else if at_char st1 63 then read_question_body n (tl st1)
              else if at_char st1 33 then read_exclam_body (tl st1)
              else
                let '(name, st2) := read_token st1 in
                let* (params, st3) := read_params n st2 [] in
                if at_char st3 47 then
                  if negb (at_char (tl st3) 62) then Err else Ok (Item (Elem name params []), tl (tl st3))
                else if negb (at_char st3 62) then Err
                else
                  let* (r, st4) := read_items n (tl st3) [] in
                  let '(ended, items) := r in
                  if negb (same_name ended name) then Err
                  else Ok (Item (Elem name params (rev items)), st4)
            else
              let '(s, st2) := read_string_item st [60] in
              let* v := entities s in Ok (Item (Text v), st2)
        end
    end
  with read_items (fuel : nat) (st : list Z) (items : list xml) : res (option (list Z) * list xml * list Z) :=
    match fuel with
    | O => Fuel
    | S n =>
        match st with
        | [] => Ok (None, items, [])
        | _ :: _ =>
            let* (r, st') := read_item n st in
            match r with
            | Item i => read_items n st' (i :: items)
            | Nothing => Ok (None, items, st')
            | Ended name => Ok (Some name, items, st')
            end
        end
    end.
  (** read-xml-item as called by a user, without a catcher: the throw of the
      end of an element is not caught.  None for nil. *)
  Definition read_xml_item (fuel : nat) (st : list Z) : res (option xml * list Z) :=
    let* (r, st') := read_item fuel st in
    match r with
    | Item i => Ok (Some i, st')
    | Nothing => Ok (None, st')
    | Ended _ => Err
    end.
End Reader.

(** * The printer *)

(** substitute-entities, printer.jl 35-43: the regexp is the class of
    < & apostrophe and double quote *)
Definition escape_re : list Z := [91; 60; 38; 39; 34; 93].
Definition escape_alist : list (list Z * list Z) :=
  [([108; 116], [60]); ([97; 109; 112], [38]); ([97; 112; 111; 115], [39]); ([113; 117; 111; 116], [34])].
Fixpoint rassoc (v : list Z) (l : list (list Z * list Z)) : option (list Z) :=
  match l with
  | [] => None
  | (k, v') :: l => if list_eq_dec Z.eq_dec v v' then Some k else rassoc v l
  end.
Definition escape_template (beyond junk : Z -> Z) (s : list Z) (m : mstate) : res (list Z) * mstate :=
  (let* k := expand_last_match beyond junk m [92; 48] in
   Ok (match rassoc k escape_alist with Some v => v | None => [] end), m).
Definition escape_entities (beyond junk : Z -> Z) (f : nat) (s : list Z) : res (list Z) :=
  string_replace beyond f escape_re s (escape_template beyond junk) (S (length s)) None.

Section Printer.
  Variable escape : list Z -> res (list Z).      (* substitute-entities *)
  (** What format makes of (nth 1 stream), 56: of the stream, not of the item *)
  Variable of_stream : res (list Z).

  (** print-params, 45-49: a space, the name, = and the value in quotes *)
  Fixpoint print_params (params : list (list Z * list Z)) : res (list Z) :=
    match params with
    | [] => Ok []
    | (name, value) :: params =>
        let* v := escape value in
        let* o := print_params params in
        Ok (32 :: name ++ [61; 34] ++ v ++ [34] ++ o)
    end.
  Definition print_bang : res (list Z) := let* s := of_stream in Ok ([60; 33] ++ s ++ [62]).
  (** print-xml-item, 51-71.  61: whether the name starts with a question
      mark, which is what its regexp asks *)
  Fixpoint print_item (i : xml) : res (list Z) :=
    let fix print_items (l : list xml) : res (list Z) :=
      match l with
      | [] => Ok []
      | x :: l => let* a := print_item x in let* b := print_items l in Ok (a ++ b)
      end in
    match i with
    | Text s => escape s
    | Bang _ => print_bang
    | Elem name params body =>
        if list_eq_dec Z.eq_dec name [33] then print_bang
        else
          let* p := print_params params in
          let start := 60 :: name ++ p in
          if at_char name 63 then Ok (start ++ [63; 62])
          else match body with
               | [] => Ok (start ++ [47; 62])
               | _ :: _ => let* b := print_items body in Ok (start ++ [62] ++ b ++ [60; 47] ++ name ++ [62])
               end
    end.
End Printer.
