(** How messages of remote procedure calls are cut out of what a socket delivers:
    lisp/rep/net/rpc.jl 229-293 (rpc-output-handler, invoke-method,
    invoke-oneway-method), over the
    reader of src/lisp.c with the kinds of its errors. *)

From Coq Require Import ZArith List Bool.
From Verif Require Import Reader_Model.
Import ListNotations.
Open Scope Z_scope.

(** What reading gives: a value and the rest of the text, one of the errors
    premature-end-of-stream and end-of-stream, invalid-read-syntax; or the step
    budget of the model is used up. *)
Inductive rk (A : Type) := KOk (a : A) (text : list Z) | KEnd | KBad | KFuel.
Arguments KOk {A} a text.
Arguments KEnd {A}.
Arguments KBad {A}.
Arguments KFuel {A}.

Definition rk_map {A B} (f : A -> B) (r : rk A) : rk B :=
  match r with KOk a t => KOk (f a) t | KEnd => KEnd | KBad => KBad | KFuel => KFuel end.
Definition with_kind {A} (e : rk A) (r : rd A) : rk A :=
  match r with ROk a t => KOk a t | RErr => e | RFuel => KFuel end.

(** lisp.c 414-688: the two errors in the loop are premature-end-of-stream (469,
    483); an empty identifier is invalid (656) *)
Definition read_symbol_k (text : list Z) : rk sexp :=
  match sym_loop text start_buflen 0 [] n_start false with
  | ROk (buf, s) t =>
    match symbol_or_number buf s (Nat.ltb start_buflen (length buf)) with
    | Some v => KOk v t
    | None => KBad
    end
  | RErr => KEnd
  | RFuel => KFuel
  end.
(** lisp.c 726-782: the only error is premature-end-of-stream (771) *)
Definition read_str_k (text : list Z) : rk sexp := with_kind KEnd (read_str text).
(** lisp.c 784-818: all errors are invalid-read-syntax *)
Definition skip_chars_k (str : list Z) (ret : sexp) (text : list Z) : rk sexp :=
  with_kind KBad (skip_chars str ret text).
(** lisp.c 1004-1043: 1008 at the end of the stream, otherwise 1039 and 1043 *)
Definition read_char_name_k (text : list Z) : rk sexp :=
  match text with [] => KEnd | _ => with_kind KBad (read_char_name text) end.

(** lisp.c 823-1118 readl and 297-411 read_list, as in Reader_Model *)
Fixpoint readl_k (fuel : nat) (text : list Z) : rk sexp :=
  match fuel with
  | O => KFuel
  | S f =>
    match text with
    | [] => KEnd
    | c :: t =>
      let identifier txt :=
        match read_symbol_k txt with
        | KOk form (x :: t') =>
          if (x =? 35) && match form with SSym _ | SNew _ => true | _ => false end then
            match read_symbol_k t' with
            | KOk var t'' => KOk (list3 (SSym sym_structure_ref) form var) t''
            | r => r
            end
          else KOk form (x :: t')
        | r => r
        end in
      if white c then readl_k f t
      else if c =? 59 then readl_k f (skip_line t)
      else if c =? 40 then read_list_k f t [] SNil
      else if c =? 39 then rk_map (list2 (SSym sym_quote)) (readl_k f t)
      else if c =? 96 then rk_map (list2 (SSym sym_backquote)) (readl_k f t)
      else if c =? 44 then
        match t with
        | [] => KEnd
        | x :: t' => if x =? 64 then rk_map (list2 (SSym sym_splice)) (readl_k f t')
                     else rk_map (list2 (SSym sym_unquote)) (readl_k f t)
        end
      else if c =? 91 then rk_map (fun l => SVec (elements l)) (read_list_k f t [] SNil)
      else if c =? 34 then read_str_k t
      else if c =? 63 then
        match t with
        | [] => KEnd
        | d :: t' =>
          if d =? 92 then
            match t' with
            | [] => KEnd
            | _ => let (v, t'') := read_esc t' in KOk (SNum (Numbers_Model.make_int v)) t''
            end
          else KOk (SNum (Numbers_Model.make_int d)) t'
        end
      else if c =? 35 then
        match t with
        | [] => KEnd
        | d :: t' =>
          if d =? 39 then rk_map (list2 (SSym sym_function)) (readl_k f t')
          else if d =? 91 then
            match read_list_k f t' [] SNil with
            | KOk l t'' => if compiled_ok (elements l) then KOk (SComp (elements l)) t'' else KBad
            | r => r
            end
          else if d =? 40 then rk_map (fun l => SVec (elements l)) (read_list_k f t' [] SNil)
          else if d =? 124 then
            match read_comment 124 t' 1 with Some t'' => readl_k f t'' | None => KEnd end
          else if d =? 92 then read_char_name_k t'
          else if d =? 33 then
            match t' with
            | [] => KBad
            | e :: t'' =>
              if e =? 111 then skip_chars_k [112; 116; 105; 111; 110; 97; 108] (SLit lit_optional) t''
              else if e =? 114 then skip_chars_k [101; 115; 116] (SLit lit_rest) t''
              else if e =? 107 then skip_chars_k [101; 121] (SLit lit_key) t''
              else KBad
            end
          else if d =? 58 then
            rk_map (fun v => match v with SSym n | SNew n => SKey n | _ => v end) (read_symbol_k text)
          else if one_of d [116; 84] then KOk (SLit lit_true) t'
          else if one_of d [102; 70] then KOk (SLit lit_false) t'
          else if one_of d [98; 66; 111; 79; 100; 68; 120; 88; 101; 69; 105; 73] then identifier text
          else if d =? 117 then skip_chars_k [110; 100; 101; 102; 105; 110; 101; 100] (SLit lit_undefined) t'
          else KBad
        end
      else identifier text
    end
  end
with read_list_k (fuel : nat) (text : list Z) (elems : list sexp) (tail : sexp) : rk sexp :=
  match fuel with
  | O => KFuel
  | S f =>
    let element txt :=
      match readl_k f txt with
      | KOk v t' => read_list_k f t' (v :: elems) SNil
      | r => r
      end in
    match text with
    | [] => KEnd
    | c :: t =>
      if white c then read_list_k f t elems tail
      else if c =? 59 then read_list_k f (skip_line t) elems tail
      else if one_of c [41; 93] then KOk (build elems tail) t
      else if c =? 46 then
        match t with
        | [] => KEnd
        | d :: _ =>
          if white d then
            match elems with
            | [] => KBad
            | _ => match readl_k f t with
                   | KOk v t' => read_list_k f t' elems v
                   | r => r
                   end
            end
          else element text
        end
      else if c =? 35 then
        match t with
        | [] => KOk (build elems tail) text
        | d :: t' =>
          if d =? 124 then
            match read_comment 124 t' 1 with Some t'' => read_list_k f t'' elems tail | None => KEnd end
          else element text
        end
      else element text
    end
  end.

(** streams.c 721-745 with enough steps: twice the length of the text *)
Definition read_k (text : list Z) : rk sexp := readl_k (2 * length text + 1) text.

(** ** The handler *)

(** A connection: what has not arrived yet, in the pieces in which it will
    arrive; pending-data; the forms dispatched, the newest first. *)
Record conn := mkconn { net : list (list Z); pending_data : list Z; dispatched : list sexp }.
(** Done, or the error of rpc.jl 244-246, or steps used up *)
Inductive res := Done (s : conn) | Failed (s : conn) | Steps.

Section Handler.
  (** While a form is dispatched the program may wait for input, so that more
      pieces arrive and the handler is called again, from inside: how many. *)
  Variable during : list sexp -> nat.

  (** k further pieces, each given to the handler L *)
  Fixpoint deliver (L : conn -> res) (k : nat) (s : conn) : res :=
    match k with
    | O => Done s
    | S k =>
        match net s with
        | [] => Done s
        | c :: net' =>
            (* rpc.jl 232-233: concat *)
            match L (mkconn net' (pending_data s ++ c) (dispatched s)) with
            | Done s => deliver L k s
            | r => r
            end
        end
    end.

  (** rpc.jl 235-282: the loop; what is done with a form (256-282) is its being
      noted. The rest is kept (252-254) before that. *)
  Fixpoint loop (fuel : nat) (s : conn) : res :=
    match fuel with
    | O => Steps
    | S f =>
        match read_k (pending_data s) with
        | KEnd => Done s
        | KBad => Failed s
        | KFuel => Steps
        | KOk form rest =>
            let s := mkconn (net s) rest (form :: dispatched s) in
            match deliver (loop f) (during (dispatched s)) s with
            | Done s => loop f s
            | r => r
            end
        end
    end.

  (** All pieces, as the event loop delivers them *)
  Definition connection (fuel : nat) (pieces : list (list Z)) : res :=
    deliver (loop fuel) (length pieces) (mkconn pieces [] []).
End Handler.

(** rpc.jl 282, 288, 293 (prin1-to-string): what is written for a message; m is print-escape *)
Definition send (m : escape) (msg : sexp) : list Z := print_val m msg.
