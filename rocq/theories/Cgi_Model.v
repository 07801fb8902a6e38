(** Parameters of CGI requests: lisp/rep/www/cgi-get.jl 36-81.

    QUERY_STRING is given; intern is left out: a name is the string that is
    interned.  toupper is that of the C locale. *)
From Coq Require Import List ZArith Bool.
From Verif Require Import Regexp_Model Find_Model.
Import ListNotations.
Open Scope Z_scope.

(** 36-42: unquote-plus-map, a string of 44 characters *)
Definition plus_map : list Z := map Z.of_nat (seq 0 43) ++ [32].
(** translate-string, src/misc.c 427-440 *)
Definition translate (table s : list Z) : list Z :=
  map (fun c => if c <? Z.of_nat (length table) then nth (Z.to_nat c) table 0 else c) s.
(** 63-66 *)
Definition hexdigit (c : Z) : Z :=
  if (48 <=? c) && (c <=? 57) then c - 48 else (toupper c - 65) + 10.
(** 73: %.. *)
Definition percent_re : list Z := [37; 46; 46].
(** 51: ( [^=]+ ) = ( [^&]* ) ( & | $ ), without the spaces *)
Definition param_re : list Z :=
  [40; 91; 94; 61; 93; 43; 41; 61; 40; 91; 94; 38; 93; 42; 41; 40; 38; 124; 36; 41].

Section Cgi.
  Variable beyond : Z -> Z.     (* memory beyond strings, see Regexp_Model *)
  Variable f : nat.             (* step budget of each match *)

  (** aref, src/lispcmds.c 905-921 *)
  Definition aref (s : list Z) (i : Z) : res Z :=
    if (i <? 0) || (Z.of_nat (length s) <=? i) then Err else Ok (nth (Z.to_nat i) s 0).

  (** The loop of unquote, 73-81, with the match data before and after; frags
      as strings: the number of 76-77 becomes a character in concat
      (src/lispcmds.c 1030) *)
  Fixpoint unquote_loop (fuel : nat) (s : list Z) (point : Z) (frags : list (list Z)) (m : mstate) : res (list Z * mstate) :=
    match fuel with
    | O => Fuel
    | S n =>
        let '(r, m) := matched (string_match beyond f percent_re s point false) s m in
        let* found := r in
        if found then
          let* i := the_pos (match_start m 0) in
          let* before := substring s point i in
          let* point := the_pos (match_end m 0) in
          let* a := aref s (point - 2) in
          let* b := aref s (point - 1) in
          unquote_loop n s point ([(hexdigit a * 16 + hexdigit b) mod 256] :: before :: frags) m
        else if point =? 0 then Ok (s, m)
        else let* rest := substring s point (Z.of_nat (length s)) in
             Ok (concat (rev (rest :: frags)), m)
    end.
  (** 68-81 *)
  Definition unquote (s : list Z) (m : mstate) : res (list Z * mstate) :=
    let s := translate plus_map s in unquote_loop (S (length s)) s 0 [] m.

  (** cgi-get-params, 44-61; None for the value nil.  The second pair of
      parentheses is asked for after the name was decoded (56-57) *)
  Fixpoint params_loop (fuel : nat) (q : list Z) (point : Z) (params : list (list Z * option (list Z))) (m : mstate) : res (list (list Z * option (list Z))) :=
    match fuel with
    | O => Fuel
    | S n =>
        let '(r, m) := matched (string_looking_at beyond f param_re q point false) q m in
        let* found := r in
        if found then
          let* point := the_pos (match_end m 0) in
          let* a := the_pos (match_start m 1) in
          let* b := the_pos (match_end m 1) in
          let* name := substring q a b in
          let* (name, m) := unquote name m in
          let* a := the_pos (match_start m 2) in
          let* b := the_pos (match_end m 2) in
          let* value := substring q a b in
          let* (value, m) := unquote value m in
          params_loop n q point ((name, match value with [] => None | _ => Some value end) :: params) m
        else Ok (rev params)
    end.
  Definition cgi_get_params (q : list Z) (m : mstate) : res (list (list Z * option (list Z))) := params_loop (S (length q)) q 0 [] m.
End Cgi.
