(** Command line options: src/main.c 76-157, src/misc.c 542-559 and
    lisp/rep/user.jl 34-92. *)

From Coq Require Import ZArith List Bool.
Import ListNotations.
Open Scope Z_scope.

(** The bytes of a string, without its terminating zero; no byte is zero. *)
Definition str := list Z.

(** An element of command-line-args: a string object with its identity, or
    another object. *)
Inductive elt :=
| Str (id : nat) (s : str)
| Other (id : nat).
Definition elt_id (e : elt) : nat := match e with Str i _ => i | Other i => i end.

(** The byte at a place, with the terminating zero. *)
Definition at_ (s : str) (i : nat) : Z := nth i s 0.

(** strncmp (a, b, n) == 0 *)
Fixpoint strncmp0 (a b : str) (n : nat) : bool :=
  match n with
  | O => true
  | S k =>
      let x := match a with [] => 0 | x :: _ => x end in
      let y := match b with [] => 0 | y :: _ => y end in
      if x =? y then (if x =? 0 then true else strncmp0 (tl a) (tl b) k) else false
  end.

Definition equals : Z := 61.

(** lispcmds.c 716-736 delq *)
Fixpoint delq (id : nat) (l : list elt) : list elt :=
  match l with
  | [] => []
  | e :: r => if Nat.eqb (elt_id e) id then delq id r else e :: delq id r
  end.

(** What get-command-line-option (misc.c 542-559) does: returns nil, returns t,
    returns a string, or signals the error of a missing argument. *)
Inductive answer :=
| Absent
| Given
| Arg (s : str)
| NoArg.

(** main.c 79-122 rep_get_option: [tem] is the rest of the list still to be
    looked at, [whole] the value of command-line-args.  No interrupt happens. *)
Fixpoint get_loop (opt : str) (want : bool) (tem whole : list elt) : answer * list elt :=
  match tem with
  | Str id s :: cdr =>
      let n := length opt in
      if strncmp0 opt s n && ((at_ s n =? equals) || (at_ s n =? 0)) then
        let whole1 := delq id whole in
        if want then
          if at_ s n =? equals then (Arg (skipn (S n) s), whole1)
          else match cdr with
               | Str id2 s2 :: _ => (Arg s2, delq id2 whole1)
               | _ => (NoArg, whole1)
               end
        else (Given, whole1)
      else get_loop opt want cdr whole
  | _ => (Absent, whole)
  end.
Definition get_option (opt : str) (want : bool) (l : list elt) : answer * list elt :=
  get_loop opt want l l.

(** main.c 124-144: the arguments become a list of new strings. *)
Fixpoint number (n : nat) (l : list str) : list elt :=
  match l with
  | [] => []
  | s :: r => Str n s :: number (S n) r
  end.

(** Asking for several options one after the other. *)
Fixpoint ask (qs : list (str * bool)) (l : list elt) : list answer * list elt :=
  match qs with
  | [] => ([], l)
  | (o, w) :: r =>
      let '(a, l1) := get_option o w l in
      let '(as_, l2) := ask r l1 in
      (a :: as_, l2)
  end.

(** ** user.jl *)

Fixpoint seqb (a b : str) : bool :=
  match a, b with
  | [], [] => true
  | x :: a', y :: b' => (x =? y) && seqb a' b'
  | _, _ => false
  end.

(** The words of the options, as bytes. *)
Definition w_call : str := [45; 45; 99; 97; 108; 108].
Definition w_f : str := [45; 102].
Definition w_load : str := [45; 45; 108; 111; 97; 100].
Definition w_l : str := [45; 108].
Definition w_check : str := [45; 45; 99; 104; 101; 99; 107].
Definition w_help : str := [45; 45; 104; 101; 108; 112].
Definition w_version : str := [45; 45; 118; 101; 114; 115; 105; 111; 110].
Definition w_quit : str := [45; 45; 113; 117; 105; 116].
Definition w_q : str := [45; 113].
Definition w_batch : str := [45; 45; 98; 97; 116; 99; 104].
Definition w_interp : str := [45; 45; 105; 110; 116; 101; 114; 112].
Definition w_norc : str := [45; 45; 110; 111; 45; 114; 99].
Definition w_debug : str := [45; 45; 100; 101; 98; 117; 103].

(** What parse-options does for one option.  [Load] is do-load; [Script] is
    do-load of a file named without an option, which also sets batch-mode. *)
Inductive action :=
| Call (f : str)
| Load (f : str)
| Script (f : str)
| Check | Help | Version | Quit.

(** The action for the first word and the words left; None: -f or -l is last,
    which signals an error (user.jl 46, 50 with nil). *)
Definition next_action (arg : str) (rest : list str) : option (action * list str) :=
  if seqb arg w_call || seqb arg w_f then
    match rest with [] => None | a :: r => Some (Call a, r) end
  else if seqb arg w_load || seqb arg w_l then
    match rest with [] => None | a :: r => Some (Load a, r) end
  else if seqb arg w_check then Some (Check, rest)
  else if seqb arg w_help then Some (Help, rest)
  else if seqb arg w_version then Some (Version, rest)
  else if seqb arg w_quit || seqb arg w_q then Some (Quit, rest)
  else Some (Script arg, rest).

Definition leaves (a : action) : bool :=
  match a with Check | Help | Version | Quit => true | _ => false end.

Inductive outcome := Finished | Left_ok | Failed.

(** user.jl 41-92 parse-options.  [world a l]: what the code called or loaded
    makes of command-line-args; None is an error in it.  Each step is noted
    with the arguments the code can see.  All elements are strings here. *)
Inductive parse (world : action -> list str -> option (list str))
  : list str -> list (action * list str) -> outcome -> Prop :=
| parse_end : parse world [] [] Finished
| parse_missing arg rest :
    next_action arg rest = None -> parse world (arg :: rest) [] Failed
| parse_leave arg rest a r :
    next_action arg rest = Some (a, r) -> leaves a = true ->
    parse world (arg :: rest) [(a, r)] Left_ok
| parse_error arg rest a r :
    next_action arg rest = Some (a, r) -> leaves a = false ->
    world a r = None -> parse world (arg :: rest) [(a, r)] Failed
| parse_step arg rest a r r' tr o :
    next_action arg rest = Some (a, r) -> leaves a = false ->
    world a r = Some r' -> parse world r' tr o ->
    parse world (arg :: rest) ((a, r) :: tr) o.

(** main.c 146-149, user.jl 104 and 118: the options asked for at the start. *)
Definition startup : list (str * bool) :=
  [(w_batch, false); (w_interp, false); (w_norc, false); (w_debug, false)].

(** main.c 124-157 and user.jl 94-130, only the options: the startup questions
    are asked of the arguments, then parse-options has what is left. *)
Fixpoint strings (l : list elt) : list str :=
  match l with
  | [] => []
  | Str _ s :: r => s :: strings r
  | Other _ :: r => strings r
  end.
Definition run (world : action -> list str -> option (list str)) (args : list str)
  (flags : list answer) (tr : list (action * list str)) (o : outcome) : Prop :=
  (flags = fst (ask startup (number 0 args)))%list /\
  parse world (strings (snd (ask startup (number 0 args)))) tr o.
