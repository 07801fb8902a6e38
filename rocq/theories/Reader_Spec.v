(** What printed data are expected to look like and to read back as, stated
    without the reader. *)
From Coq Require Import String Ascii ZArith QArith List Bool.
From Verif Require Import Numbers_Model Numbers_Spec Reader_Model.
Import ListNotations.
Close Scope string_scope.
Open Scope list_scope.
Open Scope Z_scope.

(** The codes of a text, for examples. *)
Definition codes (s : string) : list Z := map (fun a => Z.of_N (N_of_ascii a)) (list_ascii_of_string s).

Definition byte (c : Z) : Prop := 0 <= c < 256.

(** Ends a token: end of the text or white space, a parenthesis or bracket, a
    quote, semicolon, comma, backquote. *)
Definition token_end (rest : list Z) : Prop :=
  match rest with
  | [] => True
  | c :: _ => In c [32; 9; 10; 12; 13; 40; 41; 91; 93; 39; 34; 59; 44; 96]
  end.

(** Names made of an optional sign or point, digits, '/' and '.' with at least
    one digit; symbol_print takes them for numbers. *)
Definition digitlike (c : Z) : Prop := 48 <= c <= 57.
Definition number_like (name : list Z) : Prop :=
  exists c r, name = c :: r /\ (digitlike c \/ In c [45; 43; 46]) /\
    Forall (fun x => digitlike x \/ x = 47 \/ x = 46) r /\ Exists digitlike name.

(** Other spellings of numbers: signs, then either digits with at most one
    point or slash and an exponent, or 0x and hexadecimal digits. *)
Definition mantissa (m : list Z) : Prop :=
  exists d1 p d2, m = d1 ++ p ++ d2 /\ Forall digitlike d1 /\ Forall digitlike d2 /\
    (p = [] \/ p = [46] \/ p = [47]) /\ (d1 <> [] \/ p = [46]).
Definition exponent_part (x : list Z) : Prop :=
  x = [] \/ exists e t, x = e :: t /\ (e = 101 \/ e = 69) /\
                        Forall (fun c => digitlike c \/ In c [43; 45; 101; 69]) t.
Definition hexdigit (c : Z) : Prop := digitlike c \/ 65 <= c <= 70 \/ 97 <= c <= 102.
Definition number_syntax (name : list Z) : Prop :=
  exists signs body, name = signs ++ body /\ Forall (fun c => c = 43 \/ c = 45) signs /\
    ((exists m x, body = m ++ x /\ mantissa m /\ exponent_part x) \/
     (exists x t, body = 48 :: x :: t /\ (x = 120 \/ x = 88) /\ Forall (fun c => hexdigit c \/ In c [43; 45; 47]) t)).

(** Names that survive: not empty, no NUL, shorter than the buffer of the
    reader, not the lone dot, not beginning with '?', and not a number in a
    spelling symbol_print does not know. *)
Definition good_name (name : list Z) : Prop :=
  name <> [] /\ (length name < 240)%nat /\ Forall (fun c => 0 < c < 256) name /\
  name <> [46] /\ hd 0 name <> 63 /\ (number_like name \/ ~ number_syntax name).

Definition literals := [lit_optional; lit_rest; lit_key; lit_true; lit_false; lit_undefined].

(** Data with a faithful printed form. *)
Inductive printable : sexp -> Prop :=
| P_nil : printable SNil
| P_num : forall n, canonical n -> printable (SNum n)
| P_str : forall s, Forall byte s -> printable (SStr s)
| P_sym : forall name, good_name name -> printable (SSym name)
| P_key : forall r, (length r < 238)%nat -> Forall (fun c => 0 < c < 256) r ->
          printable (SKey (35 :: 58 :: r))
| P_lit : forall name, In name literals -> printable (SLit name)
| P_cons : forall a d, printable a -> printable d -> printable (SCons a d)
| P_vec : forall l, printables l -> printable (SVec l)
| P_comp : forall code consts n l, printables (SStr code :: SVec consts :: SNum (Fix n) :: l) ->
           printable (SComp (SStr code :: SVec consts :: SNum (Fix n) :: l))
with printables : list sexp -> Prop :=
| Ps_nil : printables []
| Ps_cons : forall a l, printable a -> printables l -> printables (a :: l).

(** The printed text contains only printing ASCII characters. *)
Definition ascii_printing (c : Z) : Prop := 32 <= c <= 126.

(** [print] of one value after another: a newline before each
    (streams.c 769-786, function print). *)
Definition print_line (m : escape) (v : sexp) : list Z := 10 :: print_val m v.

(** Reading one value after another from the same stream until end of stream. *)
Fixpoint reads (fuel : nat) (text : list Z) (vs : list sexp) : Prop :=
  match vs with
  | [] => Fread fuel text = RErr
  | v :: vs' => exists rest, Fread fuel text = ROk v rest /\ reads fuel rest vs'
  end.

(** Text that may come before a datum: white space, comments from a semicolon
    to the end of the line, and block comments, which nest. *)
Inductive block : list Z -> Prop :=
| B_nil : block []
| B_char : forall c b, c <> 124 -> c <> 35 -> block b -> block (c :: b)
| B_nest : forall a b, block a -> block b -> block ([35; 124] ++ a ++ [124; 35; 32] ++ b).
Inductive blank : list Z -> Prop :=
| Bl_nil : blank []
| Bl_space : forall c b, In c [32; 9; 10; 12; 13] -> blank b -> blank (c :: b)
| Bl_line : forall l nl b, Forall (fun c => ~ In c [10; 12; 13]) l -> In nl [10; 12; 13] -> blank b ->
    blank (59 :: l ++ nl :: b)
| Bl_block : forall a b, block a -> blank b -> blank ([35; 124] ++ a ++ [124; 35] ++ b).

(** The abbreviations 'X `X ,X ,@X #'X and the lists they stand for. *)
Definition abbreviations : list (list Z * list Z) :=
  [([39], sym_quote); ([96], sym_backquote); ([44; 32], sym_unquote); ([44; 64], sym_splice);
   ([35; 39], sym_function)].
