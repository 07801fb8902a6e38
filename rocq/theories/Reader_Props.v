(** Properties C12 (strings survive printing and reading) and C35 (printed data
    read back). *)
From Coq Require Import String ZArith QArith List Bool.
From Verif Require Import Numbers_Model Numbers_Spec Reader_Model Reader_Spec Reader_Proofs.
Import ListNotations.
Open Scope list_scope.
Open Scope Z_scope.


(** C12: every byte string, in every print-escape mode, before any text. *)
Theorem C12_print_read_string : forall m s rest fuel, Forall byte s -> (1 <= fuel)%nat ->
  Fread fuel (print_val m (SStr s) ++ rest) = ROk (SStr s) rest.
Proof. exact fread_string. Qed.
Print Assumptions C12_print_read_string.

(** bytes 0, 255, a quote, a backslash, a newline, and digits that could extend
    an octal escape; the text goes on with digits *)
Example C12_print_read_string_case :
  let s := [0; 49; 255; 34; 92; 10; 55; 127; 9] in
  Forall byte s /\
  print_val EscAll (SStr [0; 49; 255]) = [34] ++ codes "\0001\377" ++ [34] /\
  Fread 1 (print_val EscAll (SStr s) ++ [55; 55]) = ROk (SStr s) [55; 55] /\
  Fread 1 (print_val EscNewlines (SStr s) ++ [55; 55]) = ROk (SStr s) [55; 55] /\
  Fread 1 (print_val EscNone (SStr s) ++ [55; 55]) = ROk (SStr s) [55; 55].
Proof.
  split; [repeat constructor; unfold byte; try discriminate|]. vm_compute. auto.
Qed.

(** With print-escape t the text has printing ASCII characters only. *)
Theorem C12_escape_all_ascii : forall s, Forall byte s ->
  Forall ascii_printing (print_val EscAll (SStr s)).
Proof. exact escape_all_ascii. Qed.
Print Assumptions C12_escape_all_ascii.

Example C12_escape_all_ascii_case :
  Forall byte [7; 200] /\ print_val EscAll (SStr [7; 200]) = [34] ++ codes "\007\310" ++ [34].
Proof. split; [repeat constructor; unfold byte; discriminate|reflexivity]. Qed.

(** With print-escape newlines or t there is no tab, newline, form feed or
    carriage return in the text. *)
Theorem C12_newlines_escaped : forall m s, m <> EscNone -> Forall byte s ->
  Forall (fun c => ~ In c [9; 10; 12; 13]) (print_val m (SStr s)).
Proof. exact newlines_escaped. Qed.
Print Assumptions C12_newlines_escaped.

Example C12_newlines_escaped_case :
  EscNewlines <> EscNone /\ Forall byte [10; 13] /\
  print_val EscNewlines (SStr [10; 13]) = [34] ++ codes "\n\r" ++ [34].
Proof. split; [discriminate|]. split; [repeat constructor; unfold byte; discriminate|reflexivity]. Qed.

(** C35: a printed datum, followed by the end of the text or by a delimiter,
    reads back as the same datum, and nothing else is consumed. *)
Theorem C35_print_read : forall m v rest fuel, printable v -> token_end rest ->
  (2 * length (print_val m v ++ rest) + 1 <= fuel)%nat ->
  Fread fuel (print_val m v ++ rest) = ROk v rest.
Proof. exact print_read. Qed.
Print Assumptions C35_print_read.

(** A list of a vector (a ratio, a string, a bignum, nil), a symbol with a space,
    a symbol of digits, a keyword, #!rest, and the symbol 1+ in the last cdr *)
Definition case_datum : sexp :=
  SCons (SVec [SNum (Rat (-7 # 2)); SStr (codes "ab"); SNum (Big (2 ^ 70)); SNil])
    (SCons (SSym (codes "foo bar")) (SCons (SSym (codes "12")) (SCons (SKey (codes "#:key"))
      (SCons (SLit lit_rest) (SSym (codes "1+")))))).

Example C35_print_read_case :
  printable case_datum /\ token_end (codes ") x") /\
  print_val EscNone (SCons (SSym (codes "foo bar")) (SCons (SSym (codes "12")) (SSym (codes "1+")))) =
    codes "(foo\ bar \12 . 1+)" /\
  Fread 300 (print_val EscAll case_datum ++ codes ") x") = ROk case_datum (codes ") x").
Proof.
  split; [|split; [simpl; auto 10|split; vm_compute; reflexivity]].
  assert (N : forall l : list Z, l <> [] -> (length l < 240)%nat -> forallb (fun c => (0 <? c) && (c <? 256)) l = true ->
    l <> [46] -> hd 0 l <> 63 -> (number_like l \/ ~ number_syntax l) -> printable (SSym l)).
  { intros l A1 A2 A3 A4 A5 A6. constructor. repeat split; auto.
    rewrite forallb_forall in A3. apply Forall_forall. intros c I. apply A3 in I.
    apply andb_true_iff in I. rewrite !Z.ltb_lt in I. exact I. }
  assert (NS : forall (c : Z) (l : list Z), number_syntax (c :: l) -> In c [43; 45; 46] \/ digitlike c).
  { intros c l (sg & b & E & SG & H). destruct sg as [|x sg].
    - simpl in E. destruct H as [(mm & x & -> & (d1 & p & d2 & -> & F & _ & P & NE) & _)|(x & t & -> & _)].
      + destruct d1 as [|y d1].
        * destruct NE as [NE|NE]; [congruence|]. subst p. inversion E; subst. left. simpl. auto.
        * inversion E; subst. inversion F; subst. auto.
      + inversion E; subst. right. unfold digitlike. split; discriminate.
    - inversion E; subst. inversion SG as [|? ? X]; subst. left. simpl. destruct X; auto. }
  constructor.
  { constructor. repeat constructor; unfold in_fixnum_range, byte; try discriminate; vm_compute; intuition discriminate. }
  constructor.
  { apply N; try (vm_compute; (discriminate || reflexivity)); [vm_compute; repeat constructor|].
    right. intros H. apply NS in H. vm_compute in H. intuition discriminate. }
  constructor.
  { apply N; try (vm_compute; (discriminate || reflexivity)); [vm_compute; repeat constructor|].
    left. exists 49, [50]. split; [reflexivity|]. assert (D : digitlike 49) by (unfold digitlike; split; discriminate).
    split; [auto|]. split; [|constructor; exact D]. constructor; [left; unfold digitlike; split; discriminate|constructor]. }
  constructor.
  { apply (P_key (codes "key")); [vm_compute; repeat constructor|]. repeat constructor. }
  constructor.
  { constructor. simpl. auto. }
  apply N; try (vm_compute; (discriminate || reflexivity)); [vm_compute; repeat constructor|].
  right. intros (sg & b & E & SG & H). destruct sg as [|x sg].
  - simpl in E. subst b. destruct H as [(mm & x & E & (d1 & p & d2 & -> & F & F2 & P & NE) & X)|(x & t & E & _)].
    + change (codes "1+") with [49; 43] in E.
      destruct d1 as [|y [|y2 d1]].
      * destruct NE as [NE|NE]; [congruence|]. subst p. discriminate.
      * simpl in E. inversion E as [[E1 E2]]. destruct P as [->|[->| ->]]; simpl in E2.
        -- destruct d2 as [|z d2]; simpl in E2.
           ++ destruct X as [->|(e & t & -> & [->| ->] & _)]; discriminate.
           ++ inversion E2; subst. inversion F2 as [|? ? Z]. unfold digitlike in Z. destruct Z as [Z _]. apply Z. reflexivity.
        -- discriminate.
        -- discriminate.
      * simpl in E. inversion E; subst. inversion F as [|? ? _ F']. inversion F' as [|? ? Z].
        unfold digitlike in Z. destruct Z as [Z _]. apply Z. reflexivity.
    + discriminate.
  - inversion E; subst. inversion SG as [|? ? X]. destruct X as [X|X]; discriminate.
Qed.

(** Data written one after another with print read back one after another,
    until end of stream is signalled. *)
Theorem C35_print_lines_read : forall m vs fuel, Forall printable vs ->
  (2 * length (concat (map (print_line m) vs)) + 1 <= fuel)%nat ->
  reads fuel (concat (map (print_line m) vs)) vs.
Proof. exact print_lines_read. Qed.
Print Assumptions C35_print_lines_read.

Example C35_print_lines_read_case :
  Forall printable [SNum (Fix (-5)); SNil] /\
  concat (map (print_line EscAll) [SNum (Fix (-5)); SNil]) = [10; 45; 53; 10; 40; 41].
Proof.
  split; [|reflexivity]. constructor; [|constructor; constructor]. constructor.
  vm_compute. intuition discriminate.
Qed.

(** White space, line comments and nested block comments before a datum are
    skipped. *)
Theorem C35_blanks_skipped : forall m b v rest fuel, blank b -> printable v -> token_end rest ->
  (2 * length (b ++ print_val m v ++ rest) + 1 <= fuel)%nat ->
  Fread fuel (b ++ print_val m v ++ rest) = ROk v rest.
Proof. exact blank_print_read. Qed.
Print Assumptions C35_blanks_skipped.

Example C35_blanks_skipped_case :
  blank ([32] ++ [59; 40; 10] ++ codes "#| a #| b |# |#") /\
  Fread 50 ([32] ++ [59; 40; 10] ++ codes "#| a #| b |# |#()") = ROk SNil [].
Proof.
  split; [|reflexivity]. apply Bl_space; [simpl; auto|]. apply (Bl_line [40] 10).
  - constructor; [simpl; intuition discriminate|constructor].
  - simpl; auto.
  - change (codes "#| a #| b |# |#") with ([35; 124] ++ ([32; 97; 32] ++ [35; 124] ++ [32; 98; 32] ++ [124; 35; 32] ++ []) ++ [124; 35] ++ []).
    apply Bl_block; [|constructor].
    do 3 (apply B_char; [discriminate|discriminate|]). apply B_nest; [|constructor].
    do 3 (apply B_char; [discriminate|discriminate|]). constructor.
Qed.

(** A block comment inside another one whose closing mark is followed at once by
    the closing mark of the outer one is not closed: the text #|#||#|#() is an
    error. *)
Theorem C35_nested_comment_refuted : exists a b,
  block a /\ b = [35; 124] ++ a ++ [124; 35] /\
  forall fuel, (100 <= fuel)%nat ->
  Fread fuel ([35; 124] ++ b ++ [124; 35] ++ print_val EscAll SNil) = RErr.
Proof.
  exists [], [35; 124; 124; 35]. split; [constructor|]. split; [reflexivity|].
  intros fuel L. unfold Fread. rewrite (readl_mono 100 fuel _ L); [reflexivity|discriminate].
Qed.
Print Assumptions C35_nested_comment_refuted.

(** 'X `X , X ,@X #'X read as lists of two elements. *)
Theorem C35_abbreviations : forall m p name v rest fuel, In (p, name) abbreviations ->
  printable v -> token_end rest ->
  (2 * length (p ++ print_val m v ++ rest) + 1 <= fuel)%nat ->
  Fread fuel (p ++ print_val m v ++ rest) = ROk (SCons (SSym name) (SCons v SNil)) rest.
Proof. exact abbreviation_read. Qed.
Print Assumptions C35_abbreviations.

Example C35_abbreviations_case :
  In ([44; 64], codes "backquote-splice") abbreviations /\
  Fread 50 (codes ",@(1)") =
    ROk (SCons (SSym (codes "backquote-splice")) (SCons (SCons (SNum (Fix 1)) SNil) SNil)) [].
Proof. split; [simpl; auto 10|reflexivity]. Qed.

(** Reading ends on every text whatever, with a datum and a shorter rest or
    with an error. *)
Theorem C35_reader_terminates : forall fuel text, (2 * length text + 1 <= fuel)%nat ->
  match Fread fuel text with
  | ROk _ rest => (length rest < length text)%nat
  | RErr => True
  | RFuel => False
  end.
Proof. exact reader_stops. Qed.
Print Assumptions C35_reader_terminates.

Example C35_reader_terminates_case :
  Fread 41 (codes "(a #|b|# . #(1)) x") =
    ROk (SCons (SSym [97]) (SVec [SNum (Fix 1)])) [32; 120] /\
  Fread 41 (codes "((((") = RErr.
Proof. split; reflexivity. Qed.

(** symbol_print never writes more than the 2n characters it allocates. *)
Theorem C35_symbol_print_buffer : forall name key,
  (length (print_symbol name key) <= 2 * length name)%nat.
Proof. exact print_symbol_bound. Qed.
Print Assumptions C35_symbol_print_buffer.

Example C35_symbol_print_buffer_case : length (print_symbol [53] false) = 2%nat.
Proof. reflexivity. Qed.

(** Symbols whose printed name does not read back: each of these names prints
    as itself and reads as a number, as an error, or as another symbol. *)
Theorem C35_symbols_refuted :
  (** ?a is read as a character *)
  Fread 10 (print_val EscAll (SSym (codes "?a"))) = ROk (SNum (Fix 97)) [] /\
  (** 1e5, 0x10 and --5 are read as numbers *)
  Fread 10 (print_val EscAll (SSym (codes "1e5"))) = ROk (SFloat (codes "1e5") 1) [] /\
  Fread 10 (print_val EscAll (SSym (codes "0x10"))) = ROk (SNum (Fix 16)) [] /\
  Fread 10 (print_val EscAll (SSym (codes "--5"))) = ROk (SNum (Fix (-5))) [] /\
  (** a list of the symbol . is a syntax error *)
  Fread 20 (print_val EscAll (SCons (SSym (codes ".")) (SCons SNil SNil))) = RErr /\
  (** the empty name prints as nothing *)
  print_val EscAll (SSym []) = [] /\
  (** a name with a NUL is cut off there *)
  Fread 10 (print_val EscAll (SSym [97; 0; 98])) = ROk (SSym [97]) [].
Proof. vm_compute. repeat split. Qed.
Print Assumptions C35_symbols_refuted.

(** A symbol with a name of more than 240 characters is not found again: reading
    it makes a second symbol of that name. *)
Theorem C35_long_symbol_refuted : exists name, length name = 241%nat /\
  Fread 10 (print_val EscAll (SSym name)) = ROk (SNew name) [].
Proof. exists (repeat 97 241). split; [reflexivity|vm_compute; reflexivity]. Qed.
Print Assumptions C35_long_symbol_refuted.

(** After a name of 240 characters has been read, a name of 300 characters is
    written beyond the end of the 242 bytes of the buffer. *)
Theorem C35_symbol_buffer_overflow_refuted : exists n1 n2,
  let (buflen, fits1) := read_symbol_buffer start_buflen n1 in
  fits1 = true /\ snd (read_symbol_buffer buflen n2) = false.
Proof. exists 240%nat, 300%nat. vm_compute. auto. Qed.
Print Assumptions C35_symbol_buffer_overflow_refuted.

(** The character written ?\377 reads as -1, although the same character
    written as itself reads as 255. *)
Theorem C35_character_escape_refuted :
  Fread 5 (codes "?\377") = ROk (SNum (Fix (-1))) [] /\
  Fread 5 [63; 255] = ROk (SNum (Fix 255)) [].
Proof. vm_compute. split; reflexivity. Qed.
Print Assumptions C35_character_escape_refuted.
