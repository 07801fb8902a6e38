(** Properties C45-C47: streams and format *)
From Coq Require Import List ZArith Lia Bool ZifyBool.
From Verif Require Import Numbers_Model Stream_Model Stream_Spec Stream_Proofs Stream_Format.
Import ListNotations.
Open Scope Z_scope.

(** * C45: string output streams *)

(** Whatever a program does with any number of string output streams, beginning
    with any strings in memory: no memory is overrun, the strings returned hold
    what was written since the last time, also at the end of the program, no
    two are the same object, and no other string changes.  Partial: lengths
    are taken not to overflow an int. *)
Theorem C45_output_partial : forall ops h ts,
  int_lengths ops -> texts [] ops = Some ts ->
  exists addrs h', run h [] ops = Ok (addrs, h') /\ map (contents h') addrs = map Some ts /\
    NoDup addrs /\ (forall a, In a addrs -> (length h <= a)%nat) /\
    forall a, (a < length h)%nat -> nth_error h' a = nth_error h a.
Proof.
  intros ops h ts B T.
  assert (U : forall a, unused [] a) by (intros a i s E; destruct i; discriminate).
  assert (I0 : inv h [] []).
  { split; [reflexivity|]. split; intros; destruct k || destruct i; discriminate. }
  destruct (run_ok ops h [] [] ts I0 B T) as (addrs & h' & R & M & N & L & K & In_).
  exists addrs, h'. split; [exact R|]. split; [exact M|]. split; [exact N|]. split.
  - intros a Ia. destruct (In_ a Ia) as [|X]; [assumption|]. exfalso. exact (X (U a)).
  - intros a La. apply K; auto.
Qed.
Print Assumptions C45_output_partial.

Definition two_streams : list op :=
  [Make; Make; Write 0 (repeat 97 31) None; Putc 0 98; Write 1 [99; 100; 101] (Some 2); Get 0;
   Get 0; Putc 0 102; Putc 1 359; Get 1; Get 0].
Example C45_output_case : int_lengths two_streams /\
  texts [] two_streams = Some [repeat 97 31 ++ [98]; []; [99; 100; 103]; [102]].
Proof.
  split; [|reflexivity]. intros k s n H. unfold two_streams in H. cbn [In] in H.
  repeat (destruct H as [H|H]; [try discriminate; injection H as <- <- <-; lia|]). destruct H.
Qed.

(** One write adds to what the stream has collected; it returns the
    number of characters *)
Theorem C45_write_partial : forall h st t s n u, collected h st t -> part s n = Some u ->
  (forall k, n = Some k -> - 2 ^ 31 <= k < 2 ^ 31) ->
  exists h' st', write_string h st s n = Ok (Z.of_nat (length u), h', st') /\ collected h' st' (t ++ u).
Proof.
  intros h st t s n u C P B. destruct (write_ok h st t s n u C P B) as (h' & st' & E & C' & _). eauto.
Qed.
Print Assumptions C45_write_partial.
Example C45_write_case : collected [mkstr [97] 33] (mko 0 32) [97] /\ part [98; 99] (Some 1) = Some [98].
Proof. split; [|reflexivity]. exists (mkstr [97] 33). cbn. repeat split; auto. right. lia. Qed.

(** LENGTH that no part of the string has is an error, and nothing is written *)
Theorem C45_write_length : forall h st s n, - 2 ^ 31 <= n < 2 ^ 31 ->
  part s (Some n) = None -> write_string h st s (Some n) = Err.
Proof.
  intros h st s n B P. cbn [part] in P. unfold write_string.
  replace (to_int n) with n by (unfold to_int; rewrite Z.mod_small; lia).
  destruct ((0 <=? n) && (n <=? Z.of_nat (length s))) eqn:G; [discriminate|].
  destruct ((n <? 0) || (Z.of_nat (length s) <? n)) eqn:G2; [reflexivity|lia].
Qed.
Print Assumptions C45_write_length.
Example C45_write_length_case : part [97; 98] (Some 3) = None /\ part [97; 98] (Some (-1)) = None.
Proof. split; reflexivity. Qed.

(** But a LENGTH far too large is taken modulo 2^32: the call succeeds *)
Theorem C45_write_length_refuted : exists n, part [97; 98] (Some n) = None /\
  forall h, let '(h1, st) := make_ostream h in
  exists h2 st2, write_string h1 st [97; 98] (Some n) = Ok (1, h2, st2) /\ collected h2 st2 [97].
Proof.
  exists (2 ^ 32 + 1). split; [reflexivity|]. intros h. assert (M := make_ok h).
  destruct (make_ostream h) as (h1 & st). destruct M as (C & _).
  destruct (write_ok h1 st [] [97; 98] (Some 1) [97] C eq_refl) as (h2 & st2 & E & C2 & _).
  { intros k X. injection X as <-. lia. }
  exists h2, st2. split; [exact E|exact C2].
Qed.
Print Assumptions C45_write_length_refuted.

(** A pair of a string and an integer, which output-stream-p says is a stream,
    need not be safe to write to *)
Theorem C45_forged_refuted : exists h st, contents h (sbuf st) = Some [] /\ putc h st 97 = Wild /\ puts h st [97; 98] = Wild.
Proof. exists [mkstr [] 1], (mko 0 1000). split; [|split]; reflexivity. Qed.
Print Assumptions C45_forged_refuted.

(** * C46: input *)
Theorem C46_read_char : forall st, ready st ->
  match remaining st with
  | [] => read_char st = (None, st) /\ peek_char st = (None, st)
  | c :: r => peek_char st = (Some c, st) /\
      exists st', read_char st = (Some c, st') /\ after st 1 st' /\ remaining st' = r
  end.
Proof.
  intros st R. destruct (remaining st) as [|c r] eqn:E.
  - unfold peek_char, read_char. rewrite (getc_none st R E). auto.
  - destruct (getc_some st c r R E) as (st' & G & A & _ & E'). unfold peek_char, read_char. rewrite G.
    split; [|eauto]. f_equal. destruct A as (A1 & A2). destruct st as [i s], st' as [i' s']. unfold ungetc.
    cbn [ipos istr] in *. subst s'. f_equal. lia.
Qed.
Print Assumptions C46_read_char.
Example C46_read_char_case : ready (mki 1 [97; 98]) /\ remaining (mki 1 [97; 98]) = [98].
Proof. split; [cbv; split; discriminate|reflexivity]. Qed.

Theorem C46_read_chars : forall st n, ready st -> 0 <= n ->
  let t := firstn (Z.to_nat n) (remaining st) in
  exists st', read_chars st n = (or_nil t, st') /\ after st (length t) st'.
Proof.
  intros st n R Hn t. unfold read_chars. destruct (chars_ok (Z.to_nat n) st [] R) as (st' & E & A).
  rewrite E. exists st'. cbn [app]. split; [reflexivity|exact A].
Qed.
Print Assumptions C46_read_chars.
Example C46_read_chars_case : ready (mki 1 [97; 98; 99]) /\ firstn (Z.to_nat 5) (remaining (mki 1 [97; 98; 99])) = [98; 99].
Proof. split; [cbv; split; discriminate|reflexivity]. Qed.

(** A line of any length, whatever its place; nil when nothing is left *)
Theorem C46_read_line : forall st x r, ready st -> first_line (remaining st) x r ->
  exists st', (forall fuel, (length x < fuel)%nat -> read_line string_reader fuel st = Ok (or_nil x, st')) /\
    after st (length x) st' /\ remaining st' = r.
Proof.
  intros st x r R F.
  destruct (string_line (S (length x)) st x r R F ltac:(lia)) as (st' & _ & A & _ & Q).
  exists st'. split; [|auto]. intros fuel L.
  destruct (string_line fuel st x r R F L) as (st2 & E & A2 & _). rewrite E.
  rewrite (after_eq st _ st2 st' A2 A). reflexivity.
Qed.
Print Assumptions C46_read_line.
Lemma no_newline : forall n, ~ In 10 (repeat 97 n).
Proof. intros n H. apply repeat_spec in H. discriminate. Qed.
Example C46_read_line_case : exists st r, ready st /\ first_line (remaining st) (repeat 97 (Z.to_nat 1200) ++ [10]) r /\ r = [98].
Proof.
  exists (mki 0 (repeat 97 (Z.to_nat 1200) ++ 10 :: [98])), [98].
  split; [unfold ready; cbn [ipos istr]; lia|]. split; [|reflexivity].
  apply (ended (repeat 97 (Z.to_nat 1200)) [98]). apply no_newline.
Qed.

(** From a file, if there is no NUL in the line *)
Theorem C46_file_line_partial : forall l x r, first_line l x r -> ~ In 0 x ->
  forall fuel, (length x < fuel)%nat -> read_line file_reader fuel l = Ok (or_nil x, r).
Proof. intros l x r F N fuel L. apply file_line; assumption. Qed.
Print Assumptions C46_file_line_partial.
Example C46_file_line_case : first_line (repeat 97 (Z.to_nat 700) ++ 10 :: [0]) (repeat 97 (Z.to_nat 700) ++ [10]) [0] /\
  ~ In 0 (repeat 97 (Z.to_nat 700) ++ [10]).
Proof.
  split; [constructor; apply no_newline|]. intro H. apply in_app_or in H.
  destruct H as [H|[H|[]]]; [apply repeat_spec in H|]; discriminate.
Qed.
(** Otherwise the line is cut there and the rest of it is lost; a line that
    starts with NUL reads as the end of the file *)
Theorem C46_file_line_refuted : exists l x r, first_line l x r /\ x <> [] /\
  forall fuel, (0 < fuel)%nat -> read_line file_reader fuel l = Ok (None, r) /\ r <> [].
Proof.
  exists [0; 98; 10; 99], [0; 98; 10], [99]. split; [apply (ended [0; 98] [99]); cbn; lia|].
  split; [discriminate|]. intros [|fuel] L; [lia|]. split; [reflexivity|discriminate].
Qed.
Print Assumptions C46_file_line_refuted.

(** copy-stream *)
Theorem C46_copy_partial : forall src h dst t, ready src -> collected h dst t ->
  forall fuel, (length (remaining src) < fuel)%nat ->
  exists src' h' dst',
    copy_stream fuel src h dst = Ok (Z.of_nat (length (remaining src)), src', h', dst') /\
    remaining src' = [] /\ collected h' dst' (t ++ remaining src).
Proof.
  intros src h dst t R C fuel L.
  destruct (copy_ok fuel src h dst t [] 0 R C L) as (src' & h' & dst' & E & A & C' & _).
  exists src', h', dst'. split; [exact E|]. split; [|exact C'].
  rewrite (after_remaining src _ src' R A). apply skipn_all.
Qed.
Print Assumptions C46_copy_partial.
Example C46_copy_case : ready (mki 0 (repeat 97 (Z.to_nat 9000))) /\ collected [mkstr [] 1] (mko 0 0) [].
Proof.
  split; [unfold ready; cbn [ipos istr]; lia|]. exists (mkstr [] 1). cbn. auto.
Qed.

(** * C47: format *)
Theorem C47_format_partial : forall prin1_string hooks args h ts f o,
  template ts f -> writes prin1_string hooks args 0 ts o ->
  format_nil prin1_string hooks args h f = Ok o.
Proof. intros. eapply format_nil_ok; eassumption. Qed.
Print Assumptions C47_format_partial.
Theorem C47_format_stream_partial : forall prin1_string hooks args h st t ts f o,
  template ts f -> writes prin1_string hooks args 0 ts o -> collected h st t ->
  exists h' st', format_to prin1_string hooks args h st f = Ok (h', st') /\ collected h' st' (t ++ o).
Proof.
  intros p hooks args h st t ts f o T W C. destruct (format_to_ok p hooks args h st t ts f o C T W) as (h' & st' & E & C' & _).
  eauto.
Qed.
Print Assumptions C47_format_stream_partial.

(** "%2$-6s|%1$+05d%%" of 42 and "dog" *)
Definition some_tokens : list tok :=
  [Sub (Some 2) [Left] 6 Princ; Text [124]; Sub (Some 1) [Plus; Zeros] 5 (Radix 100 10); Percent].
Definition some_args : list value := [Num (Fix 42); Str [100; 111; 103]].
Lemma num10 : forall d, 0 <= d < 10 -> numeral 10 d [48 + d].
Proof.
  intros d H. replace (48 + d) with (digit_of d); [constructor; exact H|].
  unfold digit_of. destruct (Z.ltb_spec d 10); lia.
Qed.
Lemma num42 : numeral 10 42 [52; 50].
Proof. change (numeral 10 (4 * 10 + 2) ([52] ++ [digit_of 2])). apply more; [lia|apply (num10 4); lia|lia]. Qed.
Example C47_format_case : forall p hooks,
  template some_tokens [37; 50; 36; 45; 54; 115; 124; 37; 49; 36; 43; 48; 53; 100; 37; 37] /\
  writes p hooks some_args 0 some_tokens [100; 111; 103; 32; 32; 32; 124; 48; 48; 43; 52; 50; 37].
Proof.
  intros p hooks. split.
  - apply (t_sub (Some 2) [50; 36] [Left] 6 [54] Princ [Text [124]; Sub (Some 1) [Plus; Zeros] 5 (Radix 100 10); Percent]
      [124; 37; 49; 36; 43; 48; 53; 100; 37; 37]).
    + split; [lia|]. exists [50]. split; [apply (num10 2); lia|reflexivity].
    + right. split; [lia|]. apply (num10 6). lia.
    + exact I.
    + apply (t_text [124] _ [37; 49; 36; 43; 48; 53; 100; 37; 37]); [cbn; lia|cbn; lia|].
      apply (t_sub (Some 1) [49; 36] [Plus; Zeros] 5 [53] (Radix 100 10) [Percent] [37; 37]).
      * split; [lia|]. exists [49]. split; [apply (num10 1); lia|reflexivity].
      * right. split; [lia|]. apply (num10 5). lia.
      * left. reflexivity.
      * apply t_percent. apply t_end.
  - apply (w_sub p hooks some_args 0 (Some 2) [Left] 6 Princ _ [100; 111; 103; 32; 32; 32] [124; 48; 48; 43; 52; 50; 37]).
    + apply (s_string p hooks [Left] 6 [100; 111; 103]); [split; reflexivity|split; [discriminate|cbn; lia]].
    + apply (w_text p hooks some_args _ [124] _ [48; 48; 43; 52; 50; 37]).
      apply (w_sub p hooks some_args _ (Some 1) [Plus; Zeros] 5 (Radix 100 10) _ [48; 48; 43; 52; 50] [37]).
      * apply (s_number p hooks [Plus; Zeros] 5 100 10 (Num (Fix 42)) 42 [52; 50]).
        -- left. split; [reflexivity|lia].
        -- constructor; [lia|exact num42].
        -- left. reflexivity.
        -- reflexivity.
        -- split; [discriminate|cbn; lia].
      * apply w_percent. apply w_end.
Qed.

(** Every integer has a numeral, so the substitutions above are not empty *)
Theorem C47_numerals : forall r z, 2 <= r -> exists t, signed r z t.
Proof.
  intros r z Hr. destruct (Z.lt_ge_cases z 0) as [L|L].
  - destruct (numeral_total r (- z) Hr ltac:(lia)) as (t & T). exists (45 :: t). constructor; assumption.
  - destruct (numeral_total r z Hr L) as (t & T). exists t. constructor; assumption.
Qed.
Print Assumptions C47_numerals.
Example C47_numerals_case : signed 10 (-42) [45; 52; 50].
Proof. apply negative; [lia|exact num42]. Qed.

(** Where the code departs from the manual.  Here princ quotes nothing and
    there are no hooks. *)
Notation fmt args f := (format_nil (fun s => s) (fun _ => None) args [] f).

(** %x of a negative fixnum: the bits of a 64-bit word *)
Theorem C47_negative_hex_refuted : exists z t, signed 16 z t /\
  fmt [Num (Fix z)] [37; 120] = Ok (repeat 102 16) /\ t <> repeat 102 16.
Proof.
  exists (-1), [45; 49]. split; [apply negative; [lia|]; apply (one 16 1); lia|].
  split; [vm_compute; reflexivity|discriminate].
Qed.
Print Assumptions C47_negative_hex_refuted.
(** %300s: no more than 256 characters of padding *)
Theorem C47_padding_refuted : exists w f o, template [Sub None [] w Princ] f /\
  fmt [Str [97]] f = Ok o /\ Z.of_nat (length o) < w.
Proof.
  exists 300, [37; 51; 48; 48; 115], (repeat 32 256 ++ [97]). split; [|split; [vm_compute; reflexivity|vm_compute; reflexivity]].
  apply (t_sub None [] [] 300 [51; 48; 48] Princ [] []); [reflexivity| |exact I|constructor].
  right. split; [lia|]. change (numeral 10 ((3 * 10 + 0) * 10 + 0) (([51] ++ [digit_of 0]) ++ [digit_of 0])).
  repeat (apply more; [lia| |lia]). apply (num10 3). lia.
Qed.
Print Assumptions C47_padding_refuted.
(** %^s without a field width writes nothing *)
Theorem C47_truncate_refuted : exists s, s <> [] /\ template [Sub None [Trunc] 0 Princ] [37; 94; 115] /\
  fmt [Str s] [37; 94; 115] = Ok [].
Proof.
  exists [97; 98]. split; [discriminate|]. split; [|vm_compute; reflexivity].
  apply (t_sub None [] [Trunc] 0 [] Princ [] []); [reflexivity|left; auto|exact I|constructor].
Qed.
Print Assumptions C47_truncate_refuted.
(** %+s writes a plus sign before a string; "%+ d" a space and no plus *)
Theorem C47_sign_refuted : template [Sub None [Plus] 0 Princ] [37; 43; 115] /\
  template [Sub None [Plus; Space] 0 (Radix 100 10)] [37; 43; 32; 100] /\
  fmt [Str [97]] [37; 43; 115] = Ok [43; 97] /\ fmt [Num (Fix 5)] [37; 43; 32; 100] = Ok [32; 53].
Proof.
  split; [|split; [|split; vm_compute; reflexivity]].
  - apply (t_sub None [] [Plus] 0 [] Princ [] []); [reflexivity|left; auto|exact I|constructor].
  - apply (t_sub None [] [Plus; Space] 0 [] (Radix 100 10) [] []); [reflexivity|left; auto|left; reflexivity|constructor].
Qed.
Print Assumptions C47_sign_refuted.
(** The manual's flag for left justification is an error *)
Theorem C47_underscore_refuted : fmt [Str [97]] [37; 95; 53; 115] = Err.
Proof. vm_compute. reflexivity. Qed.
Print Assumptions C47_underscore_refuted.
(** NUL ends the template *)
Theorem C47_nul_refuted : exists l, ~ In 37 l /\ exists o, fmt [] l = Ok o /\ o <> l.
Proof. exists [97; 0; 98]. split; [cbn; lia|]. exists [97]. split; [vm_compute; reflexivity|discriminate]. Qed.
Print Assumptions C47_nul_refuted.
(** %c of a value that is no fixnum: the bits of a pointer are written *)
Theorem C47_char_refuted : exists v, fmt [v] [37; 99] = Wild.
Proof. exists (Str [97]). vm_compute. reflexivity. Qed.
Print Assumptions C47_char_refuted.
