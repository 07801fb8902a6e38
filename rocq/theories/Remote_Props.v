(** C92: files on other machines: what is asked for and what is answered arrive as they
    were sent, however the pipe cuts them. *)

From Coq Require Import ZArith List Bool Lia.
From Verif Require Import Reader_Model Reader_Spec Reader_Proofs Remote_Model Remote_Spec Remote_Proofs.
Import ListNotations.
Open Scope Z_scope.

(** Numbers below 2^32 are eight bytes, which say the same on the other side, in both
    directions. *)
Theorem C92_numbers : forall n rest, 0 <= n < 2 ^ 32 ->
  (exists t, send_long n = Some t /\ length t = 8%nat /\ read_length (t ++ rest) = Len n) /\
  length (client_int n) = 8%nat /\ read_long (client_int n ++ rest) = Some (n, rest).
Proof.
  intros n rest H. split; [|split].
  - exists (hexn 8 n). rewrite send_long_small by assumption.
    split; [reflexivity|]. split; [apply hexn_length|apply read_length_hexn, H].
  - rewrite client_int_small by assumption. apply hexn_length.
  - apply read_long_client, H.
Qed.
Print Assumptions C92_numbers.

(** Greater ones are not: nine digits are cut to eight, so that a sixteenth is understood;
    from ten digits on the buffer is overrun. *)
Theorem C92_big_numbers : forall n,
  (2 ^ 32 <= n < 2 ^ 36 -> exists t, send_long n = Some t /\ forall rest, read_length (t ++ rest) = Len (n / 16)) /\
  (2 ^ 36 <= n < 2 ^ 63 -> send_long n = None).
Proof.
  intros n. split; intros H.
  - exists (hexn 8 (n / 16)). rewrite send_long_nine by assumption. split; [reflexivity|].
    intros rest. apply read_length_hexn. rewrite pow32, pow36 in *.
    split; [apply Z.div_pos; lia|apply Z.div_lt_upper_bound; lia].
  - apply send_long_over, H.
Qed.
Print Assumptions C92_big_numbers.
Theorem C92_big_numbers_refuted : exists n t, send_long n = Some t /\ read_length t <> Len n.
Proof. exists (2 ^ 32), (hexn 8 (2 ^ 28)). vm_compute. split; [reflexivity|discriminate]. Qed.
Print Assumptions C92_big_numbers_refuted.

(** A command is read as it was written: its letter and its arguments, whatever bytes
    other than zero they hold, and nothing of what comes after it. *)
Theorem C92_commands : forall type args rest, 0 <= type < 128 -> (length args < 64)%nat ->
  Forall fits args -> Forall no_zero args ->
  read_command (client_command type args ++ rest) = Some (type, args, rest).
Proof. exact command_read. Qed.
Print Assumptions C92_commands.
Example case_command : (* mv of a name with a quote and a backslash, to an empty one *)
  read_command (client_command 77 [[97; 34; 92]; []] ++ [71; 1]) = Some (77, [[97; 34; 92]; []], [71; 1]).
Proof. vm_compute. reflexivity. Qed.

(** Getting a file of less than 2^32 bytes, at every moment: what has been written is the
    beginning of the file, as much as has arrived; success is said when all of it has
    been written and not before; and there is no error. *)
Theorem C92_get : forall bufsiz file p, (0 < bufsiz)%nat -> fits file ->
  exists reply, do_get bufsiz file = Some reply /\
  forall pieces later, arrives pieces later reply ->
    g_file (get_pieces p pieces) = firstn (length (concat pieces) - 9) file /\
    st (g_s (get_pieces p pieces)) = match later with [] => Success | _ => Busy end /\
    (later = [] -> g_file (get_pieces p pieces) = file).
Proof.
  intros bufsiz file p B F. unfold fits in F.
  exists (1 :: hexn 8 (Z.of_nat (length file)) ++ file). split.
  - unfold do_get. rewrite send_long_small by lia. rewrite get_parts_all by (auto; lia). reflexivity.
  - intros pieces later (N & C).
    destruct pieces as [|x pieces].
    + cbn [concat app] in C. subst later. cbn. split; [reflexivity|]. split; [reflexivity|discriminate].
    + assert (S : says (hexn 8 (Z.of_nat (length file))) (Z.of_nat (length file))) by (apply says_hexn; lia).
      rewrite (got_pieces p _ _ file (x :: pieces) later S N ltac:(discriminate) C).
      set (P := concat (x :: pieces)) in *. clearbody P.
      pose proof (f_equal (@length Z) C) as Len. rewrite app_length in Len. cbn [length] in Len.
      rewrite app_length, hexn_length in Len.
      unfold got. destruct (Nat.ltb (length P) 9) eqn:Q.
      * apply Nat.ltb_lt in Q. replace (length P - 9)%nat with 0%nat by lia. cbn [g_file g_s st firstn].
        split; [reflexivity|]. destruct later as [|c later]; [cbn [length] in Len; lia|]. split; [reflexivity|discriminate].
      * apply Nat.ltb_ge in Q. cbn [g_file g_s st].
        assert (P9 : skipn 9 P ++ later = file).
        { pose proof (f_equal (skipn 9) C) as K. rewrite skipn_app in K.
          replace (9 - length P)%nat with 0%nat in K by lia. change (skipn 0 later) with later in K.
          change (skipn 9 (1 :: hexn 8 (Z.of_nat (length file)) ++ file)) with (skipn 8 (hexn 8 (Z.of_nat (length file)) ++ file)) in K.
          rewrite skipn_app_exact in K by (rewrite hexn_length; reflexivity). exact K. }
        rewrite Nat2Z.id. rewrite (firstn_all2 (skipn 9 P)) by (rewrite skipn_length; lia).
        split; [|split].
        -- rewrite <- P9. symmetry. apply firstn_app_exact. rewrite skipn_length. reflexivity.
        -- destruct later as [|c later]; cbn [length] in Len.
           ++ replace (Z.of_nat (length file) <=? Z.of_nat (length P - 9)) with true by lia. reflexivity.
           ++ replace (Z.of_nat (length file) <=? Z.of_nat (length P - 9)) with false by lia. reflexivity.
        -- intros ->. rewrite app_nil_r in P9. exact P9.
Qed.
Print Assumptions C92_get.
Example case_get : exists pieces, do_get 2 [7; 1; 127] = Some (concat pieces) /\ length pieces = 4%nat /\
  get_pieces (Some 1) pieces = mkg (mks Success [] (Some 1) 0) (Some 0) [7; 1; 127].
Proof. exists [[1; 48; 48]; [48; 48; 48; 48; 48; 51; 7]; [1]; [127]]. vm_compute. auto. Qed.

(** Of a greater one a sixteenth is written, and success is said. *)
Lemma big_get : forall file p, 2 ^ 32 <= Z.of_nat (length file) < 2 ^ 36 ->
  exists reply, do_get 8192 file = Some reply /\
    g_file (get_pieces p [reply]) = firstn (Z.to_nat (Z.of_nat (length file) / 16)) file /\
    st (g_s (get_pieces p [reply])) = Success.
Proof.
  intros file p H. set (n := Z.of_nat (length file)) in *.
  assert (K : 0 <= n / 16 < 2 ^ 32).
  { rewrite pow32, pow36 in *. split; [apply Z.div_pos; lia|apply Z.div_lt_upper_bound; lia]. }
  exists (1 :: hexn 8 (n / 16) ++ file). split.
  - unfold do_get. fold n. rewrite send_long_nine by assumption. 
    rewrite get_parts_all by (try apply Nat.lt_succ_diag_r; apply Nat.ltb_lt; reflexivity). reflexivity.
  - rewrite (got_pieces p (n / 16) (hexn 8 (n / 16)) file [1 :: hexn 8 (n / 16) ++ file] []);
      [|apply says_hexn, K|repeat constructor; discriminate|discriminate|cbn [concat]; rewrite !app_nil_r; reflexivity].
    unfold got. cbn [concat]. rewrite app_nil_r. cbn [length]. rewrite app_length, hexn_length.
    replace (Nat.ltb (S (8 + length file)) 9) with false by (symmetry; apply Nat.ltb_ge; lia).
    cbn [g_file g_s st]. change (skipn 9 (1 :: hexn 8 (n / 16) ++ file)) with (skipn 8 (hexn 8 (n / 16) ++ file)).
    rewrite skipn_app_exact by (rewrite hexn_length; reflexivity). split; [reflexivity|].
    replace (S (8 + length file) - 9)%nat with (length file) by lia. fold n.
    replace (n / 16 <=? n) with true; [reflexivity|]. symmetry. apply Z.leb_le.
    rewrite pow32 in *. apply Z.div_le_upper_bound; lia.
Qed.
Theorem C92_big_files_refuted : exists file reply, do_get 8192 file = Some reply /\
  st (g_s (get_pieces (Some 1) [reply])) = Success /\ g_file (get_pieces (Some 1) [reply]) <> file.
Proof.
  assert (L : Z.of_nat (length (repeat 0 (Z.to_nat (2 ^ 32)))) = 2 ^ 32).
  { rewrite repeat_length. apply Z2Nat.id. apply Z.leb_le. reflexivity. }
  remember (repeat 0 (Z.to_nat (2 ^ 32))) as file eqn:X. clear X.
  destruct (big_get file (Some 1)) as (reply & D & G & S).
  { rewrite L. split; [apply Z.leb_le; reflexivity|apply Z.ltb_lt; reflexivity]. }
  exists file, reply. split; [exact D|]. split; [exact S|]. rewrite G. intros E.
  apply (f_equal (fun l => Z.of_nat (length l))) in E. rewrite firstn_length, L in E.
  rewrite Nat2Z.inj_min, L in E. rewrite Z2Nat.id in E by (apply Z.leb_le; reflexivity).
  revert E. apply Z.eqb_neq. reflexivity.
Qed.
Print Assumptions C92_big_files_refuted.

(** An answer that says why a file could not be got: whole it is understood; in any two
    pieces it is an error. *)
Theorem C92_get_failure : forall msg p, fits msg -> exists reply, send_errno msg = Some reply /\
  st (g_s (get_pieces p [reply])) = Failure msg /\
  forall x y, x <> [] -> y <> [] -> x ++ y = reply -> st (g_s (get_pieces p [x])) = Wrong.
Proof.
  intros msg p F. unfold fits in F. exists (127 :: hexn 8 (Z.of_nat (length msg)) ++ msg).
  assert (S : says (hexn 8 (Z.of_nat (length msg))) (Z.of_nat (length msg))) by (apply says_hexn; lia).
  split; [unfold send_errno, send_string; rewrite send_long_small by lia; reflexivity|].
  unfold get_pieces. cbn [fold_left]. unfold get_piece, incoming, commanded. cbn [g_s pending app g_len].
  replace (127 =? 1) with false by reflexivity. replace (127 =? 127) with true by reflexivity.
  split.
  - rewrite (read_msg_prefix _ msg _ [] S) by apply app_nil_r. reflexivity.
  - intros x y Nx Ny E. destruct x as [|c x]; [congruence|]. cbn [app] in E.
    assert (c = 127 /\ x ++ y = hexn 8 (Z.of_nat (length msg)) ++ msg) as (-> & E') by (split; congruence).
    replace (127 =? 1) with false by reflexivity. replace (127 =? 127) with true by reflexivity.
    rewrite (read_msg_prefix _ msg x y S E'). destruct y; [congruence|reflexivity].
Qed.
Print Assumptions C92_get_failure.
Theorem C92_get_failure_refuted : exists msg pieces, send_errno msg = Some (concat pieces) /\
  Forall (fun x => x <> []) pieces /\ st (g_s (get_pieces (Some 1) pieces)) <> Failure msg.
Proof.
  exists [110; 111], [[127; 48; 48; 48; 48; 48; 48; 48; 50; 110]; [111]]. split; [reflexivity|].
  split; [repeat constructor; discriminate|]. vm_compute. discriminate.
Qed.
Print Assumptions C92_get_failure_refuted.

(** Symbolic links: in whatever pieces, the link or the message, when all has arrived
    and not before. *)
Theorem C92_links : forall s p, fits s -> exists t, send_string s = Some t /\
  forall pieces later,
    (arrives pieces later (send_success ++ t) ->
       (st (fst (link_pieces p pieces)), snd (link_pieces p pieces)) = match later with [] => (Success, Some s) | _ => (Busy, None) end) /\
    (send_errno s = Some (127 :: t) /\ (arrives pieces later (127 :: t) ->
       (st (fst (link_pieces p pieces)), snd (link_pieces p pieces)) = match later with [] => (Failure s, None) | _ => (Busy, None) end)).
Proof.
  intros s p F. unfold fits in F. exists (hexn 8 (Z.of_nat (length s)) ++ s).
  assert (S : says (hexn 8 (Z.of_nat (length s))) (Z.of_nat (length s))) by (apply says_hexn; lia).
  unfold send_errno, send_string. rewrite send_long_small by lia. split; [reflexivity|].
  intros pieces later. split; [|split; [reflexivity|]]; intros (N & E).
  - rewrite (link_run p 1 _ s pieces later S (or_introl eq_refl) N E). destruct later; reflexivity.
  - rewrite (link_run p 127 _ s pieces later S (or_intror eq_refl) N E). destruct later; reflexivity.
Qed.
Print Assumptions C92_links.
Example case_link : link_pieces (Some 1) [[1; 48]; [48; 48; 48; 48; 48; 48]; [50; 47]; [120]] = (mks Success [] (Some 1) 0, Some [47; 120]).
Proof. vm_compute. reflexivity. Qed.

(** Commands that are only answered with success or a message, in a session whose
    protocol is known: likewise. (Messages without the byte with which a signature
    begins.) *)
Theorem C92_simple : forall msg v, fits msg -> ~ In 2 msg ->
  st (after_pieces (Some v) [send_success]) = Success /\
  exists reply, send_errno msg = Some reply /\ forall pieces later, arrives pieces later reply ->
    st (after_pieces (Some v) pieces) = match later with [] => Failure msg | _ => Busy end.
Proof.
  intros msg v F M. unfold fits in F. split; [reflexivity|].
  exists (127 :: hexn 8 (Z.of_nat (length msg)) ++ msg).
  assert (S : says (hexn 8 (Z.of_nat (length msg))) (Z.of_nat (length msg))) by (apply says_hexn; lia).
  unfold send_errno, send_string. rewrite send_long_small by lia. split; [reflexivity|].
  intros pieces later (N & E).
  rewrite (filter_run v _ msg pieces later S (hexn_no_two _ _) M N E). destruct later; reflexivity.
Qed.
Print Assumptions C92_simple.

(** Directories: in whatever pieces and whatever bytes the records hold, all of them are
    found; before the end those found are the first ones and the command is not over. *)
Theorem C92_directories : forall entries p, Forall fits entries ->
  exists reply, send_entries entries = Some reply /\ forall pieces later, arrives pieces later reply ->
    (later = [] -> dir_pieces p pieces = (mks Success [] p 0, rev entries)) /\
    (later <> [] -> st (fst (dir_pieces p pieces)) = Busy /\ exists others, entries = rev (snd (dir_pieces p pieces)) ++ others).
Proof.
  intros entries p F. exists (listing entries). split; [apply send_entries_listing, F|].
  intros pieces later (N & E). destruct (dir_run p entries F pieces later N E) as (A & B).
  split; [exact B|]. intros L. destruct (A L) as (es1 & es2 & lf & -> & _ & ->).
  cbn [fst snd st]. split; [reflexivity|]. exists es2. rewrite rev_involutive. reflexivity.
Qed.
Print Assumptions C92_directories.
Example case_directory : (* a name holding the byte 2, cut behind it *)
  dir_pieces (Some 1) [[2; 48; 48; 48; 48; 48; 48; 48; 50; 2]; [97; 2; 48; 48; 48]; [48; 48; 48; 48; 49; 98; 1]]
  = (mks Success [] (Some 1) 0, [[98]; [2; 97]]).
Proof. vm_compute. reflexivity. Qed.
Theorem C92_directory_failure : forall msg p, fits msg -> ~ In 2 msg ->
  exists reply, send_errno msg = Some reply /\ forall pieces later, arrives pieces later reply ->
    st (fst (dir_pieces p pieces)) = match later with [] => Failure msg | _ => Busy end /\ snd (dir_pieces p pieces) = [].
Proof.
  intros msg p F M. unfold fits in F. exists (127 :: hexn 8 (Z.of_nat (length msg)) ++ msg).
  assert (S : says (hexn 8 (Z.of_nat (length msg))) (Z.of_nat (length msg))) by (apply says_hexn; lia).
  unfold send_errno, send_string. rewrite send_long_small by lia. split; [reflexivity|].
  intros pieces later (N & E).
  rewrite (dir_fail_run p _ msg pieces later S (hexn_no_two _ _) M N E). destruct later; split; reflexivity.
Qed.
Print Assumptions C92_directory_failure.

(** Names in those records are read back by the Lisp reader. *)
Theorem C92_names : forall name rest fuel, all_bytes name -> no_zero name -> (1 <= fuel)%nat ->
  Fread fuel (quote_string name ++ rest) = ROk (SStr name) rest.
Proof.
  intros name rest fuel B N L. rewrite quote_is_print by assumption.
  apply (fread_string EscNone name rest fuel B L).
Qed.
Print Assumptions C92_names.
Example case_name : Fread 1 (quote_string [97; 34; 92; 10; 200] ++ [32]) = ROk (SStr [97; 34; 92; 10; 200]) [32].
Proof. vm_compute. reflexivity. Qed.

(** Putting a file: it is written whole, in whatever pieces it arrives, and what comes
    behind it is left. *)
Theorem C92_put : forall bufsiz content rest pipe, (0 < bufsiz)%nat ->
  Forall (fun p => p <> []) pipe -> concat pipe = content ++ rest ->
  exists fuel pipe', put_loop fuel bufsiz (length content) [] pipe = Some (content, pipe') /\ concat pipe' = rest.
Proof.
  intros bufsiz content rest pipe B N C.
  destruct (put_all bufsiz B (S (length content)) content [] pipe rest N C ltac:(lia)) as (pipe' & P & R & _).
  exists (S (length content)), pipe'. auto.
Qed.
Print Assumptions C92_put.
Example case_put : put_loop 10 2 5 [] [[1]; [2; 3; 4]; [5; 6]; [7]] = Some ([1; 2; 3; 4; 5], [[6]; [7]]).
Proof. vm_compute. reflexivity. Qed.

(** When the client goes before all of it has arrived, the server never stops. *)
Theorem C92_put_endless : forall bufsiz todo pipe, (length (concat pipe) < todo)%nat ->
  forall fuel, put_loop fuel bufsiz todo [] pipe = None.
Proof. intros bufsiz todo pipe H fuel. apply put_never, H. Qed.
Print Assumptions C92_put_endless.
Theorem C92_put_stops_refuted : exists todo pipe, forall fuel, put_loop fuel 8192 todo [] pipe = None.
Proof. exists 2%nat, [[1]]. intros fuel. apply put_never. cbn. lia. Qed.
Print Assumptions C92_put_stops_refuted.

(** Connecting: the signature is understood whole, and cut behind its end. Cut anywhere
    within, both parts are thrown away, and the session waits until its time is up. *)
Theorem C92_connect :
  after_pieces None [signature] = mks Success [] (Some 1) 0 /\
  forall k, (0 < k < length signature)%nat ->
  after_pieces None [firstn k signature; skipn k signature] =
  if Nat.ltb k (length sig_text + 2) then commanded None else mks Success [] (Some 1) 0.
Proof.
  split; [vm_compute; reflexivity|].
  intros k H. change (length signature) with 25%nat in H. destruct k as [|k]; [lia|].
  do 24 (destruct k as [|k]; [vm_compute; reflexivity|]). lia.
Qed.
Print Assumptions C92_connect.
Theorem C92_connect_refuted : exists pieces, arrives pieces [] signature /\ st (after_pieces None pieces) = Busy.
Proof.
  exists [firstn 5 signature; skipn 5 signature]. split; [|vm_compute; reflexivity].
  split; [repeat constructor; discriminate|reflexivity].
Qed.
Print Assumptions C92_connect_refuted.
