(** C90: messages of remote procedure calls arrive one by one, whole, in order, and as
    soon as they are complete, however the text is cut into pieces. *)

From Coq Require Import ZArith List Bool Lia ZifyBool.
From Verif Require Import Numbers_Model Numbers_Spec Reader_Model Reader_Spec Rpc_Model Rpc_Spec Rpc_Proofs.
Import ListNotations.
Open Scope Z_scope.

(** All pieces together are the messages: exactly these are dispatched, in order,
    and nothing is left, however many pieces arrive while a message is worked on. *)
Theorem C90_whole_messages : forall m during ms pieces fuel,
  Forall message ms -> concat pieces = concat (map (send m) ms) ->
  (length (concat pieces) + length pieces <= fuel)%nat ->
  connection during fuel pieces = Done (mkconn [] [] (rev ms)).
Proof.
  intros m during ms pieces fuel F E L.
  destruct (connection_served m during ms pieces [] fuel F ltac:(rewrite app_nil_r; exact E) L)
    as (dn & ms' & p & EM & C & T & N).
  rewrite app_nil_r in T. rewrite C. destruct ms' as [|v r].
  - cbn [map concat] in T. subst p. rewrite app_nil_r in EM. subst dn. reflexivity.
  - exfalso. destruct (N v r eq_refl) as (x & NX & Ex). subst p. cbn [map concat] in Ex.
    apply (f_equal (@length Z)) in Ex. rewrite !app_length in Ex. destruct x; [congruence|cbn [length] in Ex; lia].
Qed.
Print Assumptions C90_whole_messages.

(** In the middle of the stream: what has been dispatched and what is kept together
    are what has arrived, and what is kept is less than one message. *)
Theorem C90_prompt : forall m during ms pieces later fuel,
  Forall message ms -> concat pieces ++ later = concat (map (send m) ms) ->
  (length (concat pieces) + length pieces <= fuel)%nat ->
  exists first rest kept, ms = first ++ rest /\
    connection during fuel pieces = Done (mkconn [] kept (rev first)) /\
    concat pieces = concat (map (send m) first) ++ kept /\
    (rest = [] -> kept = []) /\
    (forall v more, rest = v :: more -> exists missing, missing <> [] /\ send m v = kept ++ missing).
Proof.
  intros m during ms pieces later fuel F E L.
  destruct (connection_served m during ms pieces later fuel F E L) as (dn & ms' & p & -> & C & T & N).
  exists dn, ms', p. split; [reflexivity|]. split; [exact C|]. split; [|split; [|exact N]].
  - rewrite map_app, concat_app, <- T, app_assoc in E. apply app_inv_tail in E. exact E.
  - intros ->. cbn [map concat] in T. apply app_eq_nil in T. tauto.
Qed.
Print Assumptions C90_prompt.

(** How the text is cut and when the handler is called again makes no difference. *)
Theorem C90_pieces_do_not_matter : forall m during1 during2 ms pieces1 pieces2 later fuel1 fuel2,
  Forall message ms -> concat pieces1 ++ later = concat (map (send m) ms) ->
  concat pieces2 = concat pieces1 ->
  (length (concat pieces1) + length pieces1 <= fuel1)%nat ->
  (length (concat pieces2) + length pieces2 <= fuel2)%nat ->
  connection during1 fuel1 pieces1 = connection during2 fuel2 pieces2.
Proof.
  intros m d1 d2 ms p1 p2 later f1 f2 F E E2 L1 L2.
  destruct (connection_served m d1 ms p1 later f1 F E L1) as (a & ra & ka & EA & -> & TA & NA).
  rewrite <- E2 in E.
  destruct (connection_served m d2 ms p2 later f2 F E L2) as (b & rb & kb & EB & -> & TB & NB).
  assert (H : forall (a b ra rb : list sexp) ka kb, a ++ ra = b ++ rb ->
    ka ++ later = concat (map (send m) ra) -> kb ++ later = concat (map (send m) rb) ->
    (forall v r, ra = v :: r -> exists x, x <> [] /\ send m v = ka ++ x) ->
    (length a < length b)%nat -> False).
  { clear. intros a b ra rb ka kb E TA TB NA LT.
    assert (S : exists v c, b = a ++ v :: c /\ ra = v :: c ++ rb).
    { revert b E LT. induction a as [|x a IH]; intros b E LT.
      - destruct b as [|v c]; [cbn [length] in LT; lia|]. exists v, c. split; [reflexivity|exact E].
      - destruct b as [|y b]; [cbn [length] in LT; lia|]. cbn [app] in E. injection E as <- E.
        destruct (IH b E ltac:(cbn [length] in LT; lia)) as (v & c & -> & ->). exists v, c. split; reflexivity. }
    destruct S as (v & c & -> & ->). destruct (NA v _ eq_refl) as (x & NX & Ex).
    cbn [map concat] in TA. rewrite Ex, map_app, concat_app, <- TB, <- app_assoc in TA. apply app_inv_head in TA.
    apply (f_equal (@length Z)) in TA. rewrite !app_length in TA. destruct x; [congruence|cbn [length] in TA; lia]. }
  assert (LE : length a = length b).
  { destruct (Nat.lt_trichotomy (length a) (length b)) as [LT|[EQ|LT]]; [exfalso|exact EQ|exfalso].
    - apply (H a b ra rb ka kb); auto. congruence.
    - apply (H b a rb ra kb ka); auto. congruence. }
  assert (a = b /\ ra = rb) as [-> ->].
  { rewrite EA in EB. clear - LE EB. revert b LE EB. induction a as [|x a IH]; intros [|y b] LE EB; try discriminate.
    - split; [reflexivity|exact EB].
    - cbn [app length] in *. injection EB as <- EB. destruct (IH b ltac:(lia) EB) as [-> ->]. split; reflexivity. }
  rewrite <- TB in TA. apply app_inv_tail in TA. subst. reflexivity.
Qed.
Print Assumptions C90_pieces_do_not_matter.

(** A beginning of a message is never taken for a message nor for an error. *)
Theorem C90_beginning_waits : forall m v p q,
  message v -> send m v = p ++ q -> q <> [] -> read_k p = KEnd.
Proof. exact read_cut. Qed.
Print Assumptions C90_beginning_waits.

(** *** Examples *)

(* the symbols call, result, f, x-y *)
Definition s_call : list Z := [99; 97; 108; 108].
Definition s_result : list Z := [114; 101; 115; 117; 108; 116].
(* (call 7 f "a\)b" (x . 12)) and (result 7 t [1 2]) *)
Definition msg1 : sexp := SCons (SSym s_call) (SCons (SNum (Fix 7)) (SCons (SSym [102])
  (SCons (SStr [97; 10; 41; 98]) (SCons (SCons (SSym [120]) (SNum (Fix 12))) SNil)))).
Definition msg2 : sexp := SCons (SSym s_result) (SCons (SNum (Fix 7)) (SCons (SSym [116])
  (SCons (SVec [SNum (Fix 1); SNum (Fix 2)]) SNil))).

Lemma number_start : forall (c : Z) (l : list Z), number_syntax (c :: l) -> In c [43; 45; 46] \/ digitlike c.
Proof.
  intros c l (sg & b & E & SG & H). destruct sg as [|x sg].
    - simpl in E. destruct H as [(mm & x & -> & (d1 & p & d2 & -> & F & _ & P & NE) & _)|(x & t & -> & _)].
      + destruct d1 as [|y d1].
        * destruct NE as [NE|NE]; [congruence|]. subst p. inversion E; subst. left. simpl. auto.
        * inversion E; subst. inversion F; subst. auto.
      + inversion E; subst. right. unfold digitlike. split; discriminate.
    - inversion E; subst. inversion SG as [|? ? X]; subst. left. simpl. destruct X; auto.
Qed.
Lemma name_ok n : n <> [] -> (length n < 200)%nat -> Forall (fun c => 97 <= c <= 122) n -> good_name n.
Proof.
  intros NE L F. unfold good_name. destruct n as [|c n]; [contradiction|]. inversion F; subst.
  split; [discriminate|]. split; [lia|]. split; [eapply Forall_impl; [|exact F]; cbn beta; intros; lia|].
  split; [intros E; injection E as -> _; lia|]. split; [cbn [hd]; lia|].
  right. intros Hn. destruct (number_start _ _ Hn) as [I|I]; [cbn [In] in I|unfold digitlike in I]; lia.
Qed.

Example C90_messages_case : message msg1 /\ message msg2.
Proof.
  assert (N : forall n, n <> [] -> (length n < 200)%nat -> forallb (fun c => (97 <=? c) && (c <=? 122)) n = true ->
    printable (SSym n)).
  { intros n A B C. constructor. apply name_ok; auto. apply Forall_forall. rewrite forallb_forall in C.
    intros c I. apply C in I. lia. }
  assert (Z1 : forall n, 0 <= n < 100 -> printable (SNum (Fix n))).
  { intros n R. constructor. unfold canonical, in_fixnum_range. lia. }
  split; (split; [|split; [repeat constructor|eexists _, _; reflexivity]]);
    repeat (apply P_cons || apply P_nil || apply P_vec || apply Ps_cons || apply Ps_nil);
    try (apply Z1; lia); try (apply N; [discriminate|cbn; lia|reflexivity]).
  constructor. repeat constructor; unfold byte; lia.
Qed.

(** Two messages in five pieces, cut inside a name, a string, an escape and a
    number; two pieces arrive while the first message is worked on. *)
Definition stream : list Z := concat (map (send EscNewlines) [msg1; msg2]).
Definition pieces5 : list (list Z) :=
  [firstn 3 stream; firstn 11 (skipn 3 stream); firstn 16 (skipn 14 stream); firstn 4 (skipn 30 stream); skipn 34 stream].
Example C90_pieces_case :
  concat pieces5 = stream /\
  connection (fun d => length d) 200 pieces5 = Done (mkconn [] [] [msg2; msg1]) /\
  connection (fun d => length d) 200 (firstn 4 pieces5) = Done (mkconn [] (firstn 7 (send EscNewlines msg2)) [msg1]) /\
  connection (fun _ => 0%nat) 200 [firstn 14 stream] = Done (mkconn [] (firstn 14 stream) []).
Proof. vm_compute. repeat split. Qed.

(** *** Refuted for messages with a hash sign *)

(* (call 7 f #t): the text ends behind the hash sign *)
Definition msg_true : sexp := SCons (SSym s_call) (SCons (SNum (Fix 7)) (SCons (SSym [102]) (SCons (SLit lit_true) SNil))).
(* (call 7 f #undefined) *)
Definition msg_undef : sexp := SCons (SSym s_call) (SCons (SNum (Fix 7)) (SCons (SSym [102]) (SCons (SLit lit_undefined) SNil))).

(** A message that can be read back, in two pieces: the first is dispatched as if it were the whole,
    without the last argument. *)
Theorem C90_cut_after_hash_refuted : exists v m pieces short rest,
  printable v /\ concat pieces = send m v /\ v <> short /\
  connection (fun _ => 0%nat) 100 (firstn 1 pieces) = Done (mkconn [] rest [short]).
Proof.
  exists msg_true, EscNone, [firstn 11 (send EscNone msg_true); skipn 11 (send EscNone msg_true)],
    (SCons (SSym s_call) (SCons (SNum (Fix 7)) (SCons (SSym [102]) SNil))), [35].
  split; [|split; [reflexivity|split; [discriminate|]]].
  - repeat apply P_cons; try apply P_nil.
    + constructor. apply name_ok; [discriminate|cbn; lia|]. repeat constructor; lia.
    + constructor. unfold canonical, in_fixnum_range. lia.
    + constructor. apply name_ok; [discriminate|cbn; lia|]. repeat constructor; lia.
    + constructor. cbn. tauto.
  - vm_compute. reflexivity.
Qed.
Print Assumptions C90_cut_after_hash_refuted.

(** Cut inside a word that begins with a hash sign: an error though the message is fine. *)
Theorem C90_cut_in_literal_refuted : exists v m pieces,
  printable v /\ concat pieces = send m v /\
  connection (fun _ => 0%nat) 100 [concat pieces] = Done (mkconn [] [] [v]) /\
  connection (fun _ => 0%nat) 100 pieces = Failed (mkconn (skipn 1 pieces) (firstn 14 (send m v)) []).
Proof.
  exists msg_undef, EscNone, [firstn 14 (send EscNone msg_undef); skipn 14 (send EscNone msg_undef)].
  split; [|split; [reflexivity|split]].
  - repeat apply P_cons; try apply P_nil.
    + constructor. apply name_ok; [discriminate|cbn; lia|]. repeat constructor; lia.
    + constructor. unfold canonical, in_fixnum_range. lia.
    + constructor. apply name_ok; [discriminate|cbn; lia|]. repeat constructor; lia.
    + constructor. cbn. tauto.
  - vm_compute. reflexivity.
  - vm_compute. reflexivity.
Qed.
Print Assumptions C90_cut_in_literal_refuted.
