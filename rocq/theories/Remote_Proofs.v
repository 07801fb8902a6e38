(** Proofs about files on other machines *)

From Coq Require Import ZArith List Bool Lia ZifyBool.
From Verif Require Import Reader_Model Reader_Spec Reader_Proofs Remote_Model Remote_Spec.
Import ListNotations.
Open Scope Z_scope.

Lemma hexn_length : forall n v, length (hexn n v) = n.
Proof. induction n as [|n IH]; intros v; cbn [hexn]; [reflexivity|]. rewrite app_length, IH. cbn. lia. Qed.

Lemma hexvalue_char : forall d, 0 <= d < 16 -> hexvalue (hexchar d) = Some d.
Proof.
  intros d H. unfold hexvalue, hexchar. destruct (d <? 10) eqn:E.
  - replace ((48 <=? 48 + d) && (48 + d <=? 57)) with true by lia. f_equal; lia.
  - replace ((48 <=? 87 + d) && (87 + d <=? 57)) with false by lia.
    replace ((97 <=? 87 + d) && (87 + d <=? 102)) with true by lia. f_equal; lia.
Qed.
Lemma hexchar_range : forall d, 0 <= d < 16 -> 48 <= hexchar d < 128.
Proof. intros d H. unfold hexchar. destruct (d <? 10) eqn:E; lia. Qed.
Lemma hex_map_char : forall d, 0 <= d < 16 -> hex_map (hexchar d) = Some d.
Proof.
  intros d H. unfold hex_map. pose proof (hexchar_range d H).
  replace ((0 <=? hexchar d) && (hexchar d <? 128)) with true by lia.
  rewrite hexvalue_char by assumption. reflexivity.
Qed.

Lemma mod16 : forall v, 0 <= v mod 16 < 16.
Proof. intros v. apply Z.mod_pos_bound. lia. Qed.

Lemma hexn8 : forall v, exists a b c d e f g h,
  hexn 8 v = [hexchar a; hexchar b; hexchar c; hexchar d; hexchar e; hexchar f; hexchar g; hexchar h] /\
  0 <= a < 16 /\ 0 <= b < 16 /\ 0 <= c < 16 /\ 0 <= d < 16 /\ 0 <= e < 16 /\ 0 <= f < 16 /\ 0 <= g < 16 /\ 0 <= h < 16 /\
  (0 <= v < 2 ^ 32 -> v = h + 16 * (g + 16 * (f + 16 * (e + 16 * (d + 16 * (c + 16 * (b + 16 * a))))))).
Proof.
  intros v.
  remember (v / 16) as v1. remember (v1 / 16) as v2. remember (v2 / 16) as v3. remember (v3 / 16) as v4.
  remember (v4 / 16) as v5. remember (v5 / 16) as v6. remember (v6 / 16) as v7. 
  exists (v7 mod 16), (v6 mod 16), (v5 mod 16), (v4 mod 16), (v3 mod 16), (v2 mod 16), (v1 mod 16), (v mod 16).
  split; [subst; reflexivity|].
  repeat (split; [apply mod16|]).
  intros H. change (2 ^ 32) with 4294967296 in H.
  pose proof (Z.div_mod v 16 ltac:(lia)). pose proof (Z.div_mod v1 16 ltac:(lia)). pose proof (Z.div_mod v2 16 ltac:(lia)).
  pose proof (Z.div_mod v3 16 ltac:(lia)). pose proof (Z.div_mod v4 16 ltac:(lia)). pose proof (Z.div_mod v5 16 ltac:(lia)).
  pose proof (Z.div_mod v6 16 ltac:(lia)).
  pose proof (mod16 v). pose proof (mod16 v1). pose proof (mod16 v2). pose proof (mod16 v3).
  pose proof (mod16 v4). pose proof (mod16 v5). pose proof (mod16 v6).
  assert (v7 mod 16 = v7) by (apply Z.mod_small; lia).
  lia.
Qed.

Lemma read_length_hexn : forall v r, 0 <= v < 2 ^ 32 -> read_length (hexn 8 v ++ r) = Len v.
Proof.
  intros v r H. destruct (hexn8 v) as (a & b & c & d & e & f & g & h & E & A & B & C & D & F & G & I & J & V).
  rewrite E. cbn [app read_length]. rewrite !hex_map_char by assumption.
  f_equal. rewrite (V H).
  change (2^4) with 16. change (2^8) with 256. change (2^12) with 4096. change (2^16) with 65536.
  change (2^20) with 1048576. change (2^24) with 16777216. change (2^28) with 268435456. lia.
Qed.
Lemma strtol16_hexn : forall v, 0 <= v < 2 ^ 32 -> strtol16 0 (hexn 8 v) = v.
Proof.
  intros v H. destruct (hexn8 v) as (a & b & c & d & e & f & g & h & E & A & B & C & D & F & G & I & J & V).
  rewrite E. cbn [strtol16]. rewrite (hexvalue_char a) by assumption. cbn [strtol16].
  rewrite (hexvalue_char b) by assumption. cbn [strtol16]. rewrite (hexvalue_char c) by assumption. cbn [strtol16].
  rewrite (hexvalue_char d) by assumption. cbn [strtol16]. rewrite (hexvalue_char e) by assumption. cbn [strtol16].
  rewrite (hexvalue_char f) by assumption. cbn [strtol16]. rewrite (hexvalue_char g) by assumption. cbn [strtol16].
  rewrite (hexvalue_char h) by assumption. cbn [strtol16]. rewrite (V H). lia.
Qed.

Lemma digits_le : forall v n, 0 <= v < 16 ^ Z.of_nat n -> (0 < n)%nat -> (Z.to_nat (Z.log2 v / 4 + 1) <= n)%nat.
Proof.
  intros v n H N. destruct (Z.eq_dec v 0) as [->|Z0].
  - change (Z.log2 0) with 0. change (0 / 4 + 1) with 1. lia.
  - assert (L : Z.log2 v < 4 * Z.of_nat n).
    { apply Z.log2_lt_pow2; [lia|]. rewrite Z.pow_mul_r by lia. change (2 ^ 4) with 16. lia. }
    pose proof (Z.log2_nonneg v). assert (Z.log2 v / 4 < Z.of_nat n) by (apply Z.div_lt_upper_bound; lia). lia.
Qed.
Lemma digits_gt : forall v n, 16 ^ Z.of_nat n <= v -> (n < Z.to_nat (Z.log2 v / 4 + 1))%nat.
Proof.
  intros v n H. assert (P : 0 < 16 ^ Z.of_nat n) by (apply Z.pow_pos_nonneg; lia).
  assert (L : 4 * Z.of_nat n <= Z.log2 v).
  { apply Z.log2_le_pow2; [lia|]. rewrite Z.pow_mul_r by lia. change (2 ^ 4) with 16. lia. }
  assert (Z.of_nat n <= Z.log2 v / 4) by (apply Z.div_le_lower_bound; lia). lia.
Qed.

Lemma pow64 : 2 ^ 64 = 18446744073709551616. Proof. reflexivity. Qed.
Lemma pow32 : 2 ^ 32 = 4294967296. Proof. reflexivity. Qed.
Lemma pow36 : 2 ^ 36 = 68719476736. Proof. reflexivity. Qed.
Lemma pow63 : 2 ^ 63 = 9223372036854775808. Proof. reflexivity. Qed.

Lemma hex08_small : forall v, 0 <= v < 2 ^ 32 -> hex08 v = hexn 8 v.
Proof.
  intros v H. unfold hex08. rewrite pow32 in H. rewrite Z.mod_small by (rewrite pow64; lia).
  pose proof (digits_le v 8 ltac:(change (16 ^ Z.of_nat 8) with 4294967296; lia) ltac:(lia)) as D.
  rewrite Nat.max_l by exact D. reflexivity.
Qed.
Lemma send_long_small : forall v, 0 <= v < 2 ^ 32 -> send_long v = Some (hexn 8 v).
Proof.
  intros v H. unfold send_long. rewrite (hex08_small v H). cbv zeta. rewrite hexn_length.
  replace (Nat.leb (8 + 1) 10) with true by reflexivity.
  rewrite firstn_all2 by (rewrite hexn_length; lia). reflexivity.
Qed.
Lemma send_long_nine : forall v, 2 ^ 32 <= v < 2 ^ 36 -> send_long v = Some (hexn 8 (v / 16)).
Proof.
  intros v H. unfold send_long, hex08. rewrite pow32, pow36 in H. rewrite Z.mod_small by (rewrite pow64; lia).
  pose proof (digits_le v 9 ltac:(change (16 ^ Z.of_nat 9) with 68719476736; lia) ltac:(lia)) as D.
  pose proof (digits_gt v 8 ltac:(change (16 ^ Z.of_nat 8) with 4294967296; lia)) as G.
  replace (Nat.max 8 (Z.to_nat (Z.log2 v / 4 + 1))) with 9%nat by lia.
  cbv zeta. rewrite hexn_length. replace (Nat.leb (9 + 1) 10) with true by reflexivity.
  apply f_equal. change (firstn 8 (hexn 8 (v / 16) ++ [hexchar (v mod 16)]) = hexn 8 (v / 16)).
  rewrite firstn_app, hexn_length. rewrite firstn_all2 by (rewrite hexn_length; lia).
  replace (8 - 8)%nat with 0%nat by lia. cbn [firstn]. apply app_nil_r.
Qed.
Lemma send_long_over : forall v, 2 ^ 36 <= v < 2 ^ 63 -> send_long v = None.
Proof.
  intros v H. unfold send_long, hex08. rewrite pow36, pow63 in H. rewrite Z.mod_small by (rewrite pow64; lia).
  pose proof (digits_gt v 9 ltac:(change (16 ^ Z.of_nat 9) with 68719476736; lia)) as G.
  cbv zeta. rewrite hexn_length.
  replace (Nat.leb (Nat.max 8 (Z.to_nat (Z.log2 v / 4 + 1)) + 1) 10) with false by (symmetry; apply Nat.leb_gt; lia).
  reflexivity.
Qed.
Lemma client_int_small : forall v, 0 <= v < 2 ^ 32 -> client_int v = hexn 8 v.
Proof.
  intros v H. unfold client_int. rewrite pow32 in H.
  pose proof (digits_le v 8 ltac:(change (16 ^ Z.of_nat 8) with 4294967296; lia) ltac:(lia)) as D.
  rewrite Nat.max_l by exact D. reflexivity.
Qed.

Lemma read_long_client : forall v r, 0 <= v < 2 ^ 32 -> read_long (client_int v ++ r) = Some (v, r).
Proof.
  intros v r H. rewrite client_int_small by assumption. unfold read_long.
  rewrite app_length, hexn_length. replace (Nat.ltb (8 + length r) 8) with false by (symmetry; apply Nat.ltb_ge; lia).
  rewrite firstn_app, skipn_app, hexn_length. replace (8 - 8)%nat with 0%nat by lia.
  rewrite firstn_all2 by (rewrite hexn_length; lia). rewrite skipn_all2 by (rewrite hexn_length; lia).
  cbn [firstn skipn app]. rewrite app_nil_r, strtol16_hexn by assumption. reflexivity.
Qed.

Lemma c_string_id : forall s, no_zero s -> c_string s = s.
Proof.
  induction s as [|c s IH]; intros H; [reflexivity|]. inversion H; subst. cbn [c_string].
  replace (c =? 0) with false by lia. f_equal. auto.
Qed.
Lemma firstn_app_exact : forall (A : Type) (l r : list A) n, n = length l -> firstn n (l ++ r) = l.
Proof. intros A l r n ->. rewrite firstn_app, Nat.sub_diag, firstn_all. apply app_nil_r. Qed.
Lemma skipn_app_exact : forall (A : Type) (l r : list A) n, n = length l -> skipn n (l ++ r) = r.
Proof. intros A l r n ->. rewrite skipn_app, Nat.sub_diag, skipn_all. reflexivity. Qed.

Lemma read_string_client : forall s r, fits s -> no_zero s -> read_string (client_string s ++ r) = Some (s, r).
Proof.
  intros s r F N. unfold fits in F. unfold read_string, client_string. rewrite <- app_assoc.
  rewrite read_long_client by lia.
  replace ((Z.of_nat (length s) <? 0) || (Z.of_nat (length (s ++ r)) <? Z.of_nat (length s))) with false
    by (rewrite app_length; lia).
  rewrite Nat2Z.id, firstn_app_exact, skipn_app_exact, c_string_id by auto. reflexivity.
Qed.
Lemma read_strings_client : forall l r, Forall fits l -> Forall no_zero l ->
  read_strings (length l) (concat (map client_string l) ++ r) = Some (l, r).
Proof.
  induction l as [|s l IH]; intros r F N; [reflexivity|].
  inversion F; subst. inversion N; subst. cbn [length read_strings map concat].
  rewrite <- app_assoc, read_string_client by assumption. rewrite IH by assumption. reflexivity.
Qed.
Lemma command_read : forall type args r, 0 <= type < 128 -> (length args < 64)%nat ->
  Forall fits args -> Forall no_zero args ->
  read_command (client_command type args ++ r) = Some (type, args, r).
Proof.
  intros type args r T L F N. unfold client_command, read_command. cbn [app].
  unfold signed_char. replace (type <? 128) with true by lia.
  replace (Z.of_nat (length args) <? 128) with true by lia.
  replace ((type =? -1) || (Z.of_nat (length args) =? -1) || (64 <=? Z.of_nat (length args))) with false by lia.
  rewrite Nat2Z.id, read_strings_client by assumption. reflexivity.
Qed.

(** ** The server's side of moving files *)

Lemma get_parts_all : forall bufsiz, (0 < bufsiz)%nat -> forall fuel file, (length file < fuel)%nat ->
  get_parts fuel bufsiz (length file) file = Some file.
Proof.
  intros bufsiz B. induction fuel as [|fuel IH]; intros file H; [lia|].
  cbn [get_parts]. destruct file as [|c file]; [reflexivity|].
  replace (Nat.eqb (length (c :: file)) 0) with false by reflexivity.
  set (k := Nat.min (length (c :: file)) bufsiz).
  assert (K : (0 < k <= length (c :: file))%nat) by (unfold k; cbn [length]; lia).
  clearbody k. remember (c :: file) as f eqn:E. clear E c file.
  assert (L : length (firstn k f) = k) by (rewrite firstn_length; lia).
  cbv zeta. rewrite L. replace (Nat.eqb k 0) with false by (symmetry; apply Nat.eqb_neq; lia).
  replace (length f - k)%nat with (length (skipn k f)) by (rewrite skipn_length; lia).
  rewrite IH by (rewrite skipn_length; lia). rewrite firstn_skipn. reflexivity.
Qed.

Lemma put_all : forall bufsiz, (0 < bufsiz)%nat -> forall fuel content file pipe rest,
  Forall (fun p => p <> []) pipe -> concat pipe = content ++ rest -> (length content < fuel)%nat ->
  exists pipe', put_loop fuel bufsiz (length content) file pipe = Some (file ++ content, pipe') /\
    concat pipe' = rest /\ Forall (fun p => p <> []) pipe'.
Proof.
  intros bufsiz B. induction fuel as [|fuel IH]; intros content file pipe rest N C L; [lia|].
  cbn [put_loop]. destruct content as [|c content].
  - exists pipe. cbn. rewrite app_nil_r. auto.
  - replace (Nat.eqb (length (c :: content)) 0) with false by reflexivity.
    set (k := Nat.min (length (c :: content)) bufsiz).
    assert (K : (0 < k <= length (c :: content))%nat) by (unfold k; cbn [length]; lia).
    clearbody k. remember (c :: content) as f eqn:E.
    destruct pipe as [|p pipe]; [subst f; discriminate C|].
    inversion N as [|? ? Np Npipe]; subst x l. cbn [concat] in C. clear E c content.
    cbn [read_pipe]. destruct (Nat.leb (length p) k) eqn:Q.
    + apply Nat.leb_le in Q.
      assert (P : p = firstn (length p) f).
      { rewrite <- (firstn_app_exact _ p (concat pipe) (length p) eq_refl), C at 1. rewrite firstn_app.
        replace (length p - length f)%nat with 0%nat by lia. cbn [firstn]. apply app_nil_r. }
      assert (S : concat pipe = skipn (length p) f ++ rest).
      { rewrite <- (skipn_app_exact _ p (concat pipe) (length p) eq_refl), C. rewrite skipn_app.
        replace (length p - length f)%nat with 0%nat by lia. reflexivity. }
      assert (Lp : (0 < length p)%nat) by (destruct p; [congruence|cbn; lia]).
      destruct (IH (skipn (length p) f) (file ++ p) pipe rest Npipe S ltac:(rewrite skipn_length; lia)) as (pipe' & R & S' & N').
      exists pipe'. rewrite skipn_length in R. rewrite R. split; [|auto].
      rewrite <- app_assoc. rewrite P at 1. rewrite firstn_skipn. reflexivity.
    + apply Nat.leb_gt in Q.
      assert (Lk : length (firstn k p) = k) by (rewrite firstn_length; lia).
      assert (P : firstn k p = firstn k f).
      { assert (X : firstn k (p ++ concat pipe) = firstn k (f ++ rest)) by (rewrite C; reflexivity).
        rewrite !firstn_app in X. replace (k - length p)%nat with 0%nat in X by lia.
        replace (k - length f)%nat with 0%nat in X by lia. cbn [firstn] in X. rewrite !app_nil_r in X. exact X. }
      assert (S : concat (skipn k p :: pipe) = skipn k f ++ rest).
      { assert (X : skipn k (p ++ concat pipe) = skipn k (f ++ rest)) by (rewrite C; reflexivity).
        rewrite !skipn_app in X. replace (k - length p)%nat with 0%nat in X by lia.
        replace (k - length f)%nat with 0%nat in X by lia. exact X. }
      assert (N2 : Forall (fun p => p <> []) (skipn k p :: pipe)).
      { constructor; [|assumption]. intros X. apply (f_equal (@length Z)) in X. rewrite skipn_length in X. cbn in X. lia. }
      destruct (IH (skipn k f) (file ++ firstn k p) (skipn k p :: pipe) rest N2 S ltac:(rewrite skipn_length; lia)) as (pipe' & R & S' & N').
      exists pipe'. rewrite Lk. rewrite skipn_length in R. rewrite R. split; [|auto].
      rewrite <- app_assoc, P, firstn_skipn. reflexivity.
Qed.

Lemma put_never : forall bufsiz fuel todo file pipe, (length (concat pipe) < todo)%nat ->
  put_loop fuel bufsiz todo file pipe = None.
Proof.
  intros bufsiz. induction fuel as [|fuel IH]; intros todo file pipe H; [reflexivity|].
  cbn [put_loop]. replace (Nat.eqb todo 0) with false by (symmetry; apply Nat.eqb_neq; lia).
  destruct pipe as [|p pipe]; cbn [read_pipe].
  - apply IH. cbn in *. lia.
  - cbn [concat] in H. rewrite app_length in H.
    destruct (Nat.leb (length p) (Nat.min todo bufsiz)) eqn:Q; apply IH.
    + lia.
    + apply Nat.leb_gt in Q. cbn [concat]. rewrite app_length, skipn_length, firstn_length. lia.
Qed.

(** ** The client's side *)

Lemma read_length_short : forall t, (length t < 8)%nat -> read_length t = Wait.
Proof. intros t H. do 8 (destruct t as [|? t]; [reflexivity|]). cbn in H. lia. Qed.

(** Eight bytes that say n *)
Definition says (t : list Z) (n : Z) : Prop := length t = 8%nat /\ 0 <= n /\ forall r, read_length (t ++ r) = Len n.
Lemma says_hexn : forall v, 0 <= v < 2 ^ 32 -> says (hexn 8 v) v.
Proof. intros v H. split; [apply hexn_length|]. split; [lia|]. intros r. apply read_length_hexn, H. Qed.

Lemma prefix_says : forall t n r x later, says t n -> x ++ later = t ++ r ->
  (length x < 8)%nat \/ exists x', x = t ++ x' /\ x' ++ later = r.
Proof.
  intros t n r x later (L & _ & _) E. destruct (Nat.ltb (length x) 8) eqn:Q.
  - left. apply Nat.ltb_lt. exact Q.
  - right. apply Nat.ltb_ge in Q. exists (skipn 8 x).
    assert (F : firstn 8 (x ++ later) = firstn 8 (t ++ r)) by (rewrite E; reflexivity).
    rewrite firstn_app in F. replace (8 - length x)%nat with 0%nat in F by lia. change (firstn 0 later) with (@nil Z) in F.
    rewrite app_nil_r in F. rewrite (firstn_app_exact _ t r 8) in F by auto.
    assert (X : x = t ++ skipn 8 x) by (rewrite <- F at 1; symmetry; apply firstn_skipn).
    split; [exact X|]. rewrite X in E. rewrite <- app_assoc in E. apply app_inv_head in E. exact E.
Qed.

Lemma read_msg_prefix : forall t msg x later, says t (Z.of_nat (length msg)) -> x ++ later = t ++ msg ->
  read_msg x = match later with [] => SRead msg | _ => SWait end.
Proof.
  intros t msg x later S E. destruct (prefix_says _ _ _ _ _ S E) as [L|(x' & -> & E')].
  - unfold read_msg. rewrite read_length_short by assumption. destruct later; [|reflexivity].
    exfalso. rewrite app_nil_r in E. subst x. destruct S as (S & _). rewrite app_length in L. lia.
  - destruct S as (L & _ & R). unfold read_msg. rewrite R.
    rewrite app_length, L. destruct later as [|c later].
    + rewrite app_nil_r in E'. subst x'. replace (Z.of_nat (8 + length msg) <? 8 + Z.of_nat (length msg)) with false by lia.
      rewrite Nat2Z.id. rewrite skipn_app_exact by auto. rewrite firstn_all. reflexivity.
    + apply (f_equal (@length Z)) in E'. rewrite app_length in E'. cbn [length] in E'.
      replace (Z.of_nat (8 + length x') <? 8 + Z.of_nat (length msg)) with true by lia. reflexivity.
Qed.

(** *** get *)

Definition got (p : option Z) (n : Z) (P : list Z) : getting :=
  if Nat.ltb (length P) 9 then mkg (mks Busy P p 0) None []
  else
    let have := Z.of_nat (length P - 9) in
    mkg (mks (if n <=? have then Success else Busy) [] p 0) (Some (n - Z.min n have)) (firstn (Z.to_nat n) (skipn 9 P)).

Lemma get_fresh : forall p n t content P later, says t n -> P <> [] -> P ++ later = 1 :: t ++ content ->
  get_piece (mkg (commanded p) None []) P = got p n P.
Proof.
  intros p n t content P later S N E. destruct P as [|c x]; [congruence|].
  cbn [app] in E. assert (c = 1 /\ x ++ later = t ++ content) as (-> & E') by (split; congruence).
  unfold get_piece, incoming, commanded. cbn [g_s pending app g_len].
  replace (1 =? 1) with true by reflexivity.
  destruct (prefix_says _ _ _ _ _ S E') as [L|(x' & -> & E2)].
  - rewrite read_length_short by assumption. unfold got. cbn [length].
    replace (Nat.ltb (Datatypes.S (length x)) 9) with true by (symmetry; apply Nat.ltb_lt; lia). reflexivity.
  - destruct S as (L & N0 & R). rewrite R. unfold got. cbn [length]. rewrite app_length, L.
    replace (Nat.ltb (Datatypes.S (8 + length x')) 9) with false by (symmetry; apply Nat.ltb_ge; lia).
    unfold get_write. cbn [g_len g_s g_file]. rewrite (skipn_app_exact _ t x' 8) by auto.
    change (skipn 9 (1 :: t ++ x')) with (skipn 8 (t ++ x')). rewrite (skipn_app_exact _ t x' 8) by auto.
    replace (Datatypes.S (8 + length x') - 9)%nat with (length x') by lia. cbv zeta. cbn [app].
    unfold with_st, with_pending. cbn [st pending protocol sent_passwords].
    f_equal.
    + destruct (n <=? Z.of_nat (length x')) eqn:Q.
      * replace (n - Z.min n (Z.of_nat (length x')) =? 0) with true by lia. reflexivity.
      * replace (n - Z.min n (Z.of_nat (length x')) =? 0) with false by lia. reflexivity.
    + destruct (Z.min_spec n (Z.of_nat (length x'))) as [[? ->]|[? ->]]; [reflexivity|].
      rewrite Nat2Z.id. rewrite firstn_all. symmetry. apply firstn_all2. lia.
Qed.

Lemma get_next : forall p n t content P piece later, says t n -> P <> [] -> (P ++ piece) ++ later = 1 :: t ++ content ->
  get_piece (got p n P) piece = got p n (P ++ piece).
Proof.
  intros p n t content P piece later S N E.
  unfold got at 1. destruct (Nat.ltb (length P) 9) eqn:Q.
  - assert (NP : P ++ piece <> []) by (destruct P; [congruence|discriminate]).
    rewrite <- (get_fresh p n t content (P ++ piece) later S NP E). reflexivity.
  - apply Nat.ltb_ge in Q. unfold got. rewrite app_length.
    replace (Nat.ltb (length P + length piece) 9) with false by (symmetry; apply Nat.ltb_ge; lia).
    assert (N0 : 0 <= n) by (destruct S as (_ & S & _); exact S).
    cbv zeta. unfold get_piece, incoming, get_write. cbn [g_s g_len g_file pending app with_pending st protocol sent_passwords].
    set (a := Z.of_nat (length P - 9)). set (b := Z.of_nat (length piece)).
    replace (Z.of_nat (length P + length piece - 9)) with (a + b) by (unfold a, b; lia).
    assert (0 <= a /\ 0 <= b) as (A0 & B0) by (unfold a, b; lia).
    unfold with_st. cbn [st pending protocol sent_passwords].
    f_equal.
    + destruct (n <=? a) eqn:Q1.
      * replace (n <=? a + b) with true by lia. destruct (_ =? 0); reflexivity.
      * destruct (n <=? a + b) eqn:Q2.
        -- replace (n - Z.min n a - Z.min (n - Z.min n a) b =? 0) with true by lia. reflexivity.
        -- replace (n - Z.min n a - Z.min (n - Z.min n a) b =? 0) with false by lia. reflexivity.
    + f_equal. lia.
    + rewrite skipn_app. replace (9 - length P)%nat with 0%nat by lia. change (skipn 0 piece) with piece.
      rewrite firstn_app, skipn_length. f_equal.
      replace (Z.to_nat n - (length P - 9))%nat with (Z.to_nat (n - Z.min n a)) by (unfold a in *; lia).
      destruct (Z.min_spec (n - Z.min n a) b) as [[? ->]|[? ->]]; [reflexivity|].
      unfold b in *. rewrite Nat2Z.id, firstn_all. symmetry. apply firstn_all2. lia.
Qed.

Lemma got_pieces : forall p n t content pieces later, says t n -> Forall (fun x => x <> []) pieces -> pieces <> [] ->
  concat pieces ++ later = 1 :: t ++ content -> get_pieces p pieces = got p n (concat pieces).
Proof.
  intros p n t content pieces. induction pieces as [|x pieces IH] using rev_ind; intros later S F N E; [congruence|].
  apply Forall_app in F as (F1 & F2). inversion F2 as [|? ? Nx _]; subst. clear F2.
  unfold get_pieces. rewrite fold_left_app. cbn [fold_left]. fold (get_pieces p pieces).
  rewrite concat_app in *. cbn [concat] in *. rewrite app_nil_r in *.
  destruct pieces as [|y pieces].
  - cbn [concat app] in *. unfold get_pieces. cbn [fold_left]. apply (get_fresh p n t content x later); auto.
  - rewrite (IH (x ++ later) S F1 ltac:(discriminate) ltac:(rewrite app_assoc; exact E)).
    apply (get_next p n t content _ _ later S); [|exact E].
    inversion F1; subst. cbn [concat]. destruct y; [congruence|discriminate].
Qed.

(** *** link and simple commands: answers that are kept until they are whole *)

Lemma link_piece_prefix : forall p head t msg P later,
  says t (Z.of_nat (length msg)) -> head = 1 \/ head = 127 -> P <> [] -> P ++ later = head :: t ++ msg ->
  forall Q R, Q ++ R = P -> link_piece (mks Busy Q p 0, None) R =
  match later with
  | [] => if head =? 1 then (mks Success [] p 0, Some msg) else (mks (Failure msg) [] p 0, None)
  | _ => (mks Busy P p 0, None)
  end.
Proof.
  intros p head t msg P later S H N E Q R C. destruct P as [|c x]; [congruence|].
  cbn [app] in E. assert (c = head /\ x ++ later = t ++ msg) as (-> & E') by (split; congruence).
  unfold link_piece, incoming. cbn [fst snd pending]. rewrite C.
  rewrite (read_msg_prefix t msg x later S E').
  destruct H as [-> | ->]; destruct later; reflexivity.
Qed.

Lemma link_run : forall p head t msg pieces later,
  says t (Z.of_nat (length msg)) -> head = 1 \/ head = 127 -> Forall (fun x => x <> []) pieces ->
  concat pieces ++ later = head :: t ++ msg ->
  link_pieces p pieces =
  match later with
  | [] => if head =? 1 then (mks Success [] p 0, Some msg) else (mks (Failure msg) [] p 0, None)
  | _ => (mks Busy (concat pieces) p 0, None)
  end.
Proof.
  intros p head t msg pieces. induction pieces as [|x pieces IH] using rev_ind; intros later S H F E.
  - cbn [concat app] in E. subst later. reflexivity.
  - apply Forall_app in F as (F1 & F2). inversion F2 as [|? ? Nx _]; subst. clear F2.
    rewrite concat_app in *. cbn [concat] in *. rewrite app_nil_r in *.
    unfold link_pieces. rewrite fold_left_app. cbn [fold_left]. fold (link_pieces p pieces).
    rewrite (IH (x ++ later) S H F1 ltac:(rewrite app_assoc; exact E)).
    destruct x as [|c x]; [congruence|]. cbn [app].
    apply (link_piece_prefix p head t msg (concat pieces ++ c :: x) later S H); [|exact E|reflexivity].
    destruct (concat pieces); discriminate.
Qed.

Lemma sig_here_none : forall t, ~ In 2 t -> sig_here t = None.
Proof.
  intros t H. unfold sig_here. destruct t as [|c t]; [reflexivity|].
  cbn [starts_with sig_text]. replace (2 =? c) with false; [reflexivity|].
  symmetry. apply Z.eqb_neq. intros <-. apply H. left. reflexivity.
Qed.
Lemma sig_in_none : forall t, ~ In 2 t -> sig_in t = None.
Proof.
  induction t as [|c t IH]; intros H; cbn [sig_in]; rewrite sig_here_none by assumption; [reflexivity|].
  apply IH. intros X. apply H. right. exact X.
Qed.

Lemma filter_prefix : forall v t msg P later,
  says t (Z.of_nat (length msg)) -> ~ In 2 t -> ~ In 2 msg -> P <> [] -> P ++ later = 127 :: t ++ msg ->
  forall Q R, Q ++ R = P -> output_filter (mks Busy Q (Some v) 0) R =
  match later with [] => mks (Failure msg) [] (Some v) 0 | _ => mks Busy P (Some v) 0 end.
Proof.
  intros v t msg P later S T M N E Q R C. destruct P as [|c x]; [congruence|].
  cbn [app] in E. assert (c = 127 /\ x ++ later = t ++ msg) as (-> & E') by (split; congruence).
  unfold output_filter, incoming. cbn [pending]. rewrite C. cbn [length filter_loop with_pending st protocol sent_passwords pending].
  rewrite sig_in_none.
  2:{ intros [X|X]; [discriminate|]. assert (Y : In 2 (x ++ later)) by (apply in_or_app; left; exact X).
      rewrite E' in Y. apply in_app_or in Y as [Y|Y]; auto. }
  replace (127 =? 1) with false by reflexivity. replace (127 =? 127) with true by reflexivity.
  rewrite (read_msg_prefix t msg x later S E'). destruct later; [|reflexivity].
  rewrite app_nil_r in E'. subst x. rewrite skipn_all2 by (rewrite app_length; destruct S as (-> & _); lia).
  destruct (length (t ++ msg)); reflexivity.
Qed.

Lemma filter_run : forall v t msg pieces later,
  says t (Z.of_nat (length msg)) -> ~ In 2 t -> ~ In 2 msg -> Forall (fun x => x <> []) pieces ->
  concat pieces ++ later = 127 :: t ++ msg ->
  after_pieces (Some v) pieces =
  match later with [] => mks (Failure msg) [] (Some v) 0 | _ => mks Busy (concat pieces) (Some v) 0 end.
Proof.
  intros v t msg pieces. induction pieces as [|x pieces IH] using rev_ind; intros later S T M F E.
  - cbn [concat app] in E. subst later. reflexivity.
  - apply Forall_app in F as (F1 & F2). inversion F2 as [|? ? Nx _]; subst. clear F2.
    rewrite concat_app in *. cbn [concat] in *. rewrite app_nil_r in *.
    unfold after_pieces. rewrite fold_left_app. cbn [fold_left]. fold (after_pieces (Some v) pieces).
    rewrite (IH (x ++ later) S T M F1 ltac:(rewrite app_assoc; exact E)).
    destruct x as [|c x]; [congruence|]. cbn [app].
    apply (filter_prefix v t msg (concat pieces ++ c :: x) later S T M); [|exact E|reflexivity].
    destruct (concat pieces); discriminate.
Qed.

Lemma hexn_no_two : forall n v, ~ In 2 (hexn n v).
Proof.
  induction n as [|n IH]; intros v H; cbn [hexn] in H; [exact H|].
  apply in_app_or in H as [H|[H|[]]]; [exact (IH _ H)|].
  pose proof (hexchar_range (v mod 16) (mod16 v)). lia.
Qed.

(** *** Directories *)

Definition entry (e : list Z) : list Z := 2 :: hexn 8 (Z.of_nat (length e)) ++ e.
Definition listing (es : list (list Z)) : list Z := concat (map entry es) ++ [1].

Lemma send_entries_listing : forall es, Forall fits es -> send_entries es = Some (listing es).
Proof.
  induction es as [|e es IH]; intros F; [reflexivity|]. inversion F; subst.
  cbn [send_entries]. unfold send_string. rewrite send_long_small by (unfold fits in *; lia).
  rewrite IH by assumption. unfold listing. cbn [map concat]. unfold entry at 2. cbn [app].
  rewrite <- !app_assoc. reflexivity.
Qed.

Lemma app_split : forall (a b c d : list Z), a ++ b = c ++ d ->
  (exists x, a = c ++ x /\ x ++ b = d) \/ (exists x, x <> [] /\ a ++ x = c /\ b = x ++ d).
Proof.
  induction a as [|u a IH]; intros b c d E.
  - destruct c as [|w c]; [left; exists []; auto|]. right. exists (w :: c). split; [discriminate|]. auto.
  - destruct c as [|w c]; [left; exists (u :: a); auto|].
    cbn [app] in E. assert (u = w /\ a ++ b = c ++ d) as (-> & E') by (split; congruence).
    destruct (IH b c d E') as [(x & -> & X)|(x & N & <- & X)]; [left; exists x; auto|right; exists x; auto].
Qed.

Lemma dir_loop_run : forall es, Forall fits es -> forall fuel t later found, t ++ later = listing es -> (length t < fuel)%nat ->
  exists es1 es2 left, es = es1 ++ es2 /\ left ++ later = listing es2 /\
    dir_loop fuel t found = Some (left, rev es1 ++ found) /\
    (left = [] \/ (left = [1] /\ es2 = [] /\ later = []) \/ (exists x, left = 2 :: x /\ es2 <> [] /\ later <> [])).
Proof.
  induction es as [|e es IH]; intros F fuel t later found E L; (destruct fuel as [|fuel]; [lia|]).
  - unfold listing in E. cbn [map concat app] in E. exists [], [], t. split; [reflexivity|]. split; [exact E|].
    destruct t as [|c t]; [auto|]. cbn [app] in E.
    assert (c = 1 /\ t ++ later = []) as (-> & E') by (split; congruence).
    apply app_eq_nil in E' as (-> & ->). split; [reflexivity|]. right. left. auto.
  - inversion F as [|? ? Fe Fs]; subst. 
    assert (E2 : t ++ later = entry e ++ listing es) by (rewrite E; unfold listing; cbn [map concat]; rewrite app_assoc; reflexivity).
    assert (Se : says (hexn 8 (Z.of_nat (length e))) (Z.of_nat (length e))) by (apply says_hexn; unfold fits in Fe; lia).
    destruct (app_split _ _ _ _ E2) as [(x & -> & X)|(x & N & T & X)].
    + unfold entry in *. cbn [app dir_loop after_two]. replace (2 =? 2) with true by reflexivity.
      assert (R : read_msg ((hexn 8 (Z.of_nat (length e)) ++ e) ++ x) = SRead e).
      { unfold read_msg. rewrite <- app_assoc. destruct Se as (Lh & _ & Rh). rewrite Rh.
        rewrite !app_length, Lh.
        replace (Z.of_nat (8 + (length e + length x)) <? 8 + Z.of_nat (length e)) with false by lia.
        rewrite Nat2Z.id, skipn_app_exact by auto. rewrite firstn_app_exact by auto. reflexivity. }
      rewrite R. rewrite skipn_app_exact by (rewrite app_length, hexn_length; lia).
      cbn [length app] in L. rewrite !app_length in L.
      destruct (IH Fs fuel x later (e :: found) X ltac:(lia)) as (es1 & es2 & lf & -> & Y & D & O).
      exists (e :: es1), es2, lf. split; [reflexivity|]. split; [exact Y|]. split; [|exact O].
      rewrite D. cbn [rev]. rewrite <- app_assoc. reflexivity.
    + exists [], (e :: es), t. split; [reflexivity|]. split; [exact E|].
      destruct t as [|c t]; [split; [reflexivity|left; reflexivity]|].
      unfold entry in T. cbn [app] in T. assert (c = 2 /\ t ++ x = hexn 8 (Z.of_nat (length e)) ++ e) as (-> & T') by (split; congruence).
      split.
      * cbn [dir_loop after_two]. replace (2 =? 2) with true by reflexivity.
        rewrite (read_msg_prefix _ e t x Se T'). destruct x; [congruence|reflexivity].
      * right. right. exists t. split; [reflexivity|]. split; [discriminate|].
        rewrite X. destruct x; [congruence|discriminate].
Qed.

Lemma dir_run : forall p es, Forall fits es -> forall pieces later, Forall (fun x => x <> []) pieces ->
  concat pieces ++ later = listing es ->
  (later <> [] -> exists es1 es2 left, es = es1 ++ es2 /\ left ++ later = listing es2 /\
     dir_pieces p pieces = (mks Busy left p 0, rev es1)) /\
  (later = [] -> dir_pieces p pieces = (mks Success [] p 0, rev es)).
Proof.
  intros p es F pieces. induction pieces as [|x pieces IH] using rev_ind; intros later N E.
  - cbn [concat app] in E. subst later. split.
    + intros _. exists [], es, []. auto.
    + intros X. exfalso. unfold listing in X. destruct (concat (map entry es)); discriminate.
  - apply Forall_app in N as (N1 & N2). inversion N2 as [|? ? Nx _]; subst. clear N2.
    rewrite concat_app in *. cbn [concat] in *. rewrite app_nil_r in *.
    unfold dir_pieces. rewrite fold_left_app. cbn [fold_left]. fold (dir_pieces p pieces).
    destruct (IH (x ++ later) N1 ltac:(rewrite app_assoc; exact E)) as (B & _).
    destruct (B ltac:(destruct x; [congruence|discriminate])) as (es1 & es2 & lf & -> & S & ->). clear IH B.
    rewrite app_assoc in S. apply Forall_app in F as (F1 & F2).
    destruct (dir_loop_run es2 F2 (Datatypes.S (length (lf ++ x))) (lf ++ x) later (rev es1) S ltac:(lia))
      as (es3 & es4 & l2 & -> & S2 & D & O).
    unfold dir_piece, incoming. cbn [fst snd pending]. rewrite D.
    split.
    + intros NL. exists (es1 ++ es3), es4, l2. split; [rewrite app_assoc; reflexivity|]. split; [exact S2|].
      rewrite rev_app_distr.
      destruct O as [-> | [(-> & _ & X)|(y & -> & _ & _)]]; [reflexivity|congruence|reflexivity].
    + intros ->. rewrite app_nil_r in S2.
      destruct O as [-> | [(-> & -> & _)|(y & -> & _ & X)]]; [| |congruence].
      * exfalso. unfold listing in S2. destruct (concat (map entry es4)); discriminate.
      * rewrite app_nil_r, rev_app_distr. reflexivity.
Qed.

Lemma after_two_none : forall t, ~ In 2 t -> after_two t = None.
Proof.
  induction t as [|c t IH]; intros H; [reflexivity|]. cbn [after_two].
  replace (c =? 2) with false; [apply IH; intros X; apply H; right; exact X|].
  symmetry. apply Z.eqb_neq. intros ->. apply H. left. reflexivity.
Qed.

Lemma dir_fail_run : forall p t msg pieces later,
  says t (Z.of_nat (length msg)) -> ~ In 2 t -> ~ In 2 msg -> Forall (fun x => x <> []) pieces ->
  concat pieces ++ later = 127 :: t ++ msg ->
  dir_pieces p pieces =
  match later with [] => (mks (Failure msg) [] p 0, []) | _ => (mks Busy (concat pieces) p 0, []) end.
Proof.
  intros p t msg pieces. induction pieces as [|x pieces IH] using rev_ind; intros later S T M F E.
  - cbn [concat app] in E. subst later. reflexivity.
  - apply Forall_app in F as (F1 & F2). inversion F2 as [|? ? Nx _]; subst. clear F2.
    rewrite concat_app in *. cbn [concat] in *. rewrite app_nil_r in *.
    unfold dir_pieces. rewrite fold_left_app. cbn [fold_left]. fold (dir_pieces p pieces).
    rewrite (IH (x ++ later) S T M F1 ltac:(rewrite app_assoc; exact E)).
    destruct x as [|c x]; [congruence|]. cbn [app].
    unfold dir_piece, incoming. cbn [fst snd pending].
    destruct (concat pieces ++ c :: x) as [|d y] eqn:P; [destruct (concat pieces); discriminate|].
    cbn [app] in E. assert (d = 127 /\ y ++ later = t ++ msg) as (-> & E') by (split; congruence).
    cbn [dir_loop]. rewrite after_two_none.
    2:{ intros [X|X]; [discriminate|]. assert (Y : In 2 (y ++ later)) by (apply in_or_app; left; exact X).
        rewrite E' in Y. apply in_app_or in Y as [Y|Y]; auto. }
    replace (127 =? 1) with false by reflexivity. replace (127 =? 127) with true by reflexivity.
    rewrite (read_msg_prefix t msg y later S E'). destruct later; reflexivity.
Qed.

(** ** Names *)

Lemma quote_is_print : forall s, no_zero s -> quote_string s = print_string EscNone s.
Proof.
  intros s N. unfold quote_string, print_string. rewrite c_string_id by assumption. do 3 f_equal.
  apply map_ext. intros c. unfold quote_char, print_char. cbn [andb negb].
  destruct (c =? 34) eqn:A; [replace c with 34 by lia; reflexivity|].
  destruct (c =? 92) eqn:B; [replace c with 92 by lia; reflexivity|].
  destruct (one_of c [9; 10; 13; 12]); reflexivity.
Qed.
