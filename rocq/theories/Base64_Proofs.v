From Coq Require Import ZArith List Bool Lia ZifyBool.
From Verif Require Import Base64_Model Base64_Spec.
Import ListNotations.
Open Scope Z_scope.

(** ** Bits *)
Lemma high_bit : forall b n k, 0 <= n -> n <= k -> 0 <= b < 2 ^ n -> Z.testbit b k = false.
Proof.
  intros b n k Hn Hk Hb. destruct (Z.eq_dec b 0) as [->|]; [apply Z.bits_0|].
  apply Z.bits_above_log2; [lia|]. apply Z.log2_lt_pow2; [lia|].
  apply Z.lt_le_trans with (2 ^ n); [lia|apply Z.pow_le_mono_r; lia].
Qed.

Lemma lor_add : forall a b n, 0 <= n -> 0 <= b < 2 ^ n -> Z.lor (Z.shiftl a n) b = a * 2 ^ n + b.
Proof.
  intros a b n Hn Hb. rewrite <- Z.shiftl_mul_pow2 by lia.
  assert (E : Z.land (Z.shiftl a n) b = 0).
  { apply Z.bits_inj'. intros k Hk. rewrite Z.land_spec, Z.bits_0. destruct (Z.ltb_spec k n).
    - rewrite Z.shiftl_spec_low by lia. reflexivity.
    - rewrite (high_bit b n k) by lia. apply andb_false_r. }
  symmetry. rewrite <- Z.lxor_lor by exact E. apply Z.add_nocarry_lxor. exact E.
Qed.

Lemma land_63 : forall a, Z.land a 63 = a mod 64.
Proof. intros a. change 63 with (Z.ones 6). rewrite Z.land_ones by lia. reflexivity. Qed.

Lemma lxor_top : forall a n, 0 <= a -> 0 <= n -> Z.lxor a (Z.shiftl (Z.shiftr a n) n) = a mod 2 ^ n.
Proof.
  intros a n Ha Hn. rewrite <- Z.land_ones by lia. apply Z.bits_inj'. intros k Hk.
  rewrite Z.lxor_spec, Z.land_spec, (Z.testbit_ones_nonneg n k) by lia.
  destruct (Z.ltb_spec k n).
  - rewrite Z.shiftl_spec_low by lia. rewrite xorb_false_r, andb_true_r. reflexivity.
  - rewrite Z.shiftl_spec_high, Z.shiftr_spec by lia. replace (k - n + n) with k by lia.
    rewrite xorb_nilpotent, andb_false_r. reflexivity.
Qed.

(** ** The alphabet *)
Lemma char_value_spec : forall c v, char_value c = Some v <-> six_bit_char c v.
Proof.
  intros c v. unfold char_value, six_bit_char.
  destruct ((65 <=? c) && (c <=? 90)) eqn:E1; [|destruct ((97 <=? c) && (c <=? 122)) eqn:E2;
    [|destruct ((48 <=? c) && (c <=? 57)) eqn:E3; [|destruct (c =? 43) eqn:E4; [|destruct (c =? 47) eqn:E5]]]];
    (split; [intros H; try discriminate; assert (H0 := f_equal (fun o => match o with Some x => x | None => 0 end) H); cbv beta iota in H0; clear H; lia|intros H; try (f_equal; lia); lia]).
Qed.

Lemma letter_ok : forall i, 0 <= i < 64 -> exists c, letter i = Some c /\ char_value c = Some i.
Proof.
  intros i H.
  assert (F : forallb (fun n => match letter (Z.of_nat n) with
                                | Some c => match char_value c with Some v => v =? Z.of_nat n | None => false end
                                | None => false end) (seq 0 64) = true) by reflexivity.
  rewrite forallb_forall in F. specialize (F (Z.to_nat i)). rewrite Z2Nat.id in F by lia.
  assert (I : In (Z.to_nat i) (seq 0 64)) by (apply in_seq; lia). specialize (F I).
  destruct (letter i) as [c|]; [|discriminate F]. exists c. split; auto.
  destruct (char_value c) as [v|]; [|discriminate F]. f_equal. apply Z.eqb_eq. exact F.
Qed.

(** ** Decoding groups *)
Lemma flush_low : forall fuel reg bits, bits < 8 -> flush fuel reg bits = (reg, bits, []).
Proof. intros [|fuel] reg bits H; simpl; auto. destruct (Z.leb_spec 8 bits); auto. lia. Qed.

Lemma flush_one : forall fuel reg bits, (0 < fuel)%nat -> 8 <= bits < 16 -> 0 <= reg ->
  flush fuel reg bits = (reg mod 2 ^ (bits - 8), bits - 8, [reg / 2 ^ (bits - 8)]).
Proof.
  intros [|fuel] reg bits Hf H Hr; [lia|]. cbn [flush]. destruct (Z.leb_spec 8 bits); [|lia].
  assert (E : Z.shiftl reg (8 - bits) = Z.shiftr reg (bits - 8)).
  { rewrite <- Z.shiftr_opp_r. f_equal. lia. }
  rewrite E, lxor_top, flush_low by lia. rewrite Z.shiftr_div_pow2 by lia. reflexivity.
Qed.

Lemma six_range : forall c v, char_value c = Some v -> 0 <= v < 64.
Proof. intros c v H. apply char_value_spec in H. unfold six_bit_char in H. lia. Qed.

(** A character of the alphabet with fewer than two bits waiting *)
Lemma decode_char : forall c v rest reg bits, char_value c = Some v -> 0 <= bits < 8 -> 0 <= reg ->
  decode_loop (c :: rest) reg bits =
  if bits <? 2 then decode_loop rest (reg * 64 + v) (bits + 6)
  else (reg * 64 + v) / 2 ^ (bits - 2) :: decode_loop rest ((reg * 64 + v) mod 2 ^ (bits - 2)) (bits - 2).
Proof.
  intros c v rest reg bits Hc Hb Hr. cbn [decode_loop]. rewrite Hc. pose proof (six_range _ _ Hc) as Hv.
  rewrite lor_add by (try lia; change (2 ^ 6) with 64; lia). change (2 ^ 6) with 64.
  destruct (Z.ltb_spec bits 2).
  - rewrite flush_low by lia. reflexivity.
  - rewrite flush_one by lia. replace (bits + 6 - 8) with (bits - 2) by lia. reflexivity.
Qed.

Lemma decode_other : forall c rest reg bits, char_value c = None -> bits < 8 ->
  decode_loop (c :: rest) reg bits = decode_loop rest reg bits.
Proof. intros c rest reg bits Hc Hb. cbn [decode_loop]. rewrite Hc, flush_low by lia. reflexivity. Qed.

Ltac dlet i c H := let E := fresh in destruct (letter_ok i) as (c & E & H); [|rewrite E; clear E].

Lemma encode_group : forall a b c, byte a -> byte b -> byte c ->
  exists w x y z, write_all
    [letter (Z.shiftr (Z.lor (Z.lor (Z.shiftl a 16) (Z.shiftl b 8)) c) 18);
     letter (Z.land (Z.shiftr (Z.lor (Z.lor (Z.shiftl a 16) (Z.shiftl b 8)) c) 12) 63);
     letter (Z.land (Z.shiftr (Z.lor (Z.lor (Z.shiftl a 16) (Z.shiftl b 8)) c) 6) 63);
     letter (Z.land (Z.lor (Z.lor (Z.shiftl a 16) (Z.shiftl b 8)) c) 63)] = Some [w; x; y; z] /\
    char_value w = Some (a / 4) /\ char_value x = Some (a mod 4 * 16 + b / 16) /\
    char_value y = Some (b mod 16 * 4 + c / 64) /\ char_value z = Some (c mod 64).
Proof.
  intros a b c Ha Hb Hc. unfold byte in *.
  assert (E : Z.lor (Z.lor (Z.shiftl a 16) (Z.shiftl b 8)) c = a * 65536 + b * 256 + c).
  { assert (E1 : Z.lor (Z.shiftl a 16) (Z.shiftl b 8) = a * 65536 + b * 256).
    { rewrite (Z.shiftl_mul_pow2 b) by lia. change (2 ^ 8) with 256. rewrite lor_add by (change (2 ^ 16) with 65536; lia). reflexivity. }
    rewrite E1. assert (E2 : a * 65536 + b * 256 = Z.shiftl (a * 256 + b) 8).
    { rewrite Z.shiftl_mul_pow2 by lia. change (2 ^ 8) with 256. ring. }
    rewrite E2 at 1. rewrite lor_add by (change (2 ^ 8) with 256; lia). change (2 ^ 8) with 256. ring. }
  rewrite E, !land_63, !Z.shiftr_div_pow2 by lia.
  change (2 ^ 18) with 262144. change (2 ^ 12) with 4096. change (2 ^ 6) with 64.
  dlet ((a * 65536 + b * 256 + c) / 262144) w Hw; [Z.div_mod_to_equations; lia|].
  dlet ((a * 65536 + b * 256 + c) / 4096 mod 64) x Hx; [Z.div_mod_to_equations; lia|].
  dlet ((a * 65536 + b * 256 + c) / 64 mod 64) y Hy; [Z.div_mod_to_equations; lia|].
  dlet ((a * 65536 + b * 256 + c) mod 64) z Hz; [Z.div_mod_to_equations; lia|].
  exists w, x, y, z. split; [reflexivity|]. rewrite Hw, Hx, Hy, Hz.
  repeat split; f_equal; Z.div_mod_to_equations; lia.
Qed.

Lemma encode_two : forall a b, byte a -> byte b ->
  exists w x y, write_all
    [letter (Z.shiftr (Z.shiftl (Z.lor (Z.shiftl a 8) b) 2) 12);
     letter (Z.land (Z.shiftr (Z.shiftl (Z.lor (Z.shiftl a 8) b) 2) 6) 63);
     letter (Z.land (Z.shiftl (Z.lor (Z.shiftl a 8) b) 2) 63); Some pad; Some newline] = Some [w; x; y; pad; newline] /\
    char_value w = Some (a / 4) /\ char_value x = Some (a mod 4 * 16 + b / 16) /\
    char_value y = Some (b mod 16 * 4).
Proof.
  intros a b Ha Hb. unfold byte in *. rewrite lor_add by (change (2 ^ 8) with 256; lia).
  rewrite !land_63, !Z.shiftr_div_pow2, !Z.shiftl_mul_pow2 by lia.
  change (2 ^ 12) with 4096. change (2 ^ 6) with 64. change (2 ^ 2) with 4. change (2 ^ 8) with 256.
  dlet ((a * 256 + b) * 4 / 4096) w Hw; [Z.div_mod_to_equations; lia|].
  dlet ((a * 256 + b) * 4 / 64 mod 64) x Hx; [Z.div_mod_to_equations; lia|].
  dlet ((a * 256 + b) * 4 mod 64) y Hy; [Z.div_mod_to_equations; lia|].
  exists w, x, y. split; [reflexivity|]. rewrite Hw, Hx, Hy.
  repeat split; f_equal; Z.div_mod_to_equations; lia.
Qed.

Lemma encode_one : forall a, byte a ->
  exists w x, write_all
    [letter (Z.shiftr (Z.shiftl a 4) 6); letter (Z.land (Z.shiftl a 4) 63); Some pad; Some pad; Some newline] =
    Some [w; x; pad; pad; newline] /\
    char_value w = Some (a / 4) /\ char_value x = Some (a mod 4 * 16).
Proof.
  intros a Ha. unfold byte in *.
  rewrite !land_63, !Z.shiftr_div_pow2, !Z.shiftl_mul_pow2 by lia.
  change (2 ^ 6) with 64. change (2 ^ 4) with 16.
  dlet (a * 16 / 64) w Hw; [Z.div_mod_to_equations; lia|].
  dlet (a * 16 mod 64) x Hx; [Z.div_mod_to_equations; lia|].
  exists w, x. split; [reflexivity|]. rewrite Hw, Hx.
  repeat split; f_equal; Z.div_mod_to_equations; lia.
Qed.

Lemma dd_group3 : forall w x y z a b c rest, byte a -> byte b -> byte c ->
  char_value w = Some (a / 4) -> char_value x = Some (a mod 4 * 16 + b / 16) ->
  char_value y = Some (b mod 16 * 4 + c / 64) -> char_value z = Some (c mod 64) ->
  decode_loop (w :: x :: y :: z :: rest) 0 0 = a :: b :: c :: decode_loop rest 0 0.
Proof.
  intros w x y z a b c rest Ha Hb Hc Hw Hx Hy Hz. unfold byte in *.
  rewrite (decode_char _ _ _ _ _ Hw) by lia. change (0 <? 2) with true. cbv iota. 
  rewrite (decode_char _ _ _ _ _ Hx) by (try lia; Z.div_mod_to_equations; lia). change (0 + 6 <? 2) with false. cbv iota.
  change (0 + 6 - 2) with 4. change (2 ^ 4) with 16.
  assert (E1 : ((0 * 64 + a / 4) * 64 + (a mod 4 * 16 + b / 16)) / 16 = a) by (Z.div_mod_to_equations; lia).
  assert (E2 : ((0 * 64 + a / 4) * 64 + (a mod 4 * 16 + b / 16)) mod 16 = b / 16) by (Z.div_mod_to_equations; lia).
  rewrite E1, E2. f_equal.
  rewrite (decode_char _ _ _ _ _ Hy) by (try lia; Z.div_mod_to_equations; lia). change (4 <? 2) with false. cbv iota.
  change (4 - 2) with 2. change (2 ^ 2) with 4.
  assert (E3 : ((b / 16) * 64 + (b mod 16 * 4 + c / 64)) / 4 = b) by (Z.div_mod_to_equations; lia).
  assert (E4 : ((b / 16) * 64 + (b mod 16 * 4 + c / 64)) mod 4 = c / 64) by (Z.div_mod_to_equations; lia).
  rewrite E3, E4. f_equal.
  rewrite (decode_char _ _ _ _ _ Hz) by (try lia; Z.div_mod_to_equations; lia). change (2 <? 2) with false. cbv iota.
  change (2 - 2) with 0. change (2 ^ 0) with 1.
  assert (E5 : (c / 64 * 64 + c mod 64) / 1 = c) by (Z.div_mod_to_equations; lia).
  assert (E6 : (c / 64 * 64 + c mod 64) mod 1 = 0) by (Z.div_mod_to_equations; lia).
  rewrite E5, E6. reflexivity.
Qed.

Lemma dd_group2 : forall w x y a b, byte a -> byte b ->
  char_value w = Some (a / 4) -> char_value x = Some (a mod 4 * 16 + b / 16) -> char_value y = Some (b mod 16 * 4) ->
  decode_loop [w; x; y; pad; newline] 0 0 = [a; b].
Proof.
  intros w x y a b Ha Hb Hw Hx Hy. unfold byte in *.
  rewrite (decode_char _ _ _ _ _ Hw) by lia. change (0 <? 2) with true. cbv iota. 
  rewrite (decode_char _ _ _ _ _ Hx) by (try lia; Z.div_mod_to_equations; lia). change (0 + 6 <? 2) with false. cbv iota.
  change (0 + 6 - 2) with 4. change (2 ^ 4) with 16.
  assert (E1 : ((0 * 64 + a / 4) * 64 + (a mod 4 * 16 + b / 16)) / 16 = a) by (Z.div_mod_to_equations; lia).
  assert (E2 : ((0 * 64 + a / 4) * 64 + (a mod 4 * 16 + b / 16)) mod 16 = b / 16) by (Z.div_mod_to_equations; lia).
  rewrite E1, E2. f_equal.
  rewrite (decode_char _ _ _ _ _ Hy) by (try lia; Z.div_mod_to_equations; lia). change (4 <? 2) with false. cbv iota.
  change (4 - 2) with 2. change (2 ^ 2) with 4.
  assert (E3 : ((b / 16) * 64 + (b mod 16 * 4)) / 4 = b) by (Z.div_mod_to_equations; lia).
  rewrite E3. rewrite (decode_other pad) by (try reflexivity; lia). rewrite (decode_other newline) by (try reflexivity; lia). reflexivity.
Qed.

Lemma dd_group1 : forall w x a, byte a -> char_value w = Some (a / 4) -> char_value x = Some (a mod 4 * 16) ->
  decode_loop [w; x; pad; pad; newline] 0 0 = [a].
Proof.
  intros w x a Ha Hw Hx. unfold byte in *.
  rewrite (decode_char _ _ _ _ _ Hw) by lia. change (0 <? 2) with true. cbv iota. 
  rewrite (decode_char _ _ _ _ _ Hx) by (try lia; Z.div_mod_to_equations; lia). change (0 + 6 <? 2) with false. cbv iota.
  change (0 + 6 - 2) with 4. change (2 ^ 4) with 16.
  assert (E1 : ((0 * 64 + a / 4) * 64 + (a mod 4 * 16)) / 16 = a) by (Z.div_mod_to_equations; lia).
  rewrite E1. rewrite !(decode_other pad) by (try reflexivity; lia).
  rewrite (decode_other newline) by (try reflexivity; lia). reflexivity.
Qed.

Lemma list3_ind : forall (P : list Z -> Prop), P [] -> (forall a, P [a]) -> (forall a b, P [a; b]) ->
  (forall a b c l, P l -> P (a :: b :: c :: l)) -> forall l, P l.
Proof.
  intros P H0 H1 H2 H3. fix IH 1. intros [|a [|b [|c l]]]; [apply H0|apply H1|apply H2|apply H3; apply IH].
Qed.

Ltac bytes3 H := inversion H as [|? ? ?Ha H']; subst; inversion H' as [|? ? ?Hb H'']; subst;
  inversion H'' as [|? ? ?Hc H''']; subst.

Lemma decode_skip_newline : forall rest, decode_loop (newline :: rest) 0 0 = decode_loop rest 0 0.
Proof. intros. apply decode_other; [reflexivity|lia]. Qed.

Lemma round_trip : forall l, Forall byte l -> forall col, exists out, encode_loop l col = Some out /\ decode_loop out 0 0 = l.
Proof.
  induction l as [|a|a b|a b c l IH] using list3_ind; intros HB col.
  - exists [newline]. split; reflexivity.
  - inversion HB as [|? ? Ha _]; subst. destruct (encode_one a Ha) as (w & x & E & Hw & Hx).
    cbn [encode_loop]. cbv zeta. rewrite E. eexists. split; [reflexivity|]. apply dd_group1; auto.
  - inversion HB as [|? ? Ha HB1]; subst. inversion HB1 as [|? ? Hb _]; subst.
    destruct (encode_two a b Ha Hb) as (w & x & y & E & Hw & Hx & Hy).
    cbn [encode_loop]. cbv zeta. rewrite E. eexists. split; [reflexivity|]. apply dd_group2; auto.
  - inversion HB as [|? ? Ha HB1]; subst. inversion HB1 as [|? ? Hb HB2]; subst. inversion HB2 as [|? ? Hc HB3]; subst.
    destruct (encode_group a b c Ha Hb Hc) as (w & x & y & z & E & Hw & Hx & Hy & Hz).
    cbn [encode_loop]. cbv zeta. rewrite E.
    destruct (IH HB3 (if 76 <=? col + 4 then 0 else col + 4)) as (out & E2 & D). rewrite E2.
    eexists. split; [reflexivity|].
    change ([w; x; y; z] ++ (if 76 <=? col + 4 then [newline] else []) ++ out)
      with (w :: x :: y :: z :: (if 76 <=? col + 4 then [newline] else []) ++ out).
    rewrite (dd_group3 w x y z a b c); auto. do 3 f_equal.
    destruct (76 <=? col + 4); simpl app; [rewrite decode_skip_newline|]; exact D.
Qed.

(** ** Lines *)
Lemma lines_nonempty : forall l, lines l <> [].
Proof. induction l as [|c r IH]; simpl; [discriminate|]. destruct (c =? 10); [discriminate|]. destruct (lines r); discriminate. Qed.

Lemma lines_char : forall c r, c <> 10 -> lines (c :: r) = (c :: hd [] (lines r)) :: tl (lines r).
Proof.
  intros c r H. simpl. destruct (Z.eqb_spec c 10); [contradiction|]. destruct (lines r) eqn:E; [|reflexivity].
  exfalso. exact (lines_nonempty r E).
Qed.

Lemma char_not_newline : forall c v, char_value c = Some v -> c <> 10.
Proof. intros c v H E. subst c. discriminate. Qed.

Definition len_ok (l : list Z) : Prop := Z.of_nat (length l) <= 76.

(** The first line may use what is left of the line, the others 76. *)
Lemma encode_lines : forall l, Forall byte l -> forall col out, 0 <= col <= 72 -> col mod 4 = 0 ->
  encode_loop l col = Some out ->
  col + Z.of_nat (length (hd [] (lines out))) <= 76 /\ Forall len_ok (tl (lines out)).
Proof.
  unfold len_ok.
  induction l as [|a|a b|a b c l IH] using list3_ind; intros HB col out Hc Hm E0.
  - injection E0 as <-. simpl. split; [lia|]. repeat (constructor; [simpl; lia|]). constructor.
  - inversion HB as [|? ? Ha _]; subst. destruct (encode_one a Ha) as (w & x & E & Hw & Hx).
    cbn [encode_loop] in E0. cbv zeta in E0. rewrite E in E0. injection E0 as <-.
    rewrite !lines_char by first [eapply char_not_newline; eassumption | discriminate].
    simpl. split; [lia|]. repeat (constructor; [simpl; lia|]). constructor.
  - inversion HB as [|? ? Ha HB1]; subst. inversion HB1 as [|? ? Hb _]; subst.
    destruct (encode_two a b Ha Hb) as (w & x & y & E & Hw & Hx & Hy).
    cbn [encode_loop] in E0. cbv zeta in E0. rewrite E in E0. injection E0 as <-.
    rewrite !lines_char by first [eapply char_not_newline; eassumption | discriminate].
    simpl. split; [lia|]. repeat (constructor; [simpl; lia|]). constructor.
  - inversion HB as [|? ? Ha HB1]; subst. inversion HB1 as [|? ? Hb HB2]; subst. inversion HB2 as [|? ? Hd HB3]; subst.
    destruct (encode_group a b c Ha Hb Hd) as (w & x & y & z & E & Hw & Hx & Hy & Hz).
    cbn [encode_loop] in E0. cbv zeta in E0. rewrite E in E0.
    destruct (encode_loop l (if 76 <=? col + 4 then 0 else col + 4)) as [out'|] eqn:E2; [|discriminate].
    injection E0 as <-.
    change ([w; x; y; z] ++ (if 76 <=? col + 4 then [newline] else []) ++ out')
      with (w :: x :: y :: z :: (if 76 <=? col + 4 then [newline] else []) ++ out').
    rewrite !lines_char by (eapply char_not_newline; eassumption). cbn [hd tl length].
    destruct (Z.leb_spec 76 (col + 4)) as [L|L].
    + change ([newline] ++ out') with (newline :: out'). cbn [lines]. change (newline =? 10) with true. cbv iota. cbn [hd tl].
      destruct (IH HB3 0 out') as (I1 & I2); auto; try lia; try reflexivity. split; [simpl; lia|].
      destruct (lines out') as [|x0 xs] eqn:EL; [exfalso; exact (lines_nonempty _ EL)|]. cbn [hd tl] in I1, I2. constructor; [lia|exact I2].
    + change ([] ++ out') with out'.
      assert (col + 4 <= 72).
      { assert ((col + 4) mod 4 = 0) by (Z.div_mod_to_equations; lia). Z.div_mod_to_equations; lia. }
      destruct (IH HB3 (col + 4) out') as (I1 & I2); auto; try lia; [Z.div_mod_to_equations; lia|].
      split; [|exact I2]. rewrite !Nat2Z.inj_succ. lia.
Qed.

Lemma encode_chars : forall l, Forall byte l -> forall col out, encode_loop l col = Some out ->
  Forall (fun c => in_alphabet c \/ c = 61 \/ c = 10) out.
Proof.
  assert (A : forall c v, char_value c = Some v -> in_alphabet c \/ c = 61 \/ c = 10).
  { intros c v H. left. exists v. apply char_value_spec. exact H. }
  induction l as [|a|a b|a b c l IH] using list3_ind; intros HB col out E0.
  - injection E0 as <-. repeat (apply Forall_cons; [first [eapply A; eassumption | right; left; reflexivity | right; right; reflexivity]|]); apply Forall_nil.
  - inversion HB as [|? ? Ha _]; subst. destruct (encode_one a Ha) as (w & x & E & Hw & Hx).
    cbn [encode_loop] in E0. cbv zeta in E0. rewrite E in E0. injection E0 as <-.
    repeat (apply Forall_cons; [first [eapply A; eassumption | right; left; reflexivity | right; right; reflexivity]|]); apply Forall_nil.
  - inversion HB as [|? ? Ha HB1]; subst. inversion HB1 as [|? ? Hb _]; subst.
    destruct (encode_two a b Ha Hb) as (w & x & y & E & Hw & Hx & Hy).
    cbn [encode_loop] in E0. cbv zeta in E0. rewrite E in E0. injection E0 as <-.
    repeat (apply Forall_cons; [first [eapply A; eassumption | right; left; reflexivity | right; right; reflexivity]|]); apply Forall_nil.
  - inversion HB as [|? ? Ha HB1]; subst. inversion HB1 as [|? ? Hb HB2]; subst. inversion HB2 as [|? ? Hd HB3]; subst.
    destruct (encode_group a b c Ha Hb Hd) as (w & x & y & z & E & Hw & Hx & Hy & Hz).
    cbn [encode_loop] in E0. cbv zeta in E0. rewrite E in E0.
    destruct (encode_loop l (if 76 <=? col + 4 then 0 else col + 4)) as [out'|] eqn:E2; [|discriminate].
    assert (E3 := f_equal (fun o => match o with Some r => r | None => [] end) E0). cbv beta iota in E3. rewrite <- E3.
    apply Forall_app. split.
    + repeat (apply Forall_cons; [first [eapply A; eassumption | right; left; reflexivity | right; right; reflexivity]|]); apply Forall_nil.
    + apply Forall_app. split; [|eapply IH; eauto].
      destruct (76 <=? col + 4); repeat (apply Forall_cons; [first [eapply A; eassumption | right; left; reflexivity | right; right; reflexivity]|]); apply Forall_nil.
Qed.

(** ** Decoding any text *)
Lemma decode_filter : forall l reg bits, 0 <= bits < 8 -> 0 <= reg ->
  decode_loop l reg bits =
  decode_loop (filter (fun c => match char_value c with Some _ => true | None => false end) l) reg bits.
Proof.
  induction l as [|c l IH]; intros reg bits Hb Hr; auto. cbn [filter].
  destruct (char_value c) as [v|] eqn:E.
  - pose proof (six_range _ _ E). rewrite !(decode_char _ _ _ _ _ E) by lia. destruct (Z.ltb_spec bits 2).
    + apply IH; lia.
    + f_equal. apply IH; [lia|]. apply Z.mod_pos_bound. apply Z.pow_pos_nonneg; lia.
  - rewrite decode_other by (auto; lia). apply IH; auto.
Qed.

Lemma fold_base : forall B l n, fold_left (fun m d => m * B + d) l n = n * B ^ Z.of_nat (length l) + number B l.
Proof.
  intros B. unfold number. induction l as [|d l IH]; intros n.
  - simpl. lia.
  - cbn [fold_left length]. rewrite (IH (n * B + d)), (IH (0 * B + d)). rewrite Nat2Z.inj_succ, Z.pow_succ_r by lia. ring.
Qed.

Lemma number_cons : forall B d l, number B (d :: l) = d * B ^ Z.of_nat (length l) + number B l.
Proof. intros. unfold number at 1. cbn [fold_left]. rewrite fold_base. ring. Qed.

(** Decoding is base conversion: what comes out, followed by the bits left
    over, is the number that went in. *)
Lemma decode_number : forall l vs reg bits, Forall2 six_bit_char l vs -> 0 <= bits < 8 -> 0 <= reg < 2 ^ bits ->
  let out := decode_loop l reg bits in
  let total := bits + 6 * Z.of_nat (length l) in
  Forall byte out /\ Z.of_nat (length out) = total / 8 /\
  number 256 out = (reg * 64 ^ Z.of_nat (length l) + number 64 vs) / 2 ^ (total mod 8).
Proof.
  intros l vs reg bits H. revert reg bits. induction H as [|c v l vs Hc Hl IH]; intros reg bits Hb Hr; cbv zeta.
  - simpl. split; [constructor|]. unfold number. simpl. rewrite Z.mul_1_r, !Z.add_0_r.
    rewrite Z.mod_small by lia. rewrite !Z.div_small by lia. auto.
  - apply char_value_spec in Hc. pose proof (six_range _ _ Hc) as Hv.
    rewrite (decode_char _ _ _ _ _ Hc) by lia. cbn [length]. rewrite Nat2Z.inj_succ.
    assert (LL : length l = length vs) by (clear - Hl; induction Hl; simpl; auto).
    rewrite number_cons, <- LL. set (N := Z.of_nat (length l)) in *.
    destruct (Z.ltb_spec bits 2).
    + destruct (IH (reg * 64 + v) (bits + 6)) as (I1 & I2 & I3); [lia| |].
      { rewrite Z.pow_add_r by lia. change (2 ^ 6) with 64. nia. }
      fold N in I2, I3. split; [exact I1|]. replace (bits + 6 * Z.succ N) with (bits + 6 + 6 * N) by lia.
      split; [exact I2|]. rewrite I3. f_equal. rewrite Z.pow_succ_r by lia. ring.
    + assert (P : 0 < 2 ^ (bits - 2)) by (apply Z.pow_pos_nonneg; lia).
      pose proof (Z.mod_pos_bound (reg * 64 + v) (2 ^ (bits - 2)) P) as M.
      destruct (IH ((reg * 64 + v) mod 2 ^ (bits - 2)) (bits - 2)) as (I1 & I2 & I3); [lia|exact M|].
      fold N in I2, I3.
      set (q := (reg * 64 + v) / 2 ^ (bits - 2)) in *. set (r := (reg * 64 + v) mod 2 ^ (bits - 2)) in *.
      assert (Dm : reg * 64 + v = 2 ^ (bits - 2) * q + r) by (apply Z.div_mod; lia).
      assert (Hq : byte q).
      { unfold byte, q. split; [apply Z.div_pos; lia|]. apply Z.div_lt_upper_bound; [lia|].
        assert (2 ^ bits = 2 ^ (bits - 2) * 4) by (replace bits with (bits - 2 + 2) at 1 by lia; rewrite Z.pow_add_r; lia). nia. }
      split; [constructor; auto|].
      assert (Et : bits + 6 * Z.succ N = (bits - 2 + 6 * N) + 1 * 8) by lia.
      rewrite Et, Z.div_add, Z.mod_add by lia. cbn [length]. rewrite Nat2Z.inj_succ.
      split; [lia|]. rewrite number_cons, I3. rewrite I2. set (T := bits - 2 + 6 * N) in *.
      assert (PT : 0 <= T) by lia.
      assert (E : reg * 64 ^ Z.succ N + (v * 64 ^ N + number 64 vs) =
                  (q * 256 ^ (T / 8)) * 2 ^ (T mod 8) + (r * 64 ^ N + number 64 vs)).
      { assert (Epow : 256 ^ (T / 8) * 2 ^ (T mod 8) = 2 ^ (bits - 2) * 64 ^ N).
        { change 256 with (2 ^ 8). change 64 with (2 ^ 6).
          rewrite <- !Z.pow_mul_r by (try lia; apply Z.div_pos; lia).
          pose proof (Z.div_pos T 8). pose proof (Z.mod_pos_bound T 8).
          rewrite <- !Z.pow_add_r by lia. f_equal. pose proof (Z.div_mod T 8). unfold T in *. lia. }
        rewrite Z.pow_succ_r by lia. transitivity ((reg * 64 + v) * 64 ^ N + number 64 vs); [ring|]. rewrite Dm.
        transitivity (q * (2 ^ (bits - 2) * 64 ^ N) + r * 64 ^ N + number 64 vs); [ring|]. rewrite <- Epow. ring. }
      rewrite E. rewrite Z.div_add_l; [reflexivity|]. apply Z.pow_nonzero; [lia|]. apply Z.mod_pos_bound. lia.
Qed.

(** ** Padding *)
Lemma encode_padding : forall l, Forall byte l -> forall col out, encode_loop l col = Some out ->
  exists body, filter (fun c => negb (c =? 10)) out = body ++ repeat 61 (Z.to_nat (- Z.of_nat (length l) mod 3)) /\
    Forall in_alphabet body /\
    Z.of_nat (length body) + - Z.of_nat (length l) mod 3 = 4 * ((Z.of_nat (length l) + 2) / 3).
Proof.
  assert (A : forall c v, char_value c = Some v -> in_alphabet c).
  { intros c v H. exists v. apply char_value_spec. exact H. }
  assert (F : forall c v r, char_value c = Some v ->
    filter (fun c => negb (c =? 10)) (c :: r) = c :: filter (fun c => negb (c =? 10)) r).
  { intros c v r H. simpl. destruct (Z.eqb_spec c 10); auto. subst. discriminate. }
  induction l as [|a|a b|a b c l IH] using list3_ind; intros HB col out E0.
  - injection E0 as <-. exists []. simpl. repeat split. constructor.
  - inversion HB as [|? ? Ha _]; subst. destruct (encode_one a Ha) as (w & x & E & Hw & Hx).
    cbn [encode_loop] in E0. cbv zeta in E0. rewrite E in E0. injection E0 as <-.
    exists [w; x]. rewrite (F _ _ _ Hw), (F _ _ _ Hx). split; [reflexivity|].
    split; [repeat (apply Forall_cons; [eapply A; eassumption|]); constructor|reflexivity].
  - inversion HB as [|? ? Ha HB1]; subst. inversion HB1 as [|? ? Hb _]; subst.
    destruct (encode_two a b Ha Hb) as (w & x & y & E & Hw & Hx & Hy).
    cbn [encode_loop] in E0. cbv zeta in E0. rewrite E in E0. injection E0 as <-.
    exists [w; x; y]. rewrite (F _ _ _ Hw), (F _ _ _ Hx), (F _ _ _ Hy). split; [reflexivity|].
    split; [repeat (apply Forall_cons; [eapply A; eassumption|]); constructor|reflexivity].
  - inversion HB as [|? ? Ha HB1]; subst. inversion HB1 as [|? ? Hb HB2]; subst. inversion HB2 as [|? ? Hd HB3]; subst.
    destruct (encode_group a b c Ha Hb Hd) as (w & x & y & z & E & Hw & Hx & Hy & Hz).
    cbn [encode_loop] in E0. cbv zeta in E0. rewrite E in E0.
    destruct (encode_loop l (if 76 <=? col + 4 then 0 else col + 4)) as [out'|] eqn:E2; [|discriminate].
    assert (E3 := f_equal (fun o => match o with Some r => r | None => [] end) E0). cbv beta iota in E3. rewrite <- E3.
    destruct (IH HB3 _ _ E2) as (body & I1 & I2 & I3). exists (w :: x :: y :: z :: body).
    assert (L : Z.of_nat (length (a :: b :: c :: l)) = Z.of_nat (length l) + 3) by (cbn [length]; lia).
    assert (M : - Z.of_nat (length (a :: b :: c :: l)) mod 3 = - Z.of_nat (length l) mod 3).
    { rewrite L. clear. Z.div_mod_to_equations; lia. }
    rewrite M. rewrite L. split; [|split].
    + change ([w; x; y; z] ++ (if 76 <=? col + 4 then [newline] else []) ++ out')
        with (w :: x :: y :: z :: (if 76 <=? col + 4 then [newline] else []) ++ out').
      rewrite (F _ _ _ Hw), (F _ _ _ Hx), (F _ _ _ Hy), (F _ _ _ Hz). simpl app. do 4 f_equal. rewrite <- I1.
      destruct (76 <=? col + 4); reflexivity.
    + repeat (apply Forall_cons; [eapply A; eassumption|]). exact I2.
    + cbn [length]. rewrite !Nat2Z.inj_succ. clear - I3. Z.div_mod_to_equations; lia.
Qed.
