(** Proofs about MD5. *)
From Coq Require Import List ZArith Bool Lia ZifyBool Arith PeanoNat Znumtheory.
From Verif Require Import Md5_Model Md5_Spec.
Import ListNotations.
Open Scope Z_scope.

Definition w32 (x : Z) : Prop := 0 <= x < 2 ^ 32.
Definition w32r (r : regs) : Prop :=
  let '(a, b, c, d) := r in w32 a /\ w32 b /\ w32 c /\ w32 d.

Lemma m32_eq : m32 = 2 ^ 32. Proof. reflexivity. Qed.

Lemma w32_bit x n : w32 x -> 32 <= n -> Z.testbit x n = false.
Proof.
  intros W N. unfold w32 in W. rewrite <- (Z.mod_small x (2 ^ 32)) by exact W.
  apply Z.mod_pow2_bits_high. lia.
Qed.

Lemma inv_not x : w32 x -> inv x = not32 x.
Proof.
  intros W. unfold inv, not32. change (2 ^ 32 - 1) with (Z.ones 32).
  rewrite Z.sub_nocarry_ldiff.
  - apply Z.bits_inj'. intros n N. rewrite Z.ldiff_spec, Z.lxor_spec.
    destruct (Z.lt_ge_cases n 32).
    + rewrite Z.ones_spec_low by lia. destruct (Z.testbit x n); reflexivity.
    + rewrite Z.ones_spec_high by lia. rewrite (w32_bit x n) by (auto; lia). reflexivity.
  - apply Z.bits_inj'. intros n N. rewrite Z.ldiff_spec, Z.bits_0.
    destruct (Z.lt_ge_cases n 32).
    + rewrite Z.ones_spec_low by lia. destruct (Z.testbit x n); reflexivity.
    + rewrite (w32_bit x n) by (auto; lia). reflexivity.
Qed.

Lemma not32_bit x n : w32 x -> 0 <= n -> Z.testbit (not32 x) n = if n <? 32 then negb (Z.testbit x n) else false.
Proof.
  intros W N. unfold not32. rewrite Z.lxor_spec. destruct (Z.ltb_spec n 32).
  - rewrite Z.ones_spec_low by lia. destruct (Z.testbit x n); reflexivity.
  - rewrite Z.ones_spec_high by lia. rewrite (w32_bit x n) by (auto; lia). reflexivity.
Qed.

Lemma FF_F b c d : w32 b -> w32 c -> w32 d -> FF b c d = F b c d.
Proof.
  intros B C D. unfold FF, F. rewrite inv_not by assumption.
  apply Z.bits_inj'. intros n N.
  rewrite Z.lxor_spec, Z.lor_spec, !Z.land_spec, Z.lxor_spec, not32_bit by auto.
  destruct (Z.ltb_spec n 32).
  - destruct (Z.testbit b n), (Z.testbit c n), (Z.testbit d n); reflexivity.
  - rewrite (w32_bit c n), (w32_bit d n) by (auto; lia). destruct (Z.testbit b n); reflexivity.
Qed.
Lemma FG_G b c d : w32 b -> w32 c -> w32 d -> FG b c d = G b c d.
Proof.
  intros B C D. unfold FG, FF, G. rewrite inv_not by assumption.
  apply Z.bits_inj'. intros n N.
  rewrite Z.lxor_spec, Z.lor_spec, !Z.land_spec, Z.lxor_spec, not32_bit by auto.
  destruct (Z.ltb_spec n 32).
  - destruct (Z.testbit b n), (Z.testbit c n), (Z.testbit d n); reflexivity.
  - rewrite (w32_bit c n), (w32_bit d n), (w32_bit b n) by (auto; lia). reflexivity.
Qed.
Lemma FI_I b c d : w32 d -> FI b c d = I b c d.
Proof. intros D. unfold FI, I. rewrite inv_not by assumption. reflexivity. Qed.

Lemma lor_add a b : Z.land a b = 0 -> Z.lor a b = a + b.
Proof. intros E. rewrite <- Z.lxor_lor by exact E. symmetry. apply Z.add_nocarry_lxor. exact E. Qed.

Lemma cyclic_rotate w s : w32 w -> 0 < s < 32 -> cyclic w s = rotate w s.
Proof.
  intros W S. unfold cyclic, rotate. rewrite m32_eq, lor_add.
  - rewrite Z.shiftl_mul_pow2, Z.shiftr_div_pow2 by lia. reflexivity.
  - apply Z.bits_inj'. intros n N. rewrite Z.land_spec, Z.bits_0, Z.shiftr_spec by lia.
    destruct (Z.lt_ge_cases n s).
    + destruct (Z.lt_ge_cases n 32); [ | lia].
      rewrite Z.mod_pow2_bits_low by lia. rewrite Z.shiftl_spec_low by lia. reflexivity.
    + rewrite (w32_bit w (n + (32 - s))) by (auto; lia). apply andb_false_r.
Qed.

Lemma add32_w a b : w32 (add32 a b).
Proof. unfold w32, add32, m32. apply Z.mod_pos_bound. reflexivity. Qed.

(** ** The 64 operations *)

Definition kind_of (i : nat) : fkind :=
  if Nat.ltb i 16 then kF else if Nat.ltb i 32 then kG else if Nat.ltb i 48 then kH else kI.
Definition reg_of (i : nat) : reg :=
  nth (i mod 4) [rA; rD; rC; rB] rA.
Definition op_of (i : nat) : fkind * reg * nat * Z * Z :=
  (kind_of i, reg_of i, index i, shift i, T i).

Lemma ops_eq : ops = map op_of (seq 0 64).
Proof. vm_compute. reflexivity. Qed.

Lemma fn_aux i b c d : w32 b -> w32 c -> w32 d -> fn (kind_of i) b c d = aux i b c d.
Proof.
  intros B C D. unfold kind_of, aux.
  destruct (Nat.ltb i 16); [apply FF_F; auto | ].
  destruct (Nat.ltb i 32); [apply FG_G; auto | ].
  destruct (Nat.ltb i 48); [reflexivity | apply FI_I; auto].
Qed.

Lemma shift_range i : (i < 64)%nat -> 0 < shift i < 32.
Proof.
  intros H. assert (E : forallb (fun i => (0 <? shift i) && (shift i <? 32)) (seq 0 64) = true) by (vm_compute; reflexivity).
  rewrite forallb_forall in E. specialize (E i). rewrite in_seq in E.
  assert (0 <= i < 0 + 64)%nat as Q by lia. specialize (E Q). lia.
Qed.

Lemma op_value_step X i a b c d x :
  (i < 64)%nat -> w32 b -> w32 c -> w32 d -> x = X (index i) ->
  op_value (kind_of i) a b c d x (shift i) (T i) =
  (b + rotate ((a + aux i b c d + X (index i) + T i) mod 2 ^ 32) (shift i)) mod 2 ^ 32.
Proof.
  intros Hi B C D ->. unfold op_value. rewrite fn_aux by assumption.
  rewrite cyclic_rotate by (auto using add32_w, shift_range).
  unfold add32. rewrite m32_eq. rewrite (Z.add_comm b).
  replace ((a + ((aux i b c d + X (index i)) mod 2 ^ 32 + T i) mod 2 ^ 32) mod 2 ^ 32)
    with ((a + aux i b c d + X (index i) + T i) mod 2 ^ 32); [reflexivity | ].
  symmetry. rewrite Zplus_mod_idemp_r.
  replace (a + ((aux i b c d + X (index i)) mod 2 ^ 32 + T i))
    with ((aux i b c d + X (index i)) mod 2 ^ 32 + (a + T i)) by lia.
  rewrite Zplus_mod_idemp_l. f_equal. lia.
Qed.

Definition op4 (X : list Z) (q : nat) (r : regs) : regs :=
  op X (op X (op X (op X r (op_of (4 * q))) (op_of (4 * q + 1))) (op_of (4 * q + 2))) (op_of (4 * q + 3)).
Definition step4 (X : nat -> Z) (q : nat) (r : regs) : regs :=
  step X (step X (step X (step X r (4 * q)) (4 * q + 1)) (4 * q + 2)) (4 * q + 3).

Lemma mod4 q k : (k < 4)%nat -> ((4 * q + k) mod 4 = k)%nat.
Proof. intros K. rewrite Nat.add_comm, Nat.mul_comm, Nat.mod_add by lia. apply Nat.mod_small. exact K. Qed.

Lemma reg_of_4 q k : (k < 4)%nat -> reg_of (4 * q + k) = nth k [rA; rD; rC; rB] rA.
Proof. intros K. unfold reg_of. rewrite mod4 by exact K. reflexivity. Qed.

Lemma mod_w x : w32 (x mod 2 ^ 32).
Proof. unfold w32. apply Z.mod_pos_bound. reflexivity. Qed.

Lemma op4_step4 X Y q r :
  (q < 16)%nat -> (forall k, nth k X 0 = Y k) -> w32r r ->
  op4 X q r = step4 Y q r /\ w32r (op4 X q r).
Proof.
  intros Q E W. destruct r as [[[a b] c] d]. destruct W as (WA & WB & WC & WD).
  unfold op4, step4.
  assert (R0 : op_of (4 * q) = (kind_of (4 * q), rA, index (4 * q), shift (4 * q), T (4 * q))).
  { unfold op_of. rewrite <- (Nat.add_0_r (4 * q)) at 2. rewrite reg_of_4 by lia. reflexivity. }
  rewrite R0. unfold op_of. rewrite !reg_of_4 by lia. cbn [nth].
  cbn [op]. cbn [step].
  rewrite !E.
  rewrite (op_value_step Y (4 * q) a b c d) by (auto; lia).
  set (a1 := (b + rotate ((a + aux (4 * q) b c d + Y (index (4 * q)) + T (4 * q)) mod 2 ^ 32) (shift (4 * q))) mod 2 ^ 32).
  assert (W1 : w32 a1) by apply mod_w. clearbody a1.
  rewrite (op_value_step Y (4 * q + 1) d a1 b c) by (auto; lia).
  set (d1 := (a1 + rotate _ _) mod _). assert (W2 : w32 d1) by apply mod_w. clearbody d1.
  rewrite (op_value_step Y (4 * q + 2) c d1 a1 b) by (auto; lia).
  set (c1 := (d1 + rotate _ _) mod _). assert (W3 : w32 c1) by apply mod_w. clearbody c1.
  rewrite (op_value_step Y (4 * q + 3) b c1 d1 a1) by (auto; lia).
  set (b1 := (c1 + rotate _ _) mod _). assert (W4 : w32 b1) by apply mod_w.
  split; [reflexivity | ]. cbn. auto.
Qed.

Lemma seq64 : seq 0 64 = flat_map (fun q => [4 * q; 4 * q + 1; 4 * q + 2; 4 * q + 3]%nat) (seq 0 16).
Proof. reflexivity. Qed.

Lemma ops_steps X Y r :
  (forall k, nth k X 0 = Y k) -> w32r r ->
  fold_left (op X) ops r = fold_left (step Y) (seq 0 64) r /\ w32r (fold_left (op X) ops r).
Proof.
  intros E W. rewrite ops_eq, seq64.
  assert (G : forall l r, (forall q, In q l -> (q < 16)%nat) -> w32r r ->
    fold_left (op X) (map op_of (flat_map (fun q => [4 * q; 4 * q + 1; 4 * q + 2; 4 * q + 3]%nat) l)) r =
    fold_left (step Y) (flat_map (fun q => [4 * q; 4 * q + 1; 4 * q + 2; 4 * q + 3]%nat) l) r /\
    w32r (fold_left (op X) (map op_of (flat_map (fun q => [4 * q; 4 * q + 1; 4 * q + 2; 4 * q + 3]%nat) l)) r)).
  { clear r W. induction l as [ | q l IH]; intros r L W; [auto | ].
    cbn [flat_map]. rewrite map_app, !fold_left_app.
    destruct (op4_step4 X Y q r) as [E1 W1]; auto; [apply L; left; reflexivity | ].
    change (fold_left (op X) (map op_of [(4 * q)%nat; (4 * q + 1)%nat; (4 * q + 2)%nat; (4 * q + 3)%nat]) r) with (op4 X q r).
    change (fold_left (step Y) [(4 * q)%nat; (4 * q + 1)%nat; (4 * q + 2)%nat; (4 * q + 3)%nat] r) with (step4 Y q r).
    rewrite <- E1. apply IH; [intros; apply L; right; assumption | exact W1]. }
  apply G; [ | exact W]. intros q Q. apply in_seq in Q. lia.
Qed.

(** ** Blocks *)

Lemma nth_skipn {A} n m (l : list A) d : nth m (skipn n l) d = nth (n + m) l d.
Proof. revert l. induction n as [ | n IH]; intros [ | x l]; cbn; auto. destruct m; reflexivity. Qed.

Lemma nth_firstn {A} n m (l : list A) d : (m < n)%nat -> nth m (firstn n l) d = nth m l d.
Proof.
  revert m l. induction n as [ | n IH]; intros m [ | x l] H; cbn; try lia; auto.
  destruct m; [reflexivity | ]. apply IH. lia.
Qed.

Lemma words16_nth b k : (length b <= 64)%nat \/ True -> nth k (words16 b) 0 = if Nat.ltb k 16 then block_word b k else 0.
Proof.
  intros _. unfold words16. destruct (Nat.ltb_spec k 16).
  - rewrite (nth_indep _ 0 (word (skipn (4 * 0) b))) by (rewrite map_length, seq_length; lia).
    rewrite (map_nth (fun i => word (skipn (4 * i) b))). rewrite seq_nth by lia. rewrite Nat.add_0_l.
    unfold word, block_word. rewrite !nth_skipn. rewrite Nat.add_0_r.
    change (2 ^ 8) with 256. change (2 ^ 16) with 65536. change (2 ^ 24) with 16777216. lia.
  - apply nth_overflow. rewrite map_length, seq_length. lia.
Qed.

Lemma index_16 i : (i < 64)%nat -> (index i < 16)%nat.
Proof.
  intros H. unfold index. destruct (Nat.ltb_spec i 16); [lia | ].
  destruct (Nat.ltb i 32); [apply Nat.mod_upper_bound; lia | ].
  destruct (Nat.ltb i 48); apply Nat.mod_upper_bound; lia.
Qed.

Lemma step_ext X Y r i : (forall k, (k < 16)%nat -> X k = Y k) -> (i < 64)%nat -> step X r i = step Y r i.
Proof. intros E H. destruct r as [[[a b] c] d]. unfold step. rewrite E by (apply index_16; lia). reflexivity. Qed.

Lemma steps_ext X Y l r : (forall k, (k < 16)%nat -> X k = Y k) -> (forall i, In i l -> (i < 64)%nat) ->
  fold_left (step X) l r = fold_left (step Y) l r.
Proof.
  intros E. revert r. induction l as [ | i l IH]; intros r L; [reflexivity | ].
  cbn [fold_left]. rewrite (step_ext X Y r i E) by (apply L; left; reflexivity). apply IH.
  intros; apply L; right; assumption.
Qed.

Lemma round_compress b r : w32r r -> round b r = compress r (firstn 64 b) /\ w32r (round b r).
Proof.
  intros W. unfold round, compress. destruct r as [[[A B] C] D].
  destruct (ops_steps (words16 b) (fun k => nth k (words16 b) 0) (A, B, C, D)) as [E _]; auto.
  rewrite E.
  rewrite (steps_ext (fun k => nth k (words16 b) 0) (block_word (firstn 64 b))).
  - destruct (fold_left (step (block_word (firstn 64 b))) (seq 0 64) (A, B, C, D)) as [[[a' b'] c'] d'].
    unfold add32. rewrite m32_eq.
    rewrite (Z.add_comm a'), (Z.add_comm b'), (Z.add_comm c'), (Z.add_comm d').
    split; [reflexivity | ]. cbn -[Z.pow]. repeat split; apply mod_w.
  - intros k K. rewrite words16_nth by auto. destruct (Nat.ltb_spec k 16); [ | lia].
    unfold block_word. rewrite !nth_firstn by lia. reflexivity.
  - intros i Hi. apply in_seq in Hi. lia.
Qed.

Definition chunks (n : nat) (b : list Z) : list (list Z) :=
  map (fun i => firstn 64 (skipn (64 * i) b)) (seq 0 n).

Lemma skipn_add {A} n m (l : list A) : skipn n (skipn m l) = skipn (m + n) l.
Proof. revert l. induction m as [ | m IH]; intros l; [reflexivity | ]. destruct l; cbn; [apply skipn_nil | apply IH]. Qed.

Lemma chunks_S n b : chunks (S n) b = firstn 64 b :: chunks n (skipn 64 b).
Proof.
  unfold chunks. cbn [seq map]. rewrite Nat.mul_0_r. change (skipn 0 b) with b. f_equal.
  rewrite <- seq_shift, map_map. apply map_ext. intros i. rewrite skipn_add. do 2 f_equal. lia.
Qed.

Lemma chunks_app n m a b : length a = (64 * n)%nat -> chunks (n + m) (a ++ b) = chunks n a ++ chunks m b.
Proof.
  revert a. induction n as [ | n IH]; intros a L.
  - destruct a; [reflexivity | cbn in L; lia].
  - change (S n + m)%nat with (S (n + m)). rewrite !chunks_S. cbn [app].
    rewrite firstn_app, skipn_app.
    replace (64 - length a)%nat with 0%nat by lia. change (firstn 0 b) with (@nil Z). change (skipn 0 b) with b. rewrite app_nil_r. f_equal.
    apply IH. rewrite skipn_length. lia.
Qed.

Lemma rounds_chunks n b fuel r :
  length b = (64 * n)%nat -> (n <= fuel)%nat -> w32r r ->
  rounds fuel b r = fold_left compress (chunks n b) r /\ w32r (rounds fuel b r).
Proof.
  revert b fuel r. induction n as [ | n IH]; intros b fuel r L F W.
  - destruct b; [ | cbn in L; lia]. destruct fuel; cbn; auto.
  - destruct fuel as [ | fuel]; [lia | ]. destruct b as [ | x b]; [cbn in L; lia | ].
    set (bb := x :: b) in *. change (rounds (S fuel) bb r) with (rounds fuel (skipn 64 bb) (round bb r)).
    rewrite chunks_S. cbn [fold_left]. destruct (round_compress bb r W) as [E W'].
    rewrite <- E. apply IH; [rewrite skipn_length; lia | lia | exact W'].
Qed.

(** ** The context *)

Definition iv : regs := (0x67452301, 0xefcdab89, 0x98badcfe, 0x10325476).

Definition Proc (c : ctx) (P : list Z) : Prop :=
  exists n, length P = (64 * n)%nat /\ abcd c = fold_left compress (chunks n P) iv /\ w32r (abcd c) /\
  0 <= total0 c < 2 ^ 32 /\ 0 <= total1 c < 2 ^ 32 /\
  total0 c + 2 ^ 32 * total1 c = Z.of_nat (length P) mod 2 ^ 64.

Lemma count_total len c t :
  0 <= len < 2 ^ 32 -> 0 <= total0 c < 2 ^ 32 -> 0 <= total1 c < 2 ^ 32 ->
  total0 c + 2 ^ 32 * total1 c = t mod 2 ^ 64 ->
  0 <= total0 (count len c) < 2 ^ 32 /\ 0 <= total1 (count len c) < 2 ^ 32 /\
  total0 (count len c) + 2 ^ 32 * total1 (count len c) = (t + len) mod 2 ^ 64.
Proof.
  intros L T0 T1 E. unfold count. cbn [total0 total1]. rewrite m32_eq.
  assert (X : (t + len) mod 2 ^ 64 = (total0 c + 2 ^ 32 * total1 c + len) mod 2 ^ 64).
  { rewrite E. rewrite Zplus_mod_idemp_l. reflexivity. }
  rewrite X. clear X E. change (2 ^ 64) with (2 ^ 32 * 2 ^ 32). set (M := 2 ^ 32) in *.
  assert (M0 : 1 < M) by reflexivity. clearbody M.
  assert (0 <= (total0 c + len) mod M < M) by (apply Z.mod_pos_bound; lia).
  assert (0 <= (total1 c + 1) mod M < M) by (apply Z.mod_pos_bound; lia).
  destruct (Z.lt_ge_cases (total0 c + len) M) as [B | B].
  - rewrite (Z.mod_small (total0 c + len) M) in * by lia.
    destruct (Z.ltb_spec (total0 c + len) len); [lia | ].
    split; [lia | ]. split; [lia | ]. rewrite Z.mod_small; [lia | ]. nia.
  - assert (E : (total0 c + len) mod M = total0 c + len - M).
    { symmetry. apply (Z.mod_unique _ _ 1); lia. }
    rewrite E in *. destruct (Z.ltb_spec (total0 c + len - M) len); [ | lia].
    split; [lia | ]. split; [lia | ].
    destruct (Z.eq_dec (total1 c + 1) M) as [E1 | N1].
    + rewrite E1, Z.mod_same by lia. apply (Z.mod_unique _ _ 1); nia.
    + rewrite (Z.mod_small (total1 c + 1)) by lia. rewrite Z.mod_small; nia.
Qed.

Lemma process_block_Proc b c P k :
  Proc c P -> length b = (64 * k)%nat -> Z.of_nat (length b) < 2 ^ 32 ->
  Proc (process_block b c) (P ++ b) /\ buflen (process_block b c) = buflen c /\
  buffer (process_block b c) = buffer c.
Proof.
  intros (n & L & A & W & T0 & T1 & T) LB SZ.
  destruct (count_total (Z.of_nat (length b)) c _ ltac:(lia) T0 T1 T) as (C0 & C1 & C2).
  split; [ | split; reflexivity].
  exists (n + k)%nat. rewrite app_length. split; [lia | ].
  rewrite chunks_app by exact L. rewrite fold_left_app, <- A.
  assert (E : abcd (process_block b c) = rounds (length b) b (abcd c)) by reflexivity. rewrite E.
  destruct (rounds_chunks k b (length b) (abcd c) LB ltac:(lia) W) as [R1 R2].
  split; [exact R1 | ]. split; [exact R2 | ].
  cbn [process_block total0 total1]. split; [exact C0 | ]. split; [exact C1 | ].
  rewrite C2. f_equal. lia.
Qed.

Definition Rep (c : ctx) (m : list Z) : Prop :=
  exists P, m = P ++ firstn (buflen c) (buffer c) /\ Proc c P /\
  (buflen c <= 64)%nat /\ length (buffer c) = 128%nat.

Lemma Proc_set_buf n b c P : Proc c P -> Proc (set_buf n b c) P.
Proof. intros H. exact H. Qed.

Lemma put_length pos src b : (pos + length src <= length b)%nat -> length (put pos src b) = length b.
Proof. intros H. unfold put. rewrite !app_length, firstn_length, skipn_length. lia. Qed.

Lemma put_firstn pos src b : (pos + length src <= length b)%nat ->
  firstn (pos + length src) (put pos src b) = firstn pos b ++ src.
Proof.
  intros H. unfold put. rewrite app_assoc, firstn_app.
  rewrite (firstn_all2 (firstn pos b ++ src)) by (rewrite app_length, firstn_length; lia).
  rewrite app_length, firstn_length. replace (pos + length src - (Nat.min pos (length b) + length src))%nat with 0%nat by lia.
  cbn [firstn]. apply app_nil_r.
Qed.

Lemma blocks_excess n : n = (blocks_of n + excess n)%nat /\ (excess n < 64)%nat.
Proof.
  unfold blocks_of, excess. split; [apply Nat.div_mod; lia | apply Nat.mod_upper_bound; lia].
Qed.

(** The last part of md5_process_bytes, with an empty buffer *)
Lemma process_rest_Rep data c P :
  Proc c P -> length (buffer c) = 128%nat -> buflen c = 0%nat -> Z.of_nat (length data) < 2 ^ 32 ->
  Rep (let '(data, c) :=
         if Nat.ltb 64 (length data) then
           (skipn (blocks_of (length data)) data,
            process_block (firstn (blocks_of (length data)) data) c)
         else (data, c) in
       if Nat.ltb 0 (length data) then set_buf (length data) (put 0 data (buffer c)) c else c)
      (P ++ data).
Proof.
  intros H LB B0 SZ.
  assert (X : forall data c P, Proc c P -> length (buffer c) = 128%nat -> buflen c = 0%nat -> (length data <= 64)%nat ->
    Rep (if Nat.ltb 0 (length data) then set_buf (length data) (put 0 data (buffer c)) c else c) (P ++ data)).
  { clear. intros data c P H LB B0 L. destruct (Nat.ltb_spec 0 (length data)).
    - exists P. cbn [set_buf buflen buffer]. pose proof (put_firstn 0 data (buffer c) ltac:(lia)) as E.
      cbn [Nat.add firstn app] in E. rewrite E. split; [reflexivity | ]. split; [exact H | ].
      split; [exact L | ]. rewrite put_length by lia. exact LB.
    - destruct data; [ | cbn in *; lia]. exists P. rewrite B0. cbn [firstn]. split; [reflexivity | ].
      split; [exact H | ]. split; [lia | exact LB]. }
  destruct (Nat.ltb_spec 64 (length data)).
  - destruct (blocks_excess (length data)) as [B1 B2].
    destruct (process_block_Proc (firstn (blocks_of (length data)) data) c P (length data / 64)) as (Q1 & Q2 & Q3).
    + exact H.
    + rewrite firstn_length. unfold blocks_of in *. lia.
    + rewrite firstn_length. lia.
    + replace (P ++ data) with ((P ++ firstn (blocks_of (length data)) data) ++ skipn (blocks_of (length data)) data)
        by (rewrite <- app_assoc, firstn_skipn; reflexivity).
      apply X; [exact Q1 | rewrite Q3; exact LB | rewrite Q2; exact B0 | rewrite skipn_length; lia].
  - apply X; auto.
Qed.

Lemma firstn_plus {A} a b (l : list A) : firstn (a + b) l = firstn a l ++ firstn b (skipn a l).
Proof. revert l. induction a as [ | a IH]; intros [ | x l]; cbn; try reflexivity; [symmetry; destruct b; reflexivity | f_equal; apply IH]. Qed.

Lemma process_bytes_Rep data c m :
  Rep c m -> Z.of_nat (length data) < 2 ^ 32 -> Rep (process_bytes data c) (m ++ data).
Proof.
  intros (P & -> & H & L & LB) SZ. unfold process_bytes.
  destruct (Nat.eqb_spec (buflen c) 0) as [B0 | B0].
  - rewrite B0. cbn [firstn]. rewrite app_nil_r. apply process_rest_Rep; assumption.
  - set (lo := buflen c) in *.
    set (add := if Nat.ltb (length data) (128 - lo) then length data else (128 - lo)%nat).
    assert (AD : (add <= length data)%nat /\ (lo + add <= 128)%nat /\ (add < length data -> lo + add = 128)%nat).
    { unfold add. destruct (Nat.ltb_spec (length data) (128 - lo)); lia. }
    set (q := firstn lo (buffer c)).
    set (b1 := put lo (firstn add data) (buffer c)).
    assert (LF : length (firstn add data) = add) by (rewrite firstn_length; lia).
    assert (E1 : firstn (lo + add) b1 = q ++ firstn add data).
    { unfold b1. rewrite <- LF at 1. apply put_firstn. lia. }
    assert (L1 : length b1 = 128%nat) by (unfold b1; rewrite put_length; lia).
    destruct (Nat.ltb_spec 64 (lo + add)) as [G | G].
    + set (n := (lo + add)%nat) in *. destruct (blocks_excess n) as [B1 B2].
      destruct (process_block_Proc (firstn (blocks_of n) b1) (set_buf n b1 c) P (n / 64)) as (Q1 & Q2 & Q3).
      { exact H. }
      { rewrite firstn_length. unfold blocks_of in *. lia. }
      { rewrite firstn_length. assert (n <= 128)%nat by (unfold n; lia). lia. }
      set (c1 := process_block (firstn (blocks_of n) b1) (set_buf n b1 c)) in *.
      change (buffer (set_buf n b1 c)) with b1 in *. fold c1.
      set (ex := firstn (excess n) (skipn (blocks_of n) (buffer c1))).
      assert (LX : length ex = excess n) by (unfold ex; rewrite Q3, firstn_length, skipn_length; lia).
      assert (EX : q ++ firstn add data = firstn (blocks_of n) b1 ++ ex).
      { rewrite <- E1. unfold ex. rewrite Q3. rewrite B1 at 1. apply firstn_plus. }
      clearbody ex.
      assert (TOT : (P ++ q) ++ data = (P ++ firstn (blocks_of n) b1 ++ ex) ++ skipn add data).
      { rewrite <- EX, <- !app_assoc, firstn_skipn. reflexivity. }
      rewrite TOT.
      assert (LC : length (buffer c1) = 128%nat) by (rewrite Q3; exact L1).
      assert (LPUT : length (put 0 ex (buffer c1)) = 128%nat) by (rewrite put_length; lia).
      destruct (Nat.eq_dec (excess n) 0) as [X0 | X0].
      * assert (ex = []) by (apply length_zero_iff_nil; rewrite LX; exact X0).
        subst ex. rewrite app_nil_r.
        apply process_rest_Rep; [exact Q1 | exact LPUT | exact X0 | rewrite skipn_length; lia].
      * assert (AE : add = length data).
        { destruct (Nat.eq_dec add (length data)); [assumption | ].
          assert (n = 128)%nat by (unfold n; lia). subst n. rewrite H0 in X0. cbn in X0. lia. }
        rewrite AE, skipn_all. cbn [length Nat.ltb Nat.leb]. rewrite app_nil_r.
        exists (P ++ firstn (blocks_of n) b1). cbn [set_buf buflen buffer].
        pose proof (put_firstn 0 ex (buffer c1) ltac:(lia)) as E2. cbn [Nat.add firstn app] in E2.
        rewrite LX in E2. rewrite E2. split; [rewrite app_assoc; reflexivity | ].
        split; [exact Q1 | ]. split; [lia | exact LPUT].
    + assert (AE : add = length data) by lia. rewrite AE in *. rewrite firstn_all in *. rewrite skipn_all.
      cbn [length Nat.ltb Nat.leb].
      exists P. cbn [set_buf buflen buffer]. rewrite E1. split; [rewrite app_assoc; reflexivity | ].
      split; [exact H | ]. split; [exact G | exact L1].
Qed.

(** ** The end of the message *)

Lemma le32_bytes w : le32 w = bytes_le 4 w.
Proof.
  unfold le32, bytes_le. cbn [seq map].
  change (8 * Z.of_nat 0) with 0. change (8 * Z.of_nat 1) with 8. change (8 * Z.of_nat 2) with 16.
  change (8 * Z.of_nat 3) with 24. change (2 ^ 0) with 1. change (2 ^ 8) with 256.
  change (2 ^ 16) with 65536. change (2 ^ 24) with 16777216. rewrite Z.div_1_r. reflexivity.
Qed.

Lemma bytes_le_8 x : bytes_le 8 x = bytes_le 4 (x mod 2 ^ 32) ++ bytes_le 4 (x / 2 ^ 32).
Proof.
  unfold bytes_le. change (seq 0 8) with (seq 0 4 ++ seq 4 4). rewrite map_app. f_equal.
  - apply map_ext_in. intros i Hi. apply in_seq in Hi.
    assert (E : 2 ^ 32 = 2 ^ (8 * Z.of_nat i) * (256 * 2 ^ (24 - 8 * Z.of_nat i))).
    { change 256 with (2 ^ 8). rewrite <- !Z.pow_add_r by lia. f_equal. lia. }
    rewrite E. assert (0 < 2 ^ (8 * Z.of_nat i)) by (apply Z.pow_pos_nonneg; lia).
    assert (0 < 2 ^ (24 - 8 * Z.of_nat i)) by (apply Z.pow_pos_nonneg; lia).
    rewrite Z.rem_mul_r by lia.
    rewrite (Z.mul_comm (2 ^ (8 * Z.of_nat i))), Z.div_add by lia.
    rewrite (Z.div_small (x mod _)) by (apply Z.mod_pos_bound; lia). rewrite Z.add_0_l.
    apply Znumtheory.Zmod_div_mod; try lia. exists (2 ^ (24 - 8 * Z.of_nat i)). lia.
  - change (seq 4 4) with (map (fun i => (4 + i)%nat) (seq 0 4)). rewrite map_map. apply map_ext_in.
    intros i Hi. apply in_seq in Hi.
    rewrite Z.div_div by (try apply Z.pow_pos_nonneg; try apply Z.pow_nonzero; lia).
    rewrite <- Z.pow_add_r by lia. do 3 f_equal. lia.
Qed.

Lemma length_field t t0 t1 :
  0 <= t0 < 2 ^ 32 -> 0 <= t1 < 2 ^ 32 -> t0 + 2 ^ 32 * t1 = t mod 2 ^ 64 ->
  le32 (Z.shiftl t0 3 mod m32) ++ le32 (Z.lor (Z.shiftl t1 3 mod m32) (Z.shiftr t0 29)) =
  bytes_le 8 (8 * t mod 2 ^ 64).
Proof.
  intros T0 T1 E. rewrite bytes_le_8, !le32_bytes, m32_eq.
  assert (S : 8 * t mod 2 ^ 64 = (8 * t0 + 2 ^ 32 * (8 * t1)) mod 2 ^ 64).
  { replace (8 * t0 + 2 ^ 32 * (8 * t1)) with (8 * (t0 + 2 ^ 32 * t1)) by lia. rewrite E.
    rewrite Zmult_mod_idemp_r. reflexivity. }
  rewrite S. clear S E.
  assert (L : Z.lor (Z.shiftl t1 3 mod 2 ^ 32) (Z.shiftr t0 29) = (8 * t1) mod 2 ^ 32 + t0 / 2 ^ 29).
  { rewrite lor_add.
    - rewrite Z.shiftl_mul_pow2, Z.shiftr_div_pow2 by lia. f_equal. f_equal. lia.
    - apply Z.bits_inj'. intros n N. rewrite Z.land_spec, Z.bits_0, Z.shiftr_spec by lia.
      destruct (Z.lt_ge_cases n 3).
      + rewrite Z.mod_pow2_bits_low by lia. rewrite Z.shiftl_spec_low by lia. reflexivity.
      + rewrite (w32_bit t0 (n + 29)) by (unfold w32; lia). apply andb_false_r. }
  rewrite L. clear L.
  replace (Z.shiftl t0 3) with (8 * t0) by (rewrite Z.shiftl_mul_pow2 by lia; lia).
  change (2 ^ 64) with (2 ^ 32 * 2 ^ 32). change (2 ^ 32) with (8 * 2 ^ 29) in *. set (K := 2 ^ 29) in *.
  assert (K0 : 1 < K) by reflexivity. clearbody K.
  assert (D : (8 * t0 + 8 * K * (8 * t1)) mod (8 * K * (8 * K)) =
              (8 * t0) mod (8 * K) + 8 * K * ((8 * t1 + t0 / K) mod (8 * K))).
  { rewrite Z.rem_mul_r by lia. rewrite (Z.mul_comm (8 * K) (8 * t1)), Z.mod_add by lia.
    rewrite Z.div_add by lia. rewrite Z.div_mul_cancel_l by lia. rewrite (Z.add_comm (8 * t1)). reflexivity. }
  assert (Q : (8 * t1 + t0 / K) mod (8 * K) = (8 * t1) mod (8 * K) + t0 / K).
  { rewrite Z.mul_mod_distr_l by lia.
    assert (0 <= t0 / K < 8) by (split; [apply Z.div_pos; lia | apply Z.div_lt_upper_bound; lia]).
    assert (0 <= t1 mod K < K) by (apply Z.mod_pos_bound; lia).
    assert (t1 = K * (t1 / K) + t1 mod K) by (apply Z.div_mod; lia).
    symmetry. apply (Z.mod_unique _ _ (t1 / K)); nia. }
  rewrite D, Q.
  assert (0 <= (8 * t0) mod (8 * K) < 8 * K) by (apply Z.mod_pos_bound; lia).
  f_equal.
  - f_equal. rewrite (Z.mul_comm (8 * K)), Z.mod_add by lia. rewrite Z.mod_mod by lia. reflexivity.
  - f_equal. rewrite (Z.mul_comm (8 * K)), Z.div_add by lia. rewrite (Z.div_small ((8 * t0) mod (8 * K))) by lia. reflexivity.
Qed.

Lemma chunks_blocks n M : length M = (64 * n)%nat -> blocks M = chunks n M.
Proof.
  intros L. unfold blocks, chunks. rewrite L. rewrite Nat.mul_comm, Nat.div_mul by lia. reflexivity.
Qed.

Lemma finish_Rep c m : Rep c m -> finish_ctx c = md5 m.
Proof.
  intros (P & -> & (n & LP & A & W & T0 & T1 & T) & L & LB).
  unfold finish_ctx. set (bl := buflen c) in *. set (q := firstn bl (buffer c)) in *.
  assert (LQ : length q = bl) by (unfold q; rewrite firstn_length; lia).
  destruct (count_total (Z.of_nat bl) c _ ltac:(lia) T0 T1 T) as (C0 & C1 & C2).
  set (c1 := count (Z.of_nat bl) c) in *.
  change (buffer c1) with (buffer c). 
  set (pad := if Nat.leb 56 bl then (64 + 56 - bl)%nat else (56 - bl)%nat).
  assert (PD : (1 <= pad <= 64)%nat /\ exists k, (bl + pad + 8 = 64 * k)%nat).
  { unfold pad. destruct (Nat.leb_spec 56 bl); (split; [lia | ]); [exists 2%nat | exists 1%nat]; lia. }
  destruct PD as (PD & k & PK).
  set (lo := le32 (Z.shiftl (total0 c1) 3 mod m32)).
  set (hi := le32 (Z.lor (Z.shiftl (total1 c1) 3 mod m32) (Z.shiftr (total0 c1) 29))).
  assert (LF : length (firstn pad fillbuf) = pad).
  { rewrite firstn_length. change (length fillbuf) with 64%nat. lia. }
  assert (BK : (bl + pad + 8 <= 128)%nat).
  { unfold pad. destruct (Nat.leb_spec 56 bl); lia. }
  set (b1 := put bl (firstn pad fillbuf) (buffer c)).
  assert (L1 : length b1 = 128%nat) by (unfold b1; rewrite put_length; lia).
  set (b2 := put (bl + pad) lo b1).
  assert (L2 : length b2 = 128%nat) by (unfold b2; rewrite put_length; [exact L1 | change (length lo) with 4%nat; lia]).
  set (tail := firstn (bl + pad + 8) (put (bl + pad + 4) hi b2)).
  assert (TL : tail = q ++ firstn pad fillbuf ++ lo ++ hi).
  { unfold tail. replace (bl + pad + 8)%nat with (bl + pad + 4 + length hi)%nat by (change (length hi) with 4%nat; lia).
    rewrite put_firstn by (change (length hi) with 4%nat; lia).
    unfold b2. replace (bl + pad + 4)%nat with (bl + pad + length lo)%nat by (change (length lo) with 4%nat; lia).
    rewrite put_firstn by (change (length lo) with 4%nat; lia).
    unfold b1. rewrite <- LF at 1. rewrite put_firstn by lia. rewrite <- !app_assoc. reflexivity. }
  assert (LT : length tail = (64 * k)%nat).
  { rewrite TL, !app_length, LQ, LF. change (length lo) with 4%nat. change (length hi) with 4%nat. lia. }
  assert (PAD : padded (P ++ q) = P ++ tail).
  { unfold padded. rewrite <- app_assoc. f_equal. rewrite TL. f_equal.
    rewrite app_length, LP, LQ.
    assert (X : firstn pad fillbuf = [128] ++ repeat 0 (pad - 1)).
    { destruct pad as [ | pd]; [lia | ]. cbn [fillbuf firstn app]. f_equal.
      replace (S pd - 1)%nat with pd by lia.
      assert (PD' : (pd <= 63)%nat) by lia. clear - PD'. revert PD'. generalize 63%nat. 
      induction pd as [ | pd IH]; intros [ | z] H; cbn; try lia; auto. f_equal. apply IH. lia. }
    rewrite X, <- app_assoc. f_equal. f_equal.
    - f_equal. symmetry. unfold pad. destruct (Nat.leb_spec 56 bl).
      + assert (E : (55 - Z.of_nat (64 * n + bl)) mod 64 = 119 - Z.of_nat bl).
        { symmetry. apply (Z.mod_unique _ _ (- Z.of_nat n - 1)); lia. }
        rewrite E. lia.
      + assert (E : (55 - Z.of_nat (64 * n + bl)) mod 64 = 55 - Z.of_nat bl).
        { symmetry. apply (Z.mod_unique _ _ (- Z.of_nat n)); lia. }
        rewrite E. lia.
    - symmetry. apply length_field; auto. rewrite C2. f_equal. rewrite LP. lia. }
  unfold md5. rewrite PAD.
  rewrite (chunks_blocks (n + k)) by (rewrite app_length; lia).
  rewrite chunks_app by exact LP. rewrite fold_left_app. fold iv. rewrite <- A.
  unfold read_ctx.
  assert (E : abcd (process_block tail c1) = rounds (length tail) tail (abcd c)) by reflexivity.
  rewrite E. destruct (rounds_chunks k tail (length tail) (abcd c) LT ltac:(lia) W) as [R1 _].
  rewrite R1. destruct (fold_left compress (chunks k tail) (abcd c)) as [[[a b] cc] d].
  rewrite !le32_bytes. reflexivity.
Qed.

(** ** Any chunks *)

Lemma init_Rep junk : length junk = 128%nat -> Rep (init_ctx junk) [].
Proof.
  intros L. exists []. split; [reflexivity | ]. split; [ | split; [cbn; lia | exact L]].
  exists 0%nat. split; [reflexivity | ]. split; [reflexivity | ].
  split; [cbn -[Z.pow]; unfold w32; repeat split; try lia; reflexivity | ]. cbn. lia.
Qed.

Lemma chunks_Rep l c m :
  Rep c m -> Forall (fun d => Z.of_nat (length d) < 2 ^ 32) l ->
  Rep (fold_left (fun c d => process_bytes d c) l c) (m ++ concat l).
Proof.
  revert c m. induction l as [ | d l IH]; intros c m R F; cbn [fold_left concat].
  - rewrite app_nil_r. exact R.
  - inversion F; subst. rewrite app_assoc. apply IH; [apply process_bytes_Rep | ]; assumption.
Qed.

Lemma md5_chunks junk l :
  length junk = 128%nat -> Forall (fun d => Z.of_nat (length d) < 2 ^ 32) l ->
  finish_ctx (fold_left (fun c d => process_bytes d c) l (init_ctx junk)) = md5 (concat l).
Proof.
  intros J F. apply finish_Rep. change (concat l) with ([] ++ concat l).
  apply chunks_Rep; [apply init_Rep; exact J | exact F].
Qed.

Lemma md5_buffer_ok junk data :
  length junk = 128%nat -> Z.of_nat (length data) < 2 ^ 32 -> md5_buffer junk data = md5 data.
Proof.
  intros J L. unfold md5_buffer. apply finish_Rep. change data with ([] ++ data) at 2.
  apply process_bytes_Rep; [apply init_Rep; exact J | exact L].
Qed.

(** ** Files *)

Section StreamProofs.
  Variable size : nat -> nat.
  Hypothesis size_pos : forall k, (0 < size k)%nat.

  Lemma fill_ok fuel : forall k buf file,
    (length file < fuel)%nat -> (length buf < BLOCKSIZE)%nat ->
    exists buf' n file' k', fill size fuel k buf file = Some (buf', n, file', k') /\
      buf' ++ file' = buf ++ file /\
      ((n = 0%nat /\ file' = [] /\ (length buf' < BLOCKSIZE)%nat) \/
       (n <> 0%nat /\ length buf' = BLOCKSIZE)).
  Proof.
    induction fuel as [ | fuel IH]; intros k buf file F B; [lia | ]. cbn [fill].
    set (got := fread size k (BLOCKSIZE - length buf) file).
    assert (GL : (length got <= BLOCKSIZE - length buf)%nat) by (unfold got, fread; rewrite firstn_length; lia).
    assert (GF : got ++ skipn (length got) file = file).
    { unfold got, fread. rewrite firstn_length. set (w := Nat.min (size k) (BLOCKSIZE - length buf)).
      destruct (Nat.le_ge_cases w (length file)).
      - rewrite Nat.min_l by assumption. apply firstn_skipn.
      - rewrite Nat.min_r by assumption. rewrite firstn_all2 by assumption. rewrite skipn_all. apply app_nil_r. }
    assert (G0 : length got = 0%nat -> file = []).
    { unfold got, fread. rewrite firstn_length. intros E. pose proof (size_pos k).
      apply length_zero_iff_nil. lia. }
    destruct (Nat.eqb_spec (length got) 0) as [Z0 | Z0].
    - rewrite andb_false_r. do 4 eexists. split; [reflexivity | ].
      rewrite <- app_assoc, GF. split; [reflexivity | ]. left. split; [exact Z0 | ].
      rewrite (G0 Z0). split; [apply skipn_nil | ]. rewrite app_length. lia.
    - rewrite andb_true_r. destruct (Nat.ltb_spec (length (buf ++ got)) BLOCKSIZE).
      + destruct (IH (S k) (buf ++ got) (skipn (length got) file)) as (buf' & n & file' & k' & E & E1 & E2).
        * rewrite skipn_length. assert (length file <> 0)%nat.
          { intros X. apply length_zero_iff_nil in X. apply Z0. unfold got, fread. rewrite X, firstn_nil. reflexivity. }
          lia.
        * assumption.
        * exists buf', n, file', k'. split; [exact E | ]. split; [ | exact E2].
          rewrite E1, <- app_assoc, GF. reflexivity.
      + do 4 eexists. split; [reflexivity | ]. rewrite <- app_assoc, GF. split; [reflexivity | ].
        right. split; [exact Z0 | ]. rewrite app_length in *. lia.
  Qed.

  Lemma stream_loop_ok fuel : forall k c file m,
    (length file < fuel)%nat -> Rep c m -> buflen c = 0%nat ->
    stream_loop size (S fuel) k c file = Some (md5 (m ++ file)).
  Proof.
    induction fuel as [ | fuel IH]; intros k c file m F R B0; [lia | ].
    change (stream_loop size (S (S fuel)) k c file) with
      (match fill size (S fuel) k [] file with
       | None => None
       | Some (buf, n, file, k) =>
           if Nat.eqb n 0 then
             Some (finish_ctx (if Nat.ltb 0 (length buf) then process_bytes buf c else c))
           else stream_loop size (S fuel) k (process_block buf c) file
       end).
    destruct (fill_ok (S fuel) k [] file F) as (buf & n & file' & k' & E & E1 & E2).
    { cbn. unfold BLOCKSIZE. lia. }
    rewrite E. cbn [app] in E1. destruct E2 as [(-> & -> & L) | (N & L)].
    - rewrite app_nil_r in E1. subst buf. cbn [Nat.eqb]. f_equal.
      destruct (Nat.ltb_spec 0 (length file)).
      + apply finish_Rep, process_bytes_Rep; [exact R | ]. unfold BLOCKSIZE in L. lia.
      + destruct file; [ | cbn in *; lia]. rewrite app_nil_r. apply finish_Rep. exact R.
    - destruct (Nat.eqb_spec n 0); [contradiction | ].
      destruct R as (P & EM & PR & LB & BL). rewrite B0 in EM. cbn [firstn] in EM. rewrite app_nil_r in EM. subst m.
      destruct (process_block_Proc buf c P 64) as (Q1 & Q2 & Q3).
      { exact PR. }
      { rewrite L. reflexivity. }
      { rewrite L. reflexivity. }
      rewrite (IH k' (process_block buf c) file' (P ++ buf)).
      + rewrite <- app_assoc, E1. reflexivity.
      + rewrite <- E1, app_length, L in F. unfold BLOCKSIZE in F. lia.
      + exists (P ++ buf). rewrite Q2, Q3, B0. cbn [firstn]. rewrite app_nil_r.
        split; [reflexivity | ]. split; [exact Q1 | ]. split; [lia | exact BL].
      + rewrite Q2. exact B0.
  Qed.

  Lemma md5_stream_ok junk file :
    length junk = 128%nat ->
    forall fuel, (length file + 1 < fuel)%nat -> md5_stream size fuel junk file = Some (md5 file).
  Proof.
    intros J fuel F. destruct fuel as [ | fuel]; [lia | ]. unfold md5_stream.
    apply (stream_loop_ok fuel 0 (init_ctx junk) file []); [lia | apply init_Rep; exact J | reflexivity].
  Qed.
End StreamProofs.

(** ** Counting large blocks *)

Lemma count_refuted :
  exists c len, 0 <= len < 2 ^ 64 /\ 0 <= total0 c < 2 ^ 32 /\ 0 <= total1 c < 2 ^ 32 /\
  total0 (count len c) + 2 ^ 32 * total1 (count len c) <>
  (total0 c + 2 ^ 32 * total1 c + len) mod 2 ^ 64.
Proof. exists (init_ctx []), (2 ^ 33). vm_compute. repeat split; congruence. Qed.
