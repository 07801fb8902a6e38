(** Proofs for Rounding_Props. *)
From Coq Require Import ZArith QArith List Bool Lia ZifyBool.
From Verif Require Import Numbers_Model Numbers_Spec Numbers_Proofs Rounding_Model Rounding_Spec.
Import ListNotations.
Open Scope Z_scope.

Lemma up_pos e : 0 < up e.
Proof. unfold up. apply Z.pow_pos_nonneg; lia. Qed.
Lemma down_pos e : 0 < down e.
Proof. unfold down. apply Z.pow_pos_nonneg; lia. Qed.
Lemma up_neg e : e <= 0 -> up e = 1.
Proof. intros H. unfold up. rewrite Z.max_l by lia. reflexivity. Qed.
Lemma down_neg e : e <= 0 -> down e = 2 ^ (- e).
Proof. intros H. unfold down. rewrite Z.max_r by lia. reflexivity. Qed.
Lemma up_nonneg e : 0 <= e -> up e = 2 ^ e.
Proof. intros H. unfold up. rewrite Z.max_r by lia. reflexivity. Qed.
Lemma down_nonneg e : 0 <= e -> down e = 1.
Proof. intros H. unfold down. rewrite Z.max_l by lia. reflexivity. Qed.

Lemma qlog2_low n d : 0 < n -> 0 < d -> d * up (qlog2 n d) <= n * down (qlog2 n d).
Proof.
  intros N D. unfold qlog2. destruct (Z.ltb_spec (n * down (Z.log2 n - Z.log2 d)) (d * up (Z.log2 n - Z.log2 d))) as [H|H]; [|exact H].
  clear H. destruct (Z.log2_spec n N) as [A _]. destruct (Z.log2_spec d D) as [_ B].
  assert (LN := Z.log2_nonneg n). assert (LD := Z.log2_nonneg d). set (a := Z.log2 n) in *. set (b := Z.log2 d) in *. clearbody a b.
  destruct (Z.le_gt_cases (a - b) 0) as [L|L].
  - rewrite up_neg, down_neg by lia. assert (E : 2 ^ Z.succ b = 2 ^ a * 2 ^ (- (a - b - 1))) by (rewrite <- Z.pow_add_r by lia; f_equal; lia).
    assert (0 < 2 ^ (- (a - b - 1))) by (apply Z.pow_pos_nonneg; lia). nia.
  - rewrite up_nonneg, down_nonneg by lia. assert (E : 2 ^ a = 2 ^ Z.succ b * 2 ^ (a - b - 1)) by (rewrite <- Z.pow_add_r by lia; f_equal; lia).
    assert (0 < 2 ^ (a - b - 1)) by (apply Z.pow_pos_nonneg; lia). nia.
Qed.

(** The double of a rational below 2^53 *)
Lemma get_d_spec q : Qnum q <> 0 -> below q (2 ^ 53) ->
  exists e, e <= 0 /\ mpq_get_d q = (Z.sgn (Qnum q) * ((Z.abs (Qnum q) * 2 ^ (- e)) / Zpos (Qden q)), e) /\
    (Zpos (Qden q) <= 2 ^ 1000 -> Zpos (Qden q) * 2 ^ 52 <= 2 ^ (- e) * Z.abs (Qnum q)).
Proof.
  intros NZ B. unfold mpq_get_d, below in *. set (n := Z.abs (Qnum q)) in *. set (d := Zpos (Qden q)) in *.
  assert (N : 0 < n) by lia. assert (D : 0 < d) by reflexivity. clearbody d.
  rewrite (proj2 (Z.eqb_neq n 0)) by lia. assert (LOW := qlog2_low n d N D).
  set (l := qlog2 n d) in *. clearbody l.
  assert (L : l <= 52).
  { destruct (Z.le_gt_cases l 52) as [H|H]; [exact H|]. exfalso. rewrite up_nonneg, down_nonneg in LOW by lia.
    assert (E : 2 ^ l = 2 ^ 53 * 2 ^ (l - 53)) by (rewrite <- Z.pow_add_r by lia; f_equal; lia).
    assert (0 < 2 ^ (l - 53)) by (apply Z.pow_pos_nonneg; lia). nia. }
  exists (Z.max (l - 52) (-1074)). split; [lia|]. split; [rewrite up_neg, down_neg, Z.mul_1_r by lia; reflexivity|].
  intros LD. destruct (Z.le_gt_cases (l - 52) (-1074)) as [H|H].
  - rewrite Z.max_r by lia. change (2 ^ (- -1074)) with (2 ^ 1000 * 2 ^ 22 * 2 ^ 52).
    set (t := 2 ^ 1000) in *. clearbody t. assert (0 < 2 ^ 22 * 2 ^ 52) by reflexivity. set (u := 2 ^ 52) in *. assert (0 < u) by reflexivity. clearbody u.
    assert (1 <= 2 ^ 22) by (vm_compute; discriminate). set (w := 2 ^ 22) in *. clearbody w.
    assert (d * u <= t * u) by nia. assert (1 <= w * n) by nia. assert (0 < t * u) by nia. replace (t * w * u * n) with ((t * u) * (w * n)) by ring. nia.
  - rewrite Z.max_l by lia. destruct (Z.le_gt_cases l 0) as [G|G].
    + rewrite up_neg, down_neg in LOW by lia.
      assert (E : 2 ^ (- (l - 52)) = 2 ^ 52 * 2 ^ (- l)) by (rewrite <- Z.pow_add_r by lia; f_equal; lia). rewrite E.
      set (u := 2 ^ 52) in *. assert (0 < u) by reflexivity. clearbody u. nia.
    + rewrite up_nonneg, down_nonneg in LOW by lia.
      assert (E : 2 ^ 52 = 2 ^ (- (l - 52)) * 2 ^ l) by (rewrite <- Z.pow_add_r by lia; f_equal; lia). rewrite E.
      assert (0 < 2 ^ (- (l - 52))) by (apply Z.pow_pos_nonneg; lia). nia.
Qed.

Lemma long_gives z : - 2 ^ 63 <= z < 2 ^ 63 -> gives (to_long z) z.
Proof.
  intros H. unfold to_long. rewrite (proj2 (Z.leb_le _ _)), (proj2 (Z.ltb_lt _ _)) by lia. cbn [andb].
  exists (make_long_int z). split; [reflexivity|]. apply make_long_int_canonical.
Qed.

(** * Integer forms of the specification *)
Lemma floor_div q z : is_floor q z <-> z = Qnum q / Zpos (Qden q).
Proof.
  unfold is_floor, Qle, Qlt, inject_Z. cbn [Qnum Qden]. rewrite !Z.mul_1_r. split.
  - intros [A B]. apply (Z.div_unique_pos _ _ _ (Qnum q - Zpos (Qden q) * z)); lia.
  - intros ->. assert (M := Z.mod_pos_bound (Qnum q) (Zpos (Qden q)) eq_refl). assert (E := Z.div_mod (Qnum q) (Zpos (Qden q)) ltac:(lia)). nia.
Qed.
Lemma ceiling_div q z : is_ceiling q z <-> z = - (- Qnum q / Zpos (Qden q)).
Proof.
  unfold is_ceiling, Qle, Qlt, inject_Z. cbn [Qnum Qden]. rewrite !Z.mul_1_r. split.
  - intros [A B]. enough (- z = - Qnum q / Zpos (Qden q)) by lia. apply (Z.div_unique_pos _ _ _ (- Qnum q + Zpos (Qden q) * z)); lia.
  - intros ->. assert (M := Z.mod_pos_bound (- Qnum q) (Zpos (Qden q)) eq_refl). assert (E := Z.div_mod (- Qnum q) (Zpos (Qden q)) ltac:(lia)). nia.
Qed.

(** The integer part survives *)
Lemma trunc_part n A d : 0 < A -> 0 < d -> (n * A / d) / A = n / d.
Proof. intros HA HD. rewrite Z.div_div by lia. rewrite Z.div_mul_cancel_r by lia. reflexivity. Qed.
(** So does being above it, if the double is fine enough *)
Lemma trunc_ceil n A d : 0 <= n -> 0 < d -> d <= A -> - (- (n * A / d) / A) = - (- n / d).
Proof.
  intros N D L. assert (E := Z.div_mod (- n) d ltac:(lia)). assert (M := Z.mod_pos_bound (- n) d D).
  set (k := - n / d) in *. set (r := (- n) mod d) in *. f_equal. symmetry.
  assert (E2 : n * A / d = - k * A - (if r =? 0 then 0 else 1) * (- (- (r * A) / d))).
  { destruct (Z.eqb_spec r 0) as [Z0|Z0].
    - replace (n * A) with ((- k * A) * d) by nia. rewrite Z.div_mul by lia. ring.
    - replace (n * A) with (- (r * A) + (- k * A) * d) by nia. rewrite Z.div_add by lia. ring. }
  destruct (Z.eqb_spec r 0) as [Z0|Z0].
  - rewrite E2, Z.mul_0_l, Z.sub_0_r. replace (- (- k * A)) with (k * A) by ring. rewrite Z.div_mul by lia. reflexivity.
  - rewrite Z.mul_1_l in E2. set (t := - (- (r * A) / d)) in *.
    assert (T : 1 <= t < A + 0 \/ t = A).
    { assert (F := Z.div_mod (- (r * A)) d ltac:(lia)). assert (G := Z.mod_pos_bound (- (r * A)) d D). set (u := - (r * A) / d) in *. set (v := (- (r * A)) mod d) in *.
      assert (1 <= r <= d - 1) by lia. assert (A <= r * A) by nia. assert (r * A <= (d - 1) * A) by nia.
      assert (- u <= A) by nia. assert (1 <= - u) by nia. unfold t. lia. }
    assert (T2 : t <= A - 1).
    { destruct T as [T|T]; [lia|]. exfalso. assert (F := Z.div_mod (- (r * A)) d ltac:(lia)). assert (G := Z.mod_pos_bound (- (r * A)) d D).
      set (u := - (r * A) / d) in *. set (v := (- (r * A)) mod d) in *. unfold t in T. assert (r <= d - 1) by lia. assert (r * A <= (d - 1) * A) by nia.
      assert (u = - A) by lia. subst u. rewrite H1 in F. nia. }
    rewrite E2. apply (Z.div_unique_pos _ _ _ t); [lia|nia].
Qed.

Lemma div_range n d : 0 < d -> Z.abs n < 2 ^ 53 * d -> - 2 ^ 63 <= n / d < 2 ^ 63.
Proof.
  intros D B. assert (E := Z.div_mod n d ltac:(lia)). assert (M := Z.mod_pos_bound n d D). set (k := n / d) in *. set (r := n mod d) in *.
  change (2 ^ 63) with (2 ^ 53 * 2 ^ 10). change (2 ^ 10) with 1024. set (t := 2 ^ 53) in *. assert (4 <= t) by (vm_compute; discriminate). clearbody t.
  assert (- t - 1 <= k) by nia. assert (k <= t) by nia. lia.
Qed.
Lemma small_below q : small q (2 ^ 52) (2 ^ 1000) -> below q (2 ^ 53).
Proof. unfold small, below. intros [A _]. assert (1 <= Zpos (Qden q)) by lia. change (2 ^ 53) with (2 ^ 52 * 2). set (t := 2 ^ 52) in *. assert (0 < t) by reflexivity. clearbody t. nia. Qed.

Section Parts.
  Variable q : Q.
  Hypothesis NZ : Qnum q <> 0.
  Hypothesis B : below q (2 ^ 53).
  Lemma fine : small q (2 ^ 52) (2 ^ 1000) -> forall e, (Zpos (Qden q) <= 2 ^ 1000 -> Zpos (Qden q) * 2 ^ 52 <= 2 ^ (- e) * Z.abs (Qnum q)) ->
    e <= 0 -> Zpos (Qden q) <= 2 ^ (- e).
  Proof.
    intros [S1 S2] e F L. specialize (F S2). assert (0 < 2 ^ (- e)) by (apply Z.pow_pos_nonneg; lia). set (t := 2 ^ 52) in *. assert (0 < t) by reflexivity. clearbody t. nia.
  Qed.
  Lemma dfloor_ok : 0 < Qnum q \/ small q (2 ^ 52) (2 ^ 1000) -> dfloor (mpq_get_d q) = Qnum q / Zpos (Qden q).
  Proof.
    intros C. destruct (get_d_spec q NZ B) as (e & L & -> & F). cbn [dfloor]. rewrite up_neg, down_neg, Z.mul_1_r by lia.
    assert (A : 0 < 2 ^ (- e)) by (apply Z.pow_pos_nonneg; lia). destruct (Z.lt_trichotomy (Qnum q) 0) as [N|[N|N]]; [|contradiction|].
    - destruct C as [C|C]; [lia|]. assert (T := trunc_ceil (Z.abs (Qnum q)) (2 ^ (- e)) (Zpos (Qden q)) ltac:(lia) eq_refl (fine C e F L)).
      rewrite Z.sgn_neg by lia. replace (-1 * (Z.abs (Qnum q) * 2 ^ (- e) / Zpos (Qden q))) with (- (Z.abs (Qnum q) * 2 ^ (- e) / Zpos (Qden q))) by ring.
      replace (Qnum q / Zpos (Qden q)) with (- Z.abs (Qnum q) / Zpos (Qden q)) by (f_equal; lia). lia.
    - rewrite Z.sgn_pos, Z.mul_1_l, Z.abs_eq by lia. apply trunc_part; [exact A|reflexivity].
  Qed.
  Lemma dceil_ok : Qnum q < 0 \/ small q (2 ^ 52) (2 ^ 1000) -> dceil (mpq_get_d q) = - (- Qnum q / Zpos (Qden q)).
  Proof.
    intros C. destruct (get_d_spec q NZ B) as (e & L & -> & F). cbn [dceil]. rewrite up_neg, down_neg, Z.mul_1_r by lia.
    assert (A : 0 < 2 ^ (- e)) by (apply Z.pow_pos_nonneg; lia). f_equal. destruct (Z.lt_trichotomy (Qnum q) 0) as [N|[N|N]]; [|contradiction|].
    - rewrite Z.sgn_neg by lia. replace (- (-1 * (Z.abs (Qnum q) * 2 ^ (- e) / Zpos (Qden q)))) with (Z.abs (Qnum q) * 2 ^ (- e) / Zpos (Qden q)) by ring.
      rewrite Z.abs_neq by lia. apply trunc_part; [exact A|reflexivity].
    - destruct C as [C|C]; [lia|]. assert (T := trunc_ceil (Z.abs (Qnum q)) (2 ^ (- e)) (Zpos (Qden q)) ltac:(lia) eq_refl (fine C e F L)).
      rewrite Z.sgn_pos, Z.mul_1_l by lia. rewrite Z.abs_eq in T |- * by lia. lia.
  Qed.
  Lemma dtrunc_ok : (let '(m, e) := mpq_get_d q in if m <? 0 then - dfloor (- m, e) else dfloor (m, e)) = Z.quot (Qnum q) (Zpos (Qden q)).
  Proof.
    destruct (get_d_spec q NZ B) as (e & L & -> & F). cbn [dfloor]. rewrite up_neg, down_neg by lia.
    assert (A : 0 < 2 ^ (- e)) by (apply Z.pow_pos_nonneg; lia).
    assert (P : 0 <= Z.abs (Qnum q) * 2 ^ (- e) / Zpos (Qden q)) by (apply Z.div_pos; [nia|reflexivity]).
    destruct (Z.lt_trichotomy (Qnum q) 0) as [N|[N|N]]; [|contradiction|].
    - rewrite Z.sgn_neg by lia. assert (Q : Z.quot (Qnum q) (Zpos (Qden q)) = - (Z.abs (Qnum q) / Zpos (Qden q))).
      { rewrite <- (Z.quot_div_nonneg (Z.abs (Qnum q))) by lia. rewrite <- Z.quot_opp_l by lia. f_equal. lia. }
      rewrite Q, <- (trunc_part (Z.abs (Qnum q)) (2 ^ (- e))) by lia. set (m := Z.abs (Qnum q) * 2 ^ (- e) / Zpos (Qden q)) in *. clearbody m.
      destruct (Z.ltb_spec (-1 * m) 0) as [H|H].
      + f_equal. f_equal. lia.
      + replace m with 0 by lia. rewrite !Z.mul_0_r, !Z.mul_0_l, Z.div_0_l by lia. reflexivity.
    - rewrite Z.sgn_pos, Z.mul_1_l by lia. destruct (Z.ltb_spec (Z.abs (Qnum q) * 2 ^ (- e) / Zpos (Qden q)) 0) as [H|H]; [lia|].
      rewrite Z.mul_1_r, trunc_part by lia. rewrite Z.abs_eq by lia. symmetry. apply Z.quot_div_nonneg; lia.
  Qed.
End Parts.

Lemma zero_floor q : Qnum q = 0 -> mpq_get_d q = (0, 0).
Proof. intros E. unfold mpq_get_d. rewrite E. reflexivity. Qed.

Lemma floor_ok q : below q (2 ^ 53) -> (0 <= Qnum q \/ small q (2 ^ 52) (2 ^ 1000)) -> gives (floor (Rat q)) (Qnum q / Zpos (Qden q)).
Proof.
  intros B C. cbn [floor]. destruct (Z.eq_dec (Qnum q) 0) as [Z0|NZ].
  - rewrite (zero_floor q Z0), Z0, Z.div_0_l by lia. apply (long_gives 0). lia.
  - rewrite (dfloor_ok q NZ B ltac:(destruct C; [left; lia|right; assumption])). apply long_gives. apply div_range; [reflexivity|exact B].
Qed.
Lemma ceiling_ok q : below q (2 ^ 53) -> (Qnum q <= 0 \/ small q (2 ^ 52) (2 ^ 1000)) -> gives (ceiling (Rat q)) (- (- Qnum q / Zpos (Qden q))).
Proof.
  intros B C. cbn [ceiling]. destruct (Z.eq_dec (Qnum q) 0) as [Z0|NZ].
  - rewrite (zero_floor q Z0), Z0. apply (long_gives 0). lia.
  - rewrite (dceil_ok q NZ B ltac:(destruct C; [left; lia|right; assumption])). apply long_gives. unfold below in B. assert (R := div_range (- Qnum q) (Zpos (Qden q)) eq_refl ltac:(lia)).
    assert (- Qnum q / Zpos (Qden q) <> - 2 ^ 63); [|lia]. intros E. assert (E2 := Z.div_mod (- Qnum q) (Zpos (Qden q)) ltac:(lia)).
    assert (M := Z.mod_pos_bound (- Qnum q) (Zpos (Qden q)) eq_refl). rewrite E in E2. change (2 ^ 63) with (2 ^ 53 * 1024) in E2. set (t := 2 ^ 53) in *. assert (0 < t) by reflexivity. clearbody t. nia.
Qed.
Lemma truncate_ok q : below q (2 ^ 53) -> gives (truncate (Rat q)) (Z.quot (Qnum q) (Zpos (Qden q))).
Proof.
  intros B. cbn [truncate]. destruct (Z.eq_dec (Qnum q) 0) as [Z0|NZ].
  - rewrite (zero_floor q Z0), Z0. cbn. apply (long_gives 0). lia.
  - assert (T := dtrunc_ok q NZ B). destruct (mpq_get_d q) as [m e]. rewrite T. apply long_gives.
    assert (R := div_range (Z.abs (Qnum q)) (Zpos (Qden q)) eq_refl). unfold below in B. rewrite Z.abs_eq in R by lia. specialize (R B).
    rewrite <- Z.quot_div_nonneg in R by lia. destruct (Z.abs_eq_cases (Z.abs (Qnum q)) (Qnum q) ltac:(lia)) as [E|E]; rewrite E in R; [lia|].
    rewrite Z.quot_opp_l in R by lia. assert (Z.quot (Qnum q) (Zpos (Qden q)) <> 2 ^ 63); [|lia].
    intros E3. rewrite E3 in R. assert (E4 := Z.quot_rem (Qnum q) (Zpos (Qden q)) ltac:(lia)). assert (M := Z.rem_bound_abs (Qnum q) (Zpos (Qden q)) ltac:(lia)).
    rewrite E3 in E4. change (2 ^ 63) with (2 ^ 53 * 1024) in E4. set (t := 2 ^ 53) in *. assert (0 < t) by reflexivity. clearbody t. nia.
Qed.
Lemma trunc_spec q : is_truncation q (Z.quot (Qnum q) (Zpos (Qden q))).
Proof.
  split; intros S; unfold Qle in S; cbn in S; rewrite Z.mul_1_r in S.
  - apply floor_div. apply Z.quot_div_nonneg; lia.
  - apply ceiling_div. rewrite <- (Z.quot_div_nonneg (- Qnum q)) by lia. rewrite Z.quot_opp_l by lia. lia.
Qed.

(** * round *)
Lemma rne_spec M E : exists p b, 0 <= b /\ rne M E = (p, E + b) /\ Z.abs (p * 2 ^ b - M) * 2 ^ 53 <= Z.abs M /\
  (forall c t, 0 <= t -> M = c * 2 ^ t -> Z.abs c < 2 ^ 53 -> p * 2 ^ b = M).
Proof.
  unfold rne. destruct (Z.leb_spec (Z.log2 (Z.abs M) + 1 - 53) 0) as [H|H].
  - exists M, 0. split; [lia|]. split; [f_equal; lia|]. rewrite Z.pow_0_r, Z.mul_1_r, Z.sub_diag. split; [cbn; lia|]. intros; reflexivity.
  - assert (NZ : M <> 0) by (intros ->; cbn in H; lia). set (b := Z.log2 (Z.abs M) + 1 - 53) in *. assert (P : 0 < 2 ^ b) by (apply Z.pow_pos_nonneg; lia).
    assert (LG : 2 ^ 52 * 2 ^ b <= Z.abs M < 2 ^ 53 * 2 ^ b).
    { rewrite <- !Z.pow_add_r by lia. replace (52 + b) with (Z.log2 (Z.abs M)) by lia. replace (53 + b) with (Z.succ (Z.log2 (Z.abs M))) by lia. apply Z.log2_spec. lia. }
    set (s := 2 ^ b) in *. assert (D := Z.div_mod (Z.abs M) s ltac:(lia)). assert (R := Z.mod_pos_bound (Z.abs M) s P).
    set (k := Z.abs M / s) in *. set (r := Z.abs M mod s) in *.
    set (k2 := if 2 * r <? s then k else if s <? 2 * r then k + 1 else if Z.even k then k else k + 1).
    assert (K : Z.abs (k2 * s - Z.abs M) * 2 <= s) by (unfold k2; destruct (Z.ltb_spec (2 * r) s); [nia|]; destruct (Z.ltb_spec s (2 * r)); [nia|]; destruct (Z.even k); nia).
    assert (K0 : r = 0 -> k2 = k) by (intros R0; unfold k2; rewrite (proj2 (Z.ltb_lt _ _)) by lia; reflexivity).
    exists (Z.sgn M * k2), b. split; [lia|]. split; [reflexivity|]. fold s.
    assert (SG : Z.sgn M * k2 * s - M = Z.sgn M * (k2 * s - Z.abs M)) by (destruct (Z.lt_trichotomy M 0) as [|[|]]; [rewrite Z.sgn_neg by lia|lia|rewrite Z.sgn_pos by lia]; nia).
    split.
    + rewrite SG, Z.abs_mul. replace (Z.abs (Z.sgn M)) with 1 by lia. rewrite Z.mul_1_l. change (2 ^ 53) with (2 * 2 ^ 52). set (u := 2 ^ 52) in *. assert (0 < u) by reflexivity. clearbody u. nia.
    + intros c t T EM C. assert (BT : b <= t).
      { destruct (Z.le_gt_cases b t) as [|G]; [assumption|]. exfalso. assert (E2 : s = 2 ^ t * 2 ^ (b - t)) by (unfold s; rewrite <- Z.pow_add_r by lia; f_equal; lia).
        assert (0 < 2 ^ t) by (apply Z.pow_pos_nonneg; lia). assert (2 <= 2 ^ (b - t)).
        { replace (b - t) with (Z.succ (b - t - 1)) by lia. rewrite Z.pow_succ_r by lia. assert (0 < 2 ^ (b - t - 1)) by (apply Z.pow_pos_nonneg; lia). lia. }
        assert (Z.abs M = Z.abs c * 2 ^ t) by (rewrite EM, Z.abs_mul; f_equal; apply Z.abs_eq; lia).
        change (2 ^ 53) with (2 * 2 ^ 52) in C. set (u := 2 ^ 52) in *. assert (0 < u) by reflexivity. clearbody u. clear - C E2 H0 H1 H2 LG H3. set (x := 2 ^ t) in *. set (y := 2 ^ (b - t)) in *. clearbody x y.
        assert (u * s <= Z.abs c * x) by lia. rewrite E2 in H. assert (u * (x * y) >= u * (x * 2)) by nia. nia. }
      assert (R0 : r = 0).
      { unfold r. replace (Z.abs M) with (Z.abs c * 2 ^ (t - b) * s). apply Z.mod_mul; lia.
        rewrite EM, Z.abs_mul, (Z.abs_eq (2 ^ t)) by (apply Z.pow_nonneg; lia). unfold s. rewrite <- Z.mul_assoc, <- Z.pow_add_r by lia. do 2 f_equal. lia. }
      enough (k2 * s - Z.abs M = 0) by (rewrite H0, Z.mul_0_r in SG; lia). rewrite (K0 R0). lia.
Qed.

Lemma dfloor_scaled p b a : 0 <= a -> 0 <= b -> dfloor (p, - a + b) = (p * 2 ^ b) / 2 ^ a.
Proof.
  intros A B. cbn [dfloor]. destruct (Z.le_gt_cases b a) as [L|L].
  - rewrite up_neg, down_neg, Z.mul_1_r by lia. replace (2 ^ a) with (2 ^ (- (- a + b)) * 2 ^ b) by (rewrite <- Z.pow_add_r by lia; f_equal; lia).
    rewrite Z.div_mul_cancel_r; [reflexivity|apply Z.pow_nonzero; lia|apply Z.pow_nonzero; lia].
  - rewrite up_nonneg, down_nonneg, Z.div_1_r by lia. replace (2 ^ b) with (2 ^ (- a + b) * 2 ^ a) by (rewrite <- Z.pow_add_r by lia; f_equal; lia).
    rewrite Z.mul_assoc, Z.div_mul; [reflexivity|apply Z.pow_nonzero; lia].
Qed.
Lemma integral_scaled p b a : 0 <= a -> 0 <= b -> integral (p, - a + b) = ((p * 2 ^ b) mod 2 ^ a =? 0).
Proof.
  intros A B. cbn [integral]. destruct (Z.le_gt_cases b a) as [L|L].
  - rewrite up_neg, down_neg, Z.mul_1_r by lia. replace (2 ^ a) with (2 ^ (- (- a + b)) * 2 ^ b) by (rewrite <- Z.pow_add_r by lia; f_equal; lia).
    rewrite Z.mul_mod_distr_r by (apply Z.pow_nonzero; lia). assert (0 < 2 ^ b) by (apply Z.pow_pos_nonneg; lia).
    set (x := p mod 2 ^ (- (- a + b))). destruct (Z.eqb_spec x 0), (Z.eqb_spec (x * 2 ^ b) 0); nia.
  - rewrite up_nonneg, down_nonneg, Z.mod_1_r by lia. replace (2 ^ b) with (2 ^ (- a + b) * 2 ^ a) by (rewrite <- Z.pow_add_r by lia; f_equal; lia).
    rewrite Z.mul_assoc, Z.mod_mul by (apply Z.pow_nonzero; lia). reflexivity.
Qed.

Lemma round_ok q : small q (2 ^ 50) (2 ^ 50) -> exists z, is_nearest q z /\ gives (round (Rat q)) z.
Proof.
  intros [S1 S2]. cbn [round]. destruct (Z.eq_dec (Qnum q) 0) as [Z0|NZ].
  { exists 0. rewrite (zero_floor q Z0). split; [|apply (long_gives 0); lia]. left. unfold Qlt, Qminus, Qplus, Qopp, inject_Z. cbn. rewrite Z0. cbn. lia. }
  assert (B : below q (2 ^ 53)). { unfold below. assert (1 <= Zpos (Qden q)) by lia. change (2 ^ 53) with (2 ^ 50 * 8). set (t := 2 ^ 50) in *. assert (0 < t) by reflexivity. clearbody t. nia. }
  destruct (get_d_spec q NZ B) as (e & L & -> & FINE). specialize (FINE ltac:(apply (Z.le_trans _ _ _ S2); vm_compute; discriminate)).
  cbn [plus_half]. rewrite up_neg, down_neg, Z.mul_1_r by lia. rewrite Z.max_r by lia.
  set (n := Qnum q) in *. set (d := Zpos (Qden q)) in *. assert (D : 0 < d) by reflexivity.
  set (a := - e) in *. assert (A0 : 0 <= a) by lia. clearbody a. set (A := 2 ^ a) in *. assert (AP : 0 < A) by (apply Z.pow_pos_nonneg; lia).
  assert (A4 : 4 * d <= A). { change (2 ^ 52) with (2 ^ 50 * 4) in FINE. clearbody n d. clear B. set (t := 2 ^ 50) in *. assert (0 < t) by reflexivity. clearbody t. nia. }
  assert (E1 := Z.div_mod (Z.abs n * A) d ltac:(lia)). assert (M1 := Z.mod_pos_bound (Z.abs n * A) d D).
  set (mu := Z.abs n * A / d) in *. set (rho := (Z.abs n * A) mod d) in *. set (m := Z.sgn n * mu) in *.
  assert (DM : Z.abs (d * m - n * A) < d).
  { unfold m. destruct (Z.lt_trichotomy n 0) as [N|[N|N]]; [rewrite Z.sgn_neg by lia|lia|rewrite Z.sgn_pos by lia]; nia. }
  clearbody m. clear E1 M1. replace (-1 - a) with (- (a + 1)) by lia.
  destruct (rne_spec (2 * m + A) (- (a + 1))) as (p & b & B0 & -> & ERR & EXACT).
  unfold half. replace (- (a + 1) + b - 1) with (- (a + 2) + b) by lia.
  rewrite dfloor_scaled, !integral_scaled by lia. set (W := p * 2 ^ b) in *. clearbody W.
  assert (P1 : 2 ^ (a + 1) = 2 * A) by (unfold A; rewrite Z.pow_add_r by lia; change (2 ^ 1) with 2; ring).
  assert (P2 : 2 ^ (a + 2) = 4 * A) by (unfold A; rewrite Z.pow_add_r by lia; change (2 ^ 2) with 4; ring).
  rewrite P1, P2. assert (E := Z.div_mod (2 * n + d) (2 * d) ltac:(lia)). assert (R0 := Z.mod_pos_bound (2 * n + d) (2 * d) ltac:(lia)).
  set (F := (2 * n + d) / (2 * d)) in *. set (R := (2 * n + d) mod (2 * d)) in *. clearbody F R.
  assert (FB : - 2 ^ 51 <= F <= 2 ^ 51). { change (2 ^ 51) with (2 ^ 50 * 2). clear - E R0 S1 S2 D. set (t := 2 ^ 50) in *. assert (4 <= t) by (vm_compute; discriminate). clearbody t n d. nia. }
  destruct (Z.eq_dec R 0) as [RZ|RZ].
  - assert (EX : exists A', A = 2 * A').
    { exists (2 ^ (a - 1)). unfold A. rewrite <- Z.pow_succ_r by (destruct (Z.eq_dec a 0) as [Q|]; [|lia]; exfalso; unfold A in A4; rewrite Q in A4; cbn in A4; lia). f_equal. lia. }
    destruct EX as (A' & EA). assert (MM : m = (2 * F - 1) * A').
    { assert (NA : n * A = d * ((2 * F - 1) * A')) by (rewrite EA; nia). rewrite NA in DM.
      replace (d * m - d * ((2 * F - 1) * A')) with (d * (m - (2 * F - 1) * A')) in DM by ring. clear - DM D. set (x := (2 * F - 1) * A') in *. clearbody x. rewrite Z.abs_mul in DM. nia. }
    assert (ME : 2 * m + A = F * 2 ^ (a + 1)) by (rewrite P1, MM, EA; ring).
    assert (WE : W = F * (2 * A)). { rewrite <- P1, <- ME. apply (EXACT F (a + 1)); [lia|exact ME|]. clear - FB. change (2 ^ 53) with (2 ^ 51 * 4). set (t := 2 ^ 51) in *. assert (0 < t) by reflexivity. clearbody t. lia. }
    rewrite WE, Z.div_mul, Z.mod_mul by lia. replace (F * (2 * A) mod (4 * A)) with ((F mod 2) * (2 * A)).
    2: { replace (4 * A) with (2 * (2 * A)) by ring. symmetry. apply Z.mul_mod_distr_r; lia. }
    cbn [Z.eqb andb]. assert (F2 := Z.mod_pos_bound F 2 eq_refl). assert (FD := Z.div_mod F 2 ltac:(lia)).
    assert (GV : forall z, z = F \/ z = F - 1 -> gives (to_long z) z).
    { intros z Hz. apply long_gives. clear - FB Hz. change (2 ^ 63) with (2 ^ 51 * 4096). set (t := 2 ^ 51) in *. assert (4 <= t) by (vm_compute; discriminate). clearbody t. lia. }
    destruct (Z.eqb_spec (F mod 2 * (2 * A)) 0) as [EV|EV]; cbn [negb].
    + exists F. split; [|apply GV; auto]. right. split; [left|exists (F / 2); clear - EV AP F2 FD; nia].
      unfold Qeq, Qminus, Qplus, Qopp, inject_Z. cbn [Qnum Qden]. fold n d. rewrite RZ in E. change (Zpos (1 * 2)) with 2. clear - E. clearbody n d. nia.
    + exists (F - 1). split; [|apply GV; auto]. right. split; [right|exists (F / 2); clear - EV AP F2 FD; nia].
      unfold Qeq, Qplus, inject_Z. cbn [Qnum Qden]. fold n d. rewrite RZ in E. change (Zpos (1 * 2)) with 2. clear - E. clearbody n d. nia.
  - assert (BW : d * Z.abs (W - (2 * m + A)) * 2 ^ 53 <= d * Z.abs (2 * m + A)) by (clear - ERR D; set (x := Z.abs (W - (2 * m + A))) in *; set (t := 2 ^ 53) in *; clearbody x t; nia).
    assert (BM : d * Z.abs (2 * m + A) <= 2 ^ 52 * A).
    { assert (d * Z.abs (2 * m + A) <= Z.abs ((2 * n + d) * A) + 2 * d).
      { replace (d * Z.abs (2 * m + A)) with (Z.abs (d * (2 * m + A))) by (rewrite Z.abs_mul; f_equal; lia). clear - DM. replace (d * (2 * m + A)) with (2 * (d * m - n * A) + (2 * n + d) * A) by ring. lia. }
      assert (Z.abs ((2 * n + d) * A) <= 3 * 2 ^ 50 * A).
      { rewrite Z.abs_mul, (Z.abs_eq A) by lia. apply Z.mul_le_mono_nonneg_r; [lia|]. clear - S1 S2 D. lia. }
      assert (2 * d <= A) by lia. clear - H H0 H1 AP. change (2 ^ 52) with (2 ^ 50 * 4). assert (1 <= 2 ^ 50) by (vm_compute; discriminate). set (t := 2 ^ 50) in *. clearbody t. nia. }
    assert (BE : 2 * (d * Z.abs (W - (2 * m + A))) <= A).
    { clear - BW BM AP. change (2 ^ 53) with (2 ^ 52 * 2) in BW. set (t := 2 ^ 52) in *. assert (0 < t) by reflexivity. clearbody t. set (x := d * Z.abs (W - (2 * m + A))) in *. clearbody x.
      set (y := d * Z.abs (2 * m + A)) in *. clearbody y. nia. }
    assert (DW : Z.abs (d * W - (2 * n + d) * A) < A).
    { replace (d * W - (2 * n + d) * A) with (d * (W - (2 * m + A)) + 2 * (d * m - n * A)) by ring.
      assert (Z.abs (d * (W - (2 * m + A))) = d * Z.abs (W - (2 * m + A))) by (rewrite Z.abs_mul; f_equal; lia).
      clear - H BE DM A4 D. set (x := d * (W - (2 * m + A))) in *. set (y := d * m - n * A) in *. clearbody x y. lia. }
    assert (LO : 2 * A * F < W) by (clear - DW E R0 RZ AP D; rewrite E in DW; nia).
    assert (HI : W < 2 * A * F + 2 * A) by (clear - DW E R0 RZ AP D; rewrite E in DW; nia).
    assert (WD : W / (2 * A) = F) by (symmetry; apply (Z.div_unique_pos _ _ _ (W - 2 * A * F)); lia).
    assert (WM : W mod (2 * A) <> 0) by (assert (X := Z.div_mod W (2 * A) ltac:(lia)); rewrite WD in X; lia).
    rewrite WD. rewrite (proj2 (Z.eqb_neq _ _) WM). cbn [andb]. exists F. split.
    + left. unfold Qlt, Qminus, Qplus, Qopp, inject_Z. cbn [Qnum Qden]. fold n d. change (Zpos (1 * 2)) with 2. clear - E R0 RZ D. clearbody n d. nia.
    + apply long_gives. clear - FB. change (2 ^ 63) with (2 ^ 51 * 4096). set (t := 2 ^ 51) in *. assert (4 <= t) by (vm_compute; discriminate). clearbody t. lia.
Qed.

(** * abs, lcm and parity *)
Lemma abs_fix a : -1073741824 < a < 1073741824 -> abs (Fix a) = Ok (Fix (Z.abs a)).
Proof.
  intros H. unfold abs. cbn [number_neg]. rewrite wrap64_id by lia.
  assert (ML : make_long_int (- a) = Fix (- a)).
  { destruct (make_long_int_canonical (- a)) as [C [I|I]]; [exact I|]. rewrite I in C. exfalso. apply C. unfold in_fixnum_range. lia. }
  rewrite ML. destruct (max_min_correct (Fix a) (Fix (- a)) a (- a)) as [M _]; [red; unfold in_fixnum_range; lia|red; unfold in_fixnum_range; lia|left; reflexivity|left; reflexivity|cbn; lia|].
  f_equal. assert (T : number_max (Fix a) (Fix (- a)) = Fix a \/ number_max (Fix a) (Fix (- a)) = Fix (- a)) by (cbn [number_max]; destruct (0 <=? _); auto).
  replace (Z.abs a) with (Z.max a (- a)) by lia. destruct M as [M|M]; [exact M|]. destruct T as [T|T]; rewrite T in M; discriminate.
Qed.
Lemma abs_big a : abs (Big a) = Ok (Big (Z.abs a)).
Proof.
  unfold abs. cbn [number_neg]. destruct (max_min_correct (Big a) (Big (- a)) a (- a)) as [M _]; [exact I|exact I|right; reflexivity|right; reflexivity|exact I|].
  f_equal. assert (T : number_max (Big a) (Big (- a)) = Big a \/ number_max (Big a) (Big (- a)) = Big (- a)) by (cbn [number_max]; destruct (0 <=? _); auto).
  replace (Z.abs a) with (Z.max a (- a)) by lia. destruct M as [M|M]; [|exact M]. destruct T as [T|T]; rewrite T in M; discriminate.
Qed.
Lemma abs_rat q : valid (Rat q) -> exists n, abs (Rat q) = Ok n /\ (qval n == q \/ qval n == - q)%Q /\ (0 <= qval n)%Q.
Proof.
  intros V. unfold abs. cbn [number_neg number_max]. eexists. split; [reflexivity|]. unfold compare_numbers, promote. cbn [num_type Nat.ltb Nat.leb].
  destruct (Qcompare_spec q (Qred (- q))) as [E|E|E]; rewrite Qred_correct in E; cbn [sign_of Z.leb Z.compare qval].
  - split; [left; reflexivity|]. apply Qle_lteq. right. unfold Qeq, Qopp in *. cbn in *. nia.
  - rewrite Qred_correct. split; [right; reflexivity|]. unfold Qle, Qlt, Qopp in *. cbn in *. nia.
  - split; [left; reflexivity|]. unfold Qle, Qlt, Qopp in *. cbn in *. nia.
Qed.

Lemma abs_int x a : valid x -> is_int x a -> abs_safe x -> exists y, abs x = Ok y /\ valid y /\ is_int y (Z.abs a) /\ abs_safe y.
Proof.
  intros V [-> | ->] S; cbn in S.
  - exists (Fix (Z.abs a)). rewrite abs_fix by exact S. split; [reflexivity|]. split; [red; unfold in_fixnum_range; lia|]. split; [left; reflexivity|cbn; lia].
  - exists (Big (Z.abs a)). rewrite abs_big. split; [reflexivity|]. split; [exact I|]. split; [right; reflexivity|exact I].
Qed.
Lemma safe_mul x y a b : is_int x a -> is_int y b -> abs_safe x -> abs_safe y -> mul_safe x y.
Proof. intros [-> | ->] [-> | ->] S T; cbn in *; try exact I. nia. Qed.

Lemma lcm_two x y a b : valid x -> valid y -> is_int x a -> is_int y b -> abs_safe x -> abs_safe y -> a <> 0 \/ b <> 0 ->
  returns_int (lcm [x; y]) (Z.lcm a b).
Proof.
  intros Vx Vy Ix Iy Sx Sy NZ. unfold lcm. cbn [map_abs].
  destruct (abs_int x a Vx Ix Sx) as (x' & -> & Vx' & Ix' & Sx'). destruct (abs_int y b Vy Iy Sy) as (y' & -> & Vy' & Iy' & Sy').
  cbn [Fproduct number_foldv Fgcd]. destruct (mul_correct x' y' Vx' Vy' (safe_mul _ _ _ _ Ix' Iy' Sx' Sy')) as (p & -> & Cp & Ep).
  assert (Ip : is_int p (Z.abs a * Z.abs b)).
  { apply canonical_int; [exact Cp|]. rewrite Ep, (is_int_qval _ _ Ix'), (is_int_qval _ _ Iy'), inject_Z_mult. reflexivity. }
  destruct (gcd_correct x y a b Vx Vy Ix Iy) as (g & -> & Vg & Ig).
  { intros -> ->. cbn in Sx, Sy. intros G. assert (D1 := Z.gcd_divide_l a b). assert (D2 := Z.gcd_divide_r a b). rewrite G in D1, D2.
    apply Z.divide_abs_r in D1, D2. destruct NZ as [N|N]; [apply Z.divide_pos_le in D1; lia|apply Z.divide_pos_le in D2; lia]. }
  assert (GP : 0 < Z.gcd a b). { assert (N := Z.gcd_nonneg a b). assert (Z.gcd a b <> 0); [|lia]. intros G. apply Z.gcd_eq_0 in G. lia. }
  destruct (quotient_correct p g (Z.abs a * Z.abs b) (Z.gcd a b) (canonical_valid _ Cp) Vg Ip Ig) as (r & E & Vr & Ir).
  - lia.
  - intros [-> ->]. destruct Ig as [Ig|Ig]; [injection Ig as Ig; lia|discriminate].
  - exists r. split; [exact E|]. split; [exact Vr|]. replace (Z.lcm a b) with (Z.quot (Z.abs a * Z.abs b) (Z.gcd a b)); [exact Ir|].
    rewrite Z.quot_div_nonneg by lia. unfold Z.lcm. destruct (Z.gcd_divide_r a b) as (k & K).
    replace (b / Z.gcd a b) with k by (rewrite K at 1; rewrite Z.div_mul; lia). rewrite Z.abs_mul. rewrite K at 1. rewrite Z.abs_mul, (Z.abs_eq (Z.gcd a b)) by lia.
    rewrite Z.mul_assoc, Z.div_mul by lia. reflexivity.
Qed.

Lemma evenp_ok x a : valid x -> is_int x a -> evenp x = Some (Z.even a).
Proof.
  intros V Ix. unfold evenp. destruct (modulo_correct x (make_int 2) a 2 V) as (r & -> & Vr & Ir); [vm_compute; split; discriminate|exact Ix|left; reflexivity|lia|].
  rewrite (zerop_int r _ Ir). f_equal. rewrite Zmod_even. destruct (Z.even a); reflexivity.
Qed.
