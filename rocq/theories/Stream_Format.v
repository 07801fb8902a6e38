From Coq Require Import List ZArith Lia Bool ZifyBool.
From Verif Require Import Numbers_Model Stream_Model Stream_Spec Stream_Proofs.
Import ListNotations.
Open Scope Z_scope.

(** * Numerals *)
Lemma digit_char_of : forall d, digit_char d = digit_of d.
Proof. intros d. unfold digit_char, digit_of. destruct (d <? 10); lia. Qed.

Lemma numeral_acc : forall r n t, 2 <= r -> numeral r n t -> 0 <= n /\
  forall fuel acc, n < 2 ^ Z.of_nat (S fuel) -> digits_acc (S fuel) r n acc = t ++ acc.
Proof.
  intros r n t Hr H. induction H as [d Hd|n t d Hn H (Hz & IH) Hd].
  - split; [lia|]. intros fuel acc B. cbn [digits_acc]. rewrite Z.mod_small, Z.div_small by lia.
    cbn [Z.eqb]. rewrite digit_char_of. reflexivity.
  - split; [nia|]. intros fuel acc B. cbn [digits_acc].
    rewrite (Z.add_comm (n * r) d), Z.mod_add, Z.div_add by lia. rewrite Z.mod_small, Z.div_small by lia.
    rewrite Z.add_0_l. destruct (Z.eqb_spec n 0); [lia|].
    rewrite Nat2Z.inj_succ, Z.pow_succ_r in B by lia.
    destruct fuel as [|fuel]; [exfalso; change (2 ^ Z.of_nat 0) with 1 in B; nia|].
    rewrite IH by nia. rewrite digit_char_of, <- app_assoc. reflexivity.
Qed.
Lemma numeral_digits : forall r n t, 2 <= r -> numeral r n t -> digits r n = t.
Proof.
  intros r n t Hr H. destruct (numeral_acc r n t Hr H) as (Hn & E). unfold digits.
  rewrite E; [apply app_nil_r|]. rewrite Nat2Z.inj_succ, Z2Nat.id by apply Z.log2_nonneg.
  destruct (Z.eq_dec n 0) as [->|]; [reflexivity|]. apply Z.log2_spec. lia.
Qed.
Lemma numeral_total : forall r n, 2 <= r -> 0 <= n -> exists t, numeral r n t.
Proof.
  intros r n Hr Hn. revert Hn. pattern n. apply (well_founded_induction (Z.lt_wf 0)). clear n.
  intros n IH Hn. destruct (Z.lt_ge_cases n r) as [L|L].
  - exists [digit_of n]. constructor. lia.
  - assert (D : 0 < n / r) by (apply Z.div_str_pos; lia).
    assert (M := Z.mod_pos_bound n r ltac:(lia)).
    destruct (IH (n / r)) as (t & T); [split; [lia|apply Z.div_lt; lia]|lia|].
    exists (t ++ [digit_of (n mod r)]).
    replace n with (n / r * r + n mod r) at 1 by (rewrite (Z.div_mod n r) at 3; lia).
    constructor; auto.
Qed.

Lemma signed_print : forall v z r t, integer v z -> signed r z t ->
  (r = 10 \/ r = 8 \/ r = 16) -> (r = 10 \/ 0 <= z \/ v = Num (Big z)) -> number_text v r = t.
Proof.
  intros v z r t V S R P.
  assert (D : signed_digits r z = t).
  { unfold signed_digits. destruct S as [z t Hz N|z t Hz N].
    - destruct (Z.ltb_spec z 0); [lia|]. apply numeral_digits; [lia|exact N].
    - destruct (Z.ltb_spec z 0); [|lia]. f_equal. apply numeral_digits; [lia|exact N]. }
  destruct V as [(-> & B)|V]; [|subst v; exact D]. cbn [number_text print_integer].
  destruct P as [P|[P|P]]; [subst r; exact D| |discriminate].
  assert (U : signed_digits r z = digits r (z mod 2 ^ 64)).
  { unfold signed_digits. destruct (Z.ltb_spec z 0); [lia|]. rewrite Z.mod_small; [reflexivity|lia]. }
  destruct R as [R|[R|R]]; subst r; [exact D| |]; cbn [Z.eqb Pos.eqb]; congruence.
Qed.

(** * Parsing *)
Definition no_digit (c : Z) : Prop := isdigit c = false.

Lemma numeral10 : forall n t, numeral 10 n t -> Forall (fun c => isdigit c = true) t /\ atoi t = n /\ t <> [] /\
  (0 < n -> hd 0 t <> 48).
Proof.
  intros n t H.
  assert (Q : forall d, 0 <= d < 10 -> isdigit (digit_of d) = true /\ digit_of d = 48 + d).
  { intros d Hd. unfold isdigit, digit_of. destruct (Z.ltb_spec d 10); lia. }
  induction H as [d Hd|n t d Hn H (A & B & C & D) Hd]; destruct (Q d Hd) as (Q1 & Q2).
  - split; [repeat constructor; exact Q1|]. split; [unfold atoi; cbn [fold_left]; lia|].
    split; [discriminate|]. cbn [hd]. lia.
  - split; [apply Forall_app; split; [exact A|repeat constructor; exact Q1]|].
    split; [unfold atoi in *; rewrite fold_left_app; cbn [fold_left]; lia|].
    split; [destruct t; discriminate|]. intros _. destruct t as [|x t]; [contradiction|]. cbn [app hd] in *. auto.
Qed.
Lemma span_ok : forall t c f, Forall (fun c => isdigit c = true) t -> no_digit c ->
  span_digits (t ++ c :: f) = (t, c :: f).
Proof.
  intros t c f H N. induction H as [|x t Hx H IH]; cbn [app span_digits].
  - rewrite N. reflexivity.
  - rewrite Hx, IH. reflexivity.
Qed.
Lemma span_stop : forall a c f, ~ In 36 a -> c <> 36 -> no_digit c ->
  exists d x r, span_digits (a ++ c :: f) = (d, x :: r) /\ x <> 36.
Proof.
  induction a as [|y a IH]; intros c f N C D; cbn [app span_digits].
  - rewrite D. eauto.
  - destruct (isdigit y).
    + destruct (IH c f) as (d & x & r & E & X); [intro; apply N; right; assumption|exact C|exact D|].
      rewrite E. eauto.
    + exists [], y, (a ++ c :: f). split; [reflexivity|]. intros ->. apply N. left. reflexivity.
Qed.
Lemma index_none : forall a c f k, ~ In 36 a -> c <> 36 -> no_digit c ->
  parse_index (a ++ c :: f) k = (k, a ++ c :: f).
Proof.
  intros a c f k N C D. unfold parse_index. destruct (span_stop a c f N C D) as (d & x & r & E & X). rewrite E.
  destruct (Z.eqb_spec x 36); [contradiction|reflexivity].
Qed.
Lemma index_some : forall n t f k, 0 < n -> numeral 10 n t ->
  parse_index ((t ++ [36]) ++ f) k = (Z.to_nat (n - 1), f).
Proof.
  intros n t f k Hn H. unfold parse_index. rewrite <- app_assoc. cbn [app].
  destruct (numeral10 n t H) as (A & B & _). rewrite span_ok by (exact A || reflexivity).
  rewrite B. destruct (Z.ltb_spec 0 n); [reflexivity|lia].
Qed.

Definition no_flag (c : Z) : Prop := c <> 45 /\ c <> 94 /\ c <> 48 /\ c <> 43 /\ c <> 32.
Lemma flags_ok : forall fl c f s, no_flag c ->
  exists L, parse_flags (map flag_char fl ++ c :: f) s =
    (mksp (left_justify s || has Left fl) (truncate s || has Trunc fl) (pad_zeros s || has Zeros fl) L (width s), c :: f) /\
    (has Plus fl && has Space fl = false ->
     L = if has Plus fl then 43 else if has Space fl then 32 else leading s).
Proof.
  intros fl c f s N. revert s. induction fl as [|g fl IH]; intros s; cbn [map app].
  - exists (leading s). destruct N as (N1 & N2 & N3 & N4 & N5). cbn [parse_flags].
    destruct (Z.eqb_spec c 45); [contradiction|]. destruct (Z.eqb_spec c 94); [contradiction|].
    destruct (Z.eqb_spec c 48); [contradiction|]. destruct (Z.eqb_spec c 43); [contradiction|].
    destruct (Z.eqb_spec c 32); [contradiction|]. cbn [orb has existsb]. rewrite !orb_false_r.
    split; [destruct s; reflexivity|reflexivity].
  - assert (X : exists s1, parse_flags (flag_char g :: map flag_char fl ++ c :: f) s = parse_flags (map flag_char fl ++ c :: f) s1 /\
        s1 = mksp (left_justify s || has Left [g]) (truncate s || has Trunc [g]) (pad_zeros s || has Zeros [g])
               (match g with Plus => 43 | Space => 32 | _ => leading s end) (width s)).
    { eexists. split; [|reflexivity]. destruct s as [a b z l w]; destruct g; cbn [flag_char parse_flags Z.eqb Pos.eqb orb has existsb left_justify truncate pad_zeros leading width];
      rewrite ?orb_false_r, ?orb_true_r; reflexivity. }
    destruct X as (s1 & -> & E1). destruct (IH s1) as (L & E & P). exists L. rewrite E. subst s1.
    cbn [left_justify truncate pad_zeros leading width] in *.
    assert (HC : forall k, has k (g :: fl) = has k [g] || has k fl).
    { intros k. unfold has. cbn [existsb]. rewrite orb_false_r. reflexivity. }
    rewrite !HC, !orb_assoc. split; [reflexivity|].
    intros Q. destruct g; cbn [has existsb orb] in *; try (apply P; exact Q).
    + assert (Q' : has Space fl = false) by exact Q. rewrite Q', andb_false_r in P. specialize (P eq_refl).
      destruct (has Plus fl); exact P.
    + rewrite andb_true_r in Q. rewrite Q in *. specialize (P eq_refl). destruct (has Space fl); exact P.
Qed.

(** Characters that can end a directive *)
Definition ends (c : Z) : Prop := no_flag c /\ no_digit c /\ c <> 36 /\ c <> 37 /\ c <> 46 /\ c <> 0.
Lemma conv_ends : forall c, conv_ok c -> ends (conv_char c).
Proof.
  intros c H. unfold ends, no_flag, no_digit, isdigit. destruct c; cbn [conv_ok conv_char] in *; try lia.
  - cbn [In] in H. destruct H as [H|[H|[H|[H|[]]]]]; injection H as <- <-; lia.
  - cbn [reserved In] in H. lia.
Qed.

Lemma spec_ok : forall fl w lw c f, shows_width w lw -> ends c ->
  exists L, parse_spec (map flag_char fl ++ lw ++ c :: f) =
    (mksp (has Left fl) (has Trunc fl) (has Zeros fl) L w, c, f) /\
    (has Plus fl && has Space fl = false ->
     L = if has Plus fl then 43 else if has Space fl then 32 else 0).
Proof.
  intros fl w lw c f W (E1 & E2 & E3 & E4 & E5 & E6). unfold parse_spec.
  assert (X : exists x g, lw ++ c :: f = x :: g /\ no_flag x /\ Forall (fun c => isdigit c = true) lw /\ atoi lw = w).
  { destruct W as [(-> & ->)|(W & N)].
    - exists c, f. cbn [app]. auto.
    - destruct (numeral10 w lw N) as (A & B & C & D). specialize (D W).
      destruct lw as [|x lw]; [contradiction|]. exists x, (lw ++ c :: f).
      cbn [hd] in D. inversion A as [|? ? A1 A2]; subst. unfold isdigit in A1.
      split; [reflexivity|]. split; [unfold no_flag; lia|]. auto. }
  destruct X as (x & g & Eg & Nf & A & B). rewrite Eg.
  destruct (flags_ok fl x g (mksp false false false 0 0) Nf) as (L & E & P). rewrite E, <- Eg.
  cbn [left_justify truncate pad_zeros leading width orb] in *.
  rewrite span_ok by assumption. rewrite B. cbn [hd tl].
  destruct (Z.eqb_spec c 46); [contradiction|]. exists L. cbn [hd tl]. auto.
Qed.

(** * Fields *)
Definition flat1 (o : out) : list Z := match o with C c => [c mod 256] | S_ l => l end.
Definition flat (l : list out) : list Z := flat_map flat1 l.
Lemma flat_app : forall a b, flat (a ++ b) = flat a ++ flat b.
Proof. intros. unfold flat. rewrite flat_map_app. reflexivity. Qed.

Lemma string_out_ok : forall fl w L t, 0 <= w ->
  L = (if has Plus fl then 43 else if has Space fl then 32 else 0) ->
  fits fl w (with_sign fl t) ->
  flat (string_out (mksp (has Left fl) (has Trunc fl) (has Zeros fl) L w) t) = field fl w (with_sign fl t).
Proof.
  intros fl w L t Hw HL (F1 & F2). unfold string_out.
  cbn [left_justify truncate pad_zeros leading width].
  set (lead := if (L =? 0) || (hd 0 t =? 45) then 0 else L).
  assert (X : (lead = 0 /\ with_sign fl t = t) \/ (lead <> 0 /\ lead mod 256 = lead /\ with_sign fl t = lead :: t)).
  { unfold with_sign. subst lead L. destruct (hd 0 t =? 45); [left; rewrite orb_true_r; auto|].
    destruct (has Plus fl); [right; cbn; split; [lia|split; reflexivity]|].
    destruct (has Space fl); [right; cbn; split; [lia|split; reflexivity]|left; cbn; auto]. }
  clearbody lead. unfold field. destruct X as [(-> & E)|(Nz & M & E)]; rewrite E in *.
  - cbn [Z.eqb app]. rewrite !Z.add_0_r, Z.sub_0_r.
    destruct (Z.ltb_spec (Z.of_nat (length t)) w) as [G|G].
    + destruct ((w =? 0) || (w <=? Z.of_nat (length t))) eqn:Q; [lia|].
      rewrite Z.min_l by lia. destruct (has Left fl); cbn [flat flat_map flat1 app]; rewrite ?app_nil_r; reflexivity.
    + destruct ((w =? 0) || (w <=? Z.of_nat (length t))) eqn:Q; [|lia]. cbn [flat flat_map flat1].
      rewrite app_nil_r. destruct (has Trunc fl); [|reflexivity]. specialize (F1 eq_refl).
      destruct (Z.eqb_spec w (-1)); [lia|reflexivity].
  - cbn [length] in *. destruct (Z.eqb_spec lead 0); [contradiction|].
    replace (Z.of_nat (S (length t))) with (Z.of_nat (length t) + 1) in * by lia.
    destruct (Z.ltb_spec (Z.of_nat (length t) + 1) w) as [G|G].
    + destruct ((w =? 0) || (w <=? Z.of_nat (length t) + 1)) eqn:Q; [lia|].
      rewrite Z.min_l by lia. destruct (has Left fl); cbn [flat flat_map flat1 app]; rewrite ?app_nil_r, M; reflexivity.
    + destruct ((w =? 0) || (w <=? Z.of_nat (length t) + 1)) eqn:Q; [|lia]. cbn [flat flat_map flat1 app].
      rewrite app_nil_r, M. destruct (has Trunc fl); [|reflexivity]. specialize (F1 eq_refl).
      destruct (Z.eqb_spec (w - 1) (-1)); [lia|].
      replace (Z.to_nat w) with (S (Z.to_nat (w - 1))) by lia. reflexivity.
Qed.

Section Conv.
  Variable prin1_string : list Z -> list Z.
  Variable hooks : Z -> option (value -> value).
  Variable args : list value.

  Lemma signed10 : forall v z t, integer v z -> signed 10 z t -> number_text v 10 = t.
  Proof. intros v z t V H. apply signed_print with z; auto. Qed.
  Lemma princ_ok : forall v t, unquoted_text v t -> princ v = t.
  Proof.
    intros v t H. destruct H as [v z t V H| |]; [|reflexivity|reflexivity].
    rewrite <- (signed10 v z t V H). destruct V as [(-> & _)| ->]; reflexivity.
  Qed.
  Lemma prin1_ok : forall v t, quoted_text prin1_string v t -> prin1 prin1_string v = t.
  Proof.
    intros v t H. destruct H as [v z t V H| |]; [|reflexivity|reflexivity].
    rewrite <- (signed10 v z t V H). destruct V as [(-> & _)| ->]; reflexivity.
  Qed.

  Lemma unquoted_ok : forall fl w L v t, 0 <= w ->
    (has Plus fl && has Space fl = false -> L = if has Plus fl then 43 else if has Space fl then 32 else 0) ->
    substitution prin1_string hooks fl w Princ v t ->
    flat (unquoted (mksp (has Left fl) (has Trunc fl) (has Zeros fl) L w) v) = t.
  Proof.
    intros fl w L v t Hw HL H. inversion H as [|? ? s (N1 & N2) F|? ? v' t' N U| | |]; subst.
    - assert (W : with_sign fl s = s) by (unfold with_sign; rewrite N1, N2; destruct (hd 0 s =? 45); reflexivity).
      cbn [unquoted left_justify width].
      destruct (has Left fl && (w =? 0)) eqn:Q.
      + cbn [flat flat_map flat1]. rewrite app_nil_r. unfold field. destruct F as (F1 & _).
        destruct (Z.ltb_spec (Z.of_nat (length s)) w); [lia|].
        destruct (has Trunc fl); [|reflexivity]. specialize (F1 eq_refl). lia.
      + rewrite <- W at 2. apply string_out_ok; [exact Hw|apply HL; rewrite N1; reflexivity|rewrite W; exact F].
    - assert (E := princ_ok _ _ U). destruct v as [n|s|p q]; [|exfalso; exact (N s eq_refl)|];
        cbn [unquoted flat flat_map flat1]; rewrite app_nil_r; exact E.
  Qed.

  Lemma convert_ok : forall fl w L c v t, 0 <= w -> conv_ok c ->
    (has Plus fl && has Space fl = false -> L = if has Plus fl then 43 else if has Space fl then 32 else 0) ->
    substitution prin1_string hooks fl w c v t ->
    exists o, convert prin1_string hooks (mksp (has Left fl) (has Trunc fl) (has Zeros fl) L w) (conv_char c) v = Ok o /\ flat o = t.
  Proof.
    intros fl w L c v t Hw K HL H. destruct c as [| |c r| |c]; cbn [conv_char conv_ok] in *.
    - eexists. split; [reflexivity|]. eapply unquoted_ok; eassumption.
    - eexists. split; [reflexivity|]. inversion H; subst. cbn [flat flat_map flat1]. rewrite app_nil_r.
      apply prin1_ok. assumption.
    - inversion H as [? ? ? ? ? z u V Sg P B F| | | | |]; subst.
      assert (R : r = 10 \/ r = 8 \/ r = 16).
      { cbn [In] in K. destruct K as [K|[K|[K|[K|[]]]]]; injection K as <- <-; lia. }
      assert (E := signed_print v z r u V Sg R P).
      exists (string_out (mksp (has Left fl) (has Trunc fl) (has Zeros fl) L w) (number_text v r)).
      split; [|rewrite E; apply string_out_ok; auto].
      cbn [In] in K. destruct K as [K|[K|[K|[K|[]]]]]; injection K as <- <-; reflexivity.
    - inversion H; subst. eexists. split; [reflexivity|reflexivity].
    - inversion H as [| | | | |? ? ? f ? ? Hf Hs]; subst.
      exists (unquoted (mksp (has Left fl) (has Trunc fl) (has Zeros fl) L w) (f v)).
      split; [|eapply unquoted_ok; eassumption].
      unfold convert. rewrite Hf. cbn [reserved In] in K.
      assert (Q : forall x, c <> x -> (c =? x) = false) by (intros; apply Z.eqb_neq; assumption).
      rewrite !Q by lia. reflexivity.
  Qed.

  Lemma flush_flat : forall l, flat (flush l) = l.
  Proof. intros [|c l]; [reflexivity|]. cbn [flush flat flat_map flat1]. apply app_nil_r. Qed.

  Lemma percent_ok : forall f, parse_spec (37 :: f) = (mksp false false false 0 0, 37, f).
  Proof. reflexivity. Qed.

  Lemma width_nonneg : forall w lw, shows_width w lw -> 0 <= w.
  Proof. intros w lw [(-> & _)|(H & _)]; lia. Qed.

  Lemma flag_no_dollar : forall fl w lw, shows_width w lw -> ~ In 36 (map flag_char fl ++ lw).
  Proof.
    intros fl w lw W H. apply in_app_or in H. destruct H as [H|H].
    - apply in_map_iff in H. destruct H as (g & E & _). destruct g; discriminate.
    - destruct W as [(_ & ->)|(_ & N)]; [exact H|]. destruct (numeral10 w lw N) as (A & _).
      rewrite Forall_forall in A. specialize (A _ H). discriminate.
  Qed.

  Lemma loop_ok : forall ts f, template ts f -> forall k o fuel last,
    writes prin1_string hooks args k ts o -> (length f < fuel)%nat ->
    exists os, format_loop prin1_string hooks args fuel f last k = (os, Ok tt) /\ flat os = last ++ o.
  Proof.
    intros ts f T. induction T as [|l ts f N37 N0 T IH|ts f T IH|i li fl w lw c ts f HI HW HC T IH];
      intros k o fuel last W L.
    - inversion W; subst. destruct fuel; [cbn [length] in L; lia|]. exists (flush last). cbn [format_loop].
      rewrite app_nil_r. split; [reflexivity|apply flush_flat].
    - inversion W as [|? ? ? o' W'| |]; subst. revert fuel last L N37 N0.
      induction l as [|c l IHl]; intros fuel last L N37 N0; [exact (IH k o' fuel last W' L)|].
      cbn [app length] in *. destruct fuel as [|fuel]; [lia|]. cbn [format_loop].
      destruct (Z.eqb_spec c 0) as [->|]; [exfalso; apply N0; left; reflexivity|].
      destruct (Z.eqb_spec c 37) as [->|]; [exfalso; apply N37; left; reflexivity|].
      destruct (IHl ltac:(constructor; exact W') fuel (last ++ [c])) as (os & E & F);
        [lia|intro; apply N37; right; assumption|intro; apply N0; right; assumption|].
      exists os. rewrite E, F, <- app_assoc. auto.
    - inversion W as [| |? ? o' W'|]; subst. cbn [length] in L. destruct fuel as [|fuel]; [lia|].
      cbn [format_loop Z.eqb Pos.eqb].
      change (37 :: f) with ([] ++ 37 :: f). rewrite index_none by (auto; try discriminate; reflexivity).
      cbn [app]. rewrite percent_ok. cbn [Z.eqb Pos.eqb].
      destruct (IH k o' fuel [] W' ltac:(lia)) as (os & E & F). rewrite E. eexists. split; [reflexivity|].
      rewrite flat_app, flush_flat. cbn [flat flat_map flat1 app] in *. unfold flat in F. rewrite F. reflexivity.
    - inversion W as [| | |? ? ? ? ? ? t o' j Su W']; subst. cbn [length] in L.
      destruct fuel as [|fuel]; [lia|]. cbn [format_loop Z.eqb Pos.eqb].
      assert (En := conv_ends c HC).
      assert (PI : parse_index (li ++ map flag_char fl ++ lw ++ conv_char c :: f) k = (j, map flag_char fl ++ lw ++ conv_char c :: f)).
      { subst j. destruct i as [n|]; cbn [shows_index] in HI.
        - destruct HI as (Hn & t' & Nt & ->). apply index_some; assumption.
        - subst li. cbn [app]. rewrite app_assoc. destruct En as (_ & En2 & En3 & _).
          apply index_none; auto. eapply flag_no_dollar; eassumption. }
      rewrite PI. destruct (spec_ok fl w lw (conv_char c) f HW En) as (Ld & E & HL). rewrite E.
      destruct (Z.eqb_spec (conv_char c) 37) as [X|_]; [exfalso; destruct En as (_ & _ & _ & En4 & _); exact (En4 X)|].
      destruct (convert_ok fl w Ld c _ t (width_nonneg _ _ HW) HC HL Su) as (os1 & E1 & F1). rewrite E1.
      destruct (IH (S j) o' fuel [] W') as (os & E2 & F2).
      { rewrite !app_length in L. cbn [length] in L. lia. }
      rewrite E2. eexists. split; [reflexivity|]. rewrite !flat_app, flush_flat, F1, F2. reflexivity.
  Qed.

  Lemma emit_ok : forall os h st t, collected h st t ->
    exists h' st', emit h st os = Ok (h', st') /\ collected h' st' (t ++ flat os) /\ framed h st h' st'.
  Proof.
    induction os as [|[c|l] os IH]; intros h st t C0; cbn [emit].
    - exists h, st. cbn. rewrite app_nil_r. split; [reflexivity|]. split; [exact C0|apply framed_refl].
    - destruct (putc_ok h st t c C0) as (h1 & st1 & E & C1 & F1). rewrite E. cbn [bind].
      destruct (IH h1 st1 _ C1) as (h2 & st2 & E2 & C2 & F2). exists h2, st2. split; [exact E2|].
      split; [cbn [flat flat_map flat1]; rewrite app_assoc; exact C2|eapply framed_trans; eassumption].
    - destruct (puts_ok h st t l C0) as (h1 & st1 & E & C1 & F1). rewrite E. cbn [bind].
      destruct (IH h1 st1 _ C1) as (h2 & st2 & E2 & C2 & F2). exists h2, st2. split; [exact E2|].
      split; [cbn [flat flat_map flat1]; rewrite app_assoc; exact C2|eapply framed_trans; eassumption].
  Qed.

  Lemma format_to_ok : forall h st t ts f o, collected h st t -> template ts f ->
    writes prin1_string hooks args 0 ts o ->
    exists h' st', format_to prin1_string hooks args h st f = Ok (h', st') /\ collected h' st' (t ++ o) /\ framed h st h' st'.
  Proof.
    intros h st t ts f o C0 T W. unfold format_to, format_out.
    destruct (loop_ok ts f T 0%nat o (S (length f)) [] W ltac:(lia)) as (os & E & F). rewrite E.
    destruct (emit_ok os h st t C0) as (h1 & st1 & E1 & C1 & F1). rewrite E1. cbn [bind].
    exists h1, st1. cbn [app] in F. rewrite F in C1. auto.
  Qed.
  Lemma format_nil_ok : forall h ts f o, template ts f -> writes prin1_string hooks args 0 ts o ->
    format_nil prin1_string hooks args h f = Ok o.
  Proof.
    intros h ts f o T W. unfold format_nil. assert (M := make_ok h). destruct (make_ostream h) as (h1 & st).
    destruct M as (C0 & _). destruct (format_to_ok h1 st [] ts f o C0 T W) as (h2 & st2 & E & (s & N & K & _) & _).
    rewrite E. cbn [bind]. rewrite N, K. reflexivity.
  Qed.
End Conv.
