(** quote-url and unquote-url. *)
From Coq Require Import List ZArith Bool Lia ZifyBool.
From Verif Require Import Regexp_Model Regexp_Spec Regexp_Match Regexp_Search Find_Model Find_Spec Find_Expand Find_Replace.
Import ListNotations.
Open Scope Z_scope.

(** * There is one result *)
Lemma first_match_fun t r point k w k' w' : first_match t r point k w -> first_match t r point k' w' -> k = k' /\ w = w'.
Proof.
  intros (A1 & A2 & A3) (B1 & B2 & B3).
  assert (k = k').
  { destruct (Z.lt_trichotomy k k') as [L | [L | L]]; [ | exact L | ].
    - rewrite (B2 k ltac:(lia)) in A3. discriminate.
    - rewrite (A2 k' ltac:(lia)) in B3. discriminate. }
  subst k'. split; [reflexivity | congruence].
Qed.
Lemma first_no_match t r point k w : first_match t r point k w -> no_match t r point -> False.
Proof. intros (A1 & _ & A3) N. rewrite (N k A1) in A3. discriminate. Qed.
Lemma replaced_fun t r v point o : replaced t r v point o -> forall o', replaced t r v point o' -> o = o'.
Proof.
  induction 1 as [point N | point k w o Fm R IH]; intros o' R'; inversion R' as [? N' | ? k' w' o2 F' R2]; subst.
  - reflexivity.
  - destruct (first_no_match _ _ _ _ _ F' N).
  - destruct (first_no_match _ _ _ _ _ Fm N').
  - destruct (first_match_fun _ _ _ _ _ _ _ Fm F') as [<- <-]. now rewrite (IH _ R2).
Qed.

(** * Positions *)
Lemma char_at_app a x b : char_at (a ++ x :: b) (Z.of_nat (length a)) = Some x.
Proof. unfold char_at. replace (Z.of_nat (length a) <? 0) with false by lia. rewrite Nat2Z.id. rewrite nth_error_app2 by lia. now rewrite Nat.sub_diag. Qed.
Lemma char_at_app2 a x b n : n = Z.of_nat (length a) -> char_at (a ++ x :: b) n = Some x.
Proof. intros ->. apply char_at_app. Qed.
Lemma char_at_in a p b k : Z.of_nat (length a) <= k < Z.of_nat (length a) + Z.of_nat (length p) -> exists x, In x p /\ char_at (a ++ p ++ b) k = Some x.
Proof.
  intros K. exists (nth (Z.to_nat k - length a) p 0). split; [apply nth_In; lia | ].
  unfold char_at. replace (k <? 0) with false by lia. rewrite nth_error_app2 by lia. rewrite nth_error_app1 by lia. apply nth_error_nth'. lia.
Qed.
Lemma slice_app_mid a p b : slice (a ++ p ++ b) (Z.of_nat (length a)) (Z.of_nat (length a) + Z.of_nat (length p)) = p.
Proof.
  unfold slice. rewrite Nat2Z.id. replace (Z.to_nat (_ - _)) with (length p) by lia.
  rewrite skipn_app, skipn_all, Nat.sub_diag. cbn [app skipn]. rewrite firstn_app, firstn_all, Nat.sub_diag. cbn [firstn]. apply app_nil_r.
Qed.
Lemma char_at_none t : char_at t (Z.of_nat (length t)) = None.
Proof. unfold char_at. replace (_ <? 0) with false by lia. rewrite Nat2Z.id. apply nth_error_None. lia. Qed.
Lemma first_where (P : Z -> bool) s : Forall (fun c => P c = true) s \/ exists p c s', s = p ++ c :: s' /\ Forall (fun c => P c = true) p /\ P c = false.
Proof.
  induction s as [ | c s IH]; [left; constructor | ]. destruct (P c) eqn:E.
  - destruct IH as [IH | (p & x & s' & -> & F & X)]; [left; constructor; auto | right].
    exists (c :: p), x, s'. split; [reflexivity | ]. split; [constructor; auto | exact X].
  - right. exists [], c, s. split; [reflexivity | ]. split; [constructor | exact E].
Qed.

(** * quote-url *)
Definition safe_items : list citem :=
  [CRange 97 122; CRange 65 90; CRange 48 57; CChr 36; CChr 95; CChr 46; CChr 33; CChr 126; CChr 42; CChr 39; CChr 40; CChr 41; CChr 44; CChr 45].
Definition meta_re : regex := Alt1 (Piece (Cls true safe_items) One Nil).
Ltac fit := unfold fits; repeat split; try reflexivity; try discriminate; try lia; auto;
  try (repeat constructor; try (intros X; repeat (destruct X as [X | X]; [discriminate X | ]); destruct X); lia);
  try (intros X; repeat (destruct X as [X | X]; [discriminate X | ]); destruct X).
Lemma meta_show : show meta_re = url_meta_re.
Proof. reflexivity. Qed.
Lemma meta_fits t : Forall char t -> fits meta_re t false.
Proof.
  intros C. unfold fits. split; [exact C | ]. split; [ | split; [ | split; [ | split; [ | split]]]].
  - cbn. repeat split; try lia; auto; try discriminate.
  - cbn. auto.
  - discriminate.
  - cbn. lia.
  - reflexivity.
  - cbn [meta_re depth depth_branch depth_atom fst snd]. cbn. lia.
Qed.
Lemma safe_unreserved x : existsb (in_item x) safe_items = unreserved x.
Proof.
  unfold unreserved, alnum. cbn [safe_items existsb in_item].
  destruct ((97 <=? x) && (x <=? 122)), ((65 <=? x) && (x <=? 90)), ((48 <=? x) && (x <=? 57)); reflexivity.
Qed.
Lemma meta_ways t b n k : ways t false b meta_re n k =
  match char_at t k with Some x => if unreserved x then [] else [(k + 1, [])] | None => [] end.
Proof.
  change (ways t false b meta_re n k) with (and_then (one t (fun x => xorb true (existsb (in_item x) safe_items)) k) (fun i => [(i, [])])).
  rewrite then_units. unfold one. destruct (char_at t k) as [x | ]; [ | reflexivity]. rewrite safe_unreserved. now destruct (unreserved x).
Qed.
Lemma hex_upper d : 0 <= d < 16 -> hex_digit d = upper_hex d.
Proof.
  intros H. assert (X : In d (map Z.of_nat (seq 0 16))).
  { apply in_map_iff. exists (Z.to_nat d). split; [lia | ]. apply in_seq. lia. }
  cbn in X. repeat destruct X as [<- | X]; try reflexivity. destruct X.
Qed.
Lemma percent_url c : char c -> unreserved c = false -> percent c = url_char c.
Proof.
  intros C U. unfold url_char. rewrite U. unfold percent. unfold char in C. rewrite !hex_upper; [reflexivity | | ].
  - apply Z.mod_pos_bound. lia.
  - split; [apply Z.div_pos; lia | apply Z.div_lt_upper_bound; lia].
Qed.
Lemma url_same p : Forall (fun c => unreserved c = true) p -> flat_map url_char p = p.
Proof. induction 1 as [ | c p U F IH]; [reflexivity | ]. cbn [flat_map]. unfold url_char at 1. rewrite U, IH. reflexivity. Qed.

Definition quote_value (t : list Z) (k : Z) (_ : way) : list Z := percent (nth (Z.to_nat k) t 0).
Lemma quote_derivation n : forall s1 s2, (length s2 < n)%nat -> Forall char s2 ->
  replaced (s1 ++ s2) meta_re (quote_value (s1 ++ s2)) (Z.of_nat (length s1)) (flat_map url_char s2).
Proof.
  induction n as [ | n IH]; intros s1 s2 L C; [lia | ]. set (t := s1 ++ s2).
  destruct (first_where unreserved s2) as [U | (p & c & s3 & -> & U & Uc)].
  - rewrite url_same by exact U. assert (E : slice t (Z.of_nat (length s1)) (Z.of_nat (length t)) = s2).
    { unfold t. rewrite app_length. rewrite <- (app_nil_r s2) at 1. rewrite Nat2Z.inj_add. apply slice_app_mid. }
    rewrite <- E. constructor. intros k K. rewrite meta_ways. unfold t in *. rewrite app_length in K.
    destruct (Z.eq_dec k (Z.of_nat (length s1) + Z.of_nat (length s2))) as [-> | N].
    + rewrite <- Nat2Z.inj_add, <- app_length, char_at_none. reflexivity.
    + destruct (char_at_in s1 s2 [] k ltac:(lia)) as (x & I & Ex). rewrite app_nil_r in Ex. rewrite Ex.
      rewrite (proj1 (Forall_forall _ _) U x I). reflexivity.
  - rewrite flat_map_app. cbn [flat_map]. rewrite (url_same p U).
    apply Forall_app in C as [C1 C2]. inversion C2 as [ | ? ? Cc C3]; subst.
    assert (Ep : slice t (Z.of_nat (length s1)) (Z.of_nat (length (s1 ++ p))) = p).
    { unfold t. rewrite app_length, Nat2Z.inj_add. apply slice_app_mid. }
    assert (Ek : char_at t (Z.of_nat (length (s1 ++ p))) = Some c) by (unfold t; rewrite app_assoc; apply char_at_app).
    assert (En : nth (length (s1 ++ p)) t 0 = c) by (unfold t; rewrite app_assoc; apply nth_middle).
    replace (url_char c) with (quote_value t (Z.of_nat (length (s1 ++ p))) (Z.of_nat (length (s1 ++ p)) + 1, [])).
    2: { unfold quote_value. rewrite Nat2Z.id, En. now apply percent_url. }
    assert (H : forall x y : list Z, x = p -> y = y -> p ++ y = x ++ y) by (intros x y -> _; reflexivity).
    rewrite (H _ _ Ep eq_refl). apply Next.
    + split; [unfold t; rewrite !app_length; cbn [length]; lia | ]. split.
      * intros k K. rewrite meta_ways. rewrite app_length in K.
        destruct (char_at_in s1 p (c :: s3) k ltac:(lia)) as (x & I & Ex). unfold t. rewrite Ex.
        rewrite (proj1 (Forall_forall _ _) U x I). reflexivity.
      * rewrite meta_ways, Ek, Uc. reflexivity.
    + cbn [fst]. assert (Et : t = (s1 ++ p ++ [c]) ++ s3) by (unfold t; rewrite <- !app_assoc; reflexivity).
      rewrite Et. replace (Z.of_nat (length (s1 ++ p)) + 1) with (Z.of_nat (length (s1 ++ p ++ [c]))) by (rewrite !app_length; cbn [length]; lia).
      apply IH; [ | exact C3]. rewrite app_length in L. cbn [length] in L. lia.
Qed.

Lemma quote_ok beyond t : Forall char t -> exists f0, forall f n m, (f0 <= f)%nat -> (length t < n)%nat ->
  quote_url beyond f n m t = Ok (flat_map url_char t).
Proof.
  intros C. destruct (searches beyond meta_re t (meta_fits t C)) as (f0 & Se). exists f0. intros f n m F N.
  destruct (replace_ok beyond meta_re t f (fun p H => Se p f H F) eq_refl quote_template (quote_value t)) with (n := n) (point := 0) (out := @nil (list Z)) (m := m) as (o & E & R); auto; try lia.
  - intros point k j ev (K1 & K2 & K3) P. rewrite meta_ways in K3. destruct (char_at t k) as [x | ] eqn:X; [ | discriminate].
    unfold quote_template, quote_value. cbn [match_start match_pos]. cbn -[percent].
    assert (Lk : k < Z.of_nat (length t)).
    { unfold char_at in X. destruct (k <? 0) eqn:?; [discriminate | ]. assert (nth_error t (Z.to_nat k) <> None) by congruence. apply nth_error_Some in H. lia. }
    replace ((k <? 0) || (Z.of_nat (length t) <=? k)) with false by lia. reflexivity.
  - cbn iota in E. unfold quote_url, string_replace. rewrite <- meta_show, E. f_equal.
    eapply replaced_fun; [exact R | ]. exact (quote_derivation (S (length t)) [] t ltac:(lia) C).
Qed.

(** * unquote-url *)
Definition hex_items : list citem := [CRange 48 57; CRange 65 70; CRange 97 102].
Definition is_hex (x : Z) : bool := existsb (in_item x) hex_items.
Definition unq_re : regex :=
  Alt1 (Piece (Lit [37]) One (Piece (Grp (Alt1 (Piece (Cls false hex_items) One (Piece (Cls false hex_items) One Nil)))) One Nil)).
Lemma unq_show : show unq_re = unquote_re.
Proof. reflexivity. Qed.
Lemma unq_fits t : Forall char t -> fits unq_re t false.
Proof.
  intros C. unfold fits. split; [exact C | ]. split; [ | split; [ | split; [ | split; [ | split]]]].
  - cbn. repeat split; try lia; auto; try discriminate.
    all: try (constructor; [ | constructor]; split; [unfold char; lia | ]; intros I; unfold special in I; cbn in I; lia).
  - cbn. repeat split; auto.
  - discriminate.
  - cbn. lia.
  - reflexivity.
  - cbn. lia.
Qed.
Definition hex_at (t : list Z) (k : Z) : bool := match char_at t k with Some x => is_hex x | None => false end.
Lemma unq_ways t b k : ways t false b unq_re 1 k =
  if (match char_at t k with Some x => 37 =? x | None => false end) && hex_at t (k + 1) && hex_at t (k + 2)
  then [(k + 3, [Opened 1 (k + 1); Closed 1 (k + 3)])] else [].
Proof.
  set (h := fun x => xorb false (existsb (in_item x) hex_items)).
  set (g := fun i => and_then (one t h i) (fun i => and_then (one t h i) (fun i => [(i, [])]))).
  change (ways t false b unq_re 1 k) with
    (and_then (if match char_at t k with Some x => (37 =? x) && true | None => false end then [(k + 1, [])] else [])
       (fun i => and_then (map (fun w => (fst w, Opened 1 i :: snd w ++ [Closed 1 (fst w)])) (g i)) (fun i => [(i, [])]))).
  assert (Eg : forall i, g i = if hex_at t i && hex_at t (i + 1) then [(i + 2, [])] else []).
  { intros i. unfold g, hex_at. unfold one at 1. destruct (char_at t i) as [y | ]; [ | reflexivity]. change (h y) with (if is_hex y then true else false).
    destruct (is_hex y); [ | reflexivity]. rewrite then_one, then_units. unfold one. cbn [andb]. destruct (char_at t (i + 1)) as [z | ]; [ | reflexivity].
    change (h z) with (if is_hex z then true else false). destruct (is_hex z); [ | reflexivity]. now replace (i + 1 + 1) with (i + 2) by lia. }
  destruct (char_at t k) as [x | ]; [ | reflexivity]. rewrite andb_true_r. destruct (37 =? x); [ | reflexivity].
  rewrite then_one, then_units, Eg. replace (k + 1 + 1) with (k + 2) by lia. cbn [andb].
  destruct (hex_at t (k + 1) && hex_at t (k + 2)); [ | reflexivity]. replace (k + 1 + 2) with (k + 3) by lia. reflexivity.
Qed.
Lemma hex_value_some x : is_hex x = true -> exists d, hex_value x = Some d.
Proof.
  unfold is_hex. cbn [hex_items existsb in_item]. unfold hex_value, isdigit. intros H.
  destruct ((48 <=? x) && (x <=? 57)); [eauto | ]. destruct ((65 <=? x) && (x <=? 70)); [eauto | ]. destruct ((97 <=? x) && (x <=? 102)); [eauto | discriminate].
Qed.
Definition the_value (x : Z) : Z := match hex_value x with Some d => d | None => 0 end.
Definition unq_value (t : list Z) (k : Z) (_ : way) : list Z :=
  [16 * the_value (nth (Z.to_nat (k + 1)) t 0) + the_value (nth (Z.to_nat (k + 2)) t 0)].

Lemma char_at_nth t k x : char_at t k = Some x -> 0 <= k < Z.of_nat (length t) /\ nth (Z.to_nat k) t 0 = x.
Proof.
  unfold char_at. destruct (k <? 0) eqn:?; [discriminate | ]. intros E.
  assert (nth_error t (Z.to_nat k) <> None) by congruence. apply nth_error_Some in H. split; [lia | ]. now apply nth_error_nth.
Qed.

Lemma unq_template beyond junk t point k j ev : Forall char t -> first_match t unq_re point k (j, ev) -> 0 <= point <= k ->
  unquote_template beyond junk t (Some (mkmd t (match_starts k ev) (match_ends j ev))) =
    (Ok (unq_value t k (j, ev)), Some (mkmd t (match_starts k ev) (match_ends j ev))).
Proof.
  intros C (K1 & K2 & K3) P. rewrite unq_ways in K3.
  destruct (char_at t k) as [x | ] eqn:X; [ | discriminate]. destruct (37 =? x); [ | discriminate]. cbn [andb] in K3.
  unfold hex_at in K3. destruct (char_at t (k + 1)) as [y | ] eqn:Y; [ | discriminate]. destruct (is_hex y) eqn:Hy; [ | discriminate]. cbn [andb] in K3.
  destruct (char_at t (k + 2)) as [z | ] eqn:Z0; [ | discriminate]. destruct (is_hex z) eqn:Hz; [ | discriminate]. cbn [hd_error] in K3. injection K3 as <- <-.
  destruct (char_at_nth _ _ _ Y) as [By Ny]. destruct (char_at_nth _ _ _ Z0) as [Bz Nz].
  unfold unquote_template. f_equal.
  change [92; 49] with (flat_map show_token [Group 1]). rewrite expand_tokens; auto.
  - cbn [flat_map token_value]. unfold recorded. cbn -[slice hex_value].
    assert (SL : slice t (k + 1) (k + 3) = [y; z]).
    { unfold slice. replace (Z.to_nat (k + 3 - (k + 1))) with 2%nat by lia. rewrite nth_slice by lia. rewrite nth_slice by lia.
      replace (S (Z.to_nat (k + 1))) with (Z.to_nat (k + 2)) by lia. rewrite Ny, Nz. reflexivity. }
    rewrite SL. cbn [app]. unfold unq_value. rewrite Ny, Nz. unfold the_value.
    destruct (hex_value_some y Hy) as (dy & ->). destruct (hex_value_some z Hz) as (dz & ->). reflexivity.
  - intros n a b Ea Eb. destruct n as [ | [ | n]].
    + cbn in Ea, Eb. injection Ea as <-. injection Eb as <-. lia.
    + cbn in Ea, Eb. injection Ea as <-. injection Eb as <-. lia.
    + exfalso. clear - Ea. do 8 (destruct n as [ | n]; [discriminate Ea | ]). cbn in Ea. destruct n; discriminate.
  - repeat constructor.
Qed.

Lemma upper_hex_ok d : 0 <= d < 16 -> is_hex (upper_hex d) = true /\ hex_value (upper_hex d) = Some d /\ char (upper_hex d).
Proof.
  intros H. assert (X : In d (map Z.of_nat (seq 0 16))).
  { apply in_map_iff. exists (Z.to_nat d). split; [lia | ]. apply in_seq. lia. }
  unfold char. cbn in X. repeat destruct X as [<- | X]; cbn; repeat split; lia.
Qed.
Lemma unreserved_not_percent x : unreserved x = true -> (37 =? x) = false.
Proof. intros U. destruct (Z.eqb_spec 37 x) as [<- | N]; [discriminate | reflexivity]. Qed.

Lemma unquote_derivation n : forall u1 s2, (length s2 < n)%nat -> Forall char s2 ->
  replaced (u1 ++ flat_map url_char s2) unq_re (unq_value (u1 ++ flat_map url_char s2)) (Z.of_nat (length u1)) s2.
Proof.
  induction n as [ | n IH]; intros u1 s2 L C; [lia | ].
  destruct (first_where unreserved s2) as [U | (p & c & s3 & -> & U & Uc)].
  - rewrite url_same by exact U. set (t := u1 ++ s2).
    assert (E : slice t (Z.of_nat (length u1)) (Z.of_nat (length t)) = s2).
    { unfold t. rewrite app_length. rewrite <- (app_nil_r s2) at 1. rewrite Nat2Z.inj_add. apply slice_app_mid. }
    rewrite <- E. constructor. intros k K. rewrite unq_ways. unfold t in *. rewrite app_length in K.
    destruct (Z.eq_dec k (Z.of_nat (length u1) + Z.of_nat (length s2))) as [-> | N].
    + rewrite <- Nat2Z.inj_add, <- app_length, char_at_none. reflexivity.
    + destruct (char_at_in u1 s2 [] k ltac:(lia)) as (x & I & Ex). rewrite app_nil_r in Ex. rewrite Ex.
      rewrite (unreserved_not_percent x); [reflexivity | ]. exact (proj1 (Forall_forall _ _) U x I).
  - apply Forall_app in C as [C1 C2]. inversion C2 as [ | ? ? Cc C3]; subst. unfold char in Cc.
    set (t := u1 ++ flat_map url_char (p ++ c :: s3)).
    assert (B1 : 0 <= c / 16 < 16) by (split; [apply Z.div_pos; lia | apply Z.div_lt_upper_bound; lia]).
    assert (B2 : 0 <= c mod 16 < 16) by (apply Z.mod_pos_bound; lia).
    destruct (upper_hex_ok (c / 16) B1) as (X1 & X2 & _). destruct (upper_hex_ok (c mod 16) B2) as (Y1 & Y2 & _).
    set (x := upper_hex (c / 16)) in *. set (y := upper_hex (c mod 16)) in *.
    assert (Et : t = u1 ++ p ++ 37 :: x :: y :: flat_map url_char s3).
    { unfold t. rewrite flat_map_app. cbn [flat_map]. rewrite (url_same p U). unfold url_char at 1. rewrite Uc. reflexivity. }
    set (k := Z.of_nat (length (u1 ++ p))).
    assert (K0 : char_at t k = Some 37) by (rewrite Et, app_assoc; apply char_at_app).
    assert (K1 : char_at t (k + 1) = Some x).
    { rewrite Et. replace (u1 ++ p ++ 37 :: x :: y :: flat_map url_char s3) with ((u1 ++ p ++ [37]) ++ x :: y :: flat_map url_char s3) by (rewrite <- !app_assoc; reflexivity).
      apply char_at_app2. unfold k. rewrite !app_length. cbn [length]. lia. }
    assert (K2 : char_at t (k + 2) = Some y).
    { rewrite Et. replace (u1 ++ p ++ 37 :: x :: y :: flat_map url_char s3) with ((u1 ++ p ++ [37; x]) ++ y :: flat_map url_char s3) by (rewrite <- !app_assoc; reflexivity).
      apply char_at_app2. unfold k. rewrite !app_length. cbn [length]. lia. }
    assert (Ep : slice t (Z.of_nat (length u1)) k = p).
    { unfold k. rewrite Et, app_length, Nat2Z.inj_add. apply slice_app_mid. }
    assert (Ev : forall w, unq_value t k w = [c]).
    { intros w. unfold unq_value. destruct (char_at_nth _ _ _ K1) as [_ ->]. destruct (char_at_nth _ _ _ K2) as [_ ->].
      unfold the_value. rewrite X2, Y2. f_equal. rewrite <- (Z.div_mod c 16) by lia. reflexivity. }
    set (w := (k + 3, [Opened 1 (k + 1); Closed 1 (k + 3)])).
    assert (H : p ++ c :: s3 = slice t (Z.of_nat (length u1)) k ++ unq_value t k w ++ s3) by (rewrite Ep, Ev; reflexivity).
    rewrite H. apply Next with (w := w).
    + split; [rewrite Et; unfold k; rewrite !app_length; cbn [length]; lia | ]. split.
      * intros k' Hk. rewrite unq_ways. unfold k in Hk. rewrite app_length in Hk.
        destruct (char_at_in u1 p (37 :: x :: y :: flat_map url_char s3) k' ltac:(lia)) as (z & I & Ez). rewrite Et, Ez.
        rewrite (unreserved_not_percent z); [reflexivity | ]. exact (proj1 (Forall_forall _ _) U z I).
      * rewrite unq_ways. unfold hex_at. rewrite K0, K1, K2, X1, Y1. reflexivity.
    + assert (Et' : t = (u1 ++ p ++ [37; x; y]) ++ flat_map url_char s3) by (rewrite Et, <- !app_assoc; reflexivity).
      rewrite Et'. cbn [w fst]. replace (k + 3) with (Z.of_nat (length (u1 ++ p ++ [37; x; y]))) by (unfold k; rewrite !app_length; cbn [length]; lia).
      apply IH; [ | exact C3]. rewrite app_length in L. cbn [length] in L. lia.
Qed.

Lemma url_chars s : Forall char s -> Forall char (flat_map url_char s).
Proof.
  induction 1 as [ | c s C F IH]; [constructor | ]. cbn [flat_map]. apply Forall_app. split; [ | exact IH]. unfold char in C.
  unfold url_char. destruct (unreserved c); [repeat constructor; lia | ].
  destruct (upper_hex_ok (c / 16)) as (_ & _ & A); [split; [apply Z.div_pos; lia | apply Z.div_lt_upper_bound; lia] | ].
  destruct (upper_hex_ok (c mod 16)) as (_ & _ & B); [apply Z.mod_pos_bound; lia | ].
  repeat constructor; try lia; apply A || apply B.
Qed.

Lemma unquote_ok beyond junk s : Forall char s -> exists f0, forall f n m, (f0 <= f)%nat -> (length (flat_map url_char s) < n)%nat ->
  unquote_url beyond junk f n m (flat_map url_char s) = Ok s.
Proof.
  intros C. set (t := flat_map url_char s). pose proof (url_chars s C) as Ct. fold t in Ct.
  destruct (searches beyond unq_re t (unq_fits t Ct)) as (f0 & Se). exists f0. intros f n m F N.
  destruct (replace_ok beyond unq_re t f (fun p H => Se p f H F) eq_refl (unquote_template beyond junk) (unq_value t)) with (n := n) (point := 0) (out := @nil (list Z)) (m := m) as (o & E & R); auto; try lia.
  - intros point k j ev FM P. eapply unq_template; eauto.
  - cbn iota in E. unfold unquote_url, string_replace. rewrite <- unq_show, E. f_equal.
    eapply replaced_fun; [exact R | ]. exact (unquote_derivation (S (length s)) [] s ltac:(lia) C).
Qed.
