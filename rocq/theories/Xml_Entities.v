(** The two substitutions of the XML reader and printer. *)
From Coq Require Import List ZArith Bool Lia ZifyBool.
From Verif Require Import Regexp_Model Regexp_Spec Regexp_Match Regexp_Search Find_Model Find_Spec Find_Expand Find_Replace Find_Url Xml_Model Xml_Spec.
Import ListNotations.
Open Scope Z_scope.

(** * The regexp *)
Definition names : list (list Z) := map fst the_entities.
Fixpoint alts (l : list (list Z)) : regex :=
  match l with
  | [] => Alt1 Nil
  | [e] => Alt1 (Piece (Lit e) One Nil)
  | e :: l => Alt (Piece (Lit e) One Nil) (alts l)
  end.
Definition ent_rx : regex := Alt1 (Piece (Lit [38]) One (Piece (Grp (alts names)) One (Piece (Lit [59]) One Nil))).
Lemma ent_show : show ent_rx = entity_re.
Proof. reflexivity. Qed.
Lemma ent_fits t : Forall char t -> fits ent_rx t false.
Proof.
  intros C. unfold fits. split; [exact C | ]. split; [ | split; [ | split; [ | split; [ | split]]]].
  - cbn. repeat split; try lia; auto; try discriminate.
    all: repeat (constructor; [split; [unfold char; lia | ]; intros I; unfold special in I; cbn in I; lia | ]); try constructor.
  - cbn. repeat split; auto.
  - discriminate.
  - cbn. lia.
  - reflexivity.
  - cbn. lia.
Qed.

(** * Literals and the rest of the string *)
Lemma skipn_nth (t : list Z) n : skipn n t = match nth_error t n with Some x => x :: skipn (S n) t | None => [] end.
Proof. revert n. induction t as [ | a t IH]; intros [ | n]; try reflexivity. cbn [skipn nth_error]. rewrite IH. reflexivity. Qed.
Lemma skipn_skipn (t : list Z) a b : skipn a (skipn b t) = skipn (a + b) t.
Proof.
  revert a t. induction b as [ | b IH]; intros a t.
  - cbn [skipn]. now rewrite Nat.add_0_r.
  - destruct t as [ | x t]; [now rewrite !skipn_nil | ]. cbn [skipn]. rewrite IH. replace (a + S b)%nat with (S (a + b)) by lia. reflexivity.
Qed.
Lemma literal_iff t cs k : 0 <= k -> literal t false cs k = true <-> exists r, skipn (Z.to_nat k) t = cs ++ r.
Proof.
  revert k. induction cs as [ | c cs IH]; intros k K.
  - cbn. split; [intros _; eauto | auto].
  - cbn [literal]. unfold char_at. replace (k <? 0) with false by lia. rewrite (skipn_nth t (Z.to_nat k)).
    destruct (nth_error t (Z.to_nat k)) as [x | ].
    + unfold eqc. rewrite andb_true_iff, IH by lia. replace (Z.to_nat (k + 1)) with (S (Z.to_nat k)) by lia. split.
      * intros [E (r & Er)]. exists r. rewrite Er. cbn. f_equal. lia.
      * intros (r & Er). injection Er as -> Er. split; [lia | eauto].
    + split; [discriminate | intros (r & Er); discriminate].
Qed.
Definition lit_ways (t : list Z) (e : list Z) (i : Z) : list way := if literal t false e i then [(i + Z.of_nat (length e), [])] else [].
Lemma ways_alts t b l : l <> [] -> forall n i, ways t false b (alts l) n i = flat_map (fun e => lit_ways t e i) l.
Proof.
  induction l as [ | e [ | e' l] IH]; intros N n i; [congruence | | ].
  - change (ways t false b (alts [e]) n i) with (and_then (lit_ways t e i) (fun i => [(i, [])])). rewrite then_units. cbn. now rewrite app_nil_r.
  - change (ways t false b (alts (e :: e' :: l)) n i) with (and_then (lit_ways t e i) (fun i => [(i, [])]) ++ ways t false b (alts (e' :: l)) (n + 0) i).
    rewrite then_units, IH by discriminate. reflexivity.
Qed.
Definition ent_way (t : list Z) (k : Z) (e : list Z) : list way :=
  if literal t false (38 :: e ++ [59]) k then [(k + 2 + Z.of_nat (length e), [Opened 1 (k + 1); Closed 1 (k + 1 + Z.of_nat (length e))])] else [].
Lemma literal_app t a b k : 0 <= k -> literal t false (a ++ b) k = literal t false a k && literal t false b (k + Z.of_nat (length a)).
Proof.
  revert k. induction a as [ | c a IH]; intros k K; cbn [app literal length].
  - now rewrite Z.add_0_r.
  - destruct (char_at t k); [ | reflexivity]. rewrite IH by lia. rewrite andb_assoc. f_equal. f_equal. lia.
Qed.
Lemma then_flat (l : list way) f g : (forall i, In i l -> snd i = []) -> and_then (map f l) g = flat_map (fun w => and_then (map f [w]) g) l.
Proof. unfold and_then. intros _. induction l as [ | w l IH]; [reflexivity | ]. cbn. rewrite IH. now rewrite app_nil_r. Qed.
Lemma ent_ways t b k : 0 <= k -> ways t false b ent_rx 1 k = flat_map (ent_way t k) names.
Proof.
  intros K.
  change (ways t false b ent_rx 1 k) with
    (and_then (lit_ways t [38] k) (fun i =>
       and_then (map (fun w => (fst w, Opened 1 i :: snd w ++ [Closed 1 (fst w)])) (ways t false b (alts names) 2 i)) (fun i => and_then (lit_ways t [59] i) (fun i => [(i, [])])))).
  unfold ent_way. assert (E : forall e, literal t false (38 :: e ++ [59]) k = literal t false [38] k && (literal t false e (k + 1) && literal t false [59] (k + 1 + Z.of_nat (length e)))).
  { intros e. change (38 :: e ++ [59]) with ([38] ++ (e ++ [59])). rewrite literal_app, literal_app by (cbn [length]; lia). reflexivity. }
  unfold lit_ways at 1. destruct (literal t false [38] k).
  2: { cbn [and_then flat_map]. induction names as [ | e l IH]; [reflexivity | ]. cbn [flat_map]. now rewrite E, <- IH. }
  rewrite then_one. rewrite ways_alts by discriminate.
  induction names as [ | e l IH]; [reflexivity | ]. cbn [flat_map]. rewrite <- IH. rewrite E. cbn [andb].
  rewrite map_app. unfold and_then. rewrite flat_map_app. f_equal.
  unfold lit_ways. change (Z.of_nat (length [38])) with 1. destruct (literal t false e (k + 1)); [ | reflexivity].
  cbn [map fst snd app flat_map]. destruct (literal t false [59] (k + 1 + Z.of_nat (length e))); [ | reflexivity].
  cbn. replace (k + 2 + Z.of_nat (length e)) with (k + 1 + Z.of_nat (length e) + 1) by lia. reflexivity.
Qed.

Lemma no_way t k : 0 <= k -> hd_error (flat_map (ent_way t k) names) = None -> forall e v, In (e, v) the_entities -> ~ starts_entity (skipn (Z.to_nat k) t) e.
Proof.
  intros K H e v I (u & E). assert (N : In e names) by (apply in_map_iff; now exists (e, v)).
  destruct (flat_map (ent_way t k) names) as [ | w l] eqn:F; [ | discriminate].
  assert (X : In (k + 2 + Z.of_nat (length e), [Opened 1 (k + 1); Closed 1 (k + 1 + Z.of_nat (length e))]) (flat_map (ent_way t k) names)).
  { apply in_flat_map. exists e. split; [exact N | ]. unfold ent_way.
    assert (L : literal t false (38 :: e ++ [59]) k = true) by (apply literal_iff; [exact K | ]; exists u; rewrite E; cbn; now rewrite <- app_assoc).
    rewrite L. now left. }
  rewrite F in X. destruct X.
Qed.
Lemma some_way t k j ev : 0 <= k -> hd_error (flat_map (ent_way t k) names) = Some (j, ev) -> exists e v u,
  In (e, v) the_entities /\ skipn (Z.to_nat k) t = 38 :: e ++ 59 :: u /\ j = k + 2 + Z.of_nat (length e) /\ ev = [Opened 1 (k + 1); Closed 1 (k + 1 + Z.of_nat (length e))].
Proof.
  intros K H. assert (I : In (j, ev) (flat_map (ent_way t k) names)).
  { destruct (flat_map (ent_way t k) names) as [ | w l]; [discriminate | ]. injection H as ->. now left. }
  apply in_flat_map in I as (e & N & I). unfold ent_way in I. destruct (literal t false (38 :: e ++ [59]) k) eqn:L; [ | destruct I].
  destruct I as [I | []]. injection I as <- <-. apply literal_iff in L as (u & E); [ | exact K].
  apply in_map_iff in N as ((e' & v) & Ee & N). cbn in Ee. subst e'. exists e, v, u. split; [exact N | ]. split; [ | split; reflexivity].
  rewrite E. cbn. now rewrite <- app_assoc.
Qed.

Lemma entity_value e v : In (e, v) the_entities -> assoc e entity_alist = Some v.
Proof. intros I. cbn in I. repeat (destruct I as [I | I]; [injection I as <- <-; reflexivity | ]). destruct I. Qed.
Lemma entity_char e v : In (e, v) the_entities -> Forall (fun c => c <> 38 /\ c <> 59 /\ char c) e.
Proof. intros I. cbn in I. repeat (destruct I as [I | I]; [injection I as <- <-; repeat constructor; lia | ]). destruct I. Qed.

Definition ent_value (t : list Z) (k : Z) (w : way) : list Z :=
  match assoc (slice t (k + 1) (fst w - 1)) entity_alist with Some v => v | None => [] end.
Lemma slice_mid (t a p b : list Z) k : 0 <= k -> skipn (Z.to_nat k) t = a ++ p ++ b -> slice t (k + Z.of_nat (length a)) (k + Z.of_nat (length a) + Z.of_nat (length p)) = p.
Proof.
  intros K E. unfold slice. replace (Z.to_nat (k + Z.of_nat (length a))) with (length a + Z.to_nat k)%nat by lia.
  rewrite <- skipn_skipn, E. replace (Z.to_nat _) with (length p) by lia.
  rewrite skipn_app, skipn_all, Nat.sub_diag. cbn [skipn app]. rewrite firstn_app, firstn_all, Nat.sub_diag. cbn [firstn]. apply app_nil_r.
Qed.
Lemma skipn_len (t x : list Z) n : skipn n t = x -> x <> [] -> (length t = n + length x)%nat.
Proof. intros E N. assert (L := f_equal (@length Z) E). rewrite skipn_length in L. destruct x; [congruence | cbn in *; lia]. Qed.

Lemma ent_template beyond junk t point k j ev : Forall char t -> 0 <= point -> first_match t ent_rx point k (j, ev) ->
  entity_template beyond junk t (Some (mkmd t (match_starts k ev) (match_ends j ev))) =
    (Ok (ent_value t k (j, ev)), Some (mkmd t (match_starts k ev) (match_ends j ev))).
Proof.
  intros C P (K1 & K2 & K3). rewrite ent_ways in K3 by lia. destruct (some_way t k j ev ltac:(lia) K3) as (e & v & u & I & E & -> & ->).
  assert (L := skipn_len _ _ _ E ltac:(discriminate)). cbn [length] in L. rewrite app_length in L. cbn [length] in L.
  assert (SL : slice t (k + 1) (k + 1 + Z.of_nat (length e)) = e).
  { exact (slice_mid t [38] e (59 :: u) k ltac:(lia) E). }
  unfold entity_template. f_equal. change [92; 49] with (flat_map show_token [Group 1]). rewrite expand_tokens; auto.
  - cbn [flat_map token_value]. unfold recorded. cbn -[slice assoc entity_alist Z.of_nat]. rewrite SL. rewrite app_nil_r.
    unfold ent_value. cbn [fst]. replace (k + 2 + Z.of_nat (length e) - 1) with (k + 1 + Z.of_nat (length e)) by lia. rewrite SL. reflexivity.
  - intros n a b Ea Eb. destruct n as [ | [ | n]].
    + cbn -[Z.of_nat] in Ea, Eb. injection Ea as <-. injection Eb as <-. lia.
    + cbn -[Z.of_nat] in Ea, Eb. injection Ea as <-. injection Eb as <-. lia.
    + exfalso. clear - Ea. do 8 (destruct n as [ | n]; [discriminate Ea | ]). cbn in Ea. destruct n; discriminate.
  - repeat constructor.
Qed.

(** ** From where the matches are to what the text stands for *)
Lemma skipn_slice (t : list Z) a b : 0 <= a <= b -> skipn (Z.to_nat a) t = slice t a b ++ skipn (Z.to_nat b) t.
Proof.
  intros H. unfold slice. rewrite <- (firstn_skipn (Z.to_nat (b - a)) (skipn (Z.to_nat a) t)) at 1. f_equal.
  rewrite skipn_skipn. f_equal. lia.
Qed.
Lemma stands_through t o : forall n a b, Z.of_nat n = b - a -> 0 <= a -> b <= Z.of_nat (length t) ->
  (forall k, a <= k < b -> forall e v, In (e, v) the_entities -> ~ starts_entity (skipn (Z.to_nat k) t) e) ->
  stands (skipn (Z.to_nat b) t) o -> stands (skipn (Z.to_nat a) t) (slice t a b ++ o).
Proof.
  induction n as [ | n IH]; intros a b N A B F St.
  - replace b with a in * by lia. unfold slice. rewrite Z.sub_diag. exact St.
  - assert (G := F a ltac:(lia)). unfold slice. rewrite (skipn_nth t (Z.to_nat a)) in G |- *. destruct (nth_error t (Z.to_nat a)) as [x | ] eqn:E.
    + replace (Z.to_nat (b - a)) with (S (Z.to_nat (b - (a + 1)))) by lia. cbn [firstn app]. constructor; [exact G | ].
      replace (S (Z.to_nat a)) with (Z.to_nat (a + 1)) by lia. apply IH; try lia; auto. intros k K. apply F. lia.
    + exfalso. apply nth_error_None in E. lia.
Qed.
Lemma replaced_stands t : forall point o, replaced t ent_rx (ent_value t) point o -> 0 <= point -> point <= Z.of_nat (length t) -> stands (skipn (Z.to_nat point) t) o.
Proof.
  induction 1 as [point N | point k w o Fm R IH]; intros P Q.
  - rewrite <- (app_nil_r (slice _ _ _)). apply stands_through with (n := Z.to_nat (Z.of_nat (length t) - point)); try lia.
    + intros k K. apply no_way; [lia | ]. rewrite <- ent_ways with (b := (point =? 0)) by lia. rewrite N by lia. reflexivity.
    + rewrite Nat2Z.id, skipn_all. constructor.
  - destruct Fm as (K1 & K2 & K3). rewrite ent_ways in K3 by lia. destruct w as [j ev].
    destruct (some_way t k j ev ltac:(lia) K3) as (e & v & u & I & E & Ej & ->).
    assert (L := skipn_len _ _ _ E ltac:(discriminate)). cbn [length] in L. rewrite app_length in L. cbn [length] in L. cbn [fst] in *.
    apply stands_through with (n := Z.to_nat (k - point)); try lia.
    + intros k' K'. apply no_way; [lia | ]. rewrite <- ent_ways with (b := (point =? 0)) by lia. rewrite K2 by lia. reflexivity.
    + assert (SL : slice t (k + 1) (k + 1 + Z.of_nat (length e)) = e) by exact (slice_mid t [38] e (59 :: u) k ltac:(lia) E).
      unfold ent_value. cbn [fst]. replace (j - 1) with (k + 1 + Z.of_nat (length e)) by lia. rewrite SL, (entity_value e v I). rewrite E.
      assert (Eu : skipn (Z.to_nat j) t = u).
      { replace (Z.to_nat j) with (2 + length e + Z.to_nat k)%nat by lia. rewrite <- skipn_skipn, E. change (38 :: e ++ 59 :: u) with ((38 :: e) ++ 59 :: u).
        rewrite skipn_app. rewrite skipn_all2 by (cbn; lia). cbn [app length]. replace (2 + length e - S (length e))%nat with 1%nat by lia. reflexivity. }
      apply stands_entity; [exact I | ]. rewrite <- Eu. apply IH; lia.
Qed.
Lemma stands_fun u s : stands u s -> forall s', stands u s' -> s = s'.
Proof.
  induction 1 as [ | c u s F H IH | e v u s I H IH]; intros s' S; inversion S as [ | c' u' s2 F' H' | e' v' u' s2 I' H' E']; subst.
  - reflexivity.
  - f_equal. auto.
  - exfalso. apply (F e' v' I'). now exists u'.
  - exfalso. apply (F' e v I). now exists u.
  - assert (X : e = e' /\ u = u').
    { assert (A := entity_char e v I). assert (B := entity_char e' v' I'). clear - E' A B. revert e' B E'.
      induction e as [ | c e IH]; intros [ | c' e'] B E; cbn in E.
      - injection E as E. split; congruence.
      - injection E as Ec _. inversion B as [ | ? ? (Q1 & X & Q2) ?]; subst; congruence.
      - injection E as Ec _. inversion A as [ | ? ? (Q1 & X & Q2) ?]; subst; congruence.
      - injection E as Ec E. inversion A; inversion B; subst. destruct (IH ltac:(auto) e' ltac:(auto) E) as [Q1 Q2]. split; congruence. }
    destruct X as [<- <-]. f_equal; [ | auto]. assert (X := entity_value _ _ I). rewrite (entity_value _ _ I') in X. congruence.
Qed.
Lemma entities_ok beyond junk t : Forall char t -> exists f0 s, stands t s /\ forall f, (f0 <= f)%nat -> substitute_entities beyond junk f t = Ok s.
Proof.
  intros C. destruct (searches beyond ent_rx t (ent_fits t C)) as (f0 & Se).
  assert (H : forall f, (f0 <= f)%nat -> exists s, substitute_entities beyond junk f t = Ok s /\ stands t s).
  { intros f F.
    destruct (replace_ok beyond ent_rx t f (fun p H => Se p f H F) eq_refl (entity_template beyond junk) (ent_value t)) with (n := S (length t)) (point := 0) (out := @nil (list Z)) (m := @None mdata) as (o & E & R); auto; try lia.
    - intros point k j ev K P. now apply (ent_template beyond junk t point k j ev C ltac:(lia)).
    - exists o. split; [unfold substitute_entities, string_replace; now rewrite <- ent_show | ]. exact (replaced_stands t 0 o R ltac:(lia) ltac:(lia)). }
  destruct (H f0 (le_n _)) as (s & E & St). exists f0, s. split; [exact St | ]. intros f F. destruct (H f F) as (s' & E' & St').
  now rewrite (stands_fun _ _ St _ St').
Qed.

(** * The printer's substitution *)
Definition esc_rx : regex := Alt1 (Piece (Cls false [CChr 60; CChr 38; CChr 39; CChr 34]) One Nil).
Lemma esc_show : show esc_rx = escape_re.
Proof. reflexivity. Qed.
Lemma esc_fits t : Forall char t -> fits esc_rx t false.
Proof.
  intros C. unfold fits. split; [exact C | ]. split; [ | split; [ | split; [ | split; [ | split]]]].
  - cbn. repeat split; try lia; auto; try discriminate.
  - cbn. auto.
  - discriminate.
  - cbn. lia.
  - reflexivity.
  - cbn. lia.
Qed.
Definition marked_char (x : Z) : bool := (x =? 60) || (x =? 38) || (x =? 39) || (x =? 34).
Lemma esc_ways t b n k : ways t false b esc_rx n k =
  match char_at t k with Some x => if marked_char x then [(k + 1, [])] else [] | None => [] end.
Proof.
  change (ways t false b esc_rx n k) with (and_then (one t (fun x => xorb false (existsb (in_item x) [CChr 60; CChr 38; CChr 39; CChr 34])) k) (fun i => [(i, [])])).
  rewrite then_units. unfold one. destruct (char_at t k) as [x | ]; [ | reflexivity].
  assert (E : xorb false (existsb (in_item x) [CChr 60; CChr 38; CChr 39; CChr 34]) = marked_char x).
  { unfold marked_char. cbn [existsb in_item]. rewrite xorb_false_l, orb_false_r, !(Z.eqb_sym x), !orb_assoc. reflexivity. }
  rewrite E. reflexivity.
Qed.
Definition esc_value (t : list Z) (k : Z) (_ : way) : list Z := put_for (nth (Z.to_nat k) t 0).
Lemma put_same c : marked_char c = false -> put_for c = [c].
Proof.
  unfold marked_char, put_for. intros H. apply orb_false_iff in H as [H H4]. apply orb_false_iff in H as [H H3]. apply orb_false_iff in H as [H1 H2].
  now rewrite H1, H2, H3, H4.
Qed.
Lemma put_rassoc c : marked_char c = true -> match rassoc [c] escape_alist with Some v => v | None => [] end = put_for c.
Proof.
  unfold marked_char. intros H. assert (X : c = 60 \/ c = 38 \/ c = 39 \/ c = 34) by lia. destruct X as [-> | [-> | [-> | ->]]]; reflexivity.
Qed.
Lemma slice_one (t : list Z) k x : char_at t k = Some x -> slice t k (k + 1) = [x].
Proof.
  unfold char_at. destruct (k <? 0) eqn:K; [discriminate | ]. intros E. unfold slice. rewrite skipn_nth, E.
  replace (Z.to_nat (k + 1 - k)) with 1%nat by lia. reflexivity.
Qed.
Lemma esc_template beyond junk t point k j ev : Forall char t -> 0 <= point -> first_match t esc_rx point k (j, ev) ->
  escape_template beyond junk t (Some (mkmd t (match_starts k ev) (match_ends j ev))) =
    (Ok (esc_value t k (j, ev)), Some (mkmd t (match_starts k ev) (match_ends j ev))).
Proof.
  intros C P (K1 & K2 & K3). rewrite esc_ways in K3. destruct (char_at t k) as [x | ] eqn:X; [ | discriminate].
  destruct (marked_char x) eqn:M; [ | discriminate]. injection K3 as <- <-. destruct (char_at_nth _ _ _ X) as [B Nx].
  unfold escape_template. f_equal. change [92; 48] with (flat_map show_token [Group 0]). rewrite expand_tokens; auto.
  - cbn [flat_map token_value]. unfold recorded. cbn -[slice rassoc escape_alist]. rewrite (slice_one t k x X). cbn [app].
    unfold esc_value. rewrite Nx, <- (put_rassoc x M). reflexivity.
  - intros n a b Ea Eb. destruct n as [ | n].
    + cbn in Ea, Eb. injection Ea as <-. injection Eb as <-. lia.
    + exfalso. clear - Ea. do 9 (destruct n as [ | n]; [discriminate Ea | ]). cbn in Ea. destruct n; discriminate.
  - repeat constructor.
Qed.
Lemma slice_put (t : list Z) : forall n a b, Z.of_nat n = b - a -> 0 <= a -> b <= Z.of_nat (length t) ->
  (forall k, a <= k < b -> forall x, char_at t k = Some x -> marked_char x = false) -> flat_map put_for (slice t a b) = slice t a b.
Proof.
  induction n as [ | n IH]; intros a b N A B F.
  - unfold slice. replace (b - a) with 0 by lia. reflexivity.
  - assert (G := F a ltac:(lia)). unfold slice in *. unfold char_at in G. replace (a <? 0) with false in G by lia.
    rewrite (skipn_nth t (Z.to_nat a)). destruct (nth_error t (Z.to_nat a)) as [x | ] eqn:E.
    + replace (Z.to_nat (b - a)) with (S (Z.to_nat (b - (a + 1)))) by lia. cbn [firstn flat_map]. rewrite (put_same x (G x eq_refl)). cbn [app]. f_equal.
      replace (S (Z.to_nat a)) with (Z.to_nat (a + 1)) by lia. apply IH; try lia. intros k K. apply F. lia.
    + exfalso. apply nth_error_None in E. lia.
Qed.
Lemma esc_replaced t : forall point o, replaced t esc_rx (esc_value t) point o -> 0 <= point -> point <= Z.of_nat (length t) -> o = flat_map put_for (skipn (Z.to_nat point) t).
Proof.
  induction 1 as [point N | point k w o Fm R IH]; intros P Q.
  - rewrite (skipn_slice t point (Z.of_nat (length t))) by lia. rewrite flat_map_app. rewrite Nat2Z.id, skipn_all. cbn [flat_map]. rewrite app_nil_r. symmetry.
    apply slice_put with (n := Z.to_nat (Z.of_nat (length t) - point)); try lia. intros k K x X. specialize (N k ltac:(lia)). rewrite esc_ways, X in N. now destruct (marked_char x).
  - destruct Fm as (K1 & K2 & K3). rewrite esc_ways in K3. destruct (char_at t k) as [x | ] eqn:X; [ | discriminate].
    destruct (marked_char x) eqn:M; [ | discriminate]. injection K3 as <-. cbn [fst] in *. destruct (char_at_nth _ _ _ X) as [B Nx].
    rewrite (skipn_slice t point k) by lia. rewrite flat_map_app. f_equal.
    + symmetry. apply slice_put with (n := Z.to_nat (k - point)); try lia. intros k' K x' X'. specialize (K2 k' K). rewrite esc_ways, X' in K2. now destruct (marked_char x').
    + rewrite (skipn_slice t k (k + 1)) by lia. rewrite flat_map_app, (slice_one t k x X). f_equal; [ | apply IH; lia].
      unfold esc_value. rewrite Nx. cbn [flat_map]. now rewrite app_nil_r.
Qed.
Lemma escape_ok beyond junk t : Forall char t -> exists f0, forall f, (f0 <= f)%nat -> escape_entities beyond junk f t = Ok (flat_map put_for t).
Proof.
  intros C. destruct (searches beyond esc_rx t (esc_fits t C)) as (f0 & Se). exists f0. intros f F.
  destruct (replace_ok beyond esc_rx t f (fun p H => Se p f H F) eq_refl (escape_template beyond junk) (esc_value t)) with (n := S (length t)) (point := 0) (out := @nil (list Z)) (m := @None mdata) as (o & E & R); auto; try lia.
  - intros point k j ev K P. now apply (esc_template beyond junk t point k j ev C ltac:(lia)).
  - unfold escape_entities, string_replace. rewrite <- esc_show, E. f_equal. exact (esc_replaced t 0 o R ltac:(lia) ltac:(lia)).
Qed.

(** * One budget for many strings *)
Lemma budget (g : nat -> list Z -> Prop) (l : list (list Z)) :
  (forall s, In s l -> exists f0, forall f, (f0 <= f)%nat -> g f s) -> exists f0, forall f s, (f0 <= f)%nat -> In s l -> g f s.
Proof.
  induction l as [ | x l IH]; intros H; [exists 0%nat; intros f s _ [] | ].
  destruct (H x (or_introl eq_refl)) as (f1 & H1). destruct IH as (f2 & H2); [intros s I; apply H; now right | ].
  exists (max f1 f2). intros f s L [<- | I]; [apply H1; lia | apply H2; [lia | exact I]].
Qed.
(** The parts of a text *)
Definition infix (s t : list Z) : Prop := exists a b, t = a ++ s ++ b.
Definition infixes (t : list Z) : list (list Z) :=
  flat_map (fun k => map (fun j => firstn j (skipn k t)) (seq 0 (S (length t)))) (seq 0 (S (length t))).
Lemma infix_in s t : infix s t -> In s (infixes t).
Proof.
  intros (a & b & ->). apply in_flat_map. exists (length a). split; [apply in_seq; rewrite app_length; lia | ].
  apply in_map_iff. exists (length s). split; [ | apply in_seq; rewrite !app_length; lia].
  rewrite skipn_app, skipn_all, Nat.sub_diag. cbn [skipn app]. rewrite firstn_app, firstn_all, Nat.sub_diag. cbn [firstn]. apply app_nil_r.
Qed.
Lemma firstn_Forall (P : Z -> Prop) n l : Forall P l -> Forall P (firstn n l).
Proof. intros H. revert n. induction H as [ | x l Px H IH]; intros [ | n]; cbn; constructor; auto. Qed.
Lemma skipn_Forall (P : Z -> Prop) n l : Forall P l -> Forall P (skipn n l).
Proof. intros H. revert n. induction H as [ | x l Px H IH]; intros [ | n]; cbn; auto. Qed.
(** [g] decodes all parts of [t] *)
Definition decodes (g : list Z -> res (list Z)) (t : list Z) : Prop := forall s, infix s t -> exists v, g s = Ok v /\ stands s v.
Lemma decodes_budget beyond junk t : Forall char t -> exists f0, forall f, (f0 <= f)%nat -> decodes (substitute_entities beyond junk f) t.
Proof.
  intros C. destruct (budget (fun f s => exists v, substitute_entities beyond junk f s = Ok v /\ stands s v) (infixes t)) as (f0 & H).
  - intros s I. apply in_flat_map in I as (k & _ & I). apply in_map_iff in I as (j & <- & _).
    destruct (entities_ok beyond junk (firstn j (skipn k t))) as (f0 & v & St & E); [apply firstn_Forall, skipn_Forall, C | ].
    exists f0. intros f L. exists v. auto.
  - exists f0. intros f L s I. apply H; [exact L | ]. now apply infix_in.
Qed.
