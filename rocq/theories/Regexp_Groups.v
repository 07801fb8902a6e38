(** What parentheses match, and how much * takes. *)
From Coq Require Import List ZArith Bool Lia ZifyBool.
From Verif Require Import Regexp_Model Regexp_Spec Regexp_Code Regexp_Compile Regexp_Match Regexp_Frag Regexp_Sat Regexp_Search.
Import ListNotations.
Open Scope Z_scope.

Definition about (n : nat) (e : event) : bool := match e with Opened m _ | Closed m _ => Nat.eqb m n end.
Definition only (n : nat) (l : list event) : list event := filter (about n) l.
Lemma only_app n a b : only n (a ++ b) = only n a ++ only n b.
Proof. apply filter_app. Qed.
Lemma opened_only n l : last_opened n l = last_opened n (only n l).
Proof.
  induction l as [ | e l IH]; [reflexivity | ]. unfold only in *. cbn [filter]. destruct (about n e) eqn:A.
  - cbn [last_opened]. rewrite <- IH. reflexivity.
  - cbn [last_opened]. rewrite <- IH. destruct (last_opened n l); [reflexivity | ]. destruct e; [ | reflexivity]. cbn in A. rewrite A. reflexivity.
Qed.
Lemma closed_only n l : last_closed n l = last_closed n (only n l).
Proof.
  induction l as [ | e l IH]; [reflexivity | ]. unfold only in *. cbn [filter]. destruct (about n e) eqn:A.
  - cbn [last_closed]. rewrite <- IH. reflexivity.
  - cbn [last_closed]. rewrite <- IH. destruct (last_closed n l); [reflexivity | ]. destruct e; [reflexivity | ]. cbn in A. rewrite A. reflexivity.
Qed.

(** Opened and closed in turn, each time around something matched *)
Inductive turns (P : Z -> Z -> Prop) (n : nat) : list event -> Prop :=
| turns_none : turns P n []
| turns_one a b l : P a b -> turns P n l -> turns P n (Opened n a :: Closed n b :: l).
Lemma turns_app P n l l' : turns P n l -> turns P n l' -> turns P n (l ++ l').
Proof. induction 1; intros; cbn [app]; [auto | constructor; auto]. Qed.
Lemma turns_weaken (P Q : Z -> Z -> Prop) n l : (forall a b, P a b -> Q a b) -> turns P n l -> turns Q n l.
Proof. intros H. induction 1; constructor; auto. Qed.
Lemma turns_last P n l : turns P n l ->
  (last_opened n l = None /\ last_closed n l = None) \/ (exists a b, last_opened n l = Some a /\ last_closed n l = Some b /\ P a b).
Proof.
  induction 1 as [ | a b l H T IH]; [left; split; reflexivity | ]. right.
  cbn [last_opened last_closed]. rewrite Nat.eqb_refl. destruct IH as [[-> ->] | (a' & b' & -> & -> & H')].
  - exists a, b. auto.
  - exists a', b'. auto.
Qed.

(** Numbers *)
Definition nums (lo hi : nat) (l : list event) : Prop := forall n, only n l <> [] -> (lo <= n < hi)%nat.
Lemma nums_app lo hi a b : nums lo hi a -> nums lo hi b -> nums lo hi (a ++ b).
Proof. intros H1 H2 n. rewrite only_app. intros H. destruct (only n a) eqn:E; [apply H2; exact H | apply H1; rewrite E; discriminate]. Qed.
Lemma nums_weaken lo hi lo' hi' l : nums lo hi l -> (lo' <= lo)%nat -> (hi <= hi')%nat -> nums lo' hi' l.
Proof. intros H A B n N. specialize (H n N). lia. Qed.
Lemma nums_none lo hi l n : nums lo hi l -> (n < lo \/ hi <= n)%nat -> only n l = [].
Proof. intros H N. destruct (only n l) eqn:E; [reflexivity | ]. specialize (H n). rewrite E in H. specialize (H ltac:(discriminate)). lia. Qed.

Section Groups.
  Variable t : list Z.
  Variable nocase : bool.
  Variable start : Z.
  Hypothesis chars : Forall char t.
  Hypothesis start_ok : 0 <= start <= Z.of_nat (length t).
  Notation len := (Z.of_nat (length t)).
  Notation at_start := (at_start start).
  Notation W_atom := (ways_atom t nocase at_start).
  Notation W_regex := (ways t nocase at_start).
  Notation W_branch := (ways_branch t nocase at_start).

  Lemma times_events (Q : list event -> Prop) f :
    Q [] -> (forall a b, Q a -> Q b -> Q (a ++ b)) -> (forall i j ev, In (j, ev) (f i) -> Q ev) ->
    forall q i j ev, In (j, ev) (times t q f i) -> Q ev.
  Proof.
    intros Q0 QA H.
    assert (M : forall h k i j ev, In (j, ev) (many h f k i) -> Q ev).
    { intros h. induction k as [ | k IH]; intros i j ev I; [destruct I | ]. cbn [many] in I.
      assert (X : In (j, ev) (and_then (f i) (many h f k)) \/ (i, []) = (j, ev)).
      { destruct h; [apply in_app_or in I as [I | [I | []]] | destruct I as [I | I]]; auto. }
      destruct X as [X | X]; [ | injection X as <- <-; exact Q0].
      apply in_then in X as (j1 & e1 & e2 & I1 & I2 & ->). eauto. }
    intros q i j ev I. destruct q as [ | [ | ] | h | h]; cbn [times] in I.
    - eauto.
    - apply in_app_or in I as [I | [I | []]]; [eauto | injection I as <- <-; exact Q0].
    - destruct I as [I | I]; [injection I as <- <-; exact Q0 | eauto].
    - eauto.
    - apply in_then in I as (j1 & e1 & e2 & I1 & I2 & ->). eauto.
  Qed.

  Lemma one_nil f i j ev : In (j, ev) (one t f i) -> ev = [].
  Proof. unfold one. destruct (char_at t i); [ | intros []]. destruct (f z); [ | intros []]. intros [H | []]. congruence. Qed.
  Lemma when_nil b i j ev : In (j, ev) (when b i) -> ev = [].
  Proof. unfold when. destruct b; [ | intros []]. intros [H | []]. congruence. Qed.

  Lemma ways_nums :
    (forall a k i j ev, In (j, ev) (W_atom a k i) -> nums k (k + groups_atom a) ev) /\
    (forall r k i j ev, In (j, ev) (W_regex r k i) -> nums k (k + groups r) ev) /\
    (forall b k i j ev, In (j, ev) (W_branch b k i) -> nums k (k + groups_branch b) ev).
  Proof.
    assert (N0 : forall lo hi, nums lo hi []) by (intros lo hi n H; destruct (H eq_refl)).
    apply re_mind.
    - intros cs k i j ev I. cbn [ways_atom] in I. destruct (literal t nocase cs i); [ | destruct I]. destruct I as [I | []]. injection I as <- <-. apply N0.
    - intros x k i j ev I. apply one_nil in I as ->. apply N0.
    - intros k i j ev I. apply when_nil in I as ->. apply N0.
    - intros k i j ev I. apply when_nil in I as ->. apply N0.
    - intros k i j ev I. apply one_nil in I as ->. apply N0.
    - intros k i j ev I. apply when_nil in I as ->. apply N0.
    - intros k i j ev I. apply when_nil in I as ->. apply N0.
    - intros neg l k i j ev I. apply one_nil in I as ->. apply N0.
    - intros kd neg k i j ev I. apply one_nil in I as ->. apply N0.
    - intros r IH k i j ev I. cbn [ways_atom groups_atom] in *. apply in_map_iff in I as ([j' e'] & E & I). cbn [fst snd] in E. injection E as <- <-.
      change (Opened k i :: e' ++ [Closed k j']) with ([Opened k i] ++ e' ++ [Closed k j']).
      repeat apply nums_app.
      + intros n. unfold only. cbn. destruct (Nat.eqb_spec k n); [lia | congruence].
      + eapply nums_weaken; [eapply IH; eauto | lia | lia].
      + intros n. unfold only. cbn. destruct (Nat.eqb_spec k n); [lia | congruence].
    - intros b IH k i j ev I. cbn [ways groups] in *. eauto.
    - intros b IHb r IHr k i j ev I. cbn [ways groups] in *. apply in_app_or in I as [I | I].
      + eapply nums_weaken; [eapply IHb; eauto | lia | lia].
      + eapply nums_weaken; [eapply IHr; eauto | lia | lia].
    - intros k i j ev [I | []]. injection I as <- <-. apply N0.
    - intros a IHa q b IHb k i j ev I. cbn [ways_branch groups_branch] in *. apply in_then in I as (j1 & e1 & e2 & I1 & I2 & ->). apply nums_app.
      + eapply nums_weaken; [eapply (times_events (nums k (k + groups_atom a))); eauto using nums_app | lia | lia].
      + eapply nums_weaken; [eapply IHb; eauto | lia | lia].
  Qed.

  (** From i to j *)
  Definition inside (r : option regex) (i j a b : Z) : Prop :=
    i <= a <= b /\ b <= j /\ match r with Some r => matches t nocase at_start r a b | None => False end.

  Lemma times_turns f r n : ranged t start f false ->
    (forall i j ev, start <= i <= len -> In (j, ev) (f i) -> turns (inside r i j) n (only n ev)) ->
    forall q i j ev, start <= i <= len -> In (j, ev) (times t q f i) -> turns (inside r i j) n (only n ev).
  Proof.
    intros R H.
    assert (TH : forall (K : Z -> list way) i j ev, start <= i <= len -> ranged t start K false ->
      (forall i j ev, start <= i <= len -> In (j, ev) (K i) -> turns (inside r i j) n (only n ev)) ->
      In (j, ev) (and_then (f i) K) -> turns (inside r i j) n (only n ev)).
    { intros K i j ev Hi RK HK I. apply in_then in I as (j1 & e1 & e2 & I1 & I2 & ->).
      destruct (R _ _ _ Hi I1) as [B1 _]. destruct (RK j1 j e2 ltac:(lia) I2) as [B2 _].
      rewrite only_app. apply turns_app.
      - eapply turns_weaken; [ | eapply H; eauto]. unfold inside. intros a b. intuition lia.
      - eapply turns_weaken; [ | eapply (HK j1); eauto; lia]. unfold inside. intros a b. intuition lia. }
    assert (M : forall h k i j ev, start <= i <= len -> In (j, ev) (many h f k i) -> turns (inside r i j) n (only n ev)).
    { intros h. induction k as [ | k IH]; intros i j ev Hi I; [destruct I | ].
      assert (X : In (j, ev) (and_then (f i) (many h f k)) \/ (i, []) = (j, ev)).
      { cbn [many] in I. destruct h; [apply in_app_or in I as [I | [I | []]] | destruct I as [I | I]]; auto. }
      destruct X as [X | X]; [ | injection X as <- <-; constructor].
      apply (TH (many h f k) i j ev Hi); auto. eapply many_range; eauto. }
    intros q i j ev Hi I. destruct q as [ | [ | ] | h | h]; cbn [times] in I.
    - eauto.
    - apply in_app_or in I as [I | [I | []]]; [eauto | injection I as <- <-; constructor].
    - destruct I as [I | I]; [injection I as <- <-; constructor | eauto].
    - eapply M; eauto.
    - eapply (TH _ i j ev Hi); [ | | exact I]; [eapply many_range; eauto | ]. intros i' j' ev' Hi' I'. eapply M; eauto.
  Qed.

  Lemma ranged_weak f b : ranged t start f b -> ranged t start f false.
  Proof. intros H i j ev Hi I. destruct (H i j ev Hi I). split; [lia | discriminate]. Qed.

  Lemma ways_turns (beyond : Z -> Z) :
    (forall a, good_atom a -> forall k n i j ev, start <= i <= len -> In (j, ev) (W_atom a k i) ->
       turns (inside (nth_group_atom a k n) i j) n (only n ev)) /\
    (forall r, good r -> forall k n i j ev, start <= i <= len -> In (j, ev) (W_regex r k i) ->
       turns (inside (nth_group r k n) i j) n (only n ev)) /\
    (forall b, good_branch b -> forall k n i j ev, start <= i <= len -> In (j, ev) (W_branch b k i) ->
       turns (inside (nth_group_branch b k n) i j) n (only n ev)).
  Proof.
    pose proof (ways_range t beyond nocase start chars start_ok) as (RA & RR & RB).
    pose proof ways_nums as (NA & NR & NB).
    apply re_mind.
    - intros cs _ k n i j ev _ I. cbn [ways_atom] in I. destruct (literal t nocase cs i); [ | destruct I]. destruct I as [I | []]. injection I as <- <-. constructor.
    - intros x _ k n i j ev _ I. apply one_nil in I as ->. constructor.
    - intros _ k n i j ev _ I. apply when_nil in I as ->. constructor.
    - intros _ k n i j ev _ I. apply when_nil in I as ->. constructor.
    - intros _ k n i j ev _ I. apply one_nil in I as ->. constructor.
    - intros _ k n i j ev _ I. apply when_nil in I as ->. constructor.
    - intros _ k n i j ev _ I. apply when_nil in I as ->. constructor.
    - intros neg l _ k n i j ev _ I. apply one_nil in I as ->. constructor.
    - intros kd neg _ k n i j ev _ I. apply one_nil in I as ->. constructor.
    - intros r IH G k n i j ev Hi I. cbn [ways_atom good_atom nth_group_atom] in *. apply in_map_iff in I as ([j' e'] & E & I). cbn [fst snd] in E. injection E as <- <-.
      change (Opened k i :: e' ++ [Closed k j']) with ([Opened k i] ++ e' ++ [Closed k j']). rewrite !only_app.
      unfold only at 1 3. cbn [filter about app]. destruct (Nat.eqb_spec k n) as [-> | N]; cbn [app].
      + rewrite (nums_none _ _ _ _ (NR _ _ _ _ _ I)) by lia. cbn [app]. rewrite Nat.eqb_refl.
        constructor; [ | constructor]. unfold inside. destruct (RR r G (S n) i j' e' Hi I) as [B _].
        split; [lia | ]. split; [lia | ]. eapply ways_matches; eauto.
      + rewrite app_nil_r. replace (Nat.eqb n k) with false by (symmetry; apply Nat.eqb_neq; auto). apply IH; auto.
    - intros b IH G k n i j ev Hi I. cbn [ways nth_group] in *. eauto.
    - intros b IHb r IHr [G1 G2] k n i j ev Hi I. cbn [ways nth_group] in *. apply in_app_or in I as [I | I]; destruct (Nat.ltb_spec n (k + groups_branch b)).
      + apply IHb; auto.
      + rewrite (nums_none _ _ _ _ (NB _ _ _ _ _ I)) by lia. constructor.
      + rewrite (nums_none _ _ _ _ (NR _ _ _ _ _ I)) by lia. constructor.
      + apply IHr; auto.
    - intros _ k n i j ev _ [I | []]. injection I as <- <-. constructor.
    - intros a IHa q b IHb (G1 & _ & _ & G2) k n i j ev Hi I. cbn [ways_branch nth_group_branch] in *.
      apply in_then in I as (j1 & e1 & e2 & I1 & I2 & ->). rewrite only_app.
      pose proof (ranged_weak _ _ (RA a G1 k)) as R1.
      destruct (times_range t start q _ _ R1 i j1 e1 Hi I1) as [B1 _].
      destruct (RB b G2 (k + groups_atom a)%nat j1 j e2 ltac:(lia) I2) as [B2 _].
      destruct (Nat.ltb_spec n (k + groups_atom a)).
      + rewrite (nums_none _ _ e2 n (NB _ _ _ _ _ I2)) by lia. rewrite app_nil_r.
        eapply turns_weaken; [ | eapply (times_turns (W_atom a k) _ n R1); eauto]. unfold inside. intros x y. intuition lia.
      + assert (NT : nums k (k + groups_atom a) e1).
        { eapply (times_events (nums k (k + groups_atom a)) (W_atom a k)); eauto using nums_app. intros m X. destruct (X eq_refl). }
        rewrite (nums_none _ _ e1 n NT) by lia. cbn [app].
        eapply turns_weaken; [ | eapply (IHb G2 _ n j1); eauto; lia]. unfold inside. intros x y. intuition lia.
  Qed.
End Groups.

(** * The first of the ways *)
Lemma then_head (l : list way) K w rest : and_then l K = w :: rest ->
  exists l1 j e l2 j' e' r', l = l1 ++ (j, e) :: l2 /\ (forall w', In w' l1 -> K (fst w') = []) /\ K j = (j', e') :: r' /\ w = (j', e ++ e').
Proof.
  revert w rest. induction l as [ | [j e] l IH]; intros w rest H; [discriminate | ]. unfold and_then in H. cbn [flat_map fst snd] in H.
  destruct (K j) as [ | [j' e'] r'] eqn:E.
  - cbn [map app] in H. destruct (IH _ _ H) as (l1 & j1 & e1 & l2 & j' & e' & r' & -> & H1 & H2 & H3).
    exists ((j, e) :: l1), j1, e1, l2, j', e', r'. split; [reflexivity | ]. split; [ | auto]. intros w' [<- | I]; auto.
  - cbn [map app fst snd] in H. injection H as <- _. exists [], j, e, l, j', e', r'. split; [reflexivity | ]. split; [intros ? [] | auto].
Qed.

Lemma seq_split n l1 k l2 : seq 0 n = l1 ++ k :: l2 -> forall k', (k' < n)%nat -> In k' l1 \/ (k <= k')%nat.
Proof.
  intros H k' L. destruct (Nat.le_gt_cases k k') as [ | G]; [now right | left].
  assert (X : forall n s l1 k l2, seq s n = l1 ++ k :: l2 -> forall k', (s <= k' < k)%nat -> In k' l1).
  { clear. induction n as [ | n IH]; intros s l1 k l2 H k' L; [destruct l1; discriminate | ]. destruct l1 as [ | x l1]; cbn [seq app] in H; injection H as E H; [lia | ].
    destruct (Nat.eq_dec k' s) as [-> | N]; [now left | right]. eapply IH; eauto. lia. }
  eapply X; eauto. lia.
Qed.
Lemma rev_split n l1 k l2 : rev (seq 0 n) = l1 ++ k :: l2 -> forall k', (k' < n)%nat -> In k' l1 \/ (k' <= k)%nat.
Proof.
  intros H k' L. destruct (Nat.le_gt_cases k' k) as [ | G]; [now right | left].
  assert (X : forall n l1 k l2, rev (seq 0 n) = l1 ++ k :: l2 -> forall k', (k < k' < n)%nat -> In k' l1).
  { clear. induction n as [ | n IH]; intros l1 k l2 H k' L; [lia | ]. rewrite seq_S, rev_app_distr in H. cbn [rev app plus] in H.
    destruct l1 as [ | x l1]; cbn [app] in H; injection H as E H; [lia | ].
    destruct (Nat.eq_dec k' n) as [-> | N]; [now left | right]. eapply IH; eauto. lia. }
  eapply X; eauto.
Qed.

Section Takes.
  Variable t : list Z.
  Variable nocase : bool.
  Variable start : Z.
  Hypothesis chars : Forall char t.
  Hypothesis start_ok : 0 <= start <= Z.of_nat (length t).
  Notation len := (Z.of_nat (length t)).
  Notation at_start := (at_start start).
  Notation at_start' := (start =? 0).

  Lemma star_takes a h b k i j ev rest : good_atom a -> single a = true -> start <= i <= len ->
    ways t nocase at_start' (Alt1 (Piece (Grp (Alt1 (Piece a (Star h) Nil))) One b)) k i = (j, ev) :: rest ->
    exists j1, last_closed k ev = Some j1 /\ matches_piece t nocase at_start' a (Star h) i j1 /\
      (exists ev', In (j, ev') (ways_branch t nocase at_start' b (k + S (groups_atom a + 0)) j1)) /\
      forall j1', matches_piece t nocase at_start' a (Star h) i j1' -> ways_branch t nocase at_start' b (k + S (groups_atom a + 0)) j1' <> [] ->
        match h with Greedy => j1' <= j1 | Lazy => j1 <= j1' end.
  Proof.
    intros G S1 Hi H.
    change (and_then (map (fun w => (fst w, Opened k i :: snd w ++ [Closed k (fst w)]))
              (and_then (many h (ways_atom t nocase at_start' a (S k)) (S (length t)) i) (fun j => [(j, [])])))
              (ways_branch t nocase at_start' b (k + S (groups_atom a + 0))) = (j, ev) :: rest) in H.
    assert (WA : forall i, ways_atom t nocase at_start' a (S k) i = one t (test nocase a) i).
    { intros. apply ways_single; auto. }
    assert (WM : forall n i, many h (ways_atom t nocase at_start' a (S k)) n i = many h (one t (test nocase a)) n i).
    { induction n as [ | n IH]; intros i0; [reflexivity | ]. cbn [many]. rewrite WA. rewrite (then_ext _ _ (many h (one t (test nocase a)) n)) by auto. reflexivity. }
    set (n := runs_for t (test nocase a) (S (length t)) i).
    set (ks := match h with Greedy => rev (seq 0 (S n)) | Lazy => seq 0 (S n) end).
    assert (WW : many h (ways_atom t nocase at_start' a (S k)) (S (length t)) i = map (fun k => (i + Z.of_nat k, [])) ks).
    { rewrite WM. unfold ks, n. rewrite (many_single t (fun _ => 0) start chars start_ok) by lia. destruct h; reflexivity. }
    rewrite then_units, WW, map_map in H.
    destruct (then_head _ _ _ _ H) as (l1 & j1 & e1 & l2 & j' & e' & r' & El & E1 & Ek & Ew). injection Ew as <- ->.
    apply map_eq_app in El as (ks1 & ks2 & Eks & <- & Ek2). apply map_eq_cons in Ek2 as (x & ks3 & -> & Ex & <-). cbn [fst snd] in Ex. injection Ex as <- <-.
    assert (Ix : In x ks) by (rewrite Eks; apply in_or_app; right; now left).
    assert (MP : forall y, In y ks -> matches_piece t nocase at_start' a (Star h) i (i + Z.of_nat y)).
    { intros y Iy. assert (I : In (i + Z.of_nat y, @nil event) (many h (ways_atom t nocase at_start' a (S k)) (S (length t)) i)).
      { rewrite WW. apply in_map_iff. eauto. }
      eapply many_matches; [ | exact I]. intros. eapply ways_matches; eauto. }
    assert (PM : forall j1', matches_piece t nocase at_start' a (Star h) i j1' -> exists y, (y < S n)%nat /\ j1' = i + Z.of_nat y).
    { intros j1' M. pose proof (matches_ways t (fun _ => 0) nocase start chars start_ok) as (_ & _ & _ & MW).
      assert (Wd : width_atom a = true) by (destruct a; try discriminate; reflexivity).
      destruct (MW a (Star h) i j1' M G Wd Hi (S k)) as (ev & I). cbn [times] in I.
      change (Regexp_Frag.at_start start) with at_start' in I. rewrite WW in I. apply in_map_iff in I as (y & E & I). injection E as <- <-. exists y. split; [ | reflexivity].
      unfold ks in I. destruct h; [rewrite <- in_rev in I | ]; apply in_seq in I; lia. }
    exists (i + Z.of_nat x). split; [ | split; [auto | split]].
    - cbn [last_closed app]. 
      assert (N : last_closed k e' = None).
      { rewrite closed_only. rewrite (nums_none (k + S (groups_atom a + 0)) (k + S (groups_atom a + 0) + groups_branch b)); [reflexivity | | lia].
        eapply (proj2 (proj2 (ways_nums t nocase start))) with (i := i + Z.of_nat x) (j := j). change (Regexp_Frag.at_start start) with at_start'. rewrite Ek. now left. }
      rewrite N, Nat.eqb_refl. reflexivity.
    - exists e'. rewrite Ek. now left.
    - intros j1' M NE. destruct (PM j1' M) as (y & Ly & ->).
      assert (C : In y ks1 \/ match h with Greedy => (y <= x)%nat | Lazy => (x <= y)%nat end).
      { unfold ks in Eks. destruct h; [eapply rev_split | eapply seq_split]; eauto. }
      destruct C as [C | C]; [ | destruct h; lia].
      destruct NE. specialize (E1 _ (in_map (fun x => (fst (i + Z.of_nat x, @nil event), Opened k i :: snd (i + Z.of_nat x, @nil event) ++ [Closed k (fst (i + Z.of_nat x, @nil event))])) _ _ C)). exact E1.
  Qed.
End Takes.
