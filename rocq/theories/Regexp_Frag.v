(** Fragments of compiled code match what they stand for. *)
From Coq Require Import List ZArith Bool Lia ZifyBool.
From Verif Require Import Regexp_Model Regexp_Spec Regexp_Code Regexp_Match.
Import ListNotations.
Open Scope Z_scope.

Lemma fold_case a b : (tolower a =? tolower b) = (toupper a =? toupper b).
Proof.
  unfold tolower, toupper, isupper, islower.
  destruct ((65 <=? a) && (a <=? 90)) eqn:A, ((65 <=? b) && (b <=? 90)) eqn:B, ((97 <=? a) && (a <=? 122)) eqn:C, ((97 <=? b) && (b <=? 122)) eqn:D; lia.
Qed.
Lemma toupper_upper c : toupper c = upper c.
Proof. reflexivity. Qed.

Section Frag.
  Variable t : list Z.
  Variable beyond : Z -> Z.
  Variable nocase : bool.
  Variable fold : bool.         (* characters looked at ahead have to be ASCII *)
  Variable start : Z.
  Variable c : list Z.
  Variable limit : Z.
  Hypothesis chars : Forall char t.
  Hypothesis start_ok : 0 <= start <= Z.of_nat (length t).

  Notation len := (Z.of_nat (length t)).
  Notation m := (memory t beyond).
  Definition at_start : bool := start =? 0.
  Definition bol : option Z := if at_start then Some start else None.
  Notation run := (loop m c nocase bol limit).
  Notation Runs := (Runs m c nocase bol limit).
  Notation Alts := (Alts m c nocase bol limit).
  Notation at_ := (at_ c).
  Notation W_atom := (ways_atom t nocase at_start).
  Notation W_regex := (ways t nocase at_start).
  Notation W_branch := (ways_branch t nocase at_start).

  Lemma m_in i : 0 <= i < len -> exists x, char_at t i = Some x /\ m i = x /\ char x.
  Proof.
    intros H. unfold char_at, memory. replace (i <? 0) with false by lia.
    replace ((0 <=? i) && (i <? len)) with true by lia.
    destruct (nth_error t (Z.to_nat i)) as [x | ] eqn:E.
    - exists x. split; [reflexivity | ]. split; [now apply nth_error_nth | ].
      rewrite Forall_forall in chars. apply chars. eapply nth_error_In; eauto.
    - apply nth_error_None in E. lia.
  Qed.
  Lemma m_end : m len = 0 /\ char_at t len = None.
  Proof.
    unfold memory, char_at. replace ((0 <=? len) && (len <? len)) with false by lia. rewrite Z.eqb_refl.
    split; [reflexivity | ]. replace (len <? 0) with false by lia. apply nth_error_None. lia.
  Qed.
  Lemma m_case i : start <= i <= len ->
    (i = len /\ m i = 0 /\ char_at t i = None) \/
    (i < len /\ exists x, m i = x /\ char_at t i = Some x /\ char x).
  Proof.
    intros H. destruct (Z.eq_dec i len) as [-> | N].
    - left. destruct m_end. auto.
    - right. split; [lia | ]. destruct (m_in i ltac:(lia)) as (x & A & B & C). eauto.
  Qed.
  Lemma m_byte i : start <= i <= len -> 0 <= m i < 256.
  Proof. intros H. destruct (m_case i H) as [(_ & E & _) | (_ & x & E & _ & C)]; rewrite E; unfold char in *; lia. Qed.

  (** where a match may go on *)
  Definition entry (e : nat) : Prop :=
    exists op, op_at c e = Ok op /\
      (op = EXACTLY -> 0 < hd 0 (str_at c (e + 3)) < 256 /\ (fold = true -> hd 0 (str_at c (e + 3)) < 128)).

  Lemma entry_node p op off : at_ p (node op off) -> op <> EXACTLY -> entry p.
  Proof. intros A N. exists op. split; [eapply at_op; eauto | congruence]. Qed.

  Definition Sat (p e : nat) (w : Z -> list way) (x : Z * Z) : Prop := forall i D K,
    start <= i <= len ->
    (forall j ev, In (j, ev) (w i) -> Runs e j (D - fst x - snd x * (j - i)) (K j)) ->
    fst x + snd x * (len - i) <= D ->
    Runs p i D (and_then (w i) K).

  (** * Simple atoms *)
  Lemma sat_test p op off w (ok : Z -> bool) (step : Z) :
    at_ p (node op off) -> (0 < off)%nat -> op <> BACK ->
    (forall i f nest, start <= i <= len -> run (S f) nest (Some p) i = if ok i then run f nest (Some (p + off)%nat) (i + step) else MNo false) ->
    (forall i, start <= i <= len -> w i = if ok i then [(i + step, [])] else []) ->
    Sat p (p + off) w (0, 0).
  Proof.
    intros A O B R W i D K Hi HK HD. cbn [fst snd] in *. rewrite (W i Hi) in *.
    destruct (ok i) eqn:E.
    - rewrite then_one. destruct (HK (i + step) [] (or_introl eq_refl)) as (f0 & H).
      exists (S f0). intros f nest F N L. destruct f; [lia | ]. rewrite R, E by auto. apply H; try lia.
    - exists 1%nat. intros f nest F N L. destruct f; [lia | ]. rewrite R, E by auto. reflexivity.
  Qed.

  Lemma sat_bol p off : at_ p (node BOL off) -> (0 < off)%nat -> Sat p (p + off) (W_atom Bol 0) (0, 0).
  Proof.
    intros A O. apply (sat_test p BOL off _ (fun i => at_start && (i =? 0)) 0); auto; try discriminate.
    - intros i f nest Hi. erewrite run_eq; [ | eapply at_op; eauto | eapply at_next; eauto; discriminate]. cbn.
      unfold bol, at_start. rewrite Z.add_0_r. destruct (Z.eqb_spec start 0) as [-> | N]; cbn [andb]; reflexivity.
    - intros i Hi. cbn [ways_atom]. unfold when. now rewrite Z.add_0_r.
  Qed.
  Lemma m_zero i : start <= i <= len -> (m i =? 0) = (i =? len).
  Proof. intros H. destruct (m_case i H) as [(-> & E & _) | (L & x & E & _ & C)]; rewrite E; unfold char in *; lia. Qed.
  Lemma sat_eol p off : at_ p (node EOL off) -> (0 < off)%nat -> Sat p (p + off) (W_atom Eol 0) (0, 0).
  Proof.
    intros A O. apply (sat_test p EOL off _ (fun i => i =? len) 0); auto; try discriminate.
    - intros i f nest Hi. erewrite run_eq; [ | eapply at_op; eauto | eapply at_next; eauto; discriminate]. cbn.
      rewrite m_zero, Z.add_0_r by auto. reflexivity.
    - intros i Hi. cbn [ways_atom]. unfold when. now rewrite Z.add_0_r.
  Qed.
  Lemma m_word i : start <= i <= len -> wordc (m i) = is_word t i.
  Proof.
    intros H. unfold is_word. destruct (m_case i H) as [(-> & E & ->) | (L & x & E & -> & C)]; rewrite E; reflexivity.
  Qed.
  Lemma wedge_edge i : start <= i <= len -> wedge m bol i = edge t at_start i.
  Proof.
    intros H. unfold wedge, edge. rewrite (m_zero i), (m_word i) by auto.
    unfold bol, at_start. destruct (Z.eqb_spec start 0) as [Z0 | N].
    - rewrite Z0. cbn [andb]. destruct (Z.eqb_spec i 0) as [-> | N]; [reflexivity | ]. cbn [orb].
      replace (wordc (m (i - 1))) with (is_word t (i - 1)).
      + destruct (is_word t (i - 1)), (is_word t i), (i =? len); reflexivity.
      + destruct (m_in (i - 1) ltac:(lia)) as (x & E & E' & _). unfold is_word. rewrite E, E'. reflexivity.
    - cbn [andb orb]. replace (wordc (m (i - 1))) with (is_word t (i - 1)).
      + destruct (is_word t (i - 1)), (is_word t i), (i =? len); reflexivity.
      + destruct (m_in (i - 1) ltac:(lia)) as (x & E & E' & _). unfold is_word. rewrite E, E'. reflexivity.
  Qed.
  Lemma sat_edge p off : at_ p (node WEDGE off) -> (0 < off)%nat -> Sat p (p + off) (W_atom Edge 0) (0, 0).
  Proof.
    intros A O. apply (sat_test p WEDGE off _ (fun i => edge t at_start i) 0); auto; try discriminate.
    - intros i f nest Hi. erewrite run_eq; [ | eapply at_op; eauto | eapply at_next; eauto; discriminate]. cbn -[wedge].
      rewrite wedge_edge, Z.add_0_r by auto. reflexivity.
    - intros i Hi. cbn [ways_atom]. unfold when. now rewrite Z.add_0_r.
  Qed.
  Lemma sat_nedge p off : at_ p (node NWEDGE off) -> (0 < off)%nat -> Sat p (p + off) (W_atom NEdge 0) (0, 0).
  Proof.
    intros A O. apply (sat_test p NWEDGE off _ (fun i => negb (edge t at_start i)) 0); auto; try discriminate.
    - intros i f nest Hi. erewrite run_eq; [ | eapply at_op; eauto | eapply at_next; eauto; discriminate]. cbn -[wedge].
      rewrite wedge_edge, Z.add_0_r by auto. destruct (edge t at_start i); reflexivity.
    - intros i Hi. cbn [ways_atom]. unfold when. now rewrite Z.add_0_r.
  Qed.

  (** literal characters *)
  Lemma same_eqc a x : same nocase a x = eqc nocase a x.
  Proof. reflexivity. Qed.
  Lemma fold_eqc a x : (if nocase then tolower a =? tolower x else a =? x) = eqc nocase a x.
  Proof. unfold eqc. destruct nocase; [ | reflexivity]. now rewrite fold_case. Qed.
  Lemma eqc_zero a : char a -> eqc nocase a 0 = false.
  Proof. unfold eqc, char. change (upper 0) with 0. unfold upper. destruct nocase; [destruct ((97 <=? a) && (a <=? 122)) eqn:E | ]; lia. Qed.
  Lemma equal_literal cs : Forall char cs -> forall i, start <= i <= len -> equal_at m nocase cs i = literal t nocase cs i.
  Proof.
    induction 1 as [ | a cs Ha _ IH]; intros i Hi; [reflexivity | ]. cbn [equal_at literal]. rewrite fold_eqc.
    destruct (m_case i Hi) as [(_ & -> & ->) | (L & x & -> & -> & C)].
    - now rewrite eqc_zero.
    - rewrite IH by lia. reflexivity.
  Qed.
  Lemma exactly_literal cs : cs <> [] -> Forall char cs -> forall i, start <= i <= len -> exactly m nocase cs i = literal t nocase cs i.
  Proof.
    intros N F i Hi. unfold exactly. rewrite (equal_literal cs F i Hi). destruct cs as [ | a cs]; [congruence | ].
    inversion F as [ | ? ? Ha F']; subst. cbn [hd literal length]. rewrite same_eqc.
    destruct (m_case i Hi) as [(_ & E & ->) | (L & x & E & -> & C)]; rewrite E.
    - now rewrite eqc_zero.
    - destruct cs as [ | b cs]; cbn [length Nat.ltb Nat.leb].
      + cbn [literal]. reflexivity.
      + destruct (eqc nocase a x); reflexivity.
  Qed.
  Lemma sat_lit p off cs : at_ p (node EXACTLY off ++ cs ++ [0]) -> (0 < off)%nat -> cs <> [] -> Forall char cs ->
    Sat p (p + off) (W_atom (Lit cs) 0) (0, 0).
  Proof.
    intros A O N F.
    assert (Z : str_at c (p + 3) = cs) by (eapply at_str; eauto; eapply Forall_impl; [ | exact F]; unfold char; intros; lia).
    apply at_app in A as [A _].
    apply (sat_test p EXACTLY off _ (fun i => literal t nocase cs i) (Z.of_nat (length cs))); auto; try discriminate.
    intros i f nest Hi. erewrite run_eq; [ | eapply at_op; eauto | eapply at_next; eauto; discriminate]. cbn -[exactly str_at].
    rewrite Z, exactly_literal by auto. reflexivity.
  Qed.

  (** * Atoms of one character *)
  Definition test (a : atom) (x : Z) : bool :=
    match a with
    | Lit (a :: _) => eqc nocase a x
    | Esc a => eqc nocase a x
    | Any => true
    | Cls neg l => xorb neg (existsb (in_item x) l)
    | Kind k neg => xorb neg (of_kind k x)
    | _ => false
    end.
  Lemma ways_single a n i : single a = true -> W_atom a n i = one t (test a) i.
  Proof.
    destruct a as [[ | b [ | b' cs]] | | | | | | | neg l | k neg | r]; try discriminate; intros _; try reflexivity.
    cbn [ways_atom literal test]. unfold one. destruct (char_at t i) as [x | ]; [ | reflexivity]. rewrite andb_true_r. reflexivity.
  Qed.
  (** the node of such an atom *)
  Definition single_node (a : atom) : Z * list Z :=
    match a with
    | Lit cs => (EXACTLY, cs)
    | Esc a => (EXACTLY, [a])
    | Any => (ANY, [])
    | Cls neg l => (if neg then ANYBUT else ANYOF, flat_map citem_chars l)
    | Kind k neg => (kind_op k neg, [])
    | _ => (END, [])
    end.

  Lemma existsb_range x n a : existsb (Z.eqb x) (range n a) = (a <=? x) && (x <? a + Z.of_nat n).
  Proof.
    revert a. induction n as [ | n IH]; intros a; cbn [range existsb].
    - lia.
    - rewrite IH. lia.
  Qed.
  Lemma class_test f neg l x : good_items f neg l -> existsb (Z.eqb x) (flat_map citem_chars l) = existsb (in_item x) l.
  Proof.
    revert f. induction l as [ | [a | a b] l IH]; intros f G; [reflexivity | | ]; cbn [flat_map citem_chars existsb in_item good_items] in *;
      rewrite existsb_app; cbn [existsb].
    - destruct G as (_ & _ & _ & _ & G). rewrite (IH _ G). now rewrite orb_false_r.
    - destruct G as (G1 & G2 & G3 & _ & _ & _ & _ & G). rewrite (IH _ G), existsb_range. f_equal. unfold char in *. lia.
  Qed.
  Lemma class_nonzero f neg l : good_items f neg l -> Forall (fun x => x <> 0) (flat_map citem_chars l).
  Proof.
    revert f. induction l as [ | [a | a b] l IH]; intros f G; [constructor | | ]; cbn [flat_map citem_chars good_items] in *; apply Forall_app; split.
    - destruct G as (G & _). unfold char in G. constructor; [lia | constructor].
    - destruct G as (_ & _ & _ & _ & G). eauto.
    - destruct G as (G1 & G2 & G3 & _). unfold char in *. constructor; [lia | ].
      apply Forall_forall. intros y I. assert (X : existsb (Z.eqb y) (range (Z.to_nat (b - a)) (a + 1)) = true).
      { apply existsb_exists. exists y. split; [exact I | apply Z.eqb_refl]. }
      rewrite existsb_range in X. lia.
    - destruct G as (_ & _ & _ & _ & _ & _ & _ & G). eauto.
  Qed.

  (** one character by the node *)
  Lemma node_test a x : single a = true -> good_atom a -> char x ->
    let (op, o) := single_node a in
    repeated nocase op o x = test a x /\
    repeated nocase op o 0 = false /\
    (is_one_char op || (op =? EXACTLY) = true) /\
    (op <> EXACTLY -> one_char op o x = test a x) /\
    (match a with Kind _ true => True | _ => op <> EXACTLY -> one_char op o 0 = false end).
  Proof.
    intros S G C. unfold char in C.
    destruct a as [[ | b [ | b' cs]] | | | | | | | neg l | k neg | r]; try discriminate S; cbn [single_node].
    - destruct G as [_ G]. inversion G as [ | ? ? [G1 _] _]; subst. unfold repeated. change (EXACTLY =? EXACTLY) with true. cbn iota.
      cbn [hd test]. rewrite !same_eqc, eqc_zero by auto. repeat split; auto; congruence.
    - destruct G as [G1 _]. unfold repeated. change (EXACTLY =? EXACTLY) with true. cbn iota.
      cbn [hd test]. rewrite !same_eqc, eqc_zero by auto. repeat split; auto; congruence.
    - cbn. repeat split; auto; lia.
    - cbn [good_atom test] in *. rewrite <- (class_test true neg l x G).
      assert (X0 : negb (x =? 0) = true) by lia.
      destruct neg; unfold repeated, one_char; cbn [Z.eqb Pos.eqb ANY ANYOF ANYBUT EXACTLY]; rewrite X0; cbn [andb negb xorb];
        repeat split; auto; intros; destruct (existsb _ _); reflexivity.
    - assert (X0 : negb (x =? 0) = true) by lia.
      destruct k, neg; unfold repeated, one_char; cbn [kind_op]; cbn [Z.eqb Pos.eqb ANY ANYOF ANYBUT EXACTLY WORD NWORD WSPC NWSPC DIGI NDIGI];
        rewrite ?X0; cbn [andb test of_kind xorb]; repeat split; auto; intros; unfold wordc, isalnum, isspace, isdigit, isupper, islower, alnum;
        match goal with |- _ = if ?b then true else false => destruct b; reflexivity end.
  Qed.
  Lemma gen_single a n k : single a = true -> good_atom a ->
    exists tail, gen_atom a n k = node (fst (single_node a)) (tl_ (size_atom a) k) ++ tail /\
      forall p, at_ p (gen_atom a n k) -> fst (single_node a) = EXACTLY \/ fst (single_node a) = ANYOF \/ fst (single_node a) = ANYBUT ->
        str_at c (p + 3) = snd (single_node a).
  Proof.
    intros S G.
    destruct a as [[ | b [ | b' cs]] | | | | | | | neg l | k' neg | r]; try discriminate S; cbn [single_node gen_atom size_atom fst snd length Nat.add].
    - exists [b; 0]. split; [reflexivity | ]. intros p A _. destruct G as [_ G]. inversion G as [ | ? ? [G1 _] _]; subst.
      eapply (at_str c p _ _ [b]); [exact A | ]. constructor; [unfold char in G1; lia | constructor].
    - exists [c0; 0]. split; [reflexivity | ]. intros p A _. destruct G as [G _].
      eapply (at_str c p _ _ [c0]); [exact A | ]. constructor; [unfold char in G; lia | constructor].
    - exists []. split; [now rewrite app_nil_r | ]. intros p _ [H | [H | H]]; discriminate H.
    - exists (flat_map citem_chars l ++ [0]). split; [reflexivity | ]. intros p A _.
      eapply at_str; [exact A | ]. eapply class_nonzero. exact G.
    - exists []. split; [now rewrite app_nil_r | ]. intros p _ [H | [H | H]]; destruct k', neg; discriminate H.
  Qed.
  Lemma operand_test p a op o x : single_node a = (op, o) -> single a = true ->
    (op = EXACTLY \/ op = ANYOF \/ op = ANYBUT -> str_at c (p + 3) = o) ->
    one_char op (str_at c (p + 3)) x = one_char op o x /\ repeated nocase op (str_at c (p + 3)) x = repeated nocase op o x.
  Proof.
    intros E S H.
    destruct a as [[ | b [ | b' cs]] | | | | | | | neg l | k' neg | r]; try discriminate S; cbn [single_node] in E; injection E as <- <-;
      try (rewrite H by (destruct neg; auto); split; reflexivity); try (rewrite H by auto; split; reflexivity); try (split; reflexivity).
    destruct k', neg; split; reflexivity.
  Qed.

  Lemma sat_single p a n k : at_ p (gen_atom a n (Some k)) -> single a = true -> good_atom a -> (forall kd, a <> Kind kd true) ->
    Sat p (p + (size_atom a + k)) (W_atom a n) (0, 0).
  Proof.
    intros A S G NK. destruct (gen_single a n (Some k) S G) as (tail & E & O). specialize (O p A). pose proof A as A'. rewrite E in A.
    apply at_app in A as [A _]. cbn [tl_] in A.
    destruct (Z.eq_dec (fst (single_node a)) EXACTLY) as [EX | NX].
    - destruct a as [[ | b [ | b' cs]] | | | | | | | neg l | k' neg | r]; try discriminate S; try (destruct neg; discriminate EX); try discriminate EX.
      + destruct G as [_ G]. apply (sat_lit p _ [b]); auto; [cbn [size_atom length]; lia | discriminate | ].
        inversion G as [ | ? ? [G1 _] _]; subst. auto.
      + destruct G as [G _].
        assert (X : Sat p (p + (size_atom (Esc c0) + k)) (W_atom (Lit [c0]) 0) (0, 0)).
        { apply sat_lit; auto; [cbn [size_atom]; lia | discriminate]. }
        intros i D K Hi. specialize (X i D K Hi). rewrite !ways_single in * by reflexivity. exact X.
      + destruct k', neg; discriminate EX.
    - apply (sat_test p (fst (single_node a)) (size_atom a + k) _ (fun i => match char_at t i with Some x => test a x | None => false end) 1); auto.
      + pose proof (gen_atom_length a G n (Some k)) as LL. rewrite E, app_length, node_length in LL. lia.
      + destruct a as [[ | b [ | b' cs]] | | | | | | | neg l | k' neg | r]; try discriminate S; try discriminate; [destruct neg | destruct k', neg]; discriminate.
      + intros i f nest Hi.
        assert (N : (0 < size_atom a + k)%nat).
        { pose proof (gen_atom_length a G n (Some k)) as LL. rewrite E, app_length, node_length in LL. lia. }
        assert (NB : fst (single_node a) <> BACK).
        { destruct a as [[ | b [ | b' cs]] | | | | | | | neg l | k' neg | r]; try discriminate S; try discriminate; [destruct neg | destruct k', neg]; discriminate. }
        erewrite run_eq; [ | eapply at_op; eauto | eapply at_next; eauto]. cbv zeta.
        destruct (single_node a) as [op o] eqn:SN. cbn [fst snd] in *.
        assert (OC : is_one_char op = true /\ op <> BOL /\ op <> EOL).
        { destruct a as [[ | b [ | b' cs]] | | | | | | | neg l | k' neg | r]; try discriminate S; cbn [single_node] in SN; injection SN as <- <-;
            try congruence; [ | destruct neg | destruct k', neg]; (split; [reflexivity | split; discriminate]). }
        destruct OC as (OC & B1 & B2).
        destruct (Z.eqb_spec op BOL); [congruence | ]. destruct (Z.eqb_spec op EOL); [congruence | ]. destruct (Z.eqb_spec op EXACTLY); [congruence | ].
        rewrite OC. destruct (operand_test p a op o (m i) SN S O) as [-> _].
        destruct (m_case i Hi) as [(_ & -> & ->) | (L & x & -> & -> & C)].
        * pose proof (node_test a 1 S G ltac:(unfold char; lia)) as X. rewrite SN in X.
          destruct X as (_ & _ & _ & _ & X). destruct a as [ | | | | | | | | kd [ | ] | ]; try (rewrite X by auto; reflexivity). destruct (NK kd eq_refl).
        * pose proof (node_test a x S G C) as X. rewrite SN in X. destruct X as (_ & _ & _ & X & _). rewrite X by auto. reflexivity.
      + intros i Hi. rewrite ways_single by auto. unfold one. destruct (char_at t i); reflexivity.
  Qed.

  (** * Repetitions of one character *)
  Fixpoint runs_for (f : Z -> bool) (n : nat) (i : Z) : nat :=
    match n with
    | O => O
    | S n => match char_at t i with Some x => if f x then S (runs_for f n (i + 1)) else O | None => O end
    end.
  Lemma runs_le f n i : start <= i <= len -> i + Z.of_nat (runs_for f n i) <= len.
  Proof.
    revert i. induction n as [ | n IH]; intros i H; cbn [runs_for]; [lia | ].
    destruct (m_case i H) as [(_ & _ & ->) | (L & x & _ & -> & C)]; [lia | ]. destruct (f x); [ | lia].
    specialize (IH (i + 1) ltac:(lia)). lia.
  Qed.
  Lemma count_runs a op o fuel : single a = true -> good_atom a -> single_node a = (op, o) ->
    forall n i, start <= i <= len -> len - i < Z.of_nat n -> len - i < Z.of_nat fuel ->
    count m nocase fuel op o i = Ok (runs_for (test a) n i).
  Proof.
    intros S G SN. induction fuel as [ | fuel IH]; intros n i Hi Hn Hf; [lia | ]. destruct n; [lia | ]. cbn [count runs_for].
    destruct (m_case i Hi) as [(_ & -> & ->) | (L & x & -> & -> & C)].
    - pose proof (node_test a 1 S G ltac:(unfold char; lia)) as X. rewrite SN in X. destruct X as (_ & -> & _). reflexivity.
    - pose proof (node_test a x S G C) as X. rewrite SN in X. destruct X as (-> & _).
      destruct (test a x); [ | reflexivity]. rewrite (IH n (i + 1)) by lia. reflexivity.
  Qed.
  Lemma regrepeat_runs p a n k fuel i : at_ p (gen_atom a n k) -> single a = true -> good_atom a -> start <= i <= len -> len - i < Z.of_nat fuel ->
    regrepeat m c nocase fuel p i = Ok (runs_for (test a) (S (length t)) i).
  Proof.
    intros A S G Hi F. destruct (gen_single a n k S G) as (tail & E & O). specialize (O p A). pose proof A as A'. rewrite E in A.
    apply at_app in A as [A _]. unfold regrepeat. rewrite (at_op _ _ _ _ A). cbn [bind].
    destruct (single_node a) as [op o] eqn:SN. cbn [fst snd] in *.
    pose proof (node_test a 1 S G ltac:(unfold char; lia)) as X. rewrite SN in X. destruct X as (_ & _ & -> & _).
    rewrite <- (count_runs a op o fuel S G SN (Datatypes.S (length t)) i Hi) by lia.
    clear -O SN S. revert i. induction fuel as [ | fuel IH]; intros i; [reflexivity | ]. cbn [count].
    destruct (operand_test p a op o (m i) SN S O) as [_ ->]. destruct (repeated _ _ _ _); [ | reflexivity]. now rewrite IH.
  Qed.

  (** the ways of a repetition *)
  Definition upto (i : Z) (n : nat) : list way := map (fun k => (i + Z.of_nat k, [])) (seq 0 (S n)).
  Lemma then_shift (l : list nat) i K : and_then (map (fun k => (i + Z.of_nat k, [])) l) K = flat_map (fun k => K (i + Z.of_nat k)) l.
  Proof.
    induction l as [ | k l IH]; [reflexivity | ]. cbn [map flat_map]. rewrite then_cons, IH. now rewrite map_same.
  Qed.
  Lemma many_single h f n i : (0 < n)%nat -> start <= i <= len -> len - i < Z.of_nat n ->
    many h (one t f) n i = map (fun k => (i + Z.of_nat k, [])) (match h with Greedy => rev (seq 0 (S (runs_for f n i))) | Lazy => seq 0 (S (runs_for f n i)) end).
  Proof.
    revert i. induction n as [ | n IH]; intros i N Hi Hn; [lia | ]. cbn [many runs_for].
    assert (E : and_then (one t f i) (many h (one t f) n) =
      match char_at t i with Some x => if f x then many h (one t f) n (i + 1) else [] | None => [] end).
    { unfold one at 1. destruct (char_at t i) as [x | ]; [ | reflexivity]. destruct (f x); [apply then_one | reflexivity]. }
    rewrite E. destruct (m_case i Hi) as [(_ & _ & ->) | (L & x & _ & -> & C)].
    - destruct h; cbn [seq rev map app]; change (Z.of_nat 0) with 0; rewrite Z.add_0_r; reflexivity.
    - destruct (f x).
      + rewrite (IH (i + 1)) by lia. set (r := runs_for f n (i + 1)).
        assert (SH : forall l, map (fun k => (i + 1 + Z.of_nat k, @nil event)) l = map (fun k => (i + Z.of_nat k, [])) (map S l)).
        { intros l. rewrite map_map. apply map_ext. intros k. f_equal. lia. }
        destruct h.
        * change (seq 0 (S (S r))) with (O :: seq 1 (S r)). cbn [rev]. rewrite map_app. cbn [map].
          change (Z.of_nat 0) with 0. rewrite Z.add_0_r. f_equal. rewrite SH. f_equal. rewrite map_rev. now rewrite seq_shift.
        * change (seq 0 (S (S r))) with (O :: seq 1 (S r)). cbn [map].
          change (Z.of_nat 0) with 0. rewrite Z.add_0_r. f_equal. rewrite SH. f_equal. now rewrite seq_shift.
      + destruct h; cbn [seq rev map app]; change (Z.of_nat 0) with 0; rewrite Z.add_0_r; reflexivity.
  Qed.
  Lemma runs_stable f n : forall n' i, start <= i <= len -> len - i <= Z.of_nat n -> len - i <= Z.of_nat n' -> runs_for f n i = runs_for f n' i.
  Proof.
    induction n as [ | n IH]; intros n' i Hi H1 H2.
    - destruct n'; [reflexivity | ]. cbn [runs_for]. destruct (m_case i Hi) as [(_ & _ & ->) | (L & _)]; [reflexivity | lia].
    - destruct (m_case i Hi) as [(_ & _ & E) | (L & x & _ & E & C)].
      + cbn [runs_for]. rewrite E. destruct n'; cbn [runs_for]; [reflexivity | ]. now rewrite E.
      + destruct n'; [lia | ]. cbn [runs_for]. rewrite E. destruct (f x); [ | reflexivity]. f_equal. apply IH; lia.
  Qed.
  Lemma plus_single h f i : start <= i <= len ->
    and_then (one t f i) (many h (one t f) (S (length t))) =
    map (fun k => (i + Z.of_nat k, [])) (match h with Greedy => rev (seq 1 (runs_for f (S (length t)) i)) | Lazy => seq 1 (runs_for f (S (length t)) i) end).
  Proof.
    intros Hi.
    assert (E : and_then (one t f i) (many h (one t f) (S (length t))) =
      match char_at t i with Some x => if f x then many h (one t f) (S (length t)) (i + 1) else [] | None => [] end).
    { unfold one at 1. destruct (char_at t i) as [x | ]; [ | reflexivity]. destruct (f x); [apply then_one | reflexivity]. }
    rewrite E. cbn [runs_for]. destruct (m_case i Hi) as [(_ & _ & ->) | (L & x & _ & -> & C)].
    - destruct h; reflexivity.
    - destruct (f x).
      + rewrite many_single by lia.
        replace (runs_for f (S (length t)) (i + 1)) with (runs_for f (length t) (i + 1)).
        * set (r := runs_for f (length t) (i + 1)).
          assert (SH : forall l, map (fun k => (i + 1 + Z.of_nat k, @nil event)) l = map (fun k => (i + Z.of_nat k, [])) (map S l)).
          { intros l. rewrite map_map. apply map_ext. intros k. f_equal. lia. }
          rewrite SH. destruct h; [rewrite map_rev | ]; rewrite seq_shift; reflexivity.
        * apply runs_stable; lia.
      + destruct h; reflexivity.
  Qed.

  (** looking ahead only skips what would fail *)
  Lemma lookahead_sound e j f nest : (nocase = true -> fold = true) -> entry e -> start <= j <= len ->
    exists b, lookahead m c nocase e j = Ok b /\ (b = false -> forall r, run (S f) nest (Some e) j = r -> r = MNo false \/ r = MWild \/ r = MFuel \/ r = MNo true).
  Proof.
    intros FN (op & E & En) Hj. unfold lookahead. rewrite E. cbn [bind]. eexists. split; [reflexivity | ].
    intros B r R. destruct (Z.eqb_spec op EXACTLY) as [-> | N].
    - destruct (En eq_refl) as [E1 E2]. set (a := hd 0 (str_at c (e + 3))) in *.
      assert (X : same nocase a (m j) = false).
      { pose proof (m_byte j Hj) as MB. unfold same. apply orb_false_iff in B as [_ B]. destruct nocase.
        - specialize (E2 (FN eq_refl)). unfold schar in B. replace (a <? 128) with true in B by lia. rewrite Z.eqb_sym. exact B.
        - unfold schar in B. destruct (a <? 128) eqn:X1, (m j <? 128) eqn:X2; lia. }
      destruct (regnext c e) as [n | | | ] eqn:NX.
      + erewrite run_eq in R; eauto. cbn -[exactly str_at] in R. unfold exactly in R. fold a in R. rewrite X in R. cbn [andb] in R. auto.
      + cbn [loop] in R. rewrite E in R. cbn [of_res] in R. rewrite NX in R. cbn in R. auto.
      + cbn [loop] in R. rewrite E in R. cbn [of_res] in R. rewrite NX in R. cbn in R. auto.
      + cbn [loop] in R. rewrite E in R. cbn [of_res] in R. rewrite NX in R. cbn in R. auto.
    - destruct nocase; discriminate B.
  Qed.
  Lemma result_cases W : result W = MNo false \/ result W = MWild \/ result W = MFuel \/ result W = MNo true -> W = [].
  Proof. destruct W as [ | [j ev] W]; [reflexivity | ]. intros [H | [H | [H | H]]]; discriminate H. Qed.

  (** the loops over the number of repetitions *)
  Lemma try_one e f nest j K : (nocase = true -> fold = true) -> entry e -> start <= j <= len -> run (S f) nest (Some e) j = result (K j) ->
    exists b, lookahead m c nocase e j = Ok b /\ (if b then run (S f) nest (Some e) j else MNo false) = result (K j).
  Proof.
    intros FN En Hj R. destruct (lookahead_sound e j f nest FN En Hj) as (b & E & H). exists b. split; [exact E | ].
    destruct b; [exact R | ]. specialize (H eq_refl _ R). rewrite (result_cases _ H). reflexivity.
  Qed.
  Lemma shrink_ok go e K save min no : (min <= no)%nat \/ no = O /\ min = 1%nat ->
    (forall k, (min <= k <= no)%nat -> exists b, lookahead m c nocase e (save + Z.of_nat k) = Ok b /\
       (if b then go (save + Z.of_nat k) else MNo false) = result (K (save + Z.of_nat k))) ->
    shrink m c nocase go e min no save = result (flat_map (fun k => K (save + Z.of_nat k)) (rev (seq min (S no - min)))).
  Proof.
    induction no as [ | no IH]; intros HM H.
    - cbn [shrink]. destruct (Nat.ltb_spec 0 min).
      + assert (min = 1%nat) as -> by lia. reflexivity.
      + assert (min = O) as -> by lia. cbn [Nat.sub seq rev app flat_map]. rewrite app_nil_r.
        destruct (H O ltac:(lia)) as (b & E & R). rewrite E. cbn [of_res]. cbv zeta. rewrite R.
        destruct (K (save + Z.of_nat 0)) as [ | [j ev] W]; reflexivity.
    - destruct (Nat.ltb_spec (S no) min) as [X | X]; [lia | ]. 
      cbn [shrink]. replace (Nat.ltb (S no) min) with false by lia.
      destruct (H (S no) ltac:(lia)) as (b & E & R). rewrite E. cbn [of_res]. cbv zeta. rewrite R.
      replace (S (S no) - min)%nat with (S (S no - min)) by lia. rewrite seq_S, rev_app_distr. cbn [rev app flat_map].
      rewrite result_app. replace (min + (S no - min))%nat with (S no) by lia.
      destruct (K (save + Z.of_nat (S no))) as [ | [j ev] W]; [ | reflexivity]. cbn [result].
      destruct (Nat.le_gt_cases min no) as [Y | Y].
      + rewrite IH; [ | auto | intros; apply H; lia]. destruct (flat_map _ _) as [ | [j ev] W]; reflexivity.
      + assert (min = S no) as -> by lia. rewrite Nat.sub_diag. cbn [seq rev flat_map result].
        destruct no as [ | no]; [reflexivity | ]. cbn [shrink]. replace (Nat.ltb (S no) (S (S no))) with true by lia. reflexivity.
  Qed.
  Lemma grow_ok go e K save k : forall no,
    (forall x, (no <= x < no + k)%nat -> exists b, lookahead m c nocase e (save + Z.of_nat x) = Ok b /\
       (if b then go (save + Z.of_nat x) else MNo false) = result (K (save + Z.of_nat x))) ->
    grow m c nocase go e k no save = result (flat_map (fun k => K (save + Z.of_nat k)) (seq no k)).
  Proof.
    induction k as [ | k IH]; intros no H; [reflexivity | ]. cbn [grow seq flat_map].
    destruct (H no ltac:(lia)) as (b & E & R). rewrite E. cbn [of_res]. cbv zeta. rewrite R. rewrite result_app.
    destruct (K (save + Z.of_nat no)) as [ | [j ev] W]; [ | reflexivity]. cbn [result].
    rewrite IH by (intros; apply H; lia). destruct (flat_map _ _) as [ | [j ev] W]; reflexivity.
  Qed.

  (** fuel enough for all the places *)
  Lemma all_runs e d (K : Z -> list way) i : forall l : list nat,
    (forall k, In k l -> Runs e (i + Z.of_nat k) d (K (i + Z.of_nat k))) ->
    exists f0, forall k f nest, In k l -> (f0 <= f)%nat -> 0 <= nest -> nest + d < limit ->
      run f nest (Some e) (i + Z.of_nat k) = result (K (i + Z.of_nat k)).
  Proof.
    induction l as [ | k l IH]; intros H.
    - exists O. intros k f nest [].
    - destruct (H k (or_introl eq_refl)) as (f1 & H1). destruct IH as (f2 & H2); [intros; apply H; now right | ].
      exists (Nat.max f1 f2). intros k' f nest [<- | I] F N L; [apply H1 | apply H2]; auto; lia.
  Qed.

  Definition star_op (q : quant) : Z :=
    match q with Star Greedy => STAR | Star Lazy => NGSTAR | Plus Greedy => PLUS | Plus Lazy => NGPLUS | _ => END end.
  Lemma sat_repeat p q a n off : at_ p (node (star_op q) off ++ gen_atom a n None) -> (0 < off)%nat -> star_op q <> END ->
    single a = true -> good_atom a -> (nocase = true -> fold = true) -> entry (p + off) ->
    Sat p (p + off) (times t q (W_atom a n)) (1, 0).
  Proof.
    intros A O Q S G FN En i D K Hi HK HD. cbn [fst snd] in *. apply at_app in A as [A AX]. rewrite node_length in AX.
    set (r := runs_for (test a) (Datatypes.S (length t)) i).
    pose proof (runs_le (test a) (Datatypes.S (length t)) i Hi) as RL. fold r in RL.
    set (lo := match q with Plus _ => 1%nat | _ => 0%nat end).
    set (ks := seq lo (Datatypes.S r - lo)).
    set (ks' := match q with Star Greedy | Plus Greedy => rev ks | _ => ks end).
    assert (W : times t q (W_atom a n) i = map (fun k => (i + Z.of_nat k, [])) ks').
    { assert (X : forall h k j, many h (W_atom a n) k j = many h (one t (test a)) k j).
      { intros h k. induction k as [ | k IH]; intros j; [reflexivity | ]. cbn [many]. rewrite ways_single by auto.
        rewrite (then_ext _ (many h (W_atom a n) k) (many h (one t (test a)) k)) by auto. reflexivity. }
      destruct q as [ | h | h | h]; try (exfalso; apply Q; destruct h; reflexivity); try (exfalso; apply Q; reflexivity); cbn [times].
      - rewrite X, many_single by lia. fold r. unfold ks', ks, lo. rewrite Nat.sub_0_r. destruct h; reflexivity.
      - rewrite ways_single by auto. rewrite (then_ext _ _ (many h (one t (test a)) (Datatypes.S (length t)))) by auto.
        rewrite plus_single by lia. fold r. unfold ks', ks, lo. replace (Datatypes.S r - 1)%nat with r by lia. destruct h; reflexivity. }
    assert (IK : forall k, In k ks' <-> (lo <= k <= r)%nat).
    { intros k. assert (Y : In k ks <-> (lo <= k <= r)%nat).
      { unfold ks. rewrite in_seq. unfold lo. destruct q; lia. }
      unfold ks'. destruct q as [ | h | [ | ] | [ | ]]; auto; rewrite <- in_rev; auto. }
    rewrite W, then_shift.
    destruct (all_runs (p + off) (D - 1) K i ks') as (f0 & R).
    { intros k I. eapply runs_mono; [ | eapply (HK (i + Z.of_nat k) [])].
      - lia.
      - rewrite W. apply in_map_iff. exists k. auto. }
    exists (Datatypes.S (Datatypes.S (f0 + length t + 1))). intros f nest F N L. destruct f; [lia | ]. destruct f; [lia | ].
    assert (NB : star_op q <> BACK) by (destruct q as [ | h | [ | ] | [ | ]]; discriminate).
    erewrite run_eq; [ | eapply at_op; eauto | eapply at_next; eauto]. cbv zeta.
    assert (T1 : forall k, (lo <= k <= r)%nat -> exists b, lookahead m c nocase (p + off) (i + Z.of_nat k) = Ok b /\
       (if b then (if limit <=? nest + 1 then MNo true else run (Datatypes.S f) (nest + 1) (Some (p + off)%nat) (i + Z.of_nat k)) else MNo false) = result (K (i + Z.of_nat k))).
    { intros k Hk. replace (limit <=? nest + 1) with false by lia. apply try_one; auto; [lia | ]. apply R; try lia. now apply IK. }
    assert (RR : regrepeat m c nocase (Datatypes.S f) (p + 3) i = Ok r) by (eapply regrepeat_runs; eauto; lia).
    clearbody r.
    destruct q as [ | h | [ | ] | [ | ]]; try (exfalso; apply Q; reflexivity); cbn -[regrepeat shrink grow loop Nat.sub Nat.add Z.leb Z.add] in *;
      rewrite RR; cbn [of_res].
    - unfold ks', ks, lo in *. apply shrink_ok; auto. left. lia.
    - unfold ks', ks, lo in *. rewrite (grow_ok _ _ K); [reflexivity | ]. intros x Hx. apply T1. lia.
    - unfold ks', ks, lo in *. apply shrink_ok; auto. clear. destruct r; [right; auto | left; lia].
    - unfold ks', ks, lo in *. rewrite (grow_ok _ _ K); [reflexivity | ]. intros x Hx. apply T1. lia.
  Qed.
End Frag.
