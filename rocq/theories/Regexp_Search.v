(** Searching for the leftmost match, and the optimisations of
    rep_regcomp. *)
From Coq Require Import List ZArith Bool Lia ZifyBool.
From Verif Require Import Regexp_Model Regexp_Spec Regexp_Code Regexp_Compile Regexp_Match Regexp_Frag Regexp_Sat.
Import ListNotations.
Open Scope Z_scope.

(** * The chain of nodes of an alternative *)
Definition piece_must (a : atom) (q : quant) : list (list Z) :=
  match a, q with Lit cs, One => [cs] | Esc x, One => [[x]] | _, _ => [] end.
Fixpoint musts (b : branch) : list (list Z) :=
  match b with Nil => [] | Piece a q b => piece_must a q ++ musts b end.

Section Chain.
  Variable c : list Z.
  Notation at_ := (at_ c).

  Inductive chain (M : list Z -> Prop) : nat -> nat -> Prop :=
  | chain_here p : chain M p p
  | chain_step p p' q op : op_at c p = Ok op -> regnext c p = Ok (Some p') -> (p < p')%nat ->
      (op = EXACTLY -> M (str_at c (p + 3))) -> chain M p' q -> chain M p q.

  Lemma chain_trans M p q r : chain M p q -> chain M q r -> chain M p r.
  Proof. induction 1; auto. intros. econstructor; eauto. Qed.
  Lemma chain_le M p q : chain M p q -> (p <= q)%nat.
  Proof. induction 1; lia. Qed.
  Lemma chain_weaken (M M' : list Z -> Prop) p q : (forall o, M o -> M' o) -> chain M p q -> chain M' p q.
  Proof. intros H. induction 1; [constructor | ]. econstructor; eauto. Qed.
  Lemma chain_node M p op off : at_ p (node op off) -> (0 < off)%nat -> op <> BACK -> op <> EXACTLY -> chain M p (p + off).
  Proof.
    intros A O B X. econstructor; [eapply at_op; eauto | eapply at_next; eauto | lia | congruence | ]. constructor.
  Qed.

  Lemma chain_regex M r : good r -> forall n p, at_ p (gen r n) -> chain M p (p + size r).
  Proof.
    induction r as [b | b r IH]; intros G n p A; cbn [gen size] in *.
    - apply at_app in A as [A _]. apply (chain_node _ _ _ _ A); [lia | discriminate | discriminate].
    - destruct G as [G1 G2]. apply at_app in A as [A1 A]. apply at_app in A as [_ A]. rewrite node_length, gen_branch_length in A by auto.
      eapply chain_trans; [apply (chain_node _ _ _ _ A1); [lia | discriminate | discriminate] | ].
      replace (p + 3 + size_branch b)%nat with (p + (3 + size_branch b))%nat in A by lia.
      replace (p + (3 + size_branch b + size r))%nat with (p + (3 + size_branch b) + size r)%nat by lia. eapply IH; eauto.
  Qed.
  Lemma chain_atom a : good_atom a -> forall n k p, at_ p (gen_atom a n (Some k)) -> chain (fun o => In o (piece_must a One)) p (p + (size_atom a + k)).
  Proof.
    intros G n k p A. destruct a as [cs | x | | | | | | neg l | kd neg | r]; cbn [gen_atom size_atom tl_ piece_must] in *.
    - assert (Z : str_at c (p + 3) = cs).
      { eapply at_str; eauto. destruct G as [_ G]. eapply Forall_impl; [ | exact G]. unfold char. intros y [H _]. lia. }
      apply at_app in A as [A _]. econstructor; [eapply at_op; eauto | eapply at_next; eauto; [lia | discriminate] | lia | intros _; rewrite Z; now left | ]. constructor.
    - assert (Z : str_at c (p + 3) = [x]).
      { eapply (at_str c p EXACTLY _ [x]); eauto. destruct G as [G _]. unfold char in G. constructor; [lia | constructor]. }
      apply at_app in A as [A _]. econstructor; [eapply at_op; eauto | eapply at_next; eauto; [lia | discriminate] | lia | intros _; rewrite Z; now left | ]. constructor.
    - apply (chain_node _ _ _ _ A); [lia | discriminate | discriminate].
    - apply (chain_node _ _ _ _ A); [lia | discriminate | discriminate].
    - apply (chain_node _ _ _ _ A); [lia | discriminate | discriminate].
    - apply (chain_node _ _ _ _ A); [lia | discriminate | discriminate].
    - apply (chain_node _ _ _ _ A); [lia | discriminate | discriminate].
    - apply at_app in A as [A _]. apply (chain_node _ _ _ _ A); [lia | destruct neg; discriminate | destruct neg; discriminate].
    - apply (chain_node _ _ _ _ A); [lia | destruct kd, neg; discriminate | destruct kd, neg; discriminate].
    - apply at_app in A as [A1 A]. apply at_app in A as [A2 A3]. rewrite node_length, gen_regex_length in * by exact G.
      eapply chain_trans; [apply (chain_node _ _ _ _ A1); [lia | unfold OPEN, BACK; lia | unfold OPEN, EXACTLY; lia] | ].
      eapply chain_trans; [eapply chain_regex; eauto | ].
      replace (p + (size r + 6 + k))%nat with (p + 3 + size r + (3 + k))%nat by lia.
      apply (chain_node _ _ _ _ A3); [lia | unfold CLOSE, BACK; lia | unfold CLOSE, EXACTLY; lia].
  Qed.
  (** an atom with no literal characters in its chain *)
  Lemma chain_bare a : good_atom a -> single a = false -> (forall cs, a <> Lit cs) -> forall n k p M, at_ p (gen_atom a n (Some k)) -> chain M p (p + (size_atom a + k)).
  Proof.
    intros G S L n k p M A. eapply chain_weaken; [ | eapply chain_atom; eauto]. intros o H.
    destruct a; try (destruct H; fail); try discriminate S. destruct (L cs eq_refl).
  Qed.
  Lemma chain_piece a q : good_atom a -> (q <> One -> forall cs, a = Lit cs -> length cs = 1%nat) -> forall n k p,
    at_ p (gen_piece a q n (Some k)) -> chain (fun o => In o (piece_must a q)) p (p + (size_piece a q + k)).
  Proof.
    intros G LL n k p A. unfold gen_piece, size_piece in *.
    assert (GL : forall k, length (gen_atom a n k) = size_atom a) by (intros; now apply gen_atom_length).
    assert (NL : q <> One -> single a = false -> forall cs, a <> Lit cs).
    { intros N S cs ->. specialize (LL N cs eq_refl). destruct cs as [ | x [ | y cs]]; discriminate. }
    destruct q as [ | h | [ | ] | [ | ]]; cbn [gen_quant tl_] in A.
    - rewrite Nat.add_0_r. eapply chain_atom; eauto.
    - apply at_app in A as [A1 A]. apply at_app in A as [_ A]. apply at_app in A as [A2 A3]. rewrite ?node_length, ?GL in *.
      eapply chain_trans; [apply (chain_node _ _ _ _ A1); [lia | discriminate | discriminate] | ].
      replace (p + 3 + size_atom a)%nat with (p + (size_atom a + 3))%nat in * by lia.
      eapply chain_trans; [apply (chain_node _ _ _ _ A2); [lia | discriminate | discriminate] | ].
      replace (p + (size_atom a + 9 + k))%nat with (p + (size_atom a + 3) + 3 + (3 + k))%nat by lia.
      apply (chain_node _ _ _ _ A3); [lia | discriminate | discriminate].
    - destruct (single a) eqn:S.
      + apply at_app in A as [A _]. replace (p + (size_atom a + 3 + k))%nat with (p + (3 + size_atom a + k))%nat by lia. apply (chain_node _ _ _ _ A); [lia | discriminate | discriminate].
      + apply at_app in A as [A1 A]. apply at_app in A as [_ A]. apply at_app in A as [_ A]. apply at_app in A as [A2 A3]. rewrite ?node_length, ?GL in *.
        eapply chain_trans; [apply (chain_node _ _ _ _ A1); [lia | discriminate | discriminate] | ].
        replace (p + 3 + size_atom a + 3)%nat with (p + (size_atom a + 6))%nat in * by lia.
        eapply chain_trans; [apply (chain_node _ _ _ _ A2); [lia | discriminate | discriminate] | ].
        replace (p + (size_atom a + 12 + k))%nat with (p + (size_atom a + 6) + 3 + (3 + k))%nat by lia.
        apply (chain_node _ _ _ _ A3); [lia | discriminate | discriminate].
    - destruct (single a) eqn:S.
      + apply at_app in A as [A _]. replace (p + (size_atom a + 3 + k))%nat with (p + (3 + size_atom a + k))%nat by lia. apply (chain_node _ _ _ _ A); [lia | discriminate | discriminate].
      + apply at_app in A as [A1 A]. apply at_app in A as [_ A]. apply at_app in A as [A2 _]. rewrite ?node_length, ?GL in *.
        eapply chain_trans; [apply (chain_node _ _ _ _ A1); [lia | discriminate | discriminate] | ].
        replace (p + 3 + 3)%nat with (p + 6)%nat in * by lia.
        replace (p + (size_atom a + 12 + k))%nat with (p + 6 + (size_atom a + 6 + k))%nat by lia.
        apply (chain_node _ _ _ _ A2); [lia | discriminate | discriminate].
    - destruct (single a) eqn:S.
      + apply at_app in A as [A _]. replace (p + (size_atom a + 3 + k))%nat with (p + (3 + size_atom a + k))%nat by lia. apply (chain_node _ _ _ _ A); [lia | discriminate | discriminate].
      + apply at_app in A as [A0 A]. apply at_app in A as [A1 A]. apply at_app in A as [_ A]. apply at_app in A as [A2 A3]. rewrite ?node_length, ?GL in *.
        eapply chain_trans; [eapply (chain_bare a); eauto; apply NL; auto; discriminate | ]. rewrite Nat.add_0_r.
        eapply chain_trans; [apply (chain_node _ _ _ _ A1); [lia | discriminate | discriminate] | ].
        replace (p + size_atom a + 3 + 3)%nat with (p + size_atom a + 6)%nat in * by lia.
        eapply chain_trans; [apply (chain_node _ _ _ _ A2); [lia | discriminate | discriminate] | ].
        replace (p + (size_atom a + 12 + k))%nat with (p + size_atom a + 6 + 3 + (3 + k))%nat by lia.
        apply (chain_node _ _ _ _ A3); [lia | discriminate | discriminate].
    - destruct (single a) eqn:S.
      + apply at_app in A as [A _]. replace (p + (size_atom a + 3 + k))%nat with (p + (3 + size_atom a + k))%nat by lia. apply (chain_node _ _ _ _ A); [lia | discriminate | discriminate].
      + apply at_app in A as [A0 A]. apply at_app in A as [A1 A]. apply at_app in A as [_ A]. apply at_app in A as [A2 _]. rewrite ?node_length, ?GL in *.
        eapply chain_trans; [eapply (chain_bare a); eauto; apply NL; auto; discriminate | ]. rewrite Nat.add_0_r.
        eapply chain_trans; [apply (chain_node _ _ _ _ A1); [lia | discriminate | discriminate] | ].
        replace (p + size_atom a + 3 + 3)%nat with (p + size_atom a + 6)%nat in * by lia.
        replace (p + (size_atom a + 12 + k))%nat with (p + size_atom a + 6 + (6 + k))%nat by lia.
        apply (chain_node _ _ _ _ A2); [lia | discriminate | discriminate].
  Qed.
  Lemma chain_branch b : good_branch b -> forall n k p, at_ p (gen_branch b n (Some k)) -> chain (fun o => In o (musts b)) p (p + (size_branch b + k)).
  Proof.
    induction b as [ | a q b IH]; intros G n k p A.
    - cbn [gen_branch size_branch tl_] in *. apply (chain_node _ _ _ _ A); [lia | discriminate | discriminate].
    - destruct G as (G1 & _ & G2 & G3).
      assert (LL : q <> One -> forall cs, a = Lit cs -> length cs = 1%nat) by (intros N cs ->; destruct q; try congruence; exact G2).
      destruct b as [ | a' q' b'].
      + cbn [musts]. rewrite app_nil_r. assert (SZ : size_branch (Piece a q Nil) = size_piece a q) by (unfold size_piece; cbn [size_branch]; lia). rewrite SZ.
        eapply chain_piece; eauto.
      + set (b := Piece a' q' b') in *.
        assert (SZ : size_branch (Piece a q b) = (size_piece a q + size_branch b)%nat) by reflexivity. rewrite SZ.
        change (gen_branch (Piece a q b) n (Some k)) with (gen_piece a q n (Some 0%nat) ++ gen_branch b (n + groups_atom a) (Some k)) in A.
        apply at_app in A as [A1 A2]. rewrite gen_piece_length in A2 by auto.
        replace (p + (size_piece a q + size_branch b + k))%nat with (p + size_piece a q + (size_branch b + k))%nat by lia.
        eapply chain_trans.
        * eapply chain_weaken; [ | eapply chain_piece; eauto]. intros o H. cbn [musts]. apply in_or_app. now left.
        * rewrite Nat.add_0_r. eapply chain_weaken; [ | eapply IH; eauto]. intros o H. cbn [musts]. apply in_or_app. now right.
  Qed.

  (** what is found along it *)
  Lemma longest_chain M p q : chain M p q -> op_at c q = Ok END -> regnext c q = Ok None ->
    forall fuel best, (q - p < fuel)%nat -> (match best with Some o => M o | None => True end) ->
    exists best', longest fuel c p best = Ok best' /\ match best' with Some o => M o | None => True end.
  Proof.
    intros C OE NE. induction C as [p | p p' q op E1 E2 L X C IH]; intros fuel best F HB.
    - destruct fuel; [lia | ]. cbn [longest]. rewrite OE. cbn [bind]. change (END =? EXACTLY) with false. cbn iota. rewrite NE. cbn [bind]. eauto.
    - pose proof (chain_le _ _ _ C). destruct fuel; [lia | ]. cbn [longest]. rewrite E1. cbn [bind]. rewrite E2. cbn [bind].
      apply IH; auto; [lia | ]. destruct (Z.eqb_spec op EXACTLY) as [-> | ]; [ | exact HB].
      destruct (Nat.leb _ _); [ | exact HB]. now apply X.
  Qed.
End Chain.

(** * Running the program *)
Section Search.
  Variable t : list Z.
  Variable beyond : Z -> Z.
  Variable nocase : bool.
  Variable start : Z.
  Variable r : regex.
  Hypothesis chars : Forall char t.
  Hypothesis start_ok : 0 <= start <= Z.of_nat (length t).
  Hypothesis G : good r.
  Hypothesis U : usable r.
  Hypothesis AS : nocase = true -> repeats r = true -> ascii r.
  Hypothesis NG : (groups r <= 9)%nat.
  Hypothesis Sz : Z.of_nat (compiled_size r) < 32767.
  Hypothesis Dp : fst (depth r) + snd (depth r) * Z.of_nat (length t) < max_depth.

  Notation len := (Z.of_nat (length t)).
  Notation m := (memory t beyond).
  Notation at_start := (at_start start).
  Notation prog := (MAGIC :: gen r 1 ++ node END 0).
  Notation W := (ways t nocase at_start r 1).
  Notation run := (loop m prog nocase (bol start) max_depth).
  Notation try := (regtry m prog nocase (bol start) max_depth).

  Lemma at_prog : at_ prog 1 (gen r 1).
  Proof. exists [MAGIC], (node END 0). split; reflexivity. Qed.
  Lemma at_end : at_ prog (1 + size r) (node END 0).
  Proof.
    exists (MAGIC :: gen r 1), []. split; [now rewrite app_nil_r | ]. cbn [length]. now rewrite gen_regex_length.
  Qed.
  Lemma next_end : regnext prog (1 + size r) = Ok None.
  Proof. destruct at_end as (pre & suf & E & L). rewrite E, <- L, next_node. reflexivity. Qed.

  Lemma AS' : nocase && repeats r = true -> ascii r.
  Proof. intros H. apply andb_true_iff in H as [H1 H2]. auto. Qed.
  Lemma RF : repeats r = true -> nocase = true -> nocase && repeats r = true.
  Proof. intros -> ->. reflexivity. Qed.
  Lemma runs_program i : start <= i <= len -> Runs m prog nocase (bol start) max_depth 1 i (max_depth - 1) (W i).
  Proof.
    intros Hi. rewrite <- (then_units (W i)).
    pose proof (proj1 (proj2 depth_nonneg) r) as [P0 P1].
    eapply (proj1 (proj2 (sat_all t beyond nocase (nocase && repeats r) start prog max_depth chars start_ok)) r G U AS' RF 1%nat 1%nat END); auto; try lia.
    - eapply entry_node; [apply at_end | discriminate].
    - eapply at_op. apply at_end.
    - discriminate.
    - apply at_prog.
    - intros j ev _. apply step_end. apply at_end.
    - nia.
  Qed.

  Definition tried (i : Z) : mres :=
    match W i with [] => MNo false | (j, ev) :: _ => MYes j (match_starts i ev) (match_ends j ev) false end.
  Lemma try_at i : start <= i <= len -> exists f0, forall f, (f0 <= f)%nat -> run f 0 (Some 1%nat) i = result (W i) /\ try f i = tried i.
  Proof.
    intros Hi. destruct (runs_program i Hi) as (f0 & H). exists f0. intros f F.
    assert (E : run f 0 (Some 1%nat) i = result (W i)) by (apply H; auto; unfold max_depth; lia). split; [exact E | ].
    unfold regtry. change (max_depth <=? 0) with false. cbn iota. rewrite E. unfold tried, result. destruct (W i) as [ | [j ev] w]; reflexivity.
  Qed.
  Lemma try_all : exists f0, forall i f, start <= i <= len -> (f0 <= f)%nat -> run f 0 (Some 1%nat) i = result (W i) /\ try f i = tried i.
  Proof.
    assert (X : forall n, exists f0, forall i f, start <= i <= len -> i < Z.of_nat n -> (f0 <= f)%nat -> run f 0 (Some 1%nat) i = result (W i) /\ try f i = tried i).
    { induction n as [ | n (f0 & IH)]; [exists O; lia | ].
      destruct (Z_le_gt_dec start (Z.of_nat n)) as [L1 | L1]; [ | exists f0; intros; apply IH; lia].
      destruct (Z_le_gt_dec (Z.of_nat n) len) as [L2 | L2]; [ | exists f0; intros; apply IH; lia].
      destruct (try_at (Z.of_nat n) ltac:(lia)) as (f1 & H1). exists (Nat.max f0 f1). intros i f Hi Hn F.
      destruct (Z.eq_dec i (Z.of_nat n)) as [-> | N]; [apply H1 | apply IH]; lia. }
    destruct (X (S (length t))) as (f0 & H). exists f0. intros. apply H; lia.
  Qed.

  (** The first position from i on, with n to go *)
  Fixpoint leftmost (n : nat) (i : Z) : mres :=
    match n with
    | O => MNo false
    | S n => match W i with [] => leftmost n (i + 1) | _ => tried i end
    end.
  Lemma leftmost_spec n : forall i,
    (exists k j ev w, i <= k < i + Z.of_nat n /\ (forall k', i <= k' < k -> W k' = []) /\ W k = (j, ev) :: w /\
       leftmost n i = MYes j (match_starts k ev) (match_ends j ev) false) \/
    ((forall k, i <= k < i + Z.of_nat n -> W k = []) /\ leftmost n i = MNo false).
  Proof.
    induction n as [ | n IH]; intros i; cbn [leftmost].
    - right. split; [lia | reflexivity].
    - destruct (W i) as [ | [j ev] w] eqn:E.
      + destruct (IH (i + 1)) as [(k & j & ev & w & H1 & H2 & H3 & H4) | (H1 & H2)].
        * left. exists k, j, ev, w. split; [lia | ]. split; [ | auto]. intros k' Hk. destruct (Z.eq_dec k' i) as [-> | ]; [exact E | ]. apply H2. lia.
        * right. split; [ | exact H2]. intros k Hk. destruct (Z.eq_dec k i) as [-> | ]; [exact E | ]. apply H1. lia.
      + left. exists i, j, ev, w. split; [lia | ]. split; [lia | ]. split; [exact E | ]. unfold tried. rewrite E. reflexivity.
  Qed.

  Lemma search_ok f0 sc :
    (forall i f, start <= i <= len -> (f0 <= f)%nat -> run f 0 (Some 1%nat) i = result (W i) /\ try f i = tried i) ->
    (forall i, start <= i <= len -> sc <> 0 -> first_char nocase sc (m i) && negb (m i =? 0) = false -> W i = []) ->
    forall n i f, start <= i <= len -> len - i = Z.of_nat n - 1 -> (f0 + n <= f)%nat ->
    search m prog nocase (bol start) max_depth f sc i = leftmost n i.
  Proof.
    intros HT HS. induction n as [ | n IH]; intros i f Hi Hn F; [lia | ]. destruct f; [lia | ]. cbn [search leftmost].
    rewrite (m_zero t beyond start chars start_ok i Hi).
    assert (E : (if (if sc =? 0 then true else first_char nocase sc (m i) && negb (i =? len)) then try (S f) i else MNo false) = tried i).
    { destruct (HT i (S f) Hi ltac:(lia)) as [_ E]. destruct (Z.eqb_spec sc 0) as [Z0 | Z0]; [exact E | ].
      destruct (first_char nocase sc (m i) && negb (i =? len)) eqn:B; [exact E | ].
      unfold tried. rewrite (HS i Hi Z0); [reflexivity | ]. now rewrite (m_zero t beyond start chars start_ok i Hi). }
    rewrite E. unfold tried at 1. destruct (W i) as [ | [j ev] w] eqn:Wi.
    - destruct (Z.eqb_spec i len) as [-> | N].
      + assert (n = O) as -> by lia. reflexivity.
      + rewrite IH by lia. destruct (leftmost n (i + 1)) as [ ? ? ? [ | ] | [ | ] | | ]; reflexivity.
    - unfold tried. rewrite Wi. reflexivity.
  Qed.

  (** * The optimisations *)
  Lemma usable_fine :
    (forall a, usable_atom a -> fine_atom a = true) /\ (forall r, usable r -> fine_regex r = true) /\
    (forall b, forall last, usable_branch last b -> fine_branch b = true).
  Proof.
    apply re_mind; try (intros; reflexivity).
    - intros r0 IH H. exact (IH H).
    - intros b IH H. exact (IH true H).
    - intros b IHb r0 IHr [H1 H2]. cbn [fine_regex]. now rewrite (IHb false H1), (IHr H2).
    - intros a IHa q b IHb last (H1 & H2 & _ & H3). cbn [fine_branch]. rewrite (IHa H1), (IHb last H3).
      destruct q as [ | [ | ] | h | h]; try reflexivity. destruct H2.
  Qed.

  (** every way passes through the literal pieces *)
  Lemma musts_sound b : good_branch b -> forall n i j ev o, start <= i <= len -> In (j, ev) (ways_branch t nocase at_start b n i) -> In o (musts b) ->
    exists k, i <= k <= len /\ literal t nocase o k = true.
  Proof.
    induction b as [ | a q b IH]; intros Gb n i j ev o Hi I IM; [destruct IM | ].
    destruct Gb as (G1 & _ & _ & G3). cbn [musts ways_branch] in *. apply in_then in I as (j1 & e1 & e2 & I1 & I2 & _).
    assert (R : i <= j1 <= len).
    { pose proof (proj1 (ways_range t beyond nocase start chars start_ok) a G1 n) as R.
      destruct (times_range t start q _ _ R i j1 e1 Hi I1). auto. }
    apply in_app_or in IM as [IM | IM].
    - exists i. split; [lia | ]. destruct a as [cs | x | | | | | | | | ]; destruct q; try (destruct IM; fail); destruct IM as [<- | []]; cbn [times ways_atom] in I1.
      + destruct (literal t nocase cs i); [reflexivity | destruct I1].
      + unfold one in I1. cbn [literal]. destruct (char_at t i) as [y | ]; [ | destruct I1]. destruct (eqc nocase x y); [reflexivity | destruct I1].
    - destruct (IH G3 _ j1 j e2 o ltac:(lia) I2 IM) as (k & H1 & H2). exists k. split; [lia | exact H2].
  Qed.
  Lemma musts_chars b : good_branch b -> forall o, In o (musts b) -> o <> [] /\ Forall char o.
  Proof.
    induction b as [ | a q b IH]; intros Gb o I; [destruct I | ]. destruct Gb as (G1 & _ & _ & G3). cbn [musts] in I.
    apply in_app_or in I as [I | I]; [ | exact (IH G3 o I)].
    destruct a as [cs | x | | | | | | | | ]; destruct q; try (destruct I; fail); destruct I as [<- | []].
    - destruct G1 as [N F]. split; [exact N | ]. eapply Forall_impl; [ | exact F]. intros ? [H _]. exact H.
    - destruct G1 as [F _]. split; [discriminate | ]. constructor; [exact F | constructor].
  Qed.
  Lemma find_ok o f i : o <> [] -> Forall char o -> start <= i <= len -> len - i < Z.of_nat f ->
    exists b, find_must m nocase f o i = Ok b /\ (b = false -> forall k, i <= k <= len -> literal t nocase o k = false).
  Proof.
    intros N F. revert i. induction f as [ | f IH]; intros i Hi Hf; [lia | ]. cbn [find_must].
    rewrite (equal_literal t beyond nocase start chars start_ok o F i Hi), (m_zero t beyond start chars start_ok i Hi).
    destruct (first_char nocase (hd 0 o) (m i) && literal t nocase o i) eqn:E.
    - eexists. split; [reflexivity | discriminate].
    - assert (L : literal t nocase o i = false).
      { destruct (literal t nocase o i) eqn:E1; [ | reflexivity]. rewrite andb_true_r in E. exfalso.
        destruct o as [ | x o]; [congruence | ]. cbn [hd literal] in *.
        destruct (m_case t beyond start chars start_ok i Hi) as [(_ & Em & Ec) | (Li & y & Em & Ec & Cy)]; rewrite Ec in E1; [discriminate | ].
        rewrite Em in E. apply andb_true_iff in E1 as [E1 _]. unfold first_char, eqc in *. destruct nocase.
        - unfold upper, tolower, toupper, isupper, islower in *.
          destruct ((65 <=? x) && (x <=? 90)) eqn:X1, ((97 <=? x) && (x <=? 122)) eqn:X2, ((97 <=? y) && (y <=? 122)) eqn:X3; lia.
        - lia. }
      destruct (Z.eqb_spec i len) as [-> | NL].
      + eexists. split; [reflexivity | ]. intros _ k Hk. assert (k = len) as -> by lia. exact L.
      + destruct (IH (i + 1) ltac:(lia) ltac:(lia)) as (b & E1 & E2). exists b. split; [exact E1 | ].
        intros B k Hk. destruct (Z.eq_dec k i) as [-> | ]; [exact L | ]. apply E2; auto. lia.
  Qed.

  (** the compiled program *)
  Lemma prog_size : Z.of_nat (length prog) = Z.of_nat (compiled_size r).
  Proof. cbn [length]. rewrite app_length, node_length, gen_regex_length by auto. unfold compiled_size. lia. Qed.

  Lemma compiled : exists start anch must, regcomp (show r) = Ok (mkre prog start anch must) /\
    (start <> 0 -> op_at prog 4 = Ok EXACTLY /\ start = hd 0 (str_at prog 7)) /\
    (anch = true -> op_at prog 4 = Ok BOL) /\
    (start <> 0 \/ anch = true -> exists b, r = Alt1 b) /\
    (forall o, must = Some o -> exists b, r = Alt1 b /\ In o (musts b)).
  Proof.
    destruct (reg_ok r G (proj1 (proj2 usable_fine) r U) NG) with (f := (4 * length (show r) + 10)%nat) as (fl & s & E & C).
    { unfold compiled_size in Sz. lia. }
    { lia. }
    unfold regcomp. rewrite E. cbn [bind]. rewrite C. pose proof prog_size as PS. rewrite PS.
    replace (32767 <=? Z.of_nat (compiled_size r)) with false by lia.
    pose proof at_prog as A. pose proof at_end as AE. pose proof next_end as NE.
    clear C. set (P := MAGIC :: gen r 1 ++ node END 0) in *. clearbody P.
    destruct r as [b | b r'] eqn:Er.
    - cbn [gen] in A. pose proof A as A'. apply at_app in A as [A1 A2].
      rewrite (at_next _ _ _ _ A1) by (lia || discriminate). cbn [bind].
      rewrite node_length in A2. change (1 + 3)%nat with 4%nat in A2.
      replace (1 + (3 + size_branch b))%nat with (1 + size (Alt1 b))%nat by reflexivity.
      rewrite (at_op _ _ _ _ AE). cbn [bind]. change (END =? END) with true. cbn iota.
      destruct (entry_branch t false _ b 1 (Some 0%nat) 4 G ltac:(discriminate) A2) as (op & Op & _). rewrite Op. cbn [bind].
      assert (HL : exists must, (if spstart fl then longest (S (length P)) P 4 None else Ok None) = Ok must /\
        match must with Some o => In o (musts b) | None => True end).
      { destruct (spstart fl); [ | exists None; auto].
        apply (longest_chain _ (fun o => In o (musts b)) 4 (1 + size (Alt1 b))).
        - cbn [size]. replace (1 + (3 + size_branch b))%nat with (4 + (size_branch b + 0))%nat by lia. eapply chain_branch; eauto.
        - eapply at_op; eauto.
        - exact NE.
        - unfold compiled_size in PS. lia.
        - exact Logic.I. }
      destruct HL as (must & -> & HM). cbn [bind]. eexists _, _, _. split; [reflexivity | ]. split; [ | split; [ | split]].
      + intros H. destruct (Z.eqb_spec op EXACTLY) as [-> | ]; [ | congruence]. auto.
      + intros H. apply Z.eqb_eq in H. now subst op.
      + intros _. eauto.
      + intros o ->. eauto.
    - cbn [gen] in A. apply at_app in A as [A1 A2]. apply at_app in A2 as [_ A3].
      destruct G as [G1 G2]. rewrite node_length, gen_branch_length in A3 by auto.
      rewrite (at_next _ _ _ _ A1) by (lia || discriminate). cbn [bind].
      replace (1 + (3 + size_branch b))%nat with (1 + 3 + size_branch b)%nat by lia. rewrite (op_regex _ r' _ _ A3). cbn [bind].
      change (BRANCH =? END) with false. cbn iota. eexists _, _, _. split; [reflexivity | ].
      split; [congruence | ]. split; [discriminate | ]. split; [intros [H | H]; [congruence | discriminate] | discriminate].
  Qed.

  Lemma branch_pos b : (0 < size_branch b)%nat.
  Proof. destruct b as [ | a q b]; cbn [size_branch]; [lia | ]. destruct a; cbn [size_atom]; lia. Qed.
  (** running at a place where the first node fails *)
  Lemma fails_first b i : r = Alt1 b -> start <= i <= len ->
    (forall f nest n, regnext prog 4 = Ok n -> run (S f) nest (Some 4%nat) i = MNo false) ->
    (exists op, op_at prog 4 = Ok op /\ op <> BRANCH) -> W i = [].
  Proof.
    intros Er Hi H (op & Op & NB). destruct (try_at i Hi) as (f0 & HT). destruct (HT (S (S f0)) ltac:(lia)) as [R _].
    apply result_no. rewrite <- R.
    pose proof at_prog as A. pose proof at_end as AE. set (P := MAGIC :: gen r 1 ++ node END 0) in *. clearbody P.
    rewrite Er in A, AE. cbn [gen size] in *. apply at_app in A as [A1 A2].
    erewrite run_eq; [ | eapply at_op; exact A1 | eapply at_next; [exact A1 | lia | discriminate]].
    change (1 + (3 + size_branch b))%nat with (1 + (3 + size_branch b))%nat in *. cbv zeta.
    change (BRANCH =? BOL) with false. change (BRANCH =? EOL) with false. change (BRANCH =? EXACTLY) with false.
    change (is_one_char BRANCH) with false. change ((BRANCH =? NOTHING) || (BRANCH =? BACK)) with false.
    change ((OPEN <? BRANCH) && (BRANCH <? OPEN + NSUBEXP)) with false. change ((CLOSE <? BRANCH) && (BRANCH <? CLOSE + NSUBEXP)) with false.
    change (BRANCH =? BRANCH) with true. cbn iota. rewrite (at_op _ _ _ _ AE). cbn [of_res]. change (END =? BRANCH) with false. cbn iota.
    change (1 + 3)%nat with 4%nat.
    destruct (regnext P 4) as [n | | | ] eqn:En; [eapply H; reflexivity | | | ].
    all: exfalso; rewrite node_length in A2; change (1 + 3)%nat with 4%nat in A2;
      assert (Gb : good_branch b) by (rewrite Er in G; exact G);
      pose proof (chain_branch _ b Gb 1 0 4 A2) as Ch; inversion Ch; subst; try congruence; 
      pose proof (branch_pos b); lia.
  Qed.
  Lemma start_sound b i x : r = Alt1 b -> start <= i <= len -> op_at prog 4 = Ok EXACTLY -> x = hd 0 (str_at prog 7) ->
    first_char nocase x (m i) && negb (m i =? 0) = false -> W i = [].
  Proof.
    intros Er Hi Op -> B. apply (fails_first b); auto; [ | exists EXACTLY; split; [exact Op | discriminate]].
    intros f nest n En. erewrite run_eq; eauto. cbv zeta. change (EXACTLY =? BOL) with false. change (EXACTLY =? EOL) with false.
    change (EXACTLY =? EXACTLY) with true. cbn iota. change (4 + 3)%nat with 7%nat.
    replace (exactly m nocase (str_at prog 7) i) with false; [reflexivity | ]. unfold exactly. symmetry.
    assert (X : same nocase (hd 0 (str_at prog 7)) (m i) = false); [ | now rewrite X].
    pose proof at_prog as A. set (P := MAGIC :: gen r 1 ++ node END 0) in *. clearbody P.
    rewrite Er in A. cbn [gen] in A. apply at_app in A as [_ A2]. rewrite node_length in A2. change (1 + 3)%nat with 4%nat in A2.
    assert (Gb : good_branch b) by (rewrite Er in G; exact G).
    destruct (entry_branch t false _ b 1 (Some 0%nat) 4 Gb ltac:(discriminate) A2) as (op & Op' & En').
    rewrite Op in Op'. injection Op' as <-. specialize (En' eq_refl). destruct En' as [Hc _]. change (4 + 3)%nat with 7%nat in Hc.
    set (x := hd 0 (str_at P 7)) in *. clearbody x.
    pose proof (m_byte t beyond start chars start_ok i Hi) as MB. set (y := m i) in *. clearbody y.
    unfold first_char, same in *. destruct nocase.
    - unfold tolower, toupper, isupper, islower in *.
      destruct ((65 <=? x) && (x <=? 90)) eqn:X1, ((97 <=? x) && (x <=? 122)) eqn:X2, ((97 <=? y) && (y <=? 122)) eqn:X3; lia.
    - lia.
  Qed.
  Lemma anch_sound b i : r = Alt1 b -> start < i <= len -> op_at prog 4 = Ok BOL -> W i = [].
  Proof.
    intros Er Hi Op. apply (fails_first b); auto; [lia | | exists BOL; split; [exact Op | discriminate]].
    intros f nest n En. erewrite run_eq; eauto. cbv zeta. change (BOL =? BOL) with true. cbn iota.
    unfold bol, Regexp_Frag.at_start. destruct (start =? 0); [ | reflexivity]. replace (i =? start) with false by lia. reflexivity.
  Qed.

  Theorem match_ok : exists f0, forall f, (f0 <= f)%nat ->
    string_match beyond f (show r) t start nocase = leftmost (Z.to_nat (len - start + 1)) start.
  Proof.
    destruct compiled as (sc & anch & must & E & HS & HA & HR & HM). destruct try_all as (f0 & HT).
    exists (f0 + length t + 2)%nat. intros f F. unfold string_match. rewrite E. cbn [of_res]. unfold regexec2. cbn [regmust program reganch regstart].
    assert (HB : (if negb (start =? 0) then None else Some start) = bol start) by (unfold bol, Regexp_Frag.at_start; destruct (start =? 0); reflexivity).
    rewrite HB.
    assert (FM : exists b, match must with Some o => find_must m nocase f o start | None => Ok true end = Ok b /\ (b = false -> forall k, start <= k <= len -> W k = [])).
    { destruct must as [o | ]; [ | exists true; split; [reflexivity | discriminate]].
      destruct (HM o eq_refl) as (b & Er & I). assert (Gb : good_branch b) by (rewrite Er in G; exact G).
      destruct (musts_chars b Gb o I) as [N Fo]. destruct (find_ok o f start N Fo ltac:(lia) ltac:(lia)) as (b' & E1 & E2).
      exists b'. split; [exact E1 | ]. intros Hb k Hk. rewrite Er. change (ways t nocase at_start (Alt1 b) 1 k) with (ways_branch t nocase at_start b 1 k). destruct (ways_branch t nocase at_start b 1 k) as [ | [j ev] w] eqn:Wk; [reflexivity | ].
      exfalso. destruct (musts_sound b Gb 1 k j ev o Hk ltac:(rewrite Wk; now left) I) as (k' & H1 & H2). rewrite (E2 Hb k') in H2 by lia. discriminate. }
    assert (NO : (forall k, start <= k <= len -> W k = []) -> leftmost (Z.to_nat (len - start + 1)) start = MNo false).
    { intros H. destruct (leftmost_spec (Z.to_nat (len - start + 1)) start) as [(k & j & ev & w & H1 & _ & H3 & _) | (_ & H2)]; [ | exact H2].
      rewrite H in H3 by lia. discriminate. }
    destruct FM as (b & -> & Hb). cbn [of_res]. destruct b; cbn [negb].
    2: { symmetry. apply NO. auto. }
    destruct anch.
    - destruct (HR (or_intror eq_refl)) as (b & Er). destruct (HT start f ltac:(lia) ltac:(lia)) as [_ ->].
      replace (Z.to_nat (len - start + 1)) with (S (Z.to_nat (len - start))) by lia. cbn [leftmost]. unfold tried.
      destruct (W start) as [ | [j ev] w] eqn:Ws; [ | reflexivity]. symmetry.
      destruct (leftmost_spec (Z.to_nat (len - start)) (start + 1)) as [(k & j & ev & w & H1 & _ & H3 & _) | (_ & H2)]; [ | exact H2].
      rewrite (anch_sound b k Er) in H3; [discriminate | lia | auto].
    - apply (search_ok f0); auto; try lia. intros i Hi Z0 B. destruct (HR (or_introl Z0)) as (b & Er). destruct (HS Z0) as [H1 H2].
      eapply start_sound; eauto.
  Qed.

  Theorem looking_at_ok : exists f0, forall f, (f0 <= f)%nat ->
    string_looking_at beyond f (show r) t start nocase = tried start.
  Proof.
    destruct compiled as (sc & anch & must & E & _). destruct (try_at start ltac:(lia)) as (f0 & HT).
    exists f0. intros f F. unfold string_looking_at. rewrite E. cbn [of_res]. unfold regmatch_string. cbn [program].
    assert (HB : (if negb (start =? 0) then None else Some start) = bol start) by (unfold bol, Regexp_Frag.at_start; destruct (start =? 0); reflexivity).
    rewrite HB. apply HT. exact F.
  Qed.
End Search.

(** * Ways and matches *)
Section Language.
  Variable t : list Z.
  Variable nocase at_start : bool.
  Notation W_atom := (ways_atom t nocase at_start).
  Notation W_regex := (ways t nocase at_start).
  Notation W_branch := (ways_branch t nocase at_start).
  Notation mt_atom := (matches_atom t nocase at_start).
  Notation mt := (matches t nocase at_start).
  Notation mt_branch := (matches_branch t nocase at_start).
  Notation mt_piece := (matches_piece t nocase at_start).

  Lemma in_one f i j ev : In (j, ev) (one t f i) -> exists x, char_at t i = Some x /\ f x = true /\ j = i + 1.
  Proof.
    unfold one. destruct (char_at t i) as [x | ]; [ | intros []]. destruct (f x) eqn:E; [ | intros []]. intros [H | []]. injection H as <- <-. eauto.
  Qed.
  Lemma in_when b i j ev : In (j, ev) (when b i) -> b = true /\ j = i.
  Proof. unfold when. destruct b; [ | intros []]. intros [H | []]. injection H as <- <-. auto. Qed.

  Lemma many_matches a h n : (forall i j ev, In (j, ev) (W_atom a n i) -> mt_atom a i j) -> forall k i j ev, In (j, ev) (many h (W_atom a n) k i) -> mt_piece a (Star h) i j.
  Proof.
    intros H. induction k as [ | k IH]; intros i j ev I; [destruct I | ]. cbn [many] in I.
    assert (X : In (j, ev) (and_then (W_atom a n i) (many h (W_atom a n) k)) \/ (i, []) = (j, ev)).
    { destruct h; [apply in_app_or in I as [I | [I | []]] | destruct I as [I | I]]; auto. }
    destruct X as [X | X]; [ | injection X as <- <-; apply M_star0].
    apply in_then in X as (j1 & e1 & e2 & I1 & I2 & _). eapply M_star1; eauto.
  Qed.
  Lemma ways_matches :
    (forall a n i j ev, In (j, ev) (W_atom a n i) -> mt_atom a i j) /\
    (forall r n i j ev, In (j, ev) (W_regex r n i) -> mt r i j) /\
    (forall b n i j ev, In (j, ev) (W_branch b n i) -> mt_branch b i j).
  Proof.
    apply re_mind.
    - intros cs n i j ev I. cbn [ways_atom] in I. destruct (literal t nocase cs i) eqn:E; [ | destruct I]. destruct I as [I | []]. injection I as <- <-. now constructor.
    - intros x n i j ev I. apply in_one in I as (y & E & E' & ->). econstructor; eauto.
    - intros n i j ev I. apply in_when in I as [E ->]. apply andb_true_iff in E as [E E']. apply Z.eqb_eq in E'. subst i. now constructor.
    - intros n i j ev I. apply in_when in I as [E ->]. apply Z.eqb_eq in E. subst i. constructor.
    - intros n i j ev I. apply in_one in I as (y & E & E' & ->). econstructor; eauto.
    - intros n i j ev I. apply in_when in I as [E ->]. now constructor.
    - intros n i j ev I. apply in_when in I as [E ->]. apply negb_true_iff in E. now constructor.
    - intros neg l n i j ev I. apply in_one in I as (y & E & E' & ->). econstructor; eauto. destruct neg; cbn [xorb] in E'.
      + intros (it & I1 & I2). assert (X : existsb (in_item y) l = true) by (apply existsb_exists; eauto). rewrite X in E'. discriminate.
      + apply existsb_exists. destruct (existsb (in_item y) l); [reflexivity | discriminate].
    - intros k neg n i j ev I. apply in_one in I as (y & E & E' & ->). econstructor; eauto. destruct neg, (of_kind k y); try reflexivity; discriminate.
    - intros r IH n i j ev I. cbn [ways_atom] in I. apply in_map_iff in I as ([j' e'] & E & I). cbn [fst] in E. injection E as <- <-. constructor. eauto.
    - intros b IH n i j ev I. constructor. eauto.
    - intros b IHb r IHr n i j ev I. cbn [ways] in I. apply in_app_or in I as [I | I]; [apply M_left | apply M_right]; eauto.
    - intros n i j ev [I | []]. injection I as <- <-. constructor.
    - intros a IHa q b IHb n i j ev I. cbn [ways_branch] in I. apply in_then in I as (j1 & e1 & e2 & I1 & I2 & _).
      econstructor; [ | eauto]. destruct q as [ | [ | ] | h | h]; cbn [times] in I1.
      + constructor. eauto.
      + apply in_app_or in I1 as [I1 | [I1 | []]]; [apply M_opt1; eauto | injection I1 as <- <-; apply M_opt0].
      + destruct I1 as [I1 | I1]; [injection I1 as <- <-; apply M_opt0 | apply M_opt1; eauto].
      + eapply many_matches; eauto.
      + apply in_then in I1 as (j2 & e3 & e4 & I3 & I4 & _). eapply M_plus; eauto. eapply many_matches; eauto.
  Qed.
End Language.

Section Back.
  Variable t : list Z.
  Variable beyond : Z -> Z.
  Variable nocase : bool.
  Variable start : Z.
  Hypothesis chars : Forall char t.
  Hypothesis start_ok : 0 <= start <= Z.of_nat (length t).
  Notation len := (Z.of_nat (length t)).
  Notation at_start := (at_start start).
  Notation W_atom := (ways_atom t nocase at_start).
  Notation W_regex := (ways t nocase at_start).
  Notation W_branch := (ways_branch t nocase at_start).

  Lemma one_in f i x : char_at t i = Some x -> f x = true -> exists ev, In (i + 1, ev) (one t f i).
  Proof. intros E F. unfold one. rewrite E, F. exists []. now left. Qed.

  Lemma matches_ways :
    (forall a i j, matches_atom t nocase at_start a i j -> good_atom a -> start <= i <= len -> forall n, exists ev, In (j, ev) (W_atom a n i)) /\
    (forall r i j, matches t nocase at_start r i j -> good r -> start <= i <= len -> forall n, exists ev, In (j, ev) (W_regex r n i)) /\
    (forall b i j, matches_branch t nocase at_start b i j -> good_branch b -> start <= i <= len -> forall n, exists ev, In (j, ev) (W_branch b n i)) /\
    (forall a q i j, matches_piece t nocase at_start a q i j -> good_atom a -> (match q with Star _ | Plus _ => width_atom a = true | _ => True end) ->
       start <= i <= len -> forall n, exists ev, In (j, ev) (times t q (W_atom a n) i)).
  Proof.
    pose proof (ways_range t beyond nocase start chars start_ok) as (RA & RR & RB).
    apply matches_mind.
    - intros cs i E _ _ n. exists []. cbn [ways_atom]. rewrite E. now left.
    - intros x i y E E' _ _ n. cbn [ways_atom]. eapply one_in; eauto.
    - intros E _ _ n. exists []. cbn [ways_atom]. rewrite E. now left.
    - intros _ _ n. exists []. cbn [ways_atom]. rewrite Z.eqb_refl. now left.
    - intros i y E _ _ n. cbn [ways_atom]. eapply one_in; eauto.
    - intros i E _ _ n. exists []. cbn [ways_atom]. rewrite E. now left.
    - intros i E _ _ n. exists []. cbn [ways_atom]. rewrite E. now left.
    - intros neg l i y E H _ _ n. cbn [ways_atom]. eapply one_in; eauto. cbn beta. destruct neg; cbn [xorb].
      + destruct (existsb (in_item y) l) eqn:X; [ | reflexivity]. apply existsb_exists in X. destruct (H X).
      + apply existsb_exists in H. rewrite H. reflexivity.
    - intros k neg i y E H _ _ n. cbn [ways_atom]. eapply one_in; eauto. cbn beta. rewrite H. destruct neg; reflexivity.
    - intros r i j _ IH G Hi n. destruct (IH G Hi (S n)) as (ev & I). eexists. cbn [ways_atom]. apply in_map_iff. exists (j, ev). split; [reflexivity | exact I].
    - intros b i j _ IH G Hi n. exact (IH G Hi n).
    - intros b r i j _ IH [G1 G2] Hi n. destruct (IH G1 Hi n) as (ev & I). exists ev. cbn [ways]. apply in_or_app. now left.
    - intros b r i j _ IH [G1 G2] Hi n. destruct (IH G2 Hi (n + groups_branch b)%nat) as (ev & I). exists ev. cbn [ways]. apply in_or_app. now right.
    - intros i _ _ n. exists []. now left.
    - intros a q b i j k _ IH1 _ IH2 (G1 & G2 & _ & G3) Hi n. destruct (IH1 G1 G2 Hi n) as (ev & I).
      pose proof (times_range t start q _ _ (RA a G1 n) i j ev Hi I) as [R _].
      destruct (IH2 G3 ltac:(lia) (n + groups_atom a)%nat) as (ev' & I'). exists (ev ++ ev'). cbn [ways_branch]. apply in_then. exists j, ev, ev'. auto.
    - intros a i j _ IH G _ Hi n. exact (IH G Hi n).
    - intros a h i _ _ Hi n. exists []. cbn [times]. destruct h; [apply in_or_app; right; now left | now left].
    - intros a h i j _ IH G _ Hi n. destruct (IH G Hi n) as (ev & I). exists ev. cbn [times]. destruct h; [apply in_or_app; now left | now right].
    - intros a h i _ _ Hi n. exists []. cbn [times]. apply in_many_here. lia.
    - intros a h i j k _ IH1 _ IH2 G Wd Hi n. destruct (IH1 G Hi n) as (ev & I). pose proof (RA a G n) as R. rewrite Wd in R.
      destruct (R i j ev Hi I) as [X _]. destruct (IH2 G Wd ltac:(lia) n) as (ev' & I'). exists (ev ++ ev'). cbn [times].
      rewrite (star_unfold t start start_ok h _ i R Hi). 
      assert (Y : In (k, ev ++ ev') (and_then (W_atom a n i) (many h (W_atom a n) (S (length t))))) by (apply in_then; exists j, ev, ev'; auto).
      destruct h; [apply in_or_app; now left | now right].
    - intros a h i j k _ IH1 _ IH2 G Wd Hi n. destruct (IH1 G Hi n) as (ev & I). pose proof (RA a G n) as R. rewrite Wd in R.
      destruct (R i j ev Hi I) as [X _]. destruct (IH2 G Wd ltac:(lia) n) as (ev' & I'). exists (ev ++ ev'). cbn [times]. apply in_then. exists j, ev, ev'. auto.
  Qed.
End Back.
