(* C39: regexp matching; C41: the match data *)
From Coq Require Import ZArith List Bool Lia.
Import ListNotations.
From Verif Require Import Regexp_Model Regexp_Spec Regexp_Search Regexp_Groups.
Open Scope Z_scope.

(* x*(foo|bar)y, and [^a-c\]+? followed by (\d\w?) repeated or ^\.$ *)
Definition chr (c : Z) : atom := Lit [c].
Definition r1 : regex :=
  Alt1 (Piece (chr 120) (Star Greedy) (Piece (Grp (Alt (Piece (Lit [102; 111; 111]) One Nil) (Alt1 (Piece (Lit [98; 97; 114]) One Nil)))) One
         (Piece (chr 121) One Nil))).
Definition r2 : regex :=
  Alt (Piece (Cls true [CRange 97 99; CChr 92]) (Plus Lazy) (Piece (Grp (Alt1 (Piece (Kind Digit false) One (Piece (Kind Word false) (Opt Greedy) Nil)))) (Star Greedy) Nil))
      (Alt1 (Piece Bol One (Piece (Esc 46) One (Piece Eol One Nil)))).
Definition xxxbary : list Z := [120; 120; 120; 98; 97; 114; 121].

Ltac fit := unfold fits; repeat split; try reflexivity; try discriminate; try lia; auto;
  try (repeat constructor; try (intros X; repeat (destruct X as [X | X]; [discriminate X | ]); destruct X); lia);
  try (intros X; repeat (destruct X as [X | X]; [discriminate X | ]); destruct X).
Example C39_fits : fits r1 xxxbary true /\ fits r2 (xxxbary ++ [46; 49; 50; 51]) false /\
  show r1 = [120; 42; 40; 102; 111; 111; 124; 98; 97; 114; 41; 121].
Proof. split; [ | split; [ | reflexivity]]; fit. Qed.

(* string-match finds the leftmost position from START on at which the regexp matches, there the
   preferred of the ways to match (alternatives in order, greedy repetitions as often as possible,
   lazy ones as seldom), and the parentheses of it; it returns nil when there is none.  It never
   reads outside the string and the program, nor signals an error.
   Partial: for regexps and strings that [fits] (see the refutations below for what it leaves out)
   and START within the string. *)
Theorem C39_string_match_partial : forall beyond r t start nocase, fits r t nocase -> 0 <= start <= Z.of_nat (length t) ->
  exists f0, forall f, (f0 <= f)%nat ->
    let w := ways t nocase (start =? 0) r 1 in
    (exists k j ev rest, start <= k <= Z.of_nat (length t) /\ (forall k', start <= k' < k -> w k' = []) /\
       w k = (j, ev) :: rest /\
       string_match beyond f (show r) t start nocase = MYes j (match_starts k ev) (match_ends j ev) false) \/
    ((forall k, start <= k <= Z.of_nat (length t) -> w k = []) /\
       string_match beyond f (show r) t start nocase = MNo false).
Proof.
  intros beyond r t start nocase (C & G & U & A & N & S & D) Hs.
  destruct (match_ok t beyond nocase start r C Hs G U A N S D) as (f0 & H). exists f0. intros f F w. rewrite (H f F).
  destruct (leftmost_spec t nocase start r A N (Z.to_nat (Z.of_nat (length t) - start + 1)) start) as [(k & j & ev & rest & H1 & H2 & H3 & H4) | (H1 & H2)].
  - left. exists k, j, ev, rest. split; [lia | ]. split; [exact H2 | ]. split; [exact H3 | exact H4].
  - right. split; [ | exact H2]. intros k Hk. apply H1. lia.
Qed.
Print Assumptions C39_string_match_partial.
Example C39_match_example : forall beyond f,
  string_match beyond (30 + f) (show r1) xxxbary 0 true =
    MYes 7 (match_starts 0 [Opened 1 3; Closed 1 6]) (match_ends 7 [Opened 1 3; Closed 1 6]) false.
Proof. reflexivity. Qed.

(* string-looking-at only tries START. *)
Theorem C39_looking_at_partial : forall beyond r t start nocase, fits r t nocase -> 0 <= start <= Z.of_nat (length t) ->
  exists f0, forall f, (f0 <= f)%nat ->
    string_looking_at beyond f (show r) t start nocase =
    match ways t nocase (start =? 0) r 1 start with
    | [] => MNo false
    | (j, ev) :: _ => MYes j (match_starts start ev) (match_ends j ev) false
    end.
Proof.
  intros beyond r t start nocase (C & G & U & A & N & S & D) Hs.
  destruct (looking_at_ok t beyond nocase start r C Hs G U A N S D) as (f0 & H). exists f0. intros f F. rewrite (H f F). reflexivity.
Qed.
Print Assumptions C39_looking_at_partial.

(* Without preference: string-match returns t iff the regexp matches from somewhere to somewhere;
   the match it reports is one, and none starts further left. *)
Theorem C39_found_iff_partial : forall beyond r t start nocase, fits r t nocase -> 0 <= start <= Z.of_nat (length t) ->
  exists f0, forall f, (f0 <= f)%nat ->
    let m := matches t nocase (start =? 0) r in
    (string_match beyond f (show r) t start nocase = MNo false /\
       forall k j, start <= k <= Z.of_nat (length t) -> ~ m k j) \/
    exists k j sp ep, string_match beyond f (show r) t start nocase = MYes j sp ep false /\
       nth 0 sp None = Some k /\ nth 0 ep None = Some j /\ start <= k <= j /\ j <= Z.of_nat (length t) /\ m k j /\
       forall k' j', start <= k' < k -> ~ m k' j'.
Proof.
  intros beyond r t start nocase Fi Hs. destruct (C39_string_match_partial beyond r t start nocase Fi Hs) as (f0 & H).
  destruct Fi as (C & G & _). exists f0. intros f F m. specialize (H f F). cbn zeta in H.
  assert (X : forall k j, start <= k <= Z.of_nat (length t) -> m k j -> ways t nocase (start =? 0) r 1 k <> []).
  { intros k j Hk M E. destruct (proj1 (proj2 (matches_ways t (fun _ => 0) nocase start C Hs)) r k j M G Hk 1%nat) as (ev & I).
    change (Regexp_Frag.at_start start) with (start =? 0) in I. rewrite E in I. destruct I. }
  destruct H as [(k & j & ev & rest & H1 & H2 & H3 & H4) | (H1 & H2)].
  - right. exists k, j, (match_starts k ev), (match_ends j ev). 
    assert (I : In (j, ev) (ways t nocase (start =? 0) r 1 k)) by (rewrite H3; now left).
    destruct (proj1 (proj2 (Regexp_Sat.ways_range t (fun _ => 0) nocase start C Hs)) r G 1%nat k j ev H1 I) as [B _].
    repeat split; auto; try lia.
    + eapply ways_matches; eauto.
    + intros k' j' Hk M. apply (X k' j' ltac:(lia) M). apply H2. exact Hk.
  - left. split; [exact H2 | ]. intros k j Hk M. apply (X k j Hk M). apply H1. exact Hk.
Qed.
Print Assumptions C39_found_iff_partial.

(* Likewise string-looking-at. *)
Theorem C39_looking_at_iff_partial : forall beyond r t start nocase, fits r t nocase -> 0 <= start <= Z.of_nat (length t) ->
  exists f0, forall f, (f0 <= f)%nat ->
    let m := matches t nocase (start =? 0) r in
    (string_looking_at beyond f (show r) t start nocase = MNo false /\ forall j, ~ m start j) \/
    exists j sp ep, string_looking_at beyond f (show r) t start nocase = MYes j sp ep false /\
       nth 0 sp None = Some start /\ nth 0 ep None = Some j /\ start <= j <= Z.of_nat (length t) /\ m start j.
Proof.
  intros beyond r t start nocase Fi Hs. destruct (C39_looking_at_partial beyond r t start nocase Fi Hs) as (f0 & H).
  destruct Fi as (C & G & _). exists f0. intros f F m. specialize (H f F). rewrite H.
  destruct (ways t nocase (start =? 0) r 1 start) as [ | [j ev] rest] eqn:E.
  - left. split; [reflexivity | ]. intros j M.
    destruct (proj1 (proj2 (matches_ways t (fun _ => 0) nocase start C Hs)) r start j M G ltac:(lia) 1%nat) as (ev & I).
    change (Regexp_Frag.at_start start) with (start =? 0) in I. rewrite E in I. destruct I.
  - right. assert (I : In (j, ev) (ways t nocase (start =? 0) r 1 start)) by (rewrite E; now left).
    destruct (proj1 (proj2 (Regexp_Sat.ways_range t (fun _ => 0) nocase start C Hs)) r G 1%nat start j ev ltac:(lia) I) as [B _].
    exists j, (match_starts start ev), (match_ends j ev). repeat split; auto; try lia. eapply ways_matches; eauto.
Qed.
Print Assumptions C39_looking_at_iff_partial.

(* A greedy repetition of a character takes as many, a lazy one as few, as the rest of the regexp
   allows.
   Partial: repetitions of a group prefer more or fewer iterations, not characters
   (C39_greedy_group_refuted). *)
Theorem C39_greedy_partial : forall beyond a h b t start nocase, single a = true ->
  let r := Alt1 (Piece (Grp (Alt1 (Piece a (Star h) Nil))) One b) in
  fits r t nocase -> 0 <= start <= Z.of_nat (length t) ->
  exists f0, forall f, (f0 <= f)%nat -> forall j sp ep e,
    string_looking_at beyond f (show r) t start nocase = MYes j sp ep e ->
    exists k, nth 1 ep None = Some k /\ matches_piece t nocase (start =? 0) a (Star h) start k /\
      matches_branch t nocase (start =? 0) b k j /\
      forall k' j', matches_piece t nocase (start =? 0) a (Star h) start k' -> matches_branch t nocase (start =? 0) b k' j' ->
        match h with Greedy => k' <= k | Lazy => k <= k' end.
Proof.
  intros beyond a h b t start nocase S1 r Fi Hs. destruct (C39_looking_at_partial beyond r t start nocase Fi Hs) as (f0 & H).
  destruct Fi as (C & G & _). exists f0. intros f F j sp ep e E. rewrite (H f F) in E.
  destruct (ways t nocase (start =? 0) r 1 start) as [ | [j0 ev] rest] eqn:Wd; [discriminate | ]. injection E as <- <- <- <-.
  assert (Ga : good_atom a) by apply G. assert (Gb : good_branch b) by apply G.
  destruct (star_takes t nocase start C Hs a h b 1 start j0 ev rest Ga S1 ltac:(lia) Wd) as (k & H1 & H2 & (ev' & H3) & H4).
  exists k. split; [exact H1 | ]. split; [exact H2 | ]. split; [eapply ways_matches; eauto | ]. intros k' j' M1 M2. apply H4; [exact M1 | ]. intros E.
  assert (Wa : width_atom a = true) by (clear - S1; destruct a; try discriminate; reflexivity).
  destruct (matches_ways t (fun _ => 0) nocase start C Hs) as (_ & _ & MB & MP).
  destruct (MP a (Star h) start k' M1 Ga Wa ltac:(lia) 1%nat) as (e1 & I1).
  pose proof (proj1 (Regexp_Sat.ways_range t (fun _ => 0) nocase start C Hs) a Ga 1%nat) as R.
  destruct (Regexp_Sat.times_range t start (Star h) _ _ R start k' e1 ltac:(lia) I1) as [B _].
  destruct (MB b k' j' M2 Gb ltac:(lia) (1 + S (groups_atom a + 0))%nat) as (e2 & I2).
  change (Regexp_Frag.at_start start) with (start =? 0) in I2. rewrite E in I2. destruct I2.
Qed.
Print Assumptions C39_greedy_partial.
(* a star in parentheses and another a, on aaab *)
Example C39_greedy_example : let r h := Alt1 (Piece (Grp (Alt1 (Piece (chr 97) (Star h) Nil))) One (Piece (chr 97) One Nil)) in
  fits (r Greedy) [97; 97; 97; 98] false /\ fits (r Lazy) [97; 97; 97; 98] false /\
  forall beyond f, string_looking_at beyond (20 + f) (show (r Greedy)) [97; 97; 97; 98] 0 false = MYes 3 (match_starts 0 [Opened 1 0; Closed 1 2]) (match_ends 3 [Opened 1 0; Closed 1 2]) false
    /\ string_looking_at beyond (20 + f) (show (r Lazy)) [97; 97; 97; 98] 0 false = MYes 1 (match_starts 0 [Opened 1 0; Closed 1 0]) (match_ends 1 [Opened 1 0; Closed 1 0]) false.
Proof. split; [fit | split; [fit | ]]. intros. split; reflexivity. Qed.

(* (a|ab) repeated on "aba" takes "a", as a is tried before ab, though it could take all. *)
Theorem C39_greedy_group_refuted : exists r t, fits r t false /\ matches t false true r 0 3 /\
  forall beyond f, string_looking_at beyond (40 + f) (show r) t 0 false = MYes 1 (match_starts 0 [Opened 1 0; Closed 1 1]) (match_ends 1 [Opened 1 0; Closed 1 1]) false.
Proof.
  exists (Alt1 (Piece (Grp (Alt (Piece (Lit [97]) One Nil) (Alt1 (Piece (Lit [97; 98]) One Nil)))) (Star Greedy) Nil)), [97; 98; 97].
  split; [fit | split; [ | reflexivity]].
  constructor. econstructor; [ | constructor]. apply M_star1 with (j := 2).
  - constructor. apply M_right. constructor. econstructor; [ | constructor]. constructor. apply (M_lit _ _ _ [97; 98] 0). reflexivity.
  - apply M_star1 with (j := 3); [ | apply M_star0]. constructor. apply M_left. econstructor; [ | constructor]. constructor. apply (M_lit _ _ _ [97] 2). reflexivity.
Qed.
Print Assumptions C39_greedy_group_refuted.

(* C41: for each pair of parentheses either both ends are nil, or they lie in order within the match
   and the string between them matches the expression in those parentheses. *)
Theorem C41_groups_partial : forall beyond r t start nocase, fits r t nocase -> 0 <= start <= Z.of_nat (length t) ->
  exists f0, forall f, (f0 <= f)%nat -> forall j sp ep e n,
    string_match beyond f (show r) t start nocase = MYes j sp ep e -> (1 <= n <= 9)%nat ->
    (nth n sp None = None /\ nth n ep None = None) \/
    exists k a b r', nth 0 sp None = Some k /\ nth n sp None = Some a /\ nth n ep None = Some b /\
      k <= a <= b /\ b <= j /\ nth_group r 1 n = Some r' /\ matches t nocase (start =? 0) r' a b.
Proof.
  intros beyond r t start nocase Fi Hs. destruct (C39_string_match_partial beyond r t start nocase Fi Hs) as (f0 & H).
  destruct Fi as (C & G & _). exists f0. intros f F j sp ep e n E Hn. specialize (H f F). cbn zeta in H.
  destruct H as [(k & j' & ev & rest & H1 & H2 & H3 & H4) | (H1 & H2)]; [ | congruence].
  rewrite H4 in E. injection E as -> <- <- <-.
  assert (I : In (j, ev) (ways t nocase (start =? 0) r 1 k)) by (rewrite H3; now left).
  pose proof (proj1 (proj2 (ways_turns t nocase start C Hs (fun _ => 0))) r G 1%nat n k j ev H1 I) as T.
  apply turns_last in T. rewrite <- opened_only, <- closed_only in T.
  assert (N1 : nth n (match_starts k ev) None = last_opened n ev).
  { do 10 (destruct n as [ | n]; [lia || reflexivity | ]). lia. }
  assert (N2 : nth n (match_ends j ev) None = last_closed n ev).
  { do 10 (destruct n as [ | n]; [lia || reflexivity | ]). lia. }
  rewrite N1, N2. destruct T as [T | (a & b & -> & -> & I1 & I2 & I3)]; [left; exact T | right].
  destruct (nth_group r 1 n) as [r' | ] eqn:NG; [ | destruct I3]. exists k, a, b, r'. repeat split; auto; lia.
Qed.
Print Assumptions C41_groups_partial.

(** * What the code does otherwise than the manual says *)

(* ?? : a??b matches "ab", the error of corrupted pointers is signalled. *)
Theorem C39_lazy_optional_refuted : exists r t, good r /\ matches t false true r 0 2 /\
  forall beyond f, exists j sp ep, string_match beyond (20 + f) (show r) t 0 false = MYes j sp ep true.
Proof.
  exists (Alt1 (Piece (chr 97) (Opt Lazy) (Piece (chr 98) One Nil))), [97; 98]. split; [fit | split].
  - constructor. econstructor; [apply M_opt1; apply (M_lit _ _ _ [97] 0); reflexivity | ].
    econstructor; [constructor; apply (M_lit _ _ _ [98] 1); reflexivity | constructor].
  - intros. exists 2, (match_starts 1 []), (match_ends 2 []). reflexivity.
Qed.
Print Assumptions C39_lazy_optional_refuted.

(* (ab)+?|c matches within "zabab", string-match returns nil. *)
Theorem C39_lazy_alternative_refuted : exists r t, good r /\ matches t false true r 1 3 /\
  forall beyond f, string_match beyond (40 + f) (show r) t 0 false = MNo false.
Proof.
  exists (Alt (Piece (Grp (Alt1 (Piece (Lit [97; 98]) One Nil))) (Plus Lazy) Nil) (Alt1 (Piece (chr 99) One Nil))), [122; 97; 98; 97; 98].
  split; [fit | split].
  - apply M_left. econstructor; [ | constructor]. apply M_plus with (j := 3); [ | apply M_star0].
    constructor. constructor. econstructor; [ | constructor]. constructor. apply (M_lit _ _ _ [97; 98] 1). reflexivity.
  - reflexivity.
Qed.
Print Assumptions C39_lazy_alternative_refuted.

(* a\W finds a match in "a" that ends after its end. *)
Theorem C39_negated_class_refuted : exists r t, good r /\ (forall i j, ~ matches t false true r i j) /\
  forall beyond f, exists sp ep, string_match beyond (20 + f) (show r) t 0 false = MYes 2 sp ep false /\ Z.of_nat (length t) = 1.
Proof.
  exists (Alt1 (Piece (chr 97) One (Piece (Kind Word true) One Nil))), [97]. split; [fit | split].
  - intros i j M. inversion M as [b i' j' Mb | | ]; subst. inversion Mb as [ | ? ? ? ? j1 ? P1 P2]; subst.
    inversion P1 as [? ? ? A1 | | | | | ]; subst. inversion A1 as [? ? L | | | | | | | | | ]; subst. clear P1 A1 M Mb.
    inversion P2 as [ | ? ? ? ? j2 ? P3 P4]; subst. inversion P3 as [? ? ? A1 | | | | | ]; subst.
    inversion A1 as [ | | | | | | | | ? ? ? x E _ | ]; subst. cbn [literal length] in L, E. unfold char_at in L, E.
    destruct (i <? 0) eqn:I; [discriminate | ]. destruct (i + Z.of_nat 1 <? 0) eqn:I'; [discriminate | ].
    apply Z.ltb_ge in I. replace (Z.to_nat (i + Z.of_nat 1)) with (S (Z.to_nat i)) in E by lia. cbn [nth_error] in E. destruct (Z.to_nat i); discriminate.
  - intros. exists (match_starts 0 []), (match_ends 2 []). split; reflexivity.
Qed.
Print Assumptions C39_negated_class_refuted.

(* ignore-case: a character outside ASCII after a repeated one never matches, not even itself. *)
Theorem C39_ignore_case_refuted : exists r t, good r /\ usable r /\ matches t true true r 0 1 /\
  forall beyond f, string_match beyond (20 + f) (show r) t 0 true = MNo false.
Proof.
  exists (Alt1 (Piece (chr 97) (Star Greedy) (Piece (chr 233) One Nil))), [233]. split; [fit | split; [fit | split]].
  - constructor. econstructor; [apply M_star0 | ]. econstructor; [constructor; apply (M_lit _ _ _ [233] 0); reflexivity | constructor].
  - reflexivity.
Qed.
Print Assumptions C39_ignore_case_refuted.

(* A repeated group takes nested calls: on 1100 times a, (a) repeated signals an error. *)
Theorem C39_depth_refuted : exists r t, Forall char t /\ good r /\ usable r /\
  forall beyond, exists j sp ep, string_match beyond (Z.to_nat 5000) (show r) t 0 false = MYes j sp ep true.
Proof.
  exists (Alt1 (Piece (Grp (Alt1 (Piece (chr 97) One Nil))) (Star Greedy) Nil)), (repeat 97 1100). split; [ | split; [fit | split; [fit | ]]].
  - apply Forall_forall. intros x I. apply repeat_spec in I. subst x. unfold char. lia.
  - intros. enough (E : match string_match beyond (Z.to_nat 5000) (show (Alt1 (Piece (Grp (Alt1 (Piece (chr 97) One Nil))) (Star Greedy) Nil))) (repeat 97 1100) 0 false with MYes _ _ _ e => e | _ => false end = true).
    { destruct (string_match _ _ _ _ _ _); try discriminate. subst. eauto. }
    vm_compute. reflexivity.
Qed.
Print Assumptions C39_depth_refuted.

(* \b matches at the end of " ", which is not between \w and \W characters. *)
Theorem C39_word_edge_refuted : exists t i, ~ doc_edge t i /\
  forall beyond f, string_match beyond (20 + f) (show (Alt1 (Piece (chr 32) One (Piece Edge One Nil)))) t 0 false =
    MYes i (match_starts 0 []) (match_ends i []) false.
Proof.
  exists [32], 1. split; [ | reflexivity]. intros (x & y & _ & E & _). discriminate.
Qed.
Print Assumptions C39_word_edge_refuted.

(* A zero byte ends the string: "b" is not found in "a", 0, "b". *)
Theorem C39_zero_byte_refuted : exists r t, good r /\ matches t false true r 2 3 /\
  forall beyond f, string_match beyond (20 + f) (show r) t 0 false = MNo false.
Proof.
  exists (Alt1 (Piece (chr 98) One Nil)), [97; 0; 98]. split; [fit | split].
  - constructor. econstructor; [ | constructor]. constructor. apply (M_lit _ _ _ [98] 2). reflexivity.
  - reflexivity.
Qed.
Print Assumptions C39_zero_byte_refuted.

(* START is not checked: what is found depends on the memory after the string. *)
Theorem C39_start_refuted : exists r t start b1 b2,
  forall f, exists sp ep, string_match b1 (20 + f) (show r) t start false = MYes 3 sp ep false /\ string_match b2 (20 + f) (show r) t start false = MNo false.
Proof.
  exists (Alt1 (Piece (chr 98) One Nil)), [97], 2, (fun _ => 98), (fun _ => 0). intros. exists (match_starts 2 []), (match_ends 3 []). split; reflexivity.
Qed.
Print Assumptions C39_start_refuted.

(* What is repeated must not be able to match the null string: a? in parentheses repeated signals an error. *)
Theorem C39_empty_repeat_refuted : exists r, show r = [40; 97; 63; 41; 42] /\ regcomp (show r) = Err.
Proof.
  exists (Alt1 (Piece (Grp (Alt1 (Piece (chr 97) (Opt Greedy) Nil))) (Star Greedy) Nil)). split; reflexivity.
Qed.
Print Assumptions C39_empty_repeat_refuted.
