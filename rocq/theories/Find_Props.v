(* C40: quote-regexp; C41: expand-last-match; C42: the regexp cache; C43: string-replace and
   string-split; C44: quote-url *)
From Coq Require Import ZArith List Bool Lia ZifyBool.
Import ListNotations.
From Verif Require Import Regexp_Model Regexp_Spec Regexp_Search Regexp_Groups Regexp_Props Find_Model Find_Spec Find_Quote Find_Expand Find_Replace Find_Url Find_Cache.
Open Scope Z_scope.

(** * C40 *)

(* string-match with (quote-regexp s) finds the first place, from START on, where s itself occurs,
   with or without regard to case, and nothing else; it returns nil if s does not occur.
   Partial: neither string contains a zero byte (C40_zero_byte_refuted), and s is short enough for
   the compiled regexp to be smaller than 32 K. *)
Theorem C40_quote_regexp_partial : forall beyond s t start nocase, Forall char s -> Forall char t ->
  Z.of_nat (length s) <= 6551 -> 0 <= start <= Z.of_nat (length t) ->
  exists f0, forall f, (f0 <= f)%nat ->
    (exists k, start <= k /\ occurs nocase s t k /\ (forall k', start <= k' < k -> ~ occurs nocase s t k') /\
       string_match beyond f (quote_regexp s) t start nocase =
         MYes (k + Z.of_nat (length s)) (match_starts k []) (match_ends (k + Z.of_nat (length s)) []) false) \/
    ((forall k, start <= k -> ~ occurs nocase s t k) /\ string_match beyond f (quote_regexp s) t start nocase = MNo false).
Proof.
  intros beyond s t start nocase Cs Ct L Hs.
  destruct (C39_string_match_partial beyond (Alt1 (quoted s)) t start nocase (fits_quoted s t nocase Cs Ct L) Hs) as (f0 & H).
  exists f0. intros f F. specialize (H f F). cbn zeta in H.
  assert (Sh : show (Alt1 (quoted s)) = quote_regexp s) by (rewrite quote_text; apply show_quoted). rewrite Sh in H.
  assert (W : forall k, 0 <= k <= Z.of_nat (length t) -> ways t nocase (start =? 0) (Alt1 (quoted s)) 1 k = [] <-> ~ occurs nocase s t k).
  { intros k Hk. change (ways t nocase (start =? 0) (Alt1 (quoted s)) 1 k) with (ways_branch t nocase (start =? 0) (quoted s) 1 k).
    rewrite ways_quoted, <- literal_occurs by exact Hk. unfold lit_way. destruct (literal t nocase s k); split; congruence. }
  destruct H as [(k & j & ev & rest & H1 & H2 & H3 & H4) | (H1 & H2)].
  - left. exists k. split; [lia | ].
    assert (E : (j, ev) = (k + Z.of_nat (length s), []) /\ literal t nocase s k = true).
    { change (ways t nocase (start =? 0) (Alt1 (quoted s)) 1 k) with (ways_branch t nocase (start =? 0) (quoted s) 1 k) in H3.
      rewrite ways_quoted in H3. unfold lit_way in H3. destruct (literal t nocase s k); [ | discriminate]. injection H3 as <- <- <-. auto. }
    destruct E as [E1 E2]. injection E1 as -> ->. apply literal_occurs in E2; [ | lia]. split; [exact E2 | ]. split; [ | exact H4].
    intros k' Hk. apply W; [lia | ]. apply H2. exact Hk.
  - right. split; [ | exact H2]. intros k Hk O. destruct (proj1 (W k ltac:(destruct O; lia)) (H1 k ltac:(destruct O; lia)) O).
Qed.
Print Assumptions C40_quote_regexp_partial.
(* a.c* in xabcA.C* *)
Example C40_example : forall beyond f, let s := [97; 46; 99; 42] in let t := [120; 97; 98; 99; 65; 46; 67; 42] in
  quote_regexp s = [97; 92; 46; 99; 92; 42] /\ Forall char s /\ Forall char t /\ occurs true s t 4 /\
  string_match beyond (30 + f) (quote_regexp s) t 0 true = MYes 8 (match_starts 4 []) (match_ends 8 []) false /\
  string_match beyond (30 + f) (quote_regexp s) t 0 false = MNo false.
Proof.
  intros. split; [reflexivity | ]. split; [repeat constructor; lia | ]. split; [repeat constructor; lia | ].
  split; [ | split; reflexivity]. unfold occurs. cbn. repeat split; lia.
Qed.

(* quote-regexp passes zero bytes on, which end the regexp: "a", 0, "b" is found in "ac". *)
Theorem C40_zero_byte_refuted : exists s t, (forall k, ~ occurs false s t k) /\
  forall beyond f, string_match beyond (20 + f) (quote_regexp s) t 0 false = MYes 1 (match_starts 0 []) (match_ends 1 []) false.
Proof.
  exists [97; 0; 98], [97; 99]. split; [ | reflexivity]. intros k (O1 & O2 & O3). cbn in O2. lia.
Qed.
Print Assumptions C40_zero_byte_refuted.

(** * C41 *)

(* What the match data of a successful match hold is in order and within the string. *)
Lemma data_within t nocase start r k j ev : Forall char t -> good r -> 0 <= start <= Z.of_nat (length t) ->
  start <= k <= Z.of_nat (length t) -> In (j, ev) (ways t nocase (start =? 0) r 1 k) ->
  forall n a b, nth n (match_starts k ev) None = Some a -> nth n (match_ends j ev) None = Some b ->
    0 <= a <= b /\ b <= Z.of_nat (length t).
Proof.
  intros C G Hs H1 I n a b Ea Eb.
  destruct (proj1 (proj2 (Regexp_Sat.ways_range t (fun _ => 0) nocase start C Hs)) r G 1%nat k j ev H1 I) as [B _].
  destruct (Nat.eq_dec n 0) as [-> | N0]; [cbn in Ea, Eb; injection Ea as <-; injection Eb as <-; lia | ].
  destruct (le_lt_dec n 9) as [N9 | N9].
  2: { rewrite nth_overflow in Ea by (cbn; lia). discriminate. }
  pose proof (proj1 (proj2 (ways_turns t nocase start C Hs (fun _ => 0))) r G 1%nat n k j ev H1 I) as T.
  apply turns_last in T. rewrite <- opened_only, <- closed_only in T.
  assert (N1 : nth n (match_starts k ev) None = last_opened n ev).
  { do 10 (destruct n as [ | n]; [lia || reflexivity | ]). lia. }
  assert (N2 : nth n (match_ends j ev) None = last_closed n ev).
  { do 10 (destruct n as [ | n]; [lia || reflexivity | ]). lia. }
  rewrite N1 in Ea. rewrite N2 in Eb. rewrite Ea, Eb in T. destruct T as [[T _] | (a' & b' & T1 & T2 & I1 & I2 & I3)]; [discriminate | ].
  injection T1 as ->. injection T2 as ->. lia.
Qed.
Lemma reported_recorded t sp ep n : (n <= 9)%nat -> reported (Some (mkmd t sp ep)) n = recorded sp ep n.
Proof.
  intros H. unfold reported, recorded, match_start, match_end, match_pos. unfold NSUBEXP.
  replace ((10 <=? Z.of_nat n) || (Z.of_nat n <? 0)) with false by lia. rewrite Nat2Z.id. reflexivity.
Qed.
Lemma token_reported t sp ep toks : Forall good_token toks ->
  flat_map (token_value t (recorded sp ep)) toks = flat_map (token_value t (reported (Some (mkmd t sp ep)))) toks.
Proof.
  induction 1 as [ | x l G F IH]; [reflexivity | ]. cbn [flat_map]. rewrite IH. f_equal.
  destruct x as [c | n | | ]; cbn [token_value good_token] in *; rewrite ?reported_recorded by lia; reflexivity.
Qed.

(* After a successful string-match, expand-last-match replaces \N in the template by the part of the
   string from (match-start N) to (match-end N), which is nothing if that pair of parentheses did not
   take part in the match, \\ by a backslash, and leaves other characters alone.
   Partial: for regexps and strings that [fits]. *)
Theorem C41_expand_partial : forall beyond junk r t start nocase toks, fits r t nocase -> 0 <= start <= Z.of_nat (length t) ->
  Forall good_token toks ->
  exists f0, forall f, (f0 <= f)%nat -> forall m m',
    matched (string_match beyond f (show r) t start nocase) t m = (Ok true, m') ->
    expand_last_match beyond junk m' (flat_map show_token toks) = Ok (flat_map (token_value t (reported m')) toks).
Proof.
  intros beyond junk r t start nocase toks Fi Hs G. destruct (C39_string_match_partial beyond r t start nocase Fi Hs) as (f0 & H).
  exists f0. intros f F m m' E. specialize (H f F). cbn zeta in H. destruct Fi as (C & Gr & _).
  destruct H as [(k & j & ev & rest & H1 & H2 & H3 & H4) | (H1 & H2)]; [rewrite H4 in E | rewrite H2 in E; discriminate].
  cbn [matched] in E. injection E as <-.
  rewrite <- token_reported by exact G. apply expand_tokens; auto. eapply data_within; eauto. rewrite H3. now left.
Qed.
Print Assumptions C41_expand_partial.
(* The example of the manual: test-\1-ing *)
Example C41_expand_example : forall beyond junk f,
  let toks := map Chr [116; 101; 115; 116; 45] ++ [Group 1] ++ map Chr [45; 105; 110; 103] in
  Forall good_token toks /\
  let m := Some (mkmd xxxbary (match_starts 0 [Opened 1 3; Closed 1 6]) (match_ends 7 [Opened 1 3; Closed 1 6])) in
  matched (string_match beyond (30 + f) (show r1) xxxbary 0 true) xxxbary None = (Ok true, m) /\
  expand_last_match beyond junk m (flat_map show_token toks) = Ok [116; 101; 115; 116; 45; 98; 97; 114; 45; 105; 110; 103].
Proof.
  intros. split; [repeat constructor; lia | ]. split; [ | vm_compute; reflexivity].
  rewrite (C39_match_example beyond f). reflexivity.
Qed.

(* Whatever the template, it only reads the string and writes as much as was allocated; the error
   of a damaged string is not signalled. *)
Theorem C41_expand_safe_partial : forall beyond junk r t start nocase, fits r t nocase -> 0 <= start <= Z.of_nat (length t) ->
  exists f0, forall f, (f0 <= f)%nat -> forall m m' template,
    matched (string_match beyond f (show r) t start nocase) t m = (Ok true, m') ->
    exists s, expand_last_match beyond junk m' template = Ok s.
Proof.
  intros beyond junk r t start nocase Fi Hs. destruct (C39_string_match_partial beyond r t start nocase Fi Hs) as (f0 & H).
  exists f0. intros f F m m' template E. specialize (H f F). cbn zeta in H. destruct Fi as (C & Gr & _).
  destruct H as [(k & j & ev & rest & H1 & H2 & H3 & H4) | (H1 & H2)]; [rewrite H4 in E | rewrite H2 in E; discriminate].
  cbn [matched] in E. injection E as <-.
  assert (W : forall n a b, nth n (match_starts k ev) None = Some a -> nth n (match_ends j ev) None = Some b -> 0 <= a <= b /\ b <= Z.of_nat (length t))
    by (eapply data_within; eauto; rewrite H3; now left).
  destruct (expand_ok beyond junk t (match_starts k ev) (match_ends j ev) template) as (dst & d & D1 & D2).
  { intros n a b X Y. destruct (W n a b X Y). lia. }
  rewrite D2. enough (d = false) as -> by eauto.
  assert (K : forall g src out dst' d', regsub g (memory t beyond) (match_starts k ev) (match_ends j ev) src out = Ok (dst', d') -> d' = false).
  { induction g as [ | g IH]; intros src out dst' d' R; [discriminate | ]. cbn [regsub] in R. destruct src as [ | c src]; [now injection R as <- <- | ].
    destruct (c =? 0); [now injection R as <- <- | ]. destruct (next_item c src) as [[x | no] src']; [eapply IH; exact R | ].
    destruct (nth no (match_starts k ev) None) as [a | ] eqn:X; [destruct (nth no (match_ends j ev) None) as [b | ] eqn:Y | ]; try (eapply IH; exact R).
    destruct (W no a b X Y) as [W1 W2]. destruct (strncpy_slice t beyond C (Z.to_nat (b - a)) a ltac:(lia) ltac:(lia)) as [_ S2].
    rewrite S2, andb_false_r in R. eapply IH; exact R. }
  eapply K; exact D1.
Qed.
Print Assumptions C41_expand_safe_partial.

(* The manual says \& stands for the whole match: it gives an ampersand, and & alone the match. *)
Theorem C41_ampersand_refuted : exists t sp ep,
  recorded sp ep 0 = Some (0, 3) /\ slice t 0 3 = [97; 98; 99] /\
  forall beyond junk, expand_last_match beyond junk (Some (mkmd t sp ep)) [92; 38] = Ok [38] /\
    expand_last_match beyond junk (Some (mkmd t sp ep)) [38] = Ok [97; 98; 99].
Proof. exists [97; 98; 99], (match_starts 0 []), (match_ends 3 []). repeat split; reflexivity. Qed.
Print Assumptions C41_ampersand_refuted.
(* Called before anything was matched, expand-last-match dereferences a null pointer, whatever the template. *)
Example C41_no_match_finding : forall beyond junk template, expand_last_match beyond junk None template = Wild.
Proof. reflexivity. Qed.

(** * C42 *)

(* The compiled regexps that a program gets are those that compiling the present contents of its
   strings gives, whatever is changed, collected or kept in the cache.
   Partial: no string is changed by writing to a stream on it (C42_write_refuted), the cache limit is
   not 0 modulo 2^32 (C42_limit_refuted), and the program did not crash (C42_change_refuted). *)
Theorem C42_cache_partial : forall ops l, Forall careful ops -> sensible (fun _ => None) ops -> run cinit ops = Ok l ->
  l = fresh (fun _ => None) ops.
Proof. intros ops l C S R. eapply run_fresh; eauto. apply kept_init. Qed.
Print Assumptions C42_cache_partial.
(* Two strings with the same contents, one of them changed; a small limit and a collection *)
Example C42_example : exists pa pb, regcomp [97] = Ok pa /\ regcomp [98] = Ok pb /\ pa <> pb /\
  let ops := [New 0 [97]; New 1 [97]; New 2 [98]; Use 2; Use 0; Use 1; Change 0 [98]; Use 0; Use 1; Limit 1; Gc (fun a => Nat.eqb a 1); Use 1] in
  Forall careful ops /\ sensible (fun _ => None) ops /\ run cinit ops = Ok [Ok pb; Ok pa; Ok pa; Ok pb; Ok pa; Ok pa].
Proof.
  destruct (regcomp [97]) as [pa | | | ] eqn:Ea; try (vm_compute in Ea; discriminate).
  destruct (regcomp [98]) as [pb | | | ] eqn:Eb; try (vm_compute in Eb; discriminate).
  vm_compute in Ea. vm_compute in Eb. injection Ea as <-. injection Eb as <-. eexists. eexists. split; [reflexivity | ]. split; [reflexivity | ]. split; [discriminate | ].
  split; [ | split; [cbn; repeat split; discriminate | vm_compute; reflexivity]]. repeat constructor. intros _. vm_compute. discriminate.
Qed.

(* Programs that do not change strings do not crash, whatever is collected. *)
Theorem C42_no_crash_partial : forall ops, Forall careful ops -> (forall a s, ~ In (Change a s) ops) -> run cinit ops <> Wild.
Proof. intros ops C N. eapply run_safe; eauto. apply kept_init. Qed.
Print Assumptions C42_no_crash_partial.

(* (setq a "a") (string-match a ...) (aset a 0 #\b): removing the last entry of the cache follows a
   null pointer. *)
Theorem C42_change_refuted : exists ops, Forall careful ops /\ sensible (fun _ => None) ops /\ run cinit ops = Wild.
Proof.
  exists [New 0 [97]; Use 0; Change 0 [98]]. split; [repeat constructor | ]. split; [cbn; repeat split; discriminate | reflexivity].
Qed.
Print Assumptions C42_change_refuted.
(* A string overwritten through a stream is still matched as the regexp it was. *)
Theorem C42_write_refuted : exists ops l, sensible (fun _ => None) ops /\ run cinit ops = Ok l /\ l <> fresh (fun _ => None) ops.
Proof.
  exists [New 0 [97]; Use 0; Write 0 [98]; Use 0], [regcomp [97]; regcomp [97]].
  split; [cbn; repeat split; discriminate | ]. split; [vm_compute; reflexivity | ]. vm_compute. discriminate.
Qed.
Print Assumptions C42_write_refuted.
(* With a cache limit of 0, or 2^32, the cache keeps entries of strings that are collected: another
   string is compared with what is no longer there, or at the same address found to be cached. *)
Theorem C42_limit_refuted : forall n, 0 <= n -> n mod 2 ^ 32 = 0 ->
  (exists ops, sensible (fun _ => None) (Limit n :: ops) /\ run cinit (Limit n :: ops) = Wild) /\
  (exists ops l, sensible (fun _ => None) (Limit n :: ops) /\ run cinit (Limit n :: ops) = Ok l /\ l <> fresh (fun _ => None) (Limit n :: ops)).
Proof.
  intros n N M. assert (E : as_limit n = 0) by (unfold as_limit; rewrite M; reflexivity). split.
  - exists [New 0 [97]; Use 0; Gc (fun _ => false); New 1 [98]; Use 1]. split; [cbn; repeat split; discriminate | ].
    cbn [run step bind]. replace (0 <=? n) with true by lia. rewrite E. vm_compute. reflexivity.
  - exists [New 0 [97]; Use 0; Gc (fun _ => false); New 0 [98]; Use 0], [regcomp [97]; regcomp [97]]. split; [cbn; repeat split; discriminate | ].
    split; [ | vm_compute; discriminate]. cbn [run step bind]. replace (0 <=? n) with true by lia. rewrite E. vm_compute. reflexivity.
Qed.
Print Assumptions C42_limit_refuted.
Example C42_limits : (0 <= 0 /\ 0 mod 2 ^ 32 = 0) /\ (0 <= 2 ^ 32 /\ 2 ^ 32 mod 2 ^ 32 = 0).
Proof. vm_compute. repeat split; discriminate. Qed.

(** * C43 *)

(* string-replace replaces the leftmost match, and then what follows it likewise, by the expansion
   of the template with the parentheses of each match; it ends.
   Partial: for regexps that [fits] and cannot match the null string (C43_empty_match_refuted). *)
Theorem C43_replace_partial : forall beyond junk r t toks, fits r t false -> width r = true -> Forall good_token toks ->
  exists f0, forall f n m, (f0 <= f)%nat -> (length t < n)%nat ->
    exists o, string_replace beyond f (show r) t (string_template beyond junk (flat_map show_token toks)) n m = Ok o /\
      replaced t r (fun k w => flat_map (token_value t (recorded (match_starts k (snd w)) (match_ends (fst w) (snd w)))) toks) 0 o.
Proof.
  intros beyond junk r t toks Fi W G. destruct (searches beyond r t Fi) as (f0 & Se). exists f0. intros f n m F N.
  destruct (replace_ok beyond r t f (fun p H => Se p f H F) W (string_template beyond junk (flat_map show_token toks))
    (fun k w => flat_map (token_value t (recorded (match_starts k (snd w)) (match_ends (fst w) (snd w)))) toks)) with (n := n) (point := 0) (out := @nil (list Z)) (m := m) as (o & E & R); auto; try lia.
  - intros point k j ev (K1 & K2 & K3) P. unfold string_template. f_equal. cbn [fst snd]. destruct Fi as (C & Gr & _). apply expand_tokens; auto.
    assert (I : In (j, ev) (ways t false (point =? 0) r 1 k)) by (destruct (ways t false (point =? 0) r 1 k); [discriminate | injection K3 as ->; now left]).
    refine (data_within t false point r k j ev C Gr _ _ I); lia.
  - cbn iota in E. exists o. split; [exact E | exact R].
Qed.
Print Assumptions C43_replace_partial.

(* With a function for a template, its value is put in place of each match.
   Partial: functions that leave the match data alone (C43_function_refuted). *)
Theorem C43_replace_function_partial : forall beyond r t g, fits r t false -> width r = true ->
  exists f0, forall f n m, (f0 <= f)%nat -> (length t < n)%nat ->
    exists o, string_replace beyond f (show r) t (fun s m => (Ok (g m), m)) n m = Ok o /\
      replaced t r (fun k w => g (Some (mkmd t (match_starts k (snd w)) (match_ends (fst w) (snd w))))) 0 o.
Proof.
  intros beyond r t g Fi W. destruct (searches beyond r t Fi) as (f0 & Se). exists f0. intros f n m F N.
  destruct (replace_ok beyond r t f (fun p H => Se p f H F) W (fun s m => (Ok (g m), m))
    (fun k w => g (Some (mkmd t (match_starts k (snd w)) (match_ends (fst w) (snd w)))))) with (n := n) (point := 0) (out := @nil (list Z)) (m := m) as (o & E & R); auto; try lia.
  cbn iota in E. exists o. split; [exact E | exact R].
Qed.
Print Assumptions C43_replace_function_partial.
(* There is one such result. *)
Theorem C43_replaced_unique : forall t r v point o o', replaced t r v point o -> replaced t r v point o' -> o = o'.
Proof. intros. eapply replaced_fun; eauto. Qed.
Print Assumptions C43_replaced_unique.
(* The second example of the manual *)
Example C43_replace_example : forall beyond junk f,
  let r := Alt1 (Piece (Lit [38]) One (Piece (Grp (Alt (Piece (Lit [111; 112; 116]) One Nil) (Alt1 (Piece (Lit [114; 115; 116]) One Nil)))) One Nil)) in
  let t := [40; 97; 32; 38; 111; 112; 116; 32; 98; 32; 38; 114; 115; 116; 41] in
  fits r t false /\ width r = true /\
  string_replace beyond (30 + f) (show r) t (string_template beyond junk (flat_map show_token [Chr 35; Chr 33; Group 1])) 20 None =
    Ok [40; 97; 32; 35; 33; 111; 112; 116; 32; 98; 32; 35; 33; 114; 115; 116; 41].
Proof. intros. split; [fit | split; reflexivity]. Qed.

(* string-split returns the parts between the matches. *)
Theorem C43_split_partial : forall beyond r t, fits r t false -> width r = true ->
  exists f0, forall f n m, (f0 <= f)%nat -> (length t < n)%nat ->
    exists parts, string_split beyond f (show r) t n m = Ok parts /\ parted t r 0 parts.
Proof.
  intros beyond r t Fi W. destruct (searches beyond r t Fi) as (f0 & Se). exists f0. intros f n m F N.
  destruct (split_ok beyond r t f (fun p H => Se p f H F) W n 0 [] m ltac:(lia) ltac:(lia)) as (o & E & P). exists o. split; [exact E | exact P].
Qed.
Print Assumptions C43_split_partial.

(* Split at a literal separator: joined with it the parts give the string, and no part contains it. *)
Theorem C43_split_join_partial : forall beyond s t, s <> [] -> Forall char s -> Forall char t -> Z.of_nat (length s) <= 6551 ->
  exists f0, forall f n m, (f0 <= f)%nat -> (length t < n)%nat ->
    exists parts, string_split beyond f (quote_regexp s) t n m = Ok parts /\ join s parts = t /\ parts <> [] /\
      forall p k, In p parts -> ~ occurs false s p k.
Proof.
  intros beyond s t Ns Cs Ct L. assert (Sh : show (Alt1 (quoted s)) = quote_regexp s) by (rewrite quote_text; apply show_quoted).
  destruct (C43_split_partial beyond (Alt1 (quoted s)) t (fits_quoted s t false Cs Ct L) (quoted_width s Ns)) as (f0 & H).
  exists f0. intros f n m F N. destruct (H f n m F N) as (parts & E & P). exists parts. rewrite <- Sh. split; [exact E | ].
  destruct (parted_join t s Ns 0 parts ltac:(lia) P) as (J & K). split; [ | exact K]. rewrite J. unfold slice.
  cbn [Z.to_nat skipn]. rewrite Z.sub_0_r, Nat2Z.id. apply firstn_all.
Qed.
Print Assumptions C43_split_join_partial.
Example C43_split_example : forall beyond f, string_split beyond (20 + f) (quote_regexp [46]) [97; 46; 98; 46; 46; 99; 46] 10 None = Ok [[97]; [98]; []; [99]; []].
Proof. reflexivity. Qed.

(* A regexp that matches the null string: (string-replace "a*" "x" "b") and (string-split "a*" "b")
   do not end, however long they run. *)
Theorem C43_empty_match_refuted : exists r t, fits r t false /\
  forall beyond f n m,
    (forall template v, (forall s m, template s m = (Ok v, m)) -> string_replace beyond (20 + f) (show r) t template n m = Fuel) /\
    string_split beyond (20 + f) (show r) t n m = Fuel.
Proof.
  exists (Alt1 (Piece (chr 97) (Star Greedy) Nil)), [98]. split; [fit | ]. intros beyond f.
  assert (E : string_match beyond (20 + f) (show (Alt1 (Piece (chr 97) (Star Greedy) Nil))) [98] 0 false = MYes 0 (match_starts 0 []) (match_ends 0 []) false) by reflexivity.
  assert (A : forall n out m template v, (forall s m, template s m = (Ok v, m)) ->
    replace_loop beyond (20 + f) (show (Alt1 (Piece (chr 97) (Star Greedy) Nil))) [98] template n 0 out m = Fuel).
  { induction n as [ | n IH]; intros out m template v T; [reflexivity | ]. cbn [replace_loop]. rewrite E. cbn [matched bind the_pos match_end match_pos]. cbn -[replace_loop show plus]. rewrite T. cbn -[replace_loop show plus]. eapply IH; eauto. }
  assert (B : forall n out m, split_loop beyond (20 + f) (show (Alt1 (Piece (chr 97) (Star Greedy) Nil))) [98] n 0 out m = Fuel).
  { induction n as [ | n IH]; intros out m; [reflexivity | ]. cbn [split_loop]. rewrite E. cbn -[split_loop show plus]. apply IH. }
  intros n m. split; [intros template v T; eapply A; eauto | apply B].
Qed.
Print Assumptions C43_empty_match_refuted.

(* A template function that itself matches changes what (match-start) gives afterwards: replacing "a"
   in "xay" by "-" with a function that calls string-match on another string. *)
Theorem C43_function_refuted : exists r t template,
  (forall m, fst (template t m) = Ok [45]) /\ fits r t false /\
  (forall v, (forall k w, v k w = [45]) -> forall o, replaced t r v 0 o -> o = [120; 45; 121]) /\
  forall beyond f m, string_replace beyond (20 + f) (show r) t template 9 m = Ok [45; 121].
Proof.
  set (r := Alt1 (Piece (chr 97) One Nil)). set (t := [120; 97; 121]).
  exists r, t, (fun s m => (Ok [45], Some (mkmd [122] (match_starts 0 []) (match_ends 1 [])))).
  assert (Fi : fits r t false) by fit. split; [reflexivity | split; [exact Fi | split; [ | reflexivity]]].
  intros v V o R.
  destruct (C43_replace_function_partial (fun _ => 0) r t (fun _ => [45]) Fi eq_refl) as (f0 & H).
  destruct (H (20 + f0)%nat 9%nat None ltac:(lia) ltac:(cbn; lia)) as (o' & E & R').
  assert (E' : string_replace (fun _ => 0) (20 + f0) (show r) t (fun _ m => (Ok [45], m)) 9 None = Ok [120; 45; 121]) by reflexivity.
  rewrite E' in E. injection E as <-. eapply replaced_fun; [exact R | ].
  assert (X : forall point out, replaced t r (fun _ _ => [45]) point out -> replaced t r v point out).
  { clear - V. induction 1 as [point H | point k w out H P IH]; [now constructor | ]. rewrite <- (V k w). now constructor. }
  apply X. exact R'.
Qed.
Print Assumptions C43_function_refuted.

(** * C44 *)

(* quote-url keeps letters, digits and $_.!~*'(),- and writes every other character as % with two
   upper-case hexadecimal digits.
   Partial: no zero bytes (C44_zero_byte_refuted). *)
Theorem C44_quote_url_partial : forall beyond s, Forall char s ->
  exists f0, forall f n m, (f0 <= f)%nat -> (length s < n)%nat -> quote_url beyond f n m s = Ok (flat_map url_char s).
Proof. intros. now apply quote_ok. Qed.
Print Assumptions C44_quote_url_partial.

(* unquote-url gives the string back. *)
Theorem C44_round_trip_partial : forall beyond junk s, Forall char s ->
  exists f0, forall f n m, (f0 <= f)%nat -> (3 * length s < n)%nat ->
    exists u, quote_url beyond f n m s = Ok u /\ forall n' m', (length u < n')%nat -> unquote_url beyond junk f n' m' u = Ok s.
Proof.
  intros beyond junk s C. destruct (quote_ok beyond s C) as (f1 & H1). destruct (unquote_ok beyond junk s C) as (f2 & H2).
  exists (Nat.max f1 f2). intros f n m F N. exists (flat_map url_char s). split; [apply H1; lia | ]. intros n' m' N'. apply H2; [lia | exact N'].
Qed.
Print Assumptions C44_round_trip_partial.
(* Different strings have different URLs, of characters that need no quoting. *)
Theorem C44_distinct_partial : forall s s', Forall char s -> Forall char s' -> flat_map url_char s = flat_map url_char s' -> s = s'.
Proof.
  intros s s' C C' E. destruct (unquote_ok (fun _ => 0) (fun _ => 0) s C) as (f1 & H1). destruct (unquote_ok (fun _ => 0) (fun _ => 0) s' C') as (f2 & H2).
  specialize (H1 (Nat.max f1 f2) (S (length (flat_map url_char s))) None ltac:(lia) ltac:(lia)).
  specialize (H2 (Nat.max f1 f2) (S (length (flat_map url_char s))) None ltac:(lia) ltac:(rewrite E; lia)). rewrite E in H1. rewrite E in H2. congruence.
Qed.
Print Assumptions C44_distinct_partial.
Example C44_example : forall beyond junk f, quote_url beyond (20 + f) 10 None [97; 32; 47; 195; 169] = Ok [97; 37; 50; 48; 37; 50; 70; 37; 67; 51; 37; 65; 57] /\
  unquote_url beyond junk (20 + f) 20 None [97; 37; 50; 48; 37; 50; 70; 37; 67; 51; 37; 65; 57] = Ok [97; 32; 47; 195; 169].
Proof. split; reflexivity. Qed.

(* What follows a zero byte is not quoted. *)
Theorem C44_zero_byte_refuted : exists s, forall beyond f m, quote_url beyond (20 + f) 10 m s = Ok s /\ In 32 s.
Proof. exists [97; 0; 32]. intros. split; [reflexivity | cbn; auto]. Qed.
Print Assumptions C44_zero_byte_refuted.
