(* expand-file-name with a base directory and with tildes; parts of names; canonical names *)
From Coq Require Import List Bool Arith Ascii Lia.
Import ListNotations.
From Verif Require Import Files_Model Files_Spec Files_Proofs.

Lemma cstr_cstr f : cstr (cstr f) = cstr f.
Proof. apply cstr_plain, plain_cstr. Qed.

Lemma expand_cstr pm f : rep_expand_file_name pm f = rep_expand_file_name pm (cstr f).
Proof. unfold rep_expand_file_name, expand_buffer. rewrite cstr_cstr. reflexivity. Qed.

Lemma expand_some pm f : plain f -> Nat.max 1 (length f) <= pm -> rep_expand_file_name pm f = Some (result f).
Proof.
  intros P L. destruct (expand_result f P) as [E H]. unfold rep_expand_file_name. rewrite E.
  replace (high (expand_buffer f) <=? pm) with true by (symmetry; apply Nat.leb_le; lia). reflexivity.
Qed.

Lemma expand_is pm f r : plain f -> rep_expand_file_name pm f = Some r -> r = result f.
Proof. intros P. unfold rep_expand_file_name. destruct (high (expand_buffer f) <=? pm); [ | discriminate]. intros [= <-]. apply expand_result, P. Qed.

Lemma expand_room pm f r : rep_expand_file_name pm f = Some r -> 1 <= pm /\ length r <= pm.
Proof.
  rewrite expand_cstr. pose proof (plain_cstr f) as P. intro H. pose proof (expand_is pm _ r P H) as E. unfold rep_expand_file_name in H.
  destruct (high (expand_buffer (cstr f)) <=? pm) eqn:L; [ | discriminate]. injection H as H. apply Nat.leb_le in L.
  assert (G : length (out (expand_buffer (cstr f))) <= high (expand_buffer (cstr f))).
  { clear. unfold expand_buffer. generalize (cstr (cstr f)). intro g.
    assert (Step : forall i b, length (out b) <= high b -> length (out (snd (expand_step i b))) <= high (snd (expand_step i b))).
    { intros i b L. unfold expand_step. destruct (is (at_ i 0) dot && is (at_ i 1) slash); [exact L | ].
      destruct (is (at_ i 0) dot && is (at_ i 1) null); [cbn [snd]; destruct (length (out b) =? 0); [rewrite len_put, high_put; lia | exact L] | ].
      destruct (is (at_ i 0) dot && is (at_ i 1) dot && (is (at_ i 2) slash || is (at_ i 2) null)).
      - cbn [snd]. unfold parent. destruct (_ && _ && _).
        + cbn [out high]. assert (X : forall s, length (from_slash s) <= length s) by (intro s; pose proof (f_equal (@length _) (until_from s)) as Y; rewrite app_length in Y; lia).
          pose proof (X (skip_slashes (out b))). pose proof (skip_length (out b)). lia.
        + destruct (_ && _ && _ && _ && _ && _); [cbn [out high]; rewrite skipn_length; lia | ]. destruct (is (at_ i 2) slash); rewrite ?high_put, ?len_put, ?high_put, ?len_put; lia.
      - destruct (is (at_ (from_slash i) 0) slash); cbn [snd]; rewrite ?high_put, ?len_put, ?high_puts, ?len_puts; lia. }
    assert (Loop : forall n i b, length (out b) <= high b -> length (out (expand_loop n i b)) <= high (expand_loop n i b)).
    { induction n as [ | n IH]; intros i b L; destruct i as [ | c t]; try exact L. cbn [expand_loop]. specialize (Step (c :: t) b L). destruct (expand_step (c :: t) b). apply IH, Step. }
    specialize (Loop (length g) g (Buffer [] 0) (le_n 0)). destruct (length (out (expand_loop (length g) g (Buffer [] 0))) =? 0); [rewrite len_put, high_put; lia | exact Loop]. }
  pose proof (result_nonempty (cstr f)) as N. rewrite <- E in N. rewrite <- H in *. rewrite rev_length in *.
  destruct (out (expand_buffer (cstr f))) as [ | x o]; [destruct N; reflexivity | ]. cbn [length] in *. lia.
Qed.

Lemma expand_fixed pm s : simple s -> length s <= pm -> 1 <= pm -> rep_expand_file_name pm s = Some s.
Proof. intros S L L1. rewrite expand_some; [rewrite simple_fixed by exact S; reflexivity | apply simple_plain, S | lia]. Qed.

Lemma expand_again pm f r : rep_expand_file_name pm f = Some r -> rep_expand_file_name pm r = Some r.
Proof.
  intro H. destruct (expand_room pm f r H) as [L1 L2]. rewrite expand_cstr in H. pose proof (plain_cstr f) as P.
  rewrite (expand_is pm _ r P H) in *. apply expand_fixed; [apply result_simple, P | exact L2 | exact L1].
Qed.

(** * Names that always denote the same file *)

Lemma full_is_tree : tree full_tree.
Proof. split; [reflexivity | ]. split; [reflexivity | ]. intros n c m [= <-] _. reflexivity. Qed.

Lemma walk_ups u n cs : walk full_tree n (repeat dotdot u ++ cs) = walk full_tree (skipn u n) cs.
Proof.
  revert n. induction u as [ | u IH]; intro n; [reflexivity | ]. cbn [repeat app walk]. change (step full_tree n dotdot) with (Some (@tl str n)).
  cbn iota. rewrite IH. destruct n as [ | x n]; [cbn; rewrite skipn_nil; reflexivity | reflexivity].
Qed.

Lemma walk_names ns n cs : Forall ordinary ns -> walk full_tree n (ns ++ cs) = walk full_tree (rev ns ++ n) cs.
Proof.
  intro O. revert n. induction O as [ | c ns (O1 & O2 & O3 & _) _ IH]; intro n; [reflexivity | ]. cbn [app walk]. rewrite step_ordinary by assumption.
  cbn [full_tree isdir entry]. rewrite IH. cbn [rev]. rewrite <- app_assoc. reflexivity.
Qed.

Lemma parts_no_slash u ns : Forall ordinary ns -> Forall (fun c => ~ In slash c) (repeat dotdot u ++ ns).
Proof.
  intro O. apply Forall_app. split; [clear; induction u; constructor; auto; cbn; intuition discriminate | ]. eapply Forall_impl; [ | exact O]. intros c (_ & _ & _ & H & _). exact H.
Qed.

Lemma full_resolve abs u ns fl s cwd : name_of abs u ns fl s -> s <> [] ->
  resolve full_tree cwd s = Some (rev ns ++ (if abs then [] else skipn u cwd)).
Proof.
  intros H N. assert (H' := H). destruct H as (O & A & H). change [dot; dot] with dotdot in H. pose proof (parts_no_slash u ns O) as Sl.
  assert (W : forall n, walk full_tree n (split (slashed (repeat dotdot u ++ ns))) = Some (rev ns ++ skipn u n)).
  { intro n. rewrite <- (app_nil_r (slashed _)), split_slashed by exact Sl. rewrite <- app_assoc, walk_ups, walk_names by exact O. reflexivity. }
  assert (W2 : forall n t, t ++ [slash] = slashed (repeat dotdot u ++ ns) -> repeat dotdot u ++ ns <> [] -> walk full_tree n (split t) = Some (rev ns ++ skipn u n)).
  { intros n t Ht Hn. specialize (W n). rewrite <- Ht in W. rewrite split_app_slash in W. change (split []) with [@nil ascii] in W. rewrite walk_app in W.
    destruct (walk full_tree n (split t)) as [m | ]; [ | discriminate]. cbn in W. exact W. }
  destruct abs.
  - rewrite (A eq_refl) in *. destruct s as [ | c t]; [congruence | ]. cbn [resolve]. destruct fl.
    + injection H as -> ->. rewrite is_refl. apply W.
    + destruct H as [H Hn]. injection H as -> H. rewrite is_refl. apply W2; assumption.
  - pose proof (name_start u ns fl s H') as NA. destruct s as [ | c t]; [congruence | ]. cbn [resolve].
    assert (E : is c slash = false) by (apply is_not; intros ->; apply NA; eexists; reflexivity). rewrite E. destruct fl; [rewrite H; apply W | destruct H; apply W2; assumption].
Qed.

Lemma fresh_name (l : list str) : exists x, ~ In x l.
Proof.
  exists (repeat dot (S (list_sum (map (@length _) l)))). intro H.
  assert (G : forall x, In x l -> length x <= list_sum (map (@length _) l)).
  { clear. induction l as [ | y l IH]; intros x H; [destruct H | ]. change (list_sum (map (@length _) (y :: l))) with (length y + list_sum (map (@length _) l)).
    destruct H as [-> | H]; [lia | ]. specialize (IH x H). lia. }
  apply G in H. rewrite repeat_length in H. lia.
Qed.

Lemma same_tail (x : str) : forall a b j k, ~ In x a -> ~ In x b -> a ++ repeat x j = b ++ repeat x k -> a = b /\ j = k.
Proof.
  assert (R : forall b j k, ~ In x b -> repeat x j = b ++ repeat x k -> b = [] /\ j = k).
  { intros [ | y b] j k H E.
    - split; [reflexivity | ]. apply (f_equal (@length _)) in E. cbn in E. rewrite !repeat_length in E. exact E.
    - destruct j; [discriminate | ]. injection E as <- _. destruct H. left. reflexivity. }
  induction a as [ | y a IH]; intros b j k Ha Hb E.
  - destruct (R b j k Hb E). auto.
  - destruct b as [ | z b].
    + cbn [app] in E. symmetry in E. destruct (R (y :: a) k j Ha E). discriminate.
    + injection E as -> E. cbn in Ha, Hb. destruct (IH b j k ltac:(tauto) ltac:(tauto) E) as [-> ->]. auto.
Qed.

(* the parameters of a simple name *)
Definition names_dir (s : str) abs u (ns : list str) : Prop :=
  (s = [dot] /\ abs = false /\ u = 0 /\ ns = []) \/ exists fl, name_of abs u ns fl s /\ s <> [].

Lemma simple_dir s : simple s -> exists abs u ns, names_dir s abs u ns.
Proof. intros [-> | (abs & u & ns & fl & H & N)]; [exists false, 0, []; left; auto | exists abs, u, ns; right; eauto]. Qed.

Lemma names_resolve s abs u ns cwd : names_dir s abs u ns -> resolve full_tree cwd s = Some (rev ns ++ (if abs then [] else skipn u cwd)).
Proof. intros [(-> & -> & -> & ->) | (fl & H & N)]; [reflexivity | eapply full_resolve; eauto]. Qed.

Lemma names_unique s1 s2 abs u ns : names_dir s1 abs u ns -> names_dir s2 abs u ns -> s1 = s2 \/ s1 = s2 ++ [slash] \/ s2 = s1 ++ [slash].
Proof.
  assert (D : forall s, names_dir [dot] abs u ns -> abs = false -> u = 0 -> ns = [] -> (exists fl, name_of abs u ns fl s /\ s <> []) -> False).
  { intros s _ -> -> -> (fl & (_ & _ & H) & N). cbn in H. destruct fl; [auto | destruct H as [_ H]; auto]. }
  intros [(-> & A & U & E) | (fl1 & H1 & N1)] [(-> & A' & U' & E') | (fl2 & H2 & N2)]; [auto | | | ].
  - exfalso. apply (D s2); auto; [left; auto | exists fl2; auto].
  - exfalso. apply (D s1); auto; [left; auto | exists fl1; auto].
  - destruct H1 as (_ & _ & H1), H2 as (_ & _ & H2). destruct fl1, fl2.
    + left. congruence.
    + destruct H2 as [H2 _]. right. left. congruence.
    + destruct H1 as [H1 _]. right. right. congruence.
    + destruct H1 as [H1 _], H2 as [H2 _]. left. rewrite <- H2 in H1. apply app_inj_tail in H1. tauto.
Qed.

Theorem simple_complete s1 s2 : simple s1 -> simple s2 ->
  (forall cwd, resolve full_tree cwd s1 = resolve full_tree cwd s2) -> s1 = s2 \/ s1 = s2 ++ [slash] \/ s2 = s1 ++ [slash].
Proof.
  intros S1 S2 H. destruct (simple_dir s1 S1) as (a1 & u1 & n1 & D1), (simple_dir s2 S2) as (a2 & u2 & n2 & D2).
  destruct (fresh_name (n1 ++ n2)) as (x & Hx). rewrite in_app_iff in Hx.
  specialize (H (repeat x (u1 + u2 + 1))). rewrite (names_resolve s1 a1 u1 n1) in H by exact D1. rewrite (names_resolve s2 a2 u2 n2) in H by exact D2.
  assert (Sk : forall k n, k <= n -> skipn k (repeat x n) = repeat x (n - k)).
  { clear. induction k as [ | k IH]; intros n L; [cbn; rewrite Nat.sub_0_r; reflexivity | ]. destruct n as [ | n]; [lia | ]. cbn. apply IH. lia. }
  rewrite !Sk in H by lia. injection H as H.
  assert (G : n1 = n2 /\ (if a1 then 0 else u1 + u2 + 1 - u1) = (if a2 then 0 else u1 + u2 + 1 - u2)).
  { destruct (same_tail x (rev n1) (rev n2) (if a1 then 0 else u1 + u2 + 1 - u1) (if a2 then 0 else u1 + u2 + 1 - u2)) as [G1 G2].
    - rewrite <- in_rev. tauto.
    - rewrite <- in_rev. tauto.
    - destruct a1, a2; exact H.
    - split; [rewrite <- (rev_involutive n1), G1, rev_involutive; reflexivity | exact G2]. }
  destruct G as [<- G]. assert (E : a1 = a2) by (destruct a1, a2; auto; lia). subst a2.
  destruct a1; [ | assert (u1 = u2) by lia; subst u2; eapply names_unique; eauto].
  assert (Z : forall s u, names_dir s true u n1 -> names_dir s true 0 n1).
  { intros s u [(_ & X & _) | (fl & (O & A & X) & N)]; [discriminate | ]. rewrite (A eq_refl) in X. right. exists fl. repeat split; auto. }
  eapply names_unique; [eapply Z, D1 | eapply Z, D2].
Qed.

Lemma full_resolves cwd f : f <> [] -> exists n, resolve full_tree cwd f = Some n.
Proof.
  assert (W : forall cs n, exists m, walk full_tree n cs = Some m).
  { induction cs as [ | c cs IH]; intro n; [eexists; reflexivity | ]. cbn [walk].
    assert (G : exists m, step full_tree n c = Some m).
    { unfold step. cbn [full_tree isdir up entry]. destruct (str_eqb c [] || str_eqb c [dot]); [eauto | ]. destruct (str_eqb c [dot; dot]); eauto. }
    destruct G as (m & ->). apply IH. }
  destruct f as [ | c t]; [congruence | ]. intros _. cbn [resolve]. destruct (is c slash); apply W.
Qed.

(** * Base directories *)

Lemma ends_slash d : d <> [] -> file_part d = length d -> plain d -> exists d', d = d' ++ [slash].
Proof.
  intros N E P. unfold file_part in E. rewrite cstr_plain in E by exact P.
  assert (G : forall s n best, best <= n -> after_last_slash s n best = n + length s -> s = [] \/ exists s', s = s' ++ [slash]).
  { clear. induction s as [ | c s IH]; intros n best L H; [auto | ]. right. cbn [after_last_slash length] in H.
    destruct (IH (S n) (if is c slash then S n else best)) as [-> | (s' & ->)].
    - destruct (is c slash); lia.
    - lia.
    - cbn in H. destruct (is c slash) eqn:Ec; [ | lia]. apply is_spec in Ec. subst. exists []. reflexivity.
    - exists (c :: s'). reflexivity. }
  destruct (G d 0 0 (le_n 0) E) as [-> | X]; [congruence | exact X].
Qed.

Lemma after_last_app s : forall n best, after_last_slash (s ++ [slash]) n best = n + length s + 1.
Proof. induction s as [ | c s IH]; intros n best; cbn [app after_last_slash length]; [rewrite is_refl; lia | rewrite IH; lia]. Qed.

Lemma as_directory_cases d : plain d -> d = [] /\ rep_file_name_as_directory d = [] \/
  exists d', rep_file_name_as_directory d = d' ++ [slash] /\ (d = d' \/ d = d' ++ [slash]).
Proof.
  intro P. unfold rep_file_name_as_directory. destruct (file_part d =? length d) eqn:E.
  - apply Nat.eqb_eq in E. destruct d as [ | c t]; [left; auto | ]. right. destruct (ends_slash (c :: t) ltac:(discriminate) E P) as (d' & H). exists d'. auto.
  - right. exists d. auto.
Qed.

Lemma resolve_app (F : fs) (cwd : node F) d f n m : d <> [] -> resolve F cwd d = Some n -> ~ absolute f -> resolve F n f = Some m ->
  resolve F cwd (d ++ slash :: f) = Some m.
Proof.
  intros N Hd A Hf. destruct f as [ | c t]; [discriminate | ]. cbn [resolve] in Hf.
  assert (Ec : is c slash = false) by (apply is_not; intros ->; apply A; eexists; reflexivity). rewrite Ec in Hf.
  destruct d as [ | x d]; [congruence | ]. cbn [app resolve] in *. destruct (is x slash) eqn:Ex.
  - rewrite split_app_slash, walk_app, Hd. exact Hf.
  - change (x :: d ++ slash :: c :: t) with ((x :: d) ++ slash :: c :: t). rewrite split_app_slash, walk_app, Hd. exact Hf.
Qed.

Lemma resolve_dir_end (F : fs) (cwd : node F) d n : tree F -> d <> [] -> resolve F cwd (d ++ [slash]) = Some n <-> resolve F cwd d = Some n /\ isdir F n = true.
Proof.
  intros T N. destruct d as [ | x d]; [congruence | ]. cbn [app resolve]. destruct (is x slash) eqn:Ex.
  - rewrite split_app_slash, walk_app. change (split []) with [@nil ascii]. destruct (walk F (root F) (split d)) as [k | ]; [ | split; [discriminate | intros [X _]; discriminate]].
    cbn [walk]. unfold step. destruct (isdir F k) eqn:D; cbn; split; [intros [= ->]; auto | intros [[= ->] _]; auto | discriminate | intros [[= ->] X]; congruence].
  - change (x :: d ++ [slash]) with ((x :: d) ++ [slash]). rewrite split_app_slash, walk_app. change (split []) with [@nil ascii].
    destruct (walk F cwd (split (x :: d))) as [k | ]; [ | split; [discriminate | intros [X _]; discriminate]].
    cbn [walk]. unfold step. destruct (isdir F k) eqn:D; cbn; split; [intros [= ->]; auto | intros [[= ->] _]; auto | discriminate | intros [[= ->] X]; congruence].
Qed.

(* a name that starts with a slash and ends in one, or the root *)
Lemma resolve_join (F : fs) (cwd : node F) d f n m : tree F -> plain d -> plain f -> resolve F cwd d = Some n -> ~ absolute f -> resolve F n f = Some m ->
  resolve F cwd (rep_file_name_as_directory d ++ f) = Some m.
Proof.
  intros T Pd Pf Hd A Hf. destruct (as_directory_cases d Pd) as [[-> _] | (d' & -> & Hc)]; [discriminate | ]. rewrite <- app_assoc. cbn [app].
  destruct Hc as [-> | ->].
  - apply (resolve_app F cwd d' f n m); auto. intros ->. discriminate.
  - destruct d' as [ | x d'].
    + cbn [app resolve] in *. rewrite is_refl in *. change (split []) with [@nil ascii] in Hd. cbn [walk] in Hd. destruct (step F (root F) []) as [k | ] eqn:E; [ | discriminate].
      injection Hd as ->. destruct (step_blank F (root F) [] n eq_refl E) as [-> _]. destruct f as [ | c t]; [discriminate | ]. cbn [resolve] in Hf.
      destruct (is c slash) eqn:Ec; [apply is_spec in Ec; subst; destruct A; eexists; reflexivity | exact Hf].
    + apply resolve_dir_end in Hd as [Hd _]; [ | exact T | discriminate]. apply (resolve_app F cwd (x :: d') f n m); auto. discriminate.
Qed.

Lemma as_directory_length d : length (rep_file_name_as_directory d) <= length d + 1.
Proof. unfold rep_file_name_as_directory. destruct (file_part d =? length d); [lia | rewrite app_length; cbn; lia]. Qed.
Lemma as_directory_plain d : plain d -> plain (rep_file_name_as_directory d).
Proof. intro P. unfold rep_file_name_as_directory. destruct (file_part d =? length d); [exact P | ]. apply plain_app. split; [exact P | ]. apply plain_cons. split; [discriminate | exact (fun x => x)]. Qed.

Lemma relative_not_abs s : relative s -> file_name_absolute_p s = false.
Proof.
  intros [A T]. unfold file_name_absolute_p. rewrite T. unfold rep_file_name_absolute_p. unfold tilde_name in T. rewrite T, orb_false_r.
  destruct s as [ | c s]; [reflexivity | ]. apply is_not. cbn. intros ->. apply A. eexists. reflexivity.
Qed.
Lemma absolute_p_spec s : file_name_absolute_p s = true <-> absolute s \/ tilde_name s = true.
Proof.
  unfold file_name_absolute_p. destruct (tilde_name s) eqn:T; [tauto | ]. unfold rep_file_name_absolute_p. unfold tilde_name in T. rewrite T, orb_false_r.
  destruct s as [ | c s]; [split; [discriminate | intros [(t & H) | H]; discriminate] | ]. cbn [at_ nth]. split.
  - intro H. apply is_spec in H. subst. left. eexists. reflexivity.
  - intros [(t & H) | H]; [injection H as -> _; apply is_refl | discriminate].
Qed.

Lemma join_relative f d : relative f -> plain f -> plain d -> d <> [] -> join f d = rep_file_name_as_directory d ++ f.
Proof.
  intros R Pf Pd N. unfold join. rewrite relative_not_abs by exact R. unfold file_name_as_directory.
  assert (L : (0 <? length (rep_file_name_as_directory d)) = true).
  { apply Nat.ltb_lt. destruct (as_directory_cases d Pd) as [[-> _] | (d' & -> & _)]; [congruence | rewrite app_length; cbn; lia]. }
  rewrite L. unfold concat2. rewrite !cstr_plain; [reflexivity | exact Pf | apply as_directory_plain, Pd].
Qed.

Lemma tilde_as_directory d f : d <> [] -> tilde_name (rep_file_name_as_directory d ++ f) = tilde_name d.
Proof. intro N. unfold rep_file_name_as_directory. destruct d as [ | c d]; [congruence | ]. destruct (file_part (c :: d) =? length (c :: d)); reflexivity. Qed.

(** * Tildes *)

Lemma tilde_parts user rest : ~ In slash user -> plain user -> plain rest ->
  until_slash (cstr (tilde :: user ++ slash :: rest)) = tilde :: user /\ from_slash (cstr (tilde :: user ++ slash :: rest)) = slash :: rest.
Proof.
  intros S P1 P2. assert (P : plain (tilde :: user ++ slash :: rest)).
  { apply plain_cons. split; [discriminate | ]. apply plain_app. split; [exact P1 | ]. apply plain_cons. split; [discriminate | exact P2]. }
  rewrite cstr_plain by exact P. assert (S' : ~ In slash (tilde :: user)) by (intros [X | X]; [discriminate | auto]).
  split; [apply (until_app (tilde :: user) rest S') | apply (from_app (tilde :: user) rest S')].
Qed.

Lemma tilde_split_spec user rest : ~ In slash user -> plain user -> plain rest -> rest <> [] ->
  tilde_split (tilde :: user ++ slash :: rest) = Some (tilde :: user ++ [slash], rest).
Proof.
  intros Su P1 P2 N. unfold tilde_split. destruct (tilde_parts user rest Su P1 P2) as [E1 E2]. rewrite E1, E2.
  assert (L : (1 <? length (slash :: rest)) = true) by (apply Nat.ltb_lt; destruct rest; [congruence | cbn; lia]).
  change (tilde_name (tilde :: user ++ slash :: rest)) with true. rewrite L. cbn [andb]. f_equal.
  replace (tilde :: user ++ slash :: rest) with ((tilde :: user ++ [slash]) ++ rest) by (cbn; rewrite <- app_assoc; reflexivity).
  assert (Le : S (length (tilde :: user)) = length (tilde :: user ++ [slash])) by (cbn; rewrite app_length; cbn; lia).
  rewrite Le, firstn_app, Nat.sub_diag, firstn_all, skipn_app, Nat.sub_diag, skipn_all. cbn. rewrite app_nil_r. reflexivity.
Qed.

Lemma tilde_expand_spec home user rest : ~ In slash user -> plain user -> plain rest ->
  tilde_expand home (tilde :: user ++ slash :: rest) = home user ++ rest.
Proof.
  intros S P1 P2. unfold tilde_expand. destruct (tilde_parts user rest S P1 P2) as [E1 E2]. rewrite E1.
  change (tilde_name (tilde :: user ++ slash :: rest)) with true. cbn [tl]. cbv zeta.
  replace (skipn (length (tilde :: user)) (tilde :: user ++ slash :: rest)) with (slash :: rest).
  2: { change (tilde :: user ++ slash :: rest) with ((tilde :: user) ++ slash :: rest). rewrite skipn_app, Nat.sub_diag, skipn_all. reflexivity. }
  cbn [at_ nth skipn]. rewrite is_refl. reflexivity.
Qed.

(* what the handler makes of the part after the first slash *)
Definition tail_result (rest : str) : str := if file_name_absolute_p rest then result rest else result (dot :: slash :: rest).

Lemma split_dot rest : result (dot :: slash :: rest) = nonempty (fin false [] (split rest)).
Proof. cbn [result]. change (is dot slash) with false. change (split (dot :: slash :: rest)) with ([dot] :: split rest). cbn [fin]. destruct (split_cons rest) as (p & ps & ->). reflexivity. Qed.

Lemma tail_relative rest : rest <> [] -> ~ absolute rest -> tail_result rest = result rest.
Proof.
  intros N A. unfold tail_result. destruct (file_name_absolute_p rest); [reflexivity | ]. rewrite split_dot. destruct rest as [ | c t]; [congruence | ].
  cbn [result]. assert (E : is c slash = false) by (apply is_not; intros ->; apply A; eexists; reflexivity). rewrite E. reflexivity.
Qed.

Lemma tail_absolute rest : absolute rest -> tail_result rest = result rest.
Proof. intro A. unfold tail_result. replace (file_name_absolute_p rest) with true by (symmetry; apply absolute_p_spec; auto). reflexivity. Qed.

Lemma tail_is rest : rest <> [] -> tail_result rest = result rest.
Proof.
  intro N. destruct rest as [ | c t]; [congruence | ]. destruct (is c slash) eqn:E.
  - apply is_spec in E. subst. apply tail_absolute. eexists. reflexivity.
  - apply tail_relative; [discriminate | ]. intros (u & H). injection H as -> _. rewrite is_refl in E. discriminate.
Qed.

Lemma blocked_expand pm rest e : plain rest -> rest <> [] -> expand_file_name_blocked pm rest [dot] = Some e -> e = result rest.
Proof.
  intros P N H. rewrite <- tail_is by exact N. unfold expand_file_name_blocked, join in H. unfold tail_result. destruct (file_name_absolute_p rest).
  - apply (expand_is pm); assumption.
  - change (file_name_as_directory [dot]) with [dot; slash] in H. cbn [length Nat.ltb Nat.leb] in H. unfold concat2 in H. rewrite (cstr_plain rest) in H by exact P.
    apply (expand_is pm); [ | exact H]. rewrite !plain_cons. repeat split; try discriminate. exact P.
Qed.

Lemma blocked_some pm rest : plain rest -> length rest + 2 <= pm -> exists e, expand_file_name_blocked pm rest [dot] = Some e.
Proof.
  intros P L. unfold expand_file_name_blocked, join. destruct (file_name_absolute_p rest).
  - exists (result rest). apply expand_some; [exact P | lia].
  - change (file_name_as_directory [dot]) with [dot; slash]. cbn [length Nat.ltb Nat.leb]. unfold concat2. rewrite (cstr_plain rest) by exact P.
    exists (result (dot :: slash :: rest)). apply expand_some; [rewrite !plain_cons; repeat split; try discriminate; exact P | cbn; lia].
Qed.

Lemma tilde_expand_is pm user rest r : ~ In slash user -> plain user -> plain rest -> rest <> [] ->
  tilde_expand_file_name pm (tilde :: user ++ slash :: rest) = Some r -> r = tilde :: user ++ slash :: result rest.
Proof.
  intros S P1 P2 N. unfold tilde_expand_file_name. rewrite tilde_split_spec by assumption.
  destruct (expand_file_name_blocked pm rest [dot]) as [e | ] eqn:E; [ | discriminate]. intros [= <-]. rewrite (blocked_expand pm rest e P2 N E).
  rewrite <- app_assoc. reflexivity.
Qed.

Lemma expand_absolute pm f d : file_name_absolute_p f = true ->
  expand_file_name pm f d = if tilde_name f then tilde_expand_file_name pm f else rep_expand_file_name pm f.
Proof. intro A. unfold expand_file_name, join. rewrite A. reflexivity. Qed.

Lemma result_abs f : absolute (result f) <-> absolute f.
Proof.
  destruct f as [ | c t]; [split; intros (x & H); discriminate | ]. cbn [result]. destruct (is c slash) eqn:E.
  - apply is_spec in E. subst. split; intros _; [eexists; reflexivity | destruct (fin_abs [] (split t)) as (u & ->); eexists; reflexivity].
  - split; [ | intros (x & H); injection H as -> _; rewrite is_refl in E; discriminate]. intros (x & H). exfalso.
    assert (G : forall cs st, Forall (fun c => ~ In slash c) cs -> Forall (fun c : str => c <> [] /\ ~ In slash c) st -> ~ absolute (fin false st cs)).
    { clear. assert (Show : forall st s, Forall (fun c : str => c <> [] /\ ~ In slash c) st -> ~ In slash s -> ~ absolute (show false st ++ s)).
      { intros st s H Hs (t & E). unfold show in E. cbn [app] in E. apply Forall_rev in H. destruct (rev st) as [ | c r].
        - apply Hs. change (s = slash :: t) in E. rewrite E. apply in_eq.
        - unfold slashed in E. cbn in E. rewrite <- !app_assoc in E. inversion H as [ | ? ? [N S] _]; subst. destruct c as [ | y c]; [congruence | ]. injection E as -> _. apply S. left. reflexivity. }
      assert (Show0 : forall st, Forall (fun c : str => c <> [] /\ ~ In slash c) st -> ~ absolute (show false st)).
      { intros st H. rewrite <- (app_nil_r (show false st)). apply Show; [exact H | tauto]. }
      assert (Pop : forall st st', Forall (fun c : str => c <> [] /\ ~ In slash c) st -> pop false st = Some st' -> Forall (fun c : str => c <> [] /\ ~ In slash c) st').
      { intros [ | c st] st' H P; [discriminate | ]. cbn in P. destruct (str_eqb c dotdot); [discriminate | ]. injection P as <-. inversion H; assumption. }
      induction cs as [ | c cs IH]; intros st Hc Hs; [apply Show0, Hs | ]. inversion Hc as [ | ? ? Sc Scs]; subst. cbn [fin]. destruct cs as [ | d cs].
      - destruct (str_eqb c [] || str_eqb c [dot]); [apply Show0, Hs | ]. destruct (str_eqb c dotdot); [destruct (pop false st) eqn:Ep; [apply Show0; eauto | apply Show; assumption] | apply Show; assumption].
      - destruct (str_eqb c [] || str_eqb c [dot]) eqn:Eb; [apply IH; assumption | ].
        assert (Nc : c <> []) by (intros ->; discriminate).
        destruct (str_eqb c dotdot); [destruct (pop false st) eqn:Ep; [apply IH; eauto | apply IH; auto] | apply IH; auto]. }
    assert (A : absolute (fin false [] (split (c :: t)))). { destruct (fin false [] (split (c :: t))) as [ | y r]; [discriminate | ]. cbn in H. rewrite H. eexists. reflexivity. }
    apply (G (split (c :: t)) [] (split_parts (c :: t)) (Forall_nil _) A).
Qed.

Lemma result_plain f : plain f -> plain (result f).
Proof. intro P. apply simple_plain, result_simple, P. Qed.

(** * Parts of names *)

Lemma after_last_spec s : forall n best, best <= n ->
  (~ In slash s /\ after_last_slash s n best = best) \/
  (exists a b, s = a ++ slash :: b /\ ~ In slash b /\ after_last_slash s n best = n + length a + 1).
Proof.
  induction s as [ | c s IH]; intros n best L; [left; auto | ]. cbn [after_last_slash]. destruct (is c slash) eqn:E.
  - apply is_spec in E. subst. right. destruct (IH (S n) (S n) (le_n _)) as [[H ->] | (a & b & -> & H & ->)].
    + exists [], s. cbn [length]. repeat split; [exact H | lia].
    + exists (slash :: a), b. cbn [length]. repeat split; [exact H | lia].
  - destruct (IH (S n) best ltac:(lia)) as [[H ->] | (a & b & -> & H & ->)].
    + left. split; [ | reflexivity]. intros [X | X]; [ | auto]. subst. rewrite is_refl in E. discriminate.
    + right. exists (c :: a), b. cbn [length]. repeat split; [exact H | lia].
Qed.

Lemma file_part_cases f : plain f -> (~ In slash f /\ file_part f = 0) \/ exists a b, f = a ++ slash :: b /\ ~ In slash b /\ file_part f = length a + 1.
Proof. intro P. unfold file_part. rewrite cstr_plain by exact P. exact (after_last_spec f 0 0 (le_n 0)). Qed.

Lemma parts_eq f a b : plain f -> f = a ++ slash :: b -> ~ In slash b -> file_part f = length a + 1 ->
  rep_file_name_directory f = a ++ [slash] /\ rep_file_name_nondirectory f = b.
Proof.
  intros P -> S E. unfold rep_file_name_directory, rep_file_name_nondirectory. rewrite E. replace (length a + 1 =? 0) with false by (symmetry; apply Nat.eqb_neq; lia).
  rewrite cstr_plain by exact P. replace (a ++ slash :: b) with ((a ++ [slash]) ++ b) by (rewrite <- app_assoc; reflexivity).
  assert (L : length a + 1 = length (a ++ [slash])) by (rewrite app_length; reflexivity). rewrite L, firstn_app, Nat.sub_diag, firstn_all, skipn_app, Nat.sub_diag, skipn_all. cbn. rewrite app_nil_r. auto.
Qed.

Lemma directory_file_cases f : plain f ->
  (f = [] /\ rep_directory_file_name f = [dot]) \/
  (f = [slash] /\ rep_directory_file_name f = [slash]) \/
  (f <> [] /\ file_part f <> length f /\ rep_directory_file_name f = f) \/
  (exists d, d <> [] /\ f = d ++ [slash] /\ rep_directory_file_name f = d).
Proof.
  intro P. unfold rep_directory_file_name. destruct (file_part f =? length f) eqn:E; cbn [negb].
  - apply Nat.eqb_eq in E. destruct f as [ | c t]; [left; auto | right]. destruct (ends_slash (c :: t) ltac:(discriminate) E P) as (d & Hd).
    destruct d as [ | x d].
    + left. cbn in Hd. rewrite Hd. auto.
    + right. right. exists (x :: d). rewrite Hd. repeat split; try discriminate. rewrite app_length. cbn [length].
      replace (S (length d) + 1 =? 0) with false by (symmetry; apply Nat.eqb_neq; lia). replace (S (length d) + 1 =? 1) with false by (symmetry; apply Nat.eqb_neq; lia).
      replace (S (length d) + 1 - 1) with (length (x :: d)) by (cbn; lia). rewrite firstn_app, Nat.sub_diag, firstn_all. cbn. rewrite app_nil_r. reflexivity.
  - right. right. left. apply Nat.eqb_neq in E. repeat split; auto. intros ->. apply E. reflexivity.
Qed.
