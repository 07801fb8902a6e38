(* C53: expand-file-name; C54: the parts of names, names of directories; C55: canonical names and
   operations on files *)
From Coq Require Import String.
From Coq Require Import List Bool Arith Ascii Lia.
Import ListNotations.
From Verif Require Import Files_Model Files_Spec Files_Proofs Files_Top.

Definition s (x : string) : str := list_ascii_of_string x.

(* A small tree: the root 0 contains the directory 1 called d, which contains the directory 2
   called e and the file 3 called f. *)
Definition small : fs :=
  Fs nat 0 (fun n => n <? 3) Nat.pred
     (fun n c => if (n =? 0) && str_eqb c (s "d") then Some 1
                 else if (n =? 1) && str_eqb c (s "e") then Some 2
                 else if (n =? 1) && str_eqb c (s "f") then Some 3 else None).
Lemma small_tree : tree small.
Proof.
  split; [reflexivity | ]. split; [reflexivity | ]. intros n c m. cbn [small entry isdir up].
  destruct ((n =? 0) && str_eqb c (s "d")) eqn:E1; [intros [= <-] _; apply andb_true_iff in E1 as [E1 _]; apply Nat.eqb_eq in E1; auto | ].
  destruct ((n =? 1) && str_eqb c (s "e")) eqn:E2; [intros [= <-] _; apply andb_true_iff in E2 as [E2 _]; apply Nat.eqb_eq in E2; auto | ].
  destruct ((n =? 1) && str_eqb c (s "f")) eqn:E3; [intros [= <-]; discriminate | discriminate].
Qed.

(** * C53 *)

(* The simplified name denotes the file that the name denotes: whatever the tree of directories
   and the working directory, for every name that fits in the buffer. *)
Theorem C53_same_file_partial : forall F cwd path_max f m, tree F -> plain f -> length f <= path_max ->
  resolve F cwd f = Some m ->
  exists r, rep_expand_file_name path_max f = Some r /\ resolve F cwd r = Some m.
Proof.
  intros F cwd pm f m T P L H. exists (result f). split; [ | apply result_resolve; assumption].
  apply expand_some; [exact P | ]. destruct f as [ | c t]; [discriminate | ]. cbn [length] in *. lia.
Qed.
Print Assumptions C53_same_file_partial.
Example C53_same_file_ex :
  resolve small 0 (s "d/e/.//../e/../f") = Some 3 /\
  rep_expand_file_name 4096 (s "d/e/.//../e/../f") = Some (s "d/f") /\ resolve small 0 (s "d/f") = Some 3.
Proof. vm_compute. auto. Qed.

(* With symbolic links to directories the result can denote another file: a link l in the root to
   the directory 2, which lies in the directory 1. *)
Definition linked : fs :=
  Fs nat 0 (fun n => n <? 3) Nat.pred
     (fun n c => if (n =? 0) && str_eqb c (s "l") then Some 2 else None).
Theorem C53_symbolic_link_refuted : exists F cwd f r n m, plain f /\ rep_expand_file_name 4096 f = Some r /\
  resolve F cwd f = Some n /\ resolve F cwd r = Some m /\ n <> m.
Proof.
  exists linked, 0, (s "l/.."), (s "."), 1, 0. split; [ | vm_compute; repeat split; discriminate].
  vm_compute. intuition discriminate.
Qed.
Print Assumptions C53_symbolic_link_refuted.

(* Nor is the converse true: the simplified name can denote a file though the name denotes none. *)
Theorem C53_missing_directory_refuted : exists F cwd f r m, tree F /\ plain f /\ rep_expand_file_name 4096 f = Some r /\
  resolve F cwd f = None /\ resolve F cwd r = Some m.
Proof.
  exists small, 0, (s "nosuch/../d/f"), (s "d/f"), 3. split; [exact small_tree | ]. split; [vm_compute; intuition discriminate | ].
  vm_compute. auto.
Qed.
Print Assumptions C53_missing_directory_refuted.

(* The result has no dots and no empty components, and dot-dots only at its start. *)
Theorem C53_simplified : forall path_max f r, rep_expand_file_name path_max f = Some r -> simple r.
Proof.
  intros pm f r H. rewrite expand_cstr in H. rewrite (expand_is pm (cstr f) r (plain_cstr f) H). apply result_simple, plain_cstr.
Qed.
Print Assumptions C53_simplified.
Example C53_simplified_ex :
  rep_expand_file_name 4096 (s "../../a/./../.../..//b/") = Some (s "../../b/") /\
  rep_expand_file_name 4096 (s "/../..//a/../..") = Some (s "/") /\
  rep_expand_file_name 4096 (s "a/..") = Some (s ".").
Proof. vm_compute. auto. Qed.

(* Simplifying again changes nothing. *)
Theorem C53_idempotent : forall path_max f r, rep_expand_file_name path_max f = Some r ->
  rep_expand_file_name path_max r = Some r.
Proof. exact expand_again. Qed.
Print Assumptions C53_idempotent.

(* Nothing is left to simplify: two names that denote the same file in every tree are simplified
   to the same name, up to a slash at the end. *)
Theorem C53_complete_partial : forall path_max f g r1 r2, plain f -> plain g -> f <> [] -> g <> [] ->
  rep_expand_file_name path_max f = Some r1 -> rep_expand_file_name path_max g = Some r2 ->
  (forall F cwd n m, tree F -> resolve F cwd f = Some n -> resolve F cwd g = Some m -> n = m) ->
  r1 = r2 \/ r1 = r2 ++ [slash] \/ r2 = r1 ++ [slash].
Proof.
  intros pm f g r1 r2 Pf Pg Nf Ng H1 H2 S. rewrite (expand_is pm f r1 Pf H1), (expand_is pm g r2 Pg H2).
  apply simple_complete; [apply result_simple, Pf | apply result_simple, Pg | ]. intro cwd.
  destruct (full_resolves cwd f Nf) as (n & En), (full_resolves cwd g Ng) as (m & Em).
  rewrite (result_resolve full_tree full_is_tree cwd f n Pf En), (result_resolve full_tree full_is_tree cwd g m Pg Em).
  rewrite (S full_tree cwd n m full_is_tree En Em). reflexivity.
Qed.
Print Assumptions C53_complete_partial.
Example C53_complete_ex : forall F cwd n m, tree F -> resolve F cwd (s "d/./e/..") = Some n -> resolve F cwd (s "./d") = Some m -> n = m.
Proof.
  intros F cwd n m T H1 H2.
  assert (P : forall x, x = s "d/./e/.." \/ x = s "./d" -> plain x) by (intros x [-> | ->]; vm_compute; intuition discriminate).
  pose proof (C53_same_file_partial F cwd 4096 _ n T (P _ (or_introl eq_refl)) ltac:(apply Nat.leb_le; vm_compute; reflexivity) H1) as (r1 & E1 & R1).
  pose proof (C53_same_file_partial F cwd 4096 _ m T (P _ (or_intror eq_refl)) ltac:(apply Nat.leb_le; vm_compute; reflexivity) H2) as (r2 & E2 & R2).
  assert (X1 : r1 = s "d/") by (vm_compute in E1; injection E1 as <-; reflexivity). assert (X2 : r2 = s "d") by (vm_compute in E2; injection E2 as <-; reflexivity). subst.
  change (s "d/") with (s "d" ++ [slash]) in R1. apply resolve_dir_end in R1 as [R1 _]; [congruence | exact T | discriminate].
Qed.

(* A name from the root stays one, and no other name becomes one. *)
Theorem C53_absolute : forall path_max f r, rep_expand_file_name path_max f = Some r -> absolute r <-> absolute f.
Proof.
  intros pm f r H. rewrite expand_cstr in H. rewrite (expand_is pm (cstr f) r (plain_cstr f) H), result_abs.
  destruct f as [ | c t]; [reflexivity | ]. cbn [cstr]. destruct (is c null) eqn:E.
  - apply is_spec in E. subst. split; intros (x & X); discriminate.
  - split; intros (x & X); injection X as -> _; eexists; reflexivity.
Qed.
Print Assumptions C53_absolute.

(* The result fits in the buffer, and is never longer than the name, if the name is not longer
   than the buffer ... *)
Theorem C53_no_overflow_partial : forall path_max f, 0 < path_max -> length (cstr f) <= path_max ->
  exists r, rep_expand_file_name path_max f = Some r /\ length r <= Nat.max 1 (length (cstr f)).
Proof.
  intros pm f L0 L. exists (result (cstr f)). rewrite expand_cstr. split; [apply expand_some; [apply plain_cstr | lia] | apply result_length, plain_cstr].
Qed.
Print Assumptions C53_no_overflow_partial.
Example C53_no_overflow_ex : rep_expand_file_name 3 (s "a/b") = Some (s "a/b") /\ rep_expand_file_name 3 (s "a/../b") = Some (s "b").
Proof. vm_compute. auto. Qed.

(* ... but nothing checks that it is: whatever the size of the buffer, a name can be written past
   its end. *)
Theorem C53_overflow_refuted : forall path_max, exists f, plain f /\ rep_expand_file_name path_max f = None.
Proof.
  intro pm. exists (repeat tilde (S pm)). assert (P : plain (repeat tilde (S pm))) by (intro H; apply repeat_spec in H; discriminate). split; [exact P | ].
  unfold rep_expand_file_name, expand_buffer. rewrite cstr_plain by exact P. rewrite repeat_length. cbn [repeat expand_loop]. unfold expand_step.
  change (is (at_ (tilde :: repeat tilde pm) 0) dot) with false. cbn [andb].
  assert (Sl : ~ In slash (tilde :: repeat tilde pm)) by (intros [X | X]; [discriminate | apply repeat_spec in X; discriminate]).
  rewrite until_all, from_all by exact Sl. cbn [at_ nth]. change (is null slash) with false. cbn [skip_slashes]. rewrite loop_nil. rewrite len_puts.
  cbn [length Nat.add Nat.eqb out]. rewrite high_puts. cbn [length out high]. rewrite repeat_length.
  replace (Nat.max 0 (S pm + 0) <=? pm) with false by (symmetry; apply Nat.leb_gt; lia). reflexivity.
Qed.
Print Assumptions C53_overflow_refuted.

(* A name with a null character is cut there. *)
Theorem C53_null_refuted : exists f r, ~ plain f /\ rep_expand_file_name 4096 f = Some r /\ r = s "a" /\ f = s "a" ++ [null] ++ s "b".
Proof. exists (s "a" ++ [null] ++ s "b"), (s "a"). vm_compute. repeat split. intro H. apply H. tauto. Qed.
Print Assumptions C53_null_refuted.

(* With a base directory: the result denotes the file that the name denotes for a process whose
   working directory is the base directory.  Partial: neither name starts with a tilde. *)
Theorem C53_base_directory_partial : forall F cwd path_max f dir d m, tree F -> plain f -> plain dir ->
  length dir + length f + 1 <= path_max -> relative f -> tilde_name dir = false ->
  resolve F cwd dir = Some d -> resolve F d f = Some m ->
  exists r, expand_file_name path_max f dir = Some r /\ resolve F cwd r = Some m.
Proof.
  intros F cwd pm f dir d m T Pf Pd L R Td Hd Hf. assert (N : dir <> []) by (intros ->; discriminate).
  unfold expand_file_name. rewrite join_relative by assumption. rewrite tilde_as_directory, Td by exact N.
  assert (H : resolve F cwd (rep_file_name_as_directory dir ++ f) = Some m) by (eapply resolve_join; eauto; apply R).
  apply C53_same_file_partial; [exact T | apply plain_app; split; [apply as_directory_plain, Pd | exact Pf] | | exact H].
  rewrite app_length. pose proof (as_directory_length dir). lia.
Qed.
Print Assumptions C53_base_directory_partial.
Example C53_base_directory_ex :
  expand_file_name 4096 (s "../f") (s "d/e") = Some (s "d/f") /\ relative (s "../f") /\
  resolve small 0 (s "d/e") = Some 2 /\ resolve small 2 (s "../f") = Some 3.
Proof. vm_compute. repeat split. intros (x & X). discriminate. Qed.

(* The result is from the root, or from a home directory, if the name or the base directory is. *)
Theorem C53_rooted : forall path_max f dir r, plain f -> plain dir -> rooted f \/ rooted dir ->
  expand_file_name path_max f dir = Some r -> rooted r.
Proof.
  intros pm f dir r Pf Pd H E. unfold expand_file_name in E.
  assert (J : rooted (join f dir) /\ plain (join f dir)).
  { destruct (file_name_absolute_p f) eqn:A.
    - unfold join. rewrite A. split; [ | exact Pf]. apply absolute_p_spec in A as [A | A]; [left; exact A | right]. destruct f as [ | c t]; [discriminate | ].
      apply is_spec in A. cbn in A. subst. eexists. reflexivity.
    - assert (Rf : relative f).
      { split; [intro X | destruct (tilde_name f) eqn:X; [ | reflexivity]]; rewrite (proj2 (absolute_p_spec f)) in A; try discriminate; auto. }
      destruct H as [[H | (t & ->)] | H]; [destruct Rf as [Rf _]; contradiction | destruct Rf; discriminate | ].
      assert (N : dir <> []) by (destruct H as [(t & ->) | (t & ->)]; discriminate).
      rewrite join_relative by assumption. split; [ | apply plain_app; split; [apply as_directory_plain, Pd | exact Pf]].
      unfold rep_file_name_as_directory. destruct H as [(t & ->) | (t & ->)]; [left | right]; destruct (file_part _ =? _); eexists; reflexivity. }
  destruct J as [[(t & J) | (t & J)] PJ].
  - rewrite J in E. change (tilde_name (slash :: t)) with false in E. left. apply (C53_absolute pm (slash :: t) r E). eexists. reflexivity.
  - rewrite J in E. change (tilde_name (tilde :: t)) with true in E. right. unfold tilde_expand_file_name in E. unfold tilde_split in E.
    change (tilde_name (tilde :: t)) with true in E. destruct (true && (1 <? length (from_slash (cstr (tilde :: t))))); [ | injection E as <-; eauto].
    cbn [firstn] in E. destruct (expand_file_name_blocked _ _ _); [ | discriminate]. injection E as <-. eexists. reflexivity.
Qed.
Print Assumptions C53_rooted.
Example C53_rooted_ex : expand_file_name 4096 (s "x/../y") (s "~/z") = Some (s "~/z/y") /\ expand_file_name 4096 (s "../y") (s "/z") = Some (s "/y").
Proof. vm_compute. auto. Qed.

(* The other way round it is false: a relative name with a relative base directory can become a
   name from a home directory. *)
Theorem C53_relative_refuted : exists f dir r, plain f /\ plain dir /\ relative f /\ relative dir /\
  expand_file_name 4096 f dir = Some r /\ rooted r.
Proof.
  exists (s "./~root"), (s "."), (s "~root"). repeat split; try (vm_compute; intuition discriminate); try (intros (x & X); discriminate).
  right. eexists. reflexivity.
Qed.
Print Assumptions C53_relative_refuted.

(* ~user/rest denotes what rest denotes in the home directory of user: local-file-name returns a
   name for it.  Partial: rest does not start with a slash. *)
Theorem C53_tilde_partial : forall F cwd path_max default home_of user rest h m, tree F ->
  ~ In slash user -> plain user -> plain rest -> ~ absolute rest ->
  absolute (home_of user) -> plain (home_of user) -> length (home_of user) + length rest + 2 <= path_max ->
  resolve F cwd (home_of user) = Some h -> resolve F h rest = Some m ->
  exists r, local_file_name (fun u => rep_user_home_directory (home_of u)) path_max default (tilde :: user ++ slash :: rest) = Some r /\
            absolute r /\ resolve F cwd r = Some m.
Proof.
  intros F cwd pm default home user rest h m T Su Pu Pr Ar Ah Ph L Hh Hr. assert (N : rest <> []) by (intros ->; discriminate).
  unfold local_file_name. rewrite expand_absolute by (apply absolute_p_spec; right; reflexivity). change (tilde_name (tilde :: user ++ slash :: rest)) with true. cbv iota.
  unfold tilde_expand_file_name. rewrite tilde_split_spec by assumption. destruct (blocked_some pm rest Pr ltac:(lia)) as (e & He). rewrite He.
  rewrite (blocked_expand pm rest e Pr N He). rewrite <- app_comm_cons, <- app_assoc. cbn [app]. change (tilde_name (tilde :: user ++ slash :: result rest)) with true. cbv iota.
  rewrite tilde_expand_spec by (try assumption; apply result_plain, Pr).
  assert (Hd : rep_user_home_directory (home user) = home user ++ [slash]).
  { unfold rep_user_home_directory. rewrite nth_overflow by lia. reflexivity. }
  rewrite Hd, <- app_assoc. cbn [app]. destruct Ah as (t & Et). rewrite Et in *. cbn [app]. rewrite expand_absolute by (apply absolute_p_spec; left; eexists; reflexivity).
  change (tilde_name (slash :: t ++ slash :: result rest)) with false. cbv iota.
  assert (R1 : resolve F h (result rest) = Some m) by (apply result_resolve; assumption).
  assert (R2 : resolve F cwd ((slash :: t) ++ slash :: result rest) = Some m).
  { apply (resolve_app F cwd (slash :: t) (result rest) h m); [discriminate | exact Hh | rewrite result_abs; exact Ar | exact R1]. }
  destruct (C53_same_file_partial F cwd pm (slash :: t ++ slash :: result rest) m) as (r & E1 & E2); [exact T | | | exact R2 | ].
  - change (slash :: t ++ slash :: result rest) with ((slash :: t) ++ slash :: result rest). apply plain_app. split; [exact Ph | ]. apply plain_cons. split; [discriminate | apply result_plain, Pr].
  - cbn [length] in *. rewrite app_length. cbn [length]. pose proof (result_length rest Pr). lia.
  - exists r. split; [exact E1 | ]. split; [ | exact E2]. apply (C53_absolute pm _ r E1). eexists. reflexivity.
Qed.
Print Assumptions C53_tilde_partial.
Example C53_tilde_ex : let home := fun _ => s "/d" in
  local_file_name (fun u => rep_user_home_directory (home u)) 4096 (s "/") (s "~/e/../f") = Some (s "/d/f") /\ resolve small 0 (s "/d/f") = Some 3.
Proof. vm_compute. auto. Qed.

(* If it does, then expand-file-name can change the file that the name denotes. *)
Theorem C53_tilde_slash_refuted : exists F cwd f r n m, tree F /\ plain f /\
  let home := fun _ : str => s "/d/" in
  expand_file_name 4096 f (s "/") = Some r /\
  resolve F cwd (tilde_expand home f) = Some n /\ resolve F cwd (tilde_expand home r) = Some m /\ n <> m.
Proof.
  exists full_tree, [], (s "~//../x"), (s "~//x"), [s "x"], [s "x"; s "d"]. split; [exact full_is_tree | ]. split; [vm_compute; intuition discriminate | ].
  vm_compute. repeat split; discriminate.
Qed.
Print Assumptions C53_tilde_slash_refuted.

(* Expanding again changes nothing, whatever the base directory, if the name or the base directory
   was from the root or from a home directory. *)
Theorem C53_expanded_again_partial : forall path_max f dir dir' r, plain f -> plain dir -> rooted f \/ rooted dir ->
  length r <= path_max -> expand_file_name path_max f dir = Some r -> expand_file_name path_max r dir' = Some r.
Proof.
  intros pm f dir dir' r Pf Pd H L E. pose proof (C53_rooted pm f dir r Pf Pd H E) as R.
  assert (A : file_name_absolute_p r = true).
  { apply absolute_p_spec. destruct R as [R | (t & ->)]; [left; exact R | right; reflexivity]. }
  rewrite expand_absolute by exact A. unfold expand_file_name in E.
  assert (Pj : plain (join f dir)).
  { unfold join. destruct (file_name_absolute_p f); [exact Pf | ]. destruct (0 <? length (file_name_as_directory dir)); [ | exact Pf]. apply plain_app. split; apply plain_cstr. }
  destruct (tilde_name (join f dir)) eqn:T.
  - (* from a home directory *)
    remember (join f dir) as j eqn:Ej. clear Ej. destruct j as [ | c t]; [discriminate | ]. apply is_spec in T. cbn in T. subst c.
    apply plain_cons in Pj as [_ Pt]. destruct (from_slash_cases t) as [Fs | (rest & Fs)].
    + assert (Sp : tilde_split (tilde :: t) = None).
      { unfold tilde_split. rewrite cstr_plain by (apply plain_cons; split; [discriminate | exact Pt]). cbn [from_slash]. change (is tilde slash) with false. cbv iota. rewrite Fs. reflexivity. }
      unfold tilde_expand_file_name in E. rewrite Sp in E. injection E as <-. change (tilde_name (tilde :: t)) with true. cbv iota. unfold tilde_expand_file_name. rewrite Sp. reflexivity.
    + pose proof (until_from t) as U. rewrite Fs in U. pose proof (until_no t) as Su. remember (until_slash t) as user eqn:Eu. clear Eu. subst t.
      apply plain_app in Pt as [Pu Pr]. apply plain_cons in Pr as [_ Pr]. destruct rest as [ | x rest].
      * assert (Sp : tilde_split (tilde :: user ++ [slash]) = None).
        { unfold tilde_split. destruct (tilde_parts user [] Su Pu Pr) as [_ ->]. reflexivity. }
        unfold tilde_expand_file_name in E. rewrite Sp in E. injection E as <-. change (tilde_name (tilde :: user ++ [slash])) with true. cbv iota. unfold tilde_expand_file_name. rewrite Sp. reflexivity.
      * apply tilde_expand_is in E; try assumption; [ | discriminate]. subst r. change (tilde_name (tilde :: user ++ slash :: result (x :: rest))) with true. cbv iota.
        unfold tilde_expand_file_name. pose proof (result_nonempty (x :: rest)) as N. pose proof (result_plain (x :: rest) Pr) as P'. rewrite tilde_split_spec by assumption.
        cbn [length] in L. rewrite app_length in L. cbn [length] in L.
        destruct (blocked_some pm (result (x :: rest)) P' ltac:(lia)) as (e & He). rewrite He. rewrite (blocked_expand pm _ e P' N He), expand_idempotent by exact Pr.
        rewrite <- app_comm_cons, <- app_assoc. reflexivity.
  - assert (Ab : absolute r).
    { destruct R as [R | (t & ->)]; [exact R | ]. exfalso.
      (* the name itself starts with a slash *)
      assert (J : absolute (join f dir)).
      { unfold join in *. destruct (file_name_absolute_p f) eqn:Af; [apply absolute_p_spec in Af as [Af | Af]; [exact Af | congruence] | ].
        destruct H as [[Hf | (t' & ->)] | Hd]; [rewrite (proj2 (absolute_p_spec f)) in Af by auto; discriminate | discriminate | ].
        assert (N : dir <> []) by (destruct Hd as [(t' & ->) | (t' & ->)]; discriminate).
        destruct (as_directory_cases dir Pd) as [[-> _] | (d' & Ed & Hc)]; [congruence | ]. unfold file_name_as_directory, concat2 in *. rewrite Ed in *.
        assert (Ld : (0 <? length (d' ++ [slash])) = true) by (apply Nat.ltb_lt; rewrite app_length; cbn; lia). rewrite Ld in *.
        assert (P2 : plain (d' ++ [slash])) by (rewrite <- Ed; apply as_directory_plain, Pd). rewrite (cstr_plain (d' ++ [slash])) in * by exact P2.
        destruct Hd as [(t' & ->) | (t' & ->)].
        - destruct Hc as [<- | X]; [eexists; reflexivity | ]. rewrite <- X. eexists. reflexivity.
        - destruct Hc as [<- | X]; [discriminate | ]. rewrite <- X in T. discriminate. }
      apply (C53_absolute pm _ _ E) in J. destruct J as (u & J). discriminate. }
    destruct Ab as (t & ->). change (tilde_name (slash :: t)) with false. cbv iota. apply (expand_again pm _ _ E).
Qed.
Print Assumptions C53_expanded_again_partial.
Example C53_expanded_again_ex : expand_file_name 4096 (s "a/./b/..") (s "~john/c//d") = Some (s "~john/c/d/a/") /\
  expand_file_name 4096 (s "~john/c/d/a/") (s "/elsewhere") = Some (s "~john/c/d/a/").
Proof. vm_compute. auto. Qed.

(** * C54 *)

(* The directory part and the rest make up the name; the rest has no slash, and the directory part
   is empty or ends in one. *)
Theorem C54_parts_partial : forall f, plain f ->
  rep_file_name_directory f ++ rep_file_name_nondirectory f = f /\
  ~ In slash (rep_file_name_nondirectory f) /\
  (rep_file_name_directory f = [] \/ exists d, rep_file_name_directory f = d ++ [slash]).
Proof.
  intros f P. destruct (file_part_cases f P) as [[S E] | (a & b & E & S & L)].
  - unfold rep_file_name_directory, rep_file_name_nondirectory. rewrite E. cbn. auto.
  - destruct (parts_eq f a b P E S L) as [-> ->]. rewrite <- app_assoc. cbn. rewrite <- E. repeat split; [exact S | eauto].
Qed.
Print Assumptions C54_parts_partial.
Example C54_parts_ex : rep_file_name_directory (s "/tmp/foo") = s "/tmp/" /\ rep_file_name_nondirectory (s "/tmp/foo") = s "foo" /\
  rep_file_name_directory (s "foo/bar/") = s "foo/bar/" /\ rep_file_name_nondirectory (s "foo/bar/") = [].
Proof. vm_compute. auto. Qed.

(* With a null character in the name they need not. *)
Theorem C54_parts_null_refuted : exists f, rep_file_name_directory f ++ rep_file_name_nondirectory f <> f.
Proof. exists (s "a/b" ++ [null] ++ s "c"). vm_compute. discriminate. Qed.
Print Assumptions C54_parts_null_refuted.

(* file-name-as-directory: the result denotes the directory that the name denotes, and nothing if
   that is not a directory. *)
Theorem C54_as_directory_partial : forall F cwd d n, tree F -> plain d -> d <> [] ->
  resolve F cwd (rep_file_name_as_directory d) = Some n <-> resolve F cwd d = Some n /\ isdir F n = true.
Proof.
  intros F cwd d n T P N. destruct (as_directory_cases d P) as [[-> _] | (d' & -> & [-> | ->])]; [congruence | apply resolve_dir_end; assumption | ].
  split; [ | tauto]. intro H. split; [exact H | ]. destruct d' as [ | x d'].
  - cbn [app resolve] in H. rewrite is_refl in H. change (split []) with [@nil ascii] in H. cbn [walk] in H. destruct (step F (root F) []) as [k | ] eqn:E; [ | discriminate].
    injection H as ->. destruct (step_blank F (root F) [] n eq_refl E) as [-> X]. exact X.
  - apply resolve_dir_end in H; [tauto | exact T | discriminate].
Qed.
Print Assumptions C54_as_directory_partial.
Example C54_as_directory_ex : rep_file_name_as_directory (s "d/e") = s "d/e/" /\ resolve small 0 (s "d/e/") = Some 2 /\
  rep_file_name_as_directory (s "d/f") = s "d/f/" /\ resolve small 0 (s "d/f/") = None.
Proof. vm_compute. auto. Qed.

(* directory-file-name: the result denotes what the name denotes. *)
Theorem C54_directory_file_name_partial : forall F cwd d n, tree F -> plain d ->
  resolve F cwd d = Some n -> resolve F cwd (rep_directory_file_name d) = Some n.
Proof.
  intros F cwd d n T P H. destruct (directory_file_cases d P) as [[-> _] | [[-> ->] | [(_ & _ & ->) | (d' & N & -> & ->)]]]; try exact H; [discriminate | ].
  apply resolve_dir_end in H; [tauto | exact T | exact N].
Qed.
Print Assumptions C54_directory_file_name_partial.

(* The two are inverse to each other, for names that do not end in a slash, and for names that end
   in just one. *)
Theorem C54_inverse_partial : forall f, plain f -> f <> [] -> ~ (exists d, f = d ++ [slash]) ->
  rep_directory_file_name (rep_file_name_as_directory f) = f /\
  rep_file_name_as_directory (rep_directory_file_name (f ++ [slash])) = f ++ [slash].
Proof.
  intros f P N H.
  assert (A : rep_file_name_as_directory f = f ++ [slash]).
  { destruct (as_directory_cases f P) as [[-> _] | (d & -> & [-> | E])]; [congruence | reflexivity | ]. destruct H. eauto. }
  assert (P' : plain (f ++ [slash])) by (apply plain_app; split; [exact P | ]; apply plain_cons; split; [discriminate | exact (fun x => x)]).
  assert (D : rep_directory_file_name (f ++ [slash]) = f).
  { destruct (directory_file_cases (f ++ [slash]) P') as [[E _] | [[E _] | [(_ & E & _) | (d & _ & E & ->)]]].
    - destruct f; discriminate.
    - destruct f as [ | x [ | ? ?]]; [congruence | discriminate | discriminate].
    - destruct E. unfold file_part. rewrite cstr_plain by exact P'. rewrite after_last_app, app_length. reflexivity.
    - apply app_inj_tail in E. symmetry. tauto. }
  rewrite A, D. auto.
Qed.
Print Assumptions C54_inverse_partial.
Example C54_inverse_ex : rep_directory_file_name (rep_file_name_as_directory (s "./foo")) = s "./foo" /\
  rep_file_name_as_directory (rep_directory_file_name (s "./foo/")) = s "./foo/".
Proof. vm_compute. auto. Qed.

(* Only one slash is removed, so that the result can still end in one, and the inverse fails. *)
Theorem C54_two_slashes_refuted : exists d r, plain d /\ rep_directory_file_name (d ++ [slash]) = r ++ [slash] /\ r <> [] /\
  rep_file_name_as_directory (rep_directory_file_name (d ++ [slash])) <> d ++ [slash].
Proof. exists (s "a/"), (s "a"). vm_compute. repeat split; try discriminate. intuition discriminate. Qed.
Print Assumptions C54_two_slashes_refuted.

(* The empty name: file-name-as-directory does not make it end in a slash. *)
Theorem C54_empty_refuted : exists f, plain f /\ (~ exists d, rep_file_name_as_directory f = d ++ [slash]) /\
  rep_directory_file_name (rep_file_name_as_directory f) <> f.
Proof. exists []. split; [exact (fun x => x) | ]. split; [intros ([ | x d] & H); discriminate | discriminate]. Qed.
Print Assumptions C54_empty_refuted.

(* user-home-directory returns the home directory as file-name-as-directory would ... *)
Theorem C54_home_partial : forall src, plain src -> src <> [] -> ~ (exists d, src = d ++ [slash]) ->
  rep_user_home_directory src = rep_file_name_as_directory src.
Proof.
  intros f P N H. unfold rep_user_home_directory. rewrite nth_overflow by lia. change (is null slash) with false. cbn [negb].
  destruct (as_directory_cases f P) as [[-> _] | (d & -> & [-> | E])]; [congruence | reflexivity | ]. destruct H. eauto.
Qed.
Print Assumptions C54_home_partial.
Example C54_home_ex : rep_user_home_directory (s "/home/john") = s "/home/john/".
Proof. reflexivity. Qed.

(* ... but not if it already ends in a slash: that is doubled. *)
Theorem C54_home_refuted : exists src, plain src /\ absolute src /\ rep_user_home_directory src <> rep_file_name_as_directory src /\
  rep_user_home_directory src = src ++ [slash] /\ rep_file_name_as_directory src = src.
Proof.
  exists (s "/home/john/"). split; [vm_compute; intuition discriminate | ]. split; [eexists; reflexivity | ]. vm_compute. repeat split; discriminate.
Qed.
Print Assumptions C54_home_refuted.

(** * C55 *)

(* The canonical name denotes the same file, and does so from the root: so two names with the same
   canonical name denote the same file.  Partial: for a file other than the root whose name, once
   expanded, starts with no tilde. *)
Theorem C55_canonical_partial : forall F cwd realpath home path_max default f e m c, tree F -> realpath_ok F cwd realpath ->
  expand_file_name path_max f default = Some e -> plain e -> tilde_name e = false ->
  resolve F cwd e = Some m -> m <> root F ->
  canonical_file_name realpath home path_max default f = Some c ->
  absolute c /\ resolve F cwd c = Some m.
Proof.
  intros F cwd rp home pm default f e m c T R E P Te H Nm C. unfold canonical_file_name in C. rewrite E, Te in C. unfold rep_canonical_file_name in C.
  rewrite cstr_plain in C by exact P. specialize (R e). destruct (rp e) as [q | ]; [ | congruence]. destruct R as (A & Pq & Eq & _ & En). injection C as <-.
  assert (Ch : chop q = q).
  { destruct En as [-> | En].
    - exfalso. rewrite H in Eq. cbn [resolve] in Eq. rewrite is_refl in Eq. change (split []) with [@nil ascii] in Eq. cbn [walk] in Eq.
      destruct (step F (root F) []) as [k | ] eqn:Es; [ | discriminate]. destruct (step_blank F (root F) [] k eq_refl Es) as [-> _]. congruence.
    - unfold chop. rewrite skip_stop; [apply rev_involutive | ]. intros (t & Ht). apply En. exists (rev t). rewrite <- (rev_involutive q), Ht. reflexivity. }
  rewrite Ch. split; [exact A | congruence].
Qed.
Print Assumptions C55_canonical_partial.
Definition small_realpath (p : str) : option str :=
  match resolve small 0 p with
  | Some 0 => Some (s "/") | Some 1 => Some (s "/d") | Some 2 => Some (s "/d/e") | Some 3 => Some (s "/d/f") | _ => None
  end.
Lemma small_numbers p n : resolve small 0 p = Some n -> n < 4.
Proof.
  assert (W : forall cs k, k < 4 -> forall n, walk small k cs = Some n -> n < 4).
  { induction cs as [ | c cs IH]; intros k Lk n' H; [cbn in H; injection H as <-; exact Lk | ]. cbn [walk] in H. destruct (step small k c) as [j | ] eqn:Es; [ | discriminate].
    apply (IH j); [ | exact H]. unfold step in Es. cbn [small isdir up entry] in Es. destruct (k <? 3); [ | discriminate].
    destruct (_ || _) in Es; [injection Es as <-; exact Lk | ]. destruct (str_eqb c [dot; dot]) in Es; [injection Es as <-; lia | ].
    destruct (_ && _) in Es; [injection Es as <-; lia | ]. destruct (_ && _) in Es; [injection Es as <-; lia | ]. destruct (_ && _) in Es; [injection Es as <-; lia | discriminate]. }
  intro H. destruct p as [ | c t]; [discriminate | ]. cbn [resolve] in H. destruct (is c slash); eapply W; try exact H; cbn; lia.
Qed.
Example C55_canonical_ex : realpath_ok small 0 small_realpath /\
  canonical_file_name small_realpath (fun _ => []) 4096 (s "/d/e") (s ".././f") = Some (s "/d/f").
Proof.
  split; [ | reflexivity]. intro p. unfold small_realpath. destruct (resolve small 0 p) as [n | ] eqn:E; [ | reflexivity].
  pose proof (small_numbers p n E) as L.
  assert (G : forall q n', absolute q -> plain q -> resolve small 0 q = Some n' -> (q = [slash] \/ ~ exists q', q = q' ++ [slash]) ->
    absolute q /\ plain q /\ resolve small 0 q = Some n' /\ Some n' <> None /\ (q = [slash] \/ ~ exists q', q = q' ++ [slash])) by (intros; repeat split; auto; discriminate).
  assert (Z : forall q x, x <> slash -> ~ exists q', q ++ [x] = q' ++ [slash]) by (intros q x X (q' & Y); apply app_inj_tail in Y; tauto).
  destruct n as [ | [ | [ | [ | n]]]]; [ | | | | lia]; apply G; try (vm_compute; intuition discriminate); try (eexists; reflexivity).
  - right. apply (Z (s "/")). discriminate.
  - right. apply (Z (s "/d/")). discriminate.
  - right. apply (Z (s "/d/")). discriminate.
Qed.

(* The root has the empty string as its canonical name.  That denotes nothing, and its canonical
   name is the one of the default directory. *)
Theorem C55_root_refuted : forall F cwd realpath home default, tree F -> realpath_ok F cwd realpath ->
  realpath (s "/") = Some (s "/") ->
  exists f c, canonical_file_name realpath home 4096 default f = Some c /\
    resolve F cwd f = Some (root F) /\ resolve F cwd c = None /\
    canonical_file_name realpath home 4096 (s "/d") c = canonical_file_name realpath home 4096 default (s "/d/").
Proof.
  intros F cwd rp home default T R E. exists (s "/"), []. split; [ | split; [ | split; [reflexivity | ]]].
  - unfold canonical_file_name. change (expand_file_name 4096 (s "/") default) with (Some (s "/")). change (tilde_name (s "/")) with false. cbv iota.
    unfold rep_canonical_file_name. change (cstr (s "/")) with (s "/"). rewrite E. reflexivity.
  - destruct T as (T & _). cbn [s list_ascii_of_string resolve]. change (is "/" slash) with true. cbv iota. change (split []) with [@nil ascii]. cbn [walk]. rewrite step_empty by exact T. reflexivity.
  - unfold canonical_file_name. change (expand_file_name 4096 [] (s "/d")) with (Some (s "/d/")). change (expand_file_name 4096 (s "/d/") default) with (Some (s "/d/")). reflexivity.
Qed.
Print Assumptions C55_root_refuted.
Example C55_root_ex : small_realpath (s "/") = Some (s "/") /\
  canonical_file_name small_realpath (fun _ => []) 4096 (s "/d") (s "/") = Some [] /\
  canonical_file_name small_realpath (fun _ => []) 4096 (s "/d") [] = Some (s "/d").
Proof. vm_compute. auto. Qed.

(* A name that realpath rejects and that fills the buffer is read past its end. *)
Theorem C55_long_name_refuted : forall path_max, exists realpath f, plain f /\ length f = path_max /\ rep_canonical_file_name realpath path_max f = None.
Proof.
  intro pm. exists (fun _ => None), (repeat tilde pm). assert (P : plain (repeat tilde pm)) by (intro H; apply repeat_spec in H; discriminate).
  split; [exact P | ]. rewrite repeat_length. split; [reflexivity | ]. unfold rep_canonical_file_name. rewrite cstr_plain, repeat_length by exact P. rewrite Nat.ltb_irrefl. reflexivity.
Qed.
Print Assumptions C55_long_name_refuted.

(* An operation on the file ~user/rest is done on the file that rest denotes in the home directory
   of user.  Partial: for the operations that the handler of tildes knows, and as in C53_tilde. *)
Theorem C55_operation_partial : forall F cwd path_max default home_of user rest h m op, tree F -> tilde_knows op = true ->
  ~ In slash user -> plain user -> plain rest -> ~ absolute rest ->
  absolute (home_of user) -> plain (home_of user) -> length (home_of user) + length rest + 2 <= path_max ->
  resolve F cwd (home_of user) = Some h -> resolve F h rest = Some m ->
  exists r, file_operation (fun u => rep_user_home_directory (home_of u)) path_max default op (tilde :: user ++ slash :: rest) = BuiltIn r /\
            resolve F cwd r = Some m.
Proof.
  intros F cwd pm default home user rest h m op T K Su Pu Pr Ar Ah Ph L Hh Hr.
  destruct (C53_tilde_partial F cwd pm default home user rest h m T Su Pu Pr Ar Ah Ph L Hh Hr) as (r & E & _ & R). exists r. split; [ | exact R].
  unfold local_file_name in E. unfold file_operation. destruct (expand_file_name pm (tilde :: user ++ slash :: rest) default) as [e | ]; [ | discriminate].
  rewrite K. destruct (tilde_name e); [rewrite E | injection E as ->]; reflexivity.
Qed.
Print Assumptions C55_operation_partial.
Example C55_operation_ex : tilde_knows file_readable_p = true /\
  file_operation (fun _ => rep_user_home_directory (s "/d")) 4096 (s "/") file_readable_p (s "~/f") = BuiltIn (s "/d/f").
Proof. vm_compute. auto. Qed.

(* The others signal an error, and not only for names with a tilde: rep starts with a default
   directory that begins with a tilde whenever it is started below the home directory
   (tilde.jl 95-103). *)
Theorem C55_operation_refuted : forall home op, In op [file_executable_p; file_gid; file_uid] ->
  file_operation home 4096 (s "~/") op (s "f") = Error /\ file_operation home 4096 (s "~/") file_readable_p (s "f") <> Error.
Proof.
  intros home op H. split; [cbn in H; destruct H as [<- | [<- | [<- | []]]]; reflexivity | ]. unfold file_operation.
  change (expand_file_name 4096 (s "f") (s "~/")) with (Some (s "~/f")). change (tilde_name (s "~/f")) with true. cbn [tilde_knows]. destruct (expand_file_name _ _ _); discriminate.
Qed.
Print Assumptions C55_operation_refuted.
