(* What rep_expand_file_name computes, and what that means *)
From Coq Require Import List Bool Arith Ascii Lia.
Import ListNotations.
From Verif Require Import Files_Model Files_Spec.

Arguments is : simpl never.

Definition dotdot : str := [dot; dot].

Lemma is_spec c d : is c d = true <-> c = d.
Proof. apply Ascii.eqb_eq. Qed.
Lemma is_refl c : is c c = true.
Proof. apply Ascii.eqb_refl. Qed.
Lemma is_not c d : is c d = false <-> c <> d.
Proof. apply Ascii.eqb_neq. Qed.

Lemma str_eqb_spec a b : str_eqb a b = true <-> a = b.
Proof. unfold str_eqb. destruct (list_eq_dec ascii_dec a b); split; congruence. Qed.
Lemma str_eqb_refl a : str_eqb a a = true.
Proof. apply str_eqb_spec. reflexivity. Qed.
Lemma str_eqb_not a b : a <> b -> str_eqb a b = false.
Proof. unfold str_eqb. destruct (list_eq_dec ascii_dec a b); congruence. Qed.

Lemma plain_cons c s : plain (c :: s) <-> c <> null /\ plain s.
Proof. unfold plain. cbn. intuition congruence. Qed.
Lemma plain_app a b : plain (a ++ b) <-> plain a /\ plain b.
Proof. unfold plain. rewrite in_app_iff. tauto. Qed.
Lemma cstr_plain s : plain s -> cstr s = s.
Proof.
  induction s as [ | c t IH]; intro H; [reflexivity | ]. apply plain_cons in H as [H1 H2]. cbn.
  apply is_not in H1. rewrite H1, IH by exact H2. reflexivity.
Qed.
Lemma plain_cstr s : plain (cstr s).
Proof.
  induction s as [ | c t IH]; [exact (fun x => x) | ]. cbn. destruct (is c null) eqn:E; [exact (fun x => x) | ].
  apply plain_cons. apply is_not in E. auto.
Qed.
Lemma length_cstr s : length (cstr s) <= length s.
Proof. induction s as [ | c t IH]; cbn; [lia | ]. destruct (is c null); cbn; lia. Qed.

(** * Splitting *)

Lemma split_cons s : exists p ps, split s = p :: ps.
Proof. destruct s as [ | c t]; cbn; [eauto | ]. destruct (is c slash); [eauto | ]. destruct (split t); eauto. Qed.

Lemma split_slash t : split (slash :: t) = [] :: split t.
Proof. reflexivity. Qed.

Lemma split_app_slash a b : split (a ++ slash :: b) = split a ++ split b.
Proof.
  induction a as [ | c t IH]; [reflexivity | ]. cbn. rewrite IH. destruct (is c slash); [reflexivity | ].
  destruct (split_cons t) as (p & ps & ->). reflexivity.
Qed.

Lemma split_none c : ~ In slash c -> split c = [c].
Proof.
  induction c as [ | x t IH]; [reflexivity | ]. cbn. intro H. assert (E : is x slash = false) by (apply is_not; intuition congruence).
  rewrite E, IH by tauto. reflexivity.
Qed.

Lemma split_slashed cs b : Forall (fun c => ~ In slash c) cs -> split (slashed cs ++ b) = cs ++ split b.
Proof.
  induction 1 as [ | c cs H _ IH]; [reflexivity | ]. unfold slashed. cbn. rewrite <- !app_assoc. cbn.
  rewrite split_app_slash, split_none by exact H. cbn. f_equal. exact IH.
Qed.

Lemma slashed_app a b : slashed (a ++ b) = slashed a ++ slashed b.
Proof. unfold slashed. rewrite map_app, concat_app. reflexivity. Qed.

Lemma split_parts s : Forall (fun c => ~ In slash c) (split s).
Proof.
  induction s as [ | c t IH]; [constructor; [tauto | constructor] | ]. cbn. destruct (is c slash) eqn:E; [constructor; [tauto | exact IH] | ].
  destruct (split t) as [ | p ps]; [constructor; [ | constructor] | inversion IH; subst; constructor; auto].
  - cbn. apply is_not in E. intuition congruence.
  - cbn. apply is_not in E. intuition congruence.
Qed.

Lemma split_null s : plain s -> Forall plain (split s).
Proof.
  induction s as [ | c t IH]; intro P; [constructor; [exact P | constructor] | ]. apply plain_cons in P as [P1 P2]. specialize (IH P2). cbn.
  destruct (is c slash); [constructor; [exact (fun x => x) | exact IH] | ].
  destruct (split t) as [ | p ps]; constructor; try constructor; inversion IH; subst; auto; apply plain_cons; auto. split; auto. exact (fun x => x).
Qed.

Lemma split_head s : split s = until_slash s :: match from_slash s with [] => [] | _ :: t => split t end.
Proof.
  induction s as [ | c t IH]; [reflexivity | ]. cbn. destruct (is c slash) eqn:E; [reflexivity | ]. rewrite IH. reflexivity.
Qed.

Lemma until_from s : s = until_slash s ++ from_slash s.
Proof. induction s as [ | c t IH]; [reflexivity | ]. cbn. destruct (is c slash); [reflexivity | cbn; congruence]. Qed.
Lemma until_no s : ~ In slash (until_slash s).
Proof. induction s as [ | c t IH]; [tauto | ]. cbn. destruct (is c slash) eqn:E; [tauto | ]. apply is_not in E. cbn. intuition congruence. Qed.
Lemma from_slash_cases s : from_slash s = [] \/ exists t, from_slash s = slash :: t.
Proof. induction s as [ | c t IH]; [auto | ]. cbn. destruct (is c slash) eqn:E; [ | exact IH]. apply is_spec in E. subst. eauto. Qed.
Lemma until_app a b : ~ In slash a -> until_slash (a ++ slash :: b) = a.
Proof. induction a as [ | c t IH]; intro H; [reflexivity | ]. cbn in *. assert (E : is c slash = false) by (apply is_not; intuition congruence). rewrite E, IH by tauto. reflexivity. Qed.
Lemma from_app a b : ~ In slash a -> from_slash (a ++ slash :: b) = slash :: b.
Proof. induction a as [ | c t IH]; intro H; [reflexivity | ]. cbn in *. assert (E : is c slash = false) by (apply is_not; intuition congruence). rewrite E, IH by tauto. reflexivity. Qed.
Lemma until_all a : ~ In slash a -> until_slash a = a.
Proof. induction a as [ | c t IH]; intro H; [reflexivity | ]. cbn in *. assert (E : is c slash = false) by (apply is_not; intuition congruence). rewrite E, IH by tauto. reflexivity. Qed.
Lemma from_all a : ~ In slash a -> from_slash a = [].
Proof. induction a as [ | c t IH]; intro H; [reflexivity | ]. cbn in *. assert (E : is c slash = false) by (apply is_not; intuition congruence). rewrite E, IH by tauto. reflexivity. Qed.
Lemma skip_stop i : ~ absolute i -> skip_slashes i = i.
Proof. destruct i as [ | c t]; [reflexivity | ]. intro H. cbn. destruct (is c slash) eqn:E; [ | reflexivity]. apply is_spec in E. subst. destruct H. exists t. reflexivity. Qed.
Lemma skip_not_abs i : ~ absolute (skip_slashes i).
Proof. induction i as [ | c t IH]; [intros [? H]; discriminate | ]. cbn. destruct (is c slash) eqn:E; [exact IH | ]. intros [x H]. injection H as -> _. rewrite is_refl in E. discriminate. Qed.
Lemma skip_length i : length (skip_slashes i) <= length i.
Proof. induction i as [ | c t IH]; cbn; [lia | ]. destruct (is c slash); cbn; lia. Qed.
Lemma skip_plain i : plain i -> plain (skip_slashes i).
Proof. induction i as [ | c t IH]; cbn; [auto | ]. intro H. destruct (is c slash); [apply IH; apply plain_cons in H; tauto | exact H]. Qed.

(** * The result by components *)

(* The directories entered so far, the innermost first, written with a slash after each *)
Definition show (abs : bool) (st : list str) : str := (if abs then [slash] else []) ++ slashed (rev st).

Definition pop (abs : bool) (st : list str) : option (list str) :=
  match st with
  | [] => if abs then Some [] else None
  | c :: st' => if str_eqb c dotdot then None else Some st'
  end.

(* cs: the parts of the input that are still to be read *)
Fixpoint fin (abs : bool) (st : list str) (cs : list str) : str :=
  match cs with
  | [] => show abs st
  | c :: cs' =>
    match cs' with
    | [] =>
      if str_eqb c [] || str_eqb c [dot] then show abs st
      else if str_eqb c dotdot then
        match pop abs st with Some st' => show abs st' | None => show abs st ++ c end
      else show abs st ++ c
    | _ :: _ =>
      if str_eqb c [] || str_eqb c [dot] then fin abs st cs'
      else if str_eqb c dotdot then
        match pop abs st with Some st' => fin abs st' cs' | None => fin abs (c :: st) cs' end
      else fin abs (c :: st) cs'
    end
  end.

(* What the stack looks like: ordinary components above dot-dots, and no dot-dots after a slash *)
Definition wf (abs : bool) (st : list str) : Prop :=
  exists ups names, st = rev (repeat dotdot ups ++ names) /\ Forall ordinary names /\ (abs = true -> ups = 0).

Lemma wf_nil abs : wf abs [].
Proof. exists 0, []. cbn. auto. Qed.

Lemma wf_push abs st c : wf abs st -> ordinary c -> wf abs (c :: st).
Proof.
  intros (u & ns & -> & H & A) O. exists u, (ns ++ [c]). rewrite app_assoc, (rev_app_distr _ [c]). split; [reflexivity | ].
  split; [apply Forall_app; auto | exact A].
Qed.

Lemma rev_repeat (A : Type) (x : A) n : rev (repeat x n) = repeat x n.
Proof. induction n as [ | n IH]; [reflexivity | ]. cbn. rewrite IH. symmetry. clear IH. induction n as [ | n IH]; [reflexivity | ]. cbn. f_equal. exact IH. Qed.

Lemma wf_pop abs st st' : wf abs st -> pop abs st = Some st' -> wf abs st'.
Proof.
  intros (u & ns & -> & H & A) P. destruct ns as [ | n0 ns0] eqn:En using rev_ind.
  - rewrite app_nil_r, rev_repeat in P. destruct u as [ | u]; cbn in P.
    + destruct abs; [injection P as <-; apply wf_nil | discriminate].
    + discriminate.
  - clear IHns0. rewrite app_assoc, rev_app_distr in P. cbn in P. apply Forall_app in H as [H1 H2]. inversion H2 as [ | ? ? (O1 & O2 & O3 & O4) _]; subst.
    rewrite str_eqb_not in P by exact O3. injection P as <-. exists u, ns0. auto.
Qed.

Lemma pop_none abs st : wf abs st -> pop abs st = None -> abs = false /\ exists u, st = repeat dotdot u.
Proof.
  intros (u & ns & -> & H & A) P. destruct ns as [ | n0 ns0] eqn:En using rev_ind.
  - rewrite app_nil_r, rev_repeat in *. split; [ | eauto]. destruct u as [ | u]; cbn in P; destruct abs; try discriminate; auto; discriminate (A eq_refl).
  - clear IHns0. rewrite app_assoc, rev_app_distr in P. cbn in P. apply Forall_app in H as [H1 H2]. inversion H2 as [ | ? ? (O1 & O2 & O3 & O4) _]; subst.
    rewrite str_eqb_not in P by exact O3. discriminate.
Qed.

Lemma wf_up abs st : wf abs st -> pop abs st = None -> wf abs (dotdot :: st).
Proof.
  intros W P. destruct (pop_none abs st W P) as [-> (u & ->)]. exists (S u), []. rewrite app_nil_r, rev_repeat. cbn.
  split; [reflexivity | ]. split; [constructor | discriminate].
Qed.

Lemma wf_parts abs st : wf abs st -> Forall (fun c => c = dotdot \/ ordinary c) st.
Proof.
  intros (u & ns & -> & H & _). apply Forall_rev. apply Forall_app. split.
  - clear. induction u; constructor; auto.
  - eapply Forall_impl; [ | exact H]. auto.
Qed.

Lemma part_no_slash c : c = dotdot \/ ordinary c -> ~ In slash c.
Proof. intros [-> | (_ & _ & _ & H & _)]; [ | exact H]. cbn. intuition discriminate. Qed.
Lemma part_nonempty c : c = dotdot \/ ordinary c -> c <> [].
Proof. intros [-> | (H & _)]; [discriminate | exact H]. Qed.

Lemma show_cons abs c st : show abs (c :: st) = show abs st ++ c ++ [slash].
Proof. unfold show. cbn [rev]. rewrite slashed_app, app_assoc. unfold slashed at 2. cbn. rewrite app_nil_r. reflexivity. Qed.

(** * The loop *)

Lemma fin_skip abs st i : fin abs st (split (skip_slashes i)) = fin abs st (split i).
Proof.
  induction i as [ | c t IH]; [reflexivity | ]. cbn [skip_slashes]. destruct (is c slash) eqn:E; [ | reflexivity].
  apply is_spec in E. subst. rewrite split_slash, IH. cbn [fin]. destruct (split_cons t) as (p & ps & ->). reflexivity.
Qed.

Lemma rev_out_app (s : str) b : rev (out (puts s b)) = rev (out b) ++ s.
Proof. unfold puts. cbn. rewrite rev_append_rev, rev_app_distr, rev_involutive. reflexivity. Qed.
Lemma rev_out_put c b : rev (out (put c b)) = rev (out b) ++ [c].
Proof. reflexivity. Qed.

Lemma out_show b abs c st : rev (out b) = show abs (c :: st) -> out b = slash :: rev c ++ rev (show abs st).
Proof. intro H. rewrite <- (rev_involutive (out b)), H, show_cons, !rev_app_distr. reflexivity. Qed.

Lemma until_end c d : ~ In slash c -> d = [] \/ absolute d -> until_slash (c ++ d) = c.
Proof. intros H [-> | (t & ->)]; [rewrite app_nil_r; apply until_all | apply until_app]; exact H. Qed.
Lemma from_end c d : ~ In slash c -> d = [] \/ absolute d -> from_slash (c ++ d) = d.
Proof. intros H [-> | (t & ->)]; [rewrite app_nil_r; apply from_all | apply from_app]; exact H. Qed.

Lemma rev_show_end abs st : Forall (fun c => c = dotdot \/ ordinary c) st -> rev (show abs st) = [] \/ absolute (rev (show abs st)).
Proof.
  destruct st as [ | c st]; intro H.
  - destruct abs; cbn; [right; eexists; reflexivity | auto].
  - right. rewrite show_cons, !rev_app_distr. eexists. reflexivity.
Qed.

Lemma all_dots_two c : forallb (is dot) (rev c) = true -> length c = 2 -> c = dotdot.
Proof.
  intros H L. destruct c as [ | a [ | b [ | ? ?]]]; cbn in L; try lia. cbn in H. apply andb_true_iff in H as [H1 H2]. apply andb_true_iff in H2 as [H2 _].
  apply is_spec in H1, H2. subst. reflexivity.
Qed.

Lemma parent_pop sf b abs st st' : wf abs st -> rev (out b) = show abs st -> pop abs st = Some st' ->
  rev (out (parent sf b)) = show abs st' /\ high (parent sf b) = high b.
Proof.
  intros W H P. pose proof (wf_parts abs st W) as Parts. destruct st as [ | c st].
  - cbn in P. destruct abs; [ | discriminate]. injection P as <-. cbn in H.
    assert (E : out b = [slash]) by (rewrite <- (rev_involutive (out b)), H; reflexivity).
    unfold parent, buf_at. rewrite E. cbn. auto.
  - cbn in P. destruct (str_eqb c dotdot) eqn:Ec; [discriminate | ]. injection P as <-.
    inversion Parts as [ | ? ? Pc Pst]; subst. pose proof (part_no_slash c Pc) as Sc. pose proof (part_nonempty c Pc) as Nc.
    pose proof (out_show b abs c st H) as E.
    assert (Sr : ~ In slash (rev c)) by (rewrite <- in_rev; exact Sc).
    pose proof (rev_show_end abs st Pst) as En.
    assert (Sk : skip_slashes (out b) = rev c ++ rev (show abs st)).
    { rewrite E. cbn [skip_slashes]. rewrite is_refl. apply skip_stop. intros (t & Ht).
      assert (R : rev c <> []) by (intro X; apply Nc; rewrite <- (rev_involutive c), X; reflexivity).
      destruct (rev c) as [ | x r]; [congruence | ]. injection Ht as -> _. apply Sr. left. reflexivity. }
    unfold parent. rewrite Sk, until_end, from_end by assumption. rewrite E. cbn [length]. rewrite !app_length, !rev_length.
    assert (L : (length (show abs st) <? S (length c + length (show abs st))) = true) by (apply Nat.ltb_lt; lia).
    rewrite L. unfold buf_at. rewrite H, show_cons, app_nth2 by lia. rewrite Nat.sub_diag.
    assert (Hc : is (nth 0 (c ++ [slash]) null) slash = false).
    { apply is_not. destruct c as [ | x r]; [congruence | ]. cbn. intro X. apply Sc. left. exact X. }
    rewrite Hc. cbn [negb andb]. replace (length c + length (show abs st) - length (show abs st)) with (length c) by lia.
    destruct (forallb (is dot) (rev c)) eqn:Ad; [ | cbn; rewrite rev_involutive; auto].
    destruct (length c =? 2) eqn:L2; [ | cbn; rewrite rev_involutive; auto].
    apply Nat.eqb_eq in L2. rewrite (all_dots_two c Ad L2), str_eqb_refl in Ec. discriminate.
Qed.

Lemma parent_stay sf b abs st : wf abs st -> rev (out b) = show abs st -> pop abs st = None ->
  parent sf b = if sf then put slash (put dot (put dot b)) else put dot (put dot b).
Proof.
  intros W H P. destruct (pop_none abs st W P) as [-> (u & ->)].
  destruct u as [ | u].
  - cbn in H. assert (E : out b = []) by (rewrite <- (rev_involutive (out b)), H; reflexivity). unfold parent. rewrite E. reflexivity.
  - cbn [repeat] in H. pose proof (out_show b false dotdot (repeat dotdot u) H) as E.
    assert (En : rev (show false (repeat dotdot u)) = [] \/ absolute (rev (show false (repeat dotdot u)))).
    { apply rev_show_end. clear. induction u; constructor; auto. }
    assert (Sr : ~ In slash (rev dotdot)) by (cbn; intuition discriminate).
    assert (Sk : skip_slashes (out b) = rev dotdot ++ rev (show false (repeat dotdot u))) by (rewrite E; reflexivity).
    unfold parent. rewrite Sk, until_end, from_end by assumption. rewrite !app_length, !rev_length.
    replace (length dotdot + length (show false (repeat dotdot u)) - length (show false (repeat dotdot u))) with 2 by (change (length dotdot) with 2; lia).
    change (forallb (is dot) (rev dotdot)) with true. cbn [negb orb Nat.eqb]. rewrite andb_false_r.
    assert (Q : (length dotdot + length (show false (repeat dotdot u)) =? length (show false (repeat dotdot u))) = false) by (apply Nat.eqb_neq; change (length dotdot) with 2; lia).
    rewrite Q. reflexivity.
Qed.

(* the length of what a step reads and the room it needs *)
Lemma high_put c b : high (put c b) = Nat.max (high b) (S (length (out b))).
Proof. reflexivity. Qed.
Lemma high_puts s b : high (puts s b) = Nat.max (high b) (length s + length (out b)).
Proof. reflexivity. Qed.
Lemma len_put c b : length (out (put c b)) = S (length (out b)).
Proof. reflexivity. Qed.
Lemma len_puts s b : length (out (puts s b)) = length s + length (out b).
Proof. cbn. rewrite rev_append_rev, app_length, rev_length. reflexivity. Qed.

Lemma len_show_pop abs st st' : pop abs st = Some st' -> length (show abs st') <= length (show abs st).
Proof.
  destruct st as [ | c st]; cbn [pop]; [destruct abs; [intros [= <-]; lia | discriminate] | ].
  destruct (str_eqb c dotdot); [discriminate | ]. intros [= <-]. rewrite show_cons, app_length. lia.
Qed.

Lemma dotdot_case i : plain i -> is (at_ i 0) dot && is (at_ i 1) dot && (is (at_ i 2) slash || is (at_ i 2) null) = true ->
  i = dotdot \/ exists t, i = dot :: dot :: slash :: t.
Proof.
  intros P H. destruct i as [ | a [ | b [ | c t]]]; cbn in H; rewrite ?andb_false_r in H; try discriminate.
  - apply andb_true_iff in H as [H _]. apply andb_true_iff in H as [H1 H2]. apply is_spec in H1, H2. subst. auto.
  - apply andb_true_iff in H as [H H3]. apply andb_true_iff in H as [H1 H2]. apply is_spec in H1, H2. subst. right.
    unfold at_ in H3. cbn in H3. rewrite !plain_cons in P. destruct P as (_ & _ & P & _). apply is_not in P. rewrite P, orb_false_r in H3.
    apply is_spec in H3. subst. eauto.
Qed.

Lemma dotdot_part i : plain i -> ~ absolute i ->
  is (at_ i 0) dot && is (at_ i 1) slash = false -> is (at_ i 0) dot && is (at_ i 1) null = false ->
  is (at_ i 0) dot && is (at_ i 1) dot && (is (at_ i 2) slash || is (at_ i 2) null) = false ->
  i <> [] -> ordinary (until_slash i).
Proof.
  intros P A H1 H2 H3 N. destruct i as [ | a t]; [congruence | ]. assert (Na : is a slash = false).
  { apply is_not. intros ->. apply A. eexists. reflexivity. }
  assert (Sl : ~ In slash (until_slash (a :: t))) by apply until_no.
  assert (Pl : ~ In null (until_slash (a :: t))).
  { intro X. apply P. rewrite (until_from (a :: t)). apply in_or_app. auto. }
  repeat split; try assumption.
  - cbn. rewrite Na. discriminate.
  - cbn. rewrite Na. intro E. injection E as -> E. unfold at_ in H1, H2. cbn in H1, H2. destruct t as [ | b t]; [discriminate | ].
    cbn in E, H1. destruct (is b slash); [discriminate | discriminate].
  - cbn. rewrite Na. intro E. injection E as -> E. destruct t as [ | b t]; [discriminate | ]. cbn in E. destruct (is b slash) eqn:Eb; [discriminate | ].
    injection E as -> E. unfold at_ in H3. cbn in H3. destruct t as [ | c t]; [discriminate | ]. cbn in E, H3. destruct (is c slash); discriminate.
Qed.

Lemma loop_nil n b : expand_loop n [] b = b.
Proof. destruct n; reflexivity. Qed.
Lemma loop_cons n i b : i <> [] -> expand_loop (S n) i b = (let (i', b') := expand_step i b in expand_loop n i' b').
Proof. destruct i; [congruence | reflexivity]. Qed.

(* an empty result is the current directory *)
Definition nonempty (s : str) : str := match s with [] => [dot] | _ => s end.

Theorem loop_fin : forall n i b abs st, length i <= n -> plain i -> ~ absolute i -> wf abs st ->
  rev (out b) = show abs st ->
  nonempty (rev (out (expand_loop n i b))) = nonempty (fin abs st (split i)) /\
  high (expand_loop n i b) <= Nat.max (high b) (Nat.max 1 (length (show abs st) + length i)).
Proof.
  induction n as [ | n IH]; intros i b abs st L P A W H.
  - destruct i; [ | cbn in L; lia]. cbn. rewrite H. split; [reflexivity | lia].
  - destruct (list_eq_dec ascii_dec i []) as [-> | Ne]; [cbn; rewrite H; split; [reflexivity | lia] | ].
    rewrite loop_cons by exact Ne. unfold expand_step. pose proof (wf_parts abs st W) as Parts.
    assert (Lo : length (out b) = length (show abs st)) by (rewrite <- H, rev_length; reflexivity).
    destruct (is (at_ i 0) dot && is (at_ i 1) slash) eqn:C1; [ | destruct (is (at_ i 0) dot && is (at_ i 1) null) eqn:C2;
      [ | destruct (is (at_ i 0) dot && is (at_ i 1) dot && (is (at_ i 2) slash || is (at_ i 2) null)) eqn:C3]].
    + (* a dot and a slash *)
      apply andb_true_iff in C1 as [E1 E2]. destruct i as [ | a [ | c t]]; try discriminate. unfold at_ in E1, E2. cbn in E1, E2.
      apply is_spec in E1, E2. subst. cbn [skipn]. rewrite !plain_cons in P. destruct P as (_ & _ & P).
      change (skip_slashes (slash :: t)) with (skip_slashes t). cbn [length] in L.
      destruct (IH (skip_slashes t) b abs st) as [I1 I2]; try assumption.
      { pose proof (skip_length t). lia. } { apply skip_plain, P. } { apply skip_not_abs. }
      rewrite I1, fin_skip. split.
      * change (split (dot :: slash :: t)) with ([dot] :: split t). cbn [fin]. destruct (split_cons t) as (p & ps & ->). reflexivity.
      * pose proof (skip_length t). cbn [length]. lia.
    + (* a dot at the end *)
      apply andb_true_iff in C2 as [E1 E2]. destruct i as [ | a [ | c t]]; try discriminate.
      2: { unfold at_ in E2. cbn in E2. apply is_spec in E2. subst. rewrite !plain_cons in P. tauto. }
      unfold at_ in E1. cbn in E1. apply is_spec in E1. subst. cbn [skipn]. rewrite loop_nil.
      change (fin abs st (split [dot])) with (show abs st). destruct (length (out b) =? 0) eqn:Z.
      * apply Nat.eqb_eq in Z. rewrite rev_out_put, H, high_put. assert (S0 : show abs st = []) by (apply length_zero_iff_nil; lia).
        rewrite S0. split; [reflexivity | lia].
      * rewrite H. split; [reflexivity | lia].
    + (* dot-dot *)
      destruct (dotdot_case i P C3) as [-> | (t & ->)].
      * cbn [at_ dotdot nth skipn]. change (is null null) with true. change (is null slash) with false. cbn [skipn skip_slashes]. rewrite loop_nil.
        change (split dotdot) with [dotdot]. cbn [fin]. change (str_eqb dotdot [] || str_eqb dotdot [dot]) with false. rewrite str_eqb_refl.
        destruct (pop abs st) as [st' | ] eqn:Ep.
        -- destruct (parent_pop false b abs st st' W H Ep) as [-> ->]. split; [reflexivity | lia].
        -- rewrite (parent_stay false b abs st W H Ep). rewrite !rev_out_put, H, <- app_assoc. split; [reflexivity | ].
           rewrite !high_put, len_put. cbn [length dotdot]. lia.
      * cbn [at_ nth]. change (is slash null) with false. change (is slash slash) with true. cbn [skipn]. rewrite !plain_cons in P. destruct P as (_ & _ & _ & P).
        change (split (dot :: dot :: slash :: t)) with (dotdot :: split t). cbn [length] in L.
        assert (Fi : fin abs st (dotdot :: split t) = match pop abs st with Some st' => fin abs st' (split t) | None => fin abs (dotdot :: st) (split t) end).
        { cbn [fin]. destruct (split_cons t) as (p & ps & ->). reflexivity. }
        rewrite Fi. pose proof (skip_length t) as Ls. destruct (pop abs st) as [st' | ] eqn:Ep.
        -- destruct (parent_pop true b abs st st' W H Ep) as [R Hi].
           destruct (IH (skip_slashes t) (parent true b) abs st') as [I1 I2]; [lia | apply skip_plain, P | apply skip_not_abs | eapply wf_pop; eauto | exact R | ].
           rewrite I1, fin_skip. split; [reflexivity | ]. pose proof (len_show_pop abs st st' Ep). cbn [length]. lia.
        -- pose proof (parent_stay true b abs st W H Ep) as R. cbn iota in R. rewrite R.
           destruct (IH (skip_slashes t) (put slash (put dot (put dot b))) abs (dotdot :: st)) as [I1 I2]; [lia | apply skip_plain, P | apply skip_not_abs | apply wf_up; assumption | | ].
           { rewrite !rev_out_put, H, show_cons, <- !app_assoc. reflexivity. }
           rewrite I1, fin_skip. split; [reflexivity | ]. rewrite show_cons in I2. rewrite !app_length in I2. rewrite !high_put, !len_put in I2. cbn [length dotdot] in *. lia.
    + (* anything else *)
      pose proof (dotdot_part i P A C1 C2 C3 Ne) as O. pose proof (until_from i) as U. destruct O as (O1 & O2 & O3 & O4 & O5).
      rewrite (split_head i). pose proof (f_equal (@length _) U) as Lu. rewrite app_length in Lu.
      destruct (from_slash_cases i) as [F | (t & F)]; rewrite F in *.
      * cbn [at_ nth]. change (is null slash) with false. cbn [skip_slashes]. rewrite loop_nil, rev_out_app, H. cbn [fin].
        rewrite !str_eqb_not by assumption. split; [reflexivity | ]. rewrite high_puts. cbn [length] in Lu. lia.
      * cbn [at_ nth]. change (is slash slash) with true. cbn [skipn].
        assert (Pt : plain t). { rewrite U in P. apply plain_app in P as [_ P]. apply plain_cons in P. tauto. }
        pose proof (skip_length t) as Ls. cbn [length] in Lu.
        destruct (IH (skip_slashes t) (put slash (puts (until_slash i) b)) abs (until_slash i :: st)) as [I1 I2]; [lia | apply skip_plain, Pt | apply skip_not_abs | apply wf_push; [exact W | repeat split; assumption] | | ].
        { rewrite rev_out_put, rev_out_app, H, show_cons, <- app_assoc. reflexivity. }
        rewrite I1, fin_skip. split.
        -- cbn [fin]. destruct (split_cons t) as (p & ps & ->). rewrite !str_eqb_not by assumption. reflexivity.
        -- rewrite show_cons, !app_length in I2. rewrite high_put, high_puts, len_puts in I2. cbn [length] in I2. lia.
Qed.

(* the result for a whole name *)
Definition result (f : str) : str :=
  match f with
  | c :: t => if is c slash then fin true [] (split t) else nonempty (fin false [] (split f))
  | [] => [dot]
  end.

Lemma fin_abs st cs : exists t, fin true st cs = slash :: t.
Proof.
  revert st. induction cs as [ | c cs IH]; intro st; [eexists; reflexivity | ]. cbn [fin]. destruct cs as [ | d cs].
  - destruct (str_eqb c [] || str_eqb c [dot]); [eexists; reflexivity | ]. destruct (str_eqb c dotdot); [destruct (pop true st) | ]; eexists; reflexivity.
  - destruct (str_eqb c [] || str_eqb c [dot]); [apply IH | ]. destruct (str_eqb c dotdot); [destruct (pop true st) | ]; apply IH.
Qed.

Lemma final_dot b : rev (out (if length (out b) =? 0 then put dot b else b)) = nonempty (rev (out b)).
Proof.
  destruct (length (out b) =? 0) eqn:E.
  - apply Nat.eqb_eq, length_zero_iff_nil in E. rewrite rev_out_put, E. reflexivity.
  - destruct (out b) as [ | c o]; [discriminate | ]. destruct (rev (c :: o)) eqn:R; [ | reflexivity].
    apply (f_equal (@rev _)) in R. rewrite rev_involutive in R. discriminate.
Qed.

Theorem expand_result f : plain f -> rev (out (expand_buffer f)) = result f /\ high (expand_buffer f) <= Nat.max 1 (length f).
Proof.
  intro P. unfold expand_buffer. rewrite cstr_plain by exact P. rewrite final_dot.
  assert (G : nonempty (rev (out (expand_loop (length f) f (Buffer [] 0)))) = result f /\ high (expand_loop (length f) f (Buffer [] 0)) <= Nat.max 1 (length f)).
  { destruct f as [ | c t]; [cbn; split; [reflexivity | lia] | ]. destruct (is c slash) eqn:E.
    - apply is_spec in E. subst. cbn [length expand_loop]. unfold expand_step. cbn [at_ nth until_slash from_slash].
      change (is slash dot) with false. cbn [andb]. rewrite is_refl. cbn [at_ nth]. rewrite is_refl. cbn [skipn].
      apply plain_cons in P as [_ P]. pose proof (skip_length t) as Ls.
      destruct (loop_fin (length t) (skip_slashes t) (put slash (puts [] (Buffer [] 0))) true []) as [I1 I2]; [exact Ls | apply skip_plain, P | apply skip_not_abs | apply wf_nil | reflexivity | ].
      rewrite I1, fin_skip. unfold result. rewrite is_refl. destruct (fin_abs [] (split t)) as (u & ->). split; [reflexivity | ].
      unfold show in I2. cbn in I2. lia.
    - destruct (loop_fin (length (c :: t)) (c :: t) (Buffer [] 0) false []) as [I1 I2]; [lia | exact P | | apply wf_nil | reflexivity | ].
      { intros (u & Hu). injection Hu as -> _. discriminate. }
      rewrite I1. unfold result. rewrite E. split; [reflexivity | ]. unfold show in I2. cbn [app length rev slashed map concat high] in I2. cbn [length]. lia. }
  destruct G as [G1 G2]. split; [exact G1 | ].
  destruct (length (out (expand_loop (length f) f (Buffer [] 0))) =? 0) eqn:E; [ | exact G2]. apply Nat.eqb_eq in E. rewrite high_put, E. lia.
Qed.

(** * The file that the result denotes *)

Section Walking.
Variable F : fs.
Hypothesis T : tree F.

Lemma walk_app n a b : walk F n (a ++ b) = match walk F n a with Some m => walk F m b | None => None end.
Proof. revert n. induction a as [ | c a IH]; intro n; [reflexivity | ]. cbn. destruct (step F n c); [apply IH | reflexivity]. Qed.

Lemma step_blank n c m : str_eqb c [] || str_eqb c [dot] = true -> step F n c = Some m -> m = n /\ isdir F n = true.
Proof. unfold step. intros ->. destruct (isdir F n); [intros [= ->]; auto | discriminate]. Qed.

Lemma step_up n m : step F n dotdot = Some m -> m = up F n /\ isdir F n = true.
Proof. unfold step. destruct (isdir F n); [ | discriminate]. cbn. intros [= ->]. auto. Qed.

Lemma step_ordinary n c : c <> [] -> c <> [dot] -> c <> dotdot -> step F n c = if isdir F n then entry F n c else None.
Proof. intros H1 H2 H3. unfold step. rewrite !str_eqb_not by assumption. reflexivity. Qed.

Lemma step_empty n : isdir F n = true -> step F n [] = Some n.
Proof. unfold step. intros ->. reflexivity. Qed.

(* the start of a name *)
Definition start (abs : bool) (cwd : node F) := if abs then root F else cwd.

Lemma resolve_show abs cwd st c : Forall (fun c => c = dotdot \/ ordinary c) st -> ~ In slash c -> show abs st ++ c <> [] ->
  resolve F cwd (show abs st ++ c) = walk F (start abs cwd) (rev st ++ [c]).
Proof.
  intros Ps Sc Ne. unfold show in *. assert (Q : Forall (fun c => ~ In slash c) (rev st)).
  { apply Forall_rev. eapply Forall_impl; [ | exact Ps]. apply part_no_slash. }
  destruct abs; cbn [start app].
  - cbn [resolve]. rewrite is_refl. rewrite split_slashed by exact Q. rewrite split_none by exact Sc. reflexivity.
  - cbn [app] in Ne. destruct (slashed (rev st) ++ c) as [ | x t] eqn:E; [congruence | ]. cbn [resolve].
    assert (X : is x slash = false).
    { apply is_not. intros ->. destruct (rev st) as [ | d r] eqn:Er.
      - cbn in E. subst. apply Sc. left. reflexivity.
      - unfold slashed in E. cbn in E. rewrite <- !app_assoc in E.
        assert (Pd : d = dotdot \/ ordinary d) by (rewrite <- (rev_involutive st), Er in Ps; apply Forall_rev in Ps; rewrite rev_involutive in Ps; inversion Ps; assumption).
        destruct d as [ | y d]; [apply (part_nonempty [] Pd); reflexivity | ]. injection E as -> _. apply (part_no_slash _ Pd). left. reflexivity. }
    rewrite X, <- E, split_slashed by exact Q. rewrite split_none by exact Sc. reflexivity.
Qed.

Lemma walk_pop abs cwd st st' cs m : wf abs st -> pop abs st = Some st' ->
  walk F (start abs cwd) (rev st ++ dotdot :: cs) = Some m ->
  walk F (start abs cwd) (rev st' ++ cs) = Some m /\ exists d, walk F (start abs cwd) (rev st') = Some d /\ isdir F d = true.
Proof.
  destruct T as (T1 & T2 & T3). intros W P H. pose proof (wf_parts abs st W) as Ps. destruct st as [ | c st].
  - cbn in P. destruct abs; [ | discriminate]. injection P as <-. cbn [rev app walk start] in *.
    destruct (step F (root F) dotdot) as [x | ] eqn:E; [ | discriminate]. apply step_up in E as [-> E]. rewrite T2 in H. split; [exact H | eauto].
  - cbn in P. destruct (str_eqb c dotdot) eqn:Ec; [discriminate | ]. injection P as <-. inversion Ps as [ | ? ? Pc Pst]; subst.
    destruct Pc as [-> | (O1 & O2 & O3 & O4 & O5)]; [rewrite str_eqb_refl in Ec; discriminate | ].
    cbn [rev] in H. rewrite <- app_assoc in H. cbn [app] in H. rewrite walk_app in *.
    destruct (walk F (start abs cwd) (rev st)) as [d | ] eqn:Ed; [ | discriminate]. cbn [walk] in H.
    rewrite step_ordinary in H by assumption. destruct (isdir F d) eqn:Dd; [ | discriminate].
    destruct (entry F d c) as [e | ] eqn:Ee; [ | discriminate]. destruct (step F e dotdot) as [x | ] eqn:Ex; [ | discriminate].
    apply step_up in Ex as [-> De]. rewrite (T3 d c e Ee De) in H. split; [exact H | eauto].
Qed.

Lemma fin_walk cwd abs : forall cs st m, cs <> [] -> Forall (fun c => ~ In slash c) cs -> Forall plain cs -> wf abs st ->
  walk F (start abs cwd) (rev st ++ cs) = Some m -> resolve F cwd (nonempty (fin abs st cs)) = Some m.
Proof.
  assert (Show : forall st m, wf abs st -> walk F (start abs cwd) (rev st) = Some m -> isdir F m = true -> resolve F cwd (nonempty (show abs st)) = Some m).
  { intros st m W H D. pose proof (wf_parts abs st W) as Ps. destruct (list_eq_dec ascii_dec (show abs st) []) as [E | E].
    - rewrite E. cbn [nonempty resolve]. unfold show in E. destruct abs; [discriminate | ]. assert (S0 : st = []).
      { destruct st as [ | c st]; [reflexivity | ]. cbn [rev] in E. rewrite slashed_app in E. unfold slashed in E at 2. cbn in E.
        apply app_eq_nil in E as [_ E]. apply app_eq_nil in E as [E _]. apply app_eq_nil in E as [_ E]. discriminate. }
      subst. cbn in H. injection H as ->. change (is dot slash) with false. change (split [dot]) with [[dot]]. cbn [walk]. unfold step. rewrite D. reflexivity.
    - replace (nonempty (show abs st)) with (show abs st ++ []) by (rewrite app_nil_r; destruct (show abs st); [congruence | reflexivity]).
      rewrite resolve_show; [ | exact Ps | tauto | rewrite app_nil_r; exact E]. rewrite walk_app, H. cbn [walk]. rewrite step_empty by exact D. reflexivity. }
  assert (Ne : forall s, s <> [] -> nonempty s = s) by (intros [ | ? ?]; [congruence | reflexivity]).
  induction cs as [ | c cs IH]; intros st m N Ss Pl W H; [congruence | ]. inversion Ss as [ | ? ? Sc Scs]; subst. inversion Pl as [ | ? ? Pc Pcs]; subst.
  cbn [fin]. destruct cs as [ | d cs].
  - destruct (str_eqb c [] || str_eqb c [dot]) eqn:Eb.
    + rewrite walk_app in H. destruct (walk F (start abs cwd) (rev st)) as [x | ] eqn:Ex; [ | discriminate]. cbn [walk] in H.
      destruct (step F x c) as [y | ] eqn:Ey; [ | discriminate]. injection H as ->. destruct (step_blank x c m Eb Ey) as [-> D]. apply Show; assumption.
    + destruct (str_eqb c dotdot) eqn:Ed.
      * apply str_eqb_spec in Ed. subst. destruct (pop abs st) as [st' | ] eqn:Ep.
        -- destruct (walk_pop abs cwd st st' [] m W Ep H) as [H' (d & Hd & D)]. rewrite app_nil_r, Hd in H'. injection H' as ->. apply Show; [eapply wf_pop; eauto | assumption | assumption].
        -- rewrite Ne by (intro X; apply app_eq_nil in X as [_ X]; discriminate). rewrite resolve_show; [exact H | apply (wf_parts abs), W | exact Sc | intro X; apply app_eq_nil in X as [_ X]; discriminate].
      * assert (Nc : c <> []) by (intros ->; discriminate).
        rewrite Ne by (intro X; apply app_eq_nil in X as [_ X]; congruence). rewrite resolve_show; [exact H | apply (wf_parts abs), W | exact Sc | intro X; apply app_eq_nil in X as [_ X]; congruence].
  - destruct (str_eqb c [] || str_eqb c [dot]) eqn:Eb.
    + apply IH; try assumption; [discriminate | ]. rewrite walk_app in *. destruct (walk F (start abs cwd) (rev st)) as [x | ] eqn:Ex; [ | discriminate].
      cbn [walk] in H. destruct (step F x c) as [y | ] eqn:Ey; [ | discriminate]. destruct (step_blank x c y Eb Ey) as [-> D]. exact H.
    + destruct (str_eqb c dotdot) eqn:Ed.
      * apply str_eqb_spec in Ed. subst. destruct (pop abs st) as [st' | ] eqn:Ep.
        -- apply IH; try assumption; [discriminate | eapply wf_pop; eauto | ]. apply (walk_pop abs cwd st st' (d :: cs) m W Ep H).
        -- apply IH; try assumption; [discriminate | apply wf_up; assumption | ]. cbn [rev]. rewrite <- app_assoc. exact H.
      * apply IH; try assumption; [discriminate | | cbn [rev]; rewrite <- app_assoc; exact H].
        apply wf_push; [exact W | ]. apply orb_false_iff in Eb as [E1 E2]. repeat split; try assumption; intros ->; rewrite str_eqb_refl in *; discriminate.
Qed.

Theorem result_resolve cwd f m : plain f -> resolve F cwd f = Some m -> resolve F cwd (result f) = Some m.
Proof.
  intros P H. destruct f as [ | c t]; [discriminate | ]. cbn [resolve result] in *. destruct (is c slash) eqn:E.
  - destruct (fin_abs [] (split t)) as (u & Eu). replace (fin true [] (split t)) with (nonempty (fin true [] (split t))) by (rewrite Eu; reflexivity).
    apply plain_cons in P as [_ P]. apply fin_walk; [destruct (split_cons t) as (p & ps & ->); discriminate | apply split_parts | apply split_null, P | apply wf_nil | exact H].
  - apply fin_walk; [destruct (split_cons (c :: t)) as (p & ps & ->); discriminate | apply split_parts | apply split_null, P | apply wf_nil | exact H].
Qed.

End Walking.

(** * The shape of the result *)

Lemma fin_name abs : forall cs st, Forall (fun c => ~ In slash c) cs -> Forall plain cs -> wf abs st ->
  exists ups names final, name_of abs ups names final (fin abs st cs).
Proof.
  assert (Show : forall st, wf abs st -> exists ups names final, name_of abs ups names final (show abs st)).
  { intros st (u & ns & -> & O & A). exists u, ns, true. split; [exact O | ]. split; [exact A | ]. unfold show. rewrite rev_involutive. reflexivity. }
  assert (Tail : forall st c, wf abs (c :: st) -> exists ups names final, name_of abs ups names final (show abs st ++ c)).
  { intros st c (u & ns & E & O & A). exists u, ns, false. split; [exact O | ]. split; [exact A | ]. unfold show. rewrite <- !app_assoc.
    assert (E' : repeat dotdot u ++ ns = rev st ++ [c]) by (rewrite <- (rev_involutive (repeat dotdot u ++ ns)), <- E; reflexivity).
    change [dot; dot] with dotdot. rewrite E'. split; [ | intro X; apply app_eq_nil in X as [_ X]; discriminate].
    rewrite slashed_app. unfold slashed at 3. cbn. rewrite app_nil_r. reflexivity. }
  induction cs as [ | c cs IH]; intros st Ss Pl W; [apply Show, W | ]. inversion Ss as [ | ? ? Sc Scs]; subst. inversion Pl as [ | ? ? Pc Pcs]; subst.
  assert (Oc : str_eqb c [] || str_eqb c [dot] = false -> str_eqb c dotdot = false -> ordinary c).
  { intros Eb Ed. apply orb_false_iff in Eb as [E1 E2]. repeat split; try assumption; intros ->; rewrite str_eqb_refl in *; discriminate. }
  cbn [fin]. destruct cs as [ | d cs].
  - destruct (str_eqb c [] || str_eqb c [dot]) eqn:Eb; [apply Show, W | ]. destruct (str_eqb c dotdot) eqn:Ed.
    + apply str_eqb_spec in Ed. subst. destruct (pop abs st) as [st' | ] eqn:Ep; [apply Show; eapply wf_pop; eauto | apply Tail, wf_up; assumption].
    + apply Tail, wf_push; [exact W | apply Oc; auto].
  - destruct (str_eqb c [] || str_eqb c [dot]) eqn:Eb; [apply IH; assumption | ]. destruct (str_eqb c dotdot) eqn:Ed.
    + apply str_eqb_spec in Ed. subst. destruct (pop abs st) as [st' | ] eqn:Ep; apply IH; try assumption; [eapply wf_pop; eauto | apply wf_up; assumption].
    + apply IH; try assumption. apply wf_push; [exact W | apply Oc; auto].
Qed.

Lemma result_nonempty f : result f <> [].
Proof.
  destruct f as [ | c t]; [discriminate | ]. cbn [result]. destruct (is c slash); [destruct (fin_abs [] (split t)) as (u & ->); discriminate | ].
  destruct (fin false [] (split (c :: t))); discriminate.
Qed.

Theorem result_simple f : plain f -> simple (result f).
Proof.
  intro P. destruct f as [ | c t]; [left; reflexivity | ]. pose proof (result_nonempty (c :: t)) as N. cbn [result] in *. destruct (is c slash) eqn:E.
  - right. exists true. apply plain_cons in P as [_ P]. destruct (fin_name true (split t) [] (split_parts t) (split_null t P) (wf_nil true)) as (u & ns & fl & H). eauto 6.
  - destruct (fin_name false (split (c :: t)) [] (split_parts (c :: t)) (split_null (c :: t) P) (wf_nil false)) as (u & ns & fl & H).
    destruct (fin false [] (split (c :: t))) as [ | x r] eqn:Ef; [left; reflexivity | right]. cbn [nonempty]. exists false, u, ns, fl. split; [exact H | discriminate].
Qed.

(* simple names are left alone *)
Lemma fin_push abs : forall cs st d, Forall (fun c => c = dotdot \/ ordinary c) cs -> wf abs (rev cs ++ st) -> (forall x y, rev cs ++ st = x ++ y -> wf abs y) ->
  fin abs st (cs ++ [d]) = fin abs (rev cs ++ st) [d].
Proof.
  induction cs as [ | c cs IH]; intros st d Ps W Ws; [reflexivity | ]. inversion Ps as [ | ? ? Pc Pcs]; subst.
  cbn [rev] in *. rewrite <- !app_assoc in *. cbn [app] in *.
  assert (E : fin abs st (c :: cs ++ [d]) = fin abs (c :: st) (cs ++ [d])).
  { cbn [fin]. destruct (cs ++ [d]) as [ | x l] eqn:El; [destruct cs; discriminate | ]. destruct Pc as [-> | (O1 & O2 & O3 & O4 & O5)].
    - change (str_eqb dotdot [] || str_eqb dotdot [dot]) with false. rewrite str_eqb_refl.
      assert (W1 : wf abs (dotdot :: st)) by (apply (Ws (rev cs)); reflexivity). destruct W1 as (u & ns & Eu & O & A).
      destruct ns as [ | n0 ns1] eqn:En using rev_ind.
      + rewrite app_nil_r, rev_repeat in Eu. destruct u as [ | u]; [discriminate | ]. cbn in Eu. injection Eu as ->. destruct abs; [discriminate A; reflexivity | ].
        destruct u as [ | u]; reflexivity.
      + rewrite app_assoc, rev_app_distr in Eu. injection Eu as <- _. apply Forall_app in O as [_ O]. inversion O as [ | ? ? (_ & _ & X & _) _]; subst. destruct X. reflexivity.
    - rewrite !str_eqb_not by assumption. reflexivity. }
  rewrite E. apply IH; assumption.
Qed.

Lemma wf_suffix abs x y : wf abs (x ++ y) -> wf abs y.
Proof.
  induction x as [ | c x IH]; [auto | ]. intro H. apply IH. cbn in H. destruct H as (u & ns & E & O & A).
  destruct ns as [ | n0 ns1] eqn:En using rev_ind.
  - rewrite app_nil_r, rev_repeat in E. destruct u as [ | u]; [discriminate | ]. cbn in E. injection E as _ E. exists u, []. rewrite app_nil_r, rev_repeat. split; [exact E | ]. split; [constructor | ]. intro X. specialize (A X). discriminate.
  - rewrite app_assoc, rev_app_distr in E. cbn in E. injection E as _ E. apply Forall_app in O as [O _]. exists u, ns1. auto.
Qed.

Lemma slashed_end cs : cs <> [] -> exists a c, cs = a ++ [c] /\ slashed cs = (slashed a ++ c) ++ [slash].
Proof.
  destruct cs as [ | c0 cs0] eqn:E using rev_ind; [congruence | ]. intros _. exists cs0, c0. split; [reflexivity | ]. rewrite slashed_app. unfold slashed at 2. cbn. rewrite app_nil_r, app_assoc. reflexivity.
Qed.

Lemma fin_fixed abs ups names final s t : name_of abs ups names final s -> s = (if abs then [slash] else []) ++ t -> fin abs [] (split t) = s.
Proof.
  intros (O & A & H) E. change [dot; dot] with dotdot in H. set (cs := repeat dotdot ups ++ names) in *.
  assert (W : wf abs (rev cs)) by (exists ups, names; auto).
  assert (Ps : Forall (fun c => c = dotdot \/ ordinary c) cs) by (rewrite <- (rev_involutive cs); apply Forall_rev; apply (wf_parts abs), W).
  assert (Sl : Forall (fun c => ~ In slash c) cs) by (eapply Forall_impl; [ | exact Ps]; apply part_no_slash).
  destruct final.
  - assert (Et : t = slashed cs ++ []) by (rewrite app_nil_r; rewrite E in H; destruct abs; [injection H | ]; auto).
    rewrite Et, split_slashed by exact Sl. change (split []) with [@nil ascii]. rewrite fin_push; [ | exact Ps | rewrite app_nil_r; exact W | intros x y X; rewrite app_nil_r in X; apply (wf_suffix abs x); rewrite <- X; exact W].
    rewrite app_nil_r. cbn [fin]. rewrite H. unfold show. rewrite rev_involutive. reflexivity.
  - destruct H as [H N]. destruct (slashed_end cs N) as (a & c & Ec & Es). rewrite Es in H.
    assert (Et : t = slashed a ++ c). { rewrite E in H. rewrite <- app_assoc in H. apply app_inv_head in H. apply app_inj_tail in H as [H _]. exact H. }
    rewrite Ec in Sl, Ps. apply Forall_app in Sl as [Sa Sc]. inversion Sc as [ | ? ? Sc' _]; subst. apply Forall_app in Ps as [Pa Pc]. inversion Pc as [ | ? ? Pc' _]; subst.
    rewrite split_slashed by exact Sa. rewrite split_none by exact Sc'. rewrite Ec, rev_app_distr in W. cbn in W.
    rewrite fin_push; [ | exact Pa | rewrite app_nil_r; apply (wf_suffix abs [c]); exact W | intros x y X; rewrite app_nil_r in X; apply (wf_suffix abs (c :: x)); cbn; rewrite <- X; exact W].
    rewrite app_nil_r. cbn [fin]. destruct Pc' as [-> | (O1 & O2 & O3 & O4 & O5)].
    + change (str_eqb dotdot [] || str_eqb dotdot [dot]) with false. rewrite str_eqb_refl.
      assert (Pn : pop abs (rev a) = None).
      { destruct W as (u & ns & Eu & O' & A'). destruct ns as [ | n0 ns1] eqn:En using rev_ind.
        - rewrite app_nil_r, rev_repeat in Eu. destruct u as [ | u]; [discriminate | ]. cbn in Eu. injection Eu as ->. destruct abs; [discriminate A'; reflexivity | ]. destruct u; reflexivity.
        - rewrite app_assoc, rev_app_distr in Eu. injection Eu as <- _. apply Forall_app in O' as [_ O']. inversion O' as [ | ? ? (_ & _ & X & _) _]; subst. destruct X. reflexivity. }
      rewrite Pn. unfold show. rewrite rev_involutive, <- app_assoc. reflexivity.
    + rewrite !str_eqb_not by assumption. unfold show. rewrite rev_involutive, <- app_assoc. reflexivity.
Qed.

Lemma name_start ups names final s : name_of false ups names final s -> ~ absolute s.
Proof.
  intros (O & _ & H) (t & ->). change [dot; dot] with dotdot in H. set (cs := repeat dotdot ups ++ names) in *.
  assert (Ps : Forall (fun c => c = dotdot \/ ordinary c) cs).
  { apply Forall_app. split; [ | eapply Forall_impl; [ | exact O]; auto]. clear. induction ups; constructor; auto. }
  assert (E : exists r, slash :: r = slashed cs) by (destruct final; [exists t; exact H | destruct H as [H _]; exists (t ++ [slash]); exact H]).
  destruct E as (r & E). destruct cs as [ | c cs]; [discriminate | ]. inversion Ps as [ | ? ? Pc _]; subst. unfold slashed in E. cbn in E. rewrite <- !app_assoc in E.
  destruct c as [ | x c]; [apply (part_nonempty [] Pc); reflexivity | ]. injection E as <- _. apply (part_no_slash _ Pc). left. reflexivity.
Qed.

Theorem simple_fixed s : simple s -> result s = s.
Proof.
  intros [-> | (abs & u & ns & fl & H & N)]; [reflexivity | ]. destruct abs.
  - assert (E : exists t, s = slash :: t).
    { destruct H as (_ & _ & H). destruct fl; [eexists; exact H | ]. destruct H as [H _]. destruct s as [ | x s]; [congruence | ]. injection H as -> _. eauto. }
    destruct E as (t & ->). cbn [result]. rewrite is_refl. apply (fin_fixed true u ns fl); [exact H | reflexivity].
  - pose proof (name_start u ns fl s H) as A. destruct s as [ | c t]; [congruence | ]. cbn [result].
    assert (E : is c slash = false) by (apply is_not; intros ->; apply A; eexists; reflexivity). rewrite E.
    rewrite (fin_fixed false u ns fl (c :: t) (c :: t) H eq_refl). reflexivity.
Qed.

Lemma simple_plain s : simple s -> plain s.
Proof.
  intros [-> | (abs & u & ns & fl & (O & _ & H) & N)]; [intros [X | []]; discriminate | ].
  assert (G : plain ((if abs then [slash] else []) ++ slashed (@repeat str [dot; dot] u ++ ns))).
  { apply plain_app. split; [destruct abs; [intros [X | []]; discriminate | exact (fun x => x)] | ]. rewrite slashed_app. apply plain_app. split.
    - clear. induction u as [ | u IH]; [exact (fun x => x) | ]. unfold slashed. cbn. rewrite !plain_cons. repeat split; try discriminate. exact IH.
    - clear - O. induction O as [ | c cs (_ & _ & _ & _ & H) _ IH]; [exact (fun x => x) | ]. unfold slashed. cbn. rewrite <- app_assoc. apply plain_app. split; [exact H | ]. apply plain_cons. split; [discriminate | exact IH]. }
  destruct fl; [subst; exact G | ]. destruct H as [H _]. rewrite <- H in G. apply plain_app in G. tauto.
Qed.

Theorem expand_idempotent f : plain f -> result (result f) = result f.
Proof. intro P. apply simple_fixed, result_simple, P. Qed.

Lemma result_length f : plain f -> length (result f) <= Nat.max 1 (length f).
Proof.
  intro P. destruct (expand_result f P) as [E H]. rewrite <- E, rev_length. assert (G : length (out (expand_buffer f)) <= high (expand_buffer f)); [ | lia].
  unfold expand_buffer. rewrite cstr_plain by exact P.
  assert (Step : forall i b, length (out b) <= high b -> length (out (snd (expand_step i b))) <= high (snd (expand_step i b))).
  { intros i b L. unfold expand_step. destruct (is (at_ i 0) dot && is (at_ i 1) slash); [exact L | ].
    destruct (is (at_ i 0) dot && is (at_ i 1) null); [cbn [snd]; destruct (length (out b) =? 0); [rewrite len_put, high_put; lia | exact L] | ].
    destruct (is (at_ i 0) dot && is (at_ i 1) dot && (is (at_ i 2) slash || is (at_ i 2) null)).
    - cbn [snd]. unfold parent. destruct (_ && _ && _).
      + cbn [out high]. assert (X : forall s, length (from_slash s) <= length s) by (intro s; pose proof (f_equal (@length _) (until_from s)) as Y; rewrite app_length in Y; lia).
        pose proof (X (skip_slashes (out b))). pose proof (skip_length (out b)). lia.
      + destruct (_ && _ && _ && _ && _ && _); [cbn [out high]; rewrite skipn_length; lia | ]. destruct (is (at_ i 2) slash); rewrite ?high_put, ?len_put, ?high_put, ?len_put; lia.
    - destruct (is (at_ (from_slash i) 0) slash); cbn [snd]; rewrite ?high_put, ?len_put, ?high_puts, ?len_puts; lia. }
  assert (Loop : forall n i b, length (out b) <= high b -> length (out (expand_loop n i b)) <= high (expand_loop n i b)).
  { induction n as [ | n IH]; intros i b L; destruct i as [ | c t]; try exact L. cbn [expand_loop]. specialize (Step (c :: t) b L). destruct (expand_step (c :: t) b). apply IH, Step. }
  specialize (Loop (length f) f (Buffer [] 0) (le_n 0)). destruct (length (out (expand_loop (length f) f (Buffer [] 0))) =? 0); [rewrite len_put, high_put; lia | exact Loop].
Qed.
