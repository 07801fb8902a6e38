(** Proofs for Environ_Props. *)
From Coq Require Import ZArith List Bool Lia ZifyBool.
Import ListNotations.
From Verif Require Import Regexp_Model Regexp_Spec Regexp_Search Regexp_Props Find_Model Find_Spec Find_Quote.
From Verif Require Import Environ_Model Environ_Spec.
Open Scope Z_scope.

Lemma name_quoted n : name_regexp n = show (Alt1 (quoted (n ++ [61]))).
Proof.
  change (show (Alt1 (quoted (n ++ [61])))) with (show_branch (quoted (n ++ [61]))). rewrite show_quoted. unfold name_regexp. rewrite quote_text.
  unfold quoted_text. rewrite flat_map_app. reflexivity.
Qed.

(** e begins with n and = *)
Definition begins (n e : list Z) : Prop := exists v, e = n ++ 61 :: v.
Lemma slice_prefix (t s : list Z) : (length s <= length t)%nat -> (firstn (length s) t = s <-> exists v, t = s ++ v).
Proof.
  intros L. split.
  - intros E. exists (skipn (length s) t). rewrite <- E at 1. symmetry. apply firstn_skipn.
  - intros (v & ->). rewrite firstn_app, Nat.sub_diag, firstn_all. cbn. apply app_nil_r.
Qed.
Lemma map_fold_false l : map (fold false) l = l.
Proof. unfold fold. rewrite map_id. reflexivity. Qed.

Lemma look_ok beyond n e : Forall char n -> Z.of_nat (length n) <= 6550 -> Forall char e ->
  exists f0, forall f, (f0 <= f)%nat ->
  (begins n e /\ look beyond f (name_regexp n) e = Ok (Some (Z.of_nat (length n + 1)))) \/ (~ begins n e /\ look beyond f (name_regexp n) e = Ok None).
Proof.
  intros Cn L Ce. assert (Cs : Forall char (n ++ [61])) by (apply Forall_app; split; [exact Cn|repeat constructor; lia]).
  assert (L2 : Z.of_nat (length (n ++ [61])) <= 6551) by (rewrite app_length; cbn; lia).
  destruct (C39_looking_at_partial beyond (Alt1 (quoted (n ++ [61]))) e 0 false (fits_quoted _ e false Cs Ce L2) ltac:(lia)) as (f0 & H).
  exists f0. intros f F. specialize (H f F). rewrite <- name_quoted in H. unfold look. rewrite H. clear H.
  change (ways e false (0 =? 0) (Alt1 (quoted (n ++ [61]))) 1 0) with (ways_branch e false true (quoted (n ++ [61])) 1 0).
  rewrite ways_quoted. unfold lit_way. assert (O := literal_occurs e false (n ++ [61]) 0 ltac:(lia)).
  assert (B : occurs false (n ++ [61]) e 0 <-> begins n e).
  { unfold occurs, begins, slice. rewrite !map_fold_false. rewrite !Z.add_0_l. split.
    - intros (_ & LE & E). rewrite Z.sub_0_r, Nat2Z.id in E. change (Z.to_nat 0) with 0%nat in E. cbn [skipn] in E. apply slice_prefix in E; [|lia].
      destruct E as (v & ->). exists v. rewrite <- app_assoc. reflexivity.
    - intros (v & ->). split; [lia|]. split; [rewrite !app_length; cbn; lia|]. rewrite Z.sub_0_r, Nat2Z.id. change (Z.to_nat 0) with 0%nat. cbn [skipn].
      apply slice_prefix; [rewrite !app_length; cbn; lia|]. exists v. rewrite <- app_assoc. reflexivity. }
  destruct (literal e false (n ++ [61]) 0).
  - left. split; [apply B, O; reflexivity|]. rewrite app_length. change (length [61]) with 1%nat. rewrite Z.add_0_l. reflexivity.
  - right. split; [|reflexivity]. intros X. apply B, O in X. discriminate.
Qed.
Lemma begins_says n e : ~ In 61 n -> (begins n e <-> exists v, says e n v).
Proof. intros N. unfold begins, says. split; intros (v & E); [exists v; auto|exists v; apply E]. Qed.
Lemma skip_name (n v : list Z) : skipn (Z.to_nat (Z.of_nat (length n + 1))) (n ++ 61 :: v) = v.
Proof. rewrite Nat2Z.id. rewrite skipn_app, skipn_all2 by lia. replace (length n + 1 - length n)%nat with 1%nat by lia. reflexivity. Qed.

Section Names.
  Variable beyond : Z -> Z.
  Variable n : list Z.
  Hypothesis N : name n.
  Lemma look_name e : Forall char e -> exists f0, forall f, (f0 <= f)%nat ->
    (exists v, says e n v /\ look beyond f (name_regexp n) e = Ok (Some (Z.of_nat (length n + 1)))) \/ ((forall v, ~ says e n v) /\ look beyond f (name_regexp n) e = Ok None).
  Proof.
    intros Ce. destruct N as (Cn & NI & L). destruct (look_ok beyond n e Cn L Ce) as (f0 & H). exists f0. intros f F.
    destruct (H f F) as [[B E]|[B E]].
    - left. apply (begins_says n e NI) in B as (v & S). exists v. auto.
    - right. split; [|exact E]. intros v S. apply B. apply (begins_says n e NI). exists v. exact S.
  Qed.
  Lemma get_ok env : strings env -> exists f0, forall f, (f0 <= f)%nat -> exists r, getenv beyond f n env = Ok r /\ value_of n env r.
  Proof.
    unfold getenv. induction 1 as [|e env Ce _ (f1 & IH)]; [exists 0%nat; intros; eexists; split; [reflexivity|constructor]|].
    destruct (look_name e Ce) as (f0 & H). exists (Nat.max f0 f1). intros f F. cbn [get_loop].
    destruct (H f ltac:(lia)) as [(v & S & ->)|(S & ->)]; cbn [bind].
    - exists (Some v). destruct S as [E NI]. split; [rewrite E, skip_name; reflexivity|apply v_here; split; auto].
    - destruct (IH f ltac:(lia)) as (r & E & V). exists r. split; [exact E|apply v_later; auto].
  Qed.
  Definition set_spec (entry : list Z) (env : list (list Z)) (r : option (list (list Z))) : Prop :=
    match r with
    | Some env' => exists a e b v, env = a ++ e :: b /\ says e n v /\ (forall x w, In x a -> ~ says x n w) /\ env' = a ++ entry :: b
    | None => forall x w, In x env -> ~ says x n w
    end.
  Lemma set_ok entry env : strings env -> exists f0, forall f, (f0 <= f)%nat ->
    exists r, set_loop beyond f (name_regexp n) entry env = Ok r /\ set_spec entry env r.
  Proof.
    induction 1 as [|e env Ce _ (f1 & IH)]; [exists 0%nat; intros; exists None; split; [reflexivity|intros ? ? []]|].
    destruct (look_name e Ce) as (f0 & H). exists (Nat.max f0 f1). intros f F. cbn [set_loop].
    destruct (H f ltac:(lia)) as [(v & S & ->)|(S & ->)]; cbn [bind].
    - exists (Some (entry :: env)). split; [reflexivity|]. exists [], e, env, v. split; [reflexivity|]. split; [exact S|]. split; [intros ? ? []|reflexivity].
    - destruct (IH f ltac:(lia)) as (r & -> & V). cbn [bind]. destruct r as [env'|].
      + exists (Some (e :: env')). split; [reflexivity|]. destruct V as (a & e' & b & v & -> & S' & A & ->). exists (e :: a), e', b, v.
        split; [reflexivity|]. split; [exact S'|]. split; [|reflexivity]. intros x w [<-|I]; [apply S|apply A; exact I].
      + exists None. split; [reflexivity|]. intros x w [<-|I]; [apply S|apply V; exact I].
  Qed.
  Lemma unset_ok env : strings env -> exists f0, forall f, (f0 <= f)%nat ->
    exists keep, (forall e, In e env -> (keep e = true <-> forall v, ~ says e n v)) /\ unsetenv beyond f n env = Ok (filter keep env).
  Proof.
    unfold unsetenv. intros S. assert (DEC : forall e, {forall v, ~ says e n v} + {exists v, says e n v}).
    { intros e. destruct (list_eq_dec Z.eq_dec (firstn (length (n ++ [61])) e) (n ++ [61])) as [E|E].
      - right. exists (skipn (length (n ++ [61])) e). split; [|apply N]. transitivity ((n ++ [61]) ++ skipn (length (n ++ [61])) e).
        + rewrite <- E at 1. symmetry. apply firstn_skipn.
        + rewrite <- app_assoc. reflexivity.
      - left. intros v [-> _]. apply E. replace (n ++ 61 :: v) with ((n ++ [61]) ++ v) by (rewrite <- app_assoc; reflexivity).
        rewrite firstn_app, Nat.sub_diag, firstn_all. cbn. apply app_nil_r. }
    set (keep := fun e => if DEC e then true else false).
    assert (K : forall e, keep e = true <-> forall v, ~ says e n v).
    { intros e. unfold keep. destruct (DEC e) as [D|(v & D)]; split; auto; [discriminate|]. intros X. destruct (X v D). }
    enough (Q : exists f0, forall f, (f0 <= f)%nat -> delete_loop beyond f (name_regexp n) env = Ok (filter keep env)).
    { destruct Q as (f0 & Q). exists f0. intros f F. exists keep. split; [intros e _; apply K|apply Q; exact F]. }
    induction S as [|e env Ce _ (f1 & IH)]; [exists 0%nat; reflexivity|].
    destruct (look_name e Ce) as (f0 & H). exists (Nat.max f0 f1). intros f F. cbn [delete_loop filter].
    destruct (H f ltac:(lia)) as [(v & S & ->)|(S & ->)]; cbn [bind]; rewrite IH by lia; cbn [bind].
    - destruct (keep e) eqn:E; [|reflexivity]. destruct (proj1 (K e) E v S).
    - rewrite (proj2 (K e) S). reflexivity.
  Qed.
End Names.

(** * Environments *)
Lemma says_fun e n v n' v' : says e n v -> says e n' v' -> n = n' /\ v = v'.
Proof.
  intros [E1 A] [E2 B]. rewrite E1 in E2. clear E1 e. revert n' E2 B. induction n as [|c n IH]; intros [|c' n'] E B; cbn in E.
  - injection E as E. auto.
  - injection E as <- _. destruct B. left. reflexivity.
  - injection E as -> _. destruct A. left. reflexivity.
  - injection E as <- E. destruct (IH (fun I => A (or_intror I)) n' E (fun I => B (or_intror I))) as [-> ->]. auto.
Qed.
Lemma value_fun n env r r' : value_of n env r -> value_of n env r' -> r = r'.
Proof.
  intros H. revert r'. induction H as [|e v env S|e env r S H IH]; intros r' H'; inversion H' as [|? v' ? S'|? ? ? S' H'']; subst; try reflexivity.
  - destruct (says_fun _ _ _ _ _ S S') as [_ ->]. reflexivity.
  - destruct (S' v S).
  - destruct (S v' S').
  - apply IH. exact H''.
Qed.
Lemma value_app_none n a b r : (forall x w, In x a -> ~ says x n w) -> value_of n b r -> value_of n (a ++ b) r.
Proof.
  intros A H. induction a as [|x a IH]; [exact H|]. cbn. apply v_later; [intros w; apply A; left; reflexivity|]. apply IH. intros y w I. apply A. right. exact I.
Qed.
Lemma value_change n' a e e' b : (forall w, ~ says e n' w) -> (forall w, ~ says e' n' w) -> forall r,
  value_of n' (a ++ e :: b) r -> value_of n' (a ++ e' :: b) r.
Proof.
  intros S S'. induction a as [|x a IH]; intros r H; cbn in *; inversion H as [|? v ? Sx|? ? ? Sx Hx]; subst.
  - destruct (S v Sx).
  - apply v_later; auto.
  - apply v_here. exact Sx.
  - apply v_later; auto.
Qed.

Lemma value_none_all n env : value_of n env None <-> forall x w, In x env -> ~ says x n w.
Proof.
  split.
  - intros H. remember None as r eqn:R. induction H as [|e v env S|e env r S H IH]; intros x w I; [destruct I|discriminate|]. destruct I as [<-|I]; [apply S|apply IH; assumption].
  - induction env as [|e env IH]; intros H; [constructor|]. apply v_later; [intros v; apply H; left; reflexivity|]. apply IH. intros x w I. apply H. right. exact I.
Qed.
Lemma value_some_split n env v : value_of n env (Some v) <-> exists a e b, env = a ++ e :: b /\ says e n v /\ forall x w, In x a -> ~ says x n w.
Proof.
  split.
  - intros H. remember (Some v) as r eqn:R. revert v R. induction H as [|e v env S|e env r S H IH]; intros u R; [discriminate| |].
    + injection R as ->. exists [], e, env. split; [reflexivity|]. split; [exact S|intros ? ? []].
    + destruct (IH u R) as (a & e' & b & -> & S' & A). exists (e :: a), e', b. split; [reflexivity|]. split; [exact S'|]. intros x w [<-|I]; [apply S|apply A; exact I].
  - intros (a & e & b & -> & S & A). apply value_app_none; [exact A|]. apply v_here. exact S.
Qed.
Lemma value_rev n env r : no_doubles env -> value_of n env r -> value_of n (rev env) r.
Proof.
  intros ND H. destruct r as [v|].
  - apply value_some_split in H as (a & e & b & -> & S & A). apply value_some_split. exists (rev b), e, (rev a). split; [|split; [exact S|]].
    + rewrite rev_app_distr. cbn. rewrite <- app_assoc. reflexivity.
    + intros x w I S'. apply in_rev in I. apply in_split in I as (b1 & b2 & ->). exact (ND a (e :: b1 ++ x :: b2) e b1 x b2 n v w eq_refl eq_refl S S').
  - apply value_none_all. intros x w I. apply in_rev in I. exact (proj1 (value_none_all n env) H x w I).
Qed.
