From Coq Require Import List Bool Arith Lia.
Import ListNotations.
From Verif Require Import Params_Model Params_Spec Params_Proofs Params_CompProofs.

Definition bsyms (l : list nat) : list bitem := map BSym (rev l).
Lemma bsyms_cons : forall x l b, bsyms (x :: l) ++ b = bsyms l ++ BSym x :: b.
Proof. intros. unfold bsyms. cbn [rev]. rewrite map_app, <- app_assoc. reflexivity. Qed.

Lemma push_req : forall xs es tl n b ds,
  push_inline (map (fun x => Par x None) xs ++ es) tl 1 n b ds
  = if n <? length xs then IMissing (nth n xs 0) else push_inline es tl 1 (n - length xs) (bsyms xs ++ b) ds.
Proof.
  induction xs as [| x xs IH]; intros; [cbn [map app length bsyms rev]; rewrite Nat.sub_0_r; destruct n; reflexivity |].
  cbn [map app push_inline]. change (1 =? st_required) with true. cbv iota.
  destruct n as [| n]; [reflexivity |]. rewrite IH. cbn [length].
  change (S n <? S (length xs)) with (n <? length xs). destruct (n <? length xs); [reflexivity |].
  rewrite bsyms_cons. reflexivity.
Qed.
Lemma push_opt : forall o es tl n b ds,
  push_inline (pars o ++ es) tl 2 n b ds
  = push_inline es tl 2 (n - length o) (bsyms (map fst o) ++ b) (ds ++ map snd (skipn n o)).
Proof.
  induction o as [| [x d] o IH]; intros.
  - rewrite skipn_nil. cbn. rewrite Nat.sub_0_r, app_nil_r. reflexivity.
  - cbn [pars map app push_inline fst snd]. change (2 =? st_required) with false. change (2 =? st_optional) with true. cbv iota.
    unfold pars in IH. destruct n as [| n]; rewrite IH; cbn [length skipn map snd fst]; rewrite bsyms_cons.
    + rewrite <- app_assoc. reflexivity.
    + reflexivity.
Qed.
Lemma push_opts : forall p o n b, push_inline (opt_elems o ++ rest_elems p) (last_tl p) 1 n b []
  = match rest p with
    | Some x => IOk 0 (BList x (n - length o) :: bsyms (map fst o) ++ b) (map snd (skipn n o))
    | None => IOk (n - length o) (bsyms (map fst o) ++ b) (map snd (skipn n o))
    end.
Proof.
  intros. assert (R : forall st n b ds, st <= 2 -> push_inline (rest_elems p) (last_tl p) st n b ds
    = match rest p with Some x => IOk 0 (BList x n :: b) ds | None => IOk n b ds end).
  { intros. unfold rest_elems, last_tl. destruct (rest p), (dotted p); reflexivity. }
  destruct o as [| q o].
  - cbn [opt_elems app]. rewrite R by lia. rewrite skipn_nil. cbn [length map]. rewrite Nat.sub_0_r. reflexivity.
  - remember (q :: o) as o1. assert (E : opt_elems o1 = MOpt :: pars o1) by (subst; reflexivity). rewrite E.
    cbn [app push_inline]. change st_optional with 2. rewrite push_opt. rewrite R by lia. reflexivity.
Qed.

Definition defaulted (q : nat * option form) : nat * source := (fst q, Default (snd q)).
Lemma optionals_split : forall o a, optionals o a = map given (combine (map fst o) a) ++ map defaulted (skipn (length a) o).
Proof.
  induction o as [| [x d] o IH]; intros; [rewrite skipn_nil; reflexivity |].
  destruct a as [| v a]; cbn [optionals map combine length skipn app fst snd].
  - f_equal. rewrite IH. destruct o; reflexivity.
  - rewrite IH. reflexivity.
Qed.
Lemma settle_given : forall ev g hist t, settle ev hist (map given g ++ t) = option_map (app g) (settle ev hist t).
Proof.
  induction g as [| [x v] g IH]; intros; [destruct (settle ev hist t) eqn:E; cbn; rewrite E; reflexivity |].
  cbn [map app settle given fst snd]. unfold given at 1. cbn [fst snd]. rewrite IH. destruct (settle ev hist t); reflexivity.
Qed.
Lemma settle_end : forall ev t x v hist, settle ev hist (t ++ [(x, Given v)]) = option_map (fun l => l ++ [(x, v)]) (settle ev hist t).
Proof.
  induction t as [| [y [w | [f |]]] t IH]; intros; cbn [app settle]; auto; try (destruct (ev hist f); [| reflexivity]); rewrite IH;
    match goal with |- context[settle ?e ?h ?l] => destruct (settle e h l) end; reflexivity.
Qed.
Lemma push_defaults_settle : forall ev t hist stk,
  push_defaults ev hist (map snd t) stk = option_map (fun l => rev (map snd l) ++ stk) (settle ev hist (map defaulted t)).
Proof.
  induction t as [| [x [f |]] t IH]; intros; [reflexivity | |]; cbn [map snd push_defaults defaulted settle fst].
  - change (settle ev hist (defaulted (x, Some f) :: map defaulted t)) with
      (match ev hist f with Some v => option_map (cons (x, v)) (settle ev (hist ++ [f]) (map defaulted t)) | None => None end).
    destruct (ev hist f); [| reflexivity]. rewrite IH. destruct (settle ev (hist ++ [f]) (map defaulted t)); [| reflexivity].
    cbn. rewrite <- app_assoc. reflexivity.
  - change (settle ev hist (defaulted (x, None) :: map defaulted t)) with (option_map (cons (x, Nil)) (settle ev hist (map defaulted t))).
    rewrite IH. destruct (settle ev hist (map defaulted t)); [| reflexivity].
    cbn. rewrite <- app_assoc. reflexivity.
Qed.
Lemma settle_names : forall ev l hist r, settle ev hist l = Some r -> map fst r = map fst l.
Proof.
  intros ev l hist r H. rewrite settleh_settle in H. destruct (settleh ev hist l) as [[q h] |] eqn:E; [| discriminate].
  cbn in H. inversion H; subst. eapply settleh_names. eauto.
Qed.
Lemma pop_syms : forall r stk, pop_inline (map BSym (map fst r)) (map snd r ++ stk) = Some r.
Proof. induction r as [| [x v] r IH]; intros; [reflexivity |]. cbn. rewrite IH. reflexivity. Qed.

Lemma inlined_ok : forall ev p args,
  key p = [] -> (rest p <> None \/ length args <= length (req p) + length (opt p)) ->
  inlined ev (syntax p) args = reversed (documented ev p args).
Proof.
  intros ev p args K L. unfold inlined, documented. rewrite syntax_eq, K. cbn [fst snd key_elems app keywords].
  change st_required with 1. rewrite push_req.
  destruct (length args <? length (req p)) eqn:E; [reflexivity |]. apply Nat.ltb_ge in E.
  rewrite push_opts.
  change (map (fun q : nat * val => (fst q, Given (snd q))) (combine (req p) args)) with (map given (combine (req p) args)).
  set (a1 := skipn (length (req p)) args).
  assert (La : length a1 = length args - length (req p)) by (unfold a1; apply skipn_length).
  rewrite <- La. rewrite optionals_split.
  set (t := skipn (length a1) (opt p)). set (o1 := combine (map fst (opt p)) a1).
  (* the arguments used, then those left *)
  set (a2 := skipn (length (opt p)) a1).
  assert (V : map snd (combine (req p) args) ++ map snd o1 ++ a2 = args).
  { assert (H : forall {A} (xs : list A) (l : list val), map snd (combine xs l) = firstn (length xs) l).
    { clear. induction xs; intros; [reflexivity |]. destruct l; cbn; f_equal; auto. }
    rewrite H. unfold o1. rewrite H, map_length. unfold a2. rewrite firstn_skipn. unfold a1. apply firstn_skipn. }
  assert (L2 : length a2 = length a1 - length (opt p)) by (unfold a2; apply skipn_length).
  assert (T0 : a2 <> [] -> t = []).
  { intros H. unfold t. apply skipn_all2. destruct a2; [congruence | cbn in L2; lia]. }
  assert (N : forall l, settle ev [] (map defaulted t) = Some l ->
     map fst ((combine (req p) args ++ o1) ++ l) = req p ++ map fst (opt p)).
  { intros l H. apply settle_names in H. rewrite !map_app, H. rewrite <- app_assoc. f_equal.
    - assert (G := given_names (req p) args E). rewrite map_map in G. exact G.
    - unfold o1, t. clear. generalize (opt p) a1. induction l as [| [x d] l IH]; intros; [rewrite skipn_nil; reflexivity |].
      destruct a0; cbn; [| f_equal; apply IH]. f_equal. rewrite map_map. reflexivity. }
  destruct (rest p) as [x |] eqn:R.
  - rewrite push_defaults_settle. rewrite !app_assoc, <- map_app, settle_end, settle_given.
    destruct (settle ev [] (map defaulted t)) as [l |] eqn:S; [| reflexivity].
    cbn [option_map reversed]. rewrite rev_app_distr. cbn [rev app pop_inline].
    rewrite <- L2.
    assert (Stk : rev (map snd l) ++ rev args = rev a2 ++ rev (map snd ((combine (req p) args ++ o1) ++ l))).
    { rewrite <- V at 1. destruct a2 as [| v a2].
      - rewrite !map_app, !rev_app_distr. cbn [rev app]. rewrite <- ?app_assoc. reflexivity.
      - assert (Tn : t = []) by (apply T0; congruence). rewrite Tn in S. inversion S; subst.
        rewrite !map_app, !rev_app_distr. cbn [map rev app]. rewrite <- ?app_assoc. reflexivity. }
    rewrite Stk. replace (length a2) with (length (rev a2)) by apply rev_length.
    rewrite firstn_app, skipn_app, Nat.sub_diag, firstn_all, skipn_all. cbn [firstn skipn app]. rewrite !app_nil_r, rev_involutive.
    specialize (N l eq_refl). unfold bsyms. rewrite <- map_app, <- rev_app_distr, <- N, <- map_rev.
    pose proof (pop_syms (rev ((combine (req p) args ++ o1) ++ l)) []) as Q. rewrite app_nil_r in Q.
    rewrite <- map_rev, Q. reflexivity.
  - destruct L as [L | L]; [congruence |].
    assert (A2 : a2 = []) by (apply length_zero_iff_nil; lia).
    rewrite push_defaults_settle. rewrite !app_nil_r, (app_assoc (map given (combine (req p) args))), <- map_app, settle_given.
    destruct (settle ev [] (map defaulted t)) as [l |] eqn:S; [| reflexivity].
    cbn [option_map reversed]. rewrite A2, app_nil_r in V.
    specialize (N l eq_refl). unfold bsyms. rewrite <- map_app, <- rev_app_distr, <- N, <- map_rev.
    pose proof (pop_syms (rev ((combine (req p) args ++ o1) ++ l)) []) as Q. rewrite app_nil_r in Q.
    replace (rev (map snd l) ++ rev args) with (map snd (rev ((combine (req p) args ++ o1) ++ l))).
    + rewrite Q. reflexivity.
    + rewrite map_rev, !map_app, !rev_app_distr, <- (rev_app_distr (map snd (combine (req p) args)) (map snd o1)), V. reflexivity.
Qed.

Lemma find_rev : forall (l : list (nat * val)) x, NoDup (map fst l) ->
  find (fun p => fst p =? x) (rev l) = find (fun p => fst p =? x) l.
Proof.
  induction l as [| [y v] l IH]; intros x N; [reflexivity |]. cbn [rev map] in *. inversion N; subst.
  assert (A : forall (a b : list (nat * val)) f, find f (a ++ b) = match find f a with Some q => Some q | None => find f b end).
  { clear. induction a; intros; cbn; auto. destruct (f a); auto. }
  rewrite A, IH by auto. cbn [find fst]. destruct (y =? x) eqn:E.
  - apply Nat.eqb_eq in E. subst. destruct (find (fun p => fst p =? x) l) as [[z w] |] eqn:F; [| reflexivity].
    exfalso. apply H1. apply find_some in F. cbn in F. destruct F as [F1 F2]. apply Nat.eqb_eq in F2. subst. apply (in_map fst) in F1. exact F1.
  - destruct (find (fun p => fst p =? x) l); reflexivity.
Qed.
Lemma visible_rev : forall l x, NoDup (map fst l) -> visible (rev l) x = visible l x.
Proof. intros. unfold visible. rewrite rev_involutive, find_rev; auto. Qed.
Lemma documented_names : forall ev p args l, documented ev p args = Bound l -> map fst l = names p.
Proof.
  intros ev p args l. unfold documented, names.
  destruct (length args <? length (req p)) eqn:E; [discriminate |]. apply Nat.ltb_ge in E.
  set (a1 := skipn (length (req p)) args). set (a2 := skipn (length (opt p)) a1).
  pose proof (keywords_names (key p) a2) as K. destruct (keywords (key p) a2) as [ks a3]. cbn [fst] in K.
  destruct (settle ev [] _) as [r |] eqn:S; [| discriminate]. intros H. inversion H; subst.
  apply settle_names in S. rewrite S. rewrite !map_app, optionals_names, K.
  change (map (fun q : nat * val => (fst q, Given (snd q))) (combine (req p) args)) with (map given (combine (req p) args)).
  rewrite given_names by auto. do 3 f_equal. destruct (rest p); reflexivity.
Qed.
Lemma agree_ok : forall ev p args, NoDup (names p) -> clean (map fst (key p)) (left_over p args) = true ->
  same_result (interpreted ev (syntax p) args) (compiled ev (syntax p) args).
Proof.
  intros ev p args N C. rewrite interpreted_ok by auto. rewrite compiled_ok.
  - destruct (documented ev p args) eqn:D; try reflexivity. cbn. intros. symmetry. apply visible_rev.
    rewrite (documented_names _ _ _ _ D). auto.
  - revert C. generalize (left_over p args). assert (G : forall n l, length l <= n -> clean (map fst (key p)) l = true -> clean (map fst (filter no_default (key p))) l = true).
    { induction n; intros [| a [| b l]] L C; cbn in *; auto; try lia. apply andb_prop in C. destruct C as [C1 C2]. apply andb_true_intro. split.
      - apply negb_true_iff in C1. apply negb_true_iff. destruct (existsb _ (map fst (filter no_default (key p)))) eqn:X; auto.
        rewrite <- C1. symmetry. apply existsb_exists in X. destruct X as [x [Ix Kx]]. apply existsb_exists. exists x. split; auto.
        apply in_map_iff in Ix. destruct Ix as [q [Eq Iq]]. apply filter_In in Iq. subst. apply in_map. tauto.
      - apply IHn; auto. lia. }
    intros l. apply (G (length l)). auto.
Qed.

Lemma missing_iff : forall ev p args,
  (exists x, interpreted ev (syntax p) args = Missing x) <-> length args < length (req p).
Proof.
  intros ev p args. unfold interpreted. rewrite syntax_eq. cbn [fst snd]. change st_required with 1. rewrite pass1_req.
  destruct (length args <? length (req p)) eqn:E.
  - apply Nat.ltb_lt in E. split; eauto.
  - apply Nat.ltb_ge in E. split; [| intros; lia].
    intros [x H]. exfalso. revert H.
    generalize (map given (combine (req p) args)) (map Some (skipn (length (req p)) args)). intros l sl.
    assert (C : forall y b r, r <> RMissing y -> cons1 b r <> RMissing y) by (intros y b r H; destruct r; cbn; congruence).
    assert (N : forall es tl st sl y, 2 <= st -> pass1 es tl st sl <> RMissing y \/ (st <> 2 /\ st <> 3 /\ st <> 4)).
    { induction es as [| [ | | | z d | ] es IH]; intros tl st sl0 y S; cbn [pass1].
      - left. destruct tl; discriminate.
      - left. replace (st_optional <=? st) with true by (symmetry; apply Nat.leb_le; exact S). discriminate.
      - left. destruct (st_key <=? st); [discriminate |]. destruct (IH tl st_key sl0 y); [unfold st_key; lia | auto | unfold st_key in *; lia].
      - left. destruct (st_rest <=? st); [discriminate |]. destruct (IH tl st_rest sl0 y); [unfold st_rest; lia | auto | unfold st_rest in *; lia].
      - destruct (st =? st_rest) eqn:R; [left; discriminate |]. destruct (st =? st_key) eqn:K.
        + destruct (scan1 z sl0) as [[w sl1] |]; [destruct (IH tl st sl1 y S) | destruct (IH tl st sl0 y S)]; auto.
        + destruct (st =? st_optional) eqn:O.
          * destruct sl0 as [| [v |] sl0]; [destruct (IH tl st [] y S) | destruct (IH tl st sl0 y S) | left; discriminate]; auto.
          * right. apply Nat.eqb_neq in R, K, O. unfold st_rest, st_key, st_optional in *. lia.
      - left. discriminate. }
    assert (M : forall es tl st sl y, st = 2 \/ st = 3 \/ st = 4 -> pass1 es tl st sl <> RMissing y)
      by (intros es tl st sl0 y S; destruct (N es tl st sl0 y); [lia | auto | lia]).
    assert (T : forall y, pass1 (opt_elems (opt p) ++ key_elems (key p) ++ rest_elems p) (last_tl p) 1 sl <> RMissing y).
    { intros y. unfold opt_elems, key_elems, rest_elems, last_tl.
      destruct (opt p); [destruct (key p); [destruct (rest p), (dotted p) |] |]; cbn [app]; try discriminate;
        cbn [pass1]; match goal with |- context[?a <=? 1] => change (a <=? 1) with false end; cbv iota; apply M; auto. }
    assert (P : forall l r, (forall y, r <> RMissing y) -> forall y, prepend l r <> RMissing y).
    { clear - C. induction l; intros; [apply H |]. change (prepend (a :: l) r) with (cons1 (to_item a) (prepend l r)). apply C, IHl, H. }
    specialize (P l _ T). destruct (prepend l _) eqn:X; try discriminate.
    + destruct (pass2 ev [] l0); discriminate.
    + exfalso. eapply P. reflexivity.
Qed.
