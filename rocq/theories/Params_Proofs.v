From Coq Require Import List Bool Arith Lia.
Import ListNotations.
From Verif Require Import Params_Model Params_Spec.

Lemma skip_skip : forall {A} a b (l : list A), skipn a (skipn b l) = skipn (b + a) l.
Proof. induction b; intros; [reflexivity |]. destruct l; cbn; [apply skipn_nil | apply IHb]. Qed.
Definition to_item (q : nat * source) : nat * item :=
  (fst q, match snd q with Given v => Ready v | Default d => Eval d end).
Definition prepend (l : list (nat * source)) (r : res1) : res1 := fold_right (fun q r => cons1 (to_item q) r) r l.
Definition pars (l : list (nat * option form)) : list elem := map (fun q => Par (fst q) (snd q)) l.

Lemma prepend_app : forall a b r, prepend (a ++ b) r = prepend a (prepend b r).
Proof. intros. apply fold_right_app. Qed.
Lemma prepend_vars : forall l m, prepend l (Vars (map to_item m)) = Vars (map to_item (l ++ m)).
Proof. induction l; intros; [reflexivity |]. change (prepend (a :: l) (Vars (map to_item m))) with (cons1 (to_item a) (prepend l (Vars (map to_item m)))). rewrite IHl. reflexivity. Qed.
Lemma pass2_settle : forall ev l hist, pass2 ev hist (map to_item l) = settle ev hist l.
Proof.
  induction l as [| [x [v | [f |]]] l IH]; intros; cbn; auto; rewrite ?IH; try (destruct (settle ev hist l); reflexivity).
Qed.

Definition given (q : nat * val) : nat * source := (fst q, Given (snd q)).

Lemma pass1_req : forall xs es tl args,
  pass1 (map (fun x => Par x None) xs ++ es) tl 1 (map Some args)
  = if length args <? length xs then RMissing (nth (length args) xs 0)
    else prepend (map given (combine xs args)) (pass1 es tl 1 (map Some (skipn (length xs) args))).
Proof.
  induction xs as [| x xs IH]; intros; [destruct args; reflexivity |].
  destruct args as [| v args]; [reflexivity |].
  cbn [map app pass1]. change (1 =? st_rest) with false. change (1 =? st_key) with false. cbv iota. rewrite IH.
  cbn [length]. change (S (length args) <? S (length xs)) with (length args <? length xs).
  destruct (length args <? length xs); reflexivity.
Qed.
Lemma pass1_opt : forall l es tl args,
  pass1 (pars l ++ es) tl 2 (map Some args)
  = prepend (optionals l args) (pass1 es tl 2 (map Some (skipn (length l) args))).
Proof.
  induction l as [| [x d] l IH]; intros; [destruct args; reflexivity |].
  cbn [pars map app pass1 fst snd]. change (2 =? st_rest) with false. change (2 =? st_key) with false. cbv iota.
  destruct args as [| v args]; cbn [map optionals prepend fold_right length skipn].
  - change (2 =? st_optional) with true. cbv iota. pose proof (IH es tl []) as H. cbn [map] in H. rewrite skipn_nil in H.
    exact (f_equal (cons1 (x, Eval d)) H).
  - unfold pars in IH. rewrite IH. reflexivity.
Qed.

(* the argument slots and the arguments left *)
Inductive rel : list slot -> list val -> Prop :=
| rel_nil : rel [] []
| rel_one : forall v, rel [Some v] [v]
| rel_gone : forall sl r, rel sl r -> rel (None :: None :: sl) r
| rel_pair : forall k v sl r, rel sl r -> rel (Some k :: Some v :: sl) (k :: v :: r).

Lemma rel_some : forall n l, length l <= n -> rel (map Some l) l.
Proof.
  induction n; intros [| a [| b l]] H; cbn in *; try lia; try constructor.
  apply IHn. lia.
Qed.
Lemma rel_collect : forall sl r, rel sl r -> collect sl = r.
Proof. induction 1; cbn; congruence. Qed.

Lemma clean_in : forall ks x k v r, clean ks (k :: v :: r) = true -> In x ks -> is_key x v = false /\ clean ks r = true.
Proof.
  intros. cbn in H. apply andb_prop in H. destruct H. split; auto. apply negb_true_iff in H.
  destruct (is_key x v) eqn:E; auto. rewrite <- H. symmetry. apply existsb_exists. eauto.
Qed.
Lemma clean_key_arg : forall ks x n r v r', length r <= n -> clean ks r = true -> key_arg x r = Some (v, r') -> clean ks r' = true.
Proof.
  induction n; intros [| a [| b r]] v r' L C K; cbn in *; try discriminate; try lia.
  apply andb_prop in C. destruct C as [C1 C2]. destruct (is_key x a).
  - inversion K; subst. auto.
  - destruct (key_arg x r) as [[w r''] |] eqn:E; [| discriminate]. inversion K; subst. cbn. rewrite C1. cbn.
    eapply IHn; [| exact C2 | exact E]. lia.
Qed.

Lemma scan1_cons_none : forall x sl, scan1 x (None :: sl) = match scan1 x sl with Some (w, t) => Some (w, None :: t) | None => None end.
Proof. destruct sl; reflexivity. Qed.
Lemma scan1_cons_miss : forall x v sl, is_key x v = false ->
  scan1 x (Some v :: sl) = match scan1 x sl with Some (w, t) => Some (w, Some v :: t) | None => None end.
Proof. intros. destruct sl as [| [b |] sl]; cbn [scan1]; auto. rewrite H. reflexivity. Qed.

Lemma scan1_key : forall ks x sl r, rel sl r -> clean ks r = true -> In x ks ->
  match key_arg x r with
  | Some (v, r') => exists sl', scan1 x sl = Some (v, sl') /\ rel sl' r'
  | None => scan1 x sl = None
  end.
Proof.
  induction 1 as [| v | sl r H IH | k v sl r H IH]; intros C I.
  - reflexivity.
  - reflexivity.
  - specialize (IH C I). destruct (key_arg x r) as [[v r'] |].
    + destruct IH as [sl' [E R]]. exists (None :: None :: sl'). rewrite !scan1_cons_none, E. split; auto. constructor. auto.
    + rewrite !scan1_cons_none, IH. reflexivity.
  - destruct (clean_in _ _ _ _ _ C I) as [Cv Cr]. specialize (IH Cr I). cbn [key_arg]. destruct (is_key x k) eqn:Ek.
    + exists (None :: None :: sl). cbn [scan1]. rewrite Ek. split; auto. constructor. auto.
    + rewrite (scan1_cons_miss _ k _ Ek), (scan1_cons_miss _ v _ Cv).
      destruct (key_arg x r) as [[w r'] |].
      * destruct IH as [sl' [E R]]. exists (Some k :: Some v :: sl'). rewrite E. split; auto. constructor. auto.
      * rewrite IH. reflexivity.
Qed.

Lemma pass1_key : forall ks l es tl sl r, rel sl r -> clean ks r = true -> (forall q, In q l -> In (fst q) ks) ->
  exists sl', rel sl' (snd (keywords l r))
    /\ pass1 (pars l ++ es) tl 3 sl = prepend (fst (keywords l r)) (pass1 es tl 3 sl').
Proof.
  induction l as [| [x d] l IH]; intros es tl sl r R C I; [exists sl; auto |].
  cbn [pars map app pass1 fst snd keywords]. change (3 =? st_rest) with false. change (3 =? st_key) with true. cbv iota.
  assert (Ix : In x ks) by (apply (I (x, d)); left; reflexivity).
  assert (I' : forall q, In q l -> In (fst q) ks) by (intros; apply I; right; auto).
  pose proof (scan1_key ks x sl r R C Ix) as K.
  destruct (key_arg x r) as [[v r'] |] eqn:E.
  - destruct K as [sl1 [E1 R1]]. rewrite E1.
    destruct (IH es tl sl1 r' R1 (clean_key_arg _ _ _ _ _ _ (le_n _) C E) I') as [sl' [R' P]].
    unfold pars in P. rewrite P. destruct (keywords l r') as [q a]. exists sl'. auto.
  - rewrite K. destruct (IH es tl sl r R C I') as [sl' [R' P]].
    unfold pars in P. rewrite P. destruct (keywords l r) as [q a]. exists sl'. auto.
Qed.

Definition rest_elems (p : params) : list elem :=
  match rest p with Some x => if dotted p then [] else [MRest; Par x None] | None => [] end.
Definition rest_src (p : params) (a : list val) : list (nat * source) :=
  match rest p with Some x => [(x, Given (Lst a))] | None => [] end.
Lemma pass1_rest : forall p st sl r, st <= 3 -> rel sl r ->
  pass1 (rest_elems p) (if dotted p then rest p else None) st sl = Vars (map to_item (rest_src p r)).
Proof.
  intros p st sl r S R. unfold rest_elems, rest_src. apply rel_collect in R.
  destruct (rest p) as [x |], (dotted p); cbn [pass1]; rewrite ?R; auto.
  replace (st_rest <=? st) with false; [reflexivity |]. symmetry. apply Nat.leb_gt. unfold st_rest. lia.
Qed.


Definition key_elems (l : list (nat * option form)) : list elem := match l with [] => [] | _ => MKey :: pars l end.
Definition opt_elems (l : list (nat * option form)) : list elem := match l with [] => [] | _ => MOpt :: pars l end.
Definition last_tl (p : params) : option nat := if dotted p then rest p else None.
Lemma syntax_eq : forall p, syntax p = (map (fun x => Par x None) (req p) ++ opt_elems (opt p) ++ key_elems (key p) ++ rest_elems p, last_tl p).
Proof. intros. unfold syntax, opt_elems, key_elems. destruct (opt p), (key p); reflexivity. Qed.

Lemma pass1_keys : forall p l a st, st <= 2 -> clean (map fst l) a = true ->
  pass1 (key_elems l ++ rest_elems p) (last_tl p) st (map Some a)
  = let (ks, a3) := keywords l a in Vars (map to_item (ks ++ rest_src p a3)).
Proof.
  intros p l a st S C. assert (R : rel (map Some a) a) by (eapply rel_some; apply le_n).
  destruct l as [| k ks].
  - cbn [app key_elems keywords]. unfold last_tl. rewrite pass1_rest with (r := a); auto.
  - remember (k :: ks) as l. assert (E : key_elems l = MKey :: pars l) by (subst; reflexivity). rewrite E.
    cbn [app pass1]. replace (st_key <=? st) with false by (symmetry; apply Nat.leb_gt; unfold st_key; lia).
    destruct (pass1_key (map fst l) l (rest_elems p) (last_tl p) _ _ R C) as [sl' [R' P]].
    { intros. apply in_map. auto. }
    change st_key with 3. rewrite P. unfold last_tl. rewrite pass1_rest with (r := snd (keywords l a)); auto.
    destruct (keywords l a). cbn [fst snd]. apply prepend_vars.
Qed.
Lemma pass1_opts : forall p o l a, clean (map fst l) (skipn (length o) a) = true ->
  pass1 (opt_elems o ++ key_elems l ++ rest_elems p) (last_tl p) 1 (map Some a)
  = let (ks, a3) := keywords l (skipn (length o) a) in Vars (map to_item (optionals o a ++ ks ++ rest_src p a3)).
Proof.
  intros p o l a C. destruct o as [| q o].
  - apply pass1_keys; auto.
  - remember (q :: o) as o1. assert (E : opt_elems o1 = MOpt :: pars o1) by (subst; reflexivity). rewrite E.
    cbn [app pass1]. change (st_optional <=? 1) with false. cbv iota. change st_optional with 2. rewrite pass1_opt.
    rewrite pass1_keys by auto. destruct (keywords l (skipn (length o1) a)). apply prepend_vars.
Qed.

Lemma interpreted_ok : forall ev p args,
  clean (map fst (key p)) (left_over p args) = true ->
  interpreted ev (syntax p) args = documented ev p args.
Proof.
  intros ev p args C. unfold interpreted, documented. rewrite syntax_eq. cbn [fst snd].
  change st_required with 1. rewrite pass1_req.
  destruct (length args <? length (req p)) eqn:E; [reflexivity |].
  unfold left_over in C. rewrite <- skip_skip in C. rewrite pass1_opts by auto.
  destruct (keywords (key p) (skipn (length (opt p)) (skipn (length (req p)) args))) as [ks a3].
  rewrite prepend_vars. rewrite pass2_settle. reflexivity.
Qed.
