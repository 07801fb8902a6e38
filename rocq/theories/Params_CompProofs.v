From Coq Require Import List Bool Arith Lia.
Import ListNotations.
From Verif Require Import Params_Model Params_Spec Params_Proofs.

(* settle, with the history *)
Fixpoint settleh (ev : evals) (hist : list form) (l : list (nat * source)) : option (list (nat * val) * list form) :=
  match l with
  | [] => Some ([], hist)
  | (x, s) :: l =>
    match s with
    | Given v => option_map (fun r => ((x, v) :: fst r, snd r)) (settleh ev hist l)
    | Default None => option_map (fun r => ((x, Nil) :: fst r, snd r)) (settleh ev hist l)
    | Default (Some f) =>
      match ev hist f with
      | Some v => option_map (fun r => ((x, v) :: fst r, snd r)) (settleh ev (hist ++ [f]) l)
      | None => None
      end
    end
  end.
Lemma settleh_settle : forall ev l hist, settle ev hist l = option_map fst (settleh ev hist l).
Proof.
  induction l as [| [x [v | [f |]]] l IH]; intros; cbn; auto; try (destruct (ev hist f); [| reflexivity]); rewrite IH;
    match goal with |- context[settleh ?e ?h ?l] => destruct (settleh e h l) end; reflexivity.
Qed.
Lemma settleh_app : forall ev a b hist, settleh ev hist (a ++ b) =
  match settleh ev hist a with
  | Some (l, h) => option_map (fun r => (l ++ fst r, snd r)) (settleh ev h b)
  | None => None
  end.
Proof.
  induction a as [| [x [v | [f |]]] a IH]; intros.
  - cbn. destruct (settleh ev hist b) as [[? ?] |]; reflexivity.
  - cbn. rewrite IH. destruct (settleh ev hist a) as [[l h] |]; cbn; auto. destruct (settleh ev h b); reflexivity.
  - cbn. destruct (ev hist f); [| reflexivity]. rewrite IH. destruct (settleh ev (hist ++ [f]) a) as [[l h] |]; cbn; auto. destruct (settleh ev h b); reflexivity.
  - cbn. rewrite IH. destruct (settleh ev hist a) as [[l h] |]; cbn; auto. destruct (settleh ev h b); reflexivity.
Qed.
Lemma settleh_names : forall ev l hist r h, settleh ev hist l = Some (r, h) -> map fst r = map fst l.
Proof.
  induction l as [| [x [v | [f |]]] l IH]; intros hist r h H; cbn in H.
  - inversion H. reflexivity.
  - destruct (settleh ev hist l) as [[? ?] |] eqn:E; [| discriminate]. inversion H; subst. cbn. f_equal. eauto.
  - destruct (ev hist f); [| discriminate]. destruct (settleh ev (hist ++ [f]) l) as [[? ?] |] eqn:E; [| discriminate]. inversion H; subst. cbn. f_equal. eauto.
  - destruct (settleh ev hist l) as [[? ?] |] eqn:E; [| discriminate]. inversion H; subst. cbn. f_equal. eauto.
Qed.

(* --- the code --- *)

Lemma compile_acc : forall es tl st vars,
  compile es tl st vars = (fst (compile es tl st []), snd (compile es tl st []) ++ vars).
Proof.
  induction es as [| [ | | | x d | ] es IH]; intros; cbn [compile].
  - destruct tl; reflexivity.
  - apply IH.
  - apply IH.
  - apply IH.
  - rewrite (IH tl st (x :: vars)), (IH tl st [x]). cbn. rewrite <- app_assoc. reflexivity.
  - reflexivity.
Qed.

Definition par_code (st : nat) (q : nat * option form) : list insn :=
  if st =? st_required then [RequiredArg (fst q)]
  else if st =? st_optional then match snd q with Some f => [OptionalArg'; JtDefault f] | None => [OptionalArg] end
  else if st =? st_key then match snd q with Some f => [KeywordArg' (fst q); JtDefault f] | None => [KeywordArg (fst q)] end
  else [RestArg].
Lemma compile_pars : forall l es tl st,
  compile (pars l ++ es) tl st [] = (flat_map (par_code st) l ++ fst (compile es tl st []), snd (compile es tl st []) ++ rev (map fst l)).
Proof.
  induction l as [| [x d] l IH]; intros; cbn [pars map app flat_map rev compile].
  - rewrite app_nil_r. destruct (compile es tl st []); reflexivity.
  - cbn [fst snd]. rewrite compile_acc. unfold pars in IH. rewrite IH. cbn [fst snd]. rewrite <- !app_assoc. reflexivity.
Qed.

Definition vals (l : list (nat * val)) : list slot := rev (map (fun q => Some (snd q)) l).
Lemma vals_cons : forall x v l stk, vals ((x, v) :: l) ++ stk = vals l ++ (Some v :: stk).
Proof. intros. unfold vals. cbn. rewrite <- app_assoc. reflexivity. Qed.

Definition after (ev : evals) (hist : list form) (src : list (nat * source)) (k : list form -> list slot -> vres) (stk : list slot) : vres :=
  match settleh ev hist src with
  | Some (l, h) => k h (vals l ++ stk)
  | None => VFailed
  end.
Lemma after_given : forall ev hist x v src k stk,
  after ev hist ((x, Given v) :: src) k stk = after ev hist src k (Some v :: stk).
Proof. intros. unfold after. cbn [settleh]. destruct (settleh ev hist src) as [[l h] |]; cbn [option_map fst snd]; [rewrite vals_cons |]; reflexivity. Qed.
Lemma after_nil : forall ev hist x src k stk,
  after ev hist ((x, Default None) :: src) k stk = after ev hist src k (Some Nil :: stk).
Proof. intros. unfold after. cbn [settleh]. destruct (settleh ev hist src) as [[l h] |]; cbn [option_map fst snd]; [rewrite vals_cons |]; reflexivity. Qed.
Lemma after_default : forall ev hist x f src k stk,
  after ev hist ((x, Default (Some f)) :: src) k stk =
  match ev hist f with Some v => after ev (hist ++ [f]) src k (Some v :: stk) | None => VFailed end.
Proof.
  intros. unfold after. cbn [settleh]. destruct (ev hist f) as [v |]; [| reflexivity].
  destruct (settleh ev (hist ++ [f]) src) as [[l h] |]; cbn [option_map fst snd]; [rewrite vals_cons |]; reflexivity.
Qed.
Lemma after_app : forall ev hist a b k stk,
  after ev hist (a ++ b) k stk = after ev hist a (fun h s => after ev h b k s) stk.
Proof.
  intros. unfold after. rewrite settleh_app. destruct (settleh ev hist a) as [[l h] |]; [| reflexivity].
  destruct (settleh ev h b) as [[l' h'] |]; cbn [option_map fst snd]; [| reflexivity].
  unfold vals. rewrite map_app, rev_app_distr, <- app_assoc. reflexivity.
Qed.

Definition no_def (l : list nat) : list (nat * option form) := map (fun x => (x, None)) l.
Lemma exec_req : forall ev xs c args hist stk,
  exec ev hist (flat_map (par_code 1) (no_def xs) ++ c) (map Some args) stk
  = if length args <? length xs then VMissing (nth (length args) xs 0)
    else after ev hist (map given (combine xs args)) (fun h s => exec ev h c (map Some (skipn (length xs) args)) s) stk.
Proof.
  induction xs as [| x xs IH]; intros.
  - destruct args; reflexivity.
  - destruct args as [| v args]; [reflexivity |].
    cbn [no_def map flat_map]. change (par_code 1 (x, None)) with [RequiredArg x]. cbn [app exec map]. unfold no_def in IH. rewrite IH.
    cbn [length]. change (S (length args) <? S (length xs)) with (length args <? length xs).
    destruct (length args <? length xs); [reflexivity |].
    cbn [combine map given fst snd]. change (given (x, v)) with (x, Given v). rewrite after_given. reflexivity.
Qed.
Lemma exec_opt : forall ev l c args hist stk,
  exec ev hist (flat_map (par_code 2) l ++ c) (map Some args) stk
  = after ev hist (optionals l args) (fun h s => exec ev h c (map Some (skipn (length l) args)) s) stk.
Proof.
  induction l as [| [x d] l IH]; intros.
  - destruct args; reflexivity.
  - cbn [flat_map]. rewrite <- app_assoc. unfold par_code at 1. change (2 =? st_required) with false. change (2 =? st_optional) with true. cbv iota. cbn [fst snd].
    destruct args as [| v args].
    + cbn [optionals length skipn]. pose proof (fun h s => IH c [] h s) as IH'. rewrite skipn_nil in IH'. cbn [map] in IH'.
      destruct d as [f |]; cbn [app exec map].
      * rewrite after_default. destruct (ev hist f); [| reflexivity]. apply IH'.
      * rewrite after_nil. apply IH'.
    + cbn [optionals length skipn]. rewrite after_given. destruct d as [f |]; cbn [app exec map]; apply IH.
Qed.

Lemma scan_all_scan1 : forall x sl r, rel sl r -> forall ks, In x ks -> clean ks r = true ->
  match key_arg x r with
  | Some (v, r') => exists sl', scan_all x sl = Some (Some v, sl') /\ rel sl' r'
  | None => scan_all x sl = None
  end.
Proof.
  assert (N : forall x sl, scan_all x (None :: sl) = match scan_all x sl with Some (w, t) => Some (w, None :: t) | None => None end)
    by (destruct sl; reflexivity).
  assert (M : forall x v sl, is_key x v = false -> scan_all x (Some v :: sl) = match scan_all x sl with Some (w, t) => Some (w, Some v :: t) | None => None end)
    by (intros x v sl H; destruct sl; cbn [scan_all]; [| rewrite H]; reflexivity).
  induction 1 as [| v | sl r H IH | k v sl r H IH]; intros ks I C.
  - reflexivity.
  - reflexivity.
  - specialize (IH ks I C). destruct (key_arg x r) as [[v r'] |].
    + destruct IH as [sl' [E R]]. exists (None :: None :: sl'). rewrite !N, E. split; auto. constructor. auto.
    + rewrite !N, IH. reflexivity.
  - destruct (clean_in _ _ _ _ _ C I) as [Cv Cr]. specialize (IH ks I Cr). cbn [key_arg]. destruct (is_key x k) eqn:Ek.
    + exists (None :: None :: sl). cbn [scan_all]. rewrite Ek. split; auto. constructor. auto.
    + rewrite (M _ k _ Ek), (M _ v _ Cv).
      destruct (key_arg x r) as [[w r'] |].
      * destruct IH as [sl' [E R]]. exists (Some k :: Some v :: sl'). rewrite E. split; auto. constructor. auto.
      * rewrite IH. reflexivity.
Qed.
Lemma scan_pairs_key : forall x sl r, rel sl r ->
  match key_arg x r with
  | Some (v, r') => exists sl', scan_pairs x sl = Some (Some v, sl') /\ rel sl' r'
  | None => scan_pairs x sl = None
  end.
Proof.
  induction 1 as [| v | sl r H IH | k v sl r H IH].
  - reflexivity.
  - reflexivity.
  - cbn [scan_pairs]. destruct (key_arg x r) as [[v r'] |].
    + destruct IH as [sl' [E R]]. exists (None :: None :: sl'). rewrite E. split; auto. constructor. auto.
    + rewrite IH. reflexivity.
  - cbn [key_arg scan_pairs]. destruct (is_key x k) eqn:Ek.
    + exists (None :: None :: sl). split; auto. constructor. auto.
    + destruct (key_arg x r) as [[w r'] |].
      * destruct IH as [sl' [E R]]. exists (Some k :: Some v :: sl'). rewrite E. split; auto. constructor. auto.
      * rewrite IH. reflexivity.
Qed.

Lemma exec_key : forall ev ks l c sl r, rel sl r -> clean ks r = true ->
  (forall q, In q l -> no_default q = true -> In (fst q) ks) ->
  exists sl', rel sl' (snd (keywords l r))
    /\ forall hist stk, exec ev hist (flat_map (par_code 3) l ++ c) sl stk
       = after ev hist (fst (keywords l r)) (fun h s => exec ev h c sl' s) stk.
Proof.
  intros ev ks. induction l as [| [x d] l IH]; intros c sl r R C I; [exists sl; auto |].
  assert (I' : forall q, In q l -> no_default q = true -> In (fst q) ks) by (intros; apply I; auto; right; auto).
  cbn [flat_map keywords]. unfold par_code at 1. change (3 =? st_required) with false. change (3 =? st_optional) with false. change (3 =? st_key) with true. cbv iota. cbn [fst snd].
  destruct d as [f |].
  - pose proof (scan_pairs_key x sl r R) as K. destruct (key_arg x r) as [[v r'] |] eqn:E.
    + destruct K as [sl1 [E1 R1]].
      destruct (IH c sl1 r' R1 (clean_key_arg _ _ _ _ _ _ (le_n _) C E) I') as [sl' [R' P]].
      exists sl'. destruct (keywords l r') as [q a]. split; [exact R' |]. intros. cbn [fst]. rewrite after_given. cbn [app exec]. rewrite E1. apply P.
    + destruct (IH c sl r R C I') as [sl' [R' P]].
      exists sl'. destruct (keywords l r) as [q a]. split; [exact R' |]. intros. cbn [fst]. rewrite after_default. cbn [app exec]. rewrite K.
      destruct (ev hist f); [apply P | reflexivity].
  - assert (Ix : In x ks) by (apply (I (x, None)); [left |]; reflexivity).
    pose proof (scan_all_scan1 x sl r R _ Ix C) as K. destruct (key_arg x r) as [[v r'] |] eqn:E.
    + destruct K as [sl1 [E1 R1]].
      destruct (IH c sl1 r' R1 (clean_key_arg _ _ _ _ _ _ (le_n _) C E) I') as [sl' [R' P]].
      exists sl'. destruct (keywords l r') as [q a]. split; [exact R' |]. intros. cbn [fst]. rewrite after_given. cbn [app exec]. rewrite E1. apply P.
    + destruct (IH c sl r R C I') as [sl' [R' P]].
      exists sl'. destruct (keywords l r) as [q a]. split; [exact R' |]. intros. cbn [fst]. rewrite after_nil. cbn [app exec]. rewrite K. apply P.
Qed.

(* --- the whole --- *)

Definition rest_names (p : params) : list nat := match rest p with Some x => [x] | None => [] end.
Lemma compile_rest : forall p st, compile (rest_elems p) (last_tl p) st [] = (match rest p with Some _ => [RestArg] | None => [] end, rest_names p).
Proof. intros. unfold rest_elems, last_tl, rest_names. destruct (rest p), (dotted p); reflexivity. Qed.
Lemma exec_rest : forall ev p hist sl r stk, rel sl r ->
  exec ev hist (match rest p with Some _ => [RestArg] | None => [] end) sl stk = after ev hist (rest_src p r) (fun _ s => VOk s) stk.
Proof.
  intros. apply rel_collect in H. unfold rest_src. destruct (rest p); cbn [exec].
  - rewrite after_given, H. reflexivity.
  - reflexivity.
Qed.
Lemma compile_keys : forall p l st, compile (key_elems l ++ rest_elems p) (last_tl p) st []
  = (flat_map (par_code 3) l ++ fst (compile (rest_elems p) (last_tl p) 3 []), rest_names p ++ rev (map fst l)).
Proof.
  intros. destruct l as [| k ks].
  - cbn [key_elems app flat_map map rev]. rewrite app_nil_r. rewrite !compile_rest. reflexivity.
  - remember (k :: ks) as l. assert (E : key_elems l = MKey :: pars l) by (subst; reflexivity). rewrite E.
    cbn [app compile]. change st_key with 3. rewrite compile_pars. rewrite (compile_rest p 3). reflexivity.
Qed.
Lemma compile_opts : forall p o l st, compile (opt_elems o ++ key_elems l ++ rest_elems p) (last_tl p) st []
  = (flat_map (par_code 2) o ++ flat_map (par_code 3) l ++ fst (compile (rest_elems p) (last_tl p) 3 []), rest_names p ++ rev (map fst l) ++ rev (map fst o)).
Proof.
  intros. destruct o as [| k ks].
  - cbn [opt_elems app flat_map map rev]. rewrite app_nil_r. apply compile_keys.
  - remember (k :: ks) as o. assert (E : opt_elems o = MOpt :: pars o) by (subst; reflexivity). rewrite E.
    cbn [app compile]. change st_optional with 2. rewrite compile_pars, compile_keys. cbn [fst snd]. rewrite <- app_assoc. reflexivity.
Qed.
Lemma pars_no_def : forall l, map (fun x => Par x None) l = pars (no_def l).
Proof. intros. unfold pars, no_def. rewrite map_map. reflexivity. Qed.
Lemma names_no_def : forall l, map fst (no_def l) = l.
Proof. intros. unfold no_def. rewrite map_map. cbn. apply map_id. Qed.

Lemma optionals_names : forall l a, map fst (optionals l a) = map fst l.
Proof. induction l as [| [x d] l IH]; intros; destruct a; cbn; f_equal; auto. Qed.
Lemma keywords_names : forall l a, map fst (fst (keywords l a)) = map fst l.
Proof.
  induction l as [| [x d] l IH]; intros; [reflexivity |]. cbn [keywords map].
  destruct (key_arg x a) as [[v a'] |].
  - specialize (IH a'). destruct (keywords l a'). cbn in *. f_equal; auto.
  - specialize (IH a). destruct (keywords l a). cbn in *. f_equal; auto.
Qed.
Lemma given_names : forall xs a, length xs <= length a -> map fst (map given (combine xs a)) = xs.
Proof. induction xs; intros; [reflexivity |]. destruct a0; cbn in *; [lia |]. f_equal. apply IHxs. lia. Qed.
Lemma bind_vars_vals : forall r stk, bind_vars (map fst r) (map (fun q : nat * val => Some (snd q)) r ++ stk) = Some r.
Proof. induction r as [| [x v] r IH]; intros; [destruct stk; reflexivity |]. cbn. rewrite IH. reflexivity. Qed.

Lemma compiled_ok : forall ev p args,
  clean (map fst (filter no_default (key p))) (left_over p args) = true ->
  compiled ev (syntax p) args = reversed (documented ev p args).
Proof.
  intros ev p args C. unfold compiled, documented. rewrite syntax_eq. cbn [fst snd].
  rewrite pars_no_def, compile_pars, compile_opts. cbn [fst snd]. rewrite names_no_def.
  change st_required with 1. rewrite exec_req.
  destruct (length args <? length (req p)) eqn:E; [reflexivity |]. apply Nat.ltb_ge in E.
  unfold left_over in C. rewrite <- skip_skip in C.
  set (a1 := skipn (length (req p)) args) in *. set (a2 := skipn (length (opt p)) a1) in *.
  assert (R : rel (map Some a2) a2) by (eapply rel_some; apply le_n).
  assert (X : exists sl', rel sl' (snd (keywords (key p) a2)) /\ forall h s, exec ev h (flat_map (par_code 3) (key p) ++ fst (compile (rest_elems p) (last_tl p) 3 [])) (map Some a2) s
    = after ev h (fst (keywords (key p) a2)) (fun h s => exec ev h (fst (compile (rest_elems p) (last_tl p) 3 [])) sl' s) s).
  { apply (exec_key ev (map fst (filter no_default (key p)))); auto. intros q Iq D. apply in_map. apply filter_In. auto. }
  destruct X as [sl' [R' X]].
  assert (Y : after ev [] (map given (combine (req p) args))
      (fun h s => exec ev h (flat_map (par_code 2) (opt p) ++ flat_map (par_code 3) (key p) ++ fst (compile (rest_elems p) (last_tl p) 3 [])) (map Some a1) s) []
    = after ev [] (map given (combine (req p) args) ++ optionals (opt p) a1 ++ fst (keywords (key p) a2) ++ rest_src p (snd (keywords (key p) a2))) (fun _ s => VOk s) []).
  { rewrite after_app. unfold after at 1 2. destruct (settleh ev [] (map given (combine (req p) args))) as [[l h] |]; [| reflexivity].
    rewrite exec_opt. fold a2. rewrite after_app. unfold after at 1 2. destruct (settleh ev h (optionals (opt p) a1)) as [[l2 h2] |]; [| reflexivity].
    rewrite X. rewrite after_app. unfold after at 1 2. destruct (settleh ev h2 (fst (keywords (key p) a2))) as [[l3 h3] |]; [| reflexivity].
    rewrite compile_rest. cbn [fst]. apply exec_rest. auto. }
  match type of Y with ?A = _ => match goal with |- match ?B with _ => _ end = _ => change B with A end end.
  rewrite Y. clear Y X.
  assert (N : map fst (map given (combine (req p) args) ++ optionals (opt p) a1 ++ fst (keywords (key p) a2) ++ rest_src p (snd (keywords (key p) a2)))
    = req p ++ map fst (opt p) ++ map fst (key p) ++ rest_names p).
  { rewrite !map_app, given_names, optionals_names, keywords_names by auto. unfold rest_src, rest_names. destruct (rest p); reflexivity. }
  fold (rest_src p). destruct (keywords (key p) a2) as [ks a3]. cbn [fst snd] in *.
  change (match rest p with Some x => [(x, Given (Lst a3))] | None => [] end) with (rest_src p a3).
  change (map (fun q : nat * val => (fst q, Given (snd q))) (combine (req p) args)) with (map given (combine (req p) args)).
  rewrite settleh_settle. unfold after.
  destruct (settleh ev [] (map given (combine (req p) args) ++ optionals (opt p) a1 ++ ks ++ rest_src p a3)) as [[l h] |] eqn:S; [| reflexivity].
  cbn [option_map fst reversed]. apply settleh_names in S. rewrite N in S.
  replace ((rest_names p ++ rev (map fst (key p)) ++ rev (map fst (opt p))) ++ rev (req p)) with (map fst (rev l)).
  - unfold vals. rewrite <- map_rev. rewrite bind_vars_vals. reflexivity.
  - rewrite map_rev, S, !rev_app_distr, <- !app_assoc. f_equal. unfold rest_names. destruct (rest p); reflexivity.
Qed.
