From Coq Require Import List Bool Arith ZArith Lia.
Import ListNotations.
From Verif Require Import Backquote_Model Backquote_Spec.

Lemma some_inj : forall A (a b : A), Some a = Some b -> a = b. Proof. intros. injection H. auto. Qed.
Lemma cons_inj : forall A (a b : A) l m, a :: l = b :: m -> a = b /\ l = m. Proof. intros. injection H. auto. Qed.
Section P.
Variable St : Type.
Variable E : St -> sexp -> option (sexp * St).
Hypothesis HE : evaluator St E.
Notation res := (res St).
Notation Un := (Un St). Notation Err := (Err St). Notation Ok := (Ok St).
Notation bind := (bind St). Notation eval := (eval St E). Notation inst := (inst St E). Notation evals := (evals St E).
Notation agrees := (agrees St).

(* --- order --- *)
Definition le (a b : res) : Prop := a = Un \/ a = b.
Lemma le_refl : forall a, le a a. Proof. right. reflexivity. Qed.
Lemma le_trans : forall a b c, le a b -> le b c -> le a c.
Proof. intros a b c [H | H] [K | K]; subst; unfold le; auto. Qed.
Lemma bind_le : forall a b f g, le a b -> (forall v s, le (f v s) (g v s)) -> le (bind a f) (bind b g).
Proof. intros a b f g [H | H] K; subst; [left; reflexivity |]. destruct b; cbn; auto using le_refl. Qed.
Lemma agrees_le : forall a b o, le a b -> agrees b o -> agrees a o.
Proof. intros a b o [H | H] K; subst; cbn; auto. Qed.

(* --- pieces --- *)
Inductive piece := PI (f : sexp) | PS (f : sexp).
Definition join (v w : sexp) (s : St) : res := if proper v then Ok (append2 v w) s else Un.
Fixpoint sem (s : St) (ps : list piece) (k : St -> res) (e : bool) : res :=
  match ps with
  | [] => k s
  | PI f :: r => bind (eval s f) (fun v s => bind (sem s r k e) (fun w s => Ok (Cons v w) s))
  | PS f :: r =>
    if (match r with [] => true | _ => false end) && e then eval s f
    else bind (eval s f) (fun v s => bind (sem s r k e) (fun w s => join v w s))
  end.
Definition ends (ps : list piece) (e : bool) : bool := (match ps with [] => true | _ => false end) && e.
Lemma sem_ps : forall s f r k e, sem s (PS f :: r) k e
  = if ends r e then eval s f else bind (eval s f) (fun v s => bind (sem s r k e) (fun w s => join v w s)).
Proof. reflexivity. Qed.
Lemma sem_le : forall A X Y k k' e e', ends X e = false -> ends Y e' = false ->
  (forall s, le (sem s X k e) (sem s Y k' e')) -> forall s, le (sem s (A ++ X) k e) (sem s (A ++ Y) k' e').
Proof.
  induction A as [| [f | f] A IH]; intros X Y k k' e e' H1 H2 H s.
  - apply H.
  - cbn [app sem]. apply bind_le; [apply le_refl |]. intros. apply bind_le; [apply IH; auto |]. intros. apply le_refl.
  - cbn [app]. rewrite !sem_ps.
    assert (H1' : ends (A ++ X) e = false) by (destruct A; [exact H1 | reflexivity]).
    assert (H2' : ends (A ++ Y) e' = false) by (destruct A; [exact H2 | reflexivity]).
    rewrite H1', H2'. apply bind_le; [apply le_refl |]. intros. apply bind_le; [apply IH; auto |]. intros. apply le_refl.
Qed.

(* --- evaluation of generated code --- *)
Definition evstar (s : St) (l : list sexp) : option (sexp * St) := option_map (fun r => (list_star (fst r), snd r)) (evals s l).
Lemma evals_app : forall a b s, evals s (a ++ b) =
  match evals s a with
  | Some (vs, s) => option_map (fun r => (vs ++ fst r, snd r)) (evals s b)
  | None => None
  end.
Proof.
  induction a as [| f a IH]; intros; cbn.
  - destruct (evals s b) as [[? ?] |]; reflexivity.
  - destruct (E s f) as [[v s1] |]; [| reflexivity]. rewrite IH. destruct (evals s1 a) as [[vs s2] |]; [| reflexivity].
    destruct (evals s2 b); reflexivity.
Qed.
Lemma evals_length : forall l s vs s', evals s l = Some (vs, s') -> length vs = length l.
Proof.
  induction l as [| f l IH]; intros s vs s' H; cbn in H; [inversion H; reflexivity |].
  destruct (E s f) as [[v s1] |]; [| discriminate]. destruct (evals s1 l) as [[ws s2] |] eqn:X; [| discriminate].
  inversion H; subst. cbn. f_equal. eauto.
Qed.
Lemma list_star_app : forall a x y, list_star (a ++ [x; y]) = list_star (a ++ [Cons x y]).
Proof.
  induction a as [| z a IH]; intros; [reflexivity |].
  change (list_star (z :: (a ++ [x; y])) = list_star (z :: (a ++ [Cons x y]))).
  assert (N : forall l m, l ++ [m] <> @nil sexp) by (intros; destruct l; discriminate).
  assert (C : forall l, l <> [] -> list_star (z :: l) = Cons z (list_star l)) by (intros l H; destruct l; [congruence | reflexivity]).
  rewrite !C; [rewrite IH; reflexivity | destruct a; discriminate | destruct a; discriminate].
Qed.
Lemma list_star_nil : forall a, list_star (a ++ [Nil]) = mklist a.
Proof. induction a; [reflexivity |]. cbn [app]. destruct a0; [reflexivity |]. cbn in *. f_equal. exact IHa. Qed.

(* f is a constant *)
Definition cst (f : sexp) : Prop := forall s, E s f = Some (backquote_eval f, s).

Lemma evstar_const : forall a f g s, cst f -> cst g ->
  evstar s (a ++ [f; g]) = evstar s (a ++ [quoted (Cons (backquote_eval f) (backquote_eval g))]).
Proof.
  intros. unfold evstar. rewrite !evals_app. destruct (evals s a) as [[vs s1] |]; [| reflexivity].
  cbn [Backquote_Spec.evals]. rewrite H, H0. rewrite (law_quote _ _ HE). cbn [option_map fst snd]. rewrite list_star_app. reflexivity.
Qed.
Lemma backquote_eval_quoted : forall x, backquote_eval (quoted x) = x.
Proof. reflexivity. Qed.
Lemma cst_quoted : forall x, cst (quoted x).
Proof. intros x s. rewrite (law_quote _ _ HE). reflexivity. Qed.

Definition okitem (i : tagged) : Prop := fst i = 0 -> cst (snd i).

(* the loop of listify: the forms still stand for the same *)
Lemma listify_loop_old : forall lst heads tail, listify_loop lst true heads tail = (map snd (rev lst) ++ heads, tail).
Proof.
  induction lst as [| [tag f] lst IH]; intros; [reflexivity |].
  cbn [listify_loop]. rewrite orb_true_r. cbn [orb]. rewrite IH. cbn [rev]. rewrite map_app, <- app_assoc. reflexivity.
Qed.
Lemma listify_loop_new : forall lst heads tail s, Forall okitem lst ->
  let (h, t) := listify_loop lst false heads tail in
  evstar s (map snd (rev lst) ++ heads ++ [quoted tail]) = evstar s (h ++ [quoted t])
  /\ (h = [] -> heads = [] /\ Forall (fun i => fst i = 0) lst).
Proof.
  induction lst as [| [tag f] lst IH]; intros heads tail s H; [split; [reflexivity | auto] |].
  inversion H; subst. cbn [listify_loop].
  destruct heads as [| h0 heads]; [destruct (tag =? 0) eqn:T |]; cbn [orb negb].
  - specialize (IH [] (Cons (backquote_eval f) tail) s H3). destruct (listify_loop lst false [] (Cons (backquote_eval f) tail)) as [h t].
    destruct IH as [IH1 IH2]. apply Nat.eqb_eq in T. split.
    + rewrite <- IH1. cbn [rev app]. rewrite map_app, <- app_assoc. cbn [map snd app].
      rewrite evstar_const by (auto using cst_quoted). reflexivity.
    + intros X. split; auto. constructor; [exact T | apply IH2; auto].
  - specialize (IH [f] tail s H3). destruct (listify_loop lst false [f] tail) as [h t]. destruct IH as [IH1 IH2]. split.
    + rewrite <- IH1. cbn [rev]. rewrite map_app, <- app_assoc. reflexivity.
    + intros X. destruct (IH2 X). discriminate.
  - specialize (IH (f :: h0 :: heads) tail s H3). destruct (listify_loop lst false (f :: h0 :: heads) tail) as [h t]. destruct IH as [IH1 IH2]. split.
    + rewrite <- IH1. cbn [rev]. rewrite map_app, <- app_assoc. reflexivity.
    + intros X. destruct (IH2 X). discriminate.
Qed.

Lemma star_code : forall s (h : sexp) hs tail,
  E s (mklist (Sym (if match hs with [] => consp h && is SSplice (car h) | _ => true end then SListStar else SCons) :: (h :: hs) ++ [tail]))
  = evstar s ((h :: hs) ++ [tail]).
Proof.
  intros. destruct hs as [| h2 hs].
  - destruct (consp h && is SSplice (car h)).
    + apply (law_star _ _ HE s [h; tail]).
    + apply (law_cons _ _ HE s h tail).
  - apply (law_star _ _ HE s ((h :: h2 :: hs) ++ [tail])).
Qed.
Lemma evstar_nil : forall s l, evstar s (l ++ [Nil]) = option_map (fun r => (mklist (fst r), snd r)) (evals s l).
Proof.
  intros. unfold evstar. rewrite evals_app. destruct (evals s l) as [[vs s1] |]; [| reflexivity].
  cbn [Backquote_Spec.evals]. rewrite (law_nil _ _ HE). cbn [option_map fst snd]. rewrite list_star_nil. reflexivity.
Qed.
Lemma evstar_one : forall s f, evstar s [f] = E s f.
Proof. intros. unfold evstar. cbn. destruct (E s f) as [[v s1] |]; reflexivity. Qed.
Lemma evstar_qnil : forall s l, evstar s (l ++ [quoted Nil]) = evstar s (l ++ [Nil]).
Proof.
  intros. unfold evstar. rewrite !evals_app. destruct (evals s l) as [[vs s1] |]; [| reflexivity].
  cbn [Backquote_Spec.evals]. rewrite (law_nil _ _ HE), (law_quote _ _ HE). reflexivity.
Qed.

Lemma listify_ok : forall lst tag t s, Forall okitem lst -> (tag = 0 -> cst t) ->
  E s (listify lst (tag, t)) = evstar s (map snd (rev lst) ++ [t]).
Proof.
  intros lst tag t s H C. unfold listify. destruct (tag =? 0) eqn:T; cbn [negb].
  - apply Nat.eqb_eq in T. specialize (C T).
    pose proof (listify_loop_new lst [] (backquote_eval t) s H) as L.
    destruct (listify_loop lst false [] (backquote_eval t)) as [h u]. destruct L as [L _]. cbn [app] in L.
    assert (X : evstar s (map snd (rev lst) ++ [t]) = evstar s (map snd (rev lst) ++ [quoted (backquote_eval t)])).
    { unfold evstar. rewrite !evals_app. destruct (evals s (map snd (rev lst))) as [[vs s1] |]; [| reflexivity].
      cbn [Backquote_Spec.evals]. rewrite C, (law_quote _ _ HE). reflexivity. }
    rewrite X, L. clear X L. destruct (nonnil u) eqn:U.
    + destruct h as [| h hs]; [symmetry; apply evstar_one |]. apply star_code.
    + destruct u; try discriminate. rewrite evstar_qnil, evstar_nil. apply (law_list _ _ HE s h).
  - rewrite listify_loop_old, app_nil_r. destruct (nonnil t) eqn:U.
    + destruct (map snd (rev lst)) as [| h hs]; [symmetry; apply evstar_one |]. apply star_code.
    + destruct t; try discriminate. rewrite evstar_nil. apply (law_list _ _ HE s (map snd (rev lst))).
Qed.

(* --- merging pieces --- *)
Definition ofopt (o : option (sexp * St)) : res := match o with Some (v, s) => Ok v s | None => Err end.
Lemma agrees_ofopt : forall o, agrees (ofopt o) o.
Proof. destruct o as [[v s] |]; reflexivity. Qed.
Lemma proper_mklist : forall l, proper (mklist l) = true.
Proof. induction l; auto. Qed.
Lemma append2_mklist : forall l w, append2 (mklist l) w = fold_right Cons w l.
Proof. induction l; intros; cbn; f_equal; auto. Qed.

Lemma sem_items : forall fs s B k e,
  sem s (map PI fs ++ B) k e =
  match evals s fs with
  | Some (vs, s1) => bind (sem s1 B k e) (fun w s => Ok (fold_right Cons w vs) s)
  | None => Err
  end.
Proof.
  induction fs as [| f fs IH]; intros; cbn [map app sem Backquote_Spec.evals].
  - destruct (sem s B k e); reflexivity.
  - unfold Backquote_Spec.eval. destruct (E s f) as [[v s1] |]; [| reflexivity]. cbn [Backquote_Spec.bind]. rewrite IH.
    destruct (evals s1 fs) as [[vs s2] |]; [| reflexivity]. destruct (sem s2 B k e); reflexivity.
Qed.
Lemma merge_group : forall lst s p B k e, Forall okitem lst ->
  sem s (map PI (map snd (rev lst)) ++ p :: B) k e = sem s (PS (listify lst (0, Nil)) :: p :: B) k e.
Proof.
  intros. rewrite sem_items, sem_ps. change (ends (p :: B) e) with false. cbv iota. unfold Backquote_Spec.eval.
  rewrite listify_ok; auto; [| intros _ s1; apply (law_nil _ _ HE)]. rewrite evstar_nil.
  destruct (evals s (map snd (rev lst))) as [[vs s1] |]; [| reflexivity]. cbn [option_map fst snd Backquote_Spec.bind].
  destruct (sem s1 (p :: B) k e); try reflexivity. cbn [Backquote_Spec.bind]. unfold join. rewrite proper_mklist, append2_mklist. reflexivity.
Qed.
Lemma merge_tail : forall lst s tag t k e, Forall okitem lst -> (tag = 0 -> cst t) -> (forall s, k s = ofopt (E s t)) ->
  sem s (map PI (map snd (rev lst))) k e = sem s [PS (listify lst (tag, t))] (fun s => Ok Nil s) true.
Proof.
  intros. pose proof (sem_items (map snd (rev lst)) s [] k e) as S. rewrite app_nil_r in S. rewrite S. clear S.
  rewrite sem_ps. change (ends [] true) with true. cbv iota. unfold Backquote_Spec.eval. rewrite listify_ok; auto.
  unfold evstar. rewrite evals_app. destruct (evals s (map snd (rev lst))) as [[vs s1] |]; [| reflexivity].
  cbn [Backquote_Spec.evals sem]. rewrite H1. destruct (E s1 t) as [[w s2] |]; [| reflexivity]. cbn [ofopt Backquote_Spec.bind option_map fst snd].
  f_equal. clear. induction vs; cbn; [reflexivity |]. rewrite IHvs. destruct vs; reflexivity.
Qed.

(* --- the expression --- *)
Lemma append_sem : forall ps s, ps <> [] ->
  agrees (sem s (map PS ps) (fun s => Ok Nil s) true) (match evals s ps with Some (vs, s) => option_map (fun v => (v, s)) (append vs) | None => None end).
Proof.
  induction ps as [| p ps IH]; intros s N; [congruence |]. cbn [map]. rewrite sem_ps.
  destruct ps as [| q ps].
  - change (ends (map PS []) true) with true. cbv iota. unfold Backquote_Spec.eval. cbn [Backquote_Spec.evals]. destruct (E s p) as [[v s1] |]; reflexivity.
  - change (ends (map PS (q :: ps)) true) with false. cbv iota. unfold Backquote_Spec.eval at 1.
    change (evals s (p :: q :: ps)) with (match E s p with Some (v, s0) => match evals s0 (q :: ps) with Some (vs, s1) => Some (v :: vs, s1) | None => None end | None => None end).
    destruct (E s p) as [[v s1] |]; [| reflexivity]. cbn [Backquote_Spec.bind].
    specialize (IH s1 ltac:(discriminate)).
    destruct (sem s1 (map PS (q :: ps)) (fun s => Ok Nil s) true) as [w s2 | |] eqn:S; cbn [Backquote_Spec.bind].
    + cbn [Backquote_Spec.agrees] in IH. destruct (evals s1 (q :: ps)) as [[vs s3] |] eqn:V; [| discriminate].
      unfold join. destruct (proper v) eqn:P; [| exact I].
      destruct (append vs) as [x |] eqn:A; [| discriminate]. inversion IH; subst.
      pose proof (evals_length _ _ _ _ V) as L. destruct vs as [| v2 vs]; [discriminate |].
      assert (LP : listp v = true) by (destruct v; try discriminate; reflexivity).
      change (append (v :: v2 :: vs)) with (if listp v then option_map (append2 v) (append (v2 :: vs)) else None).
      rewrite LP, A. reflexivity.
    + cbn [Backquote_Spec.agrees] in IH |- *. destruct (evals s1 (q :: ps)) as [[vs s3] |] eqn:V; [| reflexivity].
      destruct (append vs) as [x |] eqn:A; [discriminate |].
      pose proof (evals_length _ _ _ _ V) as L. destruct vs as [| v2 vs]; [discriminate |].
      change (append (v :: v2 :: vs)) with (if listp v then option_map (append2 v) (append (v2 :: vs)) else None).
      rewrite A. destruct (listp v); reflexivity.
    + exact I.
Qed.
Lemma first_sem : forall F s expr R, Forall okitem F ->
  (forall s, agrees (sem s R (fun s => Ok Nil s) true) (E s expr)) ->
  agrees (sem s (map PI (map snd (rev F)) ++ R) (fun s => Ok Nil s) true) (E s (listify F (1, expr))).
Proof.
  intros F s expr R H A. rewrite listify_ok; auto; [| discriminate]. rewrite sem_items. unfold evstar. rewrite evals_app.
  destruct (evals s (map snd (rev F))) as [[vs s1] |]; [| reflexivity]. specialize (A s1). cbn [Backquote_Spec.evals].
  destruct (sem s1 R (fun s => Ok Nil s) true) as [w s2 | |]; cbn [Backquote_Spec.bind Backquote_Spec.agrees] in *; [| | exact I].
  - rewrite A. cbn [option_map fst snd]. do 2 f_equal. clear. induction vs; cbn; [reflexivity |]. rewrite <- IHvs. destruct vs; reflexivity.
  - rewrite A. reflexivity.
Qed.

(* --- the loop --- *)
Fixpoint constb (t : sexp) : bool :=
  match t with
  | Vec _ => false
  | Cons a d => negb (is SUnquote a || is SSplice a || is SBackquote a) && (match as_splice a with Some _ => false | None => true end) && constb a && constb d
  | _ => true
  end.
Lemma constb_inst : forall t s, constb t = true -> inst s t = Ok t s.
Proof.
  induction t as [| x | z | a IHa d IHd | l]; intros s H; try reflexivity; [| discriminate].
  cbn [constb] in H. apply andb_prop in H. destruct H as [H Hd]. apply andb_prop in H. destruct H as [H Ha].
  apply andb_prop in H. destruct H as [H Hs]. apply negb_true_iff in H. apply orb_false_elim in H. destruct H as [H Hb]. apply orb_false_elim in H. destruct H as [Hu Hp].
  cbn [Backquote_Spec.inst]. rewrite Hu, Hp, Hb. cbn [orb]. destruct (as_splice a); [discriminate |].
  rewrite IHa by auto. cbn [Backquote_Spec.bind]. rewrite IHd by auto. reflexivity.
Qed.

Definition tag0 (i : tagged) : Prop := fst i = 0.
Definition elem_ok (a : sexp) (i : tagged) : Prop :=
  match as_splice a with
  | Some f => i = (2, f)
  | None => (fst i = 0 \/ fst i = 1) /\ okitem i /\ (forall s, le (inst s a) (eval s (snd i))) /\ (fst i = 0 -> constb a = true)
  end.
Definition nilb (x : sexp) : bool := match x with Nil => true | _ => false end.
Definition items (l : list tagged) : list piece := map PI (map snd (rev l)).
Definition P (F lst : list tagged) (L : list sexp) : list piece := items F ++ map PS (rev L) ++ items lst.
Lemma items_cons : forall i l, items (i :: l) = items l ++ [PI (snd i)].
Proof. intros. unfold items. cbn [rev]. rewrite !map_app. reflexivity. Qed.
Lemma items_nonempty : forall i l, items (i :: l) <> [].
Proof. intros. rewrite items_cons. destruct (items l); discriminate. Qed.

Record Inv (t rest : sexp) (F lst : list tagged) (L : list sexp) : Prop := mkInv {
  i_sem : forall s, le (inst s t) (sem s (P F lst L) (fun s => inst s rest) (nilb rest));
  i_F : Forall okitem F;
  i_lst : Forall okitem lst;
  i_LF : L = [] -> F = [];
  i_const : L = [] -> Forall tag0 lst -> constb rest = true -> constb t = true;
  i_first : L = [] -> lst = [] -> rest = t;
  i_one : forall p, F = [] -> L = [p] -> lst = [] -> exists a, t = Cons a rest /\ as_splice a = Some p }.

Lemma sem_step : forall t rest d F lst L p, Inv t rest F lst L -> nilb rest = false ->
  (forall s, le (inst s rest) (sem s [p] (fun s => inst s d) (nilb d))) ->
  forall s, le (inst s t) (sem s (P F lst L ++ [p]) (fun s => inst s d) (nilb d)).
Proof.
  intros t rest d F lst L p I N H s. eapply le_trans; [apply (i_sem _ _ _ _ _ I) |].
  rewrite <- (app_nil_r (P F lst L)) at 1. apply sem_le; auto.
Qed.

Lemma add_splice : forall t rest d F lst L f F' lst' L', Inv t rest F lst L -> nilb rest = false ->
  (forall s, le (inst s rest) (sem s [PS f] (fun s => inst s d) (nilb d))) ->
  (rest = t -> exists a, t = Cons a d /\ as_splice a = Some f) ->
  add (2, f) F lst L = (F', lst', L') -> Inv t d F' lst' L'.
Proof.
  intros t rest d F lst L f F' lst' L' I N H O A.
  pose proof (sem_step _ _ _ _ _ _ (PS f) I N H) as S.
  pose proof (i_LF _ _ _ _ _ I) as LF. pose proof (i_F _ _ _ _ _ I) as HF. pose proof (i_lst _ _ _ _ _ I) as Hl.
  pose proof (i_first _ _ _ _ _ I) as Fi.
  unfold add in A. cbn [fst snd Nat.eqb] in A.
  destruct L as [| p L].
  - specialize (LF eq_refl). subst F. inversion A; subst. clear A. constructor; auto; try discriminate.
    intros p E1 E2 _. inversion E2; subst. apply O. apply Fi; auto.
  - destruct lst as [| i lst].
    + inversion A; subst. clear A. constructor; auto; try discriminate.
      intros s. eapply le_trans; [apply S |]. right. f_equal. unfold P. change (items []) with (@nil piece). rewrite !app_nil_r.
      cbn [rev]. rewrite !map_app. rewrite <- ?app_assoc. reflexivity.
    + change ((F, @nil tagged, f :: listify (i :: lst) (0, Nil) :: p :: L) = (F', lst', L')) in A. remember (listify (i :: lst) (0, Nil)) as G eqn:EG in A. injection A as <- <- <-. constructor; auto; try discriminate.
      intros s. eapply le_trans; [apply S |].
      replace (P F (i :: lst) (p :: L) ++ [PS f]) with ((items F ++ map PS (rev (p :: L))) ++ (items (i :: lst) ++ [PS f])) by (unfold P; rewrite <- !app_assoc; reflexivity).
      replace (P F [] (f :: G :: p :: L)) with ((items F ++ map PS (rev (p :: L))) ++ [PS G; PS f]).
      * apply (sem_le (items F ++ map PS (rev (p :: L))) (items (i :: lst) ++ [PS f]) [PS G; PS f]); [destruct (items (i :: lst)); reflexivity | reflexivity |]. intros s1. right. rewrite EG. apply merge_group. auto.
      * unfold P. change (items []) with (@nil piece). rewrite app_nil_r. cbn [rev]. rewrite !map_app, <- !app_assoc. reflexivity.
Qed.
Lemma add_item : forall t a d F lst L i F' lst' L', Inv t (Cons a d) F lst L -> as_splice a = None -> elem_ok a i ->
  (is SUnquote a || is SSplice a || is SBackquote a = false) ->
  add i F lst L = (F', lst', L') -> Inv t d F' lst' L'.
Proof.
  intros t a d F lst L i F' lst' L' I N K Sp A. unfold elem_ok in K. rewrite N in K. destruct K as [T [Oi [Le C]]].
  unfold add in A. replace (fst i =? 2) with false in A by (destruct T as [T | T]; rewrite T; reflexivity). inversion A; subst. clear A.
  assert (Sp' := Sp). apply orb_false_elim in Sp. destruct Sp as [Sp Sb]. apply orb_false_elim in Sp. destruct Sp as [Su Ss].
  constructor; try (apply I); try discriminate.
  - intros s. replace (P F' (i :: lst) L') with (P F' lst L' ++ [PI (snd i)]) by (unfold P; rewrite items_cons, <- !app_assoc; reflexivity).
    eapply sem_step; eauto. intros s1. cbn [Backquote_Spec.inst]. rewrite Su, Ss, Sb. cbn [orb]. rewrite N. cbn [sem].
    apply bind_le; auto. intros. apply le_refl.
  - constructor; auto. apply I.
  - intros E1 E2 E3. inversion E2; subst. apply (i_const _ _ _ _ _ I); auto. cbn [constb]. rewrite Sp', N. rewrite C, E3 by auto. reflexivity.
Qed.

Definition good (t : sexp) (i : tagged) : Prop :=
  (fst i = 0 -> constb t = true /\ cst (snd i) /\ backquote_eval (snd i) = t)
  /\ (fst i = 1 -> forall s, agrees (inst s t) (E s (snd i)))
  /\ (fst i = 0 \/ fst i = 1).

Lemma listify_car1 : forall F x, F <> [] -> is Quote (car (listify F (1, x))) = false.
Proof.
  intros F x N. unfold listify. cbn [Nat.eqb negb]. rewrite listify_loop_old, app_nil_r.
  destruct F as [| i F] using rev_ind; [congruence |]. rewrite rev_app_distr. cbn [rev app map].
  destruct (nonnil x); [| reflexivity].
  destruct (map snd (rev F)); [destruct (consp (snd i) && is SSplice (car (snd i))) |]; reflexivity.
Qed.
Lemma listify_car0 : forall lst f, Forall okitem lst -> is Quote (car (listify lst (0, f))) = true -> Forall tag0 lst.
Proof.
  intros lst f H Q. unfold listify in Q. cbn [Nat.eqb negb] in Q.
  destruct lst as [| i0 lst0] eqn:El; [constructor |]. rewrite <- El in *. clear El i0 lst0.
  assert (X : forall lst heads tail, let (h, t) := listify_loop lst false heads tail in h = [] -> heads = [] /\ Forall tag0 lst).
  { clear. induction lst as [| [tag f] lst IH]; intros; [cbn; auto |]. cbn [listify_loop].
    destruct heads as [| h0 heads]; [destruct (tag =? 0) eqn:T |]; cbn [orb negb].
    - specialize (IH [] (Cons (backquote_eval f) tail)). destruct (listify_loop lst false [] (Cons (backquote_eval f) tail)).
      intros X. destruct (IH X). split; auto. constructor; auto. apply Nat.eqb_eq in T. exact T.
    - specialize (IH [f] tail). destruct (listify_loop lst false [f] tail). intros X. destruct (IH X). discriminate.
    - specialize (IH (f :: h0 :: heads) tail). destruct (listify_loop lst false (f :: h0 :: heads) tail). intros X. destruct (IH X). discriminate. }
  specialize (X lst [] (backquote_eval f)). destruct (listify_loop lst false [] (backquote_eval f)) as [h u].
  destruct h as [| h hs]; [apply X; reflexivity |].
  destruct (nonnil u); [| discriminate].
  destruct hs; [destruct (consp h && is SSplice (car h)) |]; discriminate.
Qed.

Lemma finish_ok : forall proc t rest F lst L i, Inv t rest F lst L -> consp rest = false -> consp t = true ->
  (forall f, proc rest = Some f -> fst f = 0 /\ cst (snd f) /\ backquote_eval (snd f) = rest) -> constb rest = true ->
  (forall a f, t = Cons a Nil -> as_splice a = Some f -> is Quote (car f) = false) ->
  finish proc t rest F lst L = Some i -> good t i.
Proof.
  intros proc t rest F lst L i I Cr Ct Pr Crest Nq Fi.
  assert (Ir : forall s, inst s rest = Ok rest s) by (intros; apply constb_inst; auto).
  (* the forms to append *)
  unfold finish in Fi.
  set (L2 := if nonnil rest || (match lst with [] => false | _ => true end) then option_map (fun p => listify lst p :: L) (proc rest) else Some L) in Fi.
  assert (X : forall ls, L2 = Some ls -> ls <> [] /\ (forall s, le (inst s t) (sem s (items F ++ map PS (rev ls)) (fun s => Ok Nil s) true))
     /\ (F = [] -> forall p, ls = [p] -> is Quote (car p) = true -> constb t = true)).
  { intros ls El. unfold L2 in El. destruct (nonnil rest || (match lst with [] => false | _ => true end)) eqn:B.
    - destruct (proc rest) as [[tag f] |] eqn:Ep; [| discriminate]. destruct (Pr _ eq_refl) as [T [Cf Ef]]. cbn [fst snd] in T, Cf, Ef. subst tag.
      cbn [option_map] in El. apply some_inj in El. subst ls. split; [discriminate |]. split.
      + intros s. eapply le_trans; [apply (i_sem _ _ _ _ _ I) |]. cbn [rev]. rewrite map_app. unfold P. rewrite !app_assoc.
        apply sem_le; [| reflexivity |].
        * destruct lst as [| i0 lst0]; [| unfold ends; destruct (items (i0 :: lst0)) eqn:Z; [apply items_nonempty in Z; destruct Z | reflexivity]].
          unfold ends. cbn. destruct rest; try reflexivity; discriminate.
        * intros s1. right. cbn [map]. apply merge_tail; auto; try apply I. intros s2. rewrite Ir, Cf, Ef. reflexivity.
      + intros EF p E1 Q. apply cons_inj in E1. destruct E1 as [E1 EL]. subst p. apply (i_const _ _ _ _ _ I); auto. eapply listify_car0; eauto. apply I.
    - apply orb_false_elim in B. destruct B as [B1 B2]. destruct rest; try discriminate. destruct lst; [| discriminate].
      inversion El; subst ls. clear El. split.
      + intros Z. pose proof (i_first _ _ _ _ _ I Z eq_refl) as Y. subst. discriminate.
      + split.
        * intros s. eapply le_trans; [apply (i_sem _ _ _ _ _ I) |]. unfold P. change (items []) with (@nil piece). rewrite app_nil_r. right. reflexivity.
        * intros EF p E1 Q. destruct (i_one _ _ _ _ _ I p EF E1 eq_refl) as [a [Et Ea]]. rewrite (Nq a p Et Ea) in Q. discriminate. }
  destruct L2 as [ls |]; [| discriminate]. destruct (X ls eq_refl) as [X1 [X2 X3]]. clear X.
  set (ex := if (match ls with _ :: _ :: _ => true | _ => false end) || is SSplice (car (hd Nil ls)) then Cons (Sym SAppend) (mklist (rev ls)) else hd Nil ls) in Fi.
  assert (Ex : forall s, agrees (sem s (map PS (rev ls)) (fun s => Ok Nil s) true) (E s ex)).
  { intros s. assert (Na : rev ls <> []) by (intros Z; apply X1; rewrite <- (rev_involutive ls), Z; reflexivity).
    unfold ex. destruct ((match ls with _ :: _ :: _ => true | _ => false end) || is SSplice (car (hd Nil ls))) eqn:B.
    - rewrite (law_append _ _ HE). apply append_sem. auto.
    - destruct ls as [| p [| q ls]]; [congruence | | discriminate]. cbn [rev app map hd]. rewrite sem_ps. change (ends [] true) with true. cbv iota. unfold Backquote_Spec.eval.
      apply agrees_ofopt. }
  assert (Q0 : is Quote (car (match F with [] => ex | _ => listify F (1, ex) end)) = true -> constb t = true).
  { destruct F as [| i0 F].
    - unfold ex. destruct ((match ls with _ :: _ :: _ => true | _ => false end) || is SSplice (car (hd Nil ls))) eqn:B; [discriminate |].
      destruct ls as [| p [| q ls]]; [congruence | | discriminate]. cbn [hd]. intros Q. eapply X3; eauto.
    - rewrite listify_car1 by discriminate. discriminate. }
  destruct (is Quote (car (match F with [] => ex | _ => listify F (1, ex) end))) eqn:Q.
  - inversion Fi; subst. split; [| split; [discriminate | left; reflexivity]]. intros _. cbn [snd]. split; [auto |]. split; [apply cst_quoted | reflexivity].
  - inversion Fi; subst. split; [discriminate |]. split; [| right; reflexivity]. intros _ s. cbn [snd].
    eapply agrees_le; [apply X2 |]. destruct F as [| i0 F].
    + apply Ex.
    + apply first_sem; auto. apply I.
Qed.

Lemma as_splice_shape : forall a f, as_splice a = Some f -> a = mklist [Sym SSplice; f].
Proof.
  intros a f H. destruct a as [| x | z | h d | l]; try discriminate. cbn in H. destruct d as [| x | z | g d | l]; try discriminate. destruct d; try discriminate.
  destruct (is SSplice h) eqn:B; [| discriminate]. inversion H; subst. destruct h; try discriminate. unfold is in B. destruct (sym_eq_dec SSplice s); [subst; reflexivity | discriminate].
Qed.

Lemma loop_ok : forall proc t, consp t = true -> is SUnquote (car t) = false ->
  (forall a f, t = Cons a Nil -> as_splice a = Some f -> is Quote (car f) = false) ->
  (forall f, proc (mklist [Sym SSplice; f]) = Some (2, f)) ->
  (forall x f, consp x = false -> proc x = Some f -> fst f = 0 /\ cst (snd f) /\ backquote_eval (snd f) = x) ->
  (forall a i, size a < size t -> fine true a = true -> proc a = Some i -> good a i) ->
  forall rest, size rest <= size t -> fine false rest = true -> forall F lst L i, Inv t rest F lst L ->
  loop proc t rest F lst L = Some i -> good t i.
Proof.
  intros proc t Ct Hu Nq Psp Pat Pok.
  assert (Atom : forall rest F lst L i, consp rest = false -> fine false rest = true -> Inv t rest F lst L ->
     finish proc t rest F lst L = Some i -> good t i).
  { intros rest F lst L i C Fr I Fi. assert (Cr : constb rest = true) by (destruct rest; try discriminate; reflexivity).
    eapply finish_ok; eauto. }
  induction rest as [| x | z | a _ d IHd | l]; intros Sz Fr F lst L i I Lo; try (apply (Atom _ F lst L i) in Lo; auto; fail).
  cbn [loop] in Lo. cbn [fine] in Fr. cbn [size] in Sz. destruct (is SUnquote a) eqn:U.
  - rewrite Psp in Lo. destruct (add (2, nth1 (Cons a d)) F lst L) as [[F' lst'] L'] eqn:A.
    apply (Atom Nil F' lst' L' i) in Lo; auto.
    eapply add_splice; eauto.
    + intros s. cbn [Backquote_Spec.inst]. rewrite U. cbn [sem nilb andb].
      destruct d as [| x | z | f d | l]; try (left; reflexivity). destruct d; try (left; reflexivity). right. reflexivity.
    + intros Et. subst t. cbn [car] in Hu. congruence.
  - apply andb_prop in Fr. destruct Fr as [Fr Fd]. apply andb_prop in Fr. destruct Fr as [Fr Fa]. apply andb_prop in Fr. destruct Fr as [Fs _].
    apply negb_true_iff in Fs.
    destruct (proc a) as [it |] eqn:Pa; [| discriminate].
    destruct (add it F lst L) as [[F' lst'] L'] eqn:A.
    eapply IHd; [lia | exact Fd | | exact Lo].
    destruct (as_splice a) as [f |] eqn:As.
    + pose proof (as_splice_shape _ _ As) as Sh. rewrite Sh in Pa. rewrite Psp in Pa. inversion Pa; subst it.
      eapply add_splice; eauto.
      intros s. cbn [Backquote_Spec.inst]. rewrite U, Fs, As. cbn [sem]. right. destruct d; reflexivity.
    + eapply add_item; eauto.
      * unfold elem_ok. rewrite As. assert (G : good a it) by (eapply Pok; eauto; lia). destruct G as [G1 [G2 G3]].
        split; [exact G3 |]. split; [intros T; apply G1; exact T |]. split; [| intros T; apply G1; exact T].
        intros s. destruct G3 as [T | T].
        -- destruct (G1 T) as [C1 [C2 C3]]. right. rewrite constb_inst by auto. unfold Backquote_Spec.eval. rewrite C2, C3. reflexivity.
        -- specialize (G2 T s). unfold Backquote_Spec.eval. destruct (inst s a); cbn [Backquote_Spec.agrees] in G2; [right; rewrite G2; reflexivity | right; rewrite G2; reflexivity | left; reflexivity].
      * rewrite <- orb_assoc. rewrite U. exact Fs.
Qed.

Lemma process_atom : forall n x f, consp x = false -> process n x = Some f -> fst f = 0 /\ cst (snd f) /\ backquote_eval (snd f) = x.
Proof.
  intros n x f C H. destruct n as [| n]; [discriminate |]. destruct x; try discriminate; cbn in H; inversion H; subst; (split; [reflexivity |]; split; [| reflexivity]); intros st.
  - apply (law_nil _ _ HE).
  - apply (law_quote _ _ HE).
  - apply (law_num _ _ HE).
Qed.
Lemma process_good : forall n t i, fine true t = true -> process n t = Some i -> good t i.
Proof.
  induction n as [| n IH]; intros t i Ft H; [discriminate |].
  destruct (consp t) eqn:Ct.
  - destruct t as [| x | z | a d | l]; try discriminate. cbn [process] in H. cbn [fine] in Ft.
    destruct (is SUnquote a) eqn:U.
    + inversion H; subst. split; [discriminate |]. split; [| right; reflexivity]. intros _ s. cbn [snd Backquote_Spec.inst]. rewrite U.
      destruct d as [| x | z | f d | l]; try exact I. destruct d; try exact I. apply agrees_ofopt.
    + pose proof Ft as Ft'. apply andb_prop in Ft'. destruct Ft' as [Fr Fd]. apply andb_prop in Fr. destruct Fr as [Fr Fa]. apply andb_prop in Fr. destruct Fr as [Fs Fq].
      apply negb_true_iff in Fs. apply orb_false_elim in Fs. destruct Fs as [F1 F2]. rewrite F1, F2 in H. apply negb_true_iff in Fq. cbn [andb] in Fq.
      destruct n as [| n]; [cbn in H; rewrite U in H; discriminate |].
      eapply (loop_ok (process (S n)) (Cons a d)); [reflexivity | exact U | | | | | apply Nat.le_refl | | | exact H].
      * intros a0 f E1 E2. inversion E1; subst. rewrite E2 in Fq. exact Fq.
      * intros f. reflexivity.
      * intros. eapply process_atom; eauto.
      * intros a0 i0 _ Fa0 Pa. eapply IH; eauto.
      * cbn [fine]. rewrite U, F1, F2, Fa, Fd. reflexivity.
      * constructor; auto; try discriminate. intros s. apply le_refl.
  - destruct (process_atom _ _ _ Ct H) as [T [C B]]. split; [| split; [rewrite T; discriminate | auto]].
    intros _. split; [| auto]. destruct t; try discriminate; reflexivity.
Qed.

(* --- it always ends --- *)
Lemma add_any : forall i F lst L, exists F' lst' L', add i F lst L = (F', lst', L').
Proof. intros. destruct (add i F lst L) as [[F' lst'] L']. eauto. Qed.
Lemma size_pos : forall t, 1 <= size t.
Proof. destruct t; cbn; lia. Qed.
Lemma process_some : forall n t, size t < n -> fine true t = true -> exists i, process n t = Some i.
Proof.
  induction n as [| n IH]; intros t Sz Ft; [lia |].
  destruct t as [| x | z | a d | l]; try discriminate; try (eexists; reflexivity).
  cbn [process]. cbn [fine] in Ft. destruct (is SUnquote a) eqn:U; [eexists; reflexivity |].
  apply andb_prop in Ft. destruct Ft as [Fr Fd]. apply andb_prop in Fr. destruct Fr as [Fr Fa]. apply andb_prop in Fr. destruct Fr as [Fs Fq].
  apply negb_true_iff in Fs. apply orb_false_elim in Fs. destruct Fs as [F1 F2]. rewrite F1, F2.
  pose proof (size_pos a) as Za. pose proof (size_pos d) as Zd. cbn [size] in Sz.
  assert (Fin : forall t rest F lst L, consp rest = false -> fine false rest = true -> size rest < n -> exists i, finish (process n) t rest F lst L = Some i).
  { intros t rest F lst L C Fr0 Sz0. unfold finish.
    destruct (IH rest Sz0) as [i Hi]; [destruct rest; try discriminate; reflexivity |]. rewrite Hi. cbn [option_map].
    destruct (nonnil rest || _); match goal with |- context[if is Quote ?x then _ else _] => destruct (is Quote x) end; eauto. }
  assert (Lo : forall rest, size rest <= n -> fine false rest = true -> forall F lst L, exists i, loop (process n) (Cons a d) rest F lst L = Some i).
  { induction rest as [| x | z | a0 _ d0 IHd | l]; intros Sz0 Fr0 F lst L; try discriminate.
    - apply Fin; auto. cbn [size] in *. lia.
    - apply Fin; auto. cbn [size] in *. lia.
    - apply Fin; auto. cbn [size] in *. lia.
    - cbn [loop]. cbn [fine] in Fr0. cbn [size] in Sz0. destruct (is SUnquote a0) eqn:U0.
      + destruct n as [| n']; [lia |]. change (process (S n') (mklist [Sym SSplice; nth1 (Cons a0 d0)])) with (Some (2, nth1 (Cons a0 d0))).
        destruct (add_any (2, nth1 (Cons a0 d0)) F lst L) as [F' [lst' [L' A]]]. rewrite A. apply Fin; auto. cbn. lia.
      + apply andb_prop in Fr0. destruct Fr0 as [Fr0 Fd0]. apply andb_prop in Fr0. destruct Fr0 as [Fr0 Fa0].
        assert (Pa : exists i, process n a0 = Some i).
        { destruct (as_splice a0) as [f |] eqn:As.
          - rewrite (as_splice_shape _ _ As). destruct n as [| n']; [lia |]. eexists. reflexivity.
          - apply IH; [lia | auto]. }
        destruct Pa as [i Pa]. rewrite Pa. destruct (add_any i F lst L) as [F' [lst' [L' A]]]. rewrite A. apply IHd; [lia | auto]. }
  apply Lo; [cbn [size]; lia |]. cbn [fine]. rewrite U, F1, F2, Fa, Fd. reflexivity.
Qed.

Lemma backquote_ok : forall n t, size t < n -> fine true t = true ->
  exists f, backquote n t = Some f /\ forall s, agrees (inst s t) (E s f).
Proof.
  intros n t Sz Ft. destruct (process_some n t Sz Ft) as [i H]. exists (snd i). split; [unfold backquote; rewrite H; reflexivity |].
  destruct (process_good _ _ _ Ft H) as [G1 [G2 [T | T]]]; intros s.
  - destruct (G1 T) as [C1 [C2 C3]]. rewrite constb_inst by auto. cbn. rewrite C2, C3. reflexivity.
  - apply G2. auto.
Qed.
End P.
